From Coq Require Import Reals ZArith Lia Lra Bool.
From Flocq Require Import Core BinarySingleNaN.
From Verif Require Import FmaModel FmaSpec FmaProofs FquadModel FquadProofs FquadMore FvecModel FvecSpec FvecProofs FvecMore FinvProofs FsolveSpec FsolveProofs FsolveMore FprojModel FprojSpec.
Open Scope R_scope.

Section Proj.
Variable prec emax : Z.
Context {Hp : Prec_gt_0 prec} {He : Prec_lt_emax prec emax}.
Notation float := (binary_float prec emax).
Notation vector := (nat -> float).
Notation pw := (bpow radix2).
Notation emin' := (FmaSpec.emin prec emax).
Notation fexp' := (FLT_exp emin' prec).
Notation RNE := (rn fexp' (fun t => negb (Z.even t))).
Notation u := (pw (- prec)).
Notation st := (step prec).
Notation h := (pw (emin' - 1)).
Notation err := (sum_error prec emax).
Lemma mul_error (x y : float) : is_finite (fl_mul prec emax x y) = true -> is_finite x = true /\ is_finite y = true /\ Rabs (B2R (fl_mul prec emax x y) - B2R x * B2R y) <= u * Rabs (B2R x * B2R y) + h.
Proof.
  intros F. destruct (mul_finite prec emax x y F) as (Fx & Fy & V). split; [exact Fx|]. split; [exact Fy|]. rewrite V. set (z := B2R x * B2R y).
  pose proof (error_le_half_ulp radix2 fexp' (fun t => negb (Z.even t)) z) as E. change (round radix2 fexp' (Znearest (fun t => negb (Z.even t))) z) with (RNE z) in E. pose proof (ulp_any prec emax z) as A.
  assert (W : / 2 * pw emin' = h) by (replace emin' with (emin' - 1 + 1)%Z at 1 by lia; rewrite bpow_plus; change (pw 1) with 2; lra). assert (H0 : 0 < h) by apply bpow_gt_0. assert (0 <= u * Rabs z) by (apply Rmult_le_pos; [apply bpow_ge_0|apply Rabs_pos]).
  unfold Rmax in A. destruct (Rle_dec _ _); lra.
Qed.
Lemma mag2_dot N (v : vector) : fl_mag2 N v = fl_dot N v v.
Proof. induction N as [|n IH]; [reflexivity|]. cbn [fl_mag2 fl_dot]. now rewrite IH. Qed.
Lemma sizes_self N (v : vector) : sum_of_sizes N v v = exact_dot N v v.
Proof. unfold sum_of_sizes, exact_dot. apply total_ext. intros i _. apply Rabs_right, Rle_ge, Rle_0_sqr. Qed.
Lemma self_nonneg N (v : vector) : 0 <= exact_dot N v v.
Proof. apply total_nonneg. intros. apply Rle_0_sqr. Qed.
Lemma dot_size N (v w : vector) : Rabs (exact_dot N v w) <= sum_of_sizes N v w. Proof. apply total_abs. Qed.
Lemma err_nonneg k s : 0 <= s -> 0 <= err k s.
Proof.
  intros H. unfold sum_error. assert (1 <= st ^ k) by (apply pow_R1_Rle, step_ge). assert (0 < h) by apply bpow_gt_0. pose proof (pos_INR k). assert (0 <= INR k * st ^ k * h) by (repeat apply Rmult_le_pos; lra). assert (0 <= (st ^ k - 1) * s) by (apply Rmult_le_pos; lra). lra.
Qed.
(** One more rounding. *)
Lemma err_next k s : 0 <= s -> err k s + u * (s + err k s) <= err (S k) s.
Proof.
  intros H. unfold sum_error. rewrite S_INR. cbn [pow]. set (q := st ^ k). assert (Q : 1 <= q) by (apply pow_R1_Rle, step_ge). assert (H0 : 0 < h) by apply bpow_gt_0. pose proof (step_ge prec) as S1. assert (0 <= st * q * h) by (repeat apply Rmult_le_pos; lra).
  replace ((st * q - 1) * s + (INR k + 1) * (st * q) * h) with ((q - 1) * s + INR k * q * h + u * (s + ((q - 1) * s + INR k * q * h)) + st * q * h) by (unfold step; ring). lra.
Qed.
Lemma near_size (x y e s : R) : Rabs (x - y) <= e -> Rabs y <= s -> Rabs x <= s + e.
Proof. intros A B. replace x with ((x - y) + y) by ring. eapply Rle_trans; [apply Rabs_triang|]. lra. Qed.
Lemma fraction_error N (x a : vector) : (forall i, (i < N)%nat -> is_finite (x i) = true /\ is_finite (a i) = true) -> is_finite (fl_mag2 N a) = true -> is_finite (fl_fraction_on N x a) = true ->
  let f := B2R (fl_fraction_on N x a) in
  Rabs (exact_dot N x a - f * exact_dot N a a) <= err N (sum_of_sizes N x a) + Rabs f * err (S N) (exact_dot N a a) + (exact_dot N a a + err N (exact_dot N a a)) * h.
Proof.
  intros F FM FF f. unfold fl_fraction_on in FF. destruct (div_accurate prec emax _ _ FM FF) as (_ & FD & D). fold (fl_fraction_on N x a) in D. fold f in D.
  pose proof (dot_accurate prec emax N x a F FD) as A. rewrite mag2_dot in FM. pose proof (dot_accurate prec emax N a a (fun i I => conj (proj2 (F i I)) (proj2 (F i I))) FM) as B. rewrite sizes_self in B. rewrite mag2_dot in D.
  change (Rabs (B2R (fl_dot N x a) - exact_dot N x a) <= err N (sum_of_sizes N x a)) in A. change (Rabs (B2R (fl_dot N a a) - exact_dot N a a) <= err N (exact_dot N a a)) in B.
  set (E := exact_dot N a a) in *. assert (E0 : 0 <= E) by apply self_nonneg. set (M := B2R (fl_dot N a a)) in *. set (dt := B2R (fl_dot N x a)) in *. set (X := exact_dot N x a) in *.
  assert (SM : Rabs M <= E + err N E) by (apply (near_size M E); [exact B|rewrite Rabs_pos_eq; lra]). pose proof (err_next N E E0) as NX. assert (H0 : 0 < h) by apply bpow_gt_0. assert (U : 0 < u) by apply bpow_gt_0.
  replace (X - f * E) with (- (dt - X) + (dt - f * M) + f * (M - E)) by ring. eapply Rle_trans; [apply Rabs_triang|]. rewrite Rabs_mult. pose proof (Rabs_triang (- (dt - X)) (dt - f * M)) as T. rewrite Rabs_Ropp in T. rewrite Rabs_mult in D.
  pose proof (Rmult_le_compat_l (Rabs f) _ _ (Rabs_pos f) B) as B'. pose proof (Rmult_le_compat_r h _ _ (Rlt_le _ _ H0) SM) as SM'. pose proof (Rmult_le_compat_l (Rabs f * u) _ _ (Rmult_le_pos _ _ (Rabs_pos f) (Rlt_le _ _ U)) SM) as SMu. pose proof (Rmult_le_compat_l (Rabs f) _ _ (Rabs_pos f) NX) as NX'. lra.
Qed.
Lemma project_error N (x a : vector) : (forall i, (i < N)%nat -> is_finite (x i) = true /\ is_finite (a i) = true) -> is_finite (fl_mag2 N a) = true -> B2R (fl_mag2 N a) <> 0 ->
  forall k, is_finite (fl_project_on N x a k) = true -> let p := B2R (fl_project_on N x a k) in
  Rabs (p * exact_dot N a a - B2R (a k) * exact_dot N x a) <= Rabs p * err (S N) (exact_dot N a a) + Rabs (B2R (a k)) * err (S N) (sum_of_sizes N x a) + (exact_dot N a a + err N (exact_dot N a a) + 1) * h.
Proof.
  intros F FM NZ k. assert (EP : fl_project_on N x a k = fl_div prec emax (fl_mul prec emax (a k) (fl_dot N x a)) (fl_mag2 N a)). { unfold fl_project_on. cbv zeta. rewrite (feqb_zero prec emax _ FM). rewrite Req_bool_false by exact NZ. reflexivity. }
  rewrite EP. intros FP p. destruct (div_accurate prec emax _ _ FM FP) as (_ & FT & D). fold p in D. destruct (mul_error _ _ FT) as (FA & FD & T).
  pose proof (dot_accurate prec emax N x a F FD) as A. rewrite mag2_dot in FM. pose proof (dot_accurate prec emax N a a (fun i I => conj (proj2 (F i I)) (proj2 (F i I))) FM) as B. rewrite sizes_self in B. rewrite mag2_dot in D.
  change (Rabs (B2R (fl_dot N x a) - exact_dot N x a) <= err N (sum_of_sizes N x a)) in A. change (Rabs (B2R (fl_dot N a a) - exact_dot N a a) <= err N (exact_dot N a a)) in B. clearbody p.
  pose proof (dot_size N x a) as XS. assert (S0 : 0 <= sum_of_sizes N x a) by (eapply Rle_trans; [apply Rabs_pos|exact XS]). set (s := sum_of_sizes N x a) in *.
  set (E := exact_dot N a a) in *. assert (E0 : 0 <= E) by apply self_nonneg. set (M := B2R (fl_dot N a a)) in *. set (t := B2R (fl_mul prec emax (a k) (fl_dot N x a))) in *. set (dt := B2R (fl_dot N x a)) in *. set (X := exact_dot N x a) in *. set (ak := B2R (a k)) in *.
  assert (SM : Rabs M <= E + err N E) by (apply (near_size M E); [exact B|rewrite Rabs_pos_eq; lra]). assert (SD : Rabs dt <= s + err N s) by (apply (near_size dt X); assumption).
  pose proof (err_next N E E0) as NX. pose proof (err_next N s S0) as NS. assert (H0 : 0 < h) by apply bpow_gt_0. assert (U : 0 < u) by apply bpow_gt_0.
  replace (p * E - ak * X) with (- (p * (M - E)) + - (t - p * M) + ((t - ak * dt) + ak * (dt - X))) by ring. eapply Rle_trans; [apply Rabs_triang|].
  pose proof (Rabs_triang (- (p * (M - E))) (- (t - p * M))) as T1. pose proof (Rabs_triang (t - ak * dt) (ak * (dt - X))) as T2. rewrite !Rabs_Ropp, !Rabs_mult in T1. rewrite Rabs_mult in T2. rewrite Rabs_mult in D, T.
  pose proof (Rmult_le_compat_l (Rabs p) _ _ (Rabs_pos p) B) as B'. pose proof (Rmult_le_compat_r h _ _ (Rlt_le _ _ H0) SM) as SM'. pose proof (Rmult_le_compat_l (Rabs p * u) _ _ (Rmult_le_pos _ _ (Rabs_pos p) (Rlt_le _ _ U)) SM) as SMu. pose proof (Rmult_le_compat_l (Rabs p) _ _ (Rabs_pos p) NX) as NX'.
  pose proof (Rmult_le_compat_l (Rabs ak) _ _ (Rabs_pos ak) A) as A'. pose proof (Rmult_le_compat_l (Rabs ak * u) _ _ (Rmult_le_pos _ _ (Rabs_pos ak) (Rlt_le _ _ U)) SD) as SDu. pose proof (Rmult_le_compat_l (Rabs ak) _ _ (Rabs_pos ak) NS) as NS'. lra.
Qed.
Lemma project_zero N (x a : vector) : is_finite (fl_mag2 N a) = true -> B2R (fl_mag2 N a) = 0 -> forall k, fl_project_on N x a k = a k.
Proof. intros FM Z k. unfold fl_project_on. cbv zeta. rewrite (feqb_zero prec emax _ FM), Z, Req_bool_true by reflexivity. reflexivity. Qed.
End Proj.

