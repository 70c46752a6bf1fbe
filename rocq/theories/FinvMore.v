From Coq Require Import Reals ZArith Lia Lra Bool.
From Flocq Require Import Core Relative BinarySingleNaN.
From Verif Require Import FmaModel FmaSpec FmaProofs FquadModel FquadSpec FquadProofs FquadMore FvecModel FvecSpec FvecProofs FvecMore FvecAcc FinvModel FinvSpec FinvProofs.
Open Scope R_scope.

Section Inv.
Variable prec emax : Z.
Context {Hp : Prec_gt_0 prec} {He : Prec_lt_emax prec emax}.
Notation float := (binary_float prec emax).
Notation matrix := (nat -> nat -> float).
Notation pw := (bpow radix2).
Notation emin' := (FmaSpec.emin prec emax).
Notation fexp' := (FLT_exp emin' prec).
Notation RNE := (rn fexp' (fun t => negb (Z.even t))).
Notation M := (pw emax).
Notation u := (pw (- prec)).
Notation div := (fl_div prec emax).
Notation zero := (fl_lit prec emax 0 0).
Let VT : Valid_exp fexp' := FLT_exp_valid emin' prec.

Lemma u32 : (5 <= prec)%Z -> 0 < u <= / 32. Proof. intros H. split; [apply bpow_gt_0|]. change (/ 32) with (pw (- (5))). apply bpow_le. lia. Qed.
(** Products with a computed minor p of the exact value P. *)
Lemma minor_product (x p : float) (P : R) : (5 <= prec)%Z -> Rabs (B2R p - P) <= 3 * u * Rabs P -> roomy prec emax (B2R x * P) ->
  not_tiny prec emax (B2R x * B2R p) /\ Rabs (B2R x * B2R p) <= pw (emax - 3) /\ Rabs (B2R x * B2R p - B2R x * P) <= 3 * u * Rabs (B2R x * P).
Proof.
  intros P5 H R. pose proof (u32 P5) as U. set (X := B2R x) in *. set (q := B2R p) in *.
  assert (E : Rabs (X * q - X * P) <= 3 * u * Rabs (X * P)). { replace (X * q - X * P) with (X * (q - P)) by ring. rewrite !Rabs_mult. replace (3 * u * (Rabs X * Rabs P)) with (Rabs X * (3 * u * Rabs P)) by ring. apply Rmult_le_compat_l; [apply Rabs_pos|exact H]. }
  pose proof (Rabs_pos (X * P)) as A. assert (E2 : 3 * u * Rabs (X * P) <= / 2 * Rabs (X * P)) by (apply Rmult_le_compat_r; lra).
  destruct R as [Z|(R1 & R2)].
  - rewrite Z, Rabs_R0, Rmult_0_r, Rminus_0_r in E. pose proof (Rabs_pos (X * q)). assert (Zq : X * q = 0) by (destruct (Req_dec (X * q) 0) as [G|G]; [exact G|apply Rabs_pos_lt in G; lra]). rewrite Zq, Z, Rminus_0_r, Rabs_R0. split; [now left|]. split; [apply bpow_ge_0|lra].
  - pose proof (Rabs_triang_inv (X * P) (X * P - X * q)) as T. replace (X * P - (X * P - X * q)) with (X * q) in T by ring. rewrite (Rabs_minus_sym (X * P) (X * q)) in T. pose proof (Rabs_triang (X * q - X * P) (X * P)) as T2. replace (X * q - X * P + X * P) with (X * q) in T2 by ring.
    assert (B1 : pw (emin' + 2 * prec) = 2 * pw (emin' + 2 * prec - 1)) by (change 2 with (pw 1); rewrite <- bpow_plus; f_equal; ring). assert (B2 : pw (emax - 3) = 2 * pw (emax - 4)) by (change 2 with (pw 1); rewrite <- bpow_plus; f_equal; ring).
    split; [right; lra|]. split; [lra|exact E].
Qed.
Lemma weighted_minors (x y z p q r : float) (P Q R : R) : (5 <= prec)%Z -> (3 <= emax)%Z -> is_finite x = true -> is_finite y = true -> is_finite z = true -> is_finite p = true -> is_finite q = true -> is_finite r = true ->
  Rabs (B2R p - P) <= 3 * u * Rabs P -> Rabs (B2R q - Q) <= 3 * u * Rabs Q -> Rabs (B2R r - R) <= 3 * u * Rabs R -> roomy prec emax (B2R x * P) -> roomy prec emax (B2R y * Q) -> roomy prec emax (B2R z * R) ->
  is_finite (fl_cofac x p y q z r) = true /\ Rabs (B2R (fl_cofac x p y q z r) - (B2R x * P - B2R y * Q + B2R z * R)) <= 10 * u * (Rabs (B2R x * P) + Rabs (B2R y * Q) + Rabs (B2R z * R)).
Proof.
  intros P5 E3 Fx Fy Fz Fp Fq Fr Hp1 Hq Hr Rx Ry Rz. pose proof (u32 P5) as U. destruct (minor_product x p P P5 Hp1 Rx) as (N1 & B1 & E1). destruct (minor_product y q Q P5 Hq Ry) as (N2 & B2 & E2). destruct (minor_product z r R P5 Hr Rz) as (N3 & B3 & E4).
  destruct (diff_finite prec emax x p y q E3 Fx Fp Fy Fq B1 B2) as (Ft & _).
  assert (F : is_finite (fl_cofac x p y q z r) = true).
  { unfold fl_cofac, fl_multiply_add. refine (proj1 (fma_runs prec emax z r _ Fz Fr Ft _)). pose proof (diff_accurate prec emax x p y q Fx Fp Fy Fq Ft N2) as (_ & A). set (t := B2R (fl_diff_of_products x p y q)) in *. set (a := B2R x * B2R p) in *. set (b := B2R y * B2R q) in *. set (c := B2R z * B2R r) in *.
    assert (Lt : Rabs (a - b) <= 2 * pw (emax - 3)). { unfold Rminus. eapply Rle_trans; [apply Rabs_triang|]. rewrite Rabs_Ropp. lra. }
    assert (Bt : Rabs (c + t) <= pw (emax - 1)).
    { replace (c + t) with (c + ((a - b) + (t - (a - b)))) by ring. eapply Rle_trans; [apply Rabs_triang|]. pose proof (Rabs_triang (a - b) (t - (a - b))). assert (pw (emax - 1) = 4 * pw (emax - 3)). { change 4 with (pw 2). rewrite <- bpow_plus. f_equal. ring. }
      assert (Lt2 : 3 / 2 * unit_last_place prec emax (a - b) <= pw (emax - 3)).
      { unfold unit_last_place. pose proof (ulp_any prec emax (a - b)) as G. assert (G2 : Rmax (2 * u * Rabs (a - b)) (pw emin') <= / 2 * pw (emax - 3)); [|pose proof (bpow_gt_0 radix2 (emax - 3)); lra]. apply Rmax_lub.
        - apply Rle_trans with (2 * u * (2 * pw (emax - 3))); [apply Rmult_le_compat_l; lra|]. pose proof (bpow_gt_0 radix2 (emax - 3)). assert (4 * u * pw (emax - 3) <= / 2 * pw (emax - 3)) by (apply Rmult_le_compat_r; lra). lra.
        - replace (/ 2 * pw (emax - 3)) with (pw (emax - 4)); [apply bpow_le; unfold FmaSpec.emin; pose proof (@prec_lt_emax prec emax He); lia|]. change (/ 2) with (pw (-1)). rewrite <- bpow_plus. f_equal. ring. }
      lra. }
    apply Rle_lt_trans with (pw (emax - 1)); [|apply bpow_lt; lia]. apply abs_round_le_generic; [exact VT|apply valid_rnd_N| |exact Bt]. apply generic_format_FLT_bpow; [exact Hp|]. unfold FmaSpec.emin. pose proof (@prec_lt_emax prec emax He). lia. }
  split; [exact F|]. pose proof (cofac_error prec emax x p y q z r ltac:(lia) Fx Fp Fy Fq Fz Fr F N1 N2 N3) as A. set (a := B2R x * B2R p) in *. set (b := B2R y * B2R q) in *. set (c := B2R z * B2R r) in *. set (a' := B2R x * P) in *. set (b' := B2R y * Q) in *. set (c' := B2R z * R) in *. set (v := B2R (fl_cofac x p y q z r)) in *.
  set (W := Rabs a' + Rabs b' + Rabs c'). pose proof (Rabs_pos a'). pose proof (Rabs_pos b'). pose proof (Rabs_pos c'). assert (W0 : 0 <= W) by (unfold W; lra).
  assert (S1 : Rabs a + Rabs b + Rabs c <= (1 + 3 * u) * W). { pose proof (Rabs_triang (a - a') a') as T1. pose proof (Rabs_triang (b - b') b') as T2. pose proof (Rabs_triang (c - c') c') as T3. replace (a - a' + a') with a in T1 by ring. replace (b - b' + b') with b in T2 by ring. replace (c - c' + c') with c in T3 by ring. unfold W. lra. }
  replace (v - (a' - b' + c')) with ((v - (a - b + c)) + ((a - a') - (b - b') + (c - c'))) by ring. eapply Rle_trans; [apply Rabs_triang|]. assert (T : Rabs (a - a' - (b - b') + (c - c')) <= 3 * u * W). { eapply Rle_trans; [apply Rabs_triang|]. unfold Rminus at 1. pose proof (Rabs_triang (a - a') (- (b - b'))) as T. rewrite Rabs_Ropp in T. unfold W. lra. }
  assert (6 * u * (Rabs a + Rabs b + Rabs c) <= 6 * u * ((1 + 3 * u) * W)) by (apply Rmult_le_compat_l; lra). assert (Q1 : u * W * (18 * u) <= u * W * 1) by (apply Rmult_le_compat_l; [apply Rmult_le_pos; lra|lra]). lra.
Qed.
(** ** The determinant *)
Lemma element_finite (m : matrix) i k : safe_minors m -> (i < 3)%nat -> (k < 3)%nat -> is_finite (m i k) = true.
Proof. intros S I K. set (i' := match i with O => 1%nat | _ => O end). set (k' := match k with O => 1%nat | _ => O end). apply (S i i' k k' I); unfold i', k'; destruct i, k; lia. Qed.
Lemma minor_runs (m : matrix) i i' k k' : (3 <= emax)%Z -> safe_minors m -> (i < 3)%nat -> (i' < 3)%nat -> (k < 3)%nat -> (k' < 3)%nat -> i <> i' -> k <> k' -> let d := fl_det2 (m i k) (m i k') (m i' k) (m i' k') in let D := exact_det2 (B2R (m i k)) (B2R (m i k')) (B2R (m i' k)) (B2R (m i' k')) in
  is_finite d = true /\ Rabs (B2R d - D) <= 3 * u * Rabs D.
Proof. intros E3 S I I' K K' N N'. exact (det2_runs prec emax _ _ _ _ E3 (S i i' k k' I I' K K' N N')). Qed.
Lemma det3_accurate (m : matrix) : (5 <= prec)%Z -> (3 <= emax)%Z -> safe_minors m -> (forall k, (k < 3)%nat -> roomy prec emax (B2R (m 0%nat k) * minor (real_matrix m) 0 k)) ->
  is_finite (fl_det3 m) = true /\ Rabs (B2R (fl_det3 m) - exact_det3 (real_matrix m)) <= 10 * u * row_size (real_matrix m).
Proof.
  intros P5 E3 S R. pose proof (element_finite m 0 0 S ltac:(lia) ltac:(lia)) as F0. pose proof (element_finite m 0 1 S ltac:(lia) ltac:(lia)) as F1. pose proof (element_finite m 0 2 S ltac:(lia) ltac:(lia)) as F2.
  destruct (minor_runs m 1 2 1 2 E3 S) as (Fp & Ep); try lia. destruct (minor_runs m 1 2 0 2 E3 S) as (Fq & Eq); try lia. destruct (minor_runs m 1 2 0 1 E3 S) as (Fr & Er); try lia.
  exact (weighted_minors _ _ _ _ _ _ _ _ _ P5 E3 F0 F1 F2 Fp Fq Fr Ep Eq Er (R 0%nat ltac:(lia)) (R 1%nat ltac:(lia)) (R 2%nat ltac:(lia))).
Qed.
Lemma det_swap (a b c d : R) : exact_det2 d c b a = exact_det2 a b c d. Proof. unfold exact_det2. ring. Qed.
Lemma column_expansion M : M 0%nat 0%nat * minor M 0 0 - M 1%nat 0%nat * minor M 1 0 + M 2%nat 0%nat * minor M 2 0 = exact_det3 M.
Proof. unfold exact_det3, minor, exact_det2, skip. cbn [Nat.ltb Nat.leb]. ring. Qed.
Lemma inv3_det_accurate (m : matrix) : (5 <= prec)%Z -> (3 <= emax)%Z -> safe_minors m -> (forall i, (i < 3)%nat -> roomy prec emax (B2R (m i 0%nat) * minor (real_matrix m) i 0)) ->
  is_finite (fl_inv3_det m) = true /\ Rabs (B2R (fl_inv3_det m) - exact_det3 (real_matrix m)) <= 10 * u * column_size (real_matrix m).
Proof.
  intros P5 E3 S R. pose proof (element_finite m 0 0 S ltac:(lia) ltac:(lia)) as F0. pose proof (element_finite m 1 0 S ltac:(lia) ltac:(lia)) as F1. pose proof (element_finite m 2 0 S ltac:(lia) ltac:(lia)) as F2.
  destruct (minor_runs m 2 1 2 1 E3 S) as (Fp & Ep); try lia. destruct (minor_runs m 2 0 2 1 E3 S) as (Fq & Eq); try lia. destruct (minor_runs m 1 0 2 1 E3 S) as (Fr & Er); try lia.
  rewrite det_swap in Ep, Eq, Er. rewrite <- column_expansion.
  exact (weighted_minors _ _ _ _ _ _ _ _ _ P5 E3 F0 F1 F2 Fp Fq Fr Ep Eq Er (R 0%nat ltac:(lia)) (R 1%nat ltac:(lia)) (R 2%nat ltac:(lia))).
Qed.
(** ** The inverse *)
Definition adjoint (N : nat -> nat -> R) (r k : nat) : R := if Nat.even (r + k) then minor N k r else - minor N k r.
Lemma adj_runs (m : matrix) r k : (3 <= emax)%Z -> safe_minors m -> (r < 3)%nat -> (k < 3)%nat -> is_finite (fl_adj m r k) = true /\ Rabs (B2R (fl_adj m r k) - adjoint (real_matrix m) r k) <= 3 * u * Rabs (adjoint (real_matrix m) r k).
Proof.
  intros E3 S L K. assert (W : forall i i' j j', (i < 3)%nat -> (i' < 3)%nat -> (j < 3)%nat -> (j' < 3)%nat -> i <> i' -> j <> j' -> forall A, exact_det2 (B2R (m i j)) (B2R (m i j')) (B2R (m i' j)) (B2R (m i' j')) = A ->
    is_finite (fl_det2 (m i j) (m i j') (m i' j) (m i' j')) = true /\ Rabs (B2R (fl_det2 (m i j) (m i j') (m i' j) (m i' j')) - A) <= 3 * u * Rabs A). { intros i i' j j' L1 L2 L3 L4 L5 L6 A <-. now apply minor_runs. }
  destruct r as [|[|[|r]]]; [| | |lia]; (destruct k as [|[|[|k]]]; [| | |lia]); unfold fl_adj; (apply W; [lia|lia|lia|lia|lia|lia|]); unfold adjoint, minor, exact_det2, real_matrix, skip; cbn [Nat.ltb Nat.leb Nat.even Nat.add]; ring.
Qed.
Lemma cramer (N X : nat -> nat -> R) : is_inverse 3 N X -> forall i j, (i < 3)%nat -> (j < 3)%nat -> exact_det3 N * X i j = adjoint N i j.
Proof.
  intros H i j I J. pose proof (H 0%nat j ltac:(lia) J) as H0. pose proof (H 1%nat j ltac:(lia) J) as H1. pose proof (H 2%nat j ltac:(lia) J) as H2. cbn [sum_to] in H0, H1, H2.
  assert (E : exact_det3 N * X i j = adjoint N i 0 * (if Nat.eqb 0 j then 1 else 0) + adjoint N i 1 * (if Nat.eqb 1 j then 1 else 0) + adjoint N i 2 * (if Nat.eqb 2 j then 1 else 0)).
  { rewrite <- H0, <- H1, <- H2. destruct i as [|[|[|i]]]; [| | |lia]; unfold adjoint, exact_det3, minor, exact_det2, skip; cbn [Nat.ltb Nat.leb Nat.even Nat.add]; ring. }
  rewrite E. destruct j as [|[|[|j]]]; [| | |lia]; cbn [Nat.eqb]; ring.
Qed.
Lemma inverse2_iff (N : nat -> nat -> R) : (exists X, is_inverse 2 N X) <-> exact_det2 (N 0%nat 0%nat) (N 0%nat 1%nat) (N 1%nat 0%nat) (N 1%nat 1%nat) <> 0.
Proof.
  split.
  - intros (X & H) G. pose proof (H 0%nat 0%nat ltac:(lia) ltac:(lia)) as H0. pose proof (H 0%nat 1%nat ltac:(lia) ltac:(lia)) as H1. pose proof (H 1%nat 0%nat ltac:(lia) ltac:(lia)) as H2. pose proof (H 1%nat 1%nat ltac:(lia) ltac:(lia)) as H3. cbn [sum_to Nat.eqb] in H0, H1, H2, H3.
    assert (T : exact_det2 (N 0%nat 0%nat) (N 0%nat 1%nat) (N 1%nat 0%nat) (N 1%nat 1%nat) * exact_det2 (X 0%nat 0%nat) (X 0%nat 1%nat) (X 1%nat 0%nat) (X 1%nat 1%nat) = 1); [|rewrite G in T; lra].
    transitivity (exact_det2 (N 0%nat 0%nat * X 0%nat 0%nat + N 0%nat 1%nat * X 1%nat 0%nat) (N 0%nat 0%nat * X 0%nat 1%nat + N 0%nat 1%nat * X 1%nat 1%nat) (N 1%nat 0%nat * X 0%nat 0%nat + N 1%nat 1%nat * X 1%nat 0%nat) (N 1%nat 0%nat * X 0%nat 1%nat + N 1%nat 1%nat * X 1%nat 1%nat)); [unfold exact_det2; ring|]. rewrite H0, H1, H2, H3. unfold exact_det2. ring.
  - set (D := exact_det2 _ _ _ _). intros ND. exists (fun i j => match i, j with O, O => N 1%nat 1%nat / D | O, _ => - N 0%nat 1%nat / D | _, O => - N 1%nat 0%nat / D | _, _ => N 0%nat 0%nat / D end).
    intros [|[|i]] [|[|j]] I J; try lia; cbn [sum_to Nat.eqb]; unfold D in *; unfold exact_det2 in *; field; exact ND.
Qed.
Lemma inverse3_det (N X : nat -> nat -> R) : is_inverse 3 N X -> exact_det3 N <> 0.
Proof.
  intros HX G. pose proof (HX 0%nat 0%nat ltac:(lia) ltac:(lia)) as H0. pose proof (HX 0%nat 1%nat ltac:(lia) ltac:(lia)) as H01. pose proof (HX 0%nat 2%nat ltac:(lia) ltac:(lia)) as H02. pose proof (HX 1%nat 0%nat ltac:(lia) ltac:(lia)) as H10. pose proof (HX 1%nat 1%nat ltac:(lia) ltac:(lia)) as H11. pose proof (HX 1%nat 2%nat ltac:(lia) ltac:(lia)) as H12. pose proof (HX 2%nat 0%nat ltac:(lia) ltac:(lia)) as H20. pose proof (HX 2%nat 1%nat ltac:(lia) ltac:(lia)) as H21. pose proof (HX 2%nat 2%nat ltac:(lia) ltac:(lia)) as H22.
  cbn [sum_to Nat.eqb] in *. assert (T : exact_det3 N * exact_det3 X = 1); [|rewrite G in T; lra].
  transitivity (exact_det3 (fun i j => N i 0%nat * X 0%nat j + N i 1%nat * X 1%nat j + N i 2%nat * X 2%nat j)); [unfold exact_det3, minor, exact_det2, skip; cbn [Nat.ltb Nat.leb]; ring|].
  unfold exact_det3, minor, exact_det2, skip; cbn [Nat.ltb Nat.leb]. rewrite H0, H01, H02, H10, H11, H12, H20, H21, H22. ring.
Qed.
Lemma inv2_singular (m : matrix) : (4 <= prec)%Z -> (3 <= emax)%Z -> safe_det2 (m 0%nat 0%nat) (m 0%nat 1%nat) (m 1%nat 0%nat) (m 1%nat 1%nat) -> (fl_inv2 m = None <-> ~ exists X, is_inverse 2 (real_matrix m) X).
Proof.
  intros P4 E3 S. destruct (inv2_accurate prec emax m P4 E3 S) as (H & _). rewrite H, inverse2_iff. unfold real_matrix. set (D := exact_det2 _ _ _ _). destruct (Req_dec D 0); tauto.
Qed.
Lemma inv3_refuses (m : matrix) : (5 <= prec)%Z -> (3 <= emax)%Z -> safe_minors m -> (forall i, (i < 3)%nat -> roomy prec emax (B2R (m i 0%nat) * minor (real_matrix m) i 0)) ->
  fl_inv3 m = None -> Rabs (exact_det3 (real_matrix m)) <= 10 * u * column_size (real_matrix m).
Proof.
  intros P5 E3 S R. destruct (inv3_det_accurate m P5 E3 S R) as (F & A). unfold fl_inv3. destruct (fl_eqb prec emax (fl_inv3_det m) zero) eqn:Q; [|discriminate]. intros _. apply (eqb_zero' prec emax _ F) in Q. rewrite Q, Rminus_0_l, Rabs_Ropp in A. exact A.
Qed.
Lemma inv3_accurate (m : matrix) (X : nat -> nat -> R) (k : R) : (5 <= prec)%Z -> (3 <= emax)%Z -> safe_minors m -> (forall i, (i < 3)%nat -> roomy prec emax (B2R (m i 0%nat) * minor (real_matrix m) i 0)) ->
  is_inverse 3 (real_matrix m) X -> (forall i j, (i < 3)%nat -> (j < 3)%nat -> representable prec emax (X i j)) -> 0 <= k <= / 8 -> 10 * u * column_size (real_matrix m) <= k * Rabs (exact_det3 (real_matrix m)) ->
  exists n, fl_inv3 m = Some n /\ forall i j, (i < 3)%nat -> (j < 3)%nat -> is_finite (n i j) = true /\ Rabs (B2R (n i j) - X i j) <= (2 * k + 5 * u) * Rabs (X i j).
Proof.
  intros P5 E3 S R HX HR K C. pose proof (u32 P5) as U. destruct (inv3_det_accurate m P5 E3 S R) as (F & A). set (D := exact_det3 (real_matrix m)) in *. set (det := fl_inv3_det m) in *. assert (A2 : Rabs (B2R det - D) <= k * Rabs D) by lra.
  pose proof (inverse3_det _ X HX) as ND. fold D in ND.
  assert (NZ : B2R det <> 0). { intros G. rewrite G, Rminus_0_l, Rabs_Ropp in A2. apply Rabs_pos_lt in ND. assert (k * Rabs D <= / 8 * Rabs D) by (apply Rmult_le_compat_r; lra). lra. }
  unfold fl_inv3. fold det. destruct (fl_eqb prec emax det zero) eqn:Q; [apply (eqb_zero' prec emax _ F) in Q; contradiction|]. eexists. split; [reflexivity|]. cbv beta. intros i j I J.
  destruct (adj_runs m i j E3 S I J) as (Fa & Ea). pose proof (cramer _ X HX i j I J) as Ce. fold D in Ce. assert (Ex : X i j = adjoint (real_matrix m) i j / D) by (rewrite <- Ce; field; exact ND).
  destruct (quotient_error (adjoint (real_matrix m) i j) D (B2R (fl_adj m i j)) (B2R det) (3 * u) k ND ltac:(lra) ltac:(lra) Ea A2) as (_ & Qe). rewrite <- Ex in Qe. set (K' := (3 * u + k) / (1 - k)) in *.
  assert (KK : 0 <= K' <= 8 / 7 * (3 * u + k)). { unfold K'. assert (I1 : 0 < 1 - k) by lra. split; [apply Rmult_le_pos; [lra|left; now apply Rinv_0_lt_compat]|]. apply (Rmult_le_reg_r (1 - k)); [exact I1|]. unfold Rdiv. rewrite Rmult_assoc, Rinv_l by lra. rewrite Rmult_1_r. replace (8 * / 7 * (3 * u + k) * (1 - k)) with ((3 * u + k) * (8 * / 7 * (1 - k))) by ring. rewrite <- (Rmult_1_r (3 * u + k)) at 1. apply Rmult_le_compat_l; lra. }
  destruct (rounded_quotient prec emax (fl_adj m i j) det (X i j) K' ltac:(lia) Fa F NZ (HR i j I J) ltac:(lra) Qe) as (Fq & Vq). split; [exact Fq|]. eapply Rle_trans; [exact Vq|]. apply Rmult_le_compat_r; [apply Rabs_pos|]. assert (u * K' <= u * / 4) by (apply Rmult_le_compat_l; lra). lra.
Qed.
End Inv.
