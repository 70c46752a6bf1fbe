From Coq Require Import Reals ZArith Lia Lra Bool List.
From Flocq Require Import Core Relative Plus_error BinarySingleNaN.
From Verif Require Import FmaModel FmaSpec FmaProofs FquadModel FquadSpec FquadProofs FquadMore FvecModel FvecSpec FvecProofs FvecMore FmtxModel FmtxSpec FmtxProofs FmtxMore FqnModel FqnProofs FinvProofs FcholModel FcholProofs FsolveModel FsolveSpec.
Import ListNotations.
Open Scope R_scope.

Section Solve.
Variable prec emax : Z.
Context {Hp : Prec_gt_0 prec} {He : Prec_lt_emax prec emax}.
Notation float := (binary_float prec emax).
Notation matrix := (nat -> nat -> float).
Notation pw := (bpow radix2).
Notation emin' := (FmaSpec.emin prec emax).
Notation fexp' := (FLT_exp emin' prec).
Notation RNE := (rn fexp' (fun t => negb (Z.even t))).
Notation FT := (generic_format radix2 fexp').
Notation u := (pw (- prec)).
Notation st := (step prec).
Notation h := (pw (emin' - 1)).
Notation mul := (fl_mul prec emax). Notation sub := (fl_sub prec emax). Notation div := (fl_div prec emax). Notation neg := (fl_neg prec emax).

(** ** What the loops leave *)
Definition red (row x : nat -> float) (cs : list nat) (s : float) : float := fold_left (fun s c => sub s (mul (x c) (row c))) cs s.
Lemma red_ext row x x' cs : (forall c, In c cs -> x c = x' c) -> forall s, red row x cs s = red row x' cs s.
Proof. unfold red. induction cs as [|c cs IH]; intros H s; [reflexivity|]. cbn [fold_left]. rewrite (H c) by now left. apply IH. intros; apply H; now right. Qed.
Lemma sub_terms_spec (lu : matrix) r i cs : ~ In r cs -> forall X r' i',
  fl_sub_terms lu r i cs X r' i' = if (Nat.eqb r' r && Nat.eqb i' i)%bool then red (lu r) (fun c => X c i) cs (X r i) else X r' i'.
Proof.
  unfold fl_sub_terms. induction cs as [|c cs IH]; intros N X r' i'; cbn [fold_left].
  - destruct (Nat.eqb_spec r' r) as [->|], (Nat.eqb_spec i' i) as [->|]; reflexivity.
  - rewrite IH by (intros H; apply N; now right). rewrite set_same.
    destruct (Nat.eqb_spec r' r) as [->|]; cbn [andb]; [|now apply set_row].
    destruct (Nat.eqb_spec i' i) as [->|]; [|now apply set_col]. unfold red at 2. cbn [fold_left]. apply red_ext. intros x Hx. apply set_row. intros ->. apply N. now right.
Qed.
Lemma col_loop (f : matrix -> nat -> matrix) r (g : nat -> (nat -> float) -> float) :
  (forall X i r' i', f X i r' i' = if (Nat.eqb r' r && Nat.eqb i' i)%bool then g i (fun c => X c i) else X r' i') ->
  (forall i a b, (forall c, a c = b c) -> g i a = g i b) ->
  forall k X r' i', fold_left f (seq 0 k) X r' i' = if (Nat.eqb r' r && Nat.ltb i' k)%bool then g i' (fun c => X c i') else X r' i'.
Proof.
  intros F G k X. induction k as [|k IH]; intros r' i'.
  - cbn [seq fold_left]. destruct (Nat.ltb_spec i' 0); [lia|]. now rewrite andb_false_r.
  - rewrite seq_S, fold_left_app. cbn [fold_left Nat.add]. rewrite F. destruct (Nat.eqb_spec r' r) as [->|N]; cbn [andb]; [|rewrite IH; destruct (Nat.eqb_spec r' r); [contradiction|reflexivity]].
    destruct (Nat.eqb_spec i' k) as [->|N].
    + destruct (Nat.ltb_spec k (S k)); [|lia]. apply G. intros c. rewrite IH, Nat.ltb_irrefl, andb_false_r. reflexivity.
    + rewrite IH, Nat.eqb_refl. cbn [andb]. destruct (Nat.ltb_spec i' k), (Nat.ltb_spec i' (S k)); try lia; reflexivity.
Qed.
Lemma forward_row_spec (lu : matrix) m X r r' i : fl_forward_row lu m X r r' i = if (Nat.eqb r' r && Nat.ltb i m)%bool then red (lu r) (fun c => X c i) (seq 0 r) (X r i) else X r' i.
Proof.
  unfold fl_forward_row. apply (col_loop _ r (fun _ x => red (lu r) x (seq 0 r) (x r))).
  - intros X0 i0 r0 i'. rewrite sub_terms_spec by (intros H; apply in_seq in H; lia). reflexivity.
  - intros i0 a b E. rewrite E. apply red_ext. intros; apply E.
Qed.
Lemma forward_row_plu_spec (lu : matrix) p B m X r r' i : fl_forward_row_plu lu p B m X r r' i = if (Nat.eqb r' r && Nat.ltb i m)%bool then red (lu r) (fun c => X c i) (seq 0 r) (B (p r) i) else X r' i.
Proof.
  unfold fl_forward_row_plu. apply (col_loop _ r (fun i x => red (lu r) x (seq 0 r) (B (p r) i))).
  - intros X0 i0 r0 i'. rewrite sub_terms_spec by (intros H; apply in_seq in H; lia). rewrite set_same.
    destruct (Nat.eqb_spec r0 r) as [->|]; cbn [andb]; [|now apply set_row]. destruct (Nat.eqb_spec i' i0) as [->|]; [|now apply set_col].
    apply red_ext. intros c Hc. apply in_seq in Hc. apply set_row. lia.
  - intros i0 a b E. apply red_ext. intros; apply E.
Qed.
Definition above (r n : nat) : list nat := rev (seq (S r) (n - S r)).
Lemma in_above r n c : In c (above r n) <-> (r < c < n)%nat.
Proof. unfold above. rewrite <- in_rev, in_seq. lia. Qed.
Lemma backward_row_spec (lu : matrix) n m X r r' i : fl_backward_row lu n m X r r' i = if (Nat.eqb r' r && Nat.ltb i m)%bool then div (red (lu r) (fun c => X c i) (above r n) (X r i)) (lu r r) else X r' i.
Proof.
  unfold fl_backward_row. apply (col_loop _ r (fun _ x => div (red (lu r) x (above r n) (x r)) (lu r r))).
  - intros X0 i0 r0 i'. assert (N : ~ In r (rev (seq (S r) (n - S r)))) by (intros H; apply in_above in H; lia). cbn zeta.
    destruct (Nat.eqb_spec r0 r) as [->|]; cbn [andb].
    + destruct (Nat.eqb_spec i' i0) as [->|].
      * rewrite set_same, sub_terms_spec by auto. rewrite !Nat.eqb_refl. reflexivity.
      * rewrite set_col, sub_terms_spec by auto. destruct (Nat.eqb_spec i' i0); [contradiction|]. now rewrite andb_false_r.
    + rewrite set_row, sub_terms_spec by auto. destruct (Nat.eqb_spec r0 r); [contradiction|reflexivity].
  - intros i0 a b E. rewrite E. f_equal. apply red_ext. intros; apply E.
Qed.
(** The columns of the intermediate Y. *)
Lemma forward_loop (lu : matrix) m X k : let Y := fold_left (fl_forward_row lu m) (seq 1 k) X in
  (forall r i, (k < r)%nat -> Y r i = X r i) /\ (forall r i, (r <= k)%nat -> (i < m)%nat -> Y r i = red (lu r) (fun c => Y c i) (seq 0 r) (X r i)).
Proof.
  induction k as [|k IH]; cbn zeta.
  - cbn [seq fold_left]. split; [reflexivity|]. intros r i Hr _. replace r with 0%nat by lia. reflexivity.
  - rewrite seq_S, fold_left_app. cbn [fold_left Nat.add]. cbn zeta in IH. set (Y := fold_left _ (seq 1 k) X) in *. destruct IH as [I1 I2]. split.
    + intros r i Hr. rewrite forward_row_spec. destruct (Nat.eqb_spec r (S k)); [lia|]. apply I1. lia.
    + intros r i Hr Hi. rewrite (red_ext _ _ (fun c => Y c i)) by (intros c Hc; apply in_seq in Hc; rewrite forward_row_spec; destruct (Nat.eqb_spec c (S k)); [lia|reflexivity]).
      rewrite forward_row_spec. destruct (Nat.eqb_spec r (S k)) as [->|N].
      * destruct (Nat.ltb_spec i m); [|lia]. cbn [andb]. rewrite I1 by lia. reflexivity.
      * apply I2; [lia|exact Hi].
Qed.
Lemma forward_plu_loop (lu : matrix) p B m X k : let Y := fold_left (fl_forward_row_plu lu p B m) (seq 0 k) X in
  forall r i, (r < k)%nat -> (i < m)%nat -> Y r i = red (lu r) (fun c => Y c i) (seq 0 r) (B (p r) i).
Proof.
  induction k as [|k IH]; cbn zeta; [intros; lia|].
  rewrite seq_S, fold_left_app. cbn [fold_left Nat.add]. cbn zeta in IH. set (Y := fold_left _ (seq 0 k) X) in *. intros r i Hr Hi.
  rewrite (red_ext _ _ (fun c => Y c i)) by (intros c Hc; apply in_seq in Hc; rewrite forward_row_plu_spec; destruct (Nat.eqb_spec c k); [lia|reflexivity]).
  rewrite forward_row_plu_spec. destruct (Nat.eqb_spec r k) as [->|N].
  - destruct (Nat.ltb_spec i m); [|lia]. reflexivity.
  - apply IH; [lia|exact Hi].
Qed.
Lemma backward_S (lu : matrix) n m skip X : (skip < n)%nat -> fl_backward lu n m skip X = fl_backward_row lu n m (fl_backward lu n m (S skip) X) skip.
Proof. intros H. unfold fl_backward. replace (n - skip)%nat with (S (n - S skip)) by lia. cbn [seq rev]. rewrite fold_left_app. reflexivity. Qed.
Lemma backward_same (lu : matrix) n m s X r i : (r < s)%nat -> (s <= n)%nat -> fl_backward lu n m s X r i = X r i.
Proof.
  intros Hr Hs. remember (n - s)%nat as d eqn:Ed. revert s Hr Hs Ed. induction d as [|d IH]; intros s Hr Hs Ed.
  - unfold fl_backward. rewrite <- Ed. reflexivity.
  - rewrite backward_S by lia. rewrite backward_row_spec. destruct (Nat.eqb_spec r s); [lia|]. apply IH; lia.
Qed.
Lemma backward_skip (lu : matrix) n m d : forall s X r i, (s + d <= r)%nat -> (s + d <= n)%nat -> fl_backward lu n m s X r i = fl_backward lu n m (s + d) X r i.
Proof.
  induction d as [|d IH]; intros s X r i Hr Hn; [now rewrite Nat.add_0_r|]. rewrite backward_S by lia. rewrite backward_row_spec.
  destruct (Nat.eqb_spec r s); [lia|]. cbn [andb]. rewrite (IH (S s)) by lia. now replace (S s + d)%nat with (s + S d)%nat by lia.
Qed.
Lemma backward_loop (lu : matrix) n m s Y r i : (s <= r < n)%nat -> (i < m)%nat -> let X := fl_backward lu n m s Y in
  X r i = div (red (lu r) (fun c => X c i) (above r n) (Y r i)) (lu r r).
Proof.
  intros R I X. unfold X at 1. replace r with (s + (r - s))%nat at 1 by lia. rewrite (backward_skip lu n m (r - s) s) by lia. replace (s + (r - s))%nat with r by lia. rewrite backward_S by lia. rewrite backward_row_spec, Nat.eqb_refl. destruct (Nat.ltb_spec i m); [|lia]. cbn [andb]. rewrite backward_same by lia. f_equal.
  apply red_ext. intros c C. apply in_above in C. unfold X. rewrite (backward_skip lu n m (S r - s) s) by lia. now replace (s + (S r - s))%nat with (S r) by lia.
Qed.
Lemma backward_ext (lu : matrix) n m s Y Y' i : (i < m)%nat -> (forall r, (r < n)%nat -> Y r i = Y' r i) -> forall r, (r < n)%nat -> fl_backward lu n m s Y r i = fl_backward lu n m s Y' r i.
Proof.
  intros I H. destruct (le_lt_dec n s) as [L|L]. { intros r R. unfold fl_backward. replace (n - s)%nat with 0%nat by lia. apply H. exact R. }
  remember (n - s)%nat as d eqn:Ed. revert s L Ed. induction d as [|d IH]; intros s L Ed; [lia|]. intros r R. rewrite !(backward_S lu n m s) by lia. rewrite !backward_row_spec.
  assert (G : forall r, (r < n)%nat -> fl_backward lu n m (S s) Y r i = fl_backward lu n m (S s) Y' r i).
  { destruct d as [|d]; [|apply IH; lia]. intros k K. unfold fl_backward. replace (n - S s)%nat with 0%nat by lia. apply H. exact K. }
  destruct (_ && _)%bool; [|apply G; exact R]. f_equal. rewrite G by lia. apply red_ext. intros c C. apply in_above in C. apply G. lia.
Qed.
(** The skipped rows do not change the others; and a permutation map is the same as permuted right-hand sides. *)
Lemma skipping (lu : matrix) n m skip X r i : (skip <= r < n)%nat -> fl_backsolve_lu lu n m skip X r i = fl_backsolve_lu lu n m 0 X r i.
Proof. intros R. unfold fl_backsolve_lu. symmetry. apply (backward_skip lu n m skip 0); lia. Qed.
Lemma permuted (lu : matrix) p n m skip B X r i : (r < n)%nat -> (i < m)%nat -> fl_backsolve_plu lu p n m skip B X r i = fl_backsolve_lu lu n m skip (fun r i => B (p r) i) r i.
Proof.
  intros R I. unfold fl_backsolve_plu, fl_backsolve_lu. apply backward_ext; [exact I| |exact R]. clear r R.
  pose proof (forward_plu_loop lu p B m X n) as A. destruct (forward_loop lu m (fun r i => B (p r) i) (n - 1)) as (_ & C). cbv zeta in *. set (Y := fold_left _ (seq 0 n) X) in *. set (Y' := fold_left _ (seq 1 (n - 1)) _) in *. clearbody Y Y'.
  intros r. induction r as [r IH] using lt_wf_ind. intros R. rewrite A, C by lia. apply red_ext. intros c K. apply in_seq in K. apply IH; lia.
Qed.
(** ** Rounding errors *)
Definition over (cs : list nat) (f : nat -> R) : R := fold_right (fun c a => f c + a) 0 cs.
Lemma over_cons c a f : over (c :: a) f = f c + over a f. Proof. reflexivity. Qed.
Lemma over_nil f : over [] f = 0. Proof. reflexivity. Qed.
Lemma over_app a b f : over (a ++ b) f = over a f + over b f.
Proof. induction a as [|c a IH]; cbn [app]; rewrite ?over_nil, ?over_cons; [ring|]. rewrite IH. ring. Qed.
Lemma over_rev a f : over (rev a) f = over a f.
Proof. induction a as [|c a IH]; [reflexivity|]. cbn [rev]. rewrite over_app, IH, !over_cons, over_nil. ring. Qed.
Lemma over_seq k f : over (seq 0 k) f = total k f.
Proof. induction k as [|k IH]; [reflexivity|]. rewrite seq_S, over_app, IH, over_cons, over_nil. cbn [total Nat.add]. ring. Qed.
Lemma over_nonneg cs f : (forall c, 0 <= f c) -> 0 <= over cs f.
Proof. intros H. induction cs as [|c cs IH]; rewrite ?over_nil, ?over_cons; [lra|]. pose proof (H c). lra. Qed.
Lemma over_abs cs f : Rabs (over cs f) <= over cs (fun c => Rabs (f c)).
Proof. induction cs as [|c cs IH]; rewrite ?over_nil, ?over_cons; [rewrite Rabs_R0; lra|]. pose proof (Rabs_triang (f c) (over cs f)). lra. Qed.
Lemma sub_finite (x y : float) : is_finite (sub x y) = true -> is_finite x = true /\ is_finite y = true /\ B2R (sub x y) = RNE (B2R x + - B2R y).
Proof.
  intros F. rewrite <- (sub_neg prec emax) in *. destruct (plus_finite prec emax _ _ F) as (Fx & Fy & V). split; [exact Fx|]. unfold fl_neg in Fy, V. rewrite is_finite_Bopp in Fy. split; [exact Fy|]. now rewrite B2R_Bopp in V.
Qed.
Lemma mul_finite (x y : float) : is_finite (mul x y) = true -> is_finite x = true /\ is_finite y = true /\ B2R (mul x y) = RNE (B2R x * B2R y).
Proof.
  intros F. assert (FF : is_finite x = true /\ is_finite y = true) by (destruct x as [a|a| |a ? ? ?], y as [b|b| |b ? ? ?]; cbn in F |- *; try discriminate; split; reflexivity). destruct FF as (Fx & Fy). split; [exact Fx|]. split; [exact Fy|]. now apply mult_finite.
Qed.
Lemma sum_back x y : FT x -> FT y -> exists e, Rabs e <= u /\ x + y = RNE (x + y) * (1 + e).
Proof. intros Fx Fy. destruct (FLT_plus_error_N_round_ex radix2 emin' prec (fun t => negb (Z.even t)) x y Fx Fy) as (e & E & R). exists e. rewrite u_ro_u in E. split; [exact E|exact R]. Qed.
Lemma red_accurate row x cs : forall s, is_finite (red row x cs s) = true -> is_finite s = true /\ (forall c, In c cs -> is_finite (x c) = true) /\
  Rabs (B2R s - (B2R (red row x cs s) + over cs (fun c => B2R (x c) * B2R (row c)))) <=
  (st ^ length cs - 1) * (Rabs (B2R (red row x cs s)) + over cs (fun c => Rabs (B2R (x c) * B2R (row c)))) + INR (length cs) * st ^ length cs * h.
Proof.
  assert (H0 : 0 < h) by apply bpow_gt_0. pose proof (bpow_gt_0 radix2 (- prec)) as U. assert (SU : st = 1 + u) by reflexivity.
  induction cs as [|c cs IH]; intros s F.
  - unfold red in *. cbn in *. split; [exact F|]. split; [intros ? []|]. rewrite Rplus_0_r, Rminus_diag_eq, Rabs_R0 by reflexivity. lra.
  - unfold red in F |- *. cbn [fold_left] in F |- *. destruct (IH _ F) as (F1 & Fx & A). fold (red row x cs (sub s (mul (x c) (row c)))) in *. set (s1 := sub s (mul (x c) (row c))) in *. set (t := B2R (red row x cs s1)) in *.
    destruct (sub_finite _ _ F1) as (Fs & Fm & V). destruct (mul_finite _ _ Fm) as (Fc & _ & VM). split; [exact Fs|]. split; [intros c' [<-|I]; [exact Fc|now apply Fx]|].
    fold s1 in V. destruct (sum_back (B2R s) (- B2R (mul (x c) (row c))) (b2r_format prec emax s) ltac:(apply generic_format_opp, b2r_format)) as (d & D & E). rewrite <- V in E. clear V. rewrite VM in E. clear VM.
    set (p := B2R (x c) * B2R (row c)) in *. destruct (rn_model prec emax p) as (d' & e & D' & E' & RM). rewrite RM in E. clear RM. rewrite !over_cons. cbn [length]. fold p.
    set (T := over cs (fun c => B2R (x c) * B2R (row c))) in *. set (Z := over cs (fun c => Rabs (B2R (x c) * B2R (row c)))) in *. assert (TZ : Rabs T <= Z) by apply over_abs.
    set (k := length cs) in *. assert (PK : 1 <= st ^ k) by (apply pow_R1_Rle; lra). rewrite S_INR. cbn [pow]. set (q := st ^ k) in *. set (v := B2R s1) in *. pose proof (pos_INR k) as NK. set (kk := INR k) in *.
    assert (SV : B2R s = v * (1 + d) + (p * (1 + d') + e)) by lra. rewrite SV.
    replace (v * (1 + d) + (p * (1 + d') + e) - (t + (p + T))) with ((v - (t + T)) + (d * v + (d' * p + e))) by ring.
    assert (AV : Rabs v <= q * (Rabs t + Z) + kk * q * h). { replace v with ((v - (t + T)) + (t + T)) by ring. eapply Rle_trans; [apply Rabs_triang|]. pose proof (Rabs_triang t T). lra. }
    assert (B1 : Rabs (d * v) <= u * (q * (Rabs t + Z) + kk * q * h)) by (rewrite Rabs_mult; apply Rmult_le_compat; try apply Rabs_pos; assumption).
    assert (B2 : Rabs (d' * p) <= u * Rabs p) by (rewrite Rabs_mult; apply Rmult_le_compat_r; [apply Rabs_pos|assumption]).
    eapply Rle_trans; [apply Rabs_triang|]. pose proof (Rabs_triang (d * v) (d' * p + e)). pose proof (Rabs_triang (d' * p) e).
    assert (B3 : u * Rabs p <= (st * q - 1) * Rabs p). { apply Rmult_le_compat_r; [apply Rabs_pos|]. assert (st * 1 <= st * q) by (apply Rmult_le_compat_l; lra). lra. }
    assert (B4 : h <= st * q * h). { rewrite <- (Rmult_1_l h) at 1. apply Rmult_le_compat_r; [lra|]. assert (1 * 1 <= st * q) by (apply Rmult_le_compat; lra). lra. }
    replace ((st * q - 1) * (Rabs t + (Rabs p + Z)) + (kk + 1) * (st * q) * h) with ((q - 1) * (Rabs t + Z) + kk * q * h + u * (q * (Rabs t + Z) + kk * q * h) + (st * q - 1) * Rabs p + st * q * h) by (rewrite SU; ring). lra.
Qed.
Lemma div_accurate (t k : float) : is_finite k = true -> is_finite (div t k) = true -> B2R k <> 0 /\ is_finite t = true /\ Rabs (B2R t - B2R (div t k) * B2R k) <= u * Rabs (B2R (div t k) * B2R k) + Rabs (B2R k) * h.
Proof.
  intros Fk F. assert (NZ : B2R k <> 0). { destruct k as [s|s| |s m e H]; try discriminate Fk. - destruct t as [a|a| |a ? ? ?]; discriminate F. - cbn. intros E. apply eq_0_F2R in E. destruct s; discriminate E. }
  split; [exact NZ|]. assert (Ft : is_finite t = true) by (destruct t as [s|s| |s m e H]; try reflexivity; destruct k; discriminate). split; [exact Ft|].
  assert (V : B2R (div t k) = RNE (B2R t / B2R k)). { pose proof (Bdiv_correct prec emax _ _ mode_NE t k NZ) as C. unfold fl_div in *. destruct (Rlt_bool _ _); [exact (proj1 C)|]. apply overflow_infinite in C. congruence. }
  set (z := B2R t / B2R k) in *. replace (B2R t) with (z * B2R k) by (unfold z; field; exact NZ). rewrite V.
  assert (B : Rabs (RNE z - z) <= u * Rabs (RNE z) + h).
  { pose proof (error_le_half_ulp_round radix2 fexp' (fun t => negb (Z.even t)) z) as E. change (round radix2 fexp' (Znearest (fun t => negb (Z.even t))) z) with (RNE z) in E. pose proof (ulp_any prec emax (RNE z)) as A.
    assert (W : / 2 * pw emin' = h) by (replace emin' with (emin' - 1 + 1)%Z at 1 by lia; rewrite bpow_plus; change (pw 1) with 2; lra). assert (H0 : 0 < h) by apply bpow_gt_0. assert (0 <= u * Rabs (RNE z)) by (apply Rmult_le_pos; [apply bpow_ge_0|apply Rabs_pos]).
    unfold Rmax in A. destruct (Rle_dec _ _); lra. }
  replace (z * B2R k - RNE z * B2R k) with (- (RNE z - z) * B2R k) by ring. rewrite Rabs_mult, Rabs_Ropp, Rabs_mult. pose proof (Rmult_le_compat_r (Rabs (B2R k)) _ _ (Rabs_pos _) B). lra.
Qed.
End Solve.
