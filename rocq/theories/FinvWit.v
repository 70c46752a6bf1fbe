From Coq Require Import Reals ZArith Lia Lra Bool.
From Flocq Require Import Core BinarySingleNaN.
From Verif Require Import FmaModel FmaSpec FmaProofs FquadModel FquadSpec FquadProofs FquadMore FvecModel FvecSpec FvecProofs FvecMore FvecAcc FinvModel FinvSpec FinvProofs FinvMore FsphWit.
Open Scope R_scope.
Notation pw := (bpow radix2).
Notation float := (binary_float 53 1024).
Definition int3 (a b c d e f g h i : Z) (r k : nat) : Z := match r, k with O, O => a | O, 1%nat => b | O, _ => c | 1%nat, O => d | 1%nat, 1%nat => e | 1%nat, _ => f | _, O => g | _, 1%nat => h | _, _ => i end.
Definition whole (z : nat -> nat -> Z) : nat -> nat -> float := fun i j => dbl (z i j) 0.
Section Whole.
Variable z : nat -> nat -> Z.
Hypothesis small : forall i j, (Z.abs (z i j) <= 2 ^ 31)%Z.
Lemma whole_value i j : is_finite (whole z i j) = true /\ B2R (whole z i j) = IZR (z i j).
Proof. apply dbl_int. pose proof (small i j). change (2 ^ 31)%Z with 2147483648%Z in *. change (2 ^ 53)%Z with 9007199254740992%Z. lia. Qed.
Lemma int_below n e : (Z.abs n <= 2 ^ 100)%Z -> (100 <= e)%Z -> Rabs (IZR n) <= pw e.
Proof. intros N E. rewrite <- abs_IZR. apply Rle_trans with (IZR (2 ^ 100)); [now apply IZR_le|]. change (IZR (2 ^ 100)) with (pw 100). now apply bpow_le. Qed.
Lemma int_above n e : (e <= 0)%Z -> IZR n = 0 \/ pw e <= Rabs (IZR n).
Proof. intros E. destruct (Z.eq_dec n 0) as [->|NZ]; [now left|]. right. rewrite <- abs_IZR. apply Rle_trans with (pw 0); [now apply bpow_le|]. change (pw 0) with (IZR 1). apply IZR_le. lia. Qed.
Lemma small_product a b p q : (Z.abs a <= p)%Z -> (Z.abs b <= q)%Z -> (Z.abs (a * b) <= p * q)%Z.
Proof. intros A B. rewrite Z.abs_mul. apply Z.mul_le_mono_nonneg; lia. Qed.
Lemma whole_det2 i j k l i' j' k' l' : safe_det2 (whole z i j) (whole z k l) (whole z i' j') (whole z k' l').
Proof.
  destruct (whole_value i j) as (Fa & Va). destruct (whole_value k l) as (Fb & Vb). destruct (whole_value i' j') as (Fc & Vc). destruct (whole_value k' l') as (Fd & Vd).
  unfold safe_det2. rewrite Va, Vb, Vc, Vd. unfold exact_det2. rewrite <- !mult_IZR, <- minus_IZR. pose proof (small_product _ _ _ _ (small i j) (small k' l')) as P1. pose proof (small_product _ _ _ _ (small k l) (small i' j')) as P2. change (2 ^ 31 * 2 ^ 31)%Z with 4611686018427387904%Z in *.
  repeat split; try assumption; try (apply int_below; [change (2 ^ 100)%Z with 1267650600228229401496703205376%Z; lia|lia]); apply int_above; unfold emin; lia.
Qed.
Lemma whole_safe : safe_minors (whole z). Proof. intros i i' k k' _ _ _ _ _ _. apply whole_det2. Qed.
Lemma whole_minor i k : exists n, minor (real_matrix (whole z)) i k = IZR n /\ (Z.abs n <= 2 ^ 63)%Z.
Proof.
  unfold minor, exact_det2, real_matrix. rewrite !(proj2 (whole_value _ _)), <- !mult_IZR, <- minus_IZR. eexists. split; [reflexivity|]. set (a := z (skip i 0) (skip k 0)). set (b := z (skip i 0) (skip k 1)). set (c := z (skip i 1) (skip k 0)). set (d := z (skip i 1) (skip k 1)).
  pose proof (small_product a d _ _ (small _ _) (small _ _)) as P1. pose proof (small_product b c _ _ (small _ _) (small _ _)) as P2. change (2 ^ 31 * 2 ^ 31)%Z with 4611686018427387904%Z in *. change (2 ^ 63)%Z with 9223372036854775808%Z. lia.
Qed.
Lemma whole_roomy i j i' k' : roomy 53 1024 (B2R (whole z i j) * minor (real_matrix (whole z)) i' k').
Proof.
  destruct (whole_minor i' k') as (n & -> & N). rewrite (proj2 (whole_value _ _)), <- mult_IZR. pose proof (small_product _ _ _ _ (small i j) N) as P. destruct (int_above (z i j * n) (emin 53 1024 + 2 * 53)) as [Z|L]; [unfold emin; lia|now left|]. right. split; [exact L|]. apply int_below; [|lia]. eapply Z.le_trans; [exact P|]. vm_compute. discriminate.
Qed.
End Whole.
Ltac small9 := intros i j; unfold int3; destruct i as [|[|i]]; destruct j as [|[|j]]; vm_compute; discriminate.
Definition shows (o : option (nat -> nat -> float)) := option_map (fun n => B2SF (n 0%nat 0%nat)) o.
(** ** A singular matrix with an "inverse", and an invertible one without *)
Definition singular3 := whole (int3 281783 132345 534919 247294 1039003 942652 529077 1171348 1477571).
Lemma singular3_small i j : (Z.abs (int3 281783 132345 534919 247294 1039003 942652 529077 1171348 1477571 i j) <= 2 ^ 31)%Z. Proof. revert i j. small9. Qed.
Lemma singular_inverted : safe_minors singular3 /\ (forall i, roomy 53 1024 (B2R (singular3 i 0%nat) * minor (real_matrix singular3) i 0)) /\ (~ exists X, is_inverse 3 (real_matrix singular3) X) /\ exists n, fl_inv3 singular3 = Some n.
Proof.
  split; [apply whole_safe, singular3_small|]. split; [intros i; apply (whole_roomy _ singular3_small)|]. split.
  - intros (X & H). apply inverse3_det in H. apply H. unfold exact_det3, minor, exact_det2, real_matrix, singular3. rewrite !(proj2 (whole_value _ singular3_small _ _)). unfold skip, int3. cbn [Nat.ltb Nat.leb]. rewrite <- !mult_IZR, <- !minus_IZR, <- !mult_IZR, <- !minus_IZR, <- !plus_IZR. f_equal.
  - assert (Q : shows (fl_inv3 singular3) <> None) by (vm_compute; discriminate). destruct (fl_inv3 singular3) as [n|]; [now exists n|now elim Q].
Qed.
Definition regular3 := whole (int3 1 0 (- 2 ^ 30) 0 (2 ^ 30) 1 (-1) (-1) (2 ^ 30)).
Lemma regular3_small i j : (Z.abs (int3 1 0 (- 2 ^ 30) 0 (2 ^ 30) 1 (-1) (-1) (2 ^ 30) i j) <= 2 ^ 31)%Z. Proof. revert i j. small9. Qed.
Lemma regular_refused : safe_minors regular3 /\ (forall i, roomy 53 1024 (B2R (regular3 i 0%nat) * minor (real_matrix regular3) i 0)) /\ (exists X, is_inverse 3 (real_matrix regular3) X) /\ fl_inv3 regular3 = None.
Proof.
  split; [apply whole_safe, regular3_small|]. split; [intros i; apply (whole_roomy _ regular3_small)|]. split.
  - exists (fun i j => IZR (int3 (2 ^ 60 + 1) (2 ^ 30) (2 ^ 60) (-1) 0 (-1) (2 ^ 30) 1 (2 ^ 30) i j)). intros i j I J. unfold real_matrix, regular3. cbn [sum_to]. rewrite !(proj2 (whole_value _ regular3_small _ _)), <- !mult_IZR, <- !plus_IZR.
    destruct i as [|[|[|i]]]; [| | |lia]; (destruct j as [|[|[|j]]]; [| | |lia]); cbn [Nat.eqb]; f_equal.
  - assert (Q : shows (fl_inv3 regular3) = None) by (vm_compute; reflexivity). destruct (fl_inv3 regular3); [discriminate|reflexivity].
Qed.
(** ** Overflow and underflow *)
Definition diagonal (x : float) : nat -> nat -> float := fun i j => if Nat.eqb i j then x else dbl 0 0.
Lemma diagonal_inverse (x : float) r : B2R x * r = 1 -> is_inverse 2 (real_matrix (diagonal x)) (fun i j => if Nat.eqb i j then r else 0).
Proof. intros H. destruct (dbl_int 0 ltac:(lia)) as (_ & V0). intros [|[|i]] [|[|j]] I J; try lia; cbn [sum_to Nat.eqb]; unfold real_matrix, diagonal; cbn [Nat.eqb]; rewrite V0; lra. Qed.
Lemma pow_inverse (x : float) e : B2R x = pw e -> B2R x * pw (- e) = 1. Proof. intros ->. rewrite <- bpow_plus. replace (e + - e)%Z with 0%Z by ring. reflexivity. Qed.
Lemma overflow_inverted : let m := diagonal (dbl 1 600) in is_inverse 2 (real_matrix m) (fun i j => if Nat.eqb i j then pw (-600) else 0) /\ exists n, fl_inv2 m = Some n /\ forall i j, (i < 2)%nat -> (j < 2)%nat -> B2R (n i j) = 0.
Proof.
  intros m. split; [apply diagonal_inverse, (pow_inverse (dbl 1 600) 600), (dbl_pow 600); lia|]. assert (Q : option_map (fun n : nat -> nat -> float => (B2SF (n 0 0)%nat, B2SF (n 0 1)%nat, B2SF (n 1 0)%nat, B2SF (n 1 1)%nat)) (fl_inv2 m) = Some (SpecFloat.S754_zero false, SpecFloat.S754_zero true, SpecFloat.S754_zero true, SpecFloat.S754_zero false)) by (vm_compute; reflexivity).
  destruct (fl_inv2 m) as [n|]; [|discriminate]. exists n. split; [reflexivity|]. injection Q as Q1 Q2 Q3 Q4. assert (Z : forall (x : float) s, B2SF x = SpecFloat.S754_zero s -> B2R x = 0) by (intros x0 sg H; destruct x0; (reflexivity || discriminate)). intros [|[|i]] [|[|j]] I J; try lia; eapply Z; eassumption.
Qed.
Lemma underflow_refused : let m := diagonal (dbl 1 (-540)) in is_inverse 2 (real_matrix m) (fun i j => if Nat.eqb i j then pw 540 else 0) /\ fl_inv2 m = None.
Proof.
  intros m. split; [apply diagonal_inverse, (pow_inverse (dbl 1 (-540)) (-540)), (dbl_pow (-540)); lia|]. assert (Q : shows (fl_inv2 m) = None) by (vm_compute; reflexivity). destruct (fl_inv2 m); [discriminate|reflexivity].
Qed.
(** ** Satisfiable hypotheses *)
Lemma half_representable n : (Z.abs n <= 2 ^ 31)%Z -> representable 53 1024 (IZR n / 2).
Proof.
  intros N. destruct (Z.eq_dec n 0) as [->|NZ]; [left; lra|right]. unfold Rdiv. rewrite Rabs_mult, (Rabs_right (/ 2)) by lra. destruct (int_above n 0 ltac:(lia)) as [G|G]; [apply eq_IZR in G; contradiction|]. change (pw 0) with 1 in G. change (2 ^ 31)%Z with 2147483648%Z in N.
  pose proof (int_below n 100 ltac:(change (2 ^ 100)%Z with 1267650600228229401496703205376%Z; lia) ltac:(lia)) as L. assert (pw 100 <= pw (1024 - 1)) by (apply bpow_le; lia). assert (pw (emin 53 1024 + 53) <= pw (-1)) by (apply bpow_le; unfold emin; lia). change (pw (-1)) with (/ 2) in *. pose proof (bpow_gt_0 radix2 100). split; lra.
Qed.
Definition example2 := whole (int3 3 1 0 4 2 0 0 0 0).
Lemma example2_small i j : (Z.abs (int3 3 1 0 4 2 0 0 0 0 i j) <= 2 ^ 31)%Z. Proof. revert i j. small9. Qed.
Lemma inv2_example : safe_det2 (example2 0%nat 0%nat) (example2 0%nat 1%nat) (example2 1%nat 0%nat) (example2 1%nat 1%nat) /\ exists X, is_inverse 2 (real_matrix example2) X /\ forall i j, (i < 2)%nat -> (j < 2)%nat -> representable 53 1024 (X i j).
Proof.
  split; [apply (whole_det2 _ example2_small)|]. exists (fun i j => IZR (int3 2 (-1) 0 (-4) 3 0 0 0 0 i j) / 2). split.
  - intros i j I J. cbn [sum_to]. unfold real_matrix, example2. rewrite !(proj2 (whole_value _ example2_small _ _)). destruct i as [|[|i]]; [| |lia]; (destruct j as [|[|j]]; [| |lia]); cbn [Nat.eqb int3]; lra.
  - intros i j I J. apply half_representable. destruct i as [|[|i]]; [| |lia]; (destruct j as [|[|j]]; [| |lia]); vm_compute; discriminate.
Qed.
Definition example3 := whole (int3 1 1 0 0 1 1 1 0 1).
Lemma example3_small i j : (Z.abs (int3 1 1 0 0 1 1 1 0 1 i j) <= 2 ^ 31)%Z. Proof. revert i j. small9. Qed.
Lemma inv3_example : safe_minors example3 /\ (forall k, (k < 3)%nat -> roomy 53 1024 (B2R (example3 0%nat k) * minor (real_matrix example3) 0 k)) /\ (forall i, (i < 3)%nat -> roomy 53 1024 (B2R (example3 i 0%nat) * minor (real_matrix example3) i 0)) /\
  10 * pw (- (53)) * column_size (real_matrix example3) <= 10 * pw (- (53)) * Rabs (exact_det3 (real_matrix example3)) /\ exists X, is_inverse 3 (real_matrix example3) X /\ forall i j, (i < 3)%nat -> (j < 3)%nat -> representable 53 1024 (X i j).
Proof.
  split; [apply whole_safe, example3_small|]. split; [intros k _; apply (whole_roomy _ example3_small)|]. split; [intros i _; apply (whole_roomy _ example3_small)|]. split.
  - apply Rmult_le_compat_l; [pose proof (bpow_gt_0 radix2 (- (53))); lra|]. unfold column_size, exact_det3, minor, exact_det2, real_matrix, example3. cbn [sum_to]. rewrite !(proj2 (whole_value _ example3_small _ _)). unfold skip, int3. cbn [Nat.ltb Nat.leb]. unfold Rabs. repeat destruct Rcase_abs; lra.
  - exists (fun i j => IZR (int3 1 (-1) 1 1 1 (-1) (-1) 1 1 i j) / 2). split.
    + intros i j I J. cbn [sum_to]. unfold real_matrix, example3. rewrite !(proj2 (whole_value _ example3_small _ _)). destruct i as [|[|[|i]]]; [| | |lia]; (destruct j as [|[|[|j]]]; [| | |lia]); cbn [Nat.eqb int3]; lra.
    + intros i j I J. apply half_representable. destruct i as [|[|[|i]]]; [| | |lia]; (destruct j as [|[|[|j]]]; [| | |lia]); vm_compute; discriminate.
Qed.
