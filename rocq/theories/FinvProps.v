(** Determinants and inverses of 2 x 2 and 3 x 3 matrices in floating point: accuracy, and which matrices are found singular. *)
From Coq Require Import Reals ZArith Lia Lra.
From Flocq Require Import Core BinarySingleNaN.
From Verif Require Import FmaModel FmaSpec FmaProofs FquadModel FquadSpec FinvModel FinvSpec FinvProofs FinvMore FinvWit.
Open Scope R_scope.

Section Props.
Variable prec emax : Z.
Context {Hp : Prec_gt_0 prec} {He : Prec_lt_emax prec emax}.
Notation float := (binary_float prec emax).
Notation matrix := (nat -> nat -> float).
Notation u := (bpow radix2 (- prec)).

(** The determinant of a 2 x 2 matrix has a relative error of at most 3 u, however much cancels; so it has the right sign, and is 0 only if it should be. *)
Theorem fldet2_accurate (a b c d : float) : (3 <= emax)%Z -> safe_det2 a b c d -> relative_to 3 (fl_det2 a b c d) (exact_det2 (B2R a) (B2R b) (B2R c) (B2R d)).
Proof. exact (det2_runs prec emax a b c d). Qed.
Print Assumptions fldet2_accurate.

(** inv2x2 returns false exactly when the matrix has no inverse. *)
Theorem flinv2_singular (m : matrix) : (4 <= prec)%Z -> (3 <= emax)%Z -> safe_det2 (m 0%nat 0%nat) (m 0%nat 1%nat) (m 1%nat 0%nat) (m 1%nat 1%nat) -> (fl_inv2 m = None <-> ~ exists X, is_inverse 2 (real_matrix m) X).
Proof. exact (inv2_singular prec emax m). Qed.
Print Assumptions flinv2_singular.

(** Every element of the inverse has a relative error of at most 5 u, however badly conditioned the matrix. *)
Theorem flinv2_accurate (m : matrix) (X : nat -> nat -> R) : (4 <= prec)%Z -> (3 <= emax)%Z -> safe_det2 (m 0%nat 0%nat) (m 0%nat 1%nat) (m 1%nat 0%nat) (m 1%nat 1%nat) ->
  is_inverse 2 (real_matrix m) X -> (forall i j, (i < 2)%nat -> (j < 2)%nat -> representable prec emax (X i j)) ->
  exists n, fl_inv2 m = Some n /\ forall i j, (i < 2)%nat -> (j < 2)%nat -> relative_to 5 (n i j) (X i j).
Proof. intros P E S. exact (proj2 (inv2_accurate prec emax m P E S) X). Qed.
Print Assumptions flinv2_accurate.

(** The determinant of a 3 x 3 matrix has an error of at most 10 u times the sum of the terms' sizes. *)
Theorem fldet3_accurate (m : matrix) : (5 <= prec)%Z -> (3 <= emax)%Z -> safe_minors m -> (forall k, (k < 3)%nat -> roomy prec emax (B2R (m 0%nat k) * minor (real_matrix m) 0 k)) ->
  is_finite (fl_det3 m) = true /\ Rabs (B2R (fl_det3 m) - exact_det3 (real_matrix m)) <= 10 * u * row_size (real_matrix m).
Proof. exact (det3_accurate prec emax m). Qed.
Print Assumptions fldet3_accurate.

(** inv3x3 returns false only if the matrix is singular or nearly so. *)
Theorem flinv3_refuses (m : matrix) : (5 <= prec)%Z -> (3 <= emax)%Z -> safe_minors m -> (forall i, (i < 3)%nat -> roomy prec emax (B2R (m i 0%nat) * minor (real_matrix m) i 0)) ->
  fl_inv3 m = None -> Rabs (exact_det3 (real_matrix m)) <= 10 * u * column_size (real_matrix m).
Proof. exact (inv3_refuses prec emax m). Qed.
Print Assumptions flinv3_refuses.

(** If the determinant's error bound is at most k times the determinant, with k <= 1/8, every element of the inverse has a relative error of at most 2 k + 5 u. *)
Theorem flinv3_accurate (m : matrix) (X : nat -> nat -> R) (k : R) : (5 <= prec)%Z -> (3 <= emax)%Z -> safe_minors m -> (forall i, (i < 3)%nat -> roomy prec emax (B2R (m i 0%nat) * minor (real_matrix m) i 0)) ->
  is_inverse 3 (real_matrix m) X -> (forall i j, (i < 3)%nat -> (j < 3)%nat -> representable prec emax (X i j)) -> 0 <= k <= / 8 -> 10 * u * column_size (real_matrix m) <= k * Rabs (exact_det3 (real_matrix m)) ->
  exists n, fl_inv3 m = Some n /\ forall i j, (i < 3)%nat -> (j < 3)%nat -> is_finite (n i j) = true /\ Rabs (B2R (n i j) - X i j) <= (2 * k + 5 * u) * Rabs (X i j).
Proof. exact (inv3_accurate prec emax m X k). Qed.
Print Assumptions flinv3_accurate.
End Props.

(** With doubles, where nothing overflows or underflows: inv3x3 inverts a matrix that has no inverse (of whole numbers, the third row the sum of the others). *)
Theorem flinv3_singular_refuted : exists m : nat -> nat -> binary_float 53 1024, safe_minors m /\ (forall i, roomy 53 1024 (B2R (m i 0%nat) * minor (real_matrix m) i 0)) /\ (~ exists X, is_inverse 3 (real_matrix m) X) /\ exists n, fl_inv3 m = Some n.
Proof. exact (ex_intro _ _ singular_inverted). Qed.
Print Assumptions flinv3_singular_refuted.

(** And it refuses one that has an inverse (of whole numbers up to 2^30, with determinant 1). *)
Theorem flinv3_regular_refuted : exists m : nat -> nat -> binary_float 53 1024, safe_minors m /\ (forall i, roomy 53 1024 (B2R (m i 0%nat) * minor (real_matrix m) i 0)) /\ (exists X, is_inverse 3 (real_matrix m) X) /\ fl_inv3 m = None.
Proof. exact (ex_intro _ _ regular_refused). Qed.
Print Assumptions flinv3_regular_refuted.

(** The determinant overflows: the inverse of 2^600 I is 2^-600 I, but inv2x2 succeeds with the zero matrix. *)
Theorem flinv2_overflow_refuted : exists m : nat -> nat -> binary_float 53 1024, is_inverse 2 (real_matrix m) (fun i j => if Nat.eqb i j then bpow radix2 (-600) else 0) /\ exists n, fl_inv2 m = Some n /\ forall i j, (i < 2)%nat -> (j < 2)%nat -> B2R (n i j) = 0.
Proof. exact (ex_intro _ _ overflow_inverted). Qed.
Print Assumptions flinv2_overflow_refuted.

(** The determinant underflows: the inverse of 2^-540 I is 2^540 I, but inv2x2 returns false. *)
Theorem flinv2_underflow_refuted : exists m : nat -> nat -> binary_float 53 1024, is_inverse 2 (real_matrix m) (fun i j => if Nat.eqb i j then bpow radix2 540 else 0) /\ fl_inv2 m = None.
Proof. exact (ex_intro _ _ underflow_refused). Qed.
Print Assumptions flinv2_underflow_refuted.

(** The hypotheses can be met: [3 1; 4 2], whose determinant is 2, and [1 1 0; 0 1 1; 1 0 1] with k = 10 u. *)
Example flinv2_applies : safe_det2 (example2 0%nat 0%nat) (example2 0%nat 1%nat) (example2 1%nat 0%nat) (example2 1%nat 1%nat) /\ exists X, is_inverse 2 (real_matrix example2) X /\ forall i j, (i < 2)%nat -> (j < 2)%nat -> representable 53 1024 (X i j).
Proof. exact inv2_example. Qed.
Example flinv3_applies : safe_minors example3 /\ (forall k, (k < 3)%nat -> roomy 53 1024 (B2R (example3 0%nat k) * minor (real_matrix example3) 0 k)) /\ (forall i, (i < 3)%nat -> roomy 53 1024 (B2R (example3 i 0%nat) * minor (real_matrix example3) i 0)) /\
  10 * bpow radix2 (- (53)) * column_size (real_matrix example3) <= 10 * bpow radix2 (- (53)) * Rabs (exact_det3 (real_matrix example3)) /\ exists X, is_inverse 3 (real_matrix example3) X /\ forall i j, (i < 3)%nat -> (j < 3)%nat -> representable 53 1024 (X i j).
Proof. exact inv3_example. Qed.
(** And inv3x3 can refuse within the guards. *)
Example flinv3_refuses_applies : exists m : nat -> nat -> binary_float 53 1024, safe_minors m /\ (forall i, roomy 53 1024 (B2R (m i 0%nat) * minor (real_matrix m) i 0)) /\ fl_inv3 m = None.
Proof. destruct flinv3_regular_refuted as (m & A & B & _ & C). exists m. auto. Qed.
