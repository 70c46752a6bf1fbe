(** The Cholesky decomposition in floating point: what success and failure mean. *)
From Coq Require Import Reals ZArith.
From Flocq Require Import Core BinarySingleNaN.
From Verif Require Import RLinSpec FmaModel FmaSpec FmaProofs FvecSpec FinvSpec FcholModel FcholSpec FcholProofs FcholMore FcholWit.
Open Scope R_scope.

Section Props.
Variable prec emax : Z.
Context {Hp : Prec_gt_0 prec} {He : Prec_lt_emax prec emax}.
Notation float := (binary_float prec emax).
Notation matrix := (nat -> nat -> float).

(** If cholesky returns true for a matrix of numbers (neither infinite nor NaN), whatever their size and condition, nothing has overflowed:
    the result L is made of numbers, lower triangular, with a positive diagonal, and L L^T is the matrix but for the rounding errors. *)
Theorem flchol_success (A : matrix) (n : nat) : (2 <= prec)%Z -> (forall i j, (j <= i < n)%nat -> is_finite (A i j) = true) -> snd (fl_cholesky A n) = true -> let L := fst (fl_cholesky A n) in
  (forall i j, (i < n)%nat -> (j < n)%nat -> is_finite (L i j) = true) /\ (forall i, (i < n)%nat -> 0 < B2R (L i i)) /\ (forall i j, (i < j < n)%nat -> B2R (L i j) = 0) /\
  (forall i j, (j <= i < n)%nat -> Rabs (B2R (A i j) - exact_dot (S j) (L i) (L j)) <= cholesky_bound prec emax j (Rabs (B2R (A i j)) + sum_of_sizes j (L i) (L j)) (B2R (L j j))).
Proof. exact (success prec emax A n). Qed.
Print Assumptions flchol_success.

(** If the first i rows succeed and row i fails (without overflow), the leading (i+1) x (i+1) part of the matrix is within the same rounding errors of one that is not positive definite. *)
Theorem flchol_failure (A : matrix) (i : nat) : (2 <= prec)%Z -> (Z.of_nat i < 2 ^ (prec - 1))%Z -> (forall a b, (b <= a < S i)%nat -> is_finite (A a b) = true) -> snd (fl_cholesky A i) = true -> snd (fl_cholesky A (S i)) = false ->
  let L := fst (fl_cholesky A (S i)) in (forall k, (k < i)%nat -> is_finite (L i k) = true) -> Rabs (B2R (A i i)) + sum_of_sizes i (L i) (L i) <= bpow radix2 (emax - 3) ->
  exists B : nat -> nat -> R, symmetric (S i) B /\ ~ positive_definite (S i) B /\
    forall a b, (b <= a < S i)%nat -> Rabs (B a b - B2R (A a b)) <= cholesky_bound prec emax b (Rabs (B2R (A a b)) + sum_of_sizes b (L a) (L b)) (if Nat.eqb b i then 0 else B2R (L b b)).
Proof. exact (failure prec emax A i). Qed.
Print Assumptions flchol_failure.

(** Only the lower triangle is read, even if the upper one holds infinities or NaN. *)
Theorem flchol_lower (A A' : matrix) (n : nat) : (forall i j, (j <= i < n)%nat -> A i j = A' i j) ->
  snd (fl_cholesky A n) = snd (fl_cholesky A' n) /\ forall i j, (i < n)%nat -> (j < n)%nat -> fst (fl_cholesky A n) i j = fst (fl_cholesky A' n) i j.
Proof. exact (lower_only prec emax A A' n). Qed.
Print Assumptions flchol_lower.
End Props.

(** In doubles, a symmetric matrix that is not positive definite is decomposed: [7 77; 77 847], which is singular. *)
Theorem flchol_singular_refuted : exists A : nat -> nat -> binary_float 53 1024, (forall i j, is_finite (A i j) = true) /\ symmetric 2 (real_matrix A) /\ ~ positive_definite 2 (real_matrix A) /\ snd (fl_cholesky A 2) = true.
Proof. exact (ex_intro _ _ singular_accepted). Qed.
Print Assumptions flchol_singular_refuted.

(** And one that is positive definite is refused: [1 b; b c] with c the least double above b^2. *)
Theorem flchol_definite_refuted : exists A : nat -> nat -> binary_float 53 1024, (forall i j, is_finite (A i j) = true) /\ symmetric 2 (real_matrix A) /\ positive_definite 2 (real_matrix A) /\ snd (fl_cholesky A 2) = false.
Proof. exact (ex_intro _ _ definite_refused). Qed.
Print Assumptions flchol_definite_refuted.

(** The hypotheses can be met: [4 2; 2 10], and the matrix of the last theorem. *)
Example flchol_success_applies : (forall i j, (j <= i < 2)%nat -> is_finite (plain i j) = true) /\ snd (fl_cholesky plain 2) = true.
Proof. exact success_example. Qed.
Example flchol_failure_applies : (forall a b, (b <= a < 2)%nat -> is_finite (steep a b) = true) /\ snd (fl_cholesky steep 1) = true /\ snd (fl_cholesky steep 2) = false /\ (forall k, (k < 1)%nat -> is_finite (fst (fl_cholesky steep 2) 1%nat k) = true) /\
  Rabs (B2R (steep 1%nat 1%nat)) + sum_of_sizes 1 (fst (fl_cholesky steep 2) 1%nat) (fst (fl_cholesky steep 2) 1%nat) <= bpow radix2 (1024 - 3).
Proof. exact failure_example. Qed.
