(** Solving decomposed systems in floating point: residuals. *)
From Coq Require Import Reals ZArith.
From Flocq Require Import Core BinarySingleNaN.
From Verif Require Import FmaModel FmaSpec FmaProofs FvecSpec FsolveModel FsolveSpec FsolveProofs FsolveMore FsolveWit.
Open Scope R_scope.

Section Props.
Variable prec emax : Z.
Context {Hp : Prec_gt_0 prec} {He : Prec_lt_emax prec emax}.
Notation float := (binary_float prec emax).
Notation matrix := (nat -> nat -> float).

(** If the column of the solution is made of numbers (and the diagonal of the matrix is), then no pivot is zero, and each element of the
    residual b - L U x is at most 2 n roundings of the same element of |L| |U| |x|, plus what underflow loses. *)
Theorem flsolve_residual (lu B : matrix) (n m i : nat) : (i < m)%nat -> (forall r, (r < n)%nat -> is_finite (lu r r) = true) ->
  let X := fl_backsolve_lu lu n m 0 B in (forall r, (r < n)%nat -> is_finite (X r i) = true) ->
  forall r, (r < n)%nat -> B2R (lu r r) <> 0 /\ Rabs (B2R (B r i) - lu_times n lu (fun c => X c i) r) <= solve_bound n lu (fun c => X c i) r.
Proof. exact (solved prec emax lu B n m i). Qed.
Print Assumptions flsolve_residual.

(** Skipping the first variables does not change the others. *)
Theorem flsolve_skip (lu B : matrix) (n m skip r i : nat) : (skip <= r < n)%nat -> fl_backsolve_lu lu n m skip B r i = fl_backsolve_lu lu n m 0 B r i.
Proof. exact (skipping prec emax lu n m skip B r i). Qed.
Print Assumptions flsolve_skip.

(** Each column is solved by itself: the bits of the solution depend on the matrix and on its own right-hand side only. *)
Theorem flsolve_columns (lu B B' : matrix) (n m m' skip i i' : nat) : (skip <= n)%nat -> (i < m)%nat -> (i' < m')%nat -> (forall r, (r < n)%nat -> B r i = B' r i') ->
  forall r, (r < n)%nat -> fl_backsolve_lu lu n m skip B r i = fl_backsolve_lu lu n m' skip B' r i'.
Proof. exact (columns prec emax lu B B' n m m' skip i i'). Qed.
Print Assumptions flsolve_columns.

(** The version with a permutation map gives, bit for bit, what the one without gives for the permuted right-hand sides, whatever X held before. *)
Theorem flsolve_permuted (lu : matrix) (p : nat -> nat) (n m skip : nat) (B X : matrix) (r i : nat) : (r < n)%nat -> (i < m)%nat ->
  fl_backsolve_plu lu p n m skip B X r i = fl_backsolve_lu lu n m skip (fun r i => B (p r) i) r i.
Proof. exact (permuted prec emax lu p n m skip B X r i). Qed.
Print Assumptions flsolve_permuted.
End Props.

(** In doubles, a regular system of numbers with a solution made of numbers is answered with an infinity. *)
Theorem flsolve_overflow_refuted : exists (lu b : nat -> nat -> binary_float 53 1024) (x : nat -> binary_float 53 1024),
  (forall r c, is_finite (lu r c) = true) /\ (forall r, is_finite (b r 0%nat) = true) /\ (forall r, is_finite (x r) = true) /\ (forall r, B2R (lu r r) <> 0) /\
  (forall r, (r < 2)%nat -> lu_times 2 lu x r = B2R (b r 0%nat)) /\ fl_backsolve_lu lu 2 1 0 b 0%nat 0%nat = B754_infinity false.
Proof. exact (ex_intro _ _ (ex_intro _ _ (ex_intro _ _ overflowing))). Qed.
Print Assumptions flsolve_overflow_refuted.

(** The small residual does not make the solution close: in a system of whole numbers with pivots 1, the solution -1 is answered with 0. *)
Theorem flsolve_digits_refuted : exists (lu b : nat -> nat -> binary_float 53 1024) (x : nat -> binary_float 53 1024),
  (forall r c, is_finite (lu r c) = true) /\ (forall r, is_finite (b r 0%nat) = true) /\ (forall r, is_finite (x r) = true) /\ (forall r, B2R (lu r r) <> 0) /\
  (forall r, (r < 2)%nat -> lu_times 2 lu x r = B2R (b r 0%nat)) /\ B2R (x 1%nat) = -1 /\ B2R (fl_backsolve_lu lu 2 1 0 b 1%nat 0%nat) = 0.
Proof. exact (ex_intro _ _ (ex_intro _ _ (ex_intro _ _ no_digits))). Qed.
Print Assumptions flsolve_digits_refuted.

(** The hypotheses can be met. *)
Example flsolve_applies : (forall r, (r < 2)%nat -> is_finite (plain_lu r r) = true) /\ forall r, (r < 2)%nat -> is_finite (fl_backsolve_lu plain_lu 2 1 0 plain_b r 0%nat) = true.
Proof. exact solve_example. Qed.
