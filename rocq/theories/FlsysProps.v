(** Solving systems of equations in floating point: the residual of the solution, and what the returned flag says. *)
From Coq Require Import Reals ZArith Lia Lra.
From Flocq Require Import Core BinarySingleNaN.
From Verif Require Import PermSpec FmaModel FmaSpec FmaProofs FquadModel FinvSpec FsolveSpec FpluModel FpluSpec FpluWit FlsysModel FlsysSpec FlsysProofs FlsysWit.
Open Scope R_scope.

Section Props.
Variable prec emax : Z.
Context {Hp : Prec_gt_0 prec} {He : Prec_lt_emax prec emax}.
Notation float := (binary_float prec emax).
Notation matrix := (nat -> nat -> float).

(** If the solution of a column and the matrix as it is left have no infinity and no NaN, then no pivot is zero, and every equation (they
    are visited in some order p) has a residual within the bound. *)
Theorem flsys_residual (A B lu X : matrix) (n m i : nat) : (i < m)%nat -> fl_linear_solve A n m 0 B = Some (true, lu, X) ->
  (forall r c, (r < n)%nat -> (c < n)%nat -> is_finite (lu r c) = true) -> (forall r, (r < n)%nat -> is_finite (X r i) = true) ->
  exists p, is_perm n p /\ forall r, (r < n)%nat -> B2R (lu r r) <> 0 /\
    Rabs (B2R (B (p r) i) - row_times n A (fun c => B2R (X c i)) (p r)) <= system_bound n lu (fun c => X c i) r.
Proof. exact (system_solved prec emax A B lu X n m i). Qed.
Print Assumptions flsys_residual.

(** It always answers, whatever the elements; the flag is that of the decomposition, so it depends on the matrix only, and the matrix is left decomposed. *)
Theorem flsys_answers (A : matrix) (n m skip : nat) (B : matrix) : let d := fl_decomp_plu A n n in exists X, fl_linear_solve A n m skip B = Some (Nat.eqb (fl_degenerate d) 0, fl_lu d, X).
Proof. exact (system_flag prec emax A n m skip B). Qed.
Print Assumptions flsys_answers.

(** When it refuses, the right-hand sides are as they were. *)
Theorem flsys_refusal (A B lu X : matrix) (n m skip : nat) : fl_linear_solve A n m skip B = Some (false, lu, X) -> X = B.
Proof. exact (system_refused prec emax A B lu X n m skip). Qed.
Print Assumptions flsys_refusal.

(** Skipping the first variables does not change the bits of the others. *)
Theorem flsys_skip (A B lu X lu' X' : matrix) (n m skip r i : nat) : (skip <= r < n)%nat -> (i < m)%nat ->
  fl_linear_solve A n m skip B = Some (true, lu, X) -> fl_linear_solve A n m 0 B = Some (true, lu', X') -> lu = lu' /\ X r i = X' r i.
Proof. exact (system_skip prec emax A B lu X lu' X' n m skip r i). Qed.
Print Assumptions flsys_skip.

(** Each column is solved by itself. *)
Theorem flsys_columns (A B B' lu X lu' X' : matrix) (n m m' skip i i' : nat) : (skip <= n)%nat -> (i < m)%nat -> (i' < m')%nat -> (forall r, (r < n)%nat -> B r i = B' r i') ->
  fl_linear_solve A n m skip B = Some (true, lu, X) -> fl_linear_solve A n m' skip B' = Some (true, lu', X') -> forall r, (r < n)%nat -> X r i = X' r i'.
Proof. exact (system_columns prec emax A B B' lu X lu' X' n m m' skip i i'). Qed.
Print Assumptions flsys_columns.
End Props.

(** In doubles, a system without solutions is answered with true and a vector of numbers. *)
Theorem flsys_singular_refuted : exists (A B lu X : nat -> nat -> binary_float 53 1024), fl_linear_solve A 3 1 0 B = Some (true, lu, X) /\ (forall r, (r < 3)%nat -> is_finite (X r 0%nat) = true) /\
  ~ exists x, forall r, (r < 3)%nat -> row_times 3 A x r = B2R (B r 0%nat).
Proof. exact (ex_intro _ _ (ex_intro _ _ singular_solved)). Qed.
Print Assumptions flsys_singular_refuted.

(** A regular system, of numbers, is refused. *)
Theorem flsys_regular_refuted : exists (A B lu : nat -> nat -> binary_float 53 1024), fl_linear_solve A 3 1 0 B = Some (false, lu, B) /\ exact_det3 (real_matrix A) <> 0.
Proof. exact (ex_intro _ _ (ex_intro _ _ regular_refused_system)). Qed.
Print Assumptions flsys_regular_refuted.

(** And the answer can be true with a vector that has no number in it. *)
Theorem flsys_last_refuted : exists (A B lu X : nat -> nat -> binary_float 53 1024), fl_linear_solve A 2 1 0 B = Some (true, lu, X) /\ is_finite (X 0%nat 0%nat) = false /\ is_finite (X 1%nat 0%nat) = false.
Proof. exact (ex_intro _ _ (ex_intro _ _ last_pivot)). Qed.
Print Assumptions flsys_last_refuted.

(** The hypotheses can be met. *)
Example flsys_applies : exists lu X, fl_linear_solve plain_plu 3 1 0 (rhs3 1 2 4) = Some (true, lu, X) /\ (forall r c, (r < 3)%nat -> (c < 3)%nat -> is_finite (lu r c) = true) /\ forall r, (r < 3)%nat -> is_finite (X r 0%nat) = true.
Proof. exact plain_system. Qed.
