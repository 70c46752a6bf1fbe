(** Vectors orthogonal to N - 1 given ones in floating point: how small the dot products are, and what the zero vector says. *)
From Coq Require Import Reals ZArith Lia Lra.
From Flocq Require Import Core BinarySingleNaN.
From Verif Require Import PermSpec FmaModel FmaSpec FmaProofs FquadModel FvecSpec FpluModel FpluSpec FlsysSpec ForthModel ForthSpec ForthProofs ForthWit.
Open Scope R_scope.

Section Props.
Variable prec emax : Z.
Context {Hp : Prec_gt_0 prec} {He : Prec_lt_emax prec emax}.
Notation float := (binary_float prec emax).
Notation matrix := (nat -> nat -> float).

(** If no line is degenerate and the result and the decomposed vectors have no infinity and no NaN, the dot product with every given
    vector (they are visited in some order p) is within the bound. *)
Theorem florth_dots (N : nat) (v : matrix) : (2 <= N)%nat -> let d := fl_decomp_plu v (N - 1) N in let o := fl_orthogonal N v in fl_degenerate d = 0%nat ->
  (forall r c, (r < N - 1)%nat -> (c < N)%nat -> is_finite (fl_lu d r c) = true) -> (forall c, (c < N)%nat -> is_finite (o c) = true) ->
  exists p, is_perm (N - 1) p /\ forall r, (r < N - 1)%nat -> B2R (fl_lu d r r) <> 0 /\ Rabs (row_times N v (fun c => B2R (o c)) (p r)) <= ortho_bound N (fl_lu d) o r.
Proof. exact (orthogonal_small prec emax N v). Qed.
Print Assumptions florth_dots.

(** The last component of the result is 1, so it is not the zero vector. *)
Theorem florth_last (N : nat) (v : matrix) : (3 <= emax)%Z -> (2 <= N)%nat -> fl_degenerate (fl_decomp_plu v (N - 1) N) = 0%nat -> B2R (fl_orthogonal N v (N - 1)%nat) = 1.
Proof. exact (orthogonal_last prec emax N v). Qed.
Print Assumptions florth_last.

(** Otherwise the result is the zero vector. *)
Theorem florth_zero (N : nat) (v : matrix) : fl_degenerate (fl_decomp_plu v (N - 1) N) <> 0%nat -> forall c, fl_orthogonal N v c = fl_lit prec emax 0 0.
Proof. exact (orthogonal_zero prec emax N v). Qed.
Print Assumptions florth_zero.
End Props.

(** In doubles, the zero vector is returned for independent vectors. *)
Theorem florth_independent_refuted : exists v : nat -> nat -> binary_float 53 1024, independent 3 4 v /\ forall c, B2R (fl_orthogonal 4 v c) = 0.
Proof. exact (ex_intro _ _ independent_zero). Qed.
Print Assumptions florth_independent_refuted.

(** It is not returned for dependent ones. *)
Theorem florth_dependent_refuted : exists v : nat -> nat -> binary_float 53 1024, ~ independent 3 4 v /\ B2R (fl_orthogonal 4 v 3%nat) = 1.
Proof. exact (ex_intro _ _ dependent_nonzero). Qed.
Print Assumptions florth_dependent_refuted.

(** And for dependent ones the result may not consist of numbers: the last pivot is never tested. *)
Theorem florth_nan_refuted : exists v : nat -> nat -> binary_float 53 1024, ~ independent 3 4 v /\ fl_orthogonal 4 v 2%nat = B754_nan.
Proof. exact (ex_intro _ _ last_nan). Qed.
Print Assumptions florth_nan_refuted.

(** The hypotheses can be met. *)
Example florth_applies : let d := fl_decomp_plu plain34 3 4 in fl_degenerate d = 0%nat /\ (forall r c, (r < 3)%nat -> (c < 4)%nat -> is_finite (fl_lu d r c) = true) /\ (forall c, (c < 4)%nat -> is_finite (fl_orthogonal 4 plain34 c) = true).
Proof. exact plain34_runs. Qed.
