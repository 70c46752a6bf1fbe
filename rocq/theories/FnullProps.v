(** Null spaces in floating point: how small the dot products with the given vectors are, and what the flag says. *)
From Coq Require Import Reals ZArith Lia Lra.
From Flocq Require Import Core BinarySingleNaN.
From Verif Require Import PermSpec FmaModel FmaSpec FmaProofs FquadModel FvecSpec FpluModel FpluSpec FlsysSpec ForthSpec ForthWit FnullModel FnullSpec FnullProofs FnullWit.
Open Scope R_scope.

Section Props.
Variable prec emax : Z.
Context {Hp : Prec_gt_0 prec} {He : Prec_lt_emax prec emax}.
Notation float := (binary_float prec emax).
Notation matrix := (nat -> nat -> float).

(** If the flag is set and the decomposed vectors have no infinity and no NaN, the dot products of every null vector of numbers with all
    given vectors (they are visited in some order p) are within the bound. *)
Theorem flnull_dots (N n : nat) (v : matrix) : (3 <= emax)%Z -> (n + 2 <= N)%nat -> let d := fl_decomp_plu v n N in let X := snd (fl_nullspace N n v) in fst (fl_nullspace N n v) = true ->
  (forall r c, (r < n)%nat -> (c < N)%nat -> is_finite (fl_lu d r c) = true) ->
  exists p, is_perm n p /\ forall b, (b < N - n)%nat -> (forall c, (c < N)%nat -> is_finite (X b c) = true) ->
    forall r, (r < n)%nat -> B2R (fl_lu d r r) <> 0 /\ Rabs (row_times N v (fun c => B2R (X b c)) (p r)) <= null_bound N n (fl_lu d) (X b) r.
Proof. exact (nullspace_small prec emax N n v). Qed.
Print Assumptions flnull_dots.

(** If the flag is set, the last N - n components of the null vectors are those of a unit matrix, so the null vectors are independent. *)
Theorem flnull_unit (N n : nat) (v : matrix) : (3 <= emax)%Z -> (n + 2 <= N)%nat -> fst (fl_nullspace N n v) = true ->
  forall b c, (n <= c < N)%nat -> (b < N - n)%nat -> B2R (snd (fl_nullspace N n v) b c) = if Nat.eqb c (n + b) then 1 else 0.
Proof. exact (nullspace_unit prec emax N n v). Qed.
Print Assumptions flnull_unit.

(** If it is not set, they are all zero. *)
Theorem flnull_false (N n : nat) (v : matrix) : fst (fl_nullspace N n v) = false -> forall b c, B2R (snd (fl_nullspace N n v) b c) = 0.
Proof. exact (nullspace_false prec emax N n v). Qed.
Print Assumptions flnull_false.
End Props.

(** In doubles, independent vectors are refused. *)
Theorem flnull_independent_refuted : exists v : nat -> nat -> binary_float 53 1024, independent 3 5 v /\ fst (fl_nullspace 5 3 v) = false.
Proof. exact (ex_intro _ _ null_independent). Qed.
Print Assumptions flnull_independent_refuted.

(** Dependent ones are accepted, and not answered with zero vectors. *)
Theorem flnull_dependent_refuted : exists v : nat -> nat -> binary_float 53 1024, ~ independent 3 5 v /\ fst (fl_nullspace 5 3 v) = true /\ B2R (snd (fl_nullspace 5 3 v) 0%nat 3%nat) = 1.
Proof. exact (ex_intro _ _ null_dependent). Qed.
Print Assumptions flnull_dependent_refuted.

(** The zero vector alone is accepted, and answered with a NaN. *)
Theorem flnull_nan_refuted : exists v : nat -> nat -> binary_float 53 1024, ~ independent 1 3 v /\ fst (fl_nullspace 3 1 v) = true /\ snd (fl_nullspace 3 1 v) 0%nat 0%nat = B754_nan.
Proof. exact (ex_intro _ _ null_nan). Qed.
Print Assumptions flnull_nan_refuted.

(** The hypotheses can be met. *)
Example flnull_applies : fst (fl_nullspace 5 2 plain25) = true /\ (forall r c, (r < 2)%nat -> (c < 5)%nat -> is_finite (fl_lu (fl_decomp_plu plain25 2 5) r c) = true) /\
  (forall b c, (b < 5 - 2)%nat -> (c < 5)%nat -> is_finite (snd (fl_nullspace 5 2 plain25) b c) = true).
Proof. exact plain25_runs. Qed.
