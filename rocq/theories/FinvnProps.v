(** Inverting matrices of any size in floating point: how far A X is from the unit matrix, and what the returned flag says. *)
From Coq Require Import Reals ZArith Lia Lra.
From Flocq Require Import Core BinarySingleNaN.
From Verif Require Import PermSpec FmaModel FmaSpec FmaProofs FquadModel FsolveSpec FpluModel FpluSpec FlsysSpec FinvnModel FinvnSpec FinvnProofs FinvnWit.
Open Scope R_scope.

Section Props.
Variable prec emax : Z.
Context {Hp : Prec_gt_0 prec} {He : Prec_lt_emax prec emax}.
Notation float := (binary_float prec emax).
Notation matrix := (nat -> nat -> float).

(** If the result and the decomposed matrix have no infinity and no NaN, every element of A X is within the bound of that of the unit
    matrix (the rows are visited in some order p). *)
Theorem flinvn_residual (out A X : matrix) (n : nat) : (3 <= emax)%Z -> fl_invNxN out A n = (true, X) -> let lu := fl_lu (fl_decomp_plu A n n) in
  (forall r c, (r < n)%nat -> (c < n)%nat -> is_finite (lu r c) = true) -> (forall r c, (r < n)%nat -> (c < n)%nat -> is_finite (X r c) = true) ->
  exists p, is_perm n p /\ forall r i, (r < n)%nat -> (i < n)%nat ->
    Rabs ((if Nat.eqb (p r) i then 1 else 0) - row_times n A (fun c => B2R (X c i)) (p r)) <= system_bound n lu (fun c => X c i) r.
Proof. exact (inverted prec emax out A X n). Qed.
Print Assumptions flinvn_residual.

(** The numbers of one column are enough to know that no pivot was zero, the last, which is never tested, included. *)
Theorem flinvn_pivots (out A X : matrix) (n : nat) : fl_invNxN out A n = (true, X) -> let lu := fl_lu (fl_decomp_plu A n n) in
  (forall r, (r < n)%nat -> is_finite (lu r r) = true) -> forall i, (i < n)%nat -> (forall r, (r < n)%nat -> is_finite (X r i) = true) -> forall r, (r < n)%nat -> B2R (lu r r) <> 0.
Proof. exact (inverted_pivots prec emax out A X n). Qed.
Print Assumptions flinvn_pivots.

(** The flag is that of the decomposition; on refusal the output is as it was; otherwise it does not depend on what it held. *)
Theorem flinvn_flag (out A : matrix) (n : nat) : fst (fl_invNxN out A n) = Nat.eqb (fl_degenerate (fl_decomp_plu A n n)) 0.
Proof. exact (inv_flag prec emax out A n). Qed.
Print Assumptions flinvn_flag.
Theorem flinvn_refusal (out A X : matrix) (n : nat) : fl_invNxN out A n = (false, X) -> X = out.
Proof. exact (inv_refused prec emax out A X n). Qed.
Print Assumptions flinvn_refusal.
Theorem flinvn_overwrites (out out' A X : matrix) (n : nat) : fl_invNxN out A n = (true, X) -> fl_invNxN out' A n = (true, X).
Proof. exact (inv_output prec emax out out' A n X). Qed.
Print Assumptions flinvn_overwrites.
End Props.

(** In doubles, a 5 x 5 matrix without an inverse is "inverted" into numbers. *)
Theorem flinvn_singular_refuted : exists out A : nat -> nat -> binary_float 53 1024,
  (forall r c, (r < 5)%nat -> (c < 5)%nat -> is_finite (snd (fl_invNxN out A 5) r c) = true) /\ fst (fl_invNxN out A 5) = true /\ ~ exists X, right_inverse 5 A X.
Proof. exact (ex_intro _ _ (ex_intro _ _ singular5_inverted)). Qed.
Print Assumptions flinvn_singular_refuted.

(** One with an inverse is refused. *)
Theorem flinvn_regular_refuted : exists (out A : nat -> nat -> binary_float 53 1024) (X : nat -> nat -> R), fl_invNxN out A 5 = (false, out) /\ right_inverse 5 A X.
Proof. exact (ex_intro _ _ (ex_intro _ _ (ex_intro _ _ regular5_refused))). Qed.
Print Assumptions flinvn_regular_refuted.

(** And one with a row of zeros at its end is answered with true and a result that has an element that is no number. *)
Theorem flinvn_last_refuted : exists out A : nat -> nat -> binary_float 53 1024, fst (fl_invNxN out A 5) = true /\ is_finite (snd (fl_invNxN out A 5) 4%nat 4%nat) = false.
Proof. exact (ex_intro _ _ (ex_intro _ _ last5_inverted)). Qed.
Print Assumptions flinvn_last_refuted.

(** The hypotheses can be met. *)
Example flinvn_applies : fst (fl_invNxN blank plain5 5) = true /\ (forall r c, (r < 5)%nat -> (c < 5)%nat -> is_finite (fl_lu (fl_decomp_plu plain5 5 5) r c) = true) /\ (forall r c, (r < 5)%nat -> (c < 5)%nat -> is_finite (snd (fl_invNxN blank plain5 5) r c) = true).
Proof. exact plain5_runs. Qed.
