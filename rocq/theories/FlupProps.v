(** The LUP decomposition in floating point: its backward error, and where it is lost. *)
From Coq Require Import Reals ZArith Lia Lra.
From Flocq Require Import Core BinarySingleNaN.
From Verif Require Import PermSpec FmaModel FmaSpec FmaProofs FquadModel FsolveSpec FpluModel FpluSpec FpluWit FlupModel FlupProofs FlupWit.
Open Scope R_scope.

Section Props.
Variable prec emax : Z.
Context {Hp : Prec_gt_0 prec} {He : Prec_lt_emax prec emax}.
Notation float := (binary_float prec emax).
Notation matrix := (nat -> nat -> float).

(** If the result has no infinity and no NaN, neither had the matrix; and if no line is reported degenerate, L U is close to the matrix with reordered columns. *)
Theorem flup_accurate (A : matrix) (rows cols : nat) : (rows <= cols)%nat -> let d := fl_decomp_lup A rows cols in
  (forall r c, (r < rows)%nat -> (c < cols)%nat -> is_finite (fl_lu d r c) = true) ->
  (forall r c, (r < rows)%nat -> (c < cols)%nat -> is_finite (A r c) = true) /\ (fl_degenerate d = 0%nat ->
  forall r c, (r < rows)%nat -> (c < cols)%nat -> Rabs (B2R (A r (fl_reorder d c)) - lu_product rows (fl_lu d) r c) <= plu_bound rows (fl_lu d) r c).
Proof. intros L d F. destruct (ldecomposed prec emax A rows cols L F) as (H1 & H2). split; [exact H1|]. intros D. apply (H2 D). Qed.
Print Assumptions flup_accurate.

(** Whatever the elements and the shape, infinities and NaNs included, the order is a permutation of the columns, of the returned parity. *)
Theorem flup_order (A : matrix) (rows cols : nat) : let d := fl_decomp_lup A rows cols in exists k, by_swaps cols k (fl_reorder d) /\ fl_parity d = Nat.odd k.
Proof. exact (lordered prec emax A rows cols). Qed.
Print Assumptions flup_order.

(** If no line is reported degenerate, no pivot but perhaps the last is zero, and each is the greatest of its row. *)
Theorem flup_pivots (A : matrix) (rows cols : nat) : (rows <= cols)%nat -> let d := fl_decomp_lup A rows cols in
  (forall r c, (r < rows)%nat -> (c < cols)%nat -> is_finite (fl_lu d r c) = true) -> fl_degenerate d = 0%nat ->
  forall r, (r < rows - 1)%nat -> B2R (fl_lu d r r) <> 0 /\ forall c, (r <= c < cols)%nat -> Rabs (B2R (fl_lu d r c)) <= Rabs (B2R (fl_lu d r r)).
Proof. intros L d F D r R. destruct (ldecomposed prec emax A rows cols L F) as (_ & H2). destruct (H2 D) as (_ & H3 & H4). split; [now apply H4|]. intros c C. now apply H3. Qed.
Print Assumptions flup_pivots.
End Props.

(** With a line reported degenerate, an element can be lost altogether (as in exact arithmetic; decomp_plu does not lose it). *)
Theorem flup_degenerate_refuted : exists m : nat -> nat -> binary_float 53 1024, let d := fl_decomp_lup m 2 2 in
  (forall r c, (r < 2)%nat -> (c < 2)%nat -> is_finite (fl_lu d r c) = true) /\ fl_degenerate d = 1%nat /\ B2R (m 1%nat (fl_reorder d 0%nat)) = 1 /\ lu_product 2 (fl_lu d) 1 0 = 0.
Proof. exact (ex_intro _ _ zero_row_lost). Qed.
Print Assumptions flup_degenerate_refuted.

(** The multipliers are not bounded: a matrix of numbers, decomposed by decomp_plu into numbers, overflows without being reported. *)
Theorem flup_overflow_refuted : exists m : nat -> nat -> binary_float 53 1024, let d := fl_decomp_lup m 2 2 in
  (forall r c, (r < 2)%nat -> (c < 2)%nat -> is_finite (m r c) = true) /\ fl_degenerate d = 0%nat /\ is_finite (fl_lu d 1%nat 0%nat) = false /\
  forall r c, (r < 2)%nat -> (c < 2)%nat -> is_finite (fl_lu (fl_decomp_plu m 2 2) r c) = true.
Proof. exact (ex_intro _ _ steep_lost). Qed.
Print Assumptions flup_overflow_refuted.

(** The hypotheses can be met, by a matrix whose columns are exchanged. *)
Example flup_applies : let d := fl_decomp_lup plain_plu 3 3 in (forall r c, (r < 3)%nat -> (c < 3)%nat -> is_finite (fl_lu d r c) = true) /\ fl_degenerate d = 0%nat /\ fl_reorder d 0%nat = 2%nat.
Proof. exact plain_lup. Qed.
