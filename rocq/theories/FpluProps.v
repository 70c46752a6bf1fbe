(** The PLU decomposition in floating point: its backward error, and what the count of degenerate lines says. *)
From Coq Require Import Reals ZArith Lia Lra.
From Flocq Require Import Core BinarySingleNaN.
From Verif Require Import PermSpec FmaModel FmaSpec FmaProofs FquadModel FinvSpec FsolveSpec FpluModel FpluSpec FpluProofs FpluMore FpluWit.
Open Scope R_scope.

Section Props.
Variable prec emax : Z.
Context {Hp : Prec_gt_0 prec} {He : Prec_lt_emax prec emax}.
Notation float := (binary_float prec emax).
Notation matrix := (nat -> nat -> float).

(** If the result has no infinity and no NaN, neither had the matrix; the row order is a permutation of the given parity; and L U is close to the reordered matrix. *)
Theorem flplu_accurate (A : matrix) (rows cols : nat) : (rows <= cols)%nat -> let d := fl_decomp_plu A rows cols in
  (forall r c, (r < rows)%nat -> (c < cols)%nat -> is_finite (fl_lu d r c) = true) ->
  (forall r c, (r < rows)%nat -> (c < cols)%nat -> is_finite (A r c) = true) /\ (exists k, by_swaps rows k (fl_reorder d) /\ fl_parity d = Nat.odd k) /\
  forall r c, (r < rows)%nat -> (c < cols)%nat -> Rabs (B2R (A (fl_reorder d r) c) - lu_product rows (fl_lu d) r c) <= plu_bound rows (fl_lu d) r c.
Proof. intros L d F. destruct (decomposed prec emax A rows cols L F) as (H1 & H2 & H3 & _). auto. Qed.
Print Assumptions flplu_accurate.

(** Whatever the elements and the shape, infinities and NaNs included, the order is a permutation of the rows, of the returned parity. *)
Theorem flplu_order (A : matrix) (rows cols : nat) : let d := fl_decomp_plu A rows cols in exists k, by_swaps rows k (fl_reorder d) /\ fl_parity d = Nat.odd k.
Proof. exact (ordered prec emax A rows cols). Qed.
Print Assumptions flplu_order.

(** The multipliers never exceed 1, for pivots are the greatest of their columns. *)
Theorem flplu_multipliers (A : matrix) (rows cols : nat) : (rows <= cols)%nat -> let d := fl_decomp_plu A rows cols in
  (forall r c, (r < rows)%nat -> (c < cols)%nat -> is_finite (fl_lu d r c) = true) -> forall r c, (c < r < rows)%nat -> Rabs (B2R (fl_lu d r c)) <= 1.
Proof. intros L d F. apply (decomposed prec emax A rows cols L F). Qed.
Print Assumptions flplu_multipliers.

(** If no line is reported degenerate, no pivot but perhaps the last is zero. *)
Theorem flplu_pivots (A : matrix) (rows cols : nat) : (rows <= cols)%nat -> let d := fl_decomp_plu A rows cols in
  (forall r c, (r < rows)%nat -> (c < cols)%nat -> is_finite (fl_lu d r c) = true) -> fl_degenerate d = 0%nat -> forall k, (k < rows - 1)%nat -> B2R (fl_lu d k k) <> 0.
Proof. intros L d F. apply (decomposed prec emax A rows cols L F). Qed.
Print Assumptions flplu_pivots.
End Props.

(** In doubles, the count does not tell regular from singular matrices: one with a determinant that is not zero is reported degenerate. *)
Theorem flplu_regular_refuted : exists m : nat -> nat -> binary_float 53 1024, let d := fl_decomp_plu m 3 3 in
  (forall r c, (r < 3)%nat -> (c < 3)%nat -> is_finite (fl_lu d r c) = true) /\ exact_det3 (real_matrix m) <> 0 /\ fl_degenerate d = 1%nat.
Proof. exact (ex_intro _ _ regular_reported). Qed.
Print Assumptions flplu_regular_refuted.

(** And one with determinant zero is not, though no pivot of the result, not even the last, is zero. *)
Theorem flplu_singular_refuted : exists m : nat -> nat -> binary_float 53 1024, let d := fl_decomp_plu m 3 3 in
  (forall r c, (r < 3)%nat -> (c < 3)%nat -> is_finite (fl_lu d r c) = true) /\ exact_det3 (real_matrix m) = 0 /\ fl_degenerate d = 0%nat /\ forall k, (k < 3)%nat -> B2R (fl_lu d k k) <> 0.
Proof. exact (ex_intro _ _ singular_missed). Qed.
Print Assumptions flplu_singular_refuted.

(** The hypotheses can be met, by a matrix whose rows are exchanged. *)
Example flplu_applies : let d := fl_decomp_plu plain_plu 3 3 in (forall r c, (r < 3)%nat -> (c < 3)%nat -> is_finite (fl_lu d r c) = true) /\ fl_degenerate d = 0%nat /\ fl_reorder d 0%nat = 2%nat.
Proof. exact plain_runs. Qed.
