(** Gram-Schmidt in floating point: what is kept, how orthogonal neighbouring vectors are, and how far from it they may be. *)
From Coq Require Import Reals ZArith Lia Lra.
From Flocq Require Import Core BinarySingleNaN.
From Verif Require Import FmaModel FmaSpec FmaProofs FquadModel FvecModel FvecSpec FprojModel FprojSpec FgsModel FgsSpec FgsProofs FgsWit.
Open Scope R_scope.

Section Props.
Variable prec emax : Z.
Context {Hp : Prec_gt_0 prec} {He : Prec_lt_emax prec emax}.
Notation float := (binary_float prec emax).
Notation vector := (nat -> float).

(** The first vector, and those past the n-th, are not changed. *)
Theorem flgs_kept (N n : nat) (B : nat -> vector) (k : nat) : k = 0%nat \/ (n <= k)%nat -> fl_orthogonalize N n B k = B k.
Proof. exact (kept prec emax N n B k). Qed.
Print Assumptions flgs_kept.

(** One subtraction of a projection, y = x - p, makes the dot product with the axis as small as the bound says. *)
Theorem flgs_step (N : nat) (x a : vector) : let p := fl_project_on N x a in let y := fl_vsub prec emax x p in
  (forall i, (i < N)%nat -> is_finite (a i) = true /\ is_finite (y i) = true) -> is_finite (fl_mag2 N a) = true -> B2R (fl_mag2 N a) <> 0 ->
  Rabs (exact_dot N y a * exact_dot N a a) <= ortho_step_bound N x a p y.
Proof. exact (step_error prec emax N x a). Qed.
Print Assumptions flgs_step.

(** Every vector is reduced by its projections on all results before it, one after another. *)
Theorem flgs_chain (N n : nat) (B : nat -> vector) (i : nat) : (i < n)%nat -> let Q := fl_orthogonalize N n B in
  exists x : nat -> vector, x 0%nat = B i /\ x i = Q i /\ forall j, (j < i)%nat -> x (S j) = fl_vsub prec emax (x j) (fl_project_on N (x j) (Q j)).
Proof. exact (chain prec emax N n B i). Qed.
Print Assumptions flgs_chain.

(** The dot products of all neighbours in the result are as small as that: each is what such a subtraction leaves of a vector x, which for the second is the given one. *)
Theorem flgs_neighbours (N n : nat) (B : nat -> vector) (i : nat) : (S i < n)%nat -> let Q := fl_orthogonalize N n B in
  (forall k, (k < N)%nat -> is_finite (Q i k) = true /\ is_finite (Q (S i) k) = true) -> is_finite (fl_mag2 N (Q i)) = true -> B2R (fl_mag2 N (Q i)) <> 0 ->
  exists x, Q (S i) = fl_vsub prec emax x (fl_project_on N x (Q i)) /\ (i = 0%nat -> x = B 1%nat) /\
    Rabs (exact_dot N (Q (S i)) (Q i) * exact_dot N (Q i) (Q i)) <= ortho_step_bound N x (Q i) (fl_project_on N x (Q i)) (Q (S i)).
Proof. exact (neighbours prec emax N n B i). Qed.
Print Assumptions flgs_neighbours.
End Props.

(** The bound is not small against the vectors: in doubles, (1, 1, 1) and (1 + 2^-52, 1, 1) are turned into two vectors the square of whose cosine is 1/3. *)
Theorem flgs_orthogonal_refuted : exists B : nat -> nat -> binary_float 53 1024, let Q := fl_orthogonalize 3 2 B in
  (forall k, B2R (B 0%nat k) = 1) /\ (B2R (B 1%nat 0%nat) = 1 + bpow radix2 (-52) /\ B2R (B 1%nat 1%nat) = 1 /\ B2R (B 1%nat 2%nat) = 1) /\
  0 < exact_dot 3 (Q 1%nat) (Q 1%nat) /\ 3 * (exact_dot 3 (Q 1%nat) (Q 0%nat) * exact_dot 3 (Q 1%nat) (Q 0%nat)) = exact_dot 3 (Q 1%nat) (Q 1%nat) * exact_dot 3 (Q 0%nat) (Q 0%nat).
Proof. exact (ex_intro _ _ close_dots). Qed.
Print Assumptions flgs_orthogonal_refuted.

(** Nothing is done to (1, 1, 0) after the short vector (2^-600, 0, 0). *)
Theorem flgs_short_refuted : let Q := fl_orthogonalize 3 2 short in (forall k, (k < 3)%nat -> B2R (Q 1%nat k) = B2R (short 1 k)) /\ exact_dot 3 (Q 1%nat) (Q 0%nat) = bpow radix2 (-600).
Proof. exact short_dots. Qed.
Print Assumptions flgs_short_refuted.

(** The hypotheses can be met. *)
Example flgs_applies : let Q := fl_orthogonalize 3 3 plain_basis in forall i, (i < 2)%nat ->
  (forall k, (k < 3)%nat -> is_finite (Q i k) = true /\ is_finite (Q (S i) k) = true) /\ is_finite (fl_mag2 3 (Q i)) = true /\ B2R (fl_mag2 3 (Q i)) <> 0.
Proof. exact plain_basis_runs. Qed.
