(** Projections on an axis in floating point: how near they are, and where they fail. *)
From Coq Require Import Reals ZArith Lia Lra.
From Flocq Require Import Core BinarySingleNaN.
From Verif Require Import FmaModel FmaSpec FmaProofs FquadModel FvecModel FvecSpec FprojModel FprojSpec FprojProofs FprojWit.
Open Scope R_scope.

Section Props.
Variable prec emax : Z.
Context {Hp : Prec_gt_0 prec} {He : Prec_lt_emax prec emax}.
Notation float := (binary_float prec emax).
Notation vector := (nat -> float).

(** fraction_on: what is left of x after the fraction f of the axis is taken off is nearly orthogonal to the axis. *)
Theorem flproj_fraction (N : nat) (x a : vector) : (forall i, (i < N)%nat -> is_finite (x i) = true /\ is_finite (a i) = true) -> is_finite (fl_mag2 N a) = true -> is_finite (fl_fraction_on N x a) = true ->
  let f := B2R (fl_fraction_on N x a) in
  Rabs (exact_dot N x a - f * exact_dot N a a) <= sum_error prec emax N (sum_of_sizes N x a) + Rabs f * sum_error prec emax (S N) (exact_dot N a a) +
    (exact_dot N a a + sum_error prec emax N (exact_dot N a a)) * bpow radix2 (emin prec emax - 1).
Proof. exact (fraction_error prec emax N x a). Qed.
Print Assumptions flproj_fraction.

(** project_on: every element, times the squared length of the axis, is nearly that of the axis times the dot product. *)
Theorem flproj_project (N : nat) (x a : vector) : (forall i, (i < N)%nat -> is_finite (x i) = true /\ is_finite (a i) = true) -> is_finite (fl_mag2 N a) = true -> B2R (fl_mag2 N a) <> 0 ->
  forall k, is_finite (fl_project_on N x a k) = true -> let p := B2R (fl_project_on N x a k) in
  Rabs (p * exact_dot N a a - B2R (a k) * exact_dot N x a) <= Rabs p * sum_error prec emax (S N) (exact_dot N a a) + Rabs (B2R (a k)) * sum_error prec emax (S N) (sum_of_sizes N x a) +
    (exact_dot N a a + sum_error prec emax N (exact_dot N a a) + 1) * bpow radix2 (emin prec emax - 1).
Proof. exact (project_error prec emax N x a). Qed.
Print Assumptions flproj_project.

(** If the computed squared length is zero, the axis itself is returned. *)
Theorem flproj_zero (N : nat) (x a : vector) : is_finite (fl_mag2 N a) = true -> B2R (fl_mag2 N a) = 0 -> forall k, fl_project_on N x a k = a k.
Proof. exact (project_zero prec emax N x a). Qed.
Print Assumptions flproj_zero.
End Props.

(** In doubles this happens with axes that are not zero: the projection of (1, 0) on (2^-600, 0) should be (1, 0), and is (2^-600, 0). *)
Theorem flproj_small_refuted : exists x a : nat -> binary_float 53 1024, B2R (a 0%nat) * exact_dot 2 x a / exact_dot 2 a a = 1 /\ B2R (fl_project_on 2 x a 0%nat) = bpow radix2 (-600).
Proof. exact (ex_intro _ _ (ex_intro _ _ project_small)). Qed.
Print Assumptions flproj_small_refuted.

(** The projection of (2^600, 0) on itself should be itself, and is not a number; nor is its fraction. *)
Theorem flproj_large_refuted : exists a : nat -> binary_float 53 1024, B2R (a 0%nat) * exact_dot 2 a a / exact_dot 2 a a = bpow radix2 600 /\
  is_nan (fl_project_on 2 a a 0%nat) = true /\ is_nan (fl_fraction_on 2 a a) = true.
Proof. exact (ex_intro _ _ project_large). Qed.
Print Assumptions flproj_large_refuted.

(** The hypotheses can be met. *)
Example flproj_applies : (forall i, (i < 2)%nat -> is_finite (plain_x i) = true /\ is_finite (plain_a i) = true) /\ is_finite (fl_mag2 2 plain_a) = true /\ B2R (fl_mag2 2 plain_a) <> 0 /\
  (forall k, (k < 2)%nat -> is_finite (fl_project_on 2 plain_x plain_a k) = true) /\ is_finite (fl_fraction_on 2 plain_x plain_a) = true.
Proof. exact plain_runs. Qed.
