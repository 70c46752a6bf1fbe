(** Exact determinants and inverses, and the range in which nothing overflows or underflows. *)
From Coq Require Import Reals ZArith.
From Flocq Require Import Core BinarySingleNaN.
From Verif Require Import FmaSpec.
Open Scope R_scope.

(** X is an inverse of the N x N matrix M (of real numbers). *)
Definition sum_to (N : nat) (f : nat -> R) : R := match N with 2%nat => f 0%nat + f 1%nat | 3%nat => f 0%nat + f 1%nat + f 2%nat | _ => 0 end.
Definition is_inverse (N : nat) (M X : nat -> nat -> R) : Prop := forall i j, (i < N)%nat -> (j < N)%nat -> sum_to N (fun k => M i k * X k j) = if Nat.eqb i j then 1 else 0.
(** The determinants. *)
Definition exact_det2 (a b c d : R) : R := a * d - b * c.
(** The minor of element (i, k): the determinant of what is left without row i and column k. *)
Definition skip (k n : nat) : nat := if Nat.ltb n k then n else S n.
Definition minor (M : nat -> nat -> R) (i k : nat) : R := exact_det2 (M (skip i 0) (skip k 0)) (M (skip i 0) (skip k 1)) (M (skip i 1) (skip k 0)) (M (skip i 1) (skip k 1)).
Definition exact_det3 (M : nat -> nat -> R) : R := M 0%nat 0%nat * minor M 0 0 - M 0%nat 1%nat * minor M 0 1 + M 0%nat 2%nat * minor M 0 2.
(** The sizes of the terms in the expansions along the first row and the first column. *)
Definition row_size (M : nat -> nat -> R) : R := sum_to 3 (fun k => Rabs (M 0%nat k * minor M 0 k)).
Definition column_size (M : nat -> nat -> R) : R := sum_to 3 (fun i => Rabs (M i 0%nat * minor M i 0)).

Section Spec.
Context {prec emax : Z}.
Notation float := (binary_float prec emax).
Definition real_matrix (m : nat -> nat -> float) : nat -> nat -> R := fun i j => B2R (m i j).
(** The elements are numbers, neither product overflows or loses bits to underflow, and nor does their difference. *)
Definition safe_det2 (a b c d : float) : Prop := is_finite a = true /\ is_finite b = true /\ is_finite c = true /\ is_finite d = true /\
  Rabs (B2R a * B2R d) <= bpow radix2 (emax - 3) /\ Rabs (B2R b * B2R c) <= bpow radix2 (emax - 3) /\ not_tiny prec emax (B2R b * B2R c) /\
  (let D := exact_det2 (B2R a) (B2R b) (B2R c) (B2R d) in D = 0 \/ bpow radix2 (emin prec emax + prec - 1) <= Rabs D).
(** All 2 x 2 minors of a 3 x 3 matrix are so. *)
Definition safe_minors (m : nat -> nat -> float) : Prop := forall i i' k k', (i < 3)%nat -> (i' < 3)%nat -> (k < 3)%nat -> (k' < 3)%nat -> i <> i' -> k <> k' -> safe_det2 (m i k) (m i k') (m i' k) (m i' k').
(** A product of an element and a minor: zero, or far from the least and the greatest numbers. *)
Definition roomy (x : R) : Prop := x = 0 \/ bpow radix2 (emin prec emax + 2 * prec) <= Rabs x <= bpow radix2 (emax - 4).
End Spec.
Arguments roomy prec emax : clear implicits.
