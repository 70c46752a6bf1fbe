(** Real roots of quadratic equations, and the range in which floating-point arithmetic neither overflows nor loses bits to underflow. *)
From Coq Require Import Reals ZArith.
From Flocq Require Import Core BinarySingleNaN.
From Verif Require Import FmaSpec.
Open Scope R_scope.

(** The real polynomial a x^2 + b x + c is a (x - r0) (x - r1). *)
Definition roots_of (a b c r0 r1 : R) : Prop := forall x : R, a * (x * x) + b * x + c = a * ((x - r0) * (x - r1)).
(** It has a real zero. *)
Definition has_root (a b c : R) : Prop := exists x : R, a * (x * x) + b * x + c = 0.

Section Spec.
Variable prec emax : Z.
Notation float := (binary_float prec emax).
(** The coefficients are numbers, and neither product in the discriminant is so large that it may overflow, or so small (but not 0)
    that bits of it are lost. *)
Definition coefficients_ok (a b c : float) : Prop :=
  is_finite a = true /\ is_finite b = true /\ is_finite c = true /\
  Rabs (4 * B2R a) < bpow radix2 emax /\ Rabs (B2R b * B2R b) <= bpow radix2 (emax - 3) /\ Rabs (4 * B2R a * B2R c) <= bpow radix2 (emax - 3) /\
  (B2R a * B2R c = 0 \/ bpow radix2 (emin prec emax + 2 * prec) <= Rabs (4 * B2R a * B2R c)).
(** The discriminant is 0 or at least the least normal number. *)
Definition discriminant_ok (a b c : R) : Prop := b * b - 4 * a * c = 0 \/ bpow radix2 (emin prec emax + prec - 1) <= b * b - 4 * a * c.
(** A real number that is 0, or well inside the range of normal floating-point numbers. *)
Definition representable (r : R) : Prop := r = 0 \/ bpow radix2 (emin prec emax + prec) <= Rabs r <= bpow radix2 (emax - 1).
(** The result is a number, with relative error at most k times 2^-prec. *)
Definition relative_to (k : R) (x : float) (r : R) : Prop := is_finite x = true /\ Rabs (B2R x - r) <= k * bpow radix2 (- prec) * Rabs r.
End Spec.
Arguments relative_to {prec emax}. Arguments coefficients_ok {prec emax}.
