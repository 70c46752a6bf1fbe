(** Accuracy of floating-point results. *)
From Coq Require Import Reals ZArith.
From Flocq Require Import Core BinarySingleNaN.
Open Scope R_scope.

Section Spec.
Context {prec emax : Z}.
(** The exponent of the least positive number. *)
Definition emin : Z := (3 - emax - prec)%Z.
(** A unit in the last place of a real number x: the distance between adjacent floating-point numbers around x. *)
Definition unit_last_place (x : R) : R := ulp radix2 (FLT_exp emin prec) x.
(** [r] is a number (not an infinity or NaN) within [k] units in the last place of x. *)
Definition within_ulps (k : R) (r : binary_float prec emax) (x : R) : Prop := is_finite r = true /\ Rabs (B2R r - x) <= k * unit_last_place x.
(** The product is zero or not so small that the low half of its bits is lost. *)
Definition not_tiny (x : R) : Prop := x = 0 \/ bpow radix2 (emin + 2 * prec - 1) <= Rabs x.
End Spec.
Arguments unit_last_place prec emax : clear implicits. Arguments not_tiny prec emax : clear implicits. Arguments emin prec emax : clear implicits.
