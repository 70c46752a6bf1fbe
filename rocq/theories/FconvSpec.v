(** Accuracy of conversions of angles and of cubic interpolation. *)
From Coq Require Import Reals ZArith.
From Flocq Require Import Core BinarySingleNaN.
From Verif Require Import FmaSpec FutilSpec.
Open Scope R_scope.

(** The angle of so many degrees, in radians, and back. *)
Definition in_radians (x : R) : R := x * PI / 180.
Definition in_degrees (x : R) : R := x * 180 / PI.
(** A double that is 0 or stays clear of underflow and overflow. *)
Definition ordinary (x : binary_float 53 1024) : Prop := is_finite x = true /\ (B2R x = 0 \/ bpow radix2 (-1000) <= Rabs (B2R x) <= bpow radix2 1000).
(** [r] is [x] but for a relative error of [k] roundings of doubles. *)
Definition relatively (k : R) (r : binary_float 53 1024) (x : R) : Prop := is_finite r = true /\ Rabs (B2R r - x) <= k * bpow radix2 (-53) * Rabs x.
(** Cubic interpolation in the unit interval returns at most 5/4 of the largest value; the computed one, at most: *)
Definition cubic_growth (prec : Z) : R := 5 / 4 + 150 * unit_roundoff prec.
