(** Accuracy of the floating-point helpers of Utils.h. *)
From Coq Require Import Reals ZArith.
From Flocq Require Import Core BinarySingleNaN.
From Verif Require Import FmaSpec.
Open Scope R_scope.

Section Spec.
Variable prec emax : Z.
(** The least positive number with a full mantissa. *)
Definition least_normal : R := bpow radix2 (emin prec emax + prec - 1).
(** The size of rounding errors: half the distance from 1 to the next number. *)
Definition unit_roundoff : R := bpow radix2 (- prec).
(** A number that is not an infinity or NaN and stays clear of overflow. *)
Definition moderate (x : binary_float prec emax) : Prop := is_finite x = true /\ Rabs (B2R x) <= bpow radix2 (emax - 6).
(** A modulus: a positive number with a full mantissa. *)
Definition modulus (b : binary_float prec emax) : Prop := moderate b /\ least_normal <= B2R b.
(** [x] and [y] differ by a multiple of [b], but for an error of at most [e]. *)
Definition congruent_within (b e x y : R) : Prop := exists k : Z, Rabs (x - (y + IZR k * b)) <= e.
End Spec.
Arguments moderate {prec emax}. Arguments modulus {prec emax}.
