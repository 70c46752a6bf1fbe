(** Boxes on the line of numbers. *)
From Coq Require Import Reals ZArith.
From Flocq Require Import Core BinarySingleNaN.
From Verif Require Import FmaSpec FvecSpec FboxModel.
Open Scope R_scope.

Section Spec.
Context {prec emax : Z}.
Notation float := (binary_float prec emax).
(** The place of a datum which is not NaN on the line: infinities lie beyond all numbers. *)
Definition place (x : float) : R := match x with B754_infinity s => if s then - bpow radix2 emax else bpow radix2 emax | _ => B2R x end.
Definition not_nan (N : nat) (p : nat -> float) : Prop := forall i, (i < N)%nat -> is_nan (p i) = false.
Definition all_finite (N : nat) (p : nat -> float) : Prop := forall i, (i < N)%nat -> is_finite (p i) = true.
(** The extremes are not NaN; the extremes are numbers. *)
Definition proper (N : nat) (b : fl_box prec emax) : Prop := not_nan N (fl_lo b) /\ not_nan N (fl_hi b).
Definition bounded_box (N : nat) (b : fl_box prec emax) : Prop := all_finite N (fl_lo b) /\ all_finite N (fl_hi b).
(** The point lies between the extremes on every axis. *)
Definition in_box (N : nat) (b : fl_box prec emax) (p : nat -> float) : Prop := forall i, (i < N)%nat -> is_nan (p i) = false /\ place (fl_lo b i) <= place (p i) <= place (fl_hi b i).
(** Some point of numbers lies in it: no axis is reversed. *)
Definition upright (N : nat) (b : fl_box prec emax) : Prop := forall i, (i < N)%nat -> place (fl_lo b i) <= place (fl_hi b i).
(** Rounding to nearest, ties to even; and beyond the range of numbers, to the place of the infinity. *)
Definition nearest (x : R) : R := round radix2 (FLT_exp (FmaSpec.emin prec emax) prec) ZnearestE x.
Definition clamped_nearest (x : R) : R := Rmax (- bpow radix2 emax) (Rmin (bpow radix2 emax) (nearest x)).
(** The parameter at which a ray passes the plane at coordinate e, rounded at each step. *)
Definition passes (e o d : float) : R := clamped_nearest (nearest (B2R e - B2R o) / B2R d).
End Spec.
