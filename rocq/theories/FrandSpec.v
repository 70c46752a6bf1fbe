(** Random floating-point numbers of a range. *)
From Coq Require Import Reals ZArith.
From Flocq Require Import Core BinarySingleNaN.
From Verif Require Import FmaSpec FutilSpec.
Open Scope R_scope.

Section Spec.
Context {prec emax : Z}.
Notation float := (binary_float prec emax).
(** A number between 0 and 1. *)
Definition unit_number (r : float) : Prop := is_finite r = true /\ 0 <= B2R r <= 1.
(** A number between two others, in either order. *)
Definition number_between (x lo hi : float) : Prop := is_finite x = true /\ Rmin (B2R lo) (B2R hi) <= B2R x <= Rmax (B2R lo) (B2R hi).
(** The larger size of two numbers. *)
Definition larger (x y : float) : R := Rmax (Rabs (B2R x)) (Rabs (B2R y)).
(** What rand(), rand(hi), rand(lo, hi) promise, up to rounding; [uniform r lo hi] is the number that the draw [r] stands for. *)
Definition uniform (r lo hi : float) : R := B2R lo + B2R r * (B2R hi - B2R lo).
End Spec.
