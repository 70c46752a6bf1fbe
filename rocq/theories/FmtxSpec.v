(** What products of matrices of floating-point numbers should be. *)
From Coq Require Import Reals ZArith.
From Flocq Require Import Core BinarySingleNaN.
From Verif Require Import FmaSpec FvecSpec.
Open Scope R_scope.

Section Spec.
Context {prec emax : Z}.
Notation float := (binary_float prec emax).
(** The same datum, but for the sign of a zero. *)
Definition same_number (x y : float) : Prop := x = y \/ (is_finite x = true /\ is_finite y = true /\ B2R x = 0 /\ B2R y = 0).
(** The k terms are numbers. *)
Definition numbers (k : nat) (v : nat -> float) : Prop := forall i, (i < k)%nat -> is_finite (v i) = true.
(** An integer. *)
Definition integral (x : float) : Prop := is_finite x = true /\ exists m : Z, B2R x = IZR m.
(** The error of a sum of k rounded products and a start value, where [size] is the sum of the absolute values of the exact ones:
    k + 1 roundings of [size], and the least numbers lost by products which underflow. *)
Definition product_error_bound (k : nat) (size : R) : R := (step prec ^ (k + 1) - 1) * size + INR k * step prec ^ (k + 1) * bpow radix2 (emin prec emax - 1).
End Spec.
Arguments product_error_bound prec emax k size : clear implicits.
(** The matrix w x; y z (used with the numbers of that value). *)
Definition matrix2 {T : Type} (w x y z : T) (r c : nat) : T := match r, c with O, O => w | O, _ => x | _, O => y | _, _ => z end.
