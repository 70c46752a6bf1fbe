(** Zonal functions: functions on the sphere that depend only on the cosine x of the angle from the pole. *)
From Coq Require Import Reals.
From Verif Require Import PerlinSpec BasisModel BasisSpec.
Open Scope R_scope.

(** The function with n bands and coefficients c. *)
Definition zonal_fn (n : nat) (c : nat -> R) (x : R) : R := rsum n (fun l => c l * legendre l x).
(** Its integral over the unit sphere is v: each ring of height dx has area 2 pi dx. *)
Definition zonal_integral (f : R -> R) (v : R) : Prop := integral (fun x => 2 * PI * f x) (-1) 1 v.
(** c is coefficient l of a function that is f between a and b and zero elsewhere: (2 l + 1) / 2 times the integral of f P(l). *)
Definition zonal_coefficient (f : R -> R) (a b : R) (l : nat) (c : R) : Prop :=
  exists v, integral (fun x => f x * legendre l x) a b v /\ c = (2 * INR l + 1) / 2 * v.
