(** The real spherical harmonics and functions on the unit sphere.  A point of the sphere is given by x, the cosine of its angle
    from the pole, and phi, its angle around the pole. *)
From Coq Require Import Reals ZArith.
From Verif Require Import Vec3Model PerlinSpec BasisSpec ShModel.
Open Scope R_scope.

(** The associated Legendre function: (-1)^m (1 - x^2)^(m/2) times the (l + m)-th derivative of (x^2 - 1)^l / (2^l l!). *)
Definition is_assoc (l m : nat) (p : R -> R) : Prop :=
  exists d, nth_deriv (l + m) (rodrigues l) d /\ forall x, -1 <= x <= 1 -> p x = (-1) ^ m * sqrt (1 - x ^ 2) ^ m * d x.
(** The normalised harmonic of band l and sub-band m, |m| <= l. *)
Definition harmonic (l : nat) (m : Z) (p : R -> R) (x phi : R) : R :=
  let a := Z.abs_nat m in
  let k := sqrt ((2 * INR l + 1) / (4 * PI) * (INR (fact (l - a)) / INR (fact (l + a)))) in
  if (m =? 0)%Z then k * p x else if (0 <? m)%Z then sqrt 2 * k * cos (INR a * phi) * p x else sqrt 2 * k * sin (INR a * phi) * p x.
(** The integral over the sphere: ring by ring (the area of a piece of a ring is dx dphi). *)
Definition sphere_integral (f : R -> R -> R) (v : R) : Prop :=
  exists g, (forall x, -1 <= x <= 1 -> integral (f x) 0 (2 * PI) (g x)) /\ integral g (-1) 1 v.
(** The value of the library's basis function, and the function with given coefficients. *)
Definition Y (l : nat) (m : Z) (x phi : R) : R := match sh_coeff l m x phi with Some v => v | None => 0 end.
Definition sh_fn (n : nat) (c : nat -> R) (x phi : R) : R :=
  rsum n (fun l => rsum (2 * l + 1) (fun j => c (l * l + j)%nat * Y l (Z.of_nat j - Z.of_nat l) x phi)).
(** The direction of d is the point (x, phi) of the sphere. *)
Definition at_angles (d : v3) (x phi : R) : Prop :=
  vx d = mag3 d * sqrt (1 - x * x) * cos phi /\ vy d = mag3 d * sqrt (1 - x * x) * sin phi /\ vz d = mag3 d * x.
