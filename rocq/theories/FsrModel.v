(** Rays and spheres in floating point (see FsphModel.v for spheres, FquadModel.v for quadratic equations). *)
From Coq Require Import Reals ZArith.
From Flocq Require Import Core BinarySingleNaN.
From Verif Require Import FmaModel FquadModel FvecModel FboxModel FsphModel.

Section Model.
Variable prec emax : Z.
Context {Hprec : Prec_gt_0 prec} {Hemax : Prec_lt_emax prec emax}.
Notation float := (binary_float prec emax).
Notation vector := (nat -> float).
(** Sphere.h:101-107: the coefficients a, b and c of the equation, of the ray with origin o and direction d. *)
Definition fl_ray_a (N : nat) (d : vector) : float := fl_mag2 N d.
Definition fl_ray_b (N : nat) (s : fl_sphere prec emax) (o d : vector) : float :=
  fl_mul prec emax (fl_lit prec emax (-2) 0) (fl_dot N d (fl_vsub prec emax (fl_center s) o)).
Definition fl_ray_c (N : nat) (s : fl_sphere prec emax) (o : vector) : float :=
  fl_sub prec emax (fl_mag2 N (fl_vsub prec emax (fl_center s) o)) (fl_mul prec emax (fl_radius s) (fl_radius s)).
(** Sphere.h:100-116: intersect: the extremes of the interval of parameters. [None]: the empty interval. *)
Definition fl_sphere_ray (N : nat) (s : fl_sphere prec emax) (o d : vector) : option (float * float) :=
  match fl_quadratic_solve (fl_ray_a N d) (fl_ray_b N s o d) (fl_ray_c N s o) with
  | Some (r0, r1) => Some (fl_min prec emax r0 r1, fl_max prec emax r0 r1)
  | None => None
  end.
End Model.
Arguments fl_ray_a {prec emax Hprec Hemax}. Arguments fl_ray_b {prec emax Hprec Hemax}. Arguments fl_ray_c {prec emax Hprec Hemax}. Arguments fl_sphere_ray {prec emax Hprec Hemax}.
