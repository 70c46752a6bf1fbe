(** Spheres and half-spaces with floating-point elements (see FmaModel.v for the numbers and operators, FvecModel.v for vectors). *)
From Coq Require Import Reals ZArith.
From Flocq Require Import Core BinarySingleNaN.
From Verif Require Import FmaModel FquadModel FvecModel FboxModel.

Section Model.
Variable prec emax : Z.
Context {Hprec : Prec_gt_0 prec} {Hemax : Prec_lt_emax prec emax}.
Notation float := (binary_float prec emax).
Notation vector := (nat -> float).
(** The operator <=; false if either is NaN. *)
Definition fl_leb (x y : float) : bool := Bleb x y.
(** Sphere.h:24-27: the members. (For N = 1 the point is a bare number and its mag2 a plain product, which rounds alike.) *)
Record fl_sphere : Type := fl_mkSphere { fl_center : vector; fl_radius : float }.
(** Sphere.h:57-60: bounds. *)
Definition fl_sphere_bounds (s : fl_sphere) : fl_box prec emax :=
  fl_mkBox (fun i => fl_sub prec emax (fl_center s i) (fl_radius s)) (fun i => fl_add prec emax (fl_center s i) (fl_radius s)).
(** Sphere.h:63-65: contains. *)
Definition fl_sphere_contains (N : nat) (s : fl_sphere) (p : vector) : bool :=
  fl_leb (fl_mag2 N (fl_vsub prec emax (fl_center s) p)) (fl_mul prec emax (fl_radius s) (fl_radius s)).
(** Sphere.h:85-87: sdf. *)
Definition fl_sphere_sdf (N : nat) (s : fl_sphere) (p : vector) : float := fl_sub prec emax (fl_mag N (fl_vsub prec emax p (fl_center s))) (fl_radius s).
(** Plane.h:25-28: the members. *)
Record fl_plane : Type := fl_mkPlane { fl_normal : vector; fl_offset : float }.
(** Plane.h:53-55: the plane of a normal direction through a point. *)
Definition fl_plane_through (N : nat) (n pt : vector) : fl_plane := let u := fl_unit N n in fl_mkPlane u (fl_neg prec emax (fl_dot N pt u)).
(** Plane.h:104-106: distance, and 120-122: contains. *)
Definition fl_plane_distance (N : nat) (pl : fl_plane) (p : vector) : float := fl_add prec emax (fl_dot N (fl_normal pl) p) (fl_offset pl).
Definition fl_plane_contains (N : nat) (pl : fl_plane) (p : vector) : bool := fl_leb (fl_plane_distance N pl p) (fl_lit prec emax 0 0).
End Model.
Arguments fl_leb {prec emax}. Arguments fl_mkSphere {prec emax}. Arguments fl_center {prec emax}. Arguments fl_radius {prec emax}. Arguments fl_sphere_bounds {prec emax Hprec Hemax}.
Arguments fl_sphere_contains {prec emax Hprec Hemax}. Arguments fl_sphere_sdf {prec emax Hprec Hemax}. Arguments fl_mkPlane {prec emax}. Arguments fl_normal {prec emax}. Arguments fl_offset {prec emax}.
Arguments fl_plane_through {prec emax Hprec Hemax}. Arguments fl_plane_distance {prec emax Hprec Hemax}. Arguments fl_plane_contains {prec emax Hprec Hemax}.
