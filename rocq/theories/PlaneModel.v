(** Model of geomc/shape/Plane.h over exact reals; [None] is a division by zero (no number in C++). *)
From Coq Require Import Reals Arith List.
From Verif Require Import VecNModel Fld RFld OrthoModel AffineModel SphereModel.
Open Scope R_scope.

(** Plane.h:26-28: normal, d. *)
Record plane : Type := mkPlane { pl_n : vec; pl_d : R }.
(** Plane.h:38: the default plane; 44-46: Plane(n); 53-55: Plane(n, pt). *)
Definition plane_default : plane := mkPlane (fun i => if (i =? 0)%nat then 1 else 0) 0.
Definition plane_normal (N : nat) (n : vec) : option plane := match unit_vec N n with Some u => Some (mkPlane u 0) | None => None end.
Definition plane_through (N : nat) (n pt : vec) : option plane :=
  match unit_vec N n with Some u => Some (mkPlane u (- dot N pt u)) | None => None end.
(** Plane.h:66-68 and 76-78: from_basis. *)
Definition plane_from_basis0 (bigger : R -> R -> bool) (N : nat) (bases : nat -> vec) : option plane :=
  match @orthogonal_any R_field bigger N bases with Some n => plane_normal N n | None => None end.
Definition plane_from_basis (bigger : R -> R -> bool) (N : nat) (bases : nat -> vec) (p : vec) : option plane :=
  match @orthogonal_any R_field bigger N bases with Some n => plane_through N n p | None => None end.
(** Plane.h:86-94: from_simplex. *)
Definition plane_from_simplex (bigger : R -> R -> bool) (N : nat) (points : nat -> vec) : option plane :=
  plane_from_basis bigger N (fun i => vec_sub (points (S i)) (points 0%nat)) (points 0%nat).
(** Plane.h:104-106: distance; 111-113: sdf; 120-122: contains. *)
Definition plane_distance (N : nat) (pl : plane) (p : vec) : R := dot N (pl_n pl) p + pl_d pl.
Definition plane_contains (N : nat) (pl : plane) (p : vec) : bool := Rleb (plane_distance N pl p) 0.
(** Plane.h:129-132: contains(shape); [support] is the shape's convex_support. *)
Definition plane_contains_shape (N : nat) (pl : plane) (support : vec -> vec) : bool :=
  Rleb (dot N (support (pl_n pl)) (pl_n pl)) (- pl_d pl).
(** Plane.h:137-139: project; 144-146: origin. *)
Definition plane_project (N : nat) (pl : plane) (p : vec) : vec := vec_sub p (vec_scale (pl_n pl) (dot N p (pl_n pl) + pl_d pl)).
Definition plane_origin (pl : plane) : vec := vec_scale (pl_n pl) (- pl_d pl).
(** Plane.h:152-157, 218-222, 242-245: apply; 163-168, 230-234, 252-255: apply_inverse. *)
Definition plane_apply (N : nat) (xf : xform R_field) (pl : plane) : option plane :=
  let p0 := vec_scale (pl_n pl) (pl_d pl) in
  let p1 := xf_apply N xf p0 in
  match unit_vec N (xf_apply_normal N xf (pl_n pl)) with Some n => Some (mkPlane n (dot N p1 n)) | None => None end.
Definition plane_apply_inverse (N : nat) (xf : xform R_field) (pl : plane) : option plane :=
  let p0 := vec_scale (pl_n pl) (pl_d pl) in
  let p1 := xf_apply_inverse N xf p0 in
  match unit_vec N (xf_apply_inverse_normal N xf (pl_n pl)) with Some n => Some (mkPlane n (dot N p1 n)) | None => None end.
(** Plane.h:174-178: intersects(shape). *)
Definition plane_intersects_shape (N : nat) (pl : plane) (support : vec -> vec) : bool :=
  (negb (Rleb (dot N (support (pl_n pl)) (pl_n pl) + pl_d pl) 0) &&
   Rleb (dot N (support (vec_neg (pl_n pl))) (pl_n pl) + pl_d pl) 0)%bool.
(** Plane.h:184-186: intersects(Sphere). *)
Definition plane_intersects_sphere (N : nat) (pl : plane) (s : sphere) : bool := Rleb (s_r s) (plane_distance N pl (s_center s)).
(** Plane.h:195-211: intersects(hull, npts): the loop from the second point on; [negative] is the side of the first. *)
Fixpoint plane_hull_loop (N : nat) (pl : plane) (negative : bool) (pts : list vec) : bool :=
  match pts with
  | nil => false
  | p :: pts => let dist := plane_distance N pl p in
      if (if Req_EM_T dist 0 then true else negb (Bool.eqb (if Rlt_dec dist 0 then true else false) negative)) then false
      else plane_hull_loop N pl negative pts
  end.
Definition plane_intersects_hull (N : nat) (pl : plane) (pts : list vec) : bool :=
  match pts with
  | nil => false
  | p :: pts => plane_hull_loop N pl (if Rlt_dec (plane_distance N pl p) 0 then true else false) pts
  end.
