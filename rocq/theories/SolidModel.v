(** Models of the defaults of geomc/shape/Shape.h and of geomc/shape/Dilated.h over exact reals; [None] is a division by zero
    (no number in C++).  The wrapped shape's own functions are parameters. *)
From Coq Require Import Reals Arith Bool.
From Verif Require Import VecNModel Ord RectModel RectArithModel SphereModel PlaneModel.
Open Scope R_scope.

Section Defaults.
Variables (N : nat) (support : vec -> vec) (contains : vec -> bool) (sdf : vec -> R) (project : vec -> vec).
(** Shape.h:137-152: Convex::bounds. *)
Definition default_bounds : @rect R_ord :=
  mkRect (fun i => support (fun j => if (j =? i)%nat then -1 else 0) i : R_ord) (fun i => support (fun j => if (j =? i)%nat then 1 else 0) i).
(** Shape.h:215-218: SdfEvaluable::contains. *)
Definition default_contains (p : vec) : bool := Rleb (sdf p) 0.
(** Shape.h:246-253: Projectable::sdf. *)
Definition default_sdf (p : vec) : R := (if contains p then -1 else 1) * VecNModel.dist N (project p) p.
(** Shape.h:263-267: Projectable::normal. *)
Definition default_normal (p : vec) : option vec :=
  match unit_vec N (vec_sub p (project p)) with Some n => Some (vec_scale n (if contains p then -1 else 1)) | None => None end.
(** Shape.h:275-278: Projectable::clip. *)
Definition default_clip (p : vec) : vec := if contains p then p else project p.
End Defaults.

Section Dilated.
Variables (N : nat) (support : vec -> vec) (contains : vec -> bool) (sdf : vec -> R) (project normal : vec -> vec) (bounds : @rect R_ord) (k : R).
(** Dilated.h:85-87: sdf; 80-82: contains; 89-92: normal. *)
Definition dilated_sdf (p : vec) : R := sdf p - k.
Definition dilated_contains (p : vec) : bool := if Rlt_dec (dilated_sdf p) 0 then true else false.
Definition dilated_normal (p : vec) : vec := normal p.
(** Dilated.h:94-97: convex_support. *)
Definition dilated_support (d : vec) : option vec :=
  let p := support d in
  match unit_vec N d with Some u => Some (vec_add p (vec_scale u k)) | None => None end.
(** Dilated.h:99-101: bounds. *)
Definition dilated_bounds : @rect R_ord := r_dilated bounds (fun _ => k).
(** Dilated.h:104-114: project. *)
Definition dilated_project (p : vec) : option vec :=
  let p_proj := project p in
  match unit_vec N (vec_sub p_proj p) with
  | Some dp => Some (if contains p then vec_add p_proj (vec_scale dp k) else vec_sub p_proj (vec_scale dp k))
  | None => None
  end.
End Dilated.
(** Dilated.h:147-151: dilate(Plane). *)
Definition dilate_plane (p : plane) (k : R) : plane := mkPlane (pl_n p) (pl_d p + k).
(** Dilated.h:173-176: roundrect: the box and the dilation of the result. *)
Definition roundrect (N : nat) (b : @rect R_ord) (radius : R) : @rect R_ord * R :=
  let radius := VecNModel.std_min radius (min_elem N (r_dims b) / 2) in (r_dilated b (fun _ => - radius), radius).
