(** Model of geomc/linalg/Ray.h, N-dimensional rays over the reals, and of the ray operators of AffineTransform.h.
    Not modelled: [sdf] (Ray.h:86-88), which calls [dist2] without its argument and does not compile when used. *)
From Coq Require Import Reals Arith.
From Verif Require Import VecNModel Fld RFld AffineModel.
Open Scope R_scope.

Record ray : Type := mkRay { origin : vec; direction : vec }.
(** Ray.h:39-41: the default ray. *)
Definition ray_default : ray := mkRay (fun _ => 0) (fun i => if (i =? 0)%nat then 1 else 0).
(** Ray.h:53-55: operator-. *)
Definition ray_neg (r : ray) : ray := mkRay (origin r) (vec_neg (direction r)).
(** Ray.h:62-67: resized. *)
Definition ray_resized (N M : nat) (r : ray) : ray := mkRay (resized N M (origin r)) (resized N M (direction r)).
(** Ray.h:70-72: at_distance. *)
Definition at_distance (N : nat) (r : ray) (d : R) : option vec :=
  match unit_vec N (direction r) with Some u => Some (vec_add (origin r) (vec_scale u d)) | None => None end.
(** Ray.h:75-77: at_multiple; 106-108 and 117-119: ray * s and s * ray. *)
Definition at_multiple (r : ray) (s : R) : vec := vec_add (origin r) (vec_scale (direction r) s).
(** Ray.h:83-85: project. *)
Definition ray_project (N : nat) (r : ray) (p : vec) : vec := vec_add (project_on N (vec_sub p (origin r)) (direction r)) (origin r).
(** Ray.h:93-98: dist2. *)
Definition ray_dist2 (N : nat) (r : ray) (p : vec) : R :=
  let b := vec_sub p (origin r) in let b2 := mag2 N b in let d := dot N (direction r) b in
  if Req_EM_T b2 0 then 0 else b2 - d * d / b2.
(** AffineTransform.h:102-104 and 109-111: xf * ray and ray / xf. *)
Definition xf_ray (N : nat) (xf : xform R_field) (r : ray) : ray := mkRay (xf_apply N xf (origin r)) (xf_apply_vector N xf (direction r)).
Definition ray_unxf (N : nat) (xf : xform R_field) (r : ray) : ray := mkRay (xf_apply_inverse N xf (origin r)) (xf_apply_inverse_vector N xf (direction r)).
