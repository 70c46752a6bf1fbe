(** Model of geomc/shape/Sphere.h over exact reals; [None] is a division by zero (no number in C++). *)
From Coq Require Import Reals Arith.
From Verif Require Import VecNModel RayModel RealUtilModel Ord RectModel RectArithModel.
Open Scope R_scope.

Definition Rleb (x y : R) : bool := if Rle_dec x y then true else false.
(** Sphere.h:22-25: center, r; 32-50: the constructors. *)
Record sphere : Type := mkSphere { s_center : vec; s_r : R }.
Definition sphere_default : sphere := mkSphere (fun _ => 0) 1.
Definition sphere_radius (r : R) : sphere := mkSphere (fun _ => 0) r.
(** Sphere.h:57-60: bounds. *)
Definition sphere_bounds (s : sphere) : @rect R_ord :=
  let rvec := fun _ => s_r s in mkRect (vec_sub (s_center s) rvec : @point R_ord) (vec_add (s_center s) rvec).
(** Sphere.h:63-65: contains. *)
Definition sphere_contains (N : nat) (s : sphere) (p : vec) : bool := Rleb (VecNModel.mag2 N (vec_sub (s_center s) p)) (s_r s * s_r s).
(** Sphere.h:72-74: intersects(Sphere). *)
Definition sphere_intersects (N : nat) (a b : sphere) : bool := Rleb (VecNModel.mag2 N (vec_sub (s_center a) (s_center b))) (s_r a * s_r a).
(** Sphere.h:76-78: intersects(Rect); the number [r] is converted to the vector (r, ..., r). *)
Definition sphere_intersects_rect (N : nat) (s : sphere) (b : @rect R_ord) : bool := Rleb (r_dist2 N b (fun _ => s_r s)) (s_r s * s_r s).
(** Sphere.h:80-82: convex_support. *)
Definition sphere_support (N : nat) (s : sphere) (d : vec) : option vec :=
  match unit_vec N d with Some u => Some (vec_add (s_center s) (vec_scale u (s_r s))) | None => None end.
(** Sphere.h:85-87: sdf. *)
Definition sphere_sdf (N : nat) (s : sphere) (p : vec) : R := mag N (vec_sub p (s_center s)) - s_r s.
(** Sphere.h:92-94: project. *)
Definition sphere_project (N : nat) (s : sphere) (p : vec) : option vec :=
  match unit_vec N (vec_sub p (s_center s)) with Some u => Some (vec_add (vec_scale u (s_r s)) (s_center s)) | None => None end.
(** Sphere.h:97-99: normal. *)
Definition sphere_normal (N : nat) (s : sphere) (p : vec) : option vec := unit_vec N (vec_sub p (s_center s)).
(** An interval between two numbers given in any order, and the empty interval (Rect.h:91-93). *)
Definition iv_between (x y : R) : interval := spanning_corners (fun _ => Fin x : ext_ord) (fun _ => Fin y).
Definition iv_empty : interval := mk_interval PInf NInf.
(** Sphere.h:102-118: intersect; [neg0] is the sign bit of [b] when it is zero. *)
Definition sphere_ray (neg0 : bool) (N : nat) (s : sphere) (r : ray) : option interval :=
  let r2 := s_r s * s_r s in
  let dir := direction r in
  let x0 := vec_sub (s_center s) (origin r) in
  let a := VecNModel.mag2 N dir in
  let b := -2 * dot N dir x0 in
  let c := VecNModel.mag2 N x0 - r2 in
  match quadratic_solve neg0 a b c with
  | Some (Some r0, Some r1) => Some (iv_between r0 r1)
  | Some _ => None
  | None => Some iv_empty
  end.
