(** Model of geomc/shape/Capsule.h over exact reals.  Not modelled: nearest_axis_point (lines 60-65), and project and normal
    (93-102) which call it: [clamp(frac, 0, 1)] with a non-integer [frac] does not compile.  Also not: the ray test, which is
    commented out. *)
From Coq Require Import Reals Arith.
From Verif Require Import VecNModel RealUtilModel Ord RectModel RectArithModel SphereModel.
Open Scope R_scope.

(** Capsule.h:22-27: p0, p1, radius; 33-36: the default. *)
Record capsule_t : Type := mkCapsule { c_p0 : vec; c_p1 : vec; c_r : R }.
Definition capsule_default : capsule_t :=
  mkCapsule (fun i => if (i =? 0)%nat then -1 else 0) (fun i => if (i =? 0)%nat then 1 else 0) 1.
(** Capsule.h:47-49: bounds. *)
Definition capsule_bounds (s : capsule_t) : @rect R_ord :=
  r_dilated (spanning_corners (c_p0 s : @point R_ord) (c_p1 s)) (fun _ => c_r s).
(** [clamp] of a quotient; 0/0 is not a number, and std::min(hi, NaN) is [hi] (Utils.h:88-90). *)
Definition clamp_quotient (q : option R) (lo hi : R) : R :=
  match q with Some v => RealUtilModel.clamp v lo hi | None => RealUtilModel.std_max lo hi end.
(** Capsule.h:83-88: sdf. *)
Definition capsule_sdf (N : nat) (s : capsule_t) (p : vec) : R :=
  let b := vec_sub p (c_p0 s) in
  let axis := vec_sub (c_p1 s) (c_p0 s) in
  let frac := clamp_quotient (VecNModel.div_opt (dot N b axis) (VecNModel.mag2 N axis)) 0 1 in
  mag N (vec_sub b (vec_scale axis frac)) - c_r s.
(** Capsule.h:56-58: contains; 72-74: intersects(Sphere). *)
Definition capsule_contains (N : nat) (s : capsule_t) (p : vec) : bool := Rleb (capsule_sdf N s p) 0.
Definition capsule_intersects (N : nat) (s : capsule_t) (o : sphere) : bool := Rleb (capsule_sdf N s (s_center o)) (s_r o).
(** Capsule.h:76-80: convex_support. *)
Definition capsule_support (N : nat) (s : capsule_t) (d : vec) : vec :=
  let axis := vec_sub (c_p1 s) (c_p0 s) in
  let p := if Rleb 0 (dot N d axis) then c_p1 s else c_p0 s in
  vec_add p (with_length N d (c_r s)).
