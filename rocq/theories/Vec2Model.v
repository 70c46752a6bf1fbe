(** Model of geomc/linalg/vecdetail/Vec2.h over exact real arithmetic. *)
From Coq Require Import Reals.
From Verif Require Import Vec3Model.
Open Scope R_scope.
Record v2 : Type := V2 { ux : R; uy : R }.
(** VecBase.h:565-581. *)
Definition mag_2 (v : v2) : R := sqrt (uy v * uy v + (ux v * ux v + 0)).
(** Vec2.h:117-128. *)
Definition left_perp (v : v2) : v2 := V2 (- uy v) (ux v).
Definition right_perp (v : v2) : v2 := V2 (uy v) (- ux v).
(** Vec2.h:134-139. *)
Definition rotated (v : v2) (radians : R) : v2 :=
  V2 (cos radians * ux v - sin radians * uy v) (sin radians * ux v + cos radians * uy v).
(** Vec2.h:174-178. *)
Definition angle (v : v2) : R :=
  let theta := atan2 (uy v) (ux v) in if Rlt_dec theta 0 then theta + 2 * PI else theta.
(** Vec2.h:155-157, 163-168. *)
Definition to_polar (v : v2) : v2 := V2 (mag_2 v) (angle v).
Definition from_polar (v : v2) : v2 := V2 (uy v * cos (ux v)) (uy v * sin (ux v)).
