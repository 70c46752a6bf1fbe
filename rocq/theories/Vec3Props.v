(** Properties C36 (axis rotations of vectors), C52 (2D vectors) and C53 (spherical coordinates), over the reals. *)
From Coq Require Import Reals Lra.
From Verif Require Import Vec3Model Vec2Model GeoSpec QuatProofs Vec3Proofs.
Open Scope R_scope.

(** * C36 *)
(** rotate(axis, radians): the z component is off by a stated amount, so it is right exactly when that amount is zero. *)
Theorem rotate_axis_right_iff p axis t : axis <> zero3 ->
  (rotate3 p axis t = rodrigues (unit3 axis) t p <-> vz axis * vx axis * (vx p - vz p) * cos t = 0).
Proof. exact (rotate3_right p axis t). Qed.
Print Assumptions rotate_axis_right_iff.
Theorem rotate_axis_error p axis t : axis <> zero3 ->
  rotate3 p axis t = add3 (rodrigues (unit3 axis) t p) (V3 0 0 (vz axis * vx axis * (vx p - vz p) * cos t / mag2_3 axis)).
Proof. exact (rotate3_is p axis t). Qed.
Print Assumptions rotate_axis_error.
(** Even the rotation by zero moves points. *)
Theorem rotate_axis_refuted p axis : vx axis <> 0 -> vz axis <> 0 -> vx p <> vz p -> rotate3 p axis 0 <> p /\ rotate3 p axis 0 <> rodrigues (unit3 axis) 0 p.
Proof. exact (rotate3_zero_wrong p axis). Qed.
Print Assumptions rotate_axis_refuted.
(** rotate(axis, center, radians) with a unit axis: right exactly when a stated multiple of the axis vanishes. *)
Theorem rotate_center_error p axis c t : is_unit axis ->
  rotate3_about p axis c t =
  sub3 (add3 (rodrigues axis t (sub3 p c)) c) (scale3 (2 * (1 - cos t) * (vy axis * vy p + vz axis * vz p)) axis).
Proof. exact (rotate3_about_is p axis c t). Qed.
Print Assumptions rotate_center_error.
Theorem rotate_center_refuted p axis c t : is_unit axis -> cos t <> 1 -> vy axis * vy p + vz axis * vz p <> 0 ->
  rotate3_about p axis c t <> add3 (rodrigues axis t (sub3 p c)) c.
Proof. exact (rotate3_about_wrong p axis c t). Qed.
Print Assumptions rotate_center_refuted.
(** align(from, to): maps [from] to [to] and keeps all lengths and angles, unless the two are opposite. *)
Theorem align_rotates from to : is_unit from -> is_unit to -> dot3 from to <> -1 ->
  align3 from from to = to /\ forall a b, dot3 (align3 a from to) (align3 b from to) = dot3 a b.
Proof. intros Hf Ht Hc. exact (conj (align_maps from to Hf Hc) (align_dot from to Hf Ht Hc)). Qed.
Print Assumptions align_rotates.
Example rotate_hypotheses : rotate3 (V3 1 0 0) (V3 1 0 1) 0 <> V3 1 0 0 /\ is_unit (V3 0 0 1) /\ cos PI <> 1 /\ dot3 (V3 1 0 0) (V3 0 1 0) <> -1.
Proof.
  split; [apply rotate_axis_refuted; cbn; lra|]. split; [unfold is_unit, mag2_3, dot3; cbn; ring|]. rewrite cos_PI. unfold dot3. cbn. lra.
Qed.

(** * C52 *)
Theorem rotation_2d v s t : mag_2 (rotated v t) = mag_2 v /\ rotated (rotated v s) t = rotated v (s + t) /\ rotated v 0 = v /\
  rotated v (PI / 2) = left_perp v /\ rotated v (- (PI / 2)) = right_perp v.
Proof. exact (rotated_ok v s t). Qed.
Print Assumptions rotation_2d.
(** angle() and to_polar() describe the vector. *)
Theorem polar_angle v : v <> V2 0 0 -> let p := to_polar v in
  ux p * cos (uy p) = ux v /\ ux p * sin (uy p) = uy v /\ 0 <= uy p < 2 * PI /\ ux p * ux p = ux v * ux v + uy v * uy v.
Proof.
  intros H p. destruct (angle_polar v H) as (A & B & C). split; [exact A|]. split; [exact B|]. split; [exact C|exact (mag_2_sq v)].
Qed.
Print Assumptions polar_angle.
(** from_polar takes its arguments in the wrong order, so it does not undo to_polar: every vector on the positive x axis
    collapses to the origin. *)
Theorem from_polar_refuted r : 0 < r -> to_polar (V2 r 0) = V2 r 0 /\ from_polar (to_polar (V2 r 0)) = V2 0 0 /\
  forall a, from_polar (V2 r a) = V2 (a * cos r) (a * sin r).
Proof. exact (from_polar_wrong r). Qed.
Print Assumptions from_polar_refuted.
Example polar_example : to_polar (V2 0 1) = V2 1 (PI / 2).
Proof. exact polar_01. Qed.

(** * C53 *)
Theorem spherical_round_trip p : p <> zero3 -> let s := to_spherical p in
  from_spherical (vx s) (vy s) (vz s) = p /\ vx s * vx s = mag2_3 p /\ 0 <= vy s <= PI /\ (vx p <> 0 \/ vy p <> 0 -> - PI < vz s <= PI).
Proof.
  intros H s. split; [exact (spherical_back p H)|]. split; [exact (mag_sq p)|]. apply (spherical_range p H).
Qed.
Print Assumptions spherical_round_trip.
Theorem spherical_round_trip_back r e a : 0 < r -> 0 < e < PI -> - PI < a <= PI -> to_spherical (from_spherical r e a) = V3 r e a.
Proof. exact (spherical_forth r e a). Qed.
Print Assumptions spherical_round_trip_back.
Example spherical_hypotheses : V3 1 2 3 <> zero3 /\ 0 < 1 < PI.
Proof. split; [intros E; injection E; lra|]. pose proof PI2_1. lra. Qed.
