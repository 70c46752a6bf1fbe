(** C37, C38: affine transforms. *)
From Coq Require Import Arith Lia Reals Lra.
From Verif Require Import Fld FldLemmas RFld LinSpec DetInvModel Vec3Model Vec2Model QuatModel GeoSpec QuatProofs AffineModel AffineSpec AffineProofs AffineRotProofs.
Open Scope R_scope.

(** *** C37: the inverse that a transform carries *)
(** Whatever is built from the constructors and operators, in any combination: mat * inv = inv * mat = identity, and both are affine. *)
Theorem transform_carries_inverse bigger N xf : sane_order bigger -> built bigger N xf ->
  affine_row N (xmat xf) /\ affine_row N (xinv xf) /\ inverse_of (S N) (xmat xf) (xinv xf).
Proof. exact (built_sound bigger N xf). Qed.
Print Assumptions transform_carries_inverse.
(** Applying and un-applying returns every point and every direction. *)
Theorem transform_round_trip bigger N xf : sane_order bigger -> built bigger N xf ->
  round_trips N xf /\ forall v, agree N (xf_apply_inverse_vector N xf (xf_apply_vector N xf v)) v.
Proof. intros O B. pose proof (built_sound bigger N xf O B) as S. split; [now apply sound_round_trips|intros v; now apply vector_round_trip]. Qed.
Print Assumptions transform_round_trip.
(** Sequencing: [a.apply(b)], [b * a] and [a *= b] all act as [a] followed by [b]. *)
Theorem composition_order bigger N a b p : sane_order bigger -> built bigger N a -> built bigger N b ->
  agree N (xf_apply N (xf_then N a b) p) (xf_apply N b (xf_apply N a p)) /\
  agree N (xf_apply N (xf_mul N b a) p) (xf_apply N b (xf_apply N a p)) /\
  agree N (xf_apply N (xf_mul_assign N a b) p) (xf_apply N b (xf_apply N a p)).
Proof. intros O A _. pose proof (proj1 (built_sound bigger N a O A)) as S. split; [|split]; now apply (apply_then R_field N a b p). Qed.
Print Assumptions composition_order.
(** [a.apply_inverse(b)], [a / b] and [a /= b] act as [a] followed by the inverse of [b]. *)
Theorem division_order bigger N a b p : sane_order bigger -> built bigger N a -> built bigger N b ->
  agree N (xf_apply N (xf_then_inverse N a b) p) (xf_apply_inverse N b (xf_apply N a p)) /\
  agree N (xf_apply N (xf_div N a b) p) (xf_apply_inverse N b (xf_apply N a p)) /\
  agree N (xf_apply N (xf_div_assign false N a b) p) (xf_apply_inverse N b (xf_apply N a p)).
Proof. intros O A _. pose proof (proj1 (built_sound bigger N a O A)) as S. split; [|split]; now apply (apply_then R_field N a (xf_inverse b) p). Qed.
Print Assumptions division_order.
(** [inverse()] swaps the two directions. *)
Theorem inverse_applies N (xf : xformR) p : xf_apply N (xf_inverse xf) p = xf_apply_inverse N xf p /\ xf_apply_inverse N (xf_inverse xf) p = xf_apply N xf p.
Proof. split; reflexivity. Qed.
Print Assumptions inverse_applies.
(** Directions transform as differences of points; normals stay perpendicular to transformed directions. *)
Theorem vector_is_difference N (xf : xformR) p v : agree N (xf_apply N xf (fun i => p i + v i)) (fun i => xf_apply N xf p i + xf_apply_vector N xf v i).
Proof. exact (vector_difference R_field N xf p v). Qed.
Print Assumptions vector_is_difference.
Theorem normal_stays_perpendicular bigger N xf n v : sane_order bigger -> built bigger N xf ->
  inner N (xf_apply_normal N xf n) (xf_apply_vector N xf v) = inner N n v /\
  inner N (xf_apply_inverse_normal N xf n) (xf_apply_inverse_vector N xf v) = inner N n v.
Proof. intros O B. split; [apply apply_normal_inner; now apply (built_sound bigger)|apply (apply_normal_inner R_field N (xf_inverse xf)), sound_inverse; now apply (built_sound bigger)]. Qed.
Print Assumptions normal_stays_perpendicular.
(** What the constructors do. *)
Theorem translation_translates N t p : agree N (xf_apply N (@xf_translation R_field N t) p) (fun i => p i + t i).
Proof. intros i Hi. rewrite apply_maps by lia. now apply translation_maps. Qed.
Print Assumptions translation_translates.
Theorem scale_scales N s p : agree N (xf_apply N (@xf_scale R_field N s) p) (fun i => s i * p i).
Proof. intros i Hi. rewrite apply_maps by lia. now apply scale_maps. Qed.
Print Assumptions scale_scales.
Theorem transformation_multiplies bigger N row_major m p :
  agree N (xf_apply N (xf_transformation bigger N row_major m) p) (fun i => sum N (fun c => (stored (K := R_field) row_major N m i c * p c)%F)).
Proof. exact (transformation_maps R_field bigger N row_major m p). Qed.
Print Assumptions transformation_multiplies.
Theorem rotation_turns axis t p : axis <> zero3 -> to3 (xf_apply 3 (rotation axis t) (of3 p)) = rodrigues (unit3 axis) t p.
Proof. intros H. rewrite apply_maps3. apply rotmat_maps. Qed.
Print Assumptions rotation_turns.
Theorem rotation_about_turns axis c t p : axis <> zero3 -> to3 (xf_apply 3 (rotation_about axis c t) (of3 p)) = add3 (rodrigues (unit3 axis) t (sub3 p c)) c.
Proof. intros H. rewrite apply_maps3. apply both_maps. now apply unit_unit. Qed.
Print Assumptions rotation_about_turns.
Theorem rotmat_about_point_turns a c t p : is_unit a -> maps3 (rotmat_point (vx a) (vy a) (vz a) (vx c) (vy c) (vz c) t) p = add3 (rodrigues a t (sub3 p c)) c.
Proof. intros H. now apply point_maps. Qed.
Print Assumptions rotmat_about_point_turns.
Theorem rotation_quat_turns q p : q <> Q4 0 0 0 0 -> qmag2 (qunit q) = 1 /\ to3 (xf_apply 3 (rotation_quat q) (of3 p)) = qrot (qunit q) p.
Proof. intros H. split; [now apply qunit_unit|]. rewrite apply_maps3. apply quat_maps. Qed.
Print Assumptions rotation_quat_turns.
Theorem axis_rotations_turn t p :
  to3 (xf_apply 3 (rotation_x t) (of3 p)) = rodrigues (V3 1 0 0) t p /\ to3 (xf_apply 3 (rotation_y t) (of3 p)) = rodrigues (V3 0 1 0) t p /\
  to3 (xf_apply 3 (rotation_z t) (of3 p)) = rodrigues (V3 0 0 1) t p.
Proof. rewrite !apply_maps3. split; [apply rotmat_x_maps|split; [apply rotmat_y_maps|apply rotmat_z_maps]]. Qed.
Print Assumptions axis_rotations_turn.
Theorem rotation_2d_turns t p : to2 (xf_apply 2 (rotation_2d t) (of2 p)) = rotated p t.
Proof. etransitivity; [|apply (proj1 (rotation_2d_maps t p))]. apply to2_agree. intros i Hi. apply apply_maps. lia. Qed.
Print Assumptions rotation_2d_turns.
(** Violations.  A matrix without inverse is accepted silently; for 2, 3 and 4 dimensions the stored inverse is then the identity. *)
Theorem transformation_singular_refuted bigger N row_major m : sane_order bigger -> singular N (stored (K := R_field) row_major N m) ->
  ~ round_trips N (xf_transformation bigger N row_major m) /\
  ((N = 2 \/ N = 3 \/ N = 4)%nat -> forall r c, (r <= N)%nat -> (c <= N)%nat -> xinv (xf_transformation bigger N row_major m) r c = delta r c).
Proof. intros O S. split; [now apply (transformation_singular R_field bigger)|]. intros HN. now apply transformation_singular_inv. Qed.
Print Assumptions transformation_singular_refuted.
(** Growing a sound transform to more dimensions acts correctly, but the result carries its inverse only if there is no translation. *)
Theorem resized_applies bigger N M xf p : sane_order bigger -> built bigger N xf -> (N <= M)%nat ->
  agree M (xf_apply M (xf_resized N M xf) p) (fun i => if (i <? N)%nat then xf_apply N xf p i else p i).
Proof. intros O B L. apply (resized_apply R_field N M xf p); [|exact L]. exact (proj1 (built_sound bigger N xf O B)). Qed.
Print Assumptions resized_applies.
Theorem resized_inverse_refuted bigger N M xf : sane_order bigger -> built bigger N xf -> (N <= M)%nat ->
  (round_trips M (xf_resized N M xf) <-> forall i, (i < N)%nat -> xmat xf i N = 0).
Proof. intros O B L. apply (resized_round_trips R_field N M xf); [|exact L]. exact (built_sound bigger N xf O B). Qed.
Print Assumptions resized_inverse_refuted.
(** [x /= x] leaves the identity matrix beside the old inverse. *)
Theorem divide_by_itself_refuted bigger N xf : sane_order bigger -> built bigger N xf ->
  forall r c, (r <= N)%nat -> (c <= N)%nat -> xmat (xf_div_assign true N xf xf) r c = delta r c /\ xinv (xf_div_assign true N xf xf) r c = xinv xf r c.
Proof. intros O B. apply (div_self R_field N xf). exact (built_sound bigger N xf O B). Qed.
Print Assumptions divide_by_itself_refuted.

(** *** C38: aligning one direction with another *)
Theorem direction_align_maps d e : is_unit d -> is_unit e -> e <> neg3 d -> to3 (xf_apply 3 (direction_align d e) (of3 d)) = e.
Proof. intros Hd He N. rewrite apply_maps3. now apply align_to. Qed.
Print Assumptions direction_align_maps.
(** The result is an isometry fixing the origin: it preserves inner products of directions, and inv is its transpose and inverse. *)
Theorem direction_align_isometry d e v w : is_unit d -> is_unit e ->
  inner 3 (xf_apply_vector 3 (direction_align d e) v) (xf_apply_vector 3 (direction_align d e) w) = inner 3 v w /\
  inverse_of 4 (xmat (direction_align d e)) (xinv (direction_align d e)) /\ (forall r c, xinv (direction_align d e) r c = xmat (direction_align d e) c r).
Proof.
  intros Hd He. pose proof (align_sound d e Hd He) as S. split; [|split; [exact (proj2 (proj2 S))|reflexivity]].
  exact (apply_normal_inner R_field 3 (direction_align d e) v w S).
Qed.
Print Assumptions direction_align_isometry.
(** Opposite directions: right exactly when they are perpendicular to the y axis. *)
Theorem direction_align_opposite_refuted d : is_unit d -> (to3 (xf_apply 3 (direction_align d (neg3 d)) (of3 d)) = neg3 d <-> vy d = 0).
Proof. intros Hd. rewrite apply_maps3. now apply align_opposite. Qed.
Print Assumptions direction_align_opposite_refuted.

(** *** The hypotheses can be met *)
Definition larger (a b : R_field) : bool := if Rlt_dec (Rabs b) (Rabs a) then true else false.
Example larger_sane : sane_order larger.
Proof.
  split; [intros y Hy|intros x]; unfold larger; unR; rewrite Rabs_R0.
  - destruct (Rlt_dec 0 (Rabs y)) as [|N]; [reflexivity|]. exfalso. apply N, Rabs_pos_lt, Hy.
  - destruct (Rlt_dec (Rabs x) 0) as [L|]; [|reflexivity]. pose proof (Rabs_pos x). lra.
Qed.
Example built_chain : built larger 3 (xf_div 3 (xf_mul 3 (xf_translation 3 (of3 (V3 1 2 3))) (rotation (V3 1 1 0) 2)) (xf_inverse (xf_scale 3 (of3 (V3 2 3 (-1)))))).
Proof.
  apply b_div; [apply b_mul; [apply b_translation|apply b_rotation]|apply b_inverse, b_scale].
  - intros E. apply (f_equal vx) in E. cbn in E. lra.
  - intros [|[|[|i]]] Hi; try lia; cbn; lra.
Qed.
Example singular_exists : singular 2 (stored (K := R_field) true 2 (fun _ => 1)).
Proof.
  exists (fun i => if (i =? 0)%nat then 1 else -1). split; [exists 0%nat; split; [lia|cbn; unR; lra]|].
  intros r Hr. cbn. unR. ring.
Qed.
Example translation_not_zero : built larger 2 (@xf_translation R_field 2 (fun _ => 1)) /\ ~ round_trips 3 (xf_resized 2 3 (@xf_translation R_field 2 (fun _ => 1))).
Proof.
  split; [apply b_translation|]. rewrite (resized_inverse_refuted larger 2 3 _ larger_sane (b_translation larger 2 (fun _ => 1))) by lia.
  intros H. specialize (H 0%nat ltac:(lia)). cbn in H. unR. lra.
Qed.
Example opposite_y : is_unit (V3 0 1 0) /\ to3 (xf_apply 3 (direction_align (V3 0 1 0) (V3 0 (-1) 0)) (of3 (V3 0 1 0))) <> V3 0 (-1) 0.
Proof.
  split; [exact unit_y|]. assert (N : neg3 (V3 0 1 0) = V3 0 (-1) 0) by (apply v3_eq; cbn; lra). rewrite <- N at 1 2.
  rewrite (direction_align_opposite_refuted (V3 0 1 0) unit_y). cbn. lra.
Qed.
