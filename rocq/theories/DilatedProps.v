(** Dilated shapes (geomc/shape/Dilated.h), given the functions of the wrapped shape. *)
From Coq Require Import Reals Arith Lra Lia.
From Verif Require Import VecNModel VecNSpec Ord RectModel RectSpec ShapeSpec ShapeProofs SphereModel SphereProofs PlaneModel SolidSpec SolidProofs SolidModel DilatedProofs.
Open Scope R_scope.

(** *** C70 *)
Theorem dilated_sdf_exact N X k sdf p : convex X -> respects N X -> has_nearest N X -> 0 <= k ->
  solid_distance N X p (sdf p) -> solid_distance N (dilation N X k) p (dilated_sdf sdf k p).
Proof. intros C R H K. exact (dil_sdf N X k C R H K p (sdf p)). Qed.
Print Assumptions dilated_sdf_exact.
(** contains() holds exactly in the interior ... *)
Theorem dilated_contains_interior N X k sdf p : convex X -> respects N X -> has_nearest N X -> 0 <= k -> solid_distance N X p (sdf p) ->
  (dilated_contains sdf k p = true <-> dilation N X k p /\ ~ boundary N (dilation N X k) p).
Proof. intros C R H K. exact (dil_contains N X k C R H K sdf p). Qed.
Print Assumptions dilated_contains_interior.
(** ... so it rejects every surface point, though they belong to the shape. *)
Theorem dilated_contains_surface_refuted N X k sdf p : convex X -> respects N X -> has_nearest N X -> 0 <= k -> solid_distance N X p (sdf p) ->
  boundary N (dilation N X k) p -> dilation N X k p /\ dilated_contains sdf k p = false.
Proof.
  intros C R H K S B. split; [apply B|]. destruct (dilated_contains sdf k p) eqn:E; [|reflexivity]. apply (dil_contains N X k C R H K sdf p S) in E. destruct (proj2 E B).
Qed.
Print Assumptions dilated_contains_surface_refuted.
(** convex_support() is right, and divides by zero exactly for the zero direction. *)
Theorem dilated_support_extreme N X k support d : 0 <= k -> is_support N X d (support d) ->
  (forall p, dilated_support N support k d = Some p -> is_support N (dilation N X k) d p) /\ (dilated_support N support k d = None <-> all_zero N d).
Proof. intros K S. split; [intros p; exact (dil_support N X k K support d p S)|exact (dil_support_none N k support d)]. Qed.
Print Assumptions dilated_support_extreme.
Theorem dilated_bounds_tight N X k b : 0 <= k -> tight_box N X b -> tight_box N (dilation N X k) (dilated_bounds b k).
Proof. intros K. exact (dil_bounds N X k K b). Qed.
Print Assumptions dilated_bounds_tight.
(** project() is right, and divides by zero exactly for points it projects to themselves before dilation. *)
Theorem dilated_project_exact N X k contains project p : convex X -> respects N X -> has_nearest N X -> 0 <= k ->
  (contains p = true <-> X p) -> projection N X p (project p) ->
  (forall q, dilated_project N contains project k p = Some q -> projection N (dilation N X k) p q) /\
  (dilated_project N contains project k p = None <-> same N p (project p)).
Proof. intros C R H K E P. split; [intros q; exact (dil_project N X k C R H K contains project p q E P)|exact (dil_project_none N contains project k p)]. Qed.
Print Assumptions dilated_project_exact.
(** The unchanged normal still carries the projection to the point over the signed distance. *)
Theorem dilated_normal_agrees N contains project sdf normal k p : (contains p = true <-> sdf p <= 0) -> sdf p <> 0 -> length N (normal p) = 1 ->
  same N p (fun i => project p i + sdf p * normal p i) ->
  exists q, dilated_project N contains project k p = Some q /\ same N p (fun i => q i + dilated_sdf sdf k p * dilated_normal normal p i).
Proof. exact (dil_normal N contains project sdf normal k p). Qed.
Print Assumptions dilated_normal_agrees.
(** Dilating a half-space lowers d by the amount; dilate(Plane) raises it, so that even the plane itself falls outside the result. *)
Theorem dilate_plane_refuted N n d k : length N n = 1 -> 0 < k ->
  (forall p, dilation N (half_space N n d) k p <-> half_space N n (d - k) p) /\
  let r := dilate_plane (mkPlane n d) k in
  forall p, plane_set N n d p -> dilation N (half_space N n d) k p /\ ~ half_space N (pl_n r) (pl_d r) p.
Proof.
  intros U K. split; [intros p; apply half_space_dilation; [exact U|lra]|]. cbn. intros p P. unfold plane_set in P. split.
  - apply half_space_dilation; [exact U|lra|]. unfold half_space. lra.
  - unfold half_space. lra.
Qed.
Print Assumptions dilate_plane_refuted.
(** A rounded box has exactly the extents of the box and a radius no larger than asked, equal to it if it fits. *)
Theorem roundrect_extents N b radius : (0 < N)%nat -> nonempty N b -> 0 <= radius -> let (b', r') := roundrect N b radius in
  nonempty N b' /\ 0 <= r' <= radius /\ ((forall i, (i < N)%nat -> 2 * radius <= hi b i - lo b i) -> r' = radius) /\ tight_box N (dilation N (in_box N b') r') b.
Proof. exact (roundrect_ok N b radius). Qed.
Print Assumptions roundrect_extents.
(** The distance of a dilated ball, through the hypotheses above. *)
Example dilated_case N c r k p : (0 < N)%nat -> 0 <= r -> 0 <= k -> solid_distance N (dilation N (ball N c r) k) p (dilated_sdf (fun p => distance N p c - r) k p).
Proof. intros NP RP K. apply dilated_sdf_exact; [apply ball_convex|apply ball_respects|now apply ball_has_nearest|exact K|now apply ball_solid]. Qed.
