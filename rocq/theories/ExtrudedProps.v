(** Extruded shapes (geomc/shape/Extruded.h), given the functions of the base shape. *)
From Coq Require Import Reals Arith Lra Lia Bool.
From Verif Require Import VecNModel VecNSpec RayModel Ord RectModel RectArithModel ShapeSpec ShapeProofs SphereModel SphereProofs SolidSpec SolidProofs DilatedProofs ExtrudedModel ExtrudedProofs.
Open Scope R_scope.

(** *** C71 *)
Theorem extruded_contains_exact M X b_contains (height : @rect R_ord) p : respects M X -> (b_contains (base_pt M p) = true <-> X (base_pt M p)) ->
  (extruded_contains M b_contains height p = true <-> prism M X (lo height 0%nat) (hi height 0%nat) p).
Proof.
  intros R E. unfold extruded_contains, prism. rewrite (x_base M X R) in E. pose proof (has_iff height (p M)) as H.
  destruct (height_has height (p M)); [rewrite E; tauto|]. split; [discriminate|]. intros [_ C]. now apply H in C.
Qed.
Print Assumptions extruded_contains_exact.
Theorem extruded_sdf_exact M X b_sdf (height : @rect R_ord) p : respects M X -> lo height 0%nat <= hi height 0%nat -> solid_distance M X (base_pt M p) (b_sdf (base_pt M p)) ->
  solid_distance (S M) (prism M X (lo height 0%nat) (hi height 0%nat)) p (extruded_sdf M b_sdf height p).
Proof. intros R L. exact (sdf_ext M X height R L b_sdf p). Qed.
Print Assumptions extruded_sdf_exact.
Theorem extruded_project_exact M X b_contains b_project (height : @rect R_ord) p : respects M X -> lo height 0%nat <= hi height 0%nat ->
  (b_contains (base_pt M p) = true <-> X (base_pt M p)) -> projection M X (base_pt M p) (b_project (base_pt M p)) ->
  projection (S M) (prism M X (lo height 0%nat) (hi height 0%nat)) p (extruded_project M b_contains b_project height p).
Proof. intros R L. exact (project_ext M X height R L b_contains b_project p). Qed.
Print Assumptions extruded_project_exact.
(** normal() is a unit vector, and leads from a nearest surface point to the given one over the signed distance. *)
Theorem extruded_normal_agrees M X b_contains b_project b_sdf b_normal (height : @rect R_ord) p : respects M X -> lo height 0%nat <= hi height 0%nat ->
  let b := base_pt M p in (b_contains b = true <-> X b) -> projection M X b (b_project b) ->
  (b_sdf b <= 0 <-> X b) -> length M (b_normal b) = 1 -> same M b (fun i => b_project b i + b_sdf b * b_normal b i) ->
  exists n q, extruded_normal M b_contains b_sdf b_normal b_project height p = Some n /\ length (S M) n = 1 /\
  is_nearest (S M) (boundary (S M) (prism M X (lo height 0%nat) (hi height 0%nat))) p q /\
  same (S M) p (fun i => q i + extruded_sdf M b_sdf height p * n i).
Proof. intros R L. exact (normal_ext M X height R L b_contains b_project b_sdf b_normal p). Qed.
Print Assumptions extruded_normal_agrees.
(** convex_support() is right in every direction, including along the axis and zero. *)
Theorem extruded_support_extreme M X b_support (height : @rect R_ord) d : respects M X -> lo height 0%nat <= hi height 0%nat -> (0 < M)%nat ->
  (forall d', ~ all_zero M d' -> is_support M X d' (b_support d')) ->
  is_support (S M) (prism M X (lo height 0%nat) (hi height 0%nat)) d (extruded_support M b_support height d).
Proof. intros R L. exact (support_ext M X height R L b_support d). Qed.
Print Assumptions extruded_support_extreme.
Theorem extruded_bounds_tight M X b (height : @rect R_ord) : respects M X -> lo height 0%nat <= hi height 0%nat -> (0 < M)%nat -> tight_box M X b ->
  tight_box (S M) (prism M X (lo height 0%nat) (hi height 0%nat)) (extruded_bounds M b height).
Proof. intros R L. exact (bounds_ext M X height R L b). Qed.
Print Assumptions extruded_bounds_tight.
(** intersect() is the exact interval of the ray, also for rays along the axis or parallel to the base. *)
Theorem extruded_ray_exact M X b_contains b_ray (height : @rect R_ord) o d : respects M X -> lo height 0%nat <= hi height 0%nat ->
  (b_contains (base_pt M o) = true <-> X (base_pt M o)) ->
  (~ all_zero M d -> ray_in X (base_pt M o) (base_pt M d) (b_ray (mkRay (base_pt M o) (base_pt M d)))) ->
  ray_in (prism M X (lo height 0%nat) (hi height 0%nat)) o d (extruded_ray M b_contains b_ray height (mkRay o d)).
Proof. intros R L. exact (ray_ext M X height R L b_contains b_ray o d). Qed.
Print Assumptions extruded_ray_exact.

(** A disc raised into a cylinder: the hypotheses hold. *)
Example extruded_disc r p : 0 <= r -> let height := @mkRect R_ord (fun _ => -1) (fun _ => 2) in
  solid_distance 3 (prism 2 (ball 2 (fun _ => 0) r) (-1) 2) p (extruded_sdf 2 (fun p => distance 2 p (fun _ => 0) - r) height p).
Proof. intros R. apply (extruded_sdf_exact 2 _ _ (@mkRect R_ord (fun _ => -1) (fun _ => 2)) p); [apply ball_respects|cbn; lra|]. apply ball_solid; [lia|exact R]. Qed.
