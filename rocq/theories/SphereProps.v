(** Spheres (geomc/shape/Sphere.h). *)
From Coq Require Import Reals Arith Lra Lia.
From Verif Require Import PerlinSpec VecNModel VecNSpec VecNProofs RayModel Ord RectModel RectSpec RectArithModel RectArithProofs ShapeSpec ShapeProofs SphereModel SphereProofs.
Open Scope R_scope.

(** *** C65 *)
Theorem sphere_contains_ball N c r p : 0 <= r -> (sphere_contains N (mkSphere c r) p = true <-> ball N c r p).
Proof. intros RP. exact (contains_ok N c r RP p). Qed.
Print Assumptions sphere_contains_ball.
(** The support point exists exactly for a non-zero direction. *)
Theorem sphere_support_extreme N c r d : 0 <= r ->
  (sphere_support N (mkSphere c r) d = None <-> all_zero N d) /\
  (forall p, sphere_support N (mkSphere c r) d = Some p -> is_support N (ball N c r) d p).
Proof. intros RP. exact (conj (support_none N c r d) (support_ok N c r RP d)). Qed.
Print Assumptions sphere_support_extreme.
Theorem sphere_signed_distance N c r p : (0 < N)%nat -> 0 <= r ->
  signed_distance N (ball N c r) (sphere_surface N c r) p (sphere_sdf N (mkSphere c r) p).
Proof. intros NP RP. exact (sdf_ok N c r RP p NP). Qed.
Print Assumptions sphere_signed_distance.
(** Everywhere but at the center, project gives the nearest point of the surface. *)
Theorem sphere_project_nearest N c r p : 0 <= r ->
  (sphere_project N (mkSphere c r) p = None <-> same N p c) /\
  (forall q, sphere_project N (mkSphere c r) p = Some q -> is_nearest N (sphere_surface N c r) p q).
Proof. intros RP. split; [exact (project_none N c r p)|]. intros q E. exact (proj1 (project_ok N c r RP p q E)). Qed.
Print Assumptions sphere_project_nearest.
Theorem sphere_normal_outward N c r p n : sphere_normal N (mkSphere c r) p = Some n ->
  length N n = 1 /\ same N p (fun i => c i + distance N p c * n i).
Proof. exact (normal_ok N c r p n). Qed.
Print Assumptions sphere_normal_outward.
Theorem sphere_bounds_tight N c r : 0 <= r -> tight_box N (ball N c r) (sphere_bounds (mkSphere c r)).
Proof. intros RP. exact (bounds_ok N c r RP). Qed.
Print Assumptions sphere_bounds_tight.
Theorem sphere_ray_interval neg0 N c r o d : 0 <= r -> ~ all_zero N d ->
  exists iv, sphere_ray neg0 N (mkSphere c r) (mkRay o d) = Some iv /\ ray_in (ball N c r) o d iv.
Proof. intros RP. exact (ray_ok N c r RP neg0 o d). Qed.
Print Assumptions sphere_ray_interval.
(** The sphere-sphere test tells whether this sphere contains the other's center. *)
Theorem sphere_intersects_exact N c r c' r' : 0 <= r -> 0 <= r' -> (0 < N)%nat ->
  (sphere_intersects N (mkSphere c r) (mkSphere c' r') = true <-> ball N c r c') /\
  (sphere_intersects N (mkSphere c r) (mkSphere c' r') = true -> meets (ball N c r) (ball N c' r')).
Proof.
  intros RP RP' NP. split; [exact (intersects_ok N c r RP (mkSphere c' r'))|]. intros H. apply (intersects_ok N c r RP) in H. cbn in H.
  exists c'. split; [exact H|]. unfold ball. replace (distance N c' c') with 0; [exact RP'|]. symmetry. now apply distance_zero.
Qed.
Print Assumptions sphere_intersects_exact.
(** Every pair of overlapping spheres of which the first misses the other's center is reported as disjoint. *)
Theorem sphere_intersects_refuted N c r c' r' : 0 <= r -> 0 <= r' -> (0 < N)%nat -> r < distance N c c' <= r + r' ->
  meets (ball N c r) (ball N c' r') /\ sphere_intersects N (mkSphere c r) (mkSphere c' r') = false.
Proof.
  intros RP RP' NP [A B]. split; [now apply balls_meet|]. destruct (sphere_intersects _ _ _) eqn:E; [|reflexivity].
  apply (intersects_ok N c r RP) in E. unfold ball in E. cbn in E. rewrite distance_sym in E. lra.
Qed.
Print Assumptions sphere_intersects_refuted.
(** The sphere-box test is right if the center is (r, ..., r) ... *)
Theorem sphere_rect_exact N c r b : 0 <= r -> nonempty N b -> (forall i, (i < N)%nat -> c i = r) ->
  (sphere_intersects_rect N (mkSphere c r) b = true <-> meets (ball N c r) (in_box N b)).
Proof. intros RP. exact (rect_test_ok N c r RP b). Qed.
Print Assumptions sphere_rect_exact.
(** ... it ignores the center, and for every radius and box there is a center for which it is wrong. *)
Theorem sphere_rect_refuted N r b : (0 < N)%nat -> 0 <= r -> nonempty N b ->
  (forall c c', sphere_intersects_rect N (mkSphere c r) b = sphere_intersects_rect N (mkSphere c' r) b) /\
  exists c, ~ (sphere_intersects_rect N (mkSphere c r) b = true <-> meets (ball N c r) (in_box N b)).
Proof. intros NP RP NE. exact (conj (rect_test_blind N r b) (rect_test_wrong N r b NP RP NE)). Qed.
Print Assumptions sphere_rect_refuted.
(** A ray without direction is reported as missing a sphere it lies in. *)
Theorem sphere_ray_still_refuted neg0 N c r o d : 0 <= r -> all_zero N d -> distance N o c < r ->
  sphere_ray neg0 N (mkSphere c r) (mkRay o d) = Some iv_empty /\ (forall s, ~ in_interval iv_empty s) /\ forall s, ball N c r (fun i => o i + s * d i).
Proof.
  intros RP Z D. split; [apply ray_zero; [exact Z|lra]|]. split; [intros s [H _]; exact H|]. intros s. unfold ball.
  rewrite (distance_ext N _ o c c); [lra| |easy]. intros i L. rewrite Z by exact L. ring.
Qed.
Print Assumptions sphere_ray_still_refuted.
(** The hypotheses can be met: two unit circles one and a half apart, and a ray through one. *)
Example sphere_case : let c := fun _ : nat => 0 in let c' := fun i => if (i =? 0)%nat then 3/2 else 0 in
  1 < distance 2 c c' <= 1 + 1 /\ ~ all_zero 2 c'.
Proof.
  cbv zeta. unfold distance, length, inner. cbn. split.
  - replace (0 + (0 - 3 / 2) * (0 - 3 / 2) + (0 - 0) * (0 - 0)) with ((3 / 2) * (3 / 2)) by field. rewrite sqrt_square; lra.
  - intros H. specialize (H 0%nat ltac:(lia)). cbn in H. lra.
Qed.
