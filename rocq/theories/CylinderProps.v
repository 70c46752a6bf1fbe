(** Cylinders (geomc/shape/Cylinder.h) with distinct end points, the case the documentation defines. *)
From Coq Require Import Reals Arith Lra Lia.
From Verif Require Import PerlinSpec VecNModel VecNSpec VecNProofs RayModel Ord RectModel RectArithModel ShapeSpec ShapeProofs SphereModel SphereProofs CylinderModel CylinderProofs.
Open Scope R_scope.

(** *** C68 *)
(** contains() is exact but for the cap at p1, all of which it rejects. *)
Theorem cylinder_contains_exact N p0 p1 r p : ~ same N p0 p1 -> 0 <= r -> exists b, cylinder_contains N (mkCyl p0 p1 r) p = Some b /\
  (b = true <-> cylinder N p0 p1 r p /\ ~ exists rho, cylinder_at N p0 p1 p 1 rho).
Proof.
  intros D RP. apply axis_pos in D. destruct (contains_cyl N p0 p1 r D p RP) as (b & E & B). exists b. split; [exact E|]. rewrite B, in_iff by exact D.
  split; intros [[T X] C]; (split; [tauto|]).
  - intros (d & Q). apply at_iff in Q as [Q _]; [|exact D]. lra.
  - destruct (Rlt_dec (tau N p0 p1 p) 1); [assumption|]. exfalso. apply C. exists (rho N p0 p1 p). apply at_iff; [exact D|]. split; lra.
Qed.
Print Assumptions cylinder_contains_exact.
Theorem cylinder_contains_cap_refuted N p0 p1 r p rho : ~ same N p0 p1 -> 0 <= r -> cylinder_at N p0 p1 p 1 rho -> rho <= r ->
  cylinder N p0 p1 r p /\ cylinder_contains N (mkCyl p0 p1 r) p = Some false.
Proof.
  intros D RP P L. split; [exists 1, rho; repeat split; (apply P || lra)|]. destruct (cylinder_contains_exact N p0 p1 r p D RP) as (b & -> & B). destruct b; [|reflexivity].
  destruct (proj2 (proj1 B eq_refl)). now exists rho.
Qed.
Print Assumptions cylinder_contains_cap_refuted.
(** The signed distance is the distance to the solid: right outside, and zero at every point inside. *)
Theorem cylinder_sdf_outside N p0 p1 r p : ~ same N p0 p1 -> 0 <= r -> exists v q, cylinder_sdf N (mkCyl p0 p1 r) p = Some v /\
  is_nearest N (cylinder N p0 p1 r) p q /\ v = distance N p q.
Proof. intros D. exact (sdf_cyl N p0 p1 r (axis_pos N p0 p1 D) p). Qed.
Print Assumptions cylinder_sdf_outside.
Theorem cylinder_sdf_inside_refuted N p0 p1 r p : ~ same N p0 p1 -> 0 <= r -> cylinder N p0 p1 r p -> cylinder_sdf N (mkCyl p0 p1 r) p = Some 0.
Proof.
  intros D RP X. destruct (cylinder_sdf_outside N p0 p1 r p D RP) as (v & q & -> & [_ Q] & ->). f_equal. specialize (Q p X). pose proof (distance_nonneg N p q).
  assert (distance N p p = 0) by now apply distance_zero. lra.
Qed.
Print Assumptions cylinder_sdf_inside_refuted.
(** Off the axis, project() is a nearest surface point. *)
Theorem cylinder_project_nearest N p0 p1 r p : ~ same N p0 p1 -> 0 <= r -> (forall t, ~ cylinder_at N p0 p1 p t 0) ->
  exists q, cylinder_project N (mkCyl p0 p1 r) p = Some q /\ is_nearest N (cylinder_surface N p0 p1 r) p q.
Proof.
  intros D RP O. apply axis_pos in D. apply (project_cyl N p0 p1 r D p RP). intros Z. apply (O (tau N p0 p1 p)), at_iff; [exact D|]. now split.
Qed.
Print Assumptions cylinder_project_nearest.
(** On the axis project() and normal() divide by zero. *)
Theorem cylinder_project_axis_refuted N p0 p1 r p t : ~ same N p0 p1 -> cylinder_at N p0 p1 p t 0 ->
  cylinder_project N (mkCyl p0 p1 r) p = None /\ cylinder_normal N (mkCyl p0 p1 r) p = None.
Proof. intros D H. apply axis_pos in D. apply (project_axis N p0 p1 r D p). apply at_iff in H as [_ H]; [|exact D]. now symmetry. Qed.
Print Assumptions cylinder_project_axis_refuted.
(** normal() is a unit vector, the whole cylinder is behind the plane it defines at the projection, and it points along the line from the projection to the point:
    except for points both beyond the end p1 and outside the radius. *)
Theorem cylinder_normal_outward N p0 p1 r p t rho : ~ same N p0 p1 -> 0 <= r -> cylinder_at N p0 p1 p t rho -> rho <> 0 -> t <= 1 \/ rho <= r ->
  exists q n, cylinder_project N (mkCyl p0 p1 r) p = Some q /\ cylinder_normal N (mkCyl p0 p1 r) p = Some n /\
  length N n = 1 /\ (exists v, same N p (fun i => q i + v * n i)) /\ forall x, cylinder N p0 p1 r x -> inner N (fun i => x i - q i) n <= 0.
Proof.
  intros D RP P Z H. apply axis_pos in D. apply at_iff in P as [-> ->]; [|exact D]. apply (normal_cyl N p0 p1 r D p RP Z). lra.
Qed.
Print Assumptions cylinder_normal_outward.
Theorem cylinder_normal_beyond_refuted N p0 p1 r p t rho : ~ same N p0 p1 -> 0 <= r -> cylinder_at N p0 p1 p t rho -> 1 < t -> r < rho ->
  exists q n, cylinder_project N (mkCyl p0 p1 r) p = Some q /\ cylinder_normal N (mkCyl p0 p1 r) p = Some n /\ length N n = 1 /\ ~ exists v, same N p (fun i => q i + v * n i).
Proof. intros D RP P T R. apply axis_pos in D. apply at_iff in P as [-> ->]; [|exact D]. exact (normal_wrong N p0 p1 r D p RP T R). Qed.
Print Assumptions cylinder_normal_beyond_refuted.
Theorem cylinder_bounds_tight N p0 p1 r : ~ same N p0 p1 -> 0 <= r -> exists b, cylinder_bounds N (mkCyl p0 p1 r) = Some b /\ tight_box N (cylinder N p0 p1 r) b.
Proof. intros D. exact (bounds_cyl N p0 p1 r (axis_pos N p0 p1 D)). Qed.
Print Assumptions cylinder_bounds_tight.
(** convex_support() is extreme, and divides by zero exactly for directions along the axis. *)
Theorem cylinder_support_extreme N p0 p1 r d q : ~ same N p0 p1 -> 0 <= r -> cylinder_support N (mkCyl p0 p1 r) d = Some q -> is_support N (cylinder N p0 p1 r) d q.
Proof. intros D. exact (support_cyl N p0 p1 r (axis_pos N p0 p1 D) d q). Qed.
Print Assumptions cylinder_support_extreme.
Theorem cylinder_support_axis_refuted N p0 p1 r d : ~ same N p0 p1 ->
  (cylinder_support N (mkCyl p0 p1 r) d = None <-> exists k, same N d (fun i => k * (p1 i - p0 i))).
Proof. intros D. exact (support_cyl_none N p0 p1 r (axis_pos N p0 p1 D) d). Qed.
Print Assumptions cylinder_support_axis_refuted.
(** Rays: exact unless the ray runs along the wall of the cylinder, where the answer is empty. *)
Theorem cylinder_ray_exact N p0 p1 r neg0 o d : ~ same N p0 p1 -> 0 <= r -> ~ ((exists k, same N d (fun i => k * (p1 i - p0 i))) /\ exists t, cylinder_at N p0 p1 o t r) ->
  exists iv, cylinder_ray N (mkCyl p0 p1 r) neg0 (mkRay o d) = Some iv /\ ray_in (cylinder N p0 p1 r) o d iv.
Proof.
  intros D RP H. apply axis_pos in D. apply (ray_cyl N p0 p1 r D neg0 o d RP). intros [K Q]. apply H. split; [exact K|]. exists (tau N p0 p1 o). apply at_iff; [exact D|]. split; [reflexivity|now symmetry].
Qed.
Print Assumptions cylinder_ray_exact.
Theorem cylinder_ray_wall_refuted N p0 p1 r neg0 o d t : ~ same N p0 p1 -> (exists k, same N d (fun i => k * (p1 i - p0 i))) -> cylinder_at N p0 p1 o t r -> 0 <= t <= 1 ->
  cylinder_ray N (mkCyl p0 p1 r) neg0 (mkRay o d) = Some iv_empty /\ (forall s, ~ in_interval iv_empty s) /\ cylinder N p0 p1 r (fun i => o i + 0 * d i).
Proof.
  intros D K P T. apply axis_pos in D. split; [|split].
  - apply (ray_cyl_bad N p0 p1 r D). split; [exact K|]. apply at_iff in P as [_ P]; [|exact D]. now symmetry.
  - intros s. unfold in_interval. cbn. easy.
  - exists t, r. split; [|split; [exact T|lra]]. destruct P as [P1 P2]. split.
    + eapply eq_trans; [|exact P1]. apply inner_ext; [|easy]. intros i L. cbv beta. ring.
    + eapply eq_trans; [|exact P2]. apply distance_ext; [|easy]. intros i L. cbv beta. ring.
Qed.
Print Assumptions cylinder_ray_wall_refuted.
(** The default cylinder in the plane: coordinates of a point beyond p1 and outside the radius. *)
Example cylinder_case : let c := cylinder_default in ~ same 2 (y_p0 c) (y_p1 c) /\ cylinder_at 2 (y_p0 c) (y_p1 c) (fun i => if (i =? 0)%nat then 2 else 3) 2 3 /\
  cylinder_at 2 (y_p0 c) (y_p1 c) (fun i => if (i =? 0)%nat then 1/2 else 1) (1/2) (y_r c).
Proof.
  cbn. split; [intros H; specialize (H 0%nat ltac:(lia)); cbn in H; lra|]. split; split.
  - unfold inner, along. cbn. field.
  - unfold distance, length, inner, along. cbn. match goal with |- sqrt ?x = _ => replace x with (3 * 3) by ring end. rewrite sqrt_square; lra.
  - unfold inner, along. cbn. field.
  - unfold distance, length, inner, along. cbn. match goal with |- sqrt ?x = _ => replace x with (1 * 1) by field end. rewrite sqrt_square; lra.
Qed.
