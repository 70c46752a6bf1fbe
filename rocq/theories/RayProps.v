(** C55: rays. *)
From Coq Require Import Reals Arith Lra Lia.
From Verif Require Import Fld RFld AffineModel AffineSpec AffineProofs PerlinSpec VecNModel VecNSpec VecNProofs RayModel RaySpec RayProofs RayXfProofs.
Open Scope R_scope.

(** at_distance(d) is the point of the line at distance |d| from the origin, forward for positive d; it fails exactly when
    the direction is zero. *)
Theorem at_distance_is N r d : (at_distance N r d = None <-> all_zero N (direction r)) /\
  forall q, at_distance N r d = Some q -> distance N q (origin r) = Rabs d /\ on_line N r q /\ (0 <= d -> on_ray N r q).
Proof. exact (at_distance_spec N r d). Qed.
Print Assumptions at_distance_is.
(** at_multiple runs over the line; negating a ray reverses it. *)
Theorem at_multiple_is N r s : same N (at_multiple r s) (fun i => origin r i + s * direction r i) /\
  same N (at_multiple (ray_neg r) s) (at_multiple r (- s)).
Proof. split; intros i L; unfold at_multiple, ray_neg, vec_add, vec_scale, vec_neg; cbn; ring. Qed.
Print Assumptions at_multiple_is.
(** project gives the point of the carrying line nearest to p. *)
Theorem ray_project_spec N r p : on_line N r (ray_project N r p) /\
  inner N (fun i => p i - ray_project N r p i) (direction r) = 0 /\
  forall q, on_line N r q -> distance N p (ray_project N r p) <= distance N p q.
Proof. split; [apply ray_project_line|]. split; [apply ray_project_perp|]. intros q. apply ray_project_nearest. Qed.
Print Assumptions ray_project_spec.
(** The result lies on the ray itself only when p is not behind the origin. *)
Theorem ray_project_on_ray_refuted N r p :
  on_ray N r (ray_project N r p) <-> 0 <= inner N (fun i => p i - origin r i) (direction r).
Proof.
  split; [|apply project_ahead]. intros H. destruct (Rle_lt_dec 0 (inner N (fun i => p i - origin r i) (direction r))) as [L|L]; [exact L|].
  exfalso. exact (project_behind N r p L H).
Qed.
Print Assumptions ray_project_on_ray_refuted.
(** dist2 is the squared distance to the line exactly when p is the origin, or is level with it, or is as far from it as the
    direction is long: the projection is divided by the wrong length. *)
Theorem ray_dist2_refuted N r p : let b := fun i => p i - origin r i in
  line_distance2 N r p (ray_dist2 N r p) <->
  inner N b b = 0 \/ inner N b (direction r) = 0 \/ inner N b b = inner N (direction r) (direction r).
Proof. exact (ray_dist2_right N r p). Qed.
Print Assumptions ray_dist2_refuted.
(** For example a point on the ray, twice the direction away, is said to be at squared distance 3, and the answer can be negative. *)
Theorem ray_dist2_wrong_values : let r := mkRay (fun _ => 0) (fun i => if (i =? 0)%nat then 2 else 0) in
  ray_dist2 2 r (fun i => if (i =? 0)%nat then 1 else 0) = -3 /\ on_ray 2 r (fun i => if (i =? 0)%nat then 1 else 0) /\
  ray_dist2 2 ray_default (fun i => if (i =? 0)%nat then 2 else 0) = 3 /\ on_ray 2 ray_default (fun i => if (i =? 0)%nat then 2 else 0).
Proof.
  intros r. repeat split.
  - unfold ray_dist2, mag2, dot, loop, vec_sub. cbn. destruct (Req_EM_T _ _); lra.
  - exists (1/2). split; [lra|]. intros [|[|i]] L; cbn; [lra|lra|lia].
  - unfold ray_dist2, mag2, dot, loop, vec_sub. cbn. destruct (Req_EM_T _ _); lra.
  - exists 2. split; [lra|]. intros [|[|i]] L; cbn; [lra|lra|lia].
Qed.
Print Assumptions ray_dist2_wrong_values.
(** Transforming a ray transforms each of its points, and is undone by the inverse operator. *)
Theorem transformed_ray N (xf : xform R_field) r s i : (i < N)%nat ->
  at_multiple (xf_ray N xf r) s i = xf_apply N xf (at_multiple r s) i /\
  (sound N xf -> origin (ray_unxf N xf (xf_ray N xf r)) i = origin r i /\ direction (ray_unxf N xf (xf_ray N xf r)) i = direction r i).
Proof. intros L. split; [symmetry; now apply transformed_point|]. intros H. now apply transformed_back. Qed.
Print Assumptions transformed_ray.
(** Changing the dimension keeps the common coordinates of every point of the ray. *)
Theorem ray_resized_spec N M r s i : (i < M)%nat ->
  at_multiple (ray_resized N M r) s i = if (i <? N)%nat then at_multiple r s i else 0.
Proof.
  intros L. unfold at_multiple, ray_resized, vec_add, vec_scale, resized. cbn [origin direction].
  destruct (Nat.ltb_spec i (Nat.min M N)), (Nat.ltb_spec i N); try lia; try reflexivity. ring.
Qed.
Print Assumptions ray_resized_spec.
(** The default ray starts at zero and points along the first axis; it has points at every distance. *)
Example default_ray : ~ all_zero 3 (direction ray_default) /\ exists q, at_distance 3 ray_default 5 = Some q.
Proof.
  assert (~ all_zero 3 (direction ray_default)) as Z by (intros H; specialize (H 0%nat ltac:(lia)); cbn in H; lra).
  split; [exact Z|]. destruct (at_distance 3 ray_default 5) eqn:E; [eauto|]. apply at_distance_is in E. tauto.
Qed.
