(** Functions every shape gets by default (geomc/shape/Shape.h), given the shape's own functions. *)
From Coq Require Import Reals Arith Lra Lia.
From Verif Require Import VecNModel VecNSpec Ord RectModel ShapeSpec ShapeProofs SphereModel SphereProofs SolidSpec SolidProofs SolidModel DilatedProofs.
Open Scope R_scope.

(** *** C69 *)
Theorem default_bounds_tight N X support :
  (forall i, (i < N)%nat -> is_support N X (fun j => if (j =? i)%nat then 1 else 0) (support (fun j => if (j =? i)%nat then 1 else 0))) ->
  (forall i, (i < N)%nat -> is_support N X (fun j => if (j =? i)%nat then -1 else 0) (support (fun j => if (j =? i)%nat then -1 else 0))) ->
  tight_box N X (default_bounds support).
Proof. exact (default_bounds_ok N X support). Qed.
Print Assumptions default_bounds_tight.
Theorem default_contains_exact N X sdf p : solid_distance N X p (sdf p) -> (default_contains sdf p = true <-> X p).
Proof. intros S. unfold default_contains. rewrite Rleb_iff. exact (proj1 (solid_sign N X p (sdf p) S)). Qed.
Print Assumptions default_contains_exact.
Theorem default_sdf_exact N X contains project p : convex X -> respects N X -> has_nearest N X -> (contains p = true <-> X p) -> projection N X p (project p) ->
  solid_distance N X p (default_sdf N contains project p).
Proof. exact (default_sdf_ok N X contains project p). Qed.
Print Assumptions default_sdf_exact.
(** The normal has length 1 and carries the projection to the point over the signed distance; it divides by zero exactly on the surface. *)
Theorem default_normal_direction N contains project p :
  (forall n, default_normal N contains project p = Some n -> length N n = 1 /\ same N p (fun i => project p i + default_sdf N contains project p * n i)) /\
  (default_normal N contains project p = None <-> same N p (project p)).
Proof. split; [exact (default_normal_ok N contains project p)|exact (default_normal_none N contains project p)]. Qed.
Print Assumptions default_normal_direction.
Theorem default_clip_nearest N X contains project p : (contains p = true <-> X p) -> projection N X p (project p) -> is_nearest N X p (default_clip contains project p).
Proof. exact (default_clip_ok N X contains project p). Qed.
Print Assumptions default_clip_nearest.
(** Balls meet the hypotheses. *)
Example default_case N c r p : (0 < N)%nat -> 0 <= r -> convex (ball N c r) /\ respects N (ball N c r) /\ has_nearest N (ball N c r) /\ solid_distance N (ball N c r) p (distance N p c - r).
Proof. intros. split; [apply ball_convex|]. split; [apply ball_respects|]. split; [now apply ball_has_nearest|now apply ball_solid]. Qed.
