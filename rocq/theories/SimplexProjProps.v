(** Property C75: clipping, projecting and signed distance of simplices in two and three dimensions. *)
From Coq Require Import Reals Arith Lra Lia.
From Verif Require Import Fld RFld PerlinSpec VecNModel VecNSpec ShapeSpec ShapeProofs OrientedProofs SimplexSpec SimplexModel SimplexProofs SimplexProjModel SimplexProjSpec SimplexProjProofs.
Open Scope R_scope.

(** clip: the closest point of the simplex, and the smallest sub-simplex it lies on. *)
Theorem simplex_clip_nearest N bigger s p inc0 dmax : N = 2%nat \/ N = 3%nat -> affinely_independent N (sx_n s) (sx_pts s) -> (1 <= sx_n s <= N + 1)%nat ->
  exists q fc, simplex_clip N bigger s p inc0 dmax = Some (q, fc) /\ is_nearest N (hull N (sx_n s) (sx_pts s)) p q /\
  chosen_from (sx_n fc) (sx_pts fc) (sx_n s) (sx_pts s) /\ inside_hull N (sx_n fc) (sx_pts fc) q.
Proof. intros L A S. exact (clip_ok N L bigger s p A S inc0 dmax). Qed.
Print Assumptions simplex_clip_nearest.
(** project, with fewer than N + 1 vertices: the same. *)
Theorem simplex_project_flat_nearest N bigger s p inc0 dmax : N = 2%nat \/ N = 3%nat -> affinely_independent N (sx_n s) (sx_pts s) -> (1 <= sx_n s < N + 1)%nat ->
  exists q fc, simplex_project N bigger s p inc0 dmax = Some (q, fc) /\ is_nearest N (hull N (sx_n s) (sx_pts s)) p q /\
  chosen_from (sx_n fc) (sx_pts fc) (sx_n s) (sx_pts s) /\ inside_hull N (sx_n fc) (sx_pts fc) q.
Proof. intros L A S. exact (project_flat N L bigger s p A (conj (proj1 S) (Nat.lt_le_incl _ _ (proj2 S))) inc0 dmax (proj2 S)). Qed.
Print Assumptions simplex_project_flat_nearest.
(** project, of a simplex with a volume: the closest point of its surface, from inside as well. *)
Theorem simplex_project_nearest N bigger s p inc0 dmax : N = 2%nat \/ N = 3%nat -> affinely_independent N (sx_n s) (sx_pts s) -> sx_n s = (N + 1)%nat ->
  exists q fc, simplex_project N bigger s p inc0 dmax = Some (q, fc) /\ is_nearest N (facets N (sx_n s) (sx_pts s)) p q /\
  chosen_from (sx_n fc) (sx_pts fc) (sx_n s) (sx_pts s) /\ (sx_n fc <= N)%nat /\ hull N (sx_n fc) (sx_pts fc) q.
Proof. intros L A S. exact (project_full N L bigger s p A ltac:(lia) inc0 dmax S). Qed.
Print Assumptions simplex_project_nearest.
(** sdf: the signed distance to the surface, or the distance to a simplex without volume. *)
Theorem simplex_sdf_exact N bigger s p inc0 dmax : N = 2%nat \/ N = 3%nat -> affinely_independent N (sx_n s) (sx_pts s) -> sx_n s = (N + 1)%nat ->
  exists v nd, simplex_sdf N bigger s p inc0 dmax = Some (v, nd) /\ signed_distance N (hull N (sx_n s) (sx_pts s)) (facets N (sx_n s) (sx_pts s)) p v /\
  (v < 0 <-> inside_hull N (sx_n s) (sx_pts s) p).
Proof. intros L A S. exact (sdf_full N L bigger s p A ltac:(lia) inc0 dmax S). Qed.
Print Assumptions simplex_sdf_exact.
Theorem simplex_sdf_flat N bigger s p inc0 dmax : N = 2%nat \/ N = 3%nat -> affinely_independent N (sx_n s) (sx_pts s) -> (1 <= sx_n s < N + 1)%nat ->
  exists q nd, simplex_sdf N bigger s p inc0 dmax = Some (distance N p q, nd) /\ is_nearest N (hull N (sx_n s) (sx_pts s)) p q.
Proof. intros L A S. exact (sdf_flat N L bigger s p A (conj (proj1 S) (Nat.lt_le_incl _ _ (proj2 S))) inc0 dmax (proj2 S)). Qed.
Print Assumptions simplex_sdf_flat.
(** normal: perpendicular to the face projected to and in the direction of [p] from there; not zero on a facet, even if [p] is on it. sdf gives the same. *)
Theorem simplex_normal_direction N bigger s p inc0 dmax : N = 2%nat \/ N = 3%nat -> affinely_independent N (sx_n s) (sx_pts s) -> (1 <= sx_n s <= N + 1)%nat ->
  exists q fc nd, simplex_project N bigger s p inc0 dmax = Some (q, fc) /\ simplex_normal N bigger s p inc0 dmax = Some nd /\
  (forall v m, simplex_sdf N bigger s p inc0 dmax = Some (v, m) -> m = nd) /\
  (sx_n fc = N -> ~ all_zero N nd) /\
  (forall x y, hull N (sx_n fc) (sx_pts fc) x -> hull N (sx_n fc) (sx_pts fc) y -> vinner N nd (fun i => x i - y i) = 0) /\
  (~ same N p q -> exists k, 0 < k /\ same N nd (fun i => k * (p i - q i))).
Proof. intros L A S. exact (normal_dir N L bigger s p A S inc0 dmax). Qed.
Print Assumptions simplex_normal_direction.
(** From every point inside the simplex the normal of its surface is reported pointing into the simplex. *)
Theorem simplex_normal_outward_refuted N bigger s p inc0 dmax : N = 2%nat \/ N = 3%nat -> affinely_independent N (sx_n s) (sx_pts s) -> sx_n s = (N + 1)%nat ->
  inside_hull N (sx_n s) (sx_pts s) p ->
  exists q fc nd, simplex_project N bigger s p inc0 dmax = Some (q, fc) /\ simplex_normal N bigger s p inc0 dmax = Some nd /\
  facets N (sx_n s) (sx_pts s) q /\ 0 < vinner N nd (fun i => p i - q i).
Proof. intros L A S I. exact (inward_normal N L bigger s p A ltac:(lia) inc0 dmax S I). Qed.
Print Assumptions simplex_normal_outward_refuted.
(** It is not a unit vector: for a single vertex it is the difference to [p]. *)
Theorem simplex_normal_unit_refuted N bigger v p inc0 dmax : simplex_normal N bigger (mkSimplex 1 (fun _ => v)) p inc0 dmax = Some (fun i => p i - v i).
Proof.
  unfold simplex_normal, projection, face_of. cbn [sx_n sx_pts Nat.sub Nat.ltb Nat.leb]. rewrite Bool.andb_false_r. destruct N as [|[|[|N]]]; reflexivity.
Qed.
Print Assumptions simplex_normal_unit_refuted.

(** The triangle (0,0) (1,0) (0,1) and the point (2,2). *)
Example corner_clip bigger inc0 dmax : exists q fc, simplex_clip 2 bigger corner_triangle (pt2 2 2) inc0 dmax = Some (q, fc) /\ q 0%nat = 1/2 /\ q 1%nat = 1/2.
Proof.
  destruct (simplex_clip_nearest 2 bigger corner_triangle (pt2 2 2) inc0 dmax (or_introl eq_refl) corner_independent ltac:(cbn; lia)) as (q & fc & E & (I & M) & _).
  exists q, fc. split; [exact E|]. apply corner_hull in I. specialize (M (pt2 (1/2) (1/2)) ltac:(apply corner_hull; cbn; lra)).
  apply (proj1 (le_sq _ _ (distance_nonneg _ _ _) (distance_nonneg _ _ _))) in M. rewrite !distance_sq in M. unfold VecNSpec.inner in M. cbn in M. split; nra.
Qed.
Example corner_inside : inside_hull 2 3 (sx_pts corner_triangle) (pt2 (1/4) (1/4)).
Proof.
  exists (fun j => if (j =? 0)%nat then 1/2 else 1/4). split; [intros j _; destruct (j =? 0)%nat; lra|]. split; [cbn; lra|].
  intros i L. assert (i = 0 \/ i = 1)%nat as [->| ->] by lia; cbn; lra.
Qed.
