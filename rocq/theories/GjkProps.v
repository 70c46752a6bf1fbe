(** Property C76: the intersection test of two convex shapes by their support functions. *)
From Coq Require Import Reals Arith Lra Lia.
From Verif Require Import Fld RFld VecNModel VecNSpec ShapeSpec ShapeProofs SimplexSpec SimplexModel SimplexProofs SphereModel GjkModel GjkSpec GjkProofs.
Open Scope R_scope.

(** A miss is right, in every dimension, and the stored axis is a vector by which the second shape lies beyond the first. *)
Theorem gjk_miss_separated N bigger A B sa sb inc0 dmax axis degenerate res : supports_of N A sa -> supports_of N B sb ->
  gjk_query N bigger sa sb inc0 dmax axis degenerate = Some res -> gj_hit res = false -> separates N (gj_axis res) A B /\ apart N A B.
Proof. intros HA HB E H. pose proof (query_miss N bigger A B sa sb inc0 dmax axis degenerate res HA HB E H) as S. exact (conj S (separates_apart N _ A B S)). Qed.
Print Assumptions gjk_miss_separated.
(** Shapes with a common point are reported, whenever there is an answer. *)
Theorem gjk_touching_hit N bigger A B sa sb inc0 dmax axis degenerate res : supports_of N A sa -> supports_of N B sb -> ~ apart N A B ->
  gjk_query N bigger sa sb inc0 dmax axis degenerate = Some res -> gj_hit res = true.
Proof. exact (query_touching N bigger A B sa sb inc0 dmax axis degenerate res). Qed.
Print Assumptions gjk_touching_hit.
(** Two and three dimensions: a hit found before the iteration limit is right. *)
Theorem gjk_apart_miss N bigger A B sa sb inc0 dmax axis degenerate : N = 2%nat \/ N = 3%nat -> supports_of N A sa -> supports_of N B sb -> convex A -> convex B -> apart N A B -> ~ all_zero N axis ->
  exists res, gjk_query N bigger sa sb inc0 dmax axis degenerate = Some res /\ (gj_hit res = false \/ gj_iters res = S (gjk_max N)).
Proof. intros LN HA HB CA CB Ap. exact (query_apart N LN bigger A B sa sb HA HB CA CB Ap inc0 dmax axis degenerate). Qed.
Print Assumptions gjk_apart_miss.
(** Two and three dimensions: with support functions that always answer there is an answer, in a bounded number of iterations. *)
Theorem gjk_total N bigger sa sb inc0 dmax axis degenerate : N = 2%nat \/ N = 3%nat -> (forall d, sa d <> None) -> (forall d, sb d <> None) ->
  exists res, gjk_query N bigger sa sb inc0 dmax axis degenerate = Some res /\ (gj_iters res <= S (gjk_max N))%nat.
Proof. exact (query_some N bigger sa sb inc0 dmax axis degenerate). Qed.
Print Assumptions gjk_total.
(** At the iteration limit the answer may be wrong: a polygon with twelve vertices and a point apart from it. *)
Theorem gjk_iteration_limit_refuted eps bigger inc0 dmax : 0 < eps <= (1 / 4) ^ 11 ->
  apart 2 (hull 2 12 (zigzag eps)) (hull 2 1 (fun _ _ => 0)) /\
  gjk_intersects 2 bigger (fun d => Some (simplex_support 2 (mkSimplex 12 (zigzag eps)) d)) (fun d => Some (simplex_support 2 (mkSimplex 1 (fun _ _ => 0)) d)) inc0 dmax = Some true.
Proof. intros P. exact (conj (zig_apart eps P) (zig_hit eps P bigger inc0 dmax)). Qed.
Print Assumptions gjk_iteration_limit_refuted.
(** Spheres that touch at the first point tried: no answer. *)
Theorem gjk_tangent_spheres_refuted N bigger inc0 dmax c r c' r' : (1 <= N)%nat -> 0 <= r -> 0 <= r' -> same N c' (fun i => c i + (if (i =? 0)%nat then r + r' else 0)) ->
  ~ apart N (ball N c r) (ball N c' r') /\ gjk_intersects N bigger (sphere_support N (mkSphere c r)) (sphere_support N (mkSphere c' r')) inc0 dmax = None.
Proof. intros L P P' E. exact (conj (tangent_meet N c r c' r' L P P' E) (tangent N bigger inc0 dmax c r c' r' L P P' E)). Qed.
Print Assumptions gjk_tangent_spheres_refuted.
(** A query can leave a zero axis, and the next query of the same object then has no answer for any spheres. *)
Theorem gjk_reuse_refuted bigger inc0 dmax : exists res,
  gjk_query 2 bigger (sphere_support 2 (mkSphere (pt2 1 0) 1)) (sphere_support 2 (mkSphere (pt2 0 0) 0)) inc0 dmax (pt2 1 0) false = Some res /\ gj_hit res = true /\
  forall c r sb inc1, 0 <= r -> gjk_query 2 bigger (sphere_support 2 (mkSphere c r)) sb inc1 dmax (gj_axis res) (gj_degenerate res) = None.
Proof. destruct (reuse bigger inc0 dmax) as (res & E & H & Z). exists res. split; [exact E|]. split; [exact H|]. intros c r sb inc1 P. exact (query_zero 2 bigger c r sb inc1 dmax _ _ P Z). Qed.
Print Assumptions gjk_reuse_refuted.
(** A miss in the first iteration leaves the flag of an earlier query. *)
Theorem gjk_degenerate_flag_refuted N bigger sa sb inc0 dmax axis degenerate res : gjk_query N bigger sa sb inc0 dmax axis degenerate = Some res -> gj_iters res = 1%nat -> gj_hit res = false ->
  gj_degenerate res = degenerate.
Proof. exact (stale N bigger sa sb inc0 dmax axis degenerate res). Qed.
Print Assumptions gjk_degenerate_flag_refuted.

(** Hypotheses: the support functions of spheres and simplices; convex sets that are apart, and sets that meet; a miss in the first iteration. *)
Example gjk_support_case N c r s : 0 <= r -> (0 < sx_n s)%nat -> supports_of N (ball N c r) (sphere_support N (mkSphere c r)) /\ supports_of N (hull N (sx_n s) (sx_pts s)) (fun d => Some (simplex_support N s d)).
Proof. intros P L. split; [now apply sphere_supports|]. split; [|discriminate]. intros d p [= <-]. now apply support_vertex. Qed.
Example gjk_apart_case eps : 0 < eps <= (1 / 4) ^ 11 -> convex (hull 2 12 (zigzag eps)) /\ convex (hull 2 1 (fun _ _ => 0)) /\ apart 2 (hull 2 12 (zigzag eps)) (hull 2 1 (fun _ _ => 0)).
Proof. intros P. split; [apply hull_convex|]. split; [apply hull_convex|now apply zig_apart]. Qed.
Example gjk_axis_case : ~ all_zero 2 (fun i => if (i =? 0)%nat then 1 else 0).
Proof. intros H. specialize (H 0%nat ltac:(lia)). cbn in H. lra. Qed.
Example gjk_touch_case N c r : (1 <= N)%nat -> 0 <= r -> ~ apart N (ball N c r) (ball N (fun i => c i + (if (i =? 0)%nat then r + r else 0)) r).
Proof. intros L P. apply tangent_meet; [exact L|exact P|exact P|apply same_refl]. Qed.
Example gjk_first_miss_case bigger inc0 dmax degenerate : supports_of 2 (same 2 (pt2 1 0)) (fun _ => Some (pt2 1 0)) /\ supports_of 2 (same 2 (pt2 0 0)) (fun _ => Some (pt2 0 0)) /\
  exists res, gjk_query 2 bigger (fun _ => Some (pt2 1 0)) (fun _ => Some (pt2 0 0)) inc0 dmax (pt2 1 0) degenerate = Some res /\ gj_iters res = 1%nat /\ gj_hit res = false.
Proof. split; [apply point_supports|]. split; [apply point_supports|apply point_miss]. Qed.
