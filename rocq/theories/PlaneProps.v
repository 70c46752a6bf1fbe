(** Planes and half-spaces (geomc/shape/Plane.h). *)
From Coq Require Import Reals Arith Lra Lia List.
From Verif Require Import PerlinSpec VecNModel VecNSpec VecNProofs Fld FldLemmas RFld LinSpec OrthoModel OrthoProofs OrthoProps AffineModel AffineSpec AffineProofs
  ShapeSpec ShapeProofs SphereModel SphereProofs PlaneModel PlaneProofs.
Open Scope R_scope.
Notation edges points := (fun i : nat => vec_sub (points (S i)) (points 0%nat)).

(** *** C66 *)
(** The plane through a point; none for a zero normal. *)
Theorem plane_through_point N n pt : (plane_through N n pt = None <-> all_zero N n) /\
  forall pl, plane_through N n pt = Some pl -> length N (pl_n pl) = 1 /\
  forall p, (plane_set N (pl_n pl) (pl_d pl) p <-> on_plane N n pt p) /\ (half_space N (pl_n pl) (pl_d pl) p <-> behind_plane N n pt p).
Proof. split; [apply through_none|exact (through_ok N n pt)]. Qed.
Print Assumptions plane_through_point.
(** The plane of N points: in two and three dimensions defined exactly for points in general position. *)
Theorem plane_of_simplex_low bigger N (points : nat -> vec) : @sane_order R_field bigger -> N = 2%nat \/ N = 3%nat ->
  (independent_rows (K := R_field) N (N - 1) (edges points) <-> exists pl, plane_from_simplex bigger N points = Some pl) /\
  forall pl, plane_from_simplex bigger N points = Some pl ->
  length N (pl_n pl) = 1 /\ forall j, (j < N)%nat -> plane_set N (pl_n pl) (pl_d pl) (points j).
Proof.
  intros O H. unfold plane_from_simplex, plane_from_basis. destruct (orthogonal_low R_field bigger N (edges points) H) as (n & -> & P & I). split.
  - rewrite I. destruct (plane_through N n (points 0%nat)) eqn:E.
    + split; [intros; eauto|]. intros _. assert (~ all_zero N n) as Z by (rewrite <- (through_none N n (points 0%nat)), E; discriminate).
      destruct (unit_vec N n) as [u|] eqn:F; [|apply unit_none in F; tauto]. apply unit_some in F as [F _].
      destruct (max_elem_spec N (vec_abs n)) as [(k & K & M) B]; [lia|]. exists k. split; [exact K|]. intros Q. unR. apply Z. intros i J.
      specialize (B i J). rewrite M in B. unfold vec_abs in B. rewrite Q, Rabs_R0 in B. pose proof (Rabs_pos (n i)).
      destruct (Req_EM_T (n i) 0) as [W|W]; [exact W|]. apply Rabs_pos_lt in W. lra.
    + split; [|intros [? [=]]]. apply through_none in E. intros (k & K & Q). exfalso. apply Q, E, K.
  - intros pl E. split; [exact (proj1 (through_ok N n _ pl E))|]. exact (simplex_points N n points pl E P).
Qed.
Print Assumptions plane_of_simplex_low.
(** From four dimensions on it is right if the first N-1 coordinates of the edges are independent ... *)
Theorem plane_of_simplex_high bigger N (points : nat -> vec) : @sane_order R_field bigger -> (4 <= N)%nat -> ~ singular (K := R_field) (N - 1) (edges points) ->
  exists pl, plane_from_simplex bigger N points = Some pl /\ length N (pl_n pl) = 1 /\
  forall j, (j < N)%nat -> plane_set N (pl_n pl) (pl_d pl) (points j).
Proof.
  intros O H S. unfold plane_from_simplex, plane_from_basis. destruct (proj1 (orthogonal_high R_field bigger O N (edges points) H) S) as (n & -> & L & P).
  destruct (plane_through N n (points 0%nat)) as [pl|] eqn:E.
  - exists pl. split; [reflexivity|]. split; [exact (proj1 (through_ok N n _ pl E))|]. exact (simplex_points N n points pl E P).
  - apply through_none in E. specialize (E (N - 1)%nat ltac:(lia)). rewrite E in L. exfalso. exact (R1_neq_R0 (eq_sym L)).
Qed.
Print Assumptions plane_of_simplex_high.
(** ... and otherwise gives no plane, also for points that lie on exactly one. *)
Theorem plane_of_simplex_high_refuted bigger N : @sane_order R_field bigger -> (4 <= N)%nat ->
  exists points : nat -> vec, independent_rows (K := R_field) N (N - 1) (edges points) /\ plane_from_simplex bigger N points = None.
Proof.
  intros O H. destruct (orthogonal_high_refuted R_field bigger O N H) as [(v & I & E) _].
  exists (fun j => match j with 0%nat => fun _ => 0 | S j => v j end). split.
  - intros c Hc. apply I. intros i L. etransitivity; [|exact (Hc i L)]. apply (FldLemmas.sum_ext R_field). intros k K. unfold vec_sub. unR. ring.
  - unfold plane_from_simplex, plane_from_basis. replace (orthogonal_any _ _ _) with (orthogonal_any (K := R_field) bigger N v).
    + rewrite E. apply through_none. now intros i L.
    + f_equal. apply FunctionalExtensionality.functional_extensionality. intros i. apply FunctionalExtensionality.functional_extensionality. intros k.
      unfold vec_sub. change (v i k = (v i k : R) - 0). symmetry. apply Rminus_0_r.
Qed.
Print Assumptions plane_of_simplex_high_refuted.
Theorem plane_queries N n d p : length N n = 1 ->
  signed_distance N (half_space N n d) (plane_set N n d) p (plane_distance N (mkPlane n d) p) /\
  (plane_contains N (mkPlane n d) p = true <-> half_space N n d p) /\
  is_nearest N (plane_set N n d) p (plane_project N (mkPlane n d) p) /\
  is_nearest N (plane_set N n d) (fun _ => 0) (plane_origin (mkPlane n d)).
Proof.
  intros U. split; [exact (plane_sdf_ok N n d U p)|]. split; [exact (plane_contains_ok N n d p)|].
  exact (conj (proj1 (plane_project_ok N n d U p)) (plane_origin_ok N n d U)).
Qed.
Print Assumptions plane_queries.
(** [contains(shape)], for a shape whose convex_support is right in the direction of the normal. *)
Theorem plane_contains_shape_exact N n d X support : is_support N X n (support n) ->
  (plane_contains_shape N (mkPlane n d) support = true <-> forall p, X p -> half_space N n d p).
Proof. exact (contains_shape_ok N n d X support). Qed.
Print Assumptions plane_contains_shape_exact.
(** [intersects(shape)]: a part strictly in front and a part on or behind; then the plane cuts the shape. *)
Theorem plane_intersects_shape_exact N n d X support :
  is_support N X n (support n) -> is_support N X (vec_neg n) (support (vec_neg n)) -> convex X ->
  (plane_intersects_shape N (mkPlane n d) support = true <-> meets X (plane_set N n d) /\ exists p, X p /\ ~ half_space N n d p).
Proof.
  intros A B C. rewrite (intersects_shape_ok N n d X support A B). unfold half_space. split.
  - intros [F G]. split; [now apply crossing|]. destruct F as (p & P & Q). exists p. split; [exact P|lra].
  - intros [(q & Q & Z) (p & P & F)]. split; [exists p; split; [exact P|lra]|exists q; split; [exact Q|]]. unfold plane_set in Z. lra.
Qed.
Print Assumptions plane_intersects_shape_exact.
(** A shape that touches the plane from behind is reported as not intersecting it, one touching from the front is not. *)
Theorem plane_touch_refuted N n d X support :
  is_support N X n (support n) -> is_support N X (vec_neg n) (support (vec_neg n)) -> (forall p, X p -> half_space N n d p) ->
  meets X (plane_set N n d) -> plane_intersects_shape N (mkPlane n d) support = false.
Proof.
  intros A B H (q & Q & Z). destruct (plane_intersects_shape _ _ _) eqn:E; [|reflexivity]. apply (intersects_shape_ok N n d X support A B) in E as [(p & P & F) _].
  specialize (H p P). unfold half_space in H. lra.
Qed.
Print Assumptions plane_touch_refuted.
(** The sphere test: true exactly if the sphere lies in front, touching or not. *)
Theorem plane_sphere_refuted N n d c r : length N n = 1 -> 0 <= r ->
  let v := plane_distance N (mkPlane n d) c in
  (meets (plane_set N n d) (ball N c r) <-> - r <= v <= r) /\
  (plane_intersects_sphere N (mkPlane n d) (mkSphere c r) = true <-> r <= v).
Proof.
  intros U RP v. split; [|exact (sphere_test_ok N n d (mkSphere c r))]. rewrite (plane_meets_ball N n d U c r RP). fold v.
  unfold Rabs. destruct (Rcase_abs v); split; intros; lra.
Qed.
Print Assumptions plane_sphere_refuted.
(** The hull test is always false. *)
Theorem plane_hull_refuted N pl pts : plane_intersects_hull N pl pts = false.
Proof. destruct pl as [n d]. exact (hull_test_false N n d pts). Qed.
Print Assumptions plane_hull_refuted.
(** Transforming (and un-transforming) a plane: right exactly if the image of the origin has no component along the new normal. *)
Theorem plane_transform_exact N xf n d : length N n = 1 -> sound N xf ->
  (exists pl', plane_apply N xf (mkPlane n d) = Some pl' /\
   ((forall x, plane_set N (pl_n pl') (pl_d pl') (xf_apply N xf x) <-> plane_set N n d x) <-> inner N (xf_apply N xf (fun _ => 0)) (pl_n pl') = 0)) /\
  (exists pl', plane_apply_inverse N xf (mkPlane n d) = Some pl' /\
   ((forall x, plane_set N (pl_n pl') (pl_d pl') (xf_apply_inverse N xf x) <-> plane_set N n d x) <-> inner N (xf_apply_inverse N xf (fun _ => 0)) (pl_n pl') = 0)).
Proof.
  intros U S. split.
  - destruct (apply_defined N n d U xf S) as [pl' E]. exists pl'. split; [exact E|]. exact (apply_right_iff N n d U xf pl' S E).
  - pose proof (sound_inverse R_field N xf S) as S'. destruct (apply_defined N n d U (xf_inverse xf) S') as [pl' E]. exists pl'. split; [exact E|].
    exact (apply_right_iff N n d U (xf_inverse xf) pl' S' E).
Qed.
Print Assumptions plane_transform_exact.
(** In particular a translation moves the plane the opposite way. *)
Theorem plane_translation_refuted N t n d pl' : length N n = 1 -> plane_apply N (@xf_translation R_field N t) (mkPlane n d) = Some pl' ->
  forall p, plane_set N (pl_n pl') (pl_d pl') p <-> plane_set N n d (fun i => p i + t i).
Proof. intros U E p. exact (apply_translation N n d U t pl' p E). Qed.
Print Assumptions plane_translation_refuted.
(** The hypotheses can be met. *)
Example plane_case : length 2 (fun i => if (i =? 0)%nat then 1 else 0) = 1 /\ sound 2 (@xf_translation R_field 2 (fun _ => 1)) /\
  is_support 2 (ball 2 (fun _ => 0) 0) (fun _ => 1) (fun _ => 0).
Proof.
  split; [exact (length_axis 2 0 ltac:(lia))|]. split; [apply sound_translation|]. split.
  - unfold ball. replace (distance 2 _ _) with 0; [lra|]. symmetry. now apply distance_zero.
  - intros q Q. unfold ball in Q. assert (distance 2 q (fun _ => 0) = 0) as Z by (pose proof (distance_nonneg 2 q (fun _ => 0)); lra).
    apply distance_zero in Z. rewrite (inner_ext 2 q (fun _ => 0) _ _ Z (same_refl _ _)). lra.
Qed.
