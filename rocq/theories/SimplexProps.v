(** Simplices (geomc/shape/Simplex.h), without projection; [bigger] is any comparison fit for choosing pivots.
    The set of a simplex is the convex hull of its vertices. *)
From Coq Require Import List Reals Arith Lra Lia Bool.
From Verif Require Import Fld RFld LinSpec AffineModel AffineSpec PerlinSpec VecNModel VecNSpec RayModel Ord RectModel RectArithModel
  ShapeSpec ShapeProofs SphereModel OrientedSpec OrientedProofs SimplexSpec SimplexModel SimplexProofs.
Open Scope R_scope.

(** *** C74 *)
(** Inserting appends a vertex while there are at most N of them, and does nothing afterwards. *)
Theorem simplex_insert_appends N s p :
  ((sx_n s <= N)%nat -> sx_n (simplex_insert N s p) = S (sx_n s) /\ sx_pts (simplex_insert N s p) (sx_n s) = p /\
    forall j, (j < sx_n s)%nat -> sx_pts (simplex_insert N s p) j = sx_pts s j) /\
  ((N < sx_n s)%nat -> simplex_insert N s p = s).
Proof. exact (conj (insert_ok N s p) (insert_full N s p)). Qed.
Print Assumptions simplex_insert_appends.
(** The constructors keep the vertices given, a list at most N + 1 of them. *)
Theorem simplex_constructors N verts n l j :
  sx_n (simplex_of verts n) = n /\ ((j < n)%nat -> sx_pts (simplex_of verts n) j = verts j) /\
  (sx_n (simplex_of_list N l) <= N + 1)%nat /\ ((List.length l <= N + 1)%nat -> sx_n (simplex_of_list N l) = List.length l) /\
  ((j < List.length l)%nat -> (j < N + 1)%nat -> nth_error l j = Some (sx_pts (simplex_of_list N l) j) /\ (j < sx_n (simplex_of_list N l))%nat).
Proof. exact (constructors_ok N verts n l j). Qed.
Print Assumptions simplex_constructors.
(** Excluding a vertex keeps the others in order, in place and in a copy. *)
Theorem simplex_exclude_drops s i : (i < sx_n s)%nat ->
  (sx_n (simplex_exclude s i) = (sx_n s - 1)%nat /\
   forall j, (j < sx_n s - 1)%nat -> sx_pts (simplex_exclude s i) j = sx_pts s (if (j <? i)%nat then j else S j)) /\
  (sx_n (simplex_excluded s i) = (sx_n s - 1)%nat /\
   forall j, (j < sx_n s - 1)%nat -> sx_pts (simplex_excluded s i) j = sx_pts s (if (j <? i)%nat then j else S j)).
Proof. exact (fun L => conj (exclude_ok s i L) (excluded_ok s i L)). Qed.
Print Assumptions simplex_exclude_drops.
Theorem simplex_eq_exact N s t : simplex_eq N s t = true <-> sx_n s = sx_n t /\ forall j, (j < sx_n s)%nat -> same N (sx_pts s j) (sx_pts t j).
Proof. exact (eq_ok N s t). Qed.
Print Assumptions simplex_eq_exact.
(** Transforming the vertices transforms the set; dividing by a transform carrying its true inverse undoes it. *)
Theorem simplex_transform_exact N (xf : xformR) s p :
  (hull N (sx_n (simplex_xf N s xf)) (sx_pts (simplex_xf N s xf)) p <-> image N (xmat xf) (hull N (sx_n s) (sx_pts s)) p) /\
  (sound N xf -> (hull N (sx_n (simplex_unxf N s xf)) (sx_pts (simplex_unxf N s xf)) p <-> hull N (sx_n s) (sx_pts s) (xf_apply N xf p))).
Proof. exact (conj (xf_hull N xf s p) (unxf_hull N xf s p)). Qed.
Print Assumptions simplex_transform_exact.
Theorem standard_simplex_exact N p :
  hull N (sx_n (standard_simplex N)) (sx_pts (standard_simplex N)) p <-> (forall i, (i < N)%nat -> 0 <= p i) /\ rsum N p <= 1.
Proof. exact (standard_hull N p). Qed.
Print Assumptions standard_simplex_exact.
Theorem simplex_support_extreme N s d : (0 < sx_n s)%nat -> is_support N (hull N (sx_n s) (sx_pts s)) d (simplex_support N s d).
Proof. exact (support_vertex N s d). Qed.
Print Assumptions simplex_support_extreme.

(** Containment in every dimension. *)
Theorem simplex_contains_exact N bigger s p : sane_order bigger ->
  ((sx_n s < N + 1)%nat -> simplex_contains N bigger s p = Some false) /\
  (sx_n s = (N + 1)%nat -> affinely_independent N (N + 1) (sx_pts s) ->
     exists b, simplex_contains N bigger s p = Some b /\ (b = true <-> hull N (N + 1) (sx_pts s) p)) /\
  (sx_n s = (N + 1)%nat -> ~ affinely_independent N (N + 1) (sx_pts s) -> simplex_contains N bigger s p <> Some true).
Proof. exact (fun O => conj (contains_few N bigger s p) (conj (contains_full N bigger s p O) (contains_flat N bigger s p O))). Qed.
Print Assumptions simplex_contains_exact.
(** The documentation promises [false] for a degenerate simplex; this one divides by zero, whatever the point. *)
Theorem simplex_degenerate_refuted bigger p : sane_order bigger ->
  simplex_contains 2 bigger (mkSimplex 3 (three (pt2 0 0) (pt2 1 0) (pt2 2 0))) p = None.
Proof. exact (flat_triangle bigger p). Qed.
Print Assumptions simplex_degenerate_refuted.

(** Rays through a full simplex: no part of the intersection is lost, and the answer is exact unless it is a single point. *)
Theorem simplex_ray_sound N bigger s r : sane_order bigger -> sx_n s = (N + 1)%nat -> affinely_independent N (N + 1) (sx_pts s) ->
  exists iv, simplex_ray N bigger s r = Some iv /\
  (forall t, hull N (N + 1) (sx_pts s) (fun i => origin r i + t * direction r i) -> in_interval iv t) /\
  (forall t u, t < u -> in_interval iv t -> in_interval iv u ->
     forall v, in_interval iv v -> hull N (N + 1) (sx_pts s) (fun i => origin r i + v * direction r i)).
Proof. exact (ray_full N bigger s r). Qed.
Print Assumptions simplex_ray_sound.
(** A single point need not be a hit: this ray passes one unit below the triangle. *)
Theorem simplex_ray_graze_refuted bigger : sane_order bigger ->
  exists iv, simplex_ray 2 bigger corner_triangle (mkRay (pt2 2 (-1)) (pt2 (-1) 0)) = Some iv /\ in_interval iv 1 /\
  forall t, ~ hull 2 (2 + 1) (sx_pts corner_triangle) (fun i => pt2 2 (-1) i + t * pt2 (-1) 0 i).
Proof.
  intros O. destruct (grazing_ray bigger O) as (iv & E & I). exists iv. repeat split; auto. apply I. apply I. intros t H. apply corner_hull in H. cbn in H. lra.
Qed.
Print Assumptions simplex_ray_graze_refuted.
Theorem simplex_ray_few N bigger s r : (sx_n s < N)%nat -> simplex_ray N bigger s r = Some iv_empty.
Proof. exact (ray_few N bigger s r). Qed.
Print Assumptions simplex_ray_few.
(** Simplices of N vertices (a triangle in space) never report a hit: exactly the rays whose line meets the simplex
    make the solution be read past its end. *)
Theorem simplex_facet_ray_refuted N bigger s r : sane_order bigger -> sx_n s = N ->
  (simplex_ray N bigger s r = Some iv_empty \/ simplex_ray N bigger s r = None) /\
  ((2 <= N <= 4)%nat -> independent_vectors N N (trace_bases N (sx_pts s) (direction r)) ->
    (simplex_ray N bigger s r = None <-> line_meets (hull N N (sx_pts s)) (origin r) (direction r))).
Proof. exact (fun O E => conj (ray_facet N bigger s r E) (fun L => ray_facet_hit N bigger O s r L E)). Qed.
Print Assumptions simplex_facet_ray_refuted.

(** Facing: for points, segments and full simplices. *)
Theorem simplex_facing_exact N bigger s p : sane_order bigger ->
  (sx_n s = 0%nat -> simplex_is_facing N bigger s p = Some false) /\
  (sx_n s = 1%nat -> simplex_is_facing N bigger s p = Some true /\ faces N 1 (sx_pts s) p) /\
  (sx_n s = 2%nat -> ~ same N (sx_pts s 0%nat) (sx_pts s 1%nat) ->
     exists b, simplex_is_facing N bigger s p = Some b /\ (b = true <-> faces N 2 (sx_pts s) p)) /\
  ((2 <= N)%nat -> sx_n s = (N + 1)%nat -> affinely_independent N (N + 1) (sx_pts s) ->
     exists b, simplex_is_facing N bigger s p = Some b /\ (b = true <-> hull N (N + 1) (sx_pts s) p)).
Proof.
  exact (fun O => conj (facing_none N bigger s p) (conj (facing_point N bigger s p) (conj (facing_segment N bigger s p) (facing_full N bigger O s p)))).
Qed.
Print Assumptions simplex_facing_exact.
(** For a triangle in space only one of its two coordinates is checked. *)
Theorem simplex_facing_triangle_refuted bigger : sane_order bigger ->
  simplex_is_facing 3 bigger (mkSimplex 3 (three (pt3 0 0 0) (pt3 1 0 0) (pt3 0 1 0))) (pt3 (1/2) (-5) 0) = Some true /\
  ~ faces 3 3 (three (pt3 0 0 0) (pt3 1 0 0) (pt3 0 1 0)) (pt3 (1/2) (-5) 0).
Proof. exact (facing_wrong bigger). Qed.
Print Assumptions simplex_facing_triangle_refuted.

(** Volume: the determinant of the edges over N!, up to three dimensions. *)
Theorem simplex_volume_exact N bigger s :
  ((sx_n s < N + 1)%nat -> simplex_volume N bigger s = 0) /\
  ((1 <= N <= 3)%nat -> sx_n s = (N + 1)%nat ->
    simplex_volume N bigger s = det (K := R_field) N (fun r c => sx_pts s (S r) c - sx_pts s 0%nat c) / rfact N).
Proof. exact (conj (volume_few N bigger s) (volume_small N bigger s)). Qed.
Print Assumptions simplex_volume_exact.
(** From four dimensions on the standard simplex, of volume 1/N!, is given volume zero. *)
Theorem simplex_volume_refuted N bigger : sane_order bigger -> (4 <= N)%nat -> simplex_volume N bigger (standard_simplex N) = 0.
Proof. exact (fun O => volume_standard N bigger O). Qed.
Print Assumptions simplex_volume_refuted.
(** Measure: length of a segment, area of a triangle in space (the square of its parallelogram's area is the Gram determinant). *)
Theorem simplex_measure_exact N bigger s :
  (sx_n s = 2%nat -> simplex_measure N bigger s = distance N (sx_pts s 1%nat) (sx_pts s 0%nat)) /\
  (sx_n s = 3%nat -> let a := fun i => sx_pts s 1%nat i - sx_pts s 0%nat i in let b := fun i => sx_pts s 2%nat i - sx_pts s 0%nat i in
    let area := simplex_measure 3 bigger s in
    0 <= area /\ 2 * area * (2 * area) = inner 3 a a * inner 3 b b - inner 3 a b * inner 3 a b) /\
  (sx_n s = (N + 1)%nat -> (2 <= N)%nat -> simplex_measure N bigger s = simplex_volume N bigger s).
Proof. exact (conj (measure_segment N bigger s) (conj (measure_triangle bigger s) (measure_full N bigger s))). Qed.
Print Assumptions simplex_measure_exact.
(** It is documented to be positive, but is signed for a full simplex; and in four or more dimensions it is zero
    for every simplex of 3 to N vertices whose edges at the first vertex are orthogonal. *)
Theorem simplex_measure_refuted N bigger s : sane_order bigger ->
  simplex_measure 2 bigger (mkSimplex 3 (three (pt2 0 0) (pt2 0 1) (pt2 1 0))) = - (1 / 2) /\
  ((3 <= sx_n s <= N)%nat -> (4 <= N)%nat ->
  (forall i j, (i < sx_n s - 1)%nat -> (j < sx_n s - 1)%nat -> i <> j ->
     inner N (fun k => sx_pts s (S i) k - sx_pts s 0%nat k) (fun k => sx_pts s (S j) k - sx_pts s 0%nat k) = 0) ->
  (forall i, (i < sx_n s - 1)%nat -> ~ same N (sx_pts s (S i)) (sx_pts s 0%nat)) -> simplex_measure N bigger s = 0).
Proof. exact (fun O => conj (clockwise_measure bigger) (measure_orthogonal N bigger O s)). Qed.
Print Assumptions simplex_measure_refuted.

(** Cases meeting the hypotheses. *)
Example corner_case : affinely_independent 2 (2 + 1) (sx_pts corner_triangle) /\ hull 2 (2 + 1) (sx_pts corner_triangle) (pt2 (1/3) (1/3)) /\
  ~ hull 2 (2 + 1) (sx_pts corner_triangle) (pt2 1 1).
Proof. split; [exact corner_independent|]. rewrite !corner_hull. cbn. lra. Qed.
Example facet_case : independent_vectors 2 2 (trace_bases 2 (three (pt2 0 (-1)) (pt2 0 1) (pt2 0 0)) (pt2 1 0)) /\
  line_meets (hull 2 2 (three (pt2 0 (-1)) (pt2 0 1) (pt2 0 0))) (pt2 (-2) 0) (pt2 1 0).
Proof.
  split.
  - intros w W. pose proof (W 0%nat ltac:(lia)) as W0. pose proof (W 1%nat ltac:(lia)) as W1. cbn in W0, W1. unfold vec_sub, vec_neg in *. cbn in W0, W1.
    intros [|[|j]] J; [lra|lra|lia].
  - exists 2. exists (fun _ => 1/2). split; [intros; lra|]. split; [cbn; lra|]. intros [|[|i]] L; [cbn; lra|cbn; lra|lia].
Qed.
Example flat_case : ~ affinely_independent 2 (2 + 1) (three (pt2 0 0) (pt2 1 0) (pt2 2 0)).
Proof.
  intros A. assert (1 = 0) as E; [|lra]. refine (A (fun j => match j with 0%nat => 1 | 1%nat => -2 | _ => 1 end) _ _ 0%nat ltac:(lia)).
  - cbn. lra.
  - intros [|[|i]] L; [cbn; lra|cbn; lra|lia].
Qed.
