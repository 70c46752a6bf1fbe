(** C21-C24 and C45-C48: axis-aligned boxes. *)
From Coq Require Import ZArith Reals List Bool Arith Lra Lia.
From Verif Require Import Mem Ord RectModel RectSpec RectProofs RectArithModel RectArithProofs RectIntProofs.
Import ListNotations.
Open Scope nat_scope.

(** * C21: set operations, over any totally ordered coordinates *)
Theorem rect_contains {K : ord} N (r : @rect K) p : contains_pt N r p = true <-> inside N p r.
Proof. exact (contains_iff N r p). Qed.
Print Assumptions rect_contains.
Theorem rect_is_empty {K : ord} N (r : @rect K) : is_empty N r = true <-> ~ nonempty N r.
Proof. exact (is_empty_iff N r). Qed.
Print Assumptions rect_is_empty.
Theorem rect_intersection {K : ord} N (a b : @rect K) p : inside N p (inter a b) <-> inside N p a /\ inside N p b.
Proof. exact (inter_iff N a b p). Qed.
Print Assumptions rect_intersection.
Theorem rect_union_contains {K : ord} N (a b : @rect K) : subset N a (union a b) /\ subset N b (union a b).
Proof. exact (union_upper N a b). Qed.
Print Assumptions rect_union_contains.
Theorem rect_union_smallest {K : ord} N (a b c : @rect K) : nonempty N a -> nonempty N b ->
  subset N a c -> subset N b c -> subset N (union a b) c.
Proof. exact (union_least N a b c). Qed.
Print Assumptions rect_union_smallest.
Theorem rect_union_in_place {K : ord} (a b : @rect K) i :
  lo (union_into a b) i = lo (union a b) i /\ hi (union_into a b) i = hi (union a b) i.
Proof. exact (union_into_eq a b i). Qed.
Print Assumptions rect_union_in_place.
Theorem rect_contains_box {K : ord} N (a b : @rect K) : nonempty N b -> (contains_box N a b = true <-> subset N b a).
Proof. exact (fun H => conj (contains_box_sound N a b) (contains_box_complete N a b H)). Qed.
Print Assumptions rect_contains_box.
Theorem rect_spanning_smallest {K : ord} N (p q : @point K) :
  inside N p (spanning_corners p q) /\ inside N q (spanning_corners p q) /\
  forall c, inside N p c -> inside N q c -> subset N (spanning_corners p q) c.
Proof. exact (spanning_spec N p q). Qed.
Print Assumptions rect_spanning_smallest.
Theorem rect_from_points {K : ord} N (tmin tmax : K) (ps : list (@point K)) :
  (forall p i, In p ps -> i < N -> le tmin (p i) /\ le (p i) tmax) ->
  (forall p, In p ps -> inside N p (from_points tmin tmax ps)) /\
  (ps <> [] -> forall c, (forall p, In p ps -> inside N p c) -> subset N (from_points tmin tmax ps) c).
Proof. exact (from_points_spec N tmin tmax ps). Qed.
Print Assumptions rect_from_points.
Theorem rect_from_no_points {K : ord} N (tmin tmax : K) : lt tmin tmax -> 0 < N -> ~ nonempty N (from_points tmin tmax []).
Proof. exact (from_no_points N tmin tmax). Qed.
Print Assumptions rect_from_no_points.
Theorem rect_cartesian {K : ord} n m (a b : @rect K) p :
  inside (n + m) p (cartesian n a b) <-> inside n p a /\ inside m (fun i => p (n + i)) b.
Proof. exact (cartesian_spec n m a b p). Qed.
Print Assumptions rect_cartesian.
(** clip returns a point of the Rect, leaves points of the Rect alone, and is nearest. *)
Theorem rect_clip_inside {K : ord} N (r : @rect K) p : nonempty N r -> inside N (clip r p) r.
Proof. exact (clip_inside N r p). Qed.
Print Assumptions rect_clip_inside.
Theorem rect_clip_fixes {K : ord} N (r : @rect K) p : inside N p r -> forall i, i < N -> clip r p i = p i.
Proof. exact (clip_id N r p). Qed.
Print Assumptions rect_clip_fixes.
Theorem rect_clip_nearest N (r : @rect R_ord) p q : inside N q r -> (dist2 N p (clip r p) <= dist2 N p q)%R.
Proof. exact (clip_nearest N r p q). Qed.
Print Assumptions rect_clip_nearest.
Theorem rect_distance N (r : @rect R_ord) p : nonempty N r ->
  (exists q, inside N q r /\ dist2 N p q = r_dist2 N r p) /\
  (forall q, inside N q r -> (r_dist2 N r p <= dist2 N p q)%R) /\ (r_dist2 N r p = 0%R <-> inside N p r).
Proof. exact (dist2_spec N r p). Qed.
Print Assumptions rect_distance.
Theorem rect_convex_support N (r : @rect R_ord) (d p : nat -> R) : nonempty N r -> inside N (p : @point R_ord) r ->
  inside N (convex_support r (fun i => Rltb (d i) 0)) r /\
  (sum_axes N (fun i => d i * p i) <= sum_axes N (fun i => d i * convex_support r (fun i => Rltb (d i) 0) i))%R.
Proof. exact (support_dot N r d p). Qed.
Print Assumptions rect_convex_support.

(** * C22: overlap, exclusion, projection *)
(** For non-empty boxes a reported overlap is real, and an overlap goes unreported exactly when the boxes
    touch end to end along some axis. *)
Theorem rect_intersects_sound {K : ord} N (a b : @rect K) : nonempty N a -> nonempty N b ->
  intersects N a b = true -> exists p, inside N p a /\ inside N p b.
Proof. exact (intersects_sound N a b). Qed.
Print Assumptions rect_intersects_sound.
Theorem rect_intersects_misses_iff_touching {K : ord} N (a b : @rect K) : nonempty N a -> nonempty N b ->
  (exists p, inside N p a /\ inside N p b) ->
  (intersects N a b = false <-> exists i, i < N /\ (hi a i = lo b i \/ hi b i = lo a i)).
Proof. exact (intersects_exact N a b). Qed.
Print Assumptions rect_intersects_misses_iff_touching.
Theorem rect_intersects_interior {K : ord} N (a b : @rect K) p : interior N p a -> interior N p b -> intersects N a b = true.
Proof. exact (intersects_interior N a b p). Qed.
Print Assumptions rect_intersects_interior.
(** A one-cell integer box does not even intersect itself. *)
Theorem rect_intersects_refuted (c : Z) : let a : @rect Z_ord := mkRect (fun _ => c : Z_ord) (fun _ => c) in
  inside 1 (lo a) a /\ intersects 1 a a = false.
Proof.
  cbv zeta. split; [intros i Hi; split; apply le_refl|]. apply (intersects_touching 1 _ _ 0); [lia|now left].
Qed.
Print Assumptions rect_intersects_refuted.
(** An empty box can be reported as overlapping. *)
Theorem rect_intersects_empty_refuted : exists a b : @rect Z_ord,
  intersects 1 a b = true /\ ~ exists p, inside 1 p a /\ inside 1 p b.
Proof.
  exists (mkRect (fun _ => 5 : Z_ord) (fun _ => 1))%Z, (mkRect (fun _ => 0 : Z_ord) (fun _ => 10))%Z.
  split; [reflexivity|]. intros (p & A & _). rewrite inside_Z in A. specialize (A 0 ltac:(lia)). cbn in A. lia.
Qed.
Print Assumptions rect_intersects_empty_refuted.
(** Every box contains every empty box as a set; contains() agrees only when no extreme of the empty box
    protrudes (in particular for the default-constructed Rect). *)
Theorem rect_contains_empty_box {K : ord} N (a b : @rect K) : ~ nonempty N b ->
  subset N b a /\ (contains_box N a b = true <-> forall i, i < N -> le (lo a i) (lo b i) /\ le (hi b i) (hi a i)).
Proof. exact (contains_box_empty N a b). Qed.
Print Assumptions rect_contains_empty_box.
Theorem rect_contains_empty_refuted : exists a b : @rect Z_ord,
  nonempty 1 a /\ ~ nonempty 1 b /\ subset 1 b a /\ contains_box 1 a b = false.
Proof.
  exists (mkRect (fun _ => 6 : Z_ord) (fun _ => 7))%Z, (mkRect (fun _ => 5 : Z_ord) (fun _ => 1))%Z.
  assert (E : ~ @nonempty Z_ord 1 (mkRect (fun _ => 5 : Z_ord) (fun _ => 1))%Z).
  { rewrite nonempty_Z. intros H. specialize (H 0 ltac:(lia)). cbn in H. lia. }
  split; [rewrite nonempty_Z; cbn; lia|]. split; [exact E|]. split; [apply contains_box_empty; exact E|reflexivity].
Qed.
Print Assumptions rect_contains_empty_refuted.
(** Exclusion a - b: whatever the operands, the returned Rect is empty; in particular removing an empty box, or a
    box that covers one end of an interval, loses everything. *)
Theorem rect_exclusion_refuted {K : ord} N (tmin tmax : K) (a b : @rect K) : lt tmin tmax -> 0 < N ->
  ~ nonempty N (exclude_into tmin tmax a b).
Proof. exact (exclude_returns_empty N tmin tmax a b). Qed.
Print Assumptions rect_exclusion_refuted.
(** ... and the left operand of the binary operator is overwritten, with reversed ends when one end is covered. *)
Theorem rect_exclusion_modifies_operand_refuted {K : ord} (tmin tmax : K) (a b : @rect K) i :
  (le (lo a i) (lo b i) -> le (lo b i) (hi a i) -> lt (hi a i) (hi b i) ->
    lo (snd (exclude tmin tmax a b)) i = lo b i /\ hi (snd (exclude tmin tmax a b)) i = lo a i) /\
  (lt (lo b i) (lo a i) -> le (lo a i) (hi b i) -> le (hi b i) (hi a i) ->
    lo (snd (exclude tmin tmax a b)) i = hi a i /\ hi (snd (exclude tmin tmax a b)) i = hi b i).
Proof. exact (exclude_modifies tmin tmax a b i). Qed.
Print Assumptions rect_exclusion_modifies_operand_refuted.
(** project: right on an interval, wrong on every surface point of a box that is not a corner: such a point is
    its own nearest surface point, but it is moved, and its signed distance is negative instead of zero. *)
Theorem rect_project_interval (r : @rect R_ord) (p : @point R_ord) q : q = lo r 0 \/ q = hi r 0 ->
  (Rabs (p 0%nat - r_project r p 0%nat) <= Rabs (p 0%nat - q))%R.
Proof. exact (project_1d r p q). Qed.
Print Assumptions rect_project_interval.
Theorem rect_project_refuted N (r : @rect R_ord) (p : @point R_ord) : inside N p r ->
  (exists k, k < N /\ (lo r k < p k < hi r k)%R) -> (0 < dist2 N (r_project r p) p)%R /\ (r_sdf N r p < 0)%R.
Proof. exact (project_surface N r p). Qed.
Print Assumptions rect_project_refuted.
(** The size of sdf is the distance to the nearest corner, negative inside; for an interval that is the signed distance of the ends. *)
Theorem rect_sdf_corner N (r : @rect R_ord) (p : @point R_ord) : let sign := (if contains_pt N r p then -1 else 1)%R in
  (exists c : @point R_ord, (forall i, c i = lo r i \/ c i = hi r i) /\ r_sdf N r p = (sign * dist N c p)%R) /\
  (forall c : @point R_ord, (forall i, i < N -> c i = lo r i \/ c i = hi r i) -> (sign * r_sdf N r p <= dist N c p)%R).
Proof. exact (sdf_nearest_corner N r p). Qed.
Print Assumptions rect_sdf_corner.
Theorem rect_sdf_interval (r : @rect R_ord) (p : @point R_ord) : (lo r 0%nat <= hi r 0%nat)%R -> r_sdf 1 r p = Rmax (lo r 0%nat - p 0%nat) (p 0%nat - hi r 0%nat).
Proof. exact (sdf_interval r p). Qed.
Print Assumptions rect_sdf_interval.
Example project_surface_case : let r : @rect R_ord := mkRect (fun _ => 0%R : R_ord) (fun _ => 2%R) in
  let p : @point R_ord := fun i => match i with O => 0%R | _ => 1%R end in
  inside 2 p r /\ (exists k, k < 2 /\ (lo r k < p k < hi r k)%R).
Proof.
  cbv zeta. split; [|exists 1; cbn; split; [lia|lra]]. rewrite inside_R. intros [|[|]] H; cbn; [lra|lra|lia].
Qed.

(** * C23: remap and unmap *)
Theorem rect_remap_unmap N (r : @rect R_ord) : (forall i, i < N -> (lo r i : R) <> hi r i) ->
  (forall p i, i < N -> (r_remap r (r_unmap r p) i : R) = p i) /\ (forall p i, i < N -> (r_unmap r (r_remap r p) i : R) = p i).
Proof. exact (remap_ok N r). Qed.
Print Assumptions rect_remap_unmap.
Theorem rect_remap_unit_box N (r : @rect R_ord) : (forall i, i < N -> (lo r i < hi r i)%R) -> forall p : @point R_ord,
  (inside N (r_remap r p) r <-> forall i, i < N -> (0 <= p i <= 1)%R).
Proof. exact (remap_unit N r). Qed.
Print Assumptions rect_remap_unit_box.

(** * C24: rays *)
Theorem rect_ray_intersection N (r : @rect R_ord) (o d : nat -> R) s : nonempty N r ->
  (iv_has (ray_intersect N r o d) s <-> inside N (fun i => (o i + s * d i)%R : R_ord) r).
Proof. exact (ray_intersect_ok N r o d s). Qed.
Print Assumptions rect_ray_intersection.
(** An empty interval is always hit. *)
Theorem rect_ray_empty_refuted (r : @rect R_ord) (o d : nat -> R) : d 0 <> 0%R ->
  exists s, iv_has (ray_intersect 1 r o d) s.
Proof. exact (ray_intersect_bad r o d). Qed.
Print Assumptions rect_ray_empty_refuted.
Theorem rect_ray_empty_witness_refuted : exists (r : @rect R_ord) (o d : nat -> R), ~ nonempty 1 r /\
  exists s, iv_has (ray_intersect 1 r o d) s.
Proof. exact ray_miss_witness. Qed.
Print Assumptions rect_ray_empty_witness_refuted.

(** * C45: translation, scaling, dilation, Minkowski sum *)
Theorem rect_translate N (r : @rect R_ord) (d p : nat -> R) :
  (inside N ((fun i => p i + d i)%R : @point R_ord) (r_add r d) <-> inside N (p : @point R_ord) r) /\
  (inside N ((fun i => p i - d i)%R : @point R_ord) (r_sub r d) <-> inside N (p : @point R_ord) r).
Proof. exact (conj (add_spec N r d p) (sub_spec N r d p)). Qed.
Print Assumptions rect_translate.
Theorem rect_scale N (r : @rect R_ord) (a p : @point R_ord) : nonempty N r ->
  (inside N p (r_scale r a) <-> exists q : @point R_ord, inside N q r /\ forall i, i < N -> (p i : R) = (q i * a i)%R).
Proof. exact (scale_spec N r a p). Qed.
Print Assumptions rect_scale.
(** Scaling an empty Rect, even by 1, gives a non-empty one. *)
Theorem rect_scale_empty_refuted N (r : @rect R_ord) (a : @point R_ord) : nonempty N (r_scale r a).
Proof. exact (scale_empty N r a). Qed.
Print Assumptions rect_scale_empty_refuted.
Theorem rect_minkowski N (a b : @rect R_ord) (p : @point R_ord) : nonempty N a -> nonempty N b ->
  (inside N p (r_minkowski a b) <->
   exists q s : @point R_ord, inside N q a /\ inside N s b /\ forall i, i < N -> (p i : R) = (q i + s i)%R).
Proof. exact (minkowski_spec N a b p). Qed.
Print Assumptions rect_minkowski.
Theorem rect_dilated N (r : @rect R_ord) (c p : @point R_ord) : nonempty N r -> (forall i, i < N -> (0 <= c i)%R) ->
  (inside N p (r_dilated r c) <-> exists q : @point R_ord, inside N q r /\ forall i, i < N -> (Rabs (p i - q i) <= c i)%R).
Proof. exact (dilated_spec N r c p). Qed.
Print Assumptions rect_dilated.
(** point - rect is rect - point instead of the reflected box: the box [0,1] subtracted from the point 5 gives
    [-5,-4], not [4,5]. *)
Theorem rect_point_minus_rect_refuted : let r : @rect R_ord := mkRect (fun _ => 0%R : R_ord) (fun _ => 1%R) in
  inside 1 (fun _ => 0%R : R_ord) r /\ ~ inside 1 (fun _ => (5 - 0)%R : R_ord) (pt_minus_rect (fun _ => 5%R : R_ord) r).
Proof.
  cbv zeta. rewrite !inside_R. cbn. split; [intros; lra|]. intros H. specialize (H 0 ltac:(lia)). lra.
Qed.
Print Assumptions rect_point_minus_rect_refuted.

(** * C46: centre and dimensions *)
Theorem rect_from_center_real (c d : @point R_ord) i :
  (r_center (r_from_center c d) i : R) = c i /\ (r_dims (r_from_center c d) i : R) = Rabs (d i).
Proof. exact (from_center_R_abs c d i). Qed.
Print Assumptions rect_from_center_real.
Theorem rect_from_corner_real (c d : @point R_ord) N :
  inside N c (r_from_corner c d) /\ forall i, (r_dims (r_from_corner c d) i : R) = Rabs (d i).
Proof. exact (from_corner_R c d N). Qed.
Print Assumptions rect_from_corner_real.
Theorem rect_set_dimensions_real (r : @rect R_ord) (d : @point R_ord) i :
  (r_dims (r_set_dims r d) i : R) = Rabs (d i) /\ (r_center (r_set_dims r d) i : R) = r_center r i.
Proof. exact (set_dims_R r d i). Qed.
Print Assumptions rect_set_dimensions_real.
Theorem rect_from_center_int (c d : @point Z_ord) i : (1 <= d i)%Z -> (z_dims (z_from_center c d) i : Z) = d i /\
  (z_center (z_from_center c d) i : Z) = (if Z.even (d i) || (0 <=? c i) then c i else c i + 1)%Z.
Proof. exact (fun H => conj (from_center_dims c d i H) (from_center_center c d i H)). Qed.
Print Assumptions rect_from_center_int.
(** Odd lengths about a negative centre come back off by one. *)
Theorem rect_center_int_refuted (c d : @point Z_ord) i : (1 <= d i)%Z -> Z.even (d i) = false -> (c i < 0)%Z ->
  (z_center (z_from_center c d) i : Z) = (c i + 1)%Z.
Proof.
  intros H E C. rewrite from_center_center by exact H. rewrite E. cbn [orb]. destruct (Z.leb_spec 0 (c i)); [lia|reflexivity].
Qed.
Print Assumptions rect_center_int_refuted.
(** "Lengths may be negative": integer lengths below 1 give boxes that are too long. *)
Theorem rect_negative_length_int_refuted (c d : @point Z_ord) i : (d i <= 0)%Z ->
  (z_dims (z_from_center c d) i : Z) = (Z.abs (d i) + 1)%Z /\ (z_dims (z_from_corner c d) i : Z) = (Z.abs (d i) + 2)%Z.
Proof.
  intros H. split; [exact (from_center_dims_neg c d i H)|]. rewrite from_corner_dims. destruct (Z.leb_spec 1 (d i)); [lia|reflexivity].
Qed.
Print Assumptions rect_negative_length_int_refuted.
Theorem rect_from_corner_int (c d : @point Z_ord) i : (1 <= d i)%Z -> (z_dims (z_from_corner c d) i : Z) = d i.
Proof. intros H. rewrite from_corner_dims. destruct (Z.leb_spec 1 (d i)); [reflexivity|lia]. Qed.
Print Assumptions rect_from_corner_int.
(** set_dimensions reaches the requested length only when it has the parity of the old one. *)
Theorem rect_set_dimensions_int (r : @rect Z_ord) (d : @point Z_ord) i :
  (z_dims (z_set_dims r d) i : Z) = (Z.abs (d i) - Z.rem (Z.abs (d i) - z_dims r i) 2)%Z.
Proof. exact (set_dims_dims r d i). Qed.
Print Assumptions rect_set_dimensions_int.
Theorem rect_set_dimensions_int_refuted : exists (r : @rect Z_ord) (d : @point Z_ord),
  nonempty 1 r /\ (0 < d 0%nat)%Z /\ (z_dims (z_set_dims r d) 0 : Z) <> d 0.
Proof.
  exists (mkRect (fun _ => 0 : Z_ord) (fun _ => 3))%Z, (fun _ => 3%Z : Z_ord).
  split; [rewrite nonempty_Z; cbn; lia|]. split; [reflexivity|]. vm_compute. discriminate.
Qed.
Print Assumptions rect_set_dimensions_int_refuted.

(** * C47: fitted_to scales a box, about the other's centre, to the least size that contains the other *)
Theorem rect_fitted_to N (a b : @rect R_ord) : 0 < N -> (forall i, i < N -> (0 < r_dims a i)%R) -> nonempty N b ->
  subset N b (r_fitted_to N a b) /\
  (exists k : R, forall i, i < N -> (r_dims (r_fitted_to N a b) i : R) = (r_dims a i * k)%R) /\
  (exists i, i < N /\ (r_dims (r_fitted_to N a b) i : R) = r_dims b i).
Proof.
  intros HN Da Nb. split; [exact (fitted_contains N a b Da Nb)|]. split; [|exact (fitted_minimal N a b Da Nb HN)].
  exists (r_fit_ratio N a b). intros i Hi. exact (fitted_aspect N a b i (Rlt_le _ _ (Da i Hi))).
Qed.
Print Assumptions rect_fitted_to.

(** * C48: contact_vector *)
(** The moved box shares a point with the other and is reported as not overlapping. *)
Theorem rect_contact_vector N (a b : @rect Z_ord) (tmax : Z) : nonempty N a -> nonempty N b -> 0 < N ->
  (forall i, i < N -> (Z.abs (hi b i - lo a i) < tmax)%Z) -> exists v,
  contact_vector N tmax a b = Ok (v, intersects N a b) /\
  (exists p, inside N p (z_add a v) /\ inside N p b) /\ intersects N (z_add a v) b = false.
Proof. exact (fun A B H => contact_ok N a b A B H tmax). Qed.
Print Assumptions rect_contact_vector.
Theorem rect_contact_vector_shortest N (a b : @rect Z_ord) (tmax : Z) v : contact_vector N tmax a b = Ok (v, true) ->
  exists k, k < N /\ (forall i, i <> k -> v i = 0%Z) /\
  forall w : nat -> Z, intersects N (z_add a w) b = false -> exists i, i < N /\ (Z.abs (v k) <= Z.abs (w i))%Z.
Proof. exact (contact_minimal N a b tmax v). Qed.
Print Assumptions rect_contact_vector_shortest.
Theorem rect_contact_vector_closes_gap N (a b : @rect Z_ord) (tmax : Z) v : nonempty N a -> nonempty N b ->
  contact_vector N tmax a b = Ok (v, false) ->
  forall w : nat -> Z, (exists p, inside N p (z_add a w) /\ inside N p b) -> forall i, i < N -> (Z.abs (v i) <= Z.abs (w i))%Z.
Proof. exact (fun A B => contact_gap N a b A B tmax v). Qed.
Print Assumptions rect_contact_vector_closes_gap.
Example contact_case : let a : @rect Z_ord := mkRect (fun _ => 0 : Z_ord)%Z (fun _ => 4)%Z in
  let b : @rect Z_ord := mkRect (fun i => match i with O => 3 | _ => 1 end : Z_ord)%Z (fun _ => 9)%Z in
  exists v, contact_vector 2 1000 a b = Ok (v, true) /\ v 0 = (-1)%Z /\ v 1 = 0%Z.
Proof. eexists. split; [reflexivity|]. split; reflexivity. Qed.
