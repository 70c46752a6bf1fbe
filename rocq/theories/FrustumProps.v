(** Frustums (geomc/shape/Frustum.h), given the functions of the base shape. *)
From Coq Require Import Reals Arith Lra Lia Bool.
From Verif Require Import VecNModel VecNSpec VecNProofs RayModel Ord RectModel RectArithModel ShapeSpec ShapeProofs SphereModel SphereProofs SolidSpec ExtrudedModel FrustumModel FrustumProofs.
Open Scope R_scope.

(** *** C72 *)
Theorem frustum_contains_exact M X b_contains (height : @rect R_ord) p : respects M X -> (forall q, b_contains q = true <-> X q) ->
  (frustum_contains M b_contains height p = true <-> frustum_set M X (lo height 0%nat) (hi height 0%nat) p).
Proof. intros R. exact (contains_ok M X height R b_contains p). Qed.
Print Assumptions frustum_contains_exact.
(** convex_support() is right in every direction, for heights on either side of 0 and spanning it. *)
Theorem frustum_support_extreme M X b_support (height : @rect R_ord) d : respects M X -> lo height 0%nat <= hi height 0%nat -> (0 < M)%nat ->
  (forall d', ~ all_zero M d' -> is_support M X d' (b_support d')) ->
  is_support (S M) (frustum_set M X (lo height 0%nat) (hi height 0%nat)) d (frustum_support M b_support height d).
Proof. intros R L. exact (support_ok M X height R L b_support d). Qed.
Print Assumptions frustum_support_extreme.
Theorem frustum_bounds_tight M X b (height : @rect R_ord) : respects M X -> lo height 0%nat <= hi height 0%nat -> (0 < M)%nat -> tight_box M X b ->
  tight_box (S M) (frustum_set M X (lo height 0%nat) (hi height 0%nat)) (frustum_bounds M b height).
Proof. intros R L. exact (bounds_ok M X height R L b). Qed.
Print Assumptions frustum_bounds_tight.

Section Rays.
(** The base shape: contains() and intersect() are exact, and the intervals bounded or empty. *)
Variables (M : nat) (X : region) (b_contains : vec -> bool) (b_ray : ray -> interval) (height : @rect R_ord).
Hypothesis R : respects M X.
Hypothesis C : forall q, b_contains q = true <-> X q.
Hypothesis I : forall o d, ~ all_zero M d -> ray_in X o d (b_ray (mkRay o d)).
Hypothesis B : forall o d, ~ all_zero M d -> let iv := b_ray (mkRay o d) in is_empty 1 iv = false -> exists x y, lo iv 0%nat = Fin x /\ hi iv 0%nat = Fin y.
Hypothesis L : lo height 0%nat <= hi height 0%nat.
Notation lowest := (lo height 0%nat).
Notation highest := (hi height 0%nat).
Notation F := (frustum_set M X lowest highest).
Notation hits o d := (frustum_ray M b_contains b_ray height (mkRay o d)).

Lemma foot_w o d : ~ all_zero (S M) d -> foot_off_plane M o d -> ~ all_zero (S M) (ow M o d) /\ ow M o d M <> 0.
Proof.
  intros D H. assert (ow M o d M <> 0) as Q.
  { assert (o M + - ox M o d * d M <> 0) as G; [|unfold ow; intros Z; apply G; lra]. apply H.
    eapply eq_trans; [|exact (wu M o d D)]. unfold ow. apply inner_ext; [|apply same_refl]. intros i _. ring. }
  split; [|exact Q]. intros AZ. apply Q, AZ. lia.
Qed.
Lemma bottom_is bot : frustum_bottom lowest highest bot -> bot = lo (clipped_height height) 0%nat.
Proof. intros H. destruct (clip_cases height) as [[A ->]|[A ->]]; destruct H as [[? ->]|[? ->]]; try reflexivity; tauto. Qed.

(** intersect() is exact for a ray whose direction points outside the cone, *)
Theorem frustum_ray_aside o d : ~ all_zero (S M) d -> foot_off_plane M o d -> ~ (d M <> 0 /\ X (fun i => d i / d M)) ->
  exists iv, hits o d = Some iv /\ ray_in F o d iv.
Proof. intros D H N. destruct (foot_w o d D H) as [W Q]. exact (ray_aside M X height R L b_contains b_ray I o d D W Q B N). Qed.
(** and for one pointing into the cone if it starts below the frustum and goes up, or starts not above it and goes down (heights above 0);
    or the other way round (heights below 0). *)
Theorem frustum_ray_into o d bot : ~ all_zero (S M) d -> foot_off_plane M o d -> d M <> 0 -> (exists e, 0 < e /\ forall y, distance M (fun i => d i / d M) y < e -> X y) ->
  frustum_bottom lowest highest bot ->
  (0 <= bot /\ (0 < d M -> o M <= bot) /\ (d M < 0 -> o M < highest)) \/ (highest <= 0 /\ (0 < d M -> bot < o M) /\ (d M < 0 -> highest <= o M)) ->
  exists iv, hits o d = Some iv /\ ray_in F o d iv.
Proof.
  intros D H P E FB S. destruct (foot_w o d D H) as [W Q]. destruct (ray_defined M X height R b_contains b_ray I o d D W Q B P E) as (iv & EI). exists iv. split; [exact EI|].
  assert (cone_dir M X d) as CD. { split; [exact P|]. destruct E as (e & EP & IN). apply IN. unfold distance. rewrite (length_ext _ _ (fun _ => 0 * 0)) by (intros i _; ring). rewrite length_scale, Rabs_R0. lra. }
  apply (ray_along M X height R L b_contains b_ray I o d D W Q iv CD EI). unfold low_side, low_frustum, high_frustum. rewrite <- (bottom_is bot FB).
  destruct (Rdichotomy _ _ P); destruct S as [(S1 & S2 & S3)|(S1 & S2 & S3)].
  - left. split; right; (split; [assumption|]); auto.
  - right. split; [intros [[]|[G K]]; [lra|]; specialize (S3 G); lra|]. right. now split.
  - right. split; [intros [[G K]|[]]; [|lra]; specialize (S2 G); lra|]. left. now split.
  - left. split; left; (split; [assumption|]); auto.
Qed.
(** From every other position it reports a miss, even for rays starting inside the frustum. *)
Theorem frustum_ray_into_refuted o d bot iv : ~ all_zero (S M) d -> foot_off_plane M o d -> d M <> 0 -> X (fun i => d i / d M) -> frustum_bottom lowest highest bot ->
  (0 <= bot /\ (0 < d M -> bot < o M) /\ (d M < 0 -> highest <= o M)) \/ (highest <= 0 /\ (0 < d M -> o M <= bot) /\ (d M < 0 -> o M < highest)) ->
  hits o d = Some iv -> forall s, ~ in_interval iv s.
Proof.
  intros D H P E FB S EI. destruct (foot_w o d D H) as [W Q]. apply (ray_along_wrong M X height R L b_contains b_ray I o d D W Q iv (conj P E) EI).
  unfold low_side, low_frustum, high_frustum. rewrite <- (bottom_is bot FB). destruct (Rdichotomy _ _ P); destruct S as [(S1 & S2 & S3)|(S1 & S2 & S3)].
  - right. split; [intros [[]|[G K]]; [lra|]; specialize (S3 G); lra|]. right. now split.
  - left. split; right; (split; [assumption|]); auto.
  - left. split; left; (split; [assumption|]); auto.
  - right. split; [intros [[G K]|[]]; [|lra]; specialize (S2 G); lra|]. left. now split.
Qed.
(** A vertical ray: the answer does not depend on where it stands; if the base contains the origin, every ray is said to hit over the whole height. *)
Theorem frustum_ray_vertical_refuted o d bot : all_zero M d -> d M <> 0 -> X (fun _ => 0) -> frustum_bottom lowest highest bot ->
  exists iv, hits o d = Some iv /\ forall s, in_interval iv s <-> bot <= o M + s * d M <= highest.
Proof.
  intros AZ P X0 FB. assert (~ all_zero (S M) d) as D by (intros H; apply P, H; lia). assert (inner (S M) d d = d M * d M) as A.
  { change (inner M d d + d M * d M = d M * d M). rewrite (inner_ext M d (fun _ => 0) d d AZ (same_refl _ _)). replace (inner M (fun _ => 0) d) with 0 by vlin M. ring. }
  assert (inner (S M) o d = o M * d M) as OD.
  { change (inner M o d + o M * d M = o M * d M). rewrite (inner_ext M o o d (fun _ => 0) (same_refl _ _) AZ). replace (inner M o (fun _ => 0)) with 0 by vlin M. ring. }
  assert (ow M o d M = 0) as Q by (unfold ow, ox; rewrite A, OD; now field). destruct (ray_flat M X height R L b_contains b_ray C o d D Q P) as (iv & EI & I1 & _).
  exists iv. split; [exact EI|]. rewrite (bottom_is bot FB). apply I1. apply (R (fun _ => 0)); [|exact X0]. intros i Li. rewrite (AZ i Li). ring.
Qed.
(** A ray through the tip, towards [d] / [d M] of the base: exact if the base also contains that point scaled by (d M)^2 / |d|^2, *)
Theorem frustum_ray_tip o d : ~ all_zero (S M) d -> (exists s, all_zero (S M) (fun i => o i + s * d i)) -> d M <> 0 ->
  X (fun i => d i / d M) -> X (fun i => d M / inner (S M) d d * d i) -> exists iv, hits o d = Some iv /\ ray_in F o d iv.
Proof. intros D T P X1 X2. destruct (ray_through M X height R L b_contains b_ray C o d D T P) as (iv & E & H & _). exists iv. auto. Qed.
(** which is the point tested: if only that one is in the base, the whole height is reported although nothing but the tip can be hit. *)
Theorem frustum_ray_tip_refuted o d bot : ~ all_zero (S M) d -> (exists s, all_zero (S M) (fun i => o i + s * d i)) -> d M <> 0 ->
  ~ X (fun i => d i / d M) -> X (fun i => d M / inner (S M) d d * d i) -> frustum_bottom lowest highest bot ->
  exists iv, hits o d = Some iv /\ (forall s, in_interval iv s <-> bot <= o M + s * d M <= highest) /\ (forall s, F (fun i => o i + s * d i) -> o M + s * d M = 0).
Proof. intros D T P X1 X2 FB. destruct (ray_through M X height R L b_contains b_ray C o d D T P) as (iv & E & _ & H & G). rewrite (bottom_is bot FB). exists iv. auto. Qed.
(** A ray in the plane of the tip: if the frustum has its tip, one point is always reported, and it is never in the frustum. *)
Theorem frustum_ray_level_refuted o d bot : ~ all_zero (S M) d -> o M = 0 -> d M = 0 -> ~ all_zero (S M) o -> frustum_bottom lowest highest bot -> bot <= 0 <= highest ->
  exists iv s0, hits o d = Some iv /\ (forall s, in_interval iv s <-> s = s0) /\ ~ F (fun i => o i + s0 * d i).
Proof.
  intros D O P Z FB T. destruct (ray_level M X height L b_contains b_ray o d D O P Z) as (iv & E & H & G). exists iv. eexists. split; [exact E|]. split; [|exact G].
  rewrite (bottom_is bot FB) in T. intros s. rewrite H. tauto.
Qed.
End Rays.
Print Assumptions frustum_ray_aside.
Print Assumptions frustum_ray_into.
Print Assumptions frustum_ray_into_refuted.
Print Assumptions frustum_ray_vertical_refuted.
Print Assumptions frustum_ray_tip.
Print Assumptions frustum_ray_tip_refuted.
Print Assumptions frustum_ray_level_refuted.

(** The hypotheses on the base hold of a line segment: a trapezium, or a triangle with its tip at the origin. *)
Definition segment : region := fun p => -1 <= p 0%nat <= 1.
Definition segment_ray (r : ray) : interval := iv_between ((-1 - origin r 0%nat) / direction r 0%nat) ((1 - origin r 0%nat) / direction r 0%nat).
Lemma segment_respects : respects 1 segment.
Proof. intros p q S H. unfold segment in *. now rewrite <- (S 0%nat ltac:(lia)). Qed.
Lemma segment_rays o d : ~ all_zero 1 d -> ray_in segment o d (segment_ray (mkRay o d)).
Proof.
  intros D s. assert (d 0%nat <> 0) as Z by (intros Z; apply D; intros i Li; now replace i with 0%nat by lia). unfold segment_ray, iv_between. cbn [origin direction]. rewrite between_has. unfold segment.
  set (x := (-1 - o 0%nat) / d 0%nat). set (y := (1 - o 0%nat) / d 0%nat). assert (x * d 0%nat = -1 - o 0%nat) as E1 by (unfold x; now field). assert (y * d 0%nat = 1 - o 0%nat) as E2 by (unfold y; now field).
  destruct (Rdichotomy _ _ Z) as [G|G].
  - assert (y < x) by (apply Rnot_le_lt; intros W; assert (0 <= (y - x) * - d 0%nat) by (apply Rmult_le_pos; lra); lra). rewrite Rmin_right, Rmax_left by lra. split; intros [H1 H2].
    + assert (0 <= (s - y) * - d 0%nat) by (apply Rmult_le_pos; lra). assert (0 <= (x - s) * - d 0%nat) by (apply Rmult_le_pos; lra). lra.
    + split; apply Rnot_lt_le; intros W; [assert (0 < (y - s) * - d 0%nat) by (apply Rmult_lt_0_compat; lra)|assert (0 < (s - x) * - d 0%nat) by (apply Rmult_lt_0_compat; lra)]; lra.
  - assert (x < y) by (apply Rnot_le_lt; intros W; assert (0 <= (x - y) * d 0%nat) by (apply Rmult_le_pos; lra); lra). rewrite Rmin_left, Rmax_right by lra. split; intros [H1 H2].
    + assert (0 <= (y - s) * d 0%nat) by (apply Rmult_le_pos; lra). assert (0 <= (s - x) * d 0%nat) by (apply Rmult_le_pos; lra). lra.
    + split; apply Rnot_lt_le; intros W; [assert (0 < (x - s) * d 0%nat) by (apply Rmult_lt_0_compat; lra)|assert (0 < (s - y) * d 0%nat) by (apply Rmult_lt_0_compat; lra)]; lra.
Qed.
Lemma segment_bounded o d : ~ all_zero 1 d -> let iv := segment_ray (mkRay o d) in is_empty 1 iv = false -> exists x y, lo iv 0%nat = Fin x /\ hi iv 0%nat = Fin y.
Proof.
  intros _ iv _. unfold iv, segment_ray, iv_between, spanning_corners, vmin, vmax, omin, omax. cbn [lo hi]. destruct (ltb _ _), (ltb _ _); eauto.
Qed.
Definition heights (x y : R) : @rect R_ord := @mkRect R_ord (fun _ => x) (fun _ => y).
(** From (3, 1) sideways; and from (1, 0) upwards towards (1, 2), right; but wrong from (1.5, 2), inside the frustum, in the same direction. *)
Example frustum_ray_case b_contains : (forall q, b_contains q = true <-> segment q) ->
  (exists iv, frustum_ray 1 b_contains segment_ray (heights 1 5) (mkRay (fun i => if (i =? 0)%nat then 3 else 1) (fun i => if (i =? 0)%nat then 1 else 0)) = Some iv /\
    ray_in (frustum_set 1 segment 1 5) (fun i => if (i =? 0)%nat then 3 else 1) (fun i => if (i =? 0)%nat then 1 else 0) iv) /\
  (exists iv, frustum_ray 1 b_contains segment_ray (heights 1 5) (mkRay (fun i => if (i =? 0)%nat then 1 else 0) (fun i => if (i =? 0)%nat then 1 else 2)) = Some iv /\
    ray_in (frustum_set 1 segment 1 5) (fun i => if (i =? 0)%nat then 1 else 0) (fun i => if (i =? 0)%nat then 1 else 2) iv).
Proof.
  intros C. split.
  - apply (frustum_ray_aside 1 segment b_contains segment_ray (heights 1 5) segment_respects segment_rays segment_bounded); [cbn; lra| | |].
    + intros H. specialize (H 0%nat ltac:(lia)). cbn in H. lra.
    + intros s H. cbn. lra.
    + cbn. lra.
  - apply (frustum_ray_into 1 segment b_contains segment_ray (heights 1 5) segment_respects segment_rays segment_bounded ltac:(cbn; lra) _ _ 1).
    + intros H. specialize (H 0%nat ltac:(lia)). cbn in H. lra.
    + intros s H. cbn in *. lra.
    + cbn. lra.
    + exists (1 / 2). split; [lra|]. intros y D. assert (Rabs (1 / 2 - y 0%nat) <= distance 1 (fun i => (if (i =? 0)%nat then 1 else 2) / (if (1 =? 0)%nat then 1 else 2)) y) as A by (apply (coordinate_le 1 (fun i => (if (i =? 0)%nat then 1 else 2) / (if (1 =? 0)%nat then 1 else 2) - y i) 0%nat); lia).
      assert (Rabs (1 / 2 - y 0%nat) < 1 / 2) as A' by (eapply Rle_lt_trans; [exact A|exact D]). unfold segment. revert A'. unfold Rabs. destruct (Rcase_abs _); lra.
    + right. cbn. lra.
    + left. cbn. lra.
Qed.
Example frustum_ray_wrong_case b_contains iv : (forall q, b_contains q = true <-> segment q) ->
  let o : vec := fun i => if (i =? 0)%nat then 3 / 2 else 2 in let d : vec := fun i => if (i =? 0)%nat then 1 else 2 in
  frustum_set 1 segment 1 5 o /\ (frustum_ray 1 b_contains segment_ray (heights 1 5) (mkRay o d) = Some iv -> ~ in_interval iv 0).
Proof.
  intros C o d. split.
  - unfold frustum_set, segment, o, all_zero. cbn. repeat split; intros; try lra.
  - intros E. apply (frustum_ray_into_refuted 1 segment b_contains segment_ray (heights 1 5) segment_respects segment_rays ltac:(cbn; lra) o d 1 iv); try exact E; unfold o, d; cbn; try lra.
    + intros H. specialize (H 0%nat ltac:(lia)). cbn in H. lra.
    + intros s H. cbn in *. lra.
    + unfold segment; cbn; lra.
    + right. split; cbn; lra.
Qed.
