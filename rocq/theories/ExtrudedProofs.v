From Coq Require Import Reals Arith Lra Lia Classical Bool.
From Verif Require Import PerlinSpec PerlinProofs VecNModel VecNSpec VecNProofs RayModel Ord RectModel RectSpec RectArithModel RectArithProofs ShapeSpec ShapeProofs SphereModel SphereProofs
  SolidSpec SolidProofs SolidModel DilatedProofs ExtrudedModel.
Open Scope R_scope.

Lemma join_low M v a : same M (join M v a) v.
Proof. intros i L. unfold join. destruct (Nat.ltb_spec i M); [reflexivity|lia]. Qed.
Lemma join_top M v a : join M v a M = a.
Proof. unfold join. destruct (Nat.ltb_spec M M); [lia|reflexivity]. Qed.
Lemma base_same M p : same M (base_pt M p) p.
Proof. intros i L. unfold base_pt, resized. destruct (Nat.ltb_spec i (Nat.min M (S M))); [reflexivity|lia]. Qed.
Lemma inner_S M p q : inner (S M) p q = inner M p q + p M * q M.
Proof. reflexivity. Qed.
Lemma dist_S M p q : distance (S M) p q * distance (S M) p q = distance M p q * distance M p q + (p M - q M) * (p M - q M).
Proof. rewrite !distance_sq. reflexivity. Qed.
Lemma dist_low M p q : distance M p q <= distance (S M) p q.
Proof. apply le_sq; try apply distance_nonneg. rewrite dist_S. pose proof (Rle_0_sqr (p M - q M)). unfold Rsqr in *. lra. Qed.
Lemma dist_top M p q : Rabs (p M - q M) <= distance (S M) p q.
Proof. apply (coordinate_le (S M) (fun i => p i - q i) M). lia. Qed.
Lemma dist_flat M p q : p M = q M -> distance (S M) p q = distance M p q.
Proof. intros E. apply eq_sq; try apply distance_nonneg. rewrite dist_S, E. ring. Qed.
Lemma dist_up M p q : same M p q -> distance (S M) p q = Rabs (p M - q M).
Proof.
  intros S. apply eq_sq; [apply distance_nonneg|apply Rabs_pos|]. rewrite dist_S. apply distance_zero in S. rewrite S. unfold Rabs. destruct (Rcase_abs _); ring.
Qed.
Lemma dist_join M p v a : distance (S M) p (join M v a) * distance (S M) p (join M v a) = distance M p v * distance M p v + (p M - a) * (p M - a).
Proof. rewrite dist_S, join_top. now rewrite (distance_ext M p p _ _ (same_refl _ _) (join_low M v a)). Qed.
Lemma abs_sq x : Rabs x * Rabs x = x * x.
Proof. unfold Rabs. destruct (Rcase_abs x); ring. Qed.

Lemma abs_le_sq x y : Rabs x <= Rabs y -> x * x <= y * y.
Proof. intros H. rewrite <- (abs_sq x), <- (abs_sq y). apply (proj1 (le_sq _ _ (Rabs_pos _) (Rabs_pos _))). exact H. Qed.

Section E.
Variables (M : nat) (X : region) (height : @rect R_ord).
Hypothesis RX : respects M X.
Notation l := (lo height 0%nat : R).
Notation h := (hi height 0%nat : R).
Hypothesis LH : l <= h.
Notation P := (prism M X l h).
Notation N := (S M).
Lemma prism_join v a : X v -> l <= a <= h -> P (join M v a).
Proof. intros V B. split; [exact (RX _ _ (same_sym _ _ _ (join_low M v a)) V)|]. now rewrite join_top. Qed.
Lemma prism_respects : respects N P.
Proof. intros p q S [A B]. split; [apply (RX p q); [intros i L; apply S; lia|exact A]|]. now rewrite <- (S M) by lia. Qed.
Lemma x_base p : X (base_pt M p) <-> X p.
Proof. split; apply RX; [|apply same_sym]; apply base_same. Qed.
Lemma has_iff x : height_has height x = true <-> l <= x <= h.
Proof.
  unfold height_has, contains_pt, all_axes. cbn. unfold Rltb. destruct (Rlt_dec x l), (Rlt_dec h x); cbn; split; intros; try easy; lra.
Qed.
Definition slab (x : R) : R := VecNModel.std_max (x - h) (l - x).
Definition clipped (x : R) : R := clip height (fun _ => x : R_ord) 0%nat.
Lemma slab_has x : height_has height x = true <-> slab x <= 0.
Proof. rewrite has_iff. unfold slab, VecNModel.std_max. destruct (Rlt_dec _ _); lra. Qed.
Lemma clipped_ok x : l <= clipped x <= h /\ (x - clipped x) * (x - clipped x) = Rmax (slab x) 0 * Rmax (slab x) 0 /\
  (forall y, l <= y <= h -> (x - clipped x) * (x - clipped x) <= (x - y) * (x - y)) /\ (l <= x <= h -> clipped x = x) /\ (h < x -> clipped x = h) /\ (x < l -> clipped x = l).
Proof.
  assert ((x < l /\ clipped x = l /\ slab x = l - x) \/ (h < x /\ clipped x = h /\ slab x = x - h) \/ (l <= x <= h /\ clipped x = x /\ slab x <= 0)) as C.
  { unfold clipped, clip, slab, vmin, vmax, omin, omax, VecNModel.std_max. cbn. unfold Rltb. destruct (Rlt_dec l x); destruct (Rlt_dec (x - h) (l - x)).
    - destruct (Rlt_dec x h); [right; right; lra|]. right. right. lra.
    - destruct (Rlt_dec x h); [right; right; lra|]. destruct (Rle_lt_or_eq_dec h x ltac:(lra)); [right; left; lra|right; right; lra].
    - destruct (Rlt_dec l h); destruct (Rlt_dec x l); try lra; right; right; lra.
    - destruct (Rlt_dec l h); destruct (Rlt_dec x l); lra. }
  destruct C as [(A & -> & ->)|[(A & -> & ->)|(A & -> & B)]].
  - rewrite Rmax_left by lra. repeat split; try lra. intros y Y. assert (0 <= (l - x) * (y - l)) by (apply Rmult_le_pos; lra). nra.
  - rewrite Rmax_left by lra. repeat split; try lra. intros y Y. assert (0 <= (x - h) * (h - y)) by (apply Rmult_le_pos; lra). nra.
  - rewrite Rmax_right by lra. repeat split; try lra. intros y Y. pose proof (Rle_0_sqr (x - y)). unfold Rsqr in *. lra.
Qed.
(** ** sdf *)
Lemma base_near p v : solid_distance M X p v -> exists q, is_nearest M X p q /\ distance M p q = Rmax v 0.
Proof.
  intros [A B]. destruct (Rlt_dec 0 v) as [V|V].
  - destruct (A V) as (q & Q & E). exists q. rewrite Rmax_left by lra. now split.
  - exists p. rewrite distance_self, Rmax_right by lra. split; [|reflexivity]. split; [|intros; rewrite distance_self; apply distance_nonneg].
    apply (proj1 (B ltac:(lra))). rewrite distance_self. lra.
Qed.
Lemma prism_near p q : is_nearest M X p q -> is_nearest N P p (join M q (clipped (p M))) /\
  distance N p (join M q (clipped (p M))) * distance N p (join M q (clipped (p M))) = distance M p q * distance M p q + Rmax (slab (p M)) 0 * Rmax (slab (p M)) 0.
Proof.
  intros [Q H]. destruct (clipped_ok (p M)) as (C1 & C2 & C3 & _). rewrite dist_join, C2. split; [|reflexivity]. split; [now apply prism_join|].
  intros y [Y1 Y2]. apply le_sq; try apply distance_nonneg. rewrite dist_join, dist_S. apply Rplus_le_compat; [|now apply C3].
  apply (proj1 (le_sq (distance M p q) (distance M p y) (distance_nonneg _ _ _) (distance_nonneg _ _ _))). now apply H.
Qed.
Lemma solid_ext Z p q v : same M p q -> solid_distance M Z p v -> solid_distance M Z q v.
Proof.
  intros S [A B]. assert (forall y, distance M p y = distance M q y) as E by (intros y; now apply distance_ext). split.
  - intros V. destruct (A V) as (z & [Z1 Z2] & ->). exists z. split; [split; [exact Z1|]|apply E]. intros y Y. rewrite <- !E. now apply Z2.
  - intros V. destruct (B V) as [B1 B2]. split; [intros y D; apply B1; now rewrite E|]. intros e EP. destruct (B2 e EP) as (y & Y & D). exists y. split; [exact Y|]. now rewrite <- E.
Qed.
Lemma sdf_ext b_sdf p : solid_distance M X (base_pt M p) (b_sdf (base_pt M p)) -> solid_distance N P p (extruded_sdf M b_sdf height p).
Proof.
  intros S. apply (solid_ext X _ p _ (base_same M p)) in S. unfold extruded_sdf. set (v := b_sdf (base_pt M p)) in *. cbv zeta. fold (slab (p M)). set (s := slab (p M)).
  destruct (base_near p v S) as (q & Q & QD). destruct (prism_near p q Q) as [PN PD]. set (z := join M q (clipped (p M))) in *. rewrite QD in PD. fold s in PD.
  assert (forall w, 0 < w -> w * w = Rmax v 0 * Rmax v 0 + Rmax s 0 * Rmax s 0 -> solid_distance N P p w) as OUT.
  { intros w W E. split; [|lra]. intros _. exists z. split; [exact PN|]. apply eq_sq; [lra|apply distance_nonneg|]. now rewrite PD. }
  destruct (height_has height (p M)) eqn:HH.
  - apply slab_has in HH. fold s in HH. destruct (Rlt_dec 0 v) as [V|V].
    + assert (VecNModel.std_max v s = v) as -> by (unfold VecNModel.std_max; destruct (Rlt_dec _ _); lra). apply OUT; [exact V|]. rewrite Rmax_left, Rmax_right by lra. ring.
    + destruct (std_max_ge v s) as (G1 & G2 & G3). set (m := VecNModel.std_max v s) in *. destruct S as [_ S]. destruct (S ltac:(lra)) as [S1 S2]. split; [destruct G3; lra|]. intros _.
      assert (l <= p M <= h) as PH by (apply has_iff, slab_has; exact HH). split.
      * intros y D. split; [apply S1; pose proof (dist_low M p y); lra|]. pose proof (dist_top M p y) as T. assert (Rabs (p M - y M) <= - s) as B by lra.
        revert B. unfold s, slab, VecNModel.std_max, Rabs. destruct (Rcase_abs _), (Rlt_dec _ _); lra.
      * intros e EP. destruct G3 as [G3|G3]; rewrite G3.
        -- destruct (S2 e EP) as (y & NY & D). exists (join M y (p M)). split.
           ++ intros [A _]. apply NY. exact (RX _ _ (join_low M y (p M)) A).
           ++ rewrite dist_flat by (now rewrite join_top). now rewrite (distance_ext M p p _ _ (same_refl _ _) (join_low M y (p M))).
        -- assert (exists a, (a < l \/ h < a) /\ Rabs (p M - a) < - s + e) as (a & A1 & A2).
           { unfold s, slab, VecNModel.std_max. destruct (Rlt_dec _ _); [exists (l - e / 2)|exists (h + e / 2)]; (split; [lra|]); unfold Rabs; destruct (Rcase_abs _); lra. }
           exists (join M p a). split; [intros [_ B]; rewrite join_top in B; lra|]. rewrite dist_up by (apply same_sym, join_low). now rewrite join_top.
  - assert (0 < s) as SP. { apply Rnot_le_lt. intros H. unfold s in H. apply slab_has in H. congruence. } destruct (Rlt_dec v 0) as [V|V].
    + apply OUT; [exact SP|]. rewrite Rmax_right, Rmax_left by lra. ring.
    + assert (0 < v * v + s * s) as Q2 by nra. apply OUT; [now apply sqrt_lt_R0|]. rewrite sqrt_sqrt by lra. rewrite !Rmax_left by lra. reflexivity.
Qed.
(** ** Boundary and projection *)
Lemma prism_boundary y : boundary N P y <-> P y /\ (boundary M X y \/ y M = l \/ y M = h).
Proof.
  split.
  - intros [B H]. split; [exact B|]. destruct (classic (boundary M X y)) as [|NB]; [now left|]. right.
    assert (exists e, 0 < e /\ forall z, distance M y z < e -> X z) as (e & EP & E).
    { apply NNPP. intros NE. apply NB. split; [apply B|]. intros e EP. apply NNPP. intros NZ. apply NE. exists e. split; [exact EP|]. intros z D. apply NNPP. intros NX. apply NZ. now exists z. }
    apply NNPP. intros NE. destruct B as [_ B]. assert (l < y M < h) as [B1 B2] by (split; apply Rnot_le_lt; intros G; apply NE; lra).
    destruct (H (Rmin e (Rmin (y M - l) (h - y M)))) as (z & NZ & D). { unfold Rmin. repeat destruct (Rle_dec _ _); lra. }
    apply NZ. assert (distance N y z < e /\ distance N y z < y M - l /\ distance N y z < h - y M) as (D1 & D2 & D3).
    { revert D. unfold Rmin. destruct (Rle_dec (y M - l) (h - y M)); [destruct (Rle_dec e (y M - l))|destruct (Rle_dec e (h - y M))]; lra. }
    split; [apply E; pose proof (dist_low M y z); lra|]. pose proof (dist_top M y z) as T. revert T. unfold Rabs. destruct (Rcase_abs _); lra.
  - intros [B C]. split; [exact B|]. intros e EP. destruct C as [[_ C]|C].
    + destruct (C e EP) as (z & NZ & D). exists (join M z (y M)). split.
      * intros [A _]. apply NZ. exact (RX _ _ (join_low M z (y M)) A).
      * rewrite dist_flat by (now rewrite join_top). now rewrite (distance_ext M y y _ _ (same_refl _ _) (join_low M z (y M))).
    + assert (exists a, (a < l \/ h < a) /\ Rabs (y M - a) < e) as (a & A1 & A2).
      { destruct C as [->| ->]; [exists (l - e / 2)|exists (h + e / 2)]; (split; [lra|]); unfold Rabs; destruct (Rcase_abs _); lra. }
      exists (join M y a). split; [intros [_ Q]; rewrite join_top in Q; lra|]. rewrite dist_up by (apply same_sym, join_low). now rewrite join_top.
Qed.
Definition cap_of (x : R) : R := if Rlt_dec (Rabs (x - l)) (Rabs (x - h)) then l else h.
Lemma cap_ok x : (cap_of x = l \/ cap_of x = h) /\ (forall y, y = l \/ y = h -> (x - cap_of x) * (x - cap_of x) <= (x - y) * (x - y)) /\
  (~ l <= x <= h -> (x - cap_of x) * (x - cap_of x) = (x - clipped x) * (x - clipped x)) /\ (x - clipped x) * (x - clipped x) <= (x - cap_of x) * (x - cap_of x).
Proof.
  destruct (clipped_ok x) as (_ & _ & C3 & _ & C5 & C6). assert (cap_of x = l \/ cap_of x = h) as A by (unfold cap_of; destruct (Rlt_dec _ _); tauto). split; [exact A|]. split; [|split].
  - intros y Y. unfold cap_of. destruct (Rlt_dec _ _) as [L|L].
    + assert (Rabs (x - l) <= Rabs (x - y)) as B by (destruct Y as [->| ->]; lra). now apply abs_le_sq.
    + assert (Rabs (x - h) <= Rabs (x - y)) as B by (destruct Y as [->| ->]; lra). now apply abs_le_sq.
  - intros H. destruct (Rlt_dec x l) as [L|L].
    + rewrite C6 by exact L. unfold cap_of, Rabs. destruct (Rcase_abs (x - l)), (Rcase_abs (x - h)), (Rlt_dec _ _); try lra. assert (l = h) as -> by lra. reflexivity.
    + rewrite C5 by lra. unfold cap_of, Rabs. destruct (Rcase_abs (x - l)), (Rcase_abs (x - h)), (Rlt_dec _ _); try lra.
  - apply C3. destruct A as [->| ->]; lra.
Qed.
Lemma near_ext Z p p' q : same M p p' -> is_nearest M Z p q -> is_nearest M Z p' q.
Proof.
  intros S [A B]. split; [exact A|]. intros y Y. rewrite <- (distance_ext M p p' q q S (same_refl _ _)), <- (distance_ext M p p' y y S (same_refl _ _)). now apply B.
Qed.
Lemma project_ext b_contains b_project p : (b_contains (base_pt M p) = true <-> X (base_pt M p)) -> projection M X (base_pt M p) (b_project (base_pt M p)) ->
  projection N P p (extruded_project M b_contains b_project height p).
Proof.
  intros E (BQ & NB & NX). rewrite x_base in E, NX. unfold extruded_project. cbv zeta. fold (cap_of (p M)). fold (clipped (p M)). set (q := b_project (base_pt M p)) in *.
  apply (near_ext _ _ p) in NB; [|apply base_same]. assert (~ X p -> is_nearest M X p q) as NX' by (intros H; apply (near_ext _ (base_pt M p)); [apply base_same|now apply NX]). clear NX.
  set (w := join M q (clipped (p M))). set (k := if b_contains (base_pt M p) then join M (base_pt M p) (cap_of (p M)) else join M q (cap_of (p M))).
  destruct (clipped_ok (p M)) as (CL & _ & C3 & C4 & _). destruct (cap_ok (p M)) as (K1 & K2 & K3 & K4). assert (l <= cap_of (p M) <= h) as KR by (destruct K1 as [->| ->]; lra).
  assert (boundary N P w) as BW.
  { apply prism_boundary. split; [apply prism_join; [apply BQ|exact CL]|]. left. unfold w. apply (boundary_ext M X q); [exact RX|apply same_sym, join_low|exact BQ]. }
  assert (boundary N P k) as BK.
  { apply prism_boundary. unfold k. destruct (b_contains _) eqn:EC.
    - split; [apply prism_join; [apply x_base, E; reflexivity|exact KR]|]. right. rewrite join_top. exact K1.
    - split; [apply prism_join; [apply BQ|exact KR]|]. right. rewrite join_top. exact K1. }
  assert (distance N p w * distance N p w = distance M p q * distance M p q + (p M - clipped (p M)) * (p M - clipped (p M))) as DW by apply dist_join.
  (* every boundary point is at least as far as one of the two candidates *)
  assert (forall y, boundary N P y -> distance N p w <= distance N p y \/ distance N p k <= distance N p y) as LB.
  { intros y Y. apply prism_boundary in Y as [[Y1 Y2] Y3]. destruct (b_contains (base_pt M p)) eqn:EC.
    - destruct Y3 as [Y3|Y3].
      + left. apply le_sq; try apply distance_nonneg. rewrite DW, dist_S. apply Rplus_le_compat; [|now apply C3].
        apply (proj1 (le_sq (distance M p q) (distance M p y) (distance_nonneg _ _ _) (distance_nonneg _ _ _))). now apply NB.
      + right. apply le_sq; try apply distance_nonneg. unfold k. rewrite dist_join, dist_S. rewrite (distance_ext M p p _ _ (same_refl _ _) (base_same M p)), distance_self.
        specialize (K2 _ Y3). pose proof (distance_nonneg M p y). assert (0 <= distance M p y * distance M p y) by now apply Rmult_le_pos. lra.
    - left. apply le_sq; try apply distance_nonneg. rewrite DW, dist_S. apply Rplus_le_compat; [|now apply C3].
      apply (proj1 (le_sq (distance M p q) (distance M p y) (distance_nonneg _ _ _) (distance_nonneg _ _ _))). apply NX'; [|exact Y1]. intros H. apply E in H. discriminate. }
  assert (forall a b, VecNModel.dist2 N a b = distance N a b * distance N a b) as D2.
  { intros a b. unfold VecNModel.dist2. rewrite mag2_is, distance_sq. reflexivity. }
  assert (forall y, boundary N P y -> distance N p (if Rlt_dec (VecNModel.dist2 N p w) (VecNModel.dist2 N p k) then w else k) <= distance N p y) as NEAR.
  { intros y Y. rewrite !D2. destruct (Rlt_dec _ _) as [L|L].
    - apply lt_sq in L; try apply distance_nonneg. destruct (LB y Y); lra.
    - apply Rnot_lt_le, le_sq in L; try apply distance_nonneg. destruct (LB y Y); lra. }
  assert (boundary N P (if Rlt_dec (VecNModel.dist2 N p w) (VecNModel.dist2 N p k) then w else k)) as BR by (destruct (Rlt_dec _ _); assumption).
  split; [exact BR|]. split; [split; [exact BR|exact NEAR]|]. intros NP. split; [apply BR|].
  intros y [Y1 Y2]. destruct (b_contains (base_pt M p)) eqn:EC.
  - assert (X p) as XP by now apply E. assert (~ l <= p M <= h) as PH by (intros H; apply NP; now split).
    eapply Rle_trans; [apply (NEAR k BK)|]. apply le_sq; try apply distance_nonneg. unfold k. rewrite dist_join, dist_S. rewrite (distance_ext M p p _ _ (same_refl _ _) (base_same M p)), distance_self, (K3 PH).
    specialize (C3 _ Y2). pose proof (distance_nonneg M p y). assert (0 <= distance M p y * distance M p y) by now apply Rmult_le_pos. lra.
  - assert (~ X p) as XP by (intros H; apply E in H; discriminate). eapply Rle_trans; [apply (NEAR w BW)|]. apply (prism_near p q (NX' XP)). now split.
Qed.
(** ** normal *)
Lemma normal_ext b_contains b_project b_sdf b_normal p : let b := base_pt M p in (b_contains b = true <-> X b) -> projection M X b (b_project b) ->
  (b_sdf b <= 0 <-> X b) -> length M (b_normal b) = 1 -> same M b (fun i => b_project b i + b_sdf b * b_normal b i) ->
  exists n q, extruded_normal M b_contains b_sdf b_normal b_project height p = Some n /\ length N n = 1 /\ is_nearest N (boundary N P) p q /\
  same N p (fun i => q i + extruded_sdf M b_sdf height p * n i).
Proof.
  cbv zeta. intros E PR SD U S. pose proof PR as (BQ & NB & NX). rewrite x_base in E, NX, SD. unfold extruded_normal, extruded_sdf. cbv zeta. fold (clipped (p M)). fold (slab (p M)).
  set (q := b_project (base_pt M p)) in *. set (v := b_sdf (base_pt M p)) in *. set (nb := b_normal (base_pt M p)) in *.
  assert (same M p (fun i => q i + v * nb i)) as S' by (intros i L; rewrite <- (S i L); symmetry; now apply base_same). clear S.
  assert (distance M p q = Rabs v) as DQ by now apply (distance_to_along M p q v nb).
  apply (near_ext _ _ p) in NB; [|apply base_same]. assert (~ X p -> is_nearest M X p q) as NX' by (intros H; apply (near_ext _ (base_pt M p)); [apply base_same|now apply NX]). clear NX.
  destruct (clipped_ok (p M)) as (CL & C2 & C3 & C4 & C5 & C6). destruct (cap_ok (p M)) as (K1 & K2 & K3 & K4).
  assert (forall x, length N (join M (fun _ => 0) x) = Rabs x) as LU.
  { intros x. apply eq_sq; [apply length_nonneg|apply Rabs_pos|]. rewrite length_sq, inner_S, join_top, abs_sq. rewrite (inner_ext M _ (fun _ => 0) _ (fun _ => 0)) by apply join_low.
    replace (inner M (fun _ => 0) (fun _ => 0)) with 0 by vlin M. ring. }
  assert (length N (join M nb 0) = 1) as LW.
  { apply eq_sq; [apply length_nonneg|lra|]. rewrite length_sq, inner_S, join_top. rewrite (inner_ext M _ nb _ nb) by apply join_low. rewrite <- length_sq, U. ring. }
  assert (forall a, (X p -> forall y, boundary N P y -> (p M - a) * (p M - a) <= distance N p y * distance N p y) -> X p -> (a = l \/ a = h) -> is_nearest N (boundary N P) p (join M p a)) as CAP.
  { intros a H XP A. split; [apply prism_boundary; split; [apply prism_join; [exact XP|destruct A as [->| ->]; lra]|right; now rewrite join_top]|].
    intros y Y. apply le_sq; try apply distance_nonneg. rewrite dist_join, distance_self. specialize (H XP y Y). lra. }
  assert (forall a i, (i < N)%nat -> p i = join M p a i + (p M - a) * join M (fun _ => 0) 1 i) as UP.
  { intros a i L. unfold join. destruct (Nat.ltb_spec i M); [ring|]. replace i with M by lia. ring. }
  assert (l <= p M <= h -> is_nearest N (boundary N P) p (join M q (p M)) /\ same N p (fun i => join M q (p M) i + v * join M nb 0 i) \/
    (l <= p M <= h /\ exists y, boundary N P y /\ distance N p y < Rabs v)) as WALL.
  { intros PH. destruct (classic (exists y, boundary N P y /\ distance N p y < Rabs v)) as [H|H]; [now right|]. left. split; [split|].
    - apply prism_boundary. split; [apply prism_join; [apply BQ|exact PH]|]. left. apply (boundary_ext M X q); [exact RX|apply same_sym, join_low|exact BQ].
    - intros y Y. rewrite dist_flat by (now rewrite join_top). rewrite (distance_ext M p p _ _ (same_refl _ _) (join_low M q (p M))), DQ. apply Rnot_lt_le. intros L. apply H. now exists y.
    - intros i L. unfold join. destruct (Nat.ltb_spec i M) as [J|J]; [now apply S'|]. replace i with M by lia. ring. }
  assert (forall y, X p -> boundary N P y -> Rabs v <= distance N p y \/ (p M - cap_of (p M)) * (p M - cap_of (p M)) <= distance N p y * distance N p y) as LB.
  { intros y XP Y. apply prism_boundary in Y as [[Y1 Y2] [Y3|Y3]].
    - left. rewrite <- DQ. eapply Rle_trans; [apply (proj2 NB y Y3)|apply dist_low].
    - right. rewrite dist_S. specialize (K2 _ Y3). pose proof (distance_nonneg M p y). assert (0 <= distance M p y * distance M p y) by now apply Rmult_le_pos. lra. }
  destruct (height_has height (p M)) eqn:HH.
  - pose proof HH as SL. apply slab_has in SL. apply has_iff in HH. assert (r_project height (fun _ => p M : R_ord) 0%nat = cap_of (p M)) as -> by (unfold r_project, cap_of, Rltb; destruct (Rlt_dec _ _); reflexivity).
    assert (Rabs (p M - cap_of (p M)) = - slab (p M)) as CS.
    { unfold cap_of, slab, VecNModel.std_max. destruct (Rlt_dec (Rabs _) _) as [Q|Q]; revert Q; unfold Rabs; destruct (Rcase_abs (p M - l)), (Rcase_abs (p M - h)); intros Q; destruct (Rlt_dec _ _); lra. }
    destruct (b_contains (base_pt M p)) eqn:EC; cbn [andb].
    + assert (X p) as XP by now apply E. assert (v <= 0) as VN by now apply SD. rewrite CS. destruct (Rlt_dec (- slab (p M)) (Rabs v)) as [L|L].
      * rewrite (Rabs_left1 v VN) in L. assert (VecNModel.std_max v (slab (p M)) = slab (p M)) as -> by (unfold VecNModel.std_max; destruct (Rlt_dec _ _); lra).
        eexists. exists (join M p (cap_of (p M))). split; [reflexivity|]. split; [rewrite LU; destruct (Rle_dec _ _); [apply Rabs_pos_eq|rewrite Rabs_left]; lra|]. split.
        -- apply CAP; [|exact XP|exact K1]. intros _ y Y. destruct (LB y XP Y) as [B|B]; [|exact B]. rewrite (Rabs_left1 v VN) in B. rewrite <- abs_sq, CS.
           apply (proj1 (le_sq (- slab (p M)) (distance N p y) ltac:(lra) (distance_nonneg _ _ _))). lra.
        -- intros i J. rewrite (UP (cap_of (p M)) i J) at 1. f_equal. unfold join. destruct (Nat.ltb_spec i M); [ring|].
           revert CS. unfold cap_of, slab, VecNModel.std_max. destruct (Rlt_dec (Rabs (p M - l)) (Rabs (p M - h))) as [Q|Q]; revert Q; unfold Rabs; destruct (Rcase_abs (p M - l)), (Rcase_abs (p M - h)); intros; destruct (Rle_dec _ _), (Rlt_dec _ _); lra.
      * rewrite (Rabs_left1 v VN) in L. assert (VecNModel.std_max v (slab (p M)) = v) as -> by (unfold VecNModel.std_max; destruct (Rlt_dec _ _); lra).
        eexists. exists (join M q (p M)). split; [reflexivity|]. split; [exact LW|]. destruct (WALL HH) as [W|[_ (y & Y & D)]]; [exact W|]. exfalso. destruct (LB y XP Y) as [B|B]; [lra|].
        rewrite <- abs_sq, CS in B. apply (proj2 (le_sq (- slab (p M)) (distance N p y) ltac:(lra) (distance_nonneg _ _ _))) in B. rewrite (Rabs_left1 v VN) in D. lra.
    + assert (~ X p) as XP by (intros H; apply E in H; discriminate). assert (0 < v) as VP by (apply Rnot_le_lt; intros H; apply XP, SD, H).
      assert (VecNModel.std_max v (slab (p M)) = v) as -> by (unfold VecNModel.std_max; destruct (Rlt_dec _ _); lra).
      eexists. exists (join M q (p M)). split; [reflexivity|]. split; [exact LW|]. destruct (WALL HH) as [W|[_ (y & Y & D)]]; [exact W|]. exfalso.
      destruct Y as [[Y1 _] _]. pose proof (proj2 (NX' XP) y Y1). pose proof (dist_low M p y). lra.
  - assert (~ l <= p M <= h) as PH by (intros H; apply has_iff in H; congruence). destruct (b_contains (base_pt M p)) eqn:EC.
    + assert (X p) as XP by now apply E. assert (v <= 0) as VN by now apply SD. specialize (K3 PH).
      assert (0 < slab (p M)) as SP by (apply Rnot_le_lt; intros H; apply slab_has, has_iff in H; tauto).
      assert ((if Rlt_dec v 0 then slab (p M) else sqrt (v * v + slab (p M) * slab (p M))) = slab (p M)) as ->.
      { destruct (Rlt_dec v 0); [reflexivity|]. assert (v = 0) as -> by lra. rewrite Rmult_0_l, Rplus_0_l. apply sqrt_square. lra. }
      eexists. exists (join M p (clipped (p M))). split; [reflexivity|]. split; [rewrite LU; destruct (Rle_dec _ _); [apply Rabs_pos_eq|rewrite Rabs_left]; lra|]. split.
      * apply CAP; [|exact XP|].
        -- intros _ y [[_ Y2] _]. specialize (C3 _ Y2). rewrite dist_S. pose proof (distance_nonneg M p y). assert (0 <= distance M p y * distance M p y) by now apply Rmult_le_pos. lra.
        -- destruct (Rlt_dec (p M) l); [left; now apply C6|right; apply C5; lra].
      * intros i J. rewrite (UP (clipped (p M)) i J) at 1. f_equal. unfold join. destruct (Nat.ltb_spec i M); [ring|].
        destruct (Rlt_dec (p M) l) as [Q|Q]; [rewrite (C6 Q)|rewrite C5 by lra]; unfold slab, VecNModel.std_max; destruct (Rle_dec _ _), (Rlt_dec _ _); lra.
    + assert (~ X p) as XP by (intros H; apply E in H; discriminate). assert (0 < v) as VP by (apply Rnot_le_lt; intros H; apply XP, SD, H). specialize (NX' XP).
      assert (0 < slab (p M)) as SP by (apply Rnot_le_lt; intros H; apply slab_has, has_iff in H; tauto). destruct (Rlt_dec v 0) as [?|_]; [lra|].
      destruct (prism_near p q NX') as [PN PD]. set (z := join M q (clipped (p M))) in *. rewrite DQ, abs_sq, Rmax_left in PD by lra.
      assert (distance N p z = sqrt (v * v + slab (p M) * slab (p M))) as DZ. { rewrite <- PD. symmetry. apply sqrt_square, distance_nonneg. }
      assert (0 < distance N p z) as ZP. { rewrite DZ. apply sqrt_lt_R0. nra. }
      destruct (unit_vec N (vec_sub p z)) as [n|] eqn:EU.
      * exists n, z. split; [reflexivity|]. destruct (unit_length _ _ _ EU) as [U1 U2]. split; [exact U1|]. split.
        -- split; [|intros y [Y _]; now apply PN]. apply prism_boundary. split; [apply prism_join; [apply BQ|exact CL]|]. left. apply (boundary_ext M X q); [exact RX|apply same_sym, join_low|exact BQ].
        -- intros i L. specialize (U2 i L). change (length N (vec_sub p z)) with (distance N p z) in U2. rewrite <- DZ. unfold vec_sub in U2. lra.
      * exfalso. apply unit_none, length_zero in EU. change (length N (vec_sub p z)) with (distance N p z) in EU. lra.
Qed.
(** ** Support, bounds, rays *)
Lemma support_ext b_support d : (0 < M)%nat -> (forall d', ~ all_zero M d' -> is_support M X d' (b_support d')) -> is_support N P d (extruded_support M b_support height d).
Proof.
  intros MP H. unfold extruded_support. cbv zeta. set (a := if Rlt_dec 0 (d M) then h else l).
  assert (l <= a <= h /\ forall y, l <= y <= h -> y * d M <= a * d M) as [A1 A2].
  { unfold a. destruct (Rlt_dec 0 (d M)) as [D|D]; (split; [lra|]); intros y Y; [assert (0 <= (h - y) * d M) by (apply Rmult_le_pos; lra)|assert (0 <= (y - l) * - d M) by (apply Rmult_le_pos; lra)]; lra. }
  assert (exists p0, X p0 /\ (forall q, X q -> inner M q d <= inner M p0 d) /\ b_support (if is_zero M (base_pt M d) then fun i => if (i =? 0)%nat then 1 else base_pt M d i else base_pt M d) = p0) as (p0 & P1 & P2 & ->).
  { destruct (is_zero M (base_pt M d)) eqn:Z.
    - eexists. split; [|split; [|reflexivity]].
      + apply H. intros AZ. specialize (AZ 0%nat MP). cbn in AZ. lra.
      + intros q _. apply is_zero_spec in Z. assert (all_zero M d) as Z' by (intros i L; rewrite <- (base_same M d i L); now apply Z).
        assert (forall x, inner M x d = 0) as E. { intros x. rewrite (inner_ext M x x d (fun _ => 0) (same_refl _ _) Z'). vlin M. } rewrite !E. lra.
    - assert (~ all_zero M (base_pt M d)) as Z' by (intros AZ; apply is_zero_spec in AZ; congruence). destruct (H _ Z') as [S1 S2]. eexists. split; [exact S1|]. split; [|reflexivity].
      intros q Q. specialize (S2 q Q). rewrite !(inner_ext M _ _ (base_pt M d) d (same_refl _ _) (base_same M d)) in S2. exact S2. }
  split; [now apply prism_join|]. intros q [Q1 Q2]. rewrite !inner_S, join_top. rewrite (inner_ext M (join M p0 a) p0 d d (join_low M p0 a) (same_refl _ _)). specialize (P2 q Q1). specialize (A2 _ Q2). lra.
Qed.
Lemma bounds_ext b : (0 < M)%nat -> tight_box M X b -> tight_box N P (extruded_bounds M b height).
Proof.
  intros MP [A B]. assert (exists x0, X x0) as [x0 XX0] by (destruct (B 0%nat MP) as [(x & Q & _) _]; eauto). split.
  - intros p [P1 P2] i L. unfold extruded_bounds, cartesian. cbn [lo hi]. destruct (Nat.ltb_spec i M) as [J|J]; [exact (A p P1 i J)|]. replace i with M by lia. now rewrite Nat.sub_diag.
  - intros i L. unfold extruded_bounds, cartesian. cbn [lo hi]. destruct (Nat.ltb_spec i M) as [J|J].
    + destruct (B i J) as [(x & Q & E) (x' & Q' & E')]. split; [exists (join M x l)|exists (join M x' l)]; (split; [apply prism_join; [assumption|lra]|]); rewrite (join_low M _ _ i J); assumption.
    + replace i with M by lia. rewrite Nat.sub_diag. split; [exists (join M x0 l)|exists (join M x0 h)]; (split; [apply prism_join; [assumption|lra]|apply join_top]).
Qed.
Lemma ray_ext b_contains b_ray o d : (b_contains (base_pt M o) = true <-> X (base_pt M o)) ->
  (~ all_zero M d -> ray_in X (base_pt M o) (base_pt M d) (b_ray (mkRay (base_pt M o) (base_pt M d)))) ->
  ray_in P o d (extruded_ray M b_contains b_ray height (mkRay o d)).
Proof.
  intros E H. unfold extruded_ray. cbn [ray_resized origin direction]. change (resized N M o) with (base_pt M o). change (resized N M d) with (base_pt M d). cbv zeta.
  set (iv := if is_zero M (base_pt M d) then _ else _).
  assert (forall s, in_interval iv s <-> X (fun i => o i + s * d i)) as IV.
  { intros s. unfold iv. destruct (is_zero M (base_pt M d)) eqn:Z.
    - apply is_zero_spec in Z. assert (X (base_pt M o) <-> X (fun i => o i + s * d i)) as Q.
      { assert (same M (base_pt M o) (fun i => o i + s * d i)) as S by (intros i L; rewrite (base_same M o i L), <- (base_same M d i L), (Z i L); ring).
        split; apply RX; [exact S|now apply same_sym]. }
      rewrite <- Q, <- E. destruct (b_contains _); split; intros W; try easy; destruct W as [W1 W2]; cbn in *; easy.
    - assert (~ all_zero M d) as NZ. { intros AZ. assert (all_zero M (base_pt M d)) as AZ' by (intros i L; rewrite (base_same M d i L); now apply AZ). apply is_zero_spec in AZ'. congruence. }
      rewrite (H NZ s). assert (same M (fun i => base_pt M o i + s * base_pt M d i) (fun i => o i + s * d i)) as S by (intros i L; now rewrite (base_same M o i L), (base_same M d i L)).
      split; apply RX; [exact S|now apply same_sym]. }
  intros s. unfold prism. destruct (Req_EM_T (d M) 0) as [D|D].
  - rewrite D. replace (o M + s * 0) with (o M) by ring. destruct (height_has height (o M)) eqn:HH.
    + apply has_iff in HH. rewrite IV. tauto.
    + assert (~ l <= o M <= h) by (intros W; apply has_iff in W; congruence). split; [intros [W _]; cbn in W; easy|tauto].
  - rewrite inter_has, IV. assert (in_interval (iv_between ((l - o M) / d M) ((h - o M) / d M)) s <-> l <= o M + s * d M <= h) as ->; [|tauto].
    unfold iv_between. rewrite between_has. set (x := (l - o M) / d M). set (y := (h - o M) / d M).
    assert (x * d M = l - o M) as E1 by (unfold x; now field). assert (y * d M = h - o M) as E2 by (unfold y; now field).
    destruct (Rtotal_order (d M) 0) as [G|[G|G]]; [|contradiction|].
    + assert (y <= x) as YX by (apply Rnot_lt_le; intros W; assert (0 < (y - x) * - d M) by (apply Rmult_lt_0_compat; lra); lra).
      rewrite Rmin_right, Rmax_left by exact YX. split; intros [W1 W2]; split.
      * assert (0 <= (x - s) * - d M) by (apply Rmult_le_pos; lra). lra.
      * assert (0 <= (s - y) * - d M) by (apply Rmult_le_pos; lra). lra.
      * apply Rnot_lt_le. intros W. assert (0 < (y - s) * - d M) by (apply Rmult_lt_0_compat; lra). lra.
      * apply Rnot_lt_le. intros W. assert (0 < (s - x) * - d M) by (apply Rmult_lt_0_compat; lra). lra.
    + assert (x <= y) as XY by (apply Rnot_lt_le; intros W; assert (0 < (x - y) * d M) by (apply Rmult_lt_0_compat; lra); lra).
      rewrite Rmin_left, Rmax_right by exact XY. split; intros [W1 W2]; split.
      * assert (0 <= (s - x) * d M) by (apply Rmult_le_pos; lra). lra.
      * assert (0 <= (y - s) * d M) by (apply Rmult_le_pos; lra). lra.
      * apply Rnot_lt_le. intros W. assert (0 < (x - s) * d M) by (apply Rmult_lt_0_compat; lra). lra.
      * apply Rnot_lt_le. intros W. assert (0 < (s - y) * d M) by (apply Rmult_lt_0_compat; lra). lra.
Qed.
End E.
