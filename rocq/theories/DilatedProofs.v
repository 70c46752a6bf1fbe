From Coq Require Import Reals Arith Lra Lia.
From Verif Require Import PerlinSpec PerlinProofs VecNModel VecNSpec VecNProofs Ord RectModel RectSpec RectArithModel RectArithProofs ShapeSpec ShapeProofs SphereModel SphereProofs PlaneModel
  SolidSpec SolidProofs SolidModel.
Open Scope R_scope.

(** ** Defaults *)
Lemma default_bounds_ok N X support : (forall i, (i < N)%nat -> is_support N X (fun j => if (j =? i)%nat then 1 else 0) (support (fun j => if (j =? i)%nat then 1 else 0))) ->
  (forall i, (i < N)%nat -> is_support N X (fun j => if (j =? i)%nat then -1 else 0) (support (fun j => if (j =? i)%nat then -1 else 0))) ->
  tight_box N X (default_bounds support).
Proof.
  intros P M. assert (forall i q, (i < N)%nat -> inner N q (fun j => if (j =? i)%nat then 1 else 0) = q i) as A1 by (intros; now apply inner_axis).
  assert (forall i q, (i < N)%nat -> inner N q (fun j => if (j =? i)%nat then -1 else 0) = - q i) as A2.
  { intros i q L. rewrite (inner_ext N q q _ (fun j => - axis i j) (same_refl _ _)).
    - rewrite inner_opp_r. f_equal. now apply inner_axis.
    - intros j _. unfold axis. destruct (j =? i)%nat; ring. }
  split.
  - intros p XP i L. cbn. destruct (P i L) as [_ H]. destruct (M i L) as [_ G]. specialize (H p XP). specialize (G p XP). rewrite !A1 in H by exact L. rewrite !A2 in G by exact L. lra.
  - intros i L. cbn. destruct (P i L) as [H _]. destruct (M i L) as [G _]. split; [eexists; split; [exact G|reflexivity]|eexists; split; [exact H|reflexivity]].
Qed.
(** What the sign of a signed distance says. *)
Lemma solid_sign N X p v : solid_distance N X p v -> (v <= 0 <-> X p) /\ (v = 0 <-> boundary N X p).
Proof.
  intros [A B]. assert (v <= 0 <-> X p) as S.
  { split.
    - intros H. apply (proj1 (B H)). rewrite distance_self. lra.
    - intros XP. apply Rnot_lt_le. intros H. destruct (A H) as (q & [_ Q] & E). specialize (Q p XP). rewrite distance_self in Q. lra. }
  split; [exact S|]. split.
  - intros ->. split; [apply S; lra|]. intros e E. destruct (proj2 (B ltac:(lra)) e E) as (y & Y & D). exists y. split; [exact Y|lra].
  - intros [XP H]. apply S in XP. destruct (Req_EM_T v 0) as [Z|Z]; [exact Z|]. exfalso. destruct (H (- v) ltac:(lra)) as (y & Y & D). apply Y, (proj1 (B XP)). lra.
Qed.
Lemma default_sdf_ok N X contains project p : convex X -> respects N X -> has_nearest N X -> (contains p = true <-> X p) -> projection N X p (project p) ->
  solid_distance N X p (default_sdf N contains project p).
Proof.
  intros C R HN E (B & NB & NX). unfold default_sdf. rewrite dist_is, distance_sym. destruct (contains p) eqn:Ec.
  - assert (X p) as XP by now apply E. pose proof (distance_nonneg N p (project p)) as D. split; [lra|]. intros _. replace (- (-1 * distance N p (project p))) with (distance N p (project p)) by ring. split.
    + intros y Y. exact (ball_inside N X p (project p) y C R HN XP NB Y).
    + intros e EP. destruct (proj2 B e EP) as (y & Y & YD). exists y. split; [exact Y|]. pose proof (distance_triangle N p (project p) y). lra.
  - assert (~ X p) as XP by (intros H; apply E in H; discriminate). specialize (NX XP). pose proof (outside_far N X p _ XP R NX). rewrite Rmult_1_l. split; [|lra].
    intros _. exists (project p). split; [exact NX|reflexivity].
Qed.
Lemma default_normal_ok N contains project p n : default_normal N contains project p = Some n -> length N n = 1 /\ same N p (fun i => project p i + default_sdf N contains project p * n i).
Proof.
  unfold default_normal, default_sdf. destruct (unit_vec _ _) as [u|] eqn:E; [|discriminate]. intros [= <-]. destruct (unit_length _ _ _ E) as [U S]. rewrite dist_is, distance_sym. fold (distance N p (project p)) in *.
  change (length N (vec_sub p (project p))) with (distance N p (project p)) in S. unfold vec_sub in S. split.
  - rewrite (length_ext N _ (fun i => (if contains p then -1 else 1) * u i)) by (intros i L; unfold vec_scale; ring). rewrite length_scale, U. destruct (contains p); rewrite Rmult_1_r; [rewrite Rabs_left|rewrite Rabs_pos_eq]; lra.
  - intros i L. specialize (S i L). cbv beta in S. unfold vec_scale. destruct (contains p); lra.
Qed.
Lemma default_normal_none N contains project p : default_normal N contains project p = None <-> same N p (project p).
Proof.
  unfold default_normal. assert (unit_vec N (vec_sub p (project p)) = None <-> same N p (project p)) as H.
  { rewrite unit_none. unfold all_zero, same, vec_sub. split; intros H i L; specialize (H i L); lra. }
  destruct (unit_vec _ _); [|tauto]. split; [discriminate|]. intros S. apply H in S. discriminate.
Qed.
Lemma default_clip_ok N X contains project p : (contains p = true <-> X p) -> projection N X p (project p) -> is_nearest N X p (default_clip contains project p).
Proof.
  intros E (_ & _ & NX). unfold default_clip. destruct (contains p).
  - split; [now apply E|]. intros q _. rewrite distance_self. apply distance_nonneg.
  - apply NX. intros H. apply E in H. discriminate.
Qed.

(** ** Dilation *)
Section D.
Variables (N : nat) (X : region) (k : R).
Hypothesis (CX : convex X) (RX : respects N X) (HX : has_nearest N X) (K : 0 <= k).
Notation Y := (dilation N X k).
Lemma dil_self p : X p -> Y p.
Proof. intros H. exists p. rewrite distance_self. now split. Qed.
Lemma dil_out q u t : length N u = 1 -> (forall y, X y -> inner N (fun i => y i - q i) u <= 0) -> k < t -> ~ Y (fun i => q i + t * u i).
Proof. intros U H T (x & XX & D). pose proof (plane_dist N X q u t x ltac:(lra) U H XX). lra. Qed.
Lemma dil_in q u : length N u = 1 -> X q -> Y (fun i => q i + k * u i).
Proof. intros U Q. exists q. split; [exact Q|]. rewrite distance_sym, distance_along by exact U. rewrite Rabs_pos_eq; lra. Qed.
(** The plane of a nearest point, by its unit normal. *)
Lemma unit_plane p q u c : 0 < c -> same N u (fun i => c * (p i - q i)) -> (forall x, X x -> inner N (fun i => x i - q i) (fun i => p i - q i) <= 0) -> forall x, X x -> inner N (fun i => x i - q i) u <= 0.
Proof.
  intros C S H x XX. specialize (H x XX). rewrite (inner_ext N _ _ u _ (same_refl _ _) S), inner_sym, inner_mul_l, inner_sym.
  assert (0 <= c * - inner N (fun i => x i - q i) (fun i => p i - q i)) by (apply Rmult_le_pos; lra). lra.
Qed.
(** A point at a given fraction of the way. *)
Lemma partway p y rho : 0 <= rho < distance N p y -> exists x, distance N p x = rho /\ distance N y x = distance N p y - rho.
Proof.
  intros B. set (d := distance N p y) in *. assert (length N (fun i => y i - p i) = d) as L by (unfold d; rewrite distance_sym; reflexivity).
  exists (fun i => p i + rho / d * (y i - p i)). split; unfold distance.
  - rewrite (length_ext N _ (fun i => - (rho / d) * (y i - p i))) by (intros i J; ring). rewrite length_scale, L, Rabs_Ropp, Rabs_pos_eq; [field; lra|].
    apply Rmult_le_pos; [lra|]. left. apply Rinv_0_lt_compat. lra.
  - rewrite (length_ext N _ (fun i => ((d - rho) / d) * (y i - p i))) by (intros i J; field; lra). rewrite length_scale, L, Rabs_pos_eq; [field; lra|].
    apply Rmult_le_pos; [lra|]. left. apply Rinv_0_lt_compat. lra.
Qed.
Lemma dil_sdf p v : solid_distance N X p v -> solid_distance N Y p (v - k).
Proof.
  intros [A B]. destruct (Rlt_dec 0 v) as [V|V].
  - destruct (A V) as (q & Q & E). rewrite E in V. destruct (unit_between N p q V) as (u & U & S & SU).
    assert (forall x, X x -> inner N (fun i => x i - q i) u <= 0) as PL.
    { apply (unit_plane p q u (/ distance N p q)); [now apply Rinv_0_lt_compat|exact SU|]. intros x XX. exact (nearest_plane N X p q x CX Q XX). }
    assert (forall t, distance N p (fun i => q i + t * u i) = Rabs (v - t)) as DT.
    { intros t. apply (distance_to_along N p _ (v - t) u U). intros i L. rewrite (S i L) at 1. rewrite E. ring. }
    split.
    + intros VK. exists (fun i => q i + k * u i). split; [|rewrite DT, Rabs_pos_eq; lra]. split; [apply dil_in; [exact U|apply Q]|].
      intros y (x & XX & D). rewrite DT, Rabs_pos_eq by lra. destruct Q as [_ Q]. specialize (Q x XX). pose proof (distance_triangle N p y x). lra.
    + intros VK. split.
      * intros y D. exists q. split; [apply Q|]. pose proof (distance_triangle N y p q) as T. rewrite (distance_sym N y p) in T. lra.
      * intros e EP. exists (fun i => q i + (k + e / 2) * u i). split; [apply dil_out; [exact U|exact PL|lra]|]. rewrite DT, Rabs_left1; lra.
  - destruct (B ltac:(lra)) as [B1 B2]. split; [lra|]. intros _. split.
    + intros y D. destruct (Rle_dec (distance N p y) (- v)) as [I|I]; [apply dil_self, B1, I|]. destruct (partway p y (- v) ltac:(lra)) as (x & X1 & X2).
      exists x. split; [apply B1; lra|lra].
    + intros e EP. destruct (B2 e EP) as (y & NY & D). destruct (HX y) as (z & Z). pose proof (outside_far N X y z NY RX Z) as YZ. destruct (unit_between N y z YZ) as (u & U & S & SU).
      exists (fun i => z i + (distance N y z + k) * u i). split.
      * apply dil_out; [exact U| |lra]. apply (unit_plane y z u (/ distance N y z)); [now apply Rinv_0_lt_compat|exact SU|]. intros x XX. exact (nearest_plane N X y z x CX Z XX).
      * pose proof (distance_triangle N p y (fun i => z i + (distance N y z + k) * u i)) as T.
        rewrite (distance_to_along N y (fun i => z i + (distance N y z + k) * u i) (- k) u U) in T; [rewrite Rabs_Ropp, Rabs_pos_eq in T; lra|]. intros i L. rewrite (S i L) at 1. ring.
Qed.
Lemma dil_contains sdf p : solid_distance N X p (sdf p) -> (dilated_contains sdf k p = true <-> Y p /\ ~ boundary N Y p).
Proof.
  intros S. apply dil_sdf, solid_sign in S as [S1 S2]. rewrite <- S1, <- S2. unfold dilated_contains, dilated_sdf. destruct (Rlt_dec _ 0); split; intros; try easy; lra.
Qed.
Lemma dil_support support d p : is_support N X d (support d) -> dilated_support N support k d = Some p -> is_support N Y d p.
Proof.
  intros [S H]. unfold dilated_support. destruct (unit_vec N d) as [u|] eqn:E; [|discriminate]. intros [= <-]. destruct (unit_length _ _ _ E) as [U SU]. split.
  - exists (support d). split; [exact S|]. rewrite (distance_to_along N _ _ k u U); [rewrite Rabs_pos_eq; lra|]. intros i L. unfold vec_add, vec_scale. ring.
  - intros y (x & XX & D). specialize (H x XX). assert (inner N (vec_add (support d) (vec_scale u k)) d = inner N (support d) d + k * inner N u d) as -> by (unfold vec_add, vec_scale; vlin N).
    assert (inner N u d = length N d) as ->. { rewrite (inner_ext N u u d _ (same_refl _ _) SU), inner_sym, inner_mul_l, <- length_sq, U. ring. }
    assert (inner N y d = inner N x d + inner N (fun i => y i - x i) d) as -> by vlin N. pose proof (cauchy N (fun i => y i - x i) d) as CC. fold (distance N y x) in CC.
    pose proof (Rle_abs (inner N (fun i => y i - x i) d)). assert (distance N y x * length N d <= k * length N d) by (apply Rmult_le_compat_r; [apply length_nonneg|exact D]). lra.
Qed.
Lemma dil_support_none support d : dilated_support N support k d = None <-> all_zero N d.
Proof. unfold dilated_support. rewrite <- unit_none. destruct (unit_vec N d); split; easy. Qed.
Lemma dil_bounds b : tight_box N X b -> tight_box N Y (dilated_bounds b k).
Proof.
  intros [A B]. split.
  - intros p (x & XX & D) i L. cbn. specialize (A x XX i L). pose proof (coordinate_le N (fun j => p j - x j) i L) as C. fold (distance N p x) in C. cbv beta in C.
    pose proof (Rle_trans _ _ _ C D) as E. revert E. unfold Rabs. destruct (Rcase_abs _); lra.
  - intros i L. cbn. destruct (B i L) as [(x & XX & E) (x' & XX' & E')].
    assert (forall x t, X x -> Rabs t = k -> Y (fun j => x j + t * axis i j)) as H.
    { intros z t ZX T. exists z. split; [exact ZX|]. rewrite distance_sym, distance_along by (now apply length_axis). lra. }
    assert (axis i i = 1) as AI by (unfold axis; now rewrite Nat.eqb_refl). split.
    + exists (fun j => x j + - k * axis i j). split; [apply H; [exact XX|rewrite Rabs_Ropp; now apply Rabs_pos_eq]|]. rewrite AI, E. ring.
    + exists (fun j => x' j + k * axis i j). split; [apply H; [exact XX'|now apply Rabs_pos_eq]|]. rewrite AI, E'. ring.
Qed.
(** Boundary points of the dilation are at least [k] from the shape. *)
Lemma bd_far y x : boundary N Y y -> X x -> k <= distance N y x.
Proof.
  intros [_ H] XX. apply Rnot_lt_le. intros D. destruct (H (k - distance N y x) ltac:(lra)) as (z & NZ & ZD). apply NZ. exists x. split; [exact XX|].
  pose proof (distance_triangle N z y x) as T. rewrite (distance_sym N z y) in T. lra.
Qed.
Lemma bd_at q u : length N u = 1 -> X q -> (forall y, X y -> inner N (fun i => y i - q i) u <= 0) -> boundary N Y (fun i => q i + k * u i).
Proof.
  intros U Q PL. split; [now apply dil_in|]. intros e E. exists (fun i => q i + (k + e / 2) * u i). split; [apply dil_out; [exact U|exact PL|lra]|].
  rewrite (distance_to_along N _ (fun i => q i + (k + e / 2) * u i) (- (e / 2)) u U) by (intros i L; ring). rewrite Rabs_Ropp, Rabs_pos_eq; lra.
Qed.
Lemma dil_respects : respects N Y.
Proof. intros p q S (x & XX & D). exists x. split; [exact XX|]. now rewrite <- (distance_ext N p q x x S (same_refl _ _)). Qed.
Lemma boundary_ext Z q q' : respects N Z -> same N q q' -> boundary N Z q -> boundary N Z q'.
Proof.
  intros RZ S [A B]. split; [exact (RZ q q' S A)|]. intros e E. destruct (B e E) as (y & NY & D). exists y. split; [exact NY|]. now rewrite <- (distance_ext N q q' y y S (same_refl _ _)).
Qed.
Lemma projection_ext Z p q q' : respects N Z -> same N q q' -> projection N Z p q -> projection N Z p q'.
Proof.
  intros RZ S (A & [B C] & D). assert (distance N p q = distance N p q') as E by now apply distance_ext. split; [now apply (boundary_ext Z q)|]. split.
  - split; [now apply (boundary_ext Z q)|]. intros y H. rewrite <- E. now apply C.
  - intros NZ. destruct (D NZ) as [D1 D2]. split; [exact (RZ q q' S D1)|]. intros y H. rewrite <- E. now apply D2.
Qed.
Lemma dil_project contains project p q : (contains p = true <-> X p) -> projection N X p (project p) -> dilated_project N contains project k p = Some q -> projection N Y p q.
Proof.
  intros E (BQ & NB & NX). unfold dilated_project. destruct (unit_vec _ _) as [w|] eqn:EU; [|discriminate]. intros [= <-]. set (q := project p) in *.
  destruct (unit_length _ _ _ EU) as [W SW]. destruct (unit_some _ _ _ EU) as [LZ _]. change (length N (vec_sub q p)) with (distance N q p) in *. unfold vec_sub in SW. rewrite distance_sym in SW, LZ.
  set (v := distance N p q) in *. assert (0 < v) as VP by (pose proof (distance_nonneg N p q); fold v in H; lra). destruct (contains p) eqn:EC.
  - assert (X p) as XP by now apply E. assert (forall x, X x -> inner N (fun i => x i - q i) w <= 0) as PL.
    { intros x XX. assert (forall y, distance N p y <= distance N p q -> X y) as BI by (intros y; exact (ball_inside N X p q y CX RX HX XP NB)).
      pose proof (tangent_plane N X p q x CX RX BI BQ VP XX) as T. rewrite (inner_ext N _ _ _ _ (same_refl _ _) SW), inner_sym, inner_mul_l, inner_sym in T.
      apply (Rmult_le_reg_l v); [exact VP|]. lra. }
    apply (projection_ext Y p (fun i => q i + k * w i) _ dil_respects); [intros i L; unfold vec_add, vec_scale; ring|].
    pose proof (bd_at q w W (proj1 BQ) PL) as BB. split; [exact BB|]. split; [split; [exact BB|]|intros NY; destruct (NY (dil_self p XP))].
    intros y BY. assert (distance N p (fun i => q i + k * w i) = v + k) as ->.
    { rewrite (distance_to_along N p _ (- (v + k)) w W); [rewrite Rabs_Ropp, Rabs_pos_eq; lra|]. intros i L. specialize (SW i L). cbv beta in SW. lra. }
    apply Rnot_lt_le. intros D. destruct (Rlt_dec v (distance N p y)) as [V|V].
    + destruct (partway p y v) as (x & X1 & X2); [lra|]. pose proof (bd_far y x BY (ball_inside N X p q x CX RX HX XP NB ltac:(fold v; lra))). lra.
    + assert (X y) as XY by (apply (ball_inside N X p q y CX RX HX XP NB); fold v; lra). pose proof (bd_far y y BY XY) as F. rewrite distance_self in F. assert (k = 0) as KZ by lra.
      assert (boundary N X y) as BXY.
      { split; [exact XY|]. intros e EP. destruct (proj2 BY e EP) as (z & NZ & ZD). exists z. split; [|exact ZD]. intros XZ. apply NZ. now apply dil_self. }
      pose proof (proj2 NB y BXY) as FF. fold v in FF. lra.
  - assert (~ X p) as XP by (intros H; apply E in H; discriminate). specialize (NX XP). set (u := fun i => - w i).
    assert (length N u = 1) as U by (unfold u; rewrite (length_ext N _ (fun i => -1 * w i)) by (intros i L; ring); rewrite length_scale, W, Rabs_left; lra).
    assert (same N p (fun i => q i + v * u i)) as S by (intros i L; specialize (SW i L); cbv beta in SW; unfold u; lra).
    assert (forall x, X x -> inner N (fun i => x i - q i) u <= 0) as PL.
    { apply (unit_plane p q u (/ v)); [now apply Rinv_0_lt_compat| |intros x XX; exact (nearest_plane N X p q x CX NX XX)]. intros i L. rewrite (S i L). field. lra. }
    apply (projection_ext Y p (fun i => q i + k * u i) _ dil_respects); [intros i L; unfold u, vec_sub, vec_scale; ring|].
    assert (distance N p (fun i => q i + k * u i) = Rabs (v - k)) as DP by (apply (distance_to_along N p _ (v - k) u U); intros i L; rewrite (S i L); ring).
    assert (forall y, Y y -> v - k <= distance N p y) as LB.
    { intros y (x & XX & D). pose proof (proj2 NX x XX) as G. fold v in G. pose proof (distance_triangle N p y x). lra. }
    pose proof (bd_at q u U (proj1 BQ) PL) as BB. split; [exact BB|]. split; [split; [exact BB|]|].
    + intros y BY. rewrite DP. pose proof (bd_far y q BY (proj1 BQ)) as F. specialize (LB y (proj1 BY)). pose proof (distance_triangle N y p q) as T. rewrite (distance_sym N y p) in T. fold v in T.
      unfold Rabs. destruct (Rcase_abs _); lra.
    + intros NY. split; [apply BB|]. intros y YY. rewrite DP. specialize (LB y YY). assert (k < v) by (apply Rnot_le_lt; intros H; apply NY; exists q; split; [apply BQ|exact H]). rewrite Rabs_pos_eq; lra.
Qed.
End D.
Lemma dil_project_none N contains project k p : dilated_project N contains project k p = None <-> same N p (project p).
Proof.
  unfold dilated_project. assert (unit_vec N (vec_sub (project p) p) = None <-> same N p (project p)) as H.
  { rewrite unit_none. unfold all_zero, same, vec_sub. split; intros H i L; specialize (H i L); lra. }
  destruct (unit_vec _ _); [|tauto]. split; [discriminate|]. intros S. apply H in S. discriminate.
Qed.
Lemma dil_normal N contains project sdf normal k p : (contains p = true <-> sdf p <= 0) -> sdf p <> 0 -> length N (normal p) = 1 -> same N p (fun i => project p i + sdf p * normal p i) ->
  exists q, dilated_project N contains project k p = Some q /\ same N p (fun i => q i + dilated_sdf sdf k p * dilated_normal normal p i).
Proof.
  intros E Z U S. unfold dilated_project, dilated_normal, dilated_sdf. set (n := normal p) in *. set (v := sdf p) in *.
  assert (same N (vec_sub (project p) p) (fun i => - v * n i)) as S' by (intros i L; unfold vec_sub; specialize (S i L); cbv beta in S; lra).
  assert (length N (vec_sub (project p) p) = Rabs v) as LV by (rewrite (length_ext N _ _ S'), length_scale, U, Rabs_Ropp; ring).
  destruct (unit_vec _ _) as [w|] eqn:EU.
  - destruct (unit_some _ _ _ EU) as [_ W]. eexists. split; [reflexivity|]. intros i L. specialize (S' i L). specialize (W i). rewrite LV, S' in W. specialize (S i L). cbv beta in S.
    destruct (contains p).
    + assert (v < 0) as V by (assert (v <= 0) by (now apply E); lra). unfold vec_add, vec_scale. rewrite W, Rabs_left by exact V. rewrite S at 1. field. lra.
    + assert (0 < v) as V by (apply Rnot_le_lt; intros H; apply E in H; discriminate). unfold vec_sub, vec_scale. rewrite W, Rabs_pos_eq by lra. rewrite S at 1. field. lra.
  - exfalso. apply unit_none, length_zero in EU. rewrite LV in EU. revert EU. unfold Rabs. destruct (Rcase_abs v); lra.
Qed.
(** ** Planes *)
Lemma half_space_dilation N n d k p : length N n = 1 -> 0 <= k -> (dilation N (half_space N n d) k p <-> half_space N n (d - k) p).
Proof.
  intros U K. unfold dilation, half_space. split.
  - intros (x & H & D). assert (inner N n p = inner N n x + inner N (fun i => p i - x i) n) as -> by vlin N. pose proof (cauchy N (fun i => p i - x i) n) as C. fold (distance N p x) in C. rewrite U in C.
    pose proof (Rle_abs (inner N (fun i => p i - x i) n)). lra.
  - intros H. exists (fun i => p i + - k * n i). split.
    + assert (inner N n (fun i => p i + - k * n i) = inner N n p - k * inner N n n) as -> by vlin N. rewrite <- length_sq, U. lra.
    + rewrite distance_along by exact U. rewrite Rabs_Ropp, Rabs_pos_eq; lra.
Qed.
(** ** Rounded boxes *)
Lemma box_tight N (b : @rect R_ord) : nonempty N b -> tight_box N (in_box N b) b.
Proof.
  intros NE. assert (forall i, (i < N)%nat -> (lo b i : R) <= hi b i) as O by (exact (proj1 (nonempty_R N b) NE)). split; [easy|].
  intros i L. split; [exists (lo b)|exists (hi b)]; (split; [|reflexivity]); intros j J; specialize (O j J); lra.
Qed.
Lemma roundrect_ok N b radius : (0 < N)%nat -> nonempty N b -> 0 <= radius -> let (b', r') := roundrect N b radius in
  nonempty N b' /\ 0 <= r' <= radius /\ ((forall i, (i < N)%nat -> 2 * radius <= hi b i - lo b i) -> r' = radius) /\ tight_box N (dilation N (in_box N b') r') b.
Proof.
  intros NP NE RP. unfold roundrect. cbv zeta. set (r' := VecNModel.std_min radius _). destruct (min_elem_spec N (r_dims b) NP) as [(j & J & E) M].
  assert (forall i, (i < N)%nat -> (lo b i : R) <= hi b i) as O by (exact (proj1 (nonempty_R N b) NE)).
  destruct (std_min_le radius (min_elem N (r_dims b) / 2)) as (A & B & C). fold r' in A, B, C.
  assert (0 <= min_elem N (r_dims b)) as MP. { rewrite E. unfold r_dims. specialize (O j J). lra. }
  assert (0 <= r') as R0 by (destruct C as [->| ->]; lra).
  assert (forall i, (i < N)%nat -> 2 * r' <= hi b i - lo b i) as W by (intros i L; assert (min_elem N (r_dims b) <= (hi b i : R) - lo b i + 0) by (exact (M i L)); lra).
  assert (nonempty N (r_dilated b (fun _ => - r'))) as NE' by (apply (proj2 (nonempty_R N _)); intros i L; cbn; specialize (W i L); lra).
  split; [exact NE'|]. split; [lra|]. split.
  - intros F. destruct C as [C|C]; [exact C|]. specialize (F j J). rewrite E in C, B. unfold r_dims in C, B. lra.
  - pose proof (dil_bounds N (in_box N (r_dilated b (fun _ => - r'))) r' R0 _ (box_tight N _ NE')) as T. destruct T as [T1 T2].
    assert (forall i, (lo (dilated_bounds (r_dilated b (fun _ => - r')) r') i : R) = lo b i /\ (hi (dilated_bounds (r_dilated b (fun _ => - r')) r') i : R) = hi b i) as Q by (intros i; cbn; lra).
    split.
    + intros p P i L. specialize (T1 p P i L). destruct (Q i) as [Q1 Q2]. rewrite Q1, Q2 in T1. exact T1.
    + intros i L. specialize (T2 i L). destruct (Q i) as [Q1 Q2]. rewrite Q1, Q2 in T2. exact T2.
Qed.
(** ** Balls as an instance *)
Lemma ball_respects N c r : respects N (ball N c r).
Proof. intros p q S H. unfold ball in *. now rewrite <- (distance_ext N p q c c S (same_refl _ _)). Qed.
Lemma ball_convex N c r : convex (ball N c r).
Proof.
  intros p q t P Q T. unfold ball, distance in *.
  rewrite (length_ext N _ (fun i => (1 - t) * (p i - c i) + t * (q i - c i))) by (intros i L; ring). eapply Rle_trans; [apply length_triangle|].
  rewrite !length_scale, !Rabs_pos_eq by lra. assert ((1 - t) * length N (fun i => p i - c i) <= (1 - t) * r) by (apply Rmult_le_compat_l; lra).
  assert (t * length N (fun i => q i - c i) <= t * r) by (apply Rmult_le_compat_l; lra). lra.
Qed.
Lemma ball_nearest N c r p u : 0 <= r -> length N u = 1 -> same N p (fun i => c i + distance N p c * u i) -> r <= distance N p c ->
  is_nearest N (ball N c r) p (fun i => c i + r * u i) /\ distance N p (fun i => c i + r * u i) = distance N p c - r.
Proof.
  intros RP U S H. assert (distance N p (fun i => c i + r * u i) = distance N p c - r) as D.
  { rewrite (distance_to_along N p _ (distance N p c - r) u U); [rewrite Rabs_pos_eq; lra|]. intros i L. rewrite (S i L) at 1. ring. }
  split; [|exact D]. split.
  - unfold ball. rewrite distance_sym, distance_along by exact U. rewrite Rabs_pos_eq; lra.
  - intros q Q. rewrite D. unfold ball in Q. pose proof (distance_triangle N p q c). lra.
Qed.
Lemma ball_has_nearest N c r : 0 <= r -> has_nearest N (ball N c r).
Proof.
  intros RP p. destruct (Rle_dec (distance N p c) r) as [H|H].
  - exists p. split; [exact H|]. intros q _. rewrite distance_self. apply distance_nonneg.
  - destruct (unit_between N p c) as (u & U & S & _); [lra|]. eexists. apply (ball_nearest N c r p u RP U S). lra.
Qed.
Lemma ball_solid N c r p : (0 < N)%nat -> 0 <= r -> solid_distance N (ball N c r) p (distance N p c - r).
Proof.
  intros NP RP. split.
  - intros H. destruct (unit_between N p c) as (u & U & S & _); [lra|]. eexists. split; [apply (ball_nearest N c r p u RP U S); lra|]. symmetry. apply (ball_nearest N c r p u RP U S). lra.
  - intros H. split.
    + intros y D. unfold ball. pose proof (distance_triangle N y p c) as T. rewrite (distance_sym N y p) in T. lra.
    + intros e E. assert (exists u, length N u = 1 /\ same N p (fun i => c i + distance N p c * u i)) as (u & U & S).
      { destruct (Req_EM_T (distance N p c) 0) as [Z|Z].
        - exists (axis 0). split; [now apply length_axis|]. rewrite Z. apply distance_zero in Z. intros i L. rewrite (Z i L). ring.
        - destruct (unit_between N p c) as (u & U & S & _); [pose proof (distance_nonneg N p c); lra|]. eauto. }
      exists (fun i => c i + (r + e / 2) * u i). split.
      * unfold ball. rewrite distance_sym, distance_along by exact U. rewrite Rabs_pos_eq; lra.
      * rewrite (distance_to_along N p _ (distance N p c - (r + e / 2)) u U); [rewrite Rabs_left1; lra|]. intros i L. rewrite (S i L) at 1. ring.
Qed.
