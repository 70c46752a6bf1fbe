From Coq Require Import Reals Arith Lra Lia List Bool.
From Verif Require Import PerlinSpec PerlinProofs VecNModel VecNSpec VecNProofs RayModel RealUtilModel RealUtilProofs Ord RectModel RectSpec RectArithModel RectArithProofs
  ShapeSpec ShapeProofs SphereModel SphereProofs CylinderModel.
Open Scope R_scope.

Lemma Rltb_iff x y : Rltb' x y = true <-> x < y.
Proof. unfold Rltb'. destruct (Rlt_dec x y); split; intros; easy. Qed.
Lemma Rltb_not x y : Rltb' x y = false <-> y <= x.
Proof. unfold Rltb'. destruct (Rlt_dec x y); split; intros; try easy; lra. Qed.

Lemma sq_beyond d e x : x <= e -> e <= d -> (d - e) * (d - e) <= (d - x) * (d - x).
Proof. intros. assert (0 <= (d - e) * (e - x)) by (apply Rmult_le_pos; lra). nra. Qed.
Lemma sq_before d e x : e <= x -> d <= e -> (d - e) * (d - e) <= (d - x) * (d - x).
Proof. intros. assert (0 <= (e - d) * (x - e)) by (apply Rmult_le_pos; lra). nra. Qed.
Lemma sq_self d x : (d - d) * (d - d) <= (d - x) * (d - x).
Proof. pose proof (Rle_0_sqr (d - x)). unfold Rsqr in *. lra. Qed.

Section Y.
Variables (N : nat) (p0 p1 : vec) (r : R).
Notation a := (fun i => p1 i - p0 i).
Notation c := (mkCyl p0 p1 r).
Definition A : R := inner N a a.
Hypothesis AP : 0 < A.
(** Coordinates of a point: fraction along the axis, vector from the axis and distance from the axis. *)
Definition tau (p : vec) : R := inner N (fun i => p i - p0 i) a / A.
Definition wv (p : vec) : vec := fun i => p i - along p0 p1 (tau p) i.
Definition rho (p : vec) : R := length N (wv p).
Lemma rho_nonneg p : 0 <= rho p.
Proof. apply length_nonneg. Qed.
Lemma rho_sq p : rho p * rho p = inner N (wv p) (wv p).
Proof. apply length_sq. Qed.
Lemma tau_A p : tau p * A = inner N (fun i => p i - p0 i) a.
Proof. unfold tau. field. lra. Qed.
Lemma inner_along p t : inner N (fun i => p i - along p0 p1 t i) a = (tau p - t) * A.
Proof.
  rewrite Rmult_minus_distr_r, tau_A. unfold A, along. vlin N.
Qed.
Lemma wv_perp p : inner N (wv p) a = 0.
Proof. unfold wv. rewrite inner_along. ring. Qed.
Lemma at_iff p t d : cylinder_at N p0 p1 p t d <-> t = tau p /\ d = rho p.
Proof.
  unfold cylinder_at. rewrite inner_along. split.
  - intros [B D]. assert (t = tau p) as -> by nra. split; [reflexivity|]. rewrite <- D. reflexivity.
  - intros [-> ->]. split; [ring|reflexivity].
Qed.
Lemma in_iff p : cylinder N p0 p1 r p <-> 0 <= tau p <= 1 /\ rho p <= r.
Proof.
  split.
  - intros (t & d & B & T & D). apply at_iff in B as [-> ->]. tauto.
  - intros [T D]. exists (tau p), (rho p). rewrite at_iff. tauto.
Qed.
Lemma surface_iff p : cylinder_surface N p0 p1 r p <-> 0 <= tau p <= 1 /\ rho p <= r /\ (tau p = 0 \/ tau p = 1 \/ rho p = r).
Proof.
  split.
  - intros (t & d & B & T & D). apply at_iff in B as [-> ->]. tauto.
  - intros [T D]. exists (tau p), (rho p). rewrite at_iff. tauto.
Qed.
(** The point with given coordinates. *)
Definition place (t : R) (w : vec) : vec := fun i => along p0 p1 t i + w i.
Lemma place_self p : same N p (place (tau p) (wv p)).
Proof. intros i L. unfold place, wv. ring. Qed.
Lemma tau_ext p q : same N p q -> tau p = tau q.
Proof. intros S. unfold tau. f_equal. apply inner_ext; [|easy]. intros i L. now rewrite S. Qed.
Lemma wv_ext p q : same N p q -> same N (wv p) (wv q).
Proof. intros S i L. unfold wv. now rewrite (tau_ext p q S), S. Qed.
Lemma rho_ext p q : same N p q -> rho p = rho q.
Proof. intros S. apply length_ext. now apply wv_ext. Qed.
Lemma tau_place t w : inner N w a = 0 -> tau (place t w) = t.
Proof.
  intros P. apply (Rmult_eq_reg_r A); [|lra]. rewrite tau_A. unfold place, along, A.
  transitivity (t * inner N a a + inner N w a); [vlin N|rewrite P; ring].
Qed.
Lemma wv_place t w : inner N w a = 0 -> same N (wv (place t w)) w.
Proof. intros P i L. unfold wv. rewrite tau_place by exact P. unfold place. ring. Qed.
Lemma rho_place t w : inner N w a = 0 -> rho (place t w) = length N w.
Proof. intros P. apply length_ext. now apply wv_place. Qed.
Lemma perp_scale k w : inner N w a = 0 -> inner N (fun i => k * w i) a = 0.
Proof. intros P. rewrite inner_mul_l, P. ring. Qed.
Lemma dist_place t t' w w' : inner N w a = 0 -> inner N w' a = 0 ->
  distance N (place t w) (place t' w') * distance N (place t w) (place t' w') = (t - t') * (t - t') * A + inner N (fun i => w i - w' i) (fun i => w i - w' i).
Proof.
  intros P P'. rewrite distance_sq. unfold place, along, A.
  transitivity ((t - t') * (t - t') * inner N a a + 2 * (t - t') * (inner N w a - inner N w' a) + inner N (fun i => w i - w' i) (fun i => w i - w' i)); [vlin N|].
  rewrite P, P'. ring.
Qed.
Lemma dist_coords p q : distance N p q * distance N p q = (tau p - tau q) * (tau p - tau q) * A + inner N (fun i => wv p i - wv q i) (fun i => wv p i - wv q i).
Proof.
  rewrite (distance_ext N p _ q _ (place_self p) (place_self q)). apply dist_place; apply wv_perp.
Qed.
Lemma dist_lower p q : (tau p - tau q) * (tau p - tau q) * A + (rho p - rho q) * (rho p - rho q) <= distance N p q * distance N p q.
Proof.
  rewrite dist_coords. apply Rplus_le_compat_l. rewrite <- length_sq. fold (distance N (wv p) (wv q)).
  set (D := distance N (wv p) (wv q)).
  assert (Rabs (rho p - rho q) <= D) as H.
  { unfold rho, D. pose proof (reverse_triangle N (wv p) (wv q) (fun _ => 0)) as H. unfold distance in H at 1 2.
    rewrite (length_ext N (fun i => wv p i - 0) (wv p)), (length_ext N (fun i => wv q i - 0) (wv q)) in H by (intros i L; ring). exact H. }
  revert H. unfold Rabs. destruct (Rcase_abs _); intros; nra.
Qed.
(** Moving along the axis and along the radius. *)
Lemma dist_move p u t' k : length N u = 1 -> inner N u a = 0 -> same N (wv p) (fun i => rho p * u i) ->
  distance N p (place t' (fun i => k * u i)) * distance N p (place t' (fun i => k * u i)) = (tau p - t') * (tau p - t') * A + (rho p - k) * (rho p - k).
Proof.
  intros U P S. rewrite (distance_ext N p _ _ _ (place_self p) (same_refl _ _)), dist_place; [|apply wv_perp|now apply perp_scale].
  f_equal. rewrite (inner_ext N _ (fun i => (rho p - k) * u i) _ (fun i => (rho p - k) * u i)) by (intros i L; rewrite S by exact L; ring).
  rewrite inner_mul_l, inner_sym, inner_mul_l, <- length_sq, U. ring.
Qed.
(** What the code computes. *)
Lemma code_s p : VecNModel.div_opt (dot N (vec_sub p1 p0) (vec_sub p p0)) (VecNModel.mag2 N (vec_sub p1 p0)) = Some (tau p).
Proof.
  rewrite dot_is, mag2_is. unfold VecNModel.div_opt. change (inner N (vec_sub p1 p0) (vec_sub p1 p0)) with A. destruct (Req_EM_T A 0); [lra|].
  f_equal. unfold tau. f_equal. apply inner_sym.
Qed.
Lemma code_a2 : VecNModel.mag2 N (vec_sub p1 p0) = A.
Proof. apply mag2_is. Qed.
Lemma code_d p : dot N (vec_sub p1 p0) (vec_sub p p0) = tau p * A.
Proof. rewrite dot_is, tau_A. apply inner_sym. Qed.
Lemma code_rho2 p : VecNModel.mag2 N (vec_sub p p0) - tau p * A * tau p = rho p * rho p.
Proof.
  rewrite mag2_is, rho_sq. unfold vec_sub, wv, along. set (t := tau p). transitivity (inner N (fun i => p i - p0 i) (fun i => p i - p0 i) - 2 * t * inner N (fun i => p i - p0 i) a + t * t * inner N a a).
  - rewrite <- tau_A. fold A t. ring.
  - generalize t as t'. intros t'. vlin N.
Qed.
Lemma code_rho p : sqrt (VecNModel.mag2 N (vec_sub p p0) - tau p * A * tau p) = rho p.
Proof. rewrite code_rho2. apply sqrt_square, rho_nonneg. Qed.

Lemma contains_cyl p : 0 <= r -> exists b, cylinder_contains N c p = Some b /\ (b = true <-> cylinder N p0 p1 r p /\ tau p < 1).
Proof.
  intros RP. unfold cylinder_contains. cbn [y_p0 y_p1 y_r]. rewrite code_a2, code_d. unfold VecNModel.div_opt. destruct (Req_EM_T A 0); [lra|].
  replace (tau p * A * (tau p * A) / A) with (tau p * A * tau p) by (field; lra). eexists. split; [reflexivity|].
  rewrite !andb_true_iff, !Rleb_iff, Rltb_iff, code_rho2, in_iff. pose proof (rho_nonneg p) as P. rewrite <- (le_sq (rho p) r P RP).
  assert (tau p * A * tau p < A /\ 0 <= tau p * A <-> 0 <= tau p < 1) as ->; [|split; intros H; repeat split; try tauto; lra].
  generalize (tau p) as t. intros t. split; intros [H1 H2].
  - assert (0 <= t) by (apply (Rmult_le_reg_r A); lra). split; [assumption|]. assert (t * t < 1) by (apply (Rmult_lt_reg_r A); lra). nra.
  - split; [|apply Rmult_le_pos; lra]. assert (t * t < 1) by nra. assert (t * t * A < 1 * A) by (now apply Rmult_lt_compat_r). lra.
Qed.

(** ** sdf *)
Lemma clamp01 t : let t' := VecNModel.std_max (VecNModel.std_min t 1) 0 in 0 <= t' <= 1 /\
  Rabs (t - t') = VecNModel.std_max (VecNModel.std_max (- t) (t - 1)) 0 /\ forall x, 0 <= x <= 1 -> (t - t') * (t - t') <= (t - x) * (t - x).
Proof.
  cbv zeta. set (t' := VecNModel.std_max (VecNModel.std_min t 1) 0).
  assert ((t < 0 /\ t' = 0) \/ (0 <= t <= 1 /\ t' = t) \/ (1 < t /\ t' = 1)) as C.
  { unfold t', VecNModel.std_min, VecNModel.std_max. destruct (Rlt_dec 1 t); [destruct (Rlt_dec 1 0)|destruct (Rlt_dec t 0)]; lra. }
  clearbody t'. split; [lra|]. split.
  - unfold VecNModel.std_max. destruct (Rlt_dec (- t) (t - 1)).
    + destruct (Rlt_dec (t - 1) 0); unfold Rabs; destruct (Rcase_abs _); lra.
    + destruct (Rlt_dec (- t) 0); unfold Rabs; destruct (Rcase_abs _); lra.
  - intros x [X X']. destruct C as [[C ->]|[[_ ->]|[C ->]]].
    + assert (0 <= - t * x) by (apply Rmult_le_pos; lra). nra.
    + pose proof (Rle_0_sqr (t - x)). unfold Rsqr in *. lra.
    + assert (0 <= (t - 1) * (1 - x)) by (apply Rmult_le_pos; lra). nra.
Qed.
Lemma min_r p : 0 <= r -> let k := VecNModel.std_min (rho p) r in 0 <= k <= r /\
  rho p - k = VecNModel.std_max (rho p - r) 0 /\ forall x, 0 <= x <= r -> (rho p - k) * (rho p - k) <= (rho p - x) * (rho p - x).
Proof.
  intros RP. cbv zeta. pose proof (rho_nonneg p). unfold VecNModel.std_max, VecNModel.std_min. destruct (Rlt_dec r (rho p)).
  - destruct (Rlt_dec (rho p - r) 0); [lra|]. repeat split; try lra. intros x [? ?]. apply sq_beyond; lra.
  - destruct (Rlt_dec (rho p - r) 0); repeat split; try lra; intros x [? ?]; apply sq_self.
Qed.
(** A unit vector along the radius, or anything if the point is on the axis. *)
Lemma wv_scale p k : 0 <= k <= rho p -> exists w, inner N w a = 0 /\ length N w = k /\ inner N (fun i => wv p i - w i) (fun i => wv p i - w i) = (rho p - k) * (rho p - k).
Proof.
  intros K. destruct (Req_EM_T (rho p) 0) as [Z|Z].
  - exists (wv p). split; [apply wv_perp|]. split; [unfold rho in *; lra|]. replace k with (rho p) by lra.
    transitivity (inner N (wv p) (wv p) - 2 * inner N (wv p) (wv p) + inner N (wv p) (wv p)); [apply sq_sub|ring].
  - exists (fun i => k / rho p * wv p i). split; [apply perp_scale, wv_perp|]. split.
    + rewrite length_scale. fold (rho p). rewrite Rabs_pos_eq; [field; exact Z|]. apply Rmult_le_pos; [lra|]. left. apply Rinv_0_lt_compat. lra.
    + transitivity ((1 - k / rho p) * (1 - k / rho p) * inner N (wv p) (wv p)).
      * generalize (k / rho p) as x. intros x. vlin N.
      * rewrite <- rho_sq. field. exact Z.
Qed.
Lemma sdf_cyl p : 0 <= r -> exists v q, cylinder_sdf N c p = Some v /\ is_nearest N (cylinder N p0 p1 r) p q /\ v = distance N p q.
Proof.
  intros RP. unfold cylinder_sdf. cbn [y_p0 y_p1 y_r]. rewrite code_s, code_a2, code_d, code_rho. cbv zeta.
  destruct (clamp01 (tau p)) as (T1 & T2 & T3). destruct (min_r p RP) as (K1 & K2 & K3).
  set (t' := VecNModel.std_max (VecNModel.std_min (tau p) 1) 0) in *. set (k := VecNModel.std_min (rho p) r) in *.
  assert (k <= rho p) as KR by (unfold k; apply std_min_le).
  destruct (wv_scale p k) as (w & W1 & W2 & W3); [lra|]. set (q := place t' w).
  assert (distance N p q * distance N p q = (tau p - t') * (tau p - t') * A + (rho p - k) * (rho p - k)) as D.
  { unfold q. rewrite (distance_ext N p _ _ _ (place_self p) (same_refl _ _)), dist_place by (apply wv_perp || exact W1). now rewrite W3. }
  exists (distance N p q), q. split; [|split; [|reflexivity]].
  - f_equal. rewrite <- K2, <- T2.
    assert (forall x, Rabs x * Rabs x = x * x) as AB by (intros; unfold Rabs; destruct (Rcase_abs _); ring). rewrite AB.
    replace ((rho p - k) * (rho p - k) + (tau p - t') * (tau p - t') * A) with (distance N p q * distance N p q) by (rewrite D; ring).
    rewrite sqrt_square by apply distance_nonneg. destruct (_ && _)%bool eqn:E; [|ring]. apply andb_true_iff in E as [E1 E2]. apply Rltb_iff in E1, E2.
    assert (distance N p q = 0) as ->; [|ring].
    assert (tau p - t' = 0) as Z1. { unfold VecNModel.std_max in T2 at 1. destruct (Rlt_dec _ 0) in T2; [|lra]. revert T2. unfold Rabs. destruct (Rcase_abs _); lra. }
    assert (rho p - k = 0) as Z2. { unfold VecNModel.std_max in K2. destruct (Rlt_dec _ 0) in K2; lra. }
    rewrite Z1, Z2 in D. pose proof (distance_nonneg N p q). nra.
  - split.
    + apply in_iff. unfold q. rewrite tau_place, rho_place by exact W1. rewrite W2. lra.
    + intros x X. apply in_iff in X as [X1 X2]. apply le_sq; try apply distance_nonneg. pose proof (dist_lower p x). rewrite D. specialize (T3 _ X1).
      pose proof (rho_nonneg x). specialize (K3 (rho x) ltac:(lra)). nra.
Qed.

(** ** project *)
Definition rhat (p : vec) : vec := fun i => wv p i / rho p.
Lemma code_r p : rho p <> 0 -> exists v, vec_div (vec_sub (vec_sub p p0) (vec_scale (vec_sub p1 p0) (tau p))) (rho p) = Some v /\ (forall i, v i = rhat p i).
Proof.
  intros Z. unfold vec_div. destruct (Req_EM_T (rho p) 0); [contradiction|]. eexists. split; [reflexivity|]. intros i. unfold rhat, wv, along, vec_sub, vec_scale. f_equal. ring.
Qed.
Lemma rhat_unit p : rho p <> 0 -> length N (rhat p) = 1 /\ inner N (rhat p) a = 0 /\ same N (wv p) (fun i => rho p * rhat p i).
Proof.
  intros Z. pose proof (rho_nonneg p).
  assert (same N (rhat p) (fun i => / rho p * wv p i)) as S by (intros i L; unfold rhat; field; exact Z). split; [|split].
  - rewrite (length_ext N _ _ S), length_scale. fold (rho p). rewrite Rabs_inv, Rabs_pos_eq by assumption. now field.
  - rewrite (inner_ext N _ _ _ _ S (same_refl _ _)). apply perp_scale, wv_perp.
  - intros i L. unfold rhat. now field.
Qed.
(** The chosen coordinates of the projection. *)
Definition target (s d : R) : R * R :=
  if Rltb' s 0 || Rltb' 1 s then (if Rltb' s 0 then 0 else 1, VecNModel.std_min d r)
  else if Rltb' d r && Rltb' (sqrt A * VecNModel.std_min s (1 - s)) (r - d) then (if Rltb' s (1/2) then 0 else 1, d)
  else (s, r).
Lemma sq_mono x y : 0 <= x <= y -> x * x <= y * y.
Proof. intros. nra. Qed.
Lemma target_ok s d : 0 <= r -> 0 <= d -> let (s', d') := target s d in
  (0 <= s' <= 1 /\ 0 <= d' <= r /\ (s' = 0 \/ s' = 1 \/ d' = r)) /\
  forall t k, 0 <= t <= 1 -> 0 <= k <= r -> t = 0 \/ t = 1 \/ k = r -> (s - s') * (s - s') * A + (d - d') * (d - d') <= (s - t) * (s - t) * A + (d - k) * (d - k).
Proof.
  intros RP DP. unfold target. destruct (Rltb' s 0) eqn:E0; [|destruct (Rltb' 1 s) eqn:E1]; cbn [orb];
    [apply Rltb_iff in E0| apply Rltb_not in E0; apply Rltb_iff in E1|apply Rltb_not in E0; apply Rltb_not in E1].
  - unfold VecNModel.std_min. destruct (Rlt_dec r d).
    + split; [lra|]. intros t k T K _. apply Rplus_le_compat; [apply Rmult_le_compat_r; [lra|apply sq_before; lra]|apply sq_beyond; lra].
    + split; [lra|]. intros t k T K _. apply Rplus_le_compat; [apply Rmult_le_compat_r; [lra|apply sq_before; lra]|apply sq_self].
  - unfold VecNModel.std_min. destruct (Rlt_dec r d).
    + split; [lra|]. intros t k T K _. apply Rplus_le_compat; [apply Rmult_le_compat_r; [lra|apply sq_beyond; lra]|apply sq_beyond; lra].
    + split; [lra|]. intros t k T K _. apply Rplus_le_compat; [apply Rmult_le_compat_r; [lra|apply sq_beyond; lra]|apply sq_self].
  - assert (0 <= sqrt A) as SP by apply sqrt_pos. assert (sqrt A * sqrt A = A) as SA by (apply sqrt_sqrt; lra).
    set (m := VecNModel.std_min s (1 - s)). assert (0 <= m /\ m <= s /\ m <= 1 - s) as (M0 & M1 & M2) by (unfold m, VecNModel.std_min; destruct (Rlt_dec _ _); lra).
    assert (forall t, t = 0 \/ t = 1 -> m * m * A <= (s - t) * (s - t) * A) as MT.
    { intros t T. assert (m * m <= (s - t) * (s - t)) by (destruct T as [-> | ->]; nra). nra. }
    destruct (Rltb' d r) eqn:E2; cbn [andb]; [apply Rltb_iff in E2|apply Rltb_not in E2].
    + destruct (Rltb' (sqrt A * m) (r - d)) eqn:E3; [apply Rltb_iff in E3|apply Rltb_not in E3].
      * assert ((sqrt A * m) * (sqrt A * m) <= (r - d) * (r - d)) as Q by (apply sq_mono; split; [now apply Rmult_le_pos|lra]).
        assert (forall s', (s' = 0 /\ s < 1/2) \/ (s' = 1 /\ 1/2 <= s) -> (s - s') * (s - s') = m * m) as SM.
        { unfold m, VecNModel.std_min. intros s' [[-> H]|[-> H]]; destruct (Rlt_dec _ _); try nra. }
        set (s' := if Rltb' s (1/2) then 0 else 1). assert ((s' = 0 /\ s < 1/2) \/ (s' = 1 /\ 1/2 <= s)) as S'.
        { unfold s'. destruct (Rltb' s (1/2)) eqn:E4; [apply Rltb_iff in E4|apply Rltb_not in E4]; tauto. }
        split; [destruct S' as [[-> _]|[-> _]]; lra|]. intros t k T K H. rewrite (SM s' S').
        assert (0 <= (d - k) * (d - k)) by apply Rle_0_sqr. assert (0 <= (s - t) * (s - t) * A) by (apply Rmult_le_pos; [apply Rle_0_sqr|lra]).
        destruct H as [H|[H|H]]; [specialize (MT t (or_introl H)); nra|specialize (MT t (or_intror H)); nra|subst k].
        replace (m * m * A) with (sqrt A * m * (sqrt A * m)) by (rewrite <- SA at 3; ring). nra.
      * split; [lra|]. intros t k T K H. assert (0 <= (d - k) * (d - k)) by apply Rle_0_sqr. assert (0 <= (s - t) * (s - t) * A) by (apply Rmult_le_pos; [apply Rle_0_sqr|lra]).
        assert ((r - d) * (r - d) <= (sqrt A * m) * (sqrt A * m)) as Q by (apply sq_mono; lra).
        replace (sqrt A * m * (sqrt A * m)) with (m * m * A) in Q by (rewrite <- SA at 1; ring).
        destruct H as [H|[H|H]]; [specialize (MT t (or_introl H)); nra|specialize (MT t (or_intror H)); nra|subst k]. nra.
    + split; [lra|]. intros t k T K H. assert ((d - r) * (d - r) <= (d - k) * (d - k)) by nra. assert (0 <= (s - t) * (s - t) * A) by (apply Rmult_le_pos; [apply Rle_0_sqr|lra]). nra.
Qed.
Definition landing (p : vec) : vec := place (fst (target (tau p) (rho p))) (fun i => snd (target (tau p) (rho p)) * rhat p i).
Lemma project_is p : rho p <> 0 -> exists q, cylinder_project N c p = Some q /\ same N q (landing p).
Proof.
  intros Z. unfold cylinder_project. cbn [y_p0 y_p1 y_r]. rewrite code_s, code_a2, code_d, code_rho. cbv zeta.
  destruct (code_r p Z) as (v & -> & V). unfold landing. fold (target (tau p) (rho p)). destruct (target (tau p) (rho p)) as [s' d']. eexists. split; [reflexivity|].
  intros i L. cbn. unfold place, along, vec_add, vec_scale, vec_sub. rewrite V. ring.
Qed.
Lemma nearest_ext X p q q' : respects N X -> same N q q' -> is_nearest N X p q -> is_nearest N X p q'.
Proof. intros RX S [B D]. split; [exact (RX q q' S B)|]. intros x H. rewrite <- (distance_ext N p p q q' (same_refl _ _) S). now apply D. Qed.
Lemma surface_respects : respects N (cylinder_surface N p0 p1 r).
Proof. intros p q S. rewrite !surface_iff, (tau_ext p q S), (rho_ext p q S). tauto. Qed.
Lemma landing_coords p : 0 <= r -> rho p <> 0 -> tau (landing p) = fst (target (tau p) (rho p)) /\ rho (landing p) = snd (target (tau p) (rho p)) /\
  distance N p (landing p) * distance N p (landing p) = (tau p - tau (landing p)) * (tau p - tau (landing p)) * A + (rho p - rho (landing p)) * (rho p - rho (landing p)).
Proof.
  intros RP Z. destruct (rhat_unit p Z) as (U & P & S). unfold landing. pose proof (target_ok (tau p) (rho p) RP (rho_nonneg p)) as T.
  destruct (target (tau p) (rho p)) as [s' d']. cbn [fst snd]. destruct T as [(T1 & T2 & _) _].
  rewrite tau_place, rho_place by (now apply perp_scale). rewrite length_scale, U, Rmult_1_r, Rabs_pos_eq by lra.
  split; [reflexivity|]. split; [reflexivity|]. now apply dist_move.
Qed.
Lemma landing_nearest p : 0 <= r -> rho p <> 0 -> is_nearest N (cylinder_surface N p0 p1 r) p (landing p).
Proof.
  intros RP Z. destruct (landing_coords p RP Z) as (A1 & A2 & D). pose proof (target_ok (tau p) (rho p) RP (rho_nonneg p)) as T.
  destruct (target (tau p) (rho p)) as [s' d']. cbn [fst snd] in *. destruct T as [(T1 & T2 & T3) T4]. split.
  - apply surface_iff. rewrite A1, A2. tauto.
  - intros x X. apply surface_iff in X as (X1 & X2 & X3). apply le_sq; try apply distance_nonneg. rewrite D, A1, A2.
    eapply Rle_trans; [|apply dist_lower]. pose proof (rho_nonneg x). apply T4; tauto || lra.
Qed.
Lemma project_cyl p : 0 <= r -> rho p <> 0 -> exists q, cylinder_project N c p = Some q /\ is_nearest N (cylinder_surface N p0 p1 r) p q.
Proof.
  intros RP Z. destruct (project_is p Z) as (q & E & S). exists q. split; [exact E|]. apply (nearest_ext _ p (landing p) q surface_respects (same_sym _ _ _ S)).
  now apply landing_nearest.
Qed.
Lemma project_axis p : rho p = 0 -> cylinder_project N c p = None /\ cylinder_normal N c p = None.
Proof.
  intros Z. unfold cylinder_project, cylinder_normal. cbn [y_p0 y_p1 y_r]. rewrite code_s, code_a2, code_d, code_rho, Z. cbv zeta. unfold vec_div.
  destruct (Req_EM_T 0 0); [split; reflexivity|lra].
Qed.

(** ** normal *)
Lemma inner_coords x d : inner N x d = inner N p0 d + tau x * inner N a d + inner N (wv x) d.
Proof. unfold wv, along. generalize (tau x) as t. intros t. vlin N. Qed.
Lemma rhat_rho p x : rho p <> 0 -> inner N (wv x) (rhat p) <= rho x.
Proof.
  intros Z. destruct (rhat_unit p Z) as (U & _). pose proof (cauchy N (wv x) (rhat p)) as C. rewrite U, Rmult_1_r in C. fold (rho x) in C.
  pose proof (Rle_abs (inner N (wv x) (rhat p))). lra.
Qed.
(** The direction before normalization: the vector [al * a + be * rhat p]. *)
Definition dirv (p : vec) (al be : R) : vec := fun i => al * a i + be * rhat p i.
Lemma dir_inner p al be x q : rho p <> 0 -> inner N (fun i => x i - q i) (dirv p al be) = al * (tau x - tau q) * A + be * (inner N (wv x) (rhat p) - inner N (wv q) (rhat p)).
Proof.
  intros Z. destruct (rhat_unit p Z) as (U & P & _). unfold dirv.
  transitivity (al * (inner N x a - inner N q a) + be * (inner N x (rhat p) - inner N q (rhat p))); [vlin N|].
  rewrite !(inner_coords x), !(inner_coords q), !wv_perp, (inner_sym N a (rhat p)), P. fold A. ring.
Qed.
Lemma dir_sq p al be : rho p <> 0 -> inner N (dirv p al be) (dirv p al be) = al * al * A + be * be.
Proof.
  intros Z. destruct (rhat_unit p Z) as (U & P & _). unfold dirv.
  transitivity (al * al * inner N a a + 2 * al * be * inner N (rhat p) a + be * be * inner N (rhat p) (rhat p)); [vlin N|].
  rewrite P, <- (length_sq N (rhat p)), U. fold A. ring.
Qed.
Definition good_normal (p q n : vec) : Prop := length N n = 1 /\ (exists v, same N p (fun i => q i + v * n i)) /\ forall x, cylinder N p0 p1 r x -> inner N (fun i => x i - q i) n <= 0.
Lemma landing_wv p : rho p <> 0 -> inner N (wv (landing p)) (rhat p) = snd (target (tau p) (rho p)).
Proof.
  intros Z. destruct (rhat_unit p Z) as (U & P & _). unfold landing. set (t := target _ _).
  rewrite (inner_ext N _ _ _ _ (wv_place (fst t) _ (perp_scale (snd t) _ P)) (same_refl _ _)), inner_mul_l, <- length_sq, U. ring.
Qed.
(** A direction with non-negative coefficients where the landing point is extreme is an outward normal there. *)
Lemma dir_good p n v al be nd : 0 <= r -> rho p <> 0 -> same N nd (dirv p al be) -> unit_vec N nd = Some n ->
  (tau p - tau (landing p) = v * al) -> rho p - rho (landing p) = v * be ->
  (al = 0 \/ (al < 0 /\ tau (landing p) = 0) \/ (0 < al /\ tau (landing p) = 1)) -> (be = 0 \/ (0 < be /\ rho (landing p) = r)) ->
  good_normal p (landing p) n.
Proof.
  intros RP Z SD E V1 V2 CA CB. destruct (unit_length N nd n E) as [U S]. set (l := length N nd) in *.
  assert (0 < l) as LP. { pose proof (length_nonneg N nd). fold l in H. apply unit_some in E as [E _]. fold l in E. lra. }
  destruct (landing_coords p RP Z) as (LC1 & LC2 & _). split; [exact U|]. split.
  - exists (v * l). intros i L. destruct (rhat_unit p Z) as (_ & _ & W). transitivity (landing p i + v * nd i); [|rewrite (S i L); ring].
    rewrite (SD i L). unfold dirv. rewrite (place_self p i L). unfold landing, place. rewrite (W i L), <- LC1, <- LC2. unfold along.
    replace (v * (al * (p1 i - p0 i) + be * rhat p i)) with ((v * al) * (p1 i - p0 i) + (v * be) * rhat p i) by ring. rewrite <- V1, <- V2. ring.
  - intros x X. apply in_iff in X as [X1 X2]. apply (Rmult_le_reg_l l); [exact LP|]. rewrite Rmult_0_r.
    replace (l * inner N (fun i => x i - landing p i) n) with (inner N (fun i => x i - landing p i) (fun i => l * n i)) by (rewrite inner_sym, inner_mul_l, inner_sym; reflexivity).
    rewrite <- (inner_ext N (fun i => x i - landing p i) _ nd _ (same_refl _ _) S), (inner_ext N (fun i => x i - landing p i) _ nd _ (same_refl _ _) SD), (dir_inner p al be x (landing p) Z).
    rewrite landing_wv by exact Z. rewrite <- LC2.
    assert (al * (tau x - tau (landing p)) <= 0) as P1.
    { destruct CA as [->|[[CA ->]|[CA ->]]]; [lra| |]; [assert (0 <= - al * tau x) by (apply Rmult_le_pos; lra)|assert (0 <= al * (1 - tau x)) by (apply Rmult_le_pos; lra)]; lra. }
    assert (al * (tau x - tau (landing p)) * A <= 0) as P2 by (assert (0 <= - (al * (tau x - tau (landing p))) * A) by (apply Rmult_le_pos; lra); lra).
    assert (be * (inner N (wv x) (rhat p) - rho (landing p)) <= 0) as P3.
    { destruct CB as [->|[CB ->]]; [lra|]. pose proof (rhat_rho p x Z). assert (0 <= be * (r - inner N (wv x) (rhat p))) by (apply Rmult_le_pos; lra). lra. }
    lra.
Qed.
Lemma dir_defined p al be nd : rho p <> 0 -> same N nd (dirv p al be) -> al <> 0 \/ be <> 0 -> exists n, unit_vec N nd = Some n.
Proof.
  intros Z SD H. destruct (unit_vec N nd) eqn:E; [eauto|]. exfalso. apply unit_none in E. assert (inner N (dirv p al be) (dirv p al be) = 0) as I.
  { apply inner_zero. intros i L. rewrite <- SD by exact L. now apply E. }
  rewrite dir_sq in I by exact Z. assert (0 <= al * al * A) by (apply Rmult_le_pos; [apply Rle_0_sqr|lra]). assert (0 <= be * be) by apply Rle_0_sqr.
  destruct H as [H|H]; [|apply H; nra]. apply H. assert (al * al * A = 0) as Q by lra. apply Rmult_integral in Q as [Q|Q]; [|lra]. nra.
Qed.
Lemma normal_cyl p : 0 <= r -> rho p <> 0 -> ~ (1 < tau p /\ r < rho p) -> exists q n, cylinder_project N c p = Some q /\ cylinder_normal N c p = Some n /\ good_normal p q n.
Proof.
  intros RP Z NB. destruct (project_is p Z) as (q & E & S).
  enough (exists n, cylinder_normal N c p = Some n /\ good_normal p (landing p) n) as (n & E' & U & (v & V) & H).
  { exists q, n. split; [exact E|]. split; [exact E'|]. split; [exact U|]. split.
    - exists v. intros i L. rewrite (S i L). now apply V.
    - intros x X. rewrite (inner_ext N _ (fun i => x i - landing p i) _ n) by (easy || (intros i L; rewrite (S i L); ring)). now apply H. }
  destruct (landing_coords p RP Z) as (LC1 & LC2 & _). pose proof (rho_nonneg p) as RN.
  unfold cylinder_normal. cbn [y_p0 y_p1 y_r]. rewrite code_s, code_a2, code_d, code_rho. cbv zeta. destruct (code_r p Z) as (w & -> & W).
  assert (forall al be nd v, same N nd (dirv p al be) -> al <> 0 \/ be <> 0 -> tau p - tau (landing p) = v * al -> rho p - rho (landing p) = v * be ->
    (al = 0 \/ (al < 0 /\ tau (landing p) = 0) \/ (0 < al /\ tau (landing p) = 1)) -> (be = 0 \/ (0 < be /\ rho (landing p) = r)) ->
    exists n, unit_vec N nd = Some n /\ good_normal p (landing p) n) as G.
  { intros al be nd v SD NZ V1 V2 CA CB. destruct (dir_defined p al be nd Z SD NZ) as (n & En). exists n. split; [exact En|]. exact (dir_good p n v al be nd RP Z SD En V1 V2 CA CB). }
  assert (same N (vec_neg (vec_sub p1 p0)) (dirv p (-1) 0)) as SN by (intros i L; unfold dirv, vec_neg, vec_sub; ring).
  assert (same N (vec_sub p1 p0) (dirv p 1 0)) as SP by (intros i L; unfold dirv, vec_sub; ring).
  revert LC1 LC2. unfold target. destruct (Rltb' (tau p) 0) eqn:E0; [|destruct (Rltb' 1 (tau p)) eqn:E1]; cbn [orb fst snd];
    [apply Rltb_iff in E0| apply Rltb_not in E0; apply Rltb_iff in E1|apply Rltb_not in E0; apply Rltb_not in E1].
  - destruct (Rltb' r (rho p)) eqn:E2; [apply Rltb_iff in E2|apply Rltb_not in E2]; unfold VecNModel.std_min; (destruct (Rlt_dec r (rho p)); [|]); try lra; intros LC1 LC2.
    + apply (G (tau p) (rho p - r) _ 1); try lra. intros i L. unfold dirv, vec_sub, vec_add, vec_scale. rewrite W.
      rewrite (place_self p i L). unfold place, along. destruct (rhat_unit p Z) as (_ & _ & W'). rewrite (W' i L). ring.
    + apply (G (-1) 0 _ (- tau p)); try lra. exact SN.
  - destruct (Rltb' r (rho p)) eqn:E2; [apply Rltb_iff in E2; tauto|apply Rltb_not in E2]. unfold VecNModel.std_min. destruct (Rlt_dec r (rho p)); [lra|]. intros LC1 LC2.
    apply (G 1 0 _ (tau p - 1)); try lra. exact SP.
  - destruct (_ && _)%bool; cbn [fst snd].
    + destruct (Rltb' (tau p) (1/2)); intros LC1 LC2; [apply (G (-1) 0 _ (- tau p))|apply (G 1 0 _ (tau p - 1))]; try lra; assumption.
    + intros LC1 LC2. apply (G 0 1 _ (rho p - r)); try lra. intros i L. rewrite W. unfold dirv. ring.
Qed.
(** Beyond the end p1 and outside the radius, the vector returned does not point from the nearest surface point to the given point. *)
Lemma normal_wrong p : 0 <= r -> 1 < tau p -> r < rho p -> exists q n, cylinder_project N c p = Some q /\ cylinder_normal N c p = Some n /\ length N n = 1 /\
  ~ exists v, same N p (fun i => q i + v * n i).
Proof.
  intros RP T D. assert (rho p <> 0) as Z by lra. destruct (project_is p Z) as (q & E & S). exists q.
  unfold cylinder_normal. cbn [y_p0 y_p1 y_r]. rewrite code_s, code_a2, code_d, code_rho. cbv zeta. destruct (code_r p Z) as (w & -> & W).
  assert (Rltb' (tau p) 0 = false) as -> by (apply Rltb_not; lra). assert (Rltb' 1 (tau p) = true) as -> by (now apply Rltb_iff). assert (Rltb' r (rho p) = true) as -> by (now apply Rltb_iff). cbn [orb].
  match goal with |- context [unit_vec N ?x] => set (nd := x) end. assert (same N nd (dirv p (tau p) (rho p - r))) as SD.
  { intros i L. unfold nd, dirv, vec_sub, vec_add, vec_scale. rewrite W. rewrite (place_self p i L). unfold place, along. destruct (rhat_unit p Z) as (_ & _ & W'). rewrite (W' i L). ring. }
  destruct (dir_defined p (tau p) (rho p - r) nd Z SD) as (n & En); [lra|]. exists n. split; [exact E|]. split; [exact En|]. destruct (unit_length N nd n En) as [U SU]. split; [exact U|].
  intros (v & V). destruct (unit_some N nd n En) as [LZ _]. set (l := length N nd) in *.
  destruct (landing_coords p RP Z) as (LC1 & LC2 & _).
  assert (target (tau p) (rho p) = (1, r)) as TT.
  { unfold target. assert (Rltb' (tau p) 0 = false) as -> by (apply Rltb_not; lra). assert (Rltb' 1 (tau p) = true) as -> by (now apply Rltb_iff). cbn [orb]. f_equal. unfold VecNModel.std_min. destruct (Rlt_dec _ _); lra. }
  rewrite TT in LC1, LC2. cbn [fst snd] in LC1, LC2.
  assert (same N (fun i => l * (p i - landing p i)) (fun i => v * dirv p (tau p) (rho p - r) i)) as P.
  { intros i L. rewrite <- (SD i L), <- (S i L). rewrite (SU i L). rewrite (V i L) at 1. ring. }
  assert (forall u, l * inner N (fun i => p i - landing p i) u = v * inner N (dirv p (tau p) (rho p - r)) u) as Q.
  { intros u. rewrite <- !inner_mul_l. now apply inner_ext. }
  destruct (rhat_unit p Z) as (UU & PP & WW).
  assert (inner N (dirv p (tau p) (rho p - r)) a = tau p * A) as Da.
  { unfold dirv. transitivity (tau p * inner N a a + (rho p - r) * inner N (rhat p) a); [generalize (tau p) (rho p - r); intros; vlin N|]. rewrite PP. fold A. ring. }
  assert (inner N (dirv p (tau p) (rho p - r)) (rhat p) = rho p - r) as Dr.
  { unfold dirv. transitivity (tau p * inner N (rhat p) a + (rho p - r) * inner N (rhat p) (rhat p)); [generalize (tau p) (rho p - r); intros; vlin N|]. rewrite PP, <- length_sq, UU. ring. }
  pose proof (Q a) as Qa. pose proof (Q (rhat p)) as Qr. rewrite Da in Qa. rewrite Dr in Qr.
  assert (inner N (fun i => p i - landing p i) a = (tau p - 1) * A) as La.
  { rewrite <- LC1. transitivity (inner N p a - inner N (landing p) a); [vlin N|]. rewrite (inner_coords p), (inner_coords (landing p)), !wv_perp. fold A. ring. }
  assert (inner N (fun i => p i - landing p i) (rhat p) = rho p - r) as Lr.
  { transitivity (inner N p (rhat p) - inner N (landing p) (rhat p)); [vlin N|]. rewrite (inner_coords p), (inner_coords (landing p)), (inner_sym N a (rhat p)), PP.
    rewrite landing_wv by exact Z. rewrite TT. cbn [snd]. rewrite (inner_ext N _ _ _ _ WW (same_refl _ _)), inner_mul_l, <- length_sq, UU. ring. }
  rewrite La in Qa. rewrite Lr in Qr. apply Rmult_eq_reg_r in Qr; [|lra]. subst v. fold l in LZ.
  apply LZ. assert (l * A = 0) as H by lra. apply Rmult_integral in H as [H|H]; [exact H|lra].
Qed.

(** ** Extent in a direction *)
Definition perp (d : vec) : vec := fun i => d i - inner N d a / A * a i.
Lemma perp_perp d : inner N (perp d) a = 0.
Proof.
  unfold perp. set (k := inner N d a / A). transitivity (inner N d a - k * inner N a a); [generalize k as k'; intros k'; vlin N|]. fold A. unfold k. field. lra.
Qed.
Lemma perp_inner w d : inner N w a = 0 -> inner N w d = inner N w (perp d).
Proof. intros P. unfold perp. generalize (inner N d a / A) as k. intros k. transitivity (inner N w d - k * inner N w a); [rewrite P; ring|vlin N]. Qed.
Lemma perp_sq d : inner N (perp d) (perp d) = inner N d d - inner N d a * inner N d a / A.
Proof.
  unfold perp. set (k := inner N d a / A). transitivity (inner N d d - 2 * k * inner N d a + k * k * inner N a a); [generalize k as k'; intros k'; vlin N|]. fold A. unfold k. field. lra.
Qed.
Lemma extent d x : 0 <= r -> cylinder N p0 p1 r x ->
  Rmin (inner N p0 d) (inner N p1 d) - r * length N (perp d) <= inner N x d <= Rmax (inner N p0 d) (inner N p1 d) + r * length N (perp d).
Proof.
  intros RP X. apply in_iff in X as [T D]. rewrite (inner_coords x d), (perp_inner (wv x) d (wv_perp x)). pose proof (cauchy N (wv x) (perp d)) as C. fold (rho x) in C.
  assert (rho x * length N (perp d) <= r * length N (perp d)) as C' by (apply Rmult_le_compat_r; [apply length_nonneg|exact D]).
  assert (inner N a d = inner N p1 d - inner N p0 d) as -> by vlin N.
  set (w := inner N (wv x) (perp d)) in *. set (h := r * length N (perp d)) in *. assert (- h <= w <= h) as [W1 W2] by (revert C; unfold Rabs; destruct (Rcase_abs _); lra).
  assert (Rmin (inner N p0 d) (inner N p1 d) <= inner N p0 d + tau x * (inner N p1 d - inner N p0 d) <= Rmax (inner N p0 d) (inner N p1 d)) as M.
  { unfold Rmin, Rmax. destruct (Rle_dec _ _).
    - assert (0 <= tau x * (inner N p1 d - inner N p0 d)) by (apply Rmult_le_pos; lra). assert (0 <= (1 - tau x) * (inner N p1 d - inner N p0 d)) by (apply Rmult_le_pos; lra). lra.
    - assert (0 <= tau x * (inner N p0 d - inner N p1 d)) by (apply Rmult_le_pos; lra). assert (0 <= (1 - tau x) * (inner N p0 d - inner N p1 d)) by (apply Rmult_le_pos; lra). lra. }
  lra.
Qed.
Lemma corner t w : 0 <= t <= 1 -> inner N w a = 0 -> length N w <= r -> cylinder N p0 p1 r (place t w).
Proof. intros T P L. apply in_iff. rewrite tau_place, rho_place by exact P. tauto. Qed.
(** The extreme is attained on either cap. *)
Lemma attained d t k : 0 <= r -> 0 <= t <= 1 -> Rabs k = r -> exists p, cylinder N p0 p1 r p /\ inner N p d = inner N (along p0 p1 t) d + k * length N (perp d).
Proof.
  intros RP T K. destruct (unit_vec N (perp d)) as [u|] eqn:E.
  - destruct (unit_length _ _ _ E) as [U S]. assert (inner N u a = 0) as P.
    { destruct (unit_some _ _ _ E) as [Z V]. rewrite (inner_ext N u (fun i => / length N (perp d) * perp d i) a a) by (easy || (intros i L; rewrite V; unfold Rdiv; ring)). apply perp_scale, perp_perp. }
    exists (place t (fun i => k * u i)). split.
    + apply corner; [exact T|now apply perp_scale|]. rewrite length_scale, U. lra.
    + unfold place. transitivity (inner N (along p0 p1 t) d + k * inner N u d); [generalize (along p0 p1 t); intros; vlin N|].
      rewrite (perp_inner u d P), (inner_ext N u u (perp d) _ (same_refl _ _) S), (inner_sym N u), inner_mul_l, <- length_sq, U. ring.
  - apply unit_none, length_zero in E. exists (place t (fun _ => 0)). assert (inner N (fun _ => 0) a = 0) as P by vlin N. split.
    + apply corner; [exact T|exact P|]. rewrite (proj2 (length_zero N _)); [exact RP|easy].
    + rewrite E, Rmult_0_r, Rplus_0_r. apply inner_ext; [|easy]. intros i L. unfold place. ring.
Qed.
Lemma project_on_a d i : project_on N d (vec_sub p1 p0) i = inner N d a / A * a i.
Proof. rewrite project_spec; [reflexivity|]. intros H. apply inner_zero in H. change (A = 0) in H. lra. Qed.
Lemma support_cyl d q : 0 <= r -> cylinder_support N c d = Some q -> is_support N (cylinder N p0 p1 r) d q.
Proof.
  intros RP. unfold cylinder_support. cbn [y_p0 y_p1 y_r]. rewrite dot_is. destruct (unit_vec N _) as [u|] eqn:E; [|discriminate]. cbv zeta. intros [= <-].
  assert (same N (vec_sub d (project_on N d (vec_sub p1 p0))) (perp d)) as SP by (intros i L; unfold vec_sub at 1; rewrite project_on_a; reflexivity).
  destruct (unit_length _ _ _ E) as [U S]. rewrite (length_ext N _ _ SP) in S. assert (inner N u a = 0) as P.
  { destruct (unit_some _ _ _ E) as [Z V]. rewrite (inner_ext N u (fun i => / length N (perp d) * perp d i) a a).
    - apply perp_scale, perp_perp.
    - intros i L. rewrite V, (length_ext N _ _ SP), (SP i L). unfold Rdiv. ring.
    - easy. }
  assert (inner N u d = length N (perp d)) as UD.
  { rewrite (perp_inner u d P), <- (inner_ext N u u _ (perp d) (same_refl _ _) SP), (inner_ext N u u _ _ (same_refl _ _) S), (inner_sym N u), inner_mul_l, <- length_sq, U. ring. }
  set (b := Rltb' 0 (inner N d (vec_sub p1 p0))). set (t := if b then 1 else 0).
  assert (same N (vec_add (if b then p1 else p0) (vec_scale u r)) (place t (fun i => r * u i))) as SQ.
  { intros i L. unfold place, along, vec_add, vec_scale, t. destruct b; ring. }
  assert (inner N d (vec_sub p1 p0) = inner N p1 d - inner N p0 d) as DI by (unfold vec_sub; vlin N). split.
  - apply in_iff. rewrite (tau_ext _ _ SQ), (rho_ext _ _ SQ), tau_place, rho_place by (now apply perp_scale). rewrite length_scale, U, Rabs_pos_eq by exact RP. unfold t. destruct b; lra.
  - intros x X. pose proof (extent d x RP X) as [_ H]. eapply Rle_trans; [exact H|]. rewrite (inner_ext N _ _ d d SQ (same_refl _ _)). unfold place.
    assert (inner N (fun i => along p0 p1 t i + r * u i) d = inner N p0 d + t * (inner N p1 d - inner N p0 d) + r * inner N u d) as -> by (unfold along; generalize t as t'; intros t'; vlin N).
    rewrite UD. apply Rplus_le_compat_r. unfold t, b. rewrite DI. destruct (Rltb' 0 (inner N p1 d - inner N p0 d)) eqn:EB; [apply Rltb_iff in EB|apply Rltb_not in EB]; unfold Rmax; destruct (Rle_dec _ _); lra.
Qed.
Lemma support_cyl_none d : cylinder_support N c d = None <-> exists k, same N d (fun i => k * a i).
Proof.
  unfold cylinder_support. cbn [y_p0 y_p1 y_r]. assert (forall i, vec_sub d (project_on N d (vec_sub p1 p0)) i = perp d i) as SP by (intros i; unfold vec_sub at 1; rewrite project_on_a; reflexivity).
  destruct (unit_vec N _) as [u|] eqn:E; split; intros H; try easy.
  - exfalso. destruct H as [k K]. destruct (unit_some _ _ _ E) as [Z _]. apply Z, length_zero. intros i L. rewrite SP. unfold perp.
    rewrite (inner_ext N d (fun j => k * a j) a a K (same_refl _ _)), inner_mul_l, (K i L). fold A. field. lra.
  - apply unit_none in E. exists (inner N d a / A). intros i L. specialize (E i L). rewrite SP in E. unfold perp in E. lra.
Qed.
(** ** bounds *)
Lemma perp_axis i : (i < N)%nat -> sqrt (1 - a i * a i / A) = length N (perp (axis i)).
Proof.
  intros L. rewrite <- (sqrt_square (length N (perp (axis i)))) by apply length_nonneg. f_equal.
  rewrite length_sq, perp_sq, <- (length_sq N (axis i)), length_axis, (inner_sym N (axis i)), inner_axis by exact L. ring.
Qed.
Lemma bounds_cyl : 0 <= r -> exists b, cylinder_bounds N c = Some b /\ tight_box N (cylinder N p0 p1 r) b.
Proof.
  intros RP. unfold cylinder_bounds. cbn [y_p0 y_p1 y_r]. rewrite code_a2. unfold vec_div. destruct (Req_EM_T A 0); [lra|]. eexists. split; [reflexivity|].
  cbv zeta. match goal with |- tight_box _ _ ?x => set (b := x) end.
  assert (forall i, (i < N)%nat -> (lo b i : R) = Rmin (p0 i) (p1 i) - r * length N (perp (axis i)) /\ (hi b i : R) = Rmax (p0 i) (p1 i) + r * length N (perp (axis i))) as B.
  { intros i L. rewrite <- perp_axis by exact L. unfold b. cbn. unfold vmin, vmax, omin, omax, Rmin, Rmax. cbn. unfold Rltb, vec_sub, vec_add, vec_mul. split.
    - destruct (Rlt_dec _ _), (Rle_dec (p0 i) (p1 i)); lra.
    - destruct (Rlt_dec _ _), (Rle_dec (p0 i) (p1 i)); lra. }
  split.
  - intros p P i L. destruct (B i L) as [-> ->]. pose proof (extent (axis i) p RP P) as H. rewrite !inner_axis in H by exact L. exact H.
  - intros i L. destruct (B i L) as [-> ->].
    assert (forall t k, 0 <= t <= 1 -> Rabs k = r -> exists p, cylinder N p0 p1 r p /\ p i = along p0 p1 t i + k * length N (perp (axis i))) as H.
    { intros t k T K. destruct (attained (axis i) t k RP T K) as (p & P & Q). exists p. split; [exact P|]. now rewrite !inner_axis in Q by exact L. }
    assert (forall x, x = p0 i \/ x = p1 i -> forall k, Rabs k = r -> exists p, cylinder N p0 p1 r p /\ p i = x + k * length N (perp (axis i))) as G.
    { intros x [->| ->] k K; [destruct (H 0 k ltac:(lra) K) as (p & P & Q)|destruct (H 1 k ltac:(lra) K) as (p & P & Q)]; exists p; (split; [exact P|]); rewrite Q; unfold along; ring. }
    split.
    + destruct (G (Rmin (p0 i) (p1 i))) with (k := - r) as (p & P & Q); [unfold Rmin; destruct (Rle_dec _ _); tauto|rewrite Rabs_Ropp; now apply Rabs_pos_eq|]. exists p. split; [exact P|]. rewrite Q. ring.
    + destruct (G (Rmax (p0 i) (p1 i))) with (k := r) as (p & P & Q); [unfold Rmax; destruct (Rle_dec _ _); tauto|now apply Rabs_pos_eq|]. exists p. split; [exact P|exact Q].
Qed.

(** ** Rays *)
Lemma tau_ray o d s : tau (fun i => o i + s * d i) = tau o + s * inner N d a / A.
Proof.
  apply (Rmult_eq_reg_r A); [|lra]. rewrite tau_A. transitivity (inner N (fun i => o i - p0 i) a + s * inner N d a); [vlin N|]. rewrite <- tau_A. field. lra.
Qed.
Lemma rho_ray o d s : rho (fun i => o i + s * d i) * rho (fun i => o i + s * d i) =
  (inner N d d - inner N d a * inner N d a / A) * s ^ 2 + 2 * (inner N (fun i => o i - p0 i) d - tau o * A * inner N d a / A) * s + rho o * rho o.
Proof.
  rewrite <- !code_rho2, !mag2_is, tau_ray. unfold vec_sub.
  assert (inner N (fun i => o i + s * d i - p0 i) (fun i => o i + s * d i - p0 i) = inner N d d * s ^ 2 + 2 * s * inner N (fun i => o i - p0 i) d + inner N (fun i => o i - p0 i) (fun i => o i - p0 i)) as -> by vlin N.
  field. lra.
Qed.
Definition bad_ray (o d : vec) : Prop := (exists k, same N d (fun i => k * a i)) /\ rho o = r.
Lemma k0_zero d : inner N d d - inner N d a * inner N d a / A = 0 <-> exists k, same N d (fun i => k * a i).
Proof.
  rewrite <- perp_sq, inner_zero. split.
  - intros H. exists (inner N d a / A). intros i L. specialize (H i L). unfold perp in H. lra.
  - intros [k K] i L. unfold perp. rewrite (inner_ext N d (fun j => k * a j) a a K (same_refl _ _)), inner_mul_l, (K i L). fold A. field. lra.
Qed.
Lemma parallel_rho o d k s : same N d (fun i => k * a i) -> rho (fun i => o i + s * d i) = rho o.
Proof.
  intros K. apply length_ext. intros i L. unfold wv. rewrite tau_ray, (inner_ext N d (fun j => k * a j) a a K (same_refl _ _)), inner_mul_l. fold A. unfold along. rewrite (K i L). field. lra.
Qed.
Lemma caps_m o d s : inner N d a <> 0 -> (0 <= tau (fun i => o i + s * d i) <= 1 <->
  in_interval (iv_between (- (tau o * A) / inner N d a) (- (dot N (vec_sub p1 p0) (vec_sub o p1)) / inner N d a)) s).
Proof.
  intros M. rewrite dot_is, tau_ray. assert (inner N (vec_sub p1 p0) (vec_sub o p1) = tau o * A - A) as ->.
  { rewrite tau_A. unfold A, vec_sub. vlin N. }
  unfold iv_between. rewrite between_has. set (m := inner N d a) in *. set (t := tau o).
  assert (0 <= t + s * m / A <= 1 <-> 0 <= t * A + s * m <= A) as ->.
  { replace (t * A + s * m) with ((t + s * m / A) * A) by (field; lra). split; intros [H1 H2]; split.
    - apply Rmult_le_pos; lra.
    - apply Rle_trans with (1 * A); [apply Rmult_le_compat_r; lra|lra].
    - apply (Rmult_le_reg_r A); lra.
    - apply (Rmult_le_reg_r A); lra. }
  assert (- (t * A) / m * m = - (t * A)) as E1 by (field; exact M). assert (- (t * A - A) / m * m = A - t * A) as E2 by (field; exact M).
  set (x := - (t * A) / m) in *. set (y := - (t * A - A) / m) in *.
  assert (0 <= t * A + s * m <= A <-> 0 <= (s - x) * m /\ 0 <= (y - s) * m) as -> by (split; intros [? ?]; split; lra).
  assert ((y - x) * m = A) as E3 by lra.
  destruct (Rtotal_order m 0) as [H|[H|H]]; [|contradiction|].
  - assert (y < x) by nra. unfold Rmin, Rmax. destruct (Rle_dec x y); [lra|]. split; intros [Q1 Q2]; split; nra.
  - assert (x < y) by nra. unfold Rmin, Rmax. destruct (Rle_dec x y); [|lra]. split; intros [Q1 Q2]; split; nra.
Qed.
Lemma code_mm d : VecNModel.mag2 N d - dot N d (vec_sub p1 p0) * dot N d (vec_sub p1 p0) / A = inner N d d - inner N d a * inner N d a / A.
Proof. rewrite mag2_is, dot_is. reflexivity. Qed.
Lemma empty_has s : ~ in_interval iv_empty s.
Proof. unfold in_interval. cbn. easy. Qed.
Lemma all_has s : in_interval (mk_interval NInf PInf) s.
Proof. unfold in_interval. cbn. easy. Qed.
Lemma wall_part neg0 o d : 0 <= r -> ~ bad_ray o d ->
  let k0 := inner N d d - inner N d a * inner N d a / A in
  let k1 := 2 * (inner N (fun i => o i - p0 i) d - tau o * A * inner N d a / A) in
  let k2 := rho o * rho o - r * r in
  match match (if Req_EM_T k0 0 then None else quadratic_solve neg0 k0 k1 k2) with
      | Some (Some r0, Some r1) => Some (Some (iv_between r0 r1))
      | Some _ => None
      | None => if Rltb' k2 0 then Some (Some (mk_interval NInf PInf)) else Some None
      end with
  | None => False
  | Some None => forall s, r < rho (fun i => o i + s * d i)
  | Some (Some iv) => forall s, in_interval iv s <-> rho (fun i => o i + s * d i) <= r
  end.
Proof.
  intros RP NB. cbv zeta. destruct (Req_EM_T _ 0) as [Z|Z].
  - apply k0_zero in Z as [k K]. pose proof (rho_nonneg o) as P. destruct (Rltb' _ 0) eqn:E; [apply Rltb_iff in E|apply Rltb_not in E].
    + intros s. rewrite (parallel_rho o d k s K). split; [intros _|intros _; apply all_has]. apply le_sq; lra.
    + intros s. rewrite (parallel_rho o d k s K). assert (rho o <> r) by (intros Q; apply NB; split; [exists k; exact K|exact Q]). assert (r <= rho o) by (apply le_sq; lra). lra.
  - pose proof (rho_ray o d) as RR. set (k0 := inner N d d - _) in *. assert (0 < k0) as KP. { assert (0 <= k0) by (unfold k0; rewrite <- perp_sq; apply inner_nonneg). lra. }
    set (k1 := 2 * _) in *. set (k2 := rho o * rho o - r * r).
    assert (forall s, rho (fun i => o i + s * d i) <= r <-> k0 * s ^ 2 + k1 * s + k2 <= 0) as B.
    { intros s. rewrite (le_sq _ r (rho_nonneg _) RP), RR. unfold k2. split; intros; lra. }
    destruct (quadratic_spec neg0 k0 k1 k2) as [[-> [H|H]]|(r0 & r1 & -> & _ & _ & H)]; [|lra|].
    + pose proof (no_roots k0 k1 k2 0 KP H) as Q. assert (Rltb' k2 0 = false) as -> by (apply Rltb_not; lra). intros s. apply Rnot_le_lt. rewrite B.
      pose proof (no_roots k0 k1 k2 s KP H). lra.
    + intros s. rewrite B, H by lra. unfold iv_between. rewrite between_has. symmetry. now apply between_roots.
Qed.
Lemma ray_cyl neg0 o d : 0 <= r -> ~ bad_ray o d -> exists iv, cylinder_ray N c neg0 (mkRay o d) = Some iv /\ ray_in (cylinder N p0 p1 r) o d iv.
Proof.
  intros RP NB. unfold cylinder_ray. cbn [y_p0 y_p1 y_r origin direction]. rewrite code_s. cbv zeta. rewrite code_a2, code_d, code_rho2, code_mm, !dot_is.
  pose proof (wall_part neg0 o d RP NB) as W. cbv zeta in W. change (inner N d (vec_sub p1 p0)) with (inner N d a). change (inner N (vec_sub o p0) d) with (inner N (fun i => o i - p0 i) d).
  match type of W with match ?x with _ => _ end => destruct x as [[iv|]|] end; [| |easy].
  - destruct (Req_EM_T (inner N d a) 0) as [M|M].
    + assert (forall s, tau (fun i => o i + s * d i) = tau o) as T by (intros s; rewrite tau_ray, M; field; lra).
      destruct (Rltb' (tau o) 0) eqn:E0; [|destruct (Rltb' 1 (tau o)) eqn:E1]; cbn [orb];
        [apply Rltb_iff in E0| apply Rltb_not in E0; apply Rltb_iff in E1|apply Rltb_not in E0; apply Rltb_not in E1]; (eexists; split; [reflexivity|]); intros s; rewrite in_iff, T.
      * split; intros H; [destruct (empty_has s H)|lra].
      * split; intros H; [destruct (empty_has s H)|lra].
      * rewrite W. split; intros H; [split; [lra|exact H]|tauto].
    + eexists. split; [reflexivity|]. intros s. rewrite in_iff, inter_has, W, (caps_m o d s M), dot_is. tauto.
  - exists iv_empty. split; [reflexivity|]. intros s. rewrite in_iff. specialize (W s). split; intros H; [destruct (empty_has s H)|lra].
Qed.
Lemma ray_cyl_bad neg0 o d : bad_ray o d -> cylinder_ray N c neg0 (mkRay o d) = Some iv_empty.
Proof.
  intros [K D]. unfold cylinder_ray. cbn [y_p0 y_p1 y_r origin direction]. rewrite code_s. cbv zeta. rewrite code_a2, code_d, code_rho2, code_mm. apply k0_zero in K. rewrite K, D.
  destruct (Req_EM_T 0 0); [|lra]. assert (Rltb' (r * r - r * r) 0 = false) as -> by (apply Rltb_not; lra). reflexivity.
Qed.
End Y.
Lemma axis_pos N (p0 p1 : vec) : ~ same N p0 p1 -> 0 < A N p0 p1.
Proof.
  intros H. unfold A. destruct (inner_nonneg N (fun i => p1 i - p0 i)) as [P|P]; [exact P|]. exfalso. apply H. symmetry in P. apply inner_zero in P. intros i L. specialize (P i L). cbv beta in P. lra.
Qed.
