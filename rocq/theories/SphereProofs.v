From Coq Require Import Reals Arith Lra Lia List.
From Verif Require Import PerlinSpec PerlinProofs VecNModel VecNSpec VecNProofs RayModel RealUtilModel RealUtilProofs Ord RectModel RectSpec RectProofs RectArithModel RectArithProofs ShapeSpec ShapeProofs SphereModel.
Open Scope R_scope.

Lemma Rleb_iff x y : Rleb x y = true <-> x <= y.
Proof. unfold Rleb. destruct (Rle_dec x y); split; intros; easy. Qed.
Lemma Rleb_not x y : Rleb x y = false <-> y < x.
Proof. unfold Rleb. destruct (Rle_dec x y); split; intros; try easy; lra. Qed.
Lemma distance_vec_sub N c p : VecNModel.mag2 N (vec_sub c p) = distance N p c * distance N p c.
Proof. rewrite mag2_is, distance_sym, distance_sq. reflexivity. Qed.

Section S.
Variables (N : nat) (c : vec) (r : R).
Hypothesis RP : 0 <= r.
Notation s := (mkSphere c r).

Lemma contains_ok p : sphere_contains N s p = true <-> ball N c r p.
Proof.
  unfold sphere_contains, ball. cbn. rewrite Rleb_iff, distance_vec_sub. symmetry. apply le_sq; [apply distance_nonneg|exact RP].
Qed.
Lemma along_center u k : length N u = 1 -> distance N (fun i => c i + k * u i) c = Rabs k.
Proof. intros U. rewrite distance_sym. now apply distance_along. Qed.
Lemma support_ok d p : sphere_support N s d = Some p -> is_support N (ball N c r) d p.
Proof.
  unfold sphere_support. destruct (unit_vec N d) as [u|] eqn:E; [|discriminate]. intros [= <-]. apply unit_length in E as [U D]. cbn.
  assert (same N (vec_add c (vec_scale u r)) (fun i => c i + r * u i)) as A by (intros i L; unfold vec_add, vec_scale; ring).
  split.
  - unfold ball. rewrite (distance_ext N _ _ c c A (same_refl N c)), along_center, Rabs_pos_eq by assumption. lra.
  - intros q Q. rewrite (inner_ext N _ _ d d A (same_refl N d)), inner_add_mul.
    assert (inner N u d = length N d) as UD.
    { rewrite (inner_ext N u u d (fun i => length N d * u i) (same_refl N u) D), inner_sym, inner_mul_l, <- length_sq, U. ring. }
    rewrite UD. pose proof (cauchy N (fun i => q i - c i) d) as C. rewrite inner_sub_l in C. fold (distance N q c) in C.
    unfold ball in Q. pose proof (length_nonneg N d). pose proof (Rle_abs (inner N q d - inner N c d)). nra.
Qed.
Lemma support_none d : sphere_support N s d = None <-> all_zero N d.
Proof. unfold sphere_support. rewrite <- unit_none. destruct (unit_vec N d); split; intros; easy. Qed.

(** The point of the surface on the line through the center and [p]. *)
Lemma radial p u : unit_vec N (vec_sub p c) = Some u ->
  same N p (fun i => c i + distance N p c * u i) /\ length N u = 1.
Proof.
  intros E. apply unit_length in E as [U D]. split; [|exact U]. intros i L. specialize (D i L). unfold vec_sub at 1 in D.
  change (length N (vec_sub p c)) with (distance N p c) in D. lra.
Qed.
Lemma surface_far p q : sphere_surface N c r q -> Rabs (distance N p c - r) <= distance N p q.
Proof. intros Q. unfold sphere_surface in Q. rewrite <- Q. apply reverse_triangle. Qed.
Lemma foot_distance p u : length N u = 1 -> same N p (fun i => c i + distance N p c * u i) ->
  distance N p (fun i => c i + r * u i) = Rabs (distance N p c - r).
Proof.
  intros U P. set (D := distance N p c) in *. unfold distance.
  rewrite (length_ext N _ (fun i => (D - r) * u i)); [|intros i L; rewrite (P i L) at 1; ring]. rewrite length_scale, U. ring.
Qed.
Lemma project_ok p q : sphere_project N s p = Some q -> is_nearest N (sphere_surface N c r) p q /\ distance N p q = Rabs (distance N p c - r).
Proof.
  unfold sphere_project. cbn. destruct (unit_vec _ _) as [u|] eqn:E; [|discriminate]. intros [= <-]. destruct (radial p u E) as [P U].
  assert (same N (vec_add (vec_scale u r) c) (fun i => c i + r * u i)) as A by (intros i L; unfold vec_add, vec_scale; ring).
  assert (distance N p (vec_add (vec_scale u r) c) = Rabs (distance N p c - r)) as F.
  { rewrite (distance_ext N p p _ _ (same_refl N p) A). now apply foot_distance. }
  split; [|exact F]. split.
  - unfold sphere_surface. rewrite (distance_ext N _ _ c c A (same_refl N c)), along_center, Rabs_pos_eq by assumption. reflexivity.
  - intros q' Q. rewrite F. now apply surface_far.
Qed.
Lemma project_none p : sphere_project N s p = None <-> same N p c.
Proof.
  unfold sphere_project. cbn. assert (unit_vec N (vec_sub p c) = None <-> same N p c) as E.
  { rewrite unit_none. unfold all_zero, same, vec_sub. split; intros H i L; specialize (H i L); lra. }
  destruct (unit_vec _ _); [split; [discriminate|]; intros H; apply E in H; discriminate|tauto].
Qed.
Lemma normal_ok p n : sphere_normal N s p = Some n -> length N n = 1 /\ same N p (fun i => c i + distance N p c * n i).
Proof. unfold sphere_normal. cbn. intros E. destruct (radial p n E). tauto. Qed.
Lemma sdf_ok p : (0 < N)%nat -> signed_distance N (ball N c r) (sphere_surface N c r) p (sphere_sdf N s p).
Proof.
  intros NP. unfold sphere_sdf. cbn. rewrite mag_is. change (length N (vec_sub p c)) with (distance N p c). split.
  - destruct (sphere_project N s p) as [q|] eqn:E.
    + exists q. destruct (project_ok p q E) as [A ->]. now split.
    + apply project_none in E. assert (distance N p c = 0) as Z by now apply distance_zero. exists (fun i => c i + r * axis 0 i).
      assert (distance N p (fun i => c i + r * axis 0 i) = r) as F.
      { rewrite (distance_ext N p c _ _ E (same_refl N _)), distance_along by now apply length_axis. now apply Rabs_pos_eq. }
      rewrite F, Z, Rminus_0_l, Rabs_Ropp. split; [|now apply Rabs_pos_eq]. split.
      * unfold sphere_surface. rewrite along_center by now apply length_axis. now apply Rabs_pos_eq.
      * intros q Q. rewrite F. apply surface_far with (p := p) in Q. rewrite Z, Rminus_0_l, Rabs_Ropp, Rabs_pos_eq in Q by exact RP. exact Q.
  - unfold ball. lra.
Qed.
Lemma bounds_ok : tight_box N (ball N c r) (sphere_bounds s).
Proof.
  split.
  - intros p P i L. cbn. unfold vec_sub, vec_add. pose proof (coordinate_le N (fun j => p j - c j) i L) as C. fold (distance N p c) in C.
    unfold ball in P. revert C. unfold Rabs. destruct (Rcase_abs _); lra.
  - intros i L. assert (forall k, Rabs k = r -> exists p, ball N c r p /\ p i = c i + k) as H.
    { intros k K. exists (fun j => c j + k * axis i j). split.
      - unfold ball. rewrite along_center by now apply length_axis. lra.
      - unfold axis. rewrite Nat.eqb_refl. ring. }
    split.
    + destruct (H (- r)) as (p & P & E); [rewrite Rabs_Ropp; now apply Rabs_pos_eq|]. exists p. split; [exact P|]. cbn. unfold vec_sub. lra.
    + destruct (H r) as (p & P & E); [now apply Rabs_pos_eq|]. exists p. split; [exact P|]. cbn. unfold vec_add. lra.
Qed.
(** Rays. *)
Lemma ray_poly (o d : vec) t : let x0 := vec_sub c o in
  distance N (fun i => o i + t * d i) c * distance N (fun i => o i + t * d i) c =
  inner N d d * t ^ 2 + (-2 * inner N d x0) * t + inner N x0 x0.
Proof.
  cbv zeta. rewrite distance_sq. unfold inner, vec_sub. clear. induction N as [|M IH]; cbn [rsum]; lra.
Qed.
Lemma ray_ok neg0 o d : ~ all_zero N d -> exists iv, sphere_ray neg0 N s (mkRay o d) = Some iv /\ ray_in (ball N c r) o d iv.
Proof.
  intros NZ. unfold sphere_ray. cbn [direction origin s_center s_r]. rewrite !mag2_is, dot_is.
  set (a := inner N d d). set (b := -2 * _). set (k := _ - r * r).
  assert (0 < a) as A. { destruct (inner_nonneg N d) as [P|P]; [exact P|]. exfalso. apply NZ, inner_zero. now symmetry. }
  assert (forall t, ball N c r (fun i => o i + t * d i) <-> a * t ^ 2 + b * t + k <= 0) as B.
  { intros t. unfold ball. rewrite (le_sq _ r) by (apply distance_nonneg || exact RP). rewrite ray_poly. unfold a, b, k. split; intros; lra. }
  destruct (quadratic_spec neg0 a b k) as [[-> [H|H]]|(r0 & r1 & -> & _ & _ & H)]; [| lra |].
  - exists iv_empty. split; [reflexivity|]. intros t. rewrite B. pose proof (no_roots a b k t A H). unfold in_interval. cbn. split; intros; [easy|lra].
  - exists (iv_between r0 r1). split; [reflexivity|]. intros t. rewrite B, H by lra. unfold iv_between. rewrite between_has. symmetry. now apply between_roots.
Qed.
Lemma ray_zero neg0 o d : all_zero N d -> r <> distance N o c -> sphere_ray neg0 N s (mkRay o d) = Some iv_empty.
Proof.
  intros Z D. unfold sphere_ray. cbn [direction origin s_center s_r]. rewrite !mag2_is, dot_is.
  assert (inner N d d = 0) as -> by now apply inner_zero.
  assert (inner N d (vec_sub c o) = 0) as ->. { unfold inner. rewrite <- (rsum_zero N). apply rsum_ext. intros i L. rewrite Z by exact L. ring. }
  destruct (quadratic_spec neg0 0 (-2 * 0) (inner N (vec_sub c o) (vec_sub c o) - r * r)) as [[-> _]|(r0 & r1 & _ & W & _)]; [reflexivity|]. lra.
Qed.

(** Two spheres. *)
Lemma balls_meet c' r' : 0 <= r' -> (0 < N)%nat -> (meets (ball N c r) (ball N c' r') <-> distance N c c' <= r + r').
Proof.
  intros R' NP. split.
  - intros (p & P & Q). unfold ball in *. pose proof (distance_triangle N c p c'). rewrite (distance_sym N c p) in *. lra.
  - intros D. set (L := distance N c c') in *. assert (0 <= L) by apply distance_nonneg. destruct (Req_EM_T L 0) as [Z|Z].
    + exists c. unfold ball. split; [|fold L; lra]. replace (distance N c c) with 0; [exact RP|]. symmetry. now apply distance_zero.
    + set (t := Rmin 1 (r / L)). exists (fun i => c i + t * (c' i - c i)). assert (0 <= t <= 1) as T.
      { unfold t, Rmin. assert (0 <= r / L) by (apply Rmult_le_pos; [exact RP|left; apply Rinv_0_lt_compat; lra]). destruct (Rle_dec 1 (r / L)); lra. }
      assert (t * L <= r) as TL.
      { unfold t, Rmin. assert (r / L * L = r) by (field; lra). destruct (Rle_dec 1 (r / L)); nra. }
      assert ((1 - t) * L <= r') as TL'.
      { unfold t, Rmin. assert (r / L * L = r) by (field; lra). destruct (Rle_dec 1 (r / L)); nra. }
      assert (length N (fun i => c' i - c i) = L) as E by (unfold L; rewrite distance_sym; reflexivity). split; unfold ball, distance.
      * rewrite (length_ext N _ (fun i => t * (c' i - c i))) by (intros i J; ring). rewrite length_scale, E, Rabs_pos_eq; lra.
      * rewrite (length_ext N _ (fun i => - (1 - t) * (c' i - c i))) by (intros i J; ring). rewrite length_scale, E, Rabs_Ropp, Rabs_pos_eq; lra.
Qed.
Lemma intersects_ok o : sphere_intersects N s o = true <-> ball N c r (s_center o).
Proof. exact (contains_ok (s_center o)). Qed.
(** A sphere and a box. *)
Lemma ball_meets_box (b : @rect R_ord) : nonempty N b -> (meets (ball N c r) (in_box N b) <-> r_dist2 N b c <= r * r).
Proof.
  intros NE. unfold r_dist2. split.
  - intros (p & P & Q). assert (inside N (p : @point R_ord) b) as I by (apply inside_R; exact Q). pose proof (clip_nearest N b c p I) as C.
    rewrite (rect_dist2_is N c p), <- distance_sq, distance_sym in C. unfold ball in P. pose proof (distance_nonneg N p c). nra.
  - destruct (dist2_spec N b c NE) as ((q & I & E) & _). unfold r_dist2 in E. rewrite <- E. intros D. exists q. split.
    + unfold ball. apply le_sq; [apply distance_nonneg|exact RP|]. now rewrite distance_sym, distance_sq, <- rect_dist2_is.
    + exact (proj1 (inside_R N q b) I).
Qed.
Lemma rect_test_ok (b : @rect R_ord) : nonempty N b -> (forall i, (i < N)%nat -> c i = r) ->
  (sphere_intersects_rect N s b = true <-> meets (ball N c r) (in_box N b)).
Proof.
  intros NE C. rewrite ball_meets_box by exact NE. unfold sphere_intersects_rect. cbn. rewrite Rleb_iff.
  replace (r_dist2 N b (fun _ => r)) with (r_dist2 N b c); [reflexivity|]. unfold r_dist2. rewrite !rect_dist2_is.
  apply inner_ext; intros i L; unfold clip, vmin, vmax; now rewrite C.
Qed.
End S.
(** The answer about a box does not depend on where the sphere is, so it is wrong somewhere. *)
Lemma rect_test_blind N r (b : @rect R_ord) c c' : sphere_intersects_rect N (mkSphere c r) b = sphere_intersects_rect N (mkSphere c' r) b.
Proof. reflexivity. Qed.
Lemma rect_test_wrong N r (b : @rect R_ord) : (0 < N)%nat -> 0 <= r -> nonempty N b -> exists c,
  ~ (sphere_intersects_rect N (mkSphere c r) b = true <-> meets (ball N c r) (in_box N b)).
Proof.
  intros NP RP [p P]. pose proof (proj1 (inside_R N p b) P) as P0. clear P. rename P0 into P. destruct (sphere_intersects_rect N (mkSphere p r) b) eqn:E.
  - exists (fun i => hi b i + r + 1). rewrite (rect_test_blind _ _ _ _ p), E. intros [H _]. destruct (H eq_refl) as (q & Q & B).
    specialize (B 0%nat NP). pose proof (coordinate_le N (fun j => q j - (hi b j + r + 1)) 0 NP) as C. cbn beta in C.
    unfold ball, distance in Q. pose proof (Rle_trans _ _ _ C Q) as D. revert D. unfold Rabs. destruct (Rcase_abs _); cbn in *; lra.
  - exists p. rewrite E. intros [_ H]. assert (false = true); [|discriminate]. apply H. exists p. split; [|exact P]. unfold ball.
    replace (distance N p p) with 0; [exact RP|]. symmetry. now apply distance_zero.
Qed.
