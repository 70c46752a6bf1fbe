(** Lemmas for 2D and 3D vector geometry. *)
From Coq Require Import Reals Lra Lia.
From Verif Require Import Vec3Model Vec2Model QuatModel GeoSpec QuatProofs.
Open Scope R_scope.

(** ** rotation about an axis *)
Lemma rotate3_is p axis t : axis <> zero3 ->
  rotate3 p axis t = add3 (rodrigues (unit3 axis) t p) (V3 0 0 (vz axis * vx axis * (vx p - vz p) * cos t / mag2_3 axis)).
Proof.
  intros H. pose proof (mag_pos _ H) as P. pose proof (mag_sq axis) as S.
  assert (E : vx axis * vx axis + vy axis * vy axis + vz axis * vz axis = mag3 axis * mag3 axis) by (rewrite S; unfold mag2_3, dot3; ring).
  assert (Q : sqrt (vx axis * vx axis + vy axis * vy axis + vz axis * vz axis) = mag3 axis) by (rewrite E; apply sqrt_square; lra).
  rewrite <- S. unfold rodrigues, unit3, rotate3. rewrite Q, E. set (m := mag3 axis) in *. clearbody m. rewrite dot3_def.
  assert (U : vx axis * vx axis = m * m - vy axis * vy axis - vz axis * vz axis) by lra.
  assert (W1 : vy axis * vy axis + vz axis * vz axis = m * m - vx axis * vx axis) by lra.
  assert (W2 : vx axis * vx axis + vz axis * vz axis = m * m - vy axis * vy axis) by lra.
  assert (W3 : vx axis * vx axis + vy axis * vy axis = m * m - vz axis * vz axis) by lra.
  rewrite W1, W2, W3. by3; field; lra.
Qed.
Lemma rotate3_right p axis t : axis <> zero3 -> (rotate3 p axis t = rodrigues (unit3 axis) t p <-> vz axis * vx axis * (vx p - vz p) * cos t = 0).
Proof.
  intros H. rewrite rotate3_is by assumption. pose proof (mag_pos _ H) as P. pose proof (mag_sq axis) as S. rewrite <- S.
  set (r := rodrigues _ _ _). split.
  - intros E. assert (F : vz r + vz axis * vx axis * (vx p - vz p) * cos t / (mag3 axis * mag3 axis) = vz r) by (rewrite <- E at 2; reflexivity).
    assert (G : vz axis * vx axis * (vx p - vz p) * cos t / (mag3 axis * mag3 axis) = 0) by lra.
    apply (f_equal (fun y => y * (mag3 axis * mag3 axis))) in G. unfold Rdiv in G. rewrite Rmult_assoc, Rinv_l in G by nra. lra.
  - intros E. rewrite E. apply v3_eq; cbn; unfold Rdiv; ring.
Qed.
Lemma rotate3_about_is p axis c t : is_unit axis ->
  rotate3_about p axis c t =
  sub3 (add3 (rodrigues axis t (sub3 p c)) c) (scale3 (2 * (1 - cos t) * (vy axis * vy p + vz axis * vz p)) axis).
Proof.
  unfold is_unit, mag2_3. rewrite dot3_def. intros H. unfold rotate3_about, rodrigues. rewrite dot3_def.
  assert (W1 : vy axis * vy axis + vz axis * vz axis = 1 - vx axis * vx axis) by lra.
  assert (W2 : vx axis * vx axis + vz axis * vz axis = 1 - vy axis * vy axis) by lra.
  assert (W3 : vx axis * vx axis + vy axis * vy axis = 1 - vz axis * vz axis) by lra.
  rewrite W1, W2, W3. by3; ring.
Qed.

(** ** align *)
Section Align.
Variables from to : v3.
Hypothesis (Hf : is_unit from) (Ht : is_unit to) (Hc : dot3 from to <> -1).
Lemma align_rod p : align3 p from to =
  add3 (add3 (scale3 (dot3 from to) p) (cross3 (cross3 from to) p)) (scale3 (dot3 (cross3 from to) p / (1 + dot3 from to)) (cross3 from to)).
Proof.
  assert (1 + dot3 from to <> 0) by lra. unfold align3. rewrite (dot3_def _ p). set (q := cross3 from to). set (c := dot3 from to) in *. clearbody q c.
  by3; field; assumption.
Qed.
Lemma lagrange : mag2_3 (cross3 from to) = 1 - dot3 from to * dot3 from to.
Proof.
  unfold is_unit in *. transitivity (mag2_3 from * mag2_3 to - dot3 from to * dot3 from to); [|rewrite Hf, Ht; ring].
  unfold mag2_3, dot3. un3. ring.
Qed.
Lemma align_maps : align3 from from to = to.
Proof.
  rewrite align_rod. assert (Z : dot3 (cross3 from to) from = 0) by (unfold dot3; un3; ring). rewrite Z.
  assert (T : cross3 (cross3 from to) from = sub3 (scale3 (mag2_3 from) to) (scale3 (dot3 from to) from)) by (unfold mag2_3; by3; ring).
  rewrite T. unfold is_unit in Hf. rewrite Hf. assert (N : 1 + dot3 from to <> 0) by lra. clear - N. set (c := dot3 from to) in *. clearbody c.
  by3; field; assumption.
Qed.
Lemma align_dot a b : dot3 (align3 a from to) (align3 b from to) = dot3 a b.
Proof.
  rewrite !align_rod. pose proof lagrange as L. set (q := cross3 from to) in *. set (c := dot3 from to) in *. clearbody q c.
  assert (1 + c <> 0) by lra. unfold mag2_3 in L. 
  transitivity (c * c * dot3 a b + dot3 (cross3 q a) (cross3 q b)
     + (2 * c * (1 + c) + dot3 q q) * (dot3 q a * dot3 q b) / ((1 + c) * (1 + c))).
  - unfold dot3. un3. field. assumption.
  - assert (X : dot3 (cross3 q a) (cross3 q b) = dot3 q q * dot3 a b - dot3 q a * dot3 q b) by (unfold dot3; un3; ring).
    rewrite X, L. field. assumption.
Qed.
End Align.

(** ** angles *)
Lemma sqrt_sum_pos x y : x <> 0 \/ y <> 0 -> 0 < sqrt (y * y + (x * x + 0)).
Proof. intros H. apply sqrt_lt_R0. destruct H; nra. Qed.
Lemma atan2_polar x y : x <> 0 \/ y <> 0 -> let r := sqrt (y * y + (x * x + 0)) in
  r * cos (atan2 y x) = x /\ r * sin (atan2 y x) = y /\ - PI < atan2 y x <= PI.
Proof.
  intros H r. assert (Pr : 0 < r) by now apply sqrt_sum_pos. assert (R2 : r * r = x * x + y * y) by (unfold r; rewrite sqrt_sqrt by nra; ring).
  pose proof PI_RGT_0 as Pp.
  assert (G : x <> 0 -> let t := atan (y / x) in cos t * r = Rabs x /\ sin t * r * x = y * Rabs x /\ - PI / 2 < t < PI / 2).
  { intros Hx t. pose proof (atan_bound (y / x)) as B. fold t in B.
    assert (E : 1 + (y / x)² = (r / Rabs x) * (r / Rabs x)).
    { unfold Rsqr. assert (Ax : Rabs x * Rabs x = x * x) by (rewrite <- Rabs_mult; apply Rabs_pos_eq; nra).
      assert (Rabs x <> 0) by now apply Rabs_no_R0. replace (r / Rabs x * (r / Rabs x)) with (r * r / (Rabs x * Rabs x)) by (field; assumption). rewrite R2, Ax. field. assumption. }
    assert (Pa : 0 < Rabs x) by now apply Rabs_pos_lt.
    assert (Q : sqrt (1 + (y / x)²) = r / Rabs x). { rewrite E. apply sqrt_square. apply Rlt_le. unfold Rdiv. apply Rmult_lt_0_compat; [exact Pr|now apply Rinv_0_lt_compat]. }
    assert (C : cos t = Rabs x / r) by (unfold t; rewrite cos_atan, Q; field; split; lra).
    assert (Sn : sin t = y / x * (Rabs x / r)) by (unfold t; rewrite sin_atan, Q; field; repeat split; lra || assumption).
    split; [rewrite C; field; lra|]. split; [rewrite Sn; field; split; lra || assumption|lra]. }
  unfold atan2. destruct (Rlt_dec 0 x) as [Px|Nx].
  - destruct (G ltac:(lra)) as (A & B & C & D). rewrite Rabs_pos_eq in * by lra. split; [lra|]. split; [|lra]. apply (Rmult_eq_reg_r x); [|lra]. rewrite <- B. ring.
  - destruct (Rlt_dec x 0) as [Lx|Gx].
    + destruct (G ltac:(lra)) as (A & B & C & D). rewrite Rabs_left in * by lra. assert (B' : sin (atan (y / x)) * r = - y) by (apply (Rmult_eq_reg_r x); [rewrite B; ring|lra]).
      destruct (Rle_dec 0 y) as [Ly|Gy].
      * rewrite neg_cos, neg_sin. split; [lra|]. split; [lra|]. split; [lra|].
        assert (y / x <= 0) by (unfold Rdiv; pose proof (Rinv_lt_0_compat x Lx); nra).
        destruct (Req_dec (y / x) 0) as [Z|Z]; [rewrite Z, atan_0; lra|]. pose proof (atan_increasing (y / x) 0 ltac:(lra)) as I. rewrite atan_0 in I. lra.
      * assert (C1 : cos (atan (y / x) - PI) = - cos (atan (y / x))) by (rewrite cos_minus, cos_PI, sin_PI; ring).
        assert (S1 : sin (atan (y / x) - PI) = - sin (atan (y / x))) by (rewrite sin_minus, cos_PI, sin_PI; ring).
        rewrite C1, S1. split; [lra|]. split; [lra|]. split; [|lra].
        assert (0 < y / x) by (unfold Rdiv; pose proof (Rinv_lt_0_compat x Lx); nra).
        pose proof (atan_increasing 0 (y / x) ltac:(lra)) as I. rewrite atan_0 in I. lra.
    + assert (x = 0) by lra. subst x. assert (Hr : r = Rabs y) by (unfold r; replace (y * y + (0 * 0 + 0)) with (y * y) by ring; apply (sqrt_Rsqr_abs y)).
      destruct (Rlt_dec 0 y) as [Py|Ny].
      * rewrite Hr, Rabs_pos_eq, cos_PI2, sin_PI2 by lra. lra.
      * destruct (Rlt_dec y 0) as [Ly|Gy]; [|exfalso; lra]. rewrite Hr, Rabs_left, cos_neg, sin_neg, cos_PI2, sin_PI2 by lra. lra.
Qed.
Lemma cos_one x : - (2 * PI) < x < 2 * PI -> cos x = 1 -> x = 0.
Proof.
  intros B H. pose proof PI_RGT_0. replace x with (2 * (x / 2)) in H by field. rewrite cos_2a_sin in H. assert (S : sin (x / 2) = 0) by nra.
  destruct (Rtotal_order (x / 2) 0) as [L|[E|G]]; [|lra|].
  - exfalso. pose proof (sin_gt_0 (- (x / 2)) ltac:(lra) ltac:(lra)). rewrite sin_neg in *. lra.
  - exfalso. pose proof (sin_gt_0 (x / 2) ltac:(lra) ltac:(lra)). lra.
Qed.
Lemma angles_equal a b : - PI < a <= PI -> - PI < b <= PI -> cos a = cos b -> sin a = sin b -> a = b.
Proof.
  intros A B C D. assert (Z : a - b = 0); [|lra]. apply cos_one; [lra|]. rewrite cos_minus, C, D. pose proof (sin2_cos2 b). unfold Rsqr in *. lra.
Qed.
Lemma atan2_of r t : 0 < r -> - PI < t <= PI -> atan2 (r * sin t) (r * cos t) = t.
Proof.
  intros Pr Bt. pose proof (sin2_cos2 t) as T. unfold Rsqr in T.
  assert (N : r * cos t <> 0 \/ r * sin t <> 0). { destruct (Req_dec (r * cos t) 0) as [Z|]; [|now left]. right. intros W. assert (cos t = 0) by nra. assert (sin t = 0) by nra. nra. }
  destruct (atan2_polar _ _ N) as (C & Sn & B). set (a := atan2 _ _) in *.
  assert (R : sqrt (r * sin t * (r * sin t) + (r * cos t * (r * cos t) + 0)) = r).
  { transitivity (sqrt (r * r)); [f_equal; transitivity (r * r * (sin t * sin t + cos t * cos t)); [ring|rewrite T; ring]|apply sqrt_square; lra]. }
  rewrite R in *. apply angles_equal; [assumption|assumption| |]; apply (Rmult_eq_reg_l r); lra.
Qed.
(** ** polar coordinates *)
Lemma angle_polar v : v <> V2 0 0 -> mag_2 v * cos (angle v) = ux v /\ mag_2 v * sin (angle v) = uy v /\ 0 <= angle v < 2 * PI.
Proof.
  intros H. pose proof PI_RGT_0. assert (N : ux v <> 0 \/ uy v <> 0). { destruct (Req_dec (ux v) 0), (Req_dec (uy v) 0); try tauto. exfalso. apply H. destruct v; cbn in *. congruence. }
  destruct (atan2_polar _ _ N) as (C & Sn & B). fold (mag_2 v) in C, Sn. unfold angle. destruct (Rlt_dec (atan2 (uy v) (ux v)) 0).
  - replace (atan2 (uy v) (ux v) + 2 * PI) with (atan2 (uy v) (ux v) + 2 * INR 1 * PI) by (cbn; ring). rewrite cos_period, sin_period. cbn [INR]. lra.
  - lra.
Qed.
Lemma mag_2_sq v : mag_2 v * mag_2 v = ux v * ux v + uy v * uy v.
Proof. unfold mag_2. rewrite sqrt_sqrt by nra. ring. Qed.
(** ** spherical coordinates *)
Lemma spherical_back p : p <> zero3 -> from_spherical (vx (to_spherical p)) (vy (to_spherical p)) (vz (to_spherical p)) = p.
Proof.
  intros H. pose proof (mag_pos p H) as P. pose proof (mag_sq p) as S. unfold mag2_3 in S. rewrite dot3_def in S.
  unfold to_spherical, from_spherical. cbn [vx vy vz]. set (m := mag3 p) in *.
  assert (B : -1 <= vz p / m <= 1).
  { split; apply (Rmult_le_reg_r m); try exact P; unfold Rdiv; rewrite Rmult_assoc, Rinv_l by lra; nra. }
  assert (Sn : m * sin (acos (vz p / m)) = sqrt (vy p * vy p + (vx p * vx p + 0))).
  { rewrite sin_acos by assumption. replace m with (sqrt (m * m)) at 1 by (apply sqrt_square; lra). rewrite <- sqrt_mult; [|nra|].
    - f_equal. unfold Rsqr. transitivity (m * m - vz p * vz p); [field; lra|]. lra.
    - unfold Rsqr. destruct B. nra. }
  rewrite Sn, cos_acos by assumption.
  destruct (Req_dec (vx p) 0) as [X|X], (Req_dec (vy p) 0) as [Y|Y].
  - rewrite X, Y. replace (0 * 0 + (0 * 0 + 0)) with 0 by ring. rewrite sqrt_0. apply v3_eq; cbn; [lra|lra|field; lra].
  - destruct (atan2_polar (vx p) (vy p) (or_intror Y)) as (C & D & _). apply v3_eq; cbn [vx vy vz]; [exact C|exact D|field; lra].
  - destruct (atan2_polar (vx p) (vy p) (or_introl X)) as (C & D & _). apply v3_eq; cbn [vx vy vz]; [exact C|exact D|field; lra].
  - destruct (atan2_polar (vx p) (vy p) (or_introl X)) as (C & D & _). apply v3_eq; cbn [vx vy vz]; [exact C|exact D|field; lra].
Qed.
Lemma spherical_forth r e a : 0 < r -> 0 < e < PI -> - PI < a <= PI -> to_spherical (from_spherical r e a) = V3 r e a.
Proof.
  intros Pr Be Ba. pose proof (sin_gt_0 e ltac:(lra) ltac:(lra)) as Ps. pose proof (sin2_cos2 e) as Te. pose proof (sin2_cos2 a) as Ta. unfold Rsqr in *.
  assert (M : mag3 (from_spherical r e a) = r).
  { unfold mag3, mag2_3. rewrite dot3_def. unfold from_spherical. cbn [vx vy vz]. transitivity (sqrt (r * r)); [f_equal|apply sqrt_square; lra].
    transitivity (r * r * (sin e * sin e * (sin a * sin a + cos a * cos a) + cos e * cos e)); [ring|]. rewrite Ta. transitivity (r * r * (sin e * sin e + cos e * cos e)); [ring|]. rewrite Te. ring. }
  unfold to_spherical. rewrite M. unfold from_spherical. cbn [vx vy vz]. f_equal.
  - replace (r * cos e / r) with (cos e) by (field; lra). apply acos_cos. lra.
  - apply atan2_of; [nra|assumption].
Qed.
Lemma spherical_range p : p <> zero3 -> vx (to_spherical p) = mag3 p /\ 0 <= vy (to_spherical p) <= PI /\ (vx p <> 0 \/ vy p <> 0 -> - PI < vz (to_spherical p) <= PI).
Proof.
  intros H. split; [reflexivity|]. split; [apply acos_bound|]. intros N. now apply atan2_polar.
Qed.
Lemma rodrigues_0 k v : rodrigues k 0 v = v.
Proof. unfold rodrigues. rewrite cos_0, sin_0. apply v3_eq; cbn; ring. Qed.
Lemma rotate3_zero_wrong p axis : vx axis <> 0 -> vz axis <> 0 -> vx p <> vz p -> rotate3 p axis 0 <> p /\ rotate3 p axis 0 <> rodrigues (unit3 axis) 0 p.
Proof.
  intros Hx Hz Hp. assert (N : axis <> zero3) by (intros E; rewrite E in Hx; cbn in Hx; lra).
  rewrite rodrigues_0. assert (G : rotate3 p axis 0 <> p); [|tauto]. rewrite <- (rodrigues_0 (unit3 axis) p) at 2. rewrite rotate3_right by assumption. rewrite cos_0, Rmult_1_r.
  intros E. apply Rmult_integral in E as [E|E]; [|lra]. apply Rmult_integral in E as [E|E]; contradiction.
Qed.
Lemma rotate3_about_wrong p axis c t : is_unit axis -> cos t <> 1 -> vy axis * vy p + vz axis * vz p <> 0 ->
  rotate3_about p axis c t <> add3 (rodrigues axis t (sub3 p c)) c.
Proof.
  intros U Hc Hn. rewrite rotate3_about_is by assumption. set (r := add3 _ _). intros E.
  assert (K : 2 * (1 - cos t) * (vy axis * vy p + vz axis * vz p) <> 0). { intros Z. apply Rmult_integral in Z as [Z|Z]; [lra|contradiction]. }
  set (k := 2 * (1 - cos t) * _) in *. clearbody r k.
  assert (X : vx axis * k = 0) by (apply (f_equal vx) in E; cbn in E; lra).
  assert (Y : vy axis * k = 0) by (apply (f_equal vy) in E; cbn in E; lra).
  assert (Z : vz axis * k = 0) by (apply (f_equal vz) in E; cbn in E; lra).
  apply Rmult_integral in X as [X|X]; [|contradiction]. apply Rmult_integral in Y as [Y|Y]; [|contradiction]. apply Rmult_integral in Z as [Z|Z]; [|contradiction].
  unfold is_unit, mag2_3, dot3 in U. rewrite X, Y, Z in U. lra.
Qed.
Lemma v2_eq a b : ux a = ux b -> uy a = uy b -> a = b.
Proof. destruct a, b. cbn. now intros -> ->. Qed.
Lemma rotated_ok v s t : mag_2 (rotated v t) = mag_2 v /\ rotated (rotated v s) t = rotated v (s + t) /\ rotated v 0 = v /\
  rotated v (PI / 2) = left_perp v /\ rotated v (- (PI / 2)) = right_perp v.
Proof.
  split; [|split; [|split; [|split]]].
  - unfold mag_2, rotated. cbn [ux uy]. f_equal. pose proof (sin2_cos2 t) as T. unfold Rsqr in T.
    transitivity ((sin t * sin t + cos t * cos t) * (uy v * uy v + ux v * ux v)); [ring|]. rewrite T. ring.
  - apply v2_eq; unfold rotated; cbn [ux uy]; rewrite ?cos_plus, ?sin_plus; ring.
  - apply v2_eq; unfold rotated; cbn [ux uy]; rewrite ?cos_0, ?sin_0; ring.
  - apply v2_eq; unfold rotated, left_perp; cbn [ux uy]; rewrite ?cos_PI2, ?sin_PI2; ring.
  - apply v2_eq; unfold rotated, right_perp; cbn [ux uy]; rewrite ?cos_neg, ?sin_neg, ?cos_PI2, ?sin_PI2; ring.
Qed.
Lemma from_polar_wrong r : 0 < r -> to_polar (V2 r 0) = V2 r 0 /\ from_polar (to_polar (V2 r 0)) = V2 0 0 /\
  forall a, from_polar (V2 r a) = V2 (a * cos r) (a * sin r).
Proof.
  intros H. assert (E : to_polar (V2 r 0) = V2 r 0).
  { unfold to_polar, mag_2, angle. cbn [ux uy]. f_equal.
    - replace (0 * 0 + (r * r + 0)) with (r * r) by ring. apply sqrt_square. lra.
    - unfold atan2. destruct (Rlt_dec 0 r); [|lra]. unfold Rdiv. rewrite Rmult_0_l, atan_0. destruct (Rlt_dec 0 0); lra. }
  split; [exact E|]. rewrite E. split; [apply v2_eq; cbn; ring|reflexivity].
Qed.
Lemma polar_01 : to_polar (V2 0 1) = V2 1 (PI / 2).
Proof.
  unfold to_polar, mag_2, angle, atan2. cbn [ux uy]. pose proof PI_RGT_0. replace (1 * 1 + (0 * 0 + 0)) with 1 by ring. rewrite sqrt_1.
  destruct (Rlt_dec 0 0); [lra|]. destruct (Rlt_dec 0 1); [|lra]. destruct (Rlt_dec (PI / 2) 0); [lra|reflexivity].
Qed.
