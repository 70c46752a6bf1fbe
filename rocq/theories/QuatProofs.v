(** Lemmas for 3D vectors and quaternions. *)
From Coq Require Import Reals Lra Lia.
From Verif Require Import Vec3Model QuatModel GeoSpec.
Open Scope R_scope.

Ltac un3 := cbn [vx vy vz qx qy qz qw imag quat_of conj qmult qscale add3 sub3 neg3 scale3 cross3 zero3 qident] in *.
Lemma v3_eq a b : vx a = vx b -> vy a = vy b -> vz a = vz b -> a = b.
Proof. destruct a, b. cbn. now intros -> -> ->. Qed.
Lemma q4_eq a b : qx a = qx b -> qy a = qy b -> qz a = qz b -> qw a = qw b -> a = b.
Proof. destruct a, b. cbn. now intros -> -> -> ->. Qed.
Ltac by3 := apply v3_eq; unfold qrot, qrot_inv, dot3; un3.
Ltac by4 := apply q4_eq; unfold dot3; un3.

Lemma dot3_def a b : dot3 a b = vx a * vx b + vy a * vy b + vz a * vz b.
Proof. unfold dot3. ring. Qed.
Lemma mag2_nonneg v : 0 <= mag2_3 v.
Proof. unfold mag2_3. rewrite dot3_def. nra. Qed.
Lemma mag2_zero v : mag2_3 v = 0 -> v = zero3.
Proof. unfold mag2_3. rewrite dot3_def. intros H. apply v3_eq; cbn; nra. Qed.
Lemma mag_sq v : mag3 v * mag3 v = mag2_3 v.
Proof. unfold mag3. apply sqrt_sqrt, mag2_nonneg. Qed.
Lemma mag_nonneg v : 0 <= mag3 v.
Proof. apply sqrt_pos. Qed.
Lemma mag_zero v : mag3 v = 0 <-> v = zero3.
Proof.
  split; intros H.
  - apply mag2_zero. rewrite <- mag_sq, H. ring.
  - subst. unfold mag3, mag2_3, dot3. cbn. replace (0*0 + (0*0 + (0*0+0))) with 0 by ring. apply sqrt_0.
Qed.
Lemma mag_pos v : v <> zero3 -> 0 < mag3 v.
Proof. intros H. destruct (Rle_lt_or_eq_dec 0 (mag3 v) (mag_nonneg v)) as [L|E]; [exact L|]. exfalso. apply H, mag_zero. now symmetry. Qed.
Lemma unit_unit v : v <> zero3 -> is_unit (unit3 v).
Proof.
  intros H. pose proof (mag_pos v H) as P. unfold is_unit, mag2_3. rewrite dot3_def. unfold unit3. cbn [vx vy vz].
  pose proof (mag_sq v) as S. unfold mag2_3 in S. rewrite dot3_def in S. set (m := mag3 v) in *.
  replace (vx v / m * (vx v / m) + vy v / m * (vy v / m) + vz v / m * (vz v / m)) with ((vx v * vx v + vy v * vy v + vz v * vz v) / (m * m)) by (field; lra).
  rewrite S. field. rewrite <- S. intros Z. nra.
Qed.
Lemma unit_scale v : v <> zero3 -> scale3 (mag3 v) (unit3 v) = v.
Proof. intros H. pose proof (mag_pos v H). apply v3_eq; cbn; field; lra. Qed.
Lemma unit_nonzero v : is_unit v -> v <> zero3.
Proof. intros H ->. unfold is_unit, mag2_3, dot3 in H. cbn in H. lra. Qed.
Lemma mag_unit v : is_unit v -> mag3 v = 1.
Proof. unfold is_unit, mag3. intros ->. apply sqrt_1. Qed.
Lemma unit_id v : is_unit v -> unit3 v = v.
Proof. intros H. unfold unit3. rewrite mag_unit by assumption. apply v3_eq; cbn; field. Qed.
Lemma is_zero3_spec v : if is_zero3 v then v = zero3 else v <> zero3.
Proof.
  unfold is_zero3. destruct (Req_EM_T (vx v) 0) as [A|A]; [|intros ->; cbn in A; lra].
  destruct (Req_EM_T (vy v) 0) as [B|B]; [|intros ->; cbn in B; lra].
  destruct (Req_EM_T (vz v) 0) as [C|C]; [|intros ->; cbn in C; lra]. now apply v3_eq.
Qed.

(** ** quaternion algebra *)
Lemma qmult_assoc p q r : qmult (qmult p q) r = qmult p (qmult q r).
Proof. by4; ring. Qed.
Lemma qmult_1_l q : qmult qident q = q.
Proof. by4; ring. Qed.
Lemma qmult_1_r q : qmult q qident = q.
Proof. by4; ring. Qed.
Lemma conj_mult p q : conj (qmult p q) = qmult (conj q) (conj p).
Proof. by4; ring. Qed.
Lemma qmag2_mult p q : qmag2 (qmult p q) = qmag2 p * qmag2 q.
Proof. unfold qmag2. un3. ring. Qed.
Lemma conj_inverse q : qmult q (conj q) = quat_of zero3 (qmag2 q) /\ qmult (conj q) q = quat_of zero3 (qmag2 q).
Proof. unfold qmag2. split; by4; ring. Qed.
Lemma qmag2_nonneg q : 0 <= qmag2 q.
Proof. unfold qmag2. nra. Qed.
Lemma qmag2_zero q : qmag2 q = 0 -> q = Q4 0 0 0 0.
Proof. unfold qmag2. intros H. apply q4_eq; cbn; nra. Qed.
Lemma qmag_sq q : qmag q * qmag q = qmag2 q.
Proof. apply sqrt_sqrt, qmag2_nonneg. Qed.

(** ** rotations *)
Lemma qrot_mult p q v : qrot (qmult p q) v = qrot p (qrot q v).
Proof. by3; ring. Qed.
Lemma qrot_ident v : qrot qident v = v.
Proof. by3; ring. Qed.
Lemma qrot_linear q s a b : qrot q (add3 (scale3 s a) b) = add3 (scale3 s (qrot q a)) (qrot q b).
Proof. by3; ring. Qed.
Lemma qrot_dot q a b : dot3 (qrot q a) (qrot q b) = qmag2 q * qmag2 q * dot3 a b.
Proof. unfold qrot, qmag2, dot3. un3. ring. Qed.
Lemma qrot_cross q a b : cross3 (qrot q a) (qrot q b) = scale3 (qmag2 q) (qrot q (cross3 a b)).
Proof. unfold qmag2. by3; ring. Qed.
Lemma qrot_inv_qrot q v : qrot_inv (qrot q v) q = scale3 (qmag2 q * qmag2 q) v.
Proof. unfold qmag2. by3; ring. Qed.
Lemma qrot_qrot_inv q v : qrot q (qrot_inv v q) = scale3 (qmag2 q * qmag2 q) v.
Proof. unfold qmag2. by3; ring. Qed.
Lemma scale3_1 v : scale3 1 v = v.
Proof. by3; ring. Qed.
Lemma qrot_rotation q : qmag2 q = 1 -> is_rotation (qrot q).
Proof.
  intros H. split; [|split].
  - intros a b. rewrite qrot_dot, H. ring.
  - intros a b. rewrite qrot_cross, H. apply scale3_1.
  - apply qrot_linear.
Qed.
Lemma half_angle x : x = 2 * (x * (1/2)).
Proof. field. Qed.
Lemma qrot_rodrigues k h v : is_unit k -> qrot (quat_of (scale3 (sin h) k) (cos h)) v = rodrigues k (2 * h) v.
Proof.
  unfold is_unit, mag2_3. rewrite dot3_def. intros Hk. unfold rodrigues. rewrite cos_2a, sin_2a, dot3_def. pose proof (sin2_cos2 h) as T. unfold Rsqr in T.
  set (s := sin h) in *. set (c := cos h) in *. 
  assert (Hk2 : vx k * vx k = 1 - vy k * vy k - vz k * vz k) by lra. assert (Hs : s * s = 1 - c * c) by lra.
  by3.
  - transitivity (vx v * (c * c) + vx v * (s * s) * (vx k * vx k - vy k * vy k - vz k * vz k) + 2 * (s * s) * vx k * (vy k * vy v + vz k * vz v) + 2 * s * c * (vy k * vz v - vz k * vy v)); [ring|].
    rewrite Hk2, Hs. ring_simplify. replace (vx k ^ 2) with (vx k * vx k) by ring. rewrite Hk2. ring.
  - transitivity (vy v * (c * c) + vy v * (s * s) * (vy k * vy k - vx k * vx k - vz k * vz k) + 2 * (s * s) * vy k * (vx k * vx v + vz k * vz v) + 2 * s * c * (vz k * vx v - vx k * vz v)); [ring|].
    rewrite Hk2, Hs. ring_simplify. ring.
  - transitivity (vz v * (c * c) + vz v * (s * s) * (vz k * vz k - vx k * vx k - vy k * vy k) + 2 * (s * s) * vz k * (vx k * vx v + vy k * vy v) + 2 * s * c * (vx k * vy v - vy k * vx v)); [ring|].
    rewrite Hk2, Hs. ring_simplify. ring.
Qed.
Lemma axis_angle_nonzero axis t : axis <> zero3 ->
  rotation_from_axis_angle axis t = quat_of (scale3 (sin (t * (1/2))) (unit3 axis)) (cos (t * (1/2))).
Proof.
  intros H. unfold rotation_from_axis_angle. destruct (Req_EM_T (vx axis) 0); [|reflexivity]. destruct (Req_EM_T (vy axis) 0); [|reflexivity].
  destruct (Req_EM_T (vz axis) 0); [|reflexivity]. exfalso. apply H. now apply v3_eq.
Qed.
Lemma axis_angle_zero t : rotation_from_axis_angle zero3 t = qident.
Proof. unfold rotation_from_axis_angle. cbn. destruct (Req_EM_T 0 0); [reflexivity|lra]. Qed.
Lemma axis_angle_rotates axis t v : axis <> zero3 -> qrot (rotation_from_axis_angle axis t) v = rodrigues (unit3 axis) t v.
Proof. intros H. rewrite axis_angle_nonzero, qrot_rodrigues by (assumption || now apply unit_unit). f_equal. field. Qed.
Lemma trig_unit k h : is_unit k -> qmag2 (quat_of (scale3 (sin h) k) (cos h)) = 1.
Proof.
  unfold is_unit, mag2_3. rewrite dot3_def. intros H. unfold qmag2. un3. pose proof (sin2_cos2 h) as T. unfold Rsqr in T.
  transitivity (cos h * cos h + sin h * sin h * (vx k * vx k + vy k * vy k + vz k * vz k)); [ring|]. rewrite H. lra.
Qed.
Lemma axis_angle_unit axis t : qmag2 (rotation_from_axis_angle axis t) = 1.
Proof.
  pose proof (is_zero3_spec axis) as Z. destruct (is_zero3 axis).
  - subst. rewrite axis_angle_zero. unfold qmag2. cbn. ring.
  - rewrite axis_angle_nonzero by assumption. now apply trig_unit, unit_unit.
Qed.
(** the model's and the textbook's rotation have the expected shape *)
Lemma rodrigues_axis k t : is_unit k -> rodrigues k t k = k.
Proof.
  unfold is_unit, mag2_3. rewrite dot3_def. intros H. unfold rodrigues. rewrite dot3_def, H. by3; ring.
Qed.
Lemma rodrigues_add k s t v : is_unit k -> rodrigues k s (rodrigues k t v) = rodrigues k (s + t) v.
Proof.
  intros Hk. replace s with (2 * (s * (1/2))) at 1 by field. replace t with (2 * (t * (1/2))) at 1 by field.
  rewrite <- !qrot_rodrigues by assumption. rewrite <- qrot_mult.
  replace (s + t) with (2 * (s * (1/2) + t * (1/2))) by field. rewrite <- qrot_rodrigues by assumption. f_equal.
  rewrite sin_plus, cos_plus. unfold is_unit, mag2_3 in Hk. rewrite dot3_def in Hk. set (a := s * (1/2)). set (b := t * (1/2)).
  by4; try ring. transitivity (cos a * cos b - sin a * sin b * (vx k * vx k + vy k * vy k + vz k * vz k)); [ring|]. rewrite Hk. ring.
Qed.

(** ** direction align *)
Lemma align_general v a : qrot (rotation_direction_align v a) v = sub3 (scale3 (2 * dot3 v a * mag2_3 v) a) (scale3 (mag2_3 a * mag2_3 v) v).
Proof. unfold rotation_direction_align, mag2_3. by3; ring. Qed.
Lemma align_doubles v a : is_unit v -> is_unit a -> qrot (rotation_direction_align v a) v = sub3 (scale3 (2 * dot3 v a) a) v.
Proof. unfold is_unit. intros Hv Ha. rewrite align_general, Hv, Ha. by3; ring. Qed.
Lemma align_only_equal v a : is_unit v -> is_unit a -> qrot (rotation_direction_align v a) v = a -> v = a.
Proof.
  intros Hv Ha E. rewrite align_doubles in E by assumption. unfold is_unit, mag2_3 in *.
  assert (D : dot3 v a = 1).
  { assert (F : dot3 (sub3 (scale3 (2 * dot3 v a) a) v) a = dot3 a a) by now rewrite E. rewrite Ha in F.
    rewrite <- F. transitivity (2 * dot3 v a * dot3 a a - dot3 v a); [rewrite Ha; ring|]. unfold dot3. un3. ring. }
  rewrite dot3_def in *. assert (Z : (vx v - vx a) * (vx v - vx a) + (vy v - vy a) * (vy v - vy a) + (vz v - vz a) * (vz v - vz a) = 0) by lra.
  clear -Z. assert (forall x y z : R, x * x + y * y + z * z = 0 -> x = 0 /\ y = 0 /\ z = 0) as Q by (intros; repeat split; nra).
  apply Q in Z. apply v3_eq; lra.
Qed.

(** ** conversions *)
Lemma clamp_id w : -1 <= w <= 1 -> clamp1 w = w.
Proof. intros H. unfold clamp1. rewrite Rmax_left, Rmin_left by lra. reflexivity. Qed.
Lemma unit_parts q : qmag2 q = 1 -> -1 <= qw q <= 1 /\ mag3 (imag q) = sqrt (1 - (qw q)²).
Proof.
  unfold qmag2. intros H. split; [nra|]. unfold mag3, mag2_3, dot3, Rsqr. f_equal. un3. lra.
Qed.
Lemma sin_half_acos q : qmag2 q = 1 -> sin (acos (qw q)) = mag3 (imag q).
Proof. intros H. destruct (unit_parts q H) as [B E]. rewrite E. apply sin_acos. exact B. Qed.
Lemma to_axis_angle_back q : qmag2 q = 1 -> imag q <> zero3 ->
  rotation_from_axis_angle (fst (to_axis_angle q)) (snd (to_axis_angle q)) = q.
Proof.
  intros H Hn. unfold to_axis_angle. pose proof (is_zero3_spec (imag q)) as Z. destruct (is_zero3 (imag q)); [contradiction|]. cbn [fst snd].
  rewrite axis_angle_nonzero by now apply unit_nonzero, unit_unit. rewrite unit_id by now apply unit_unit.
  destruct (unit_parts q H) as [B _]. rewrite clamp_id by assumption.
  replace (2 * acos (qw q) * (1/2)) with (acos (qw q)) by field. rewrite sin_half_acos, cos_acos, unit_scale by assumption. destruct q; reflexivity.
Qed.
Lemma to_axis_angle_real q : qmag2 q = 1 -> imag q = zero3 -> to_axis_angle q = (V3 1 0 0, 0) /\ forall v, qrot q v = v.
Proof.
  intros H Hz. unfold to_axis_angle. pose proof (is_zero3_spec (imag q)) as Z. destruct (is_zero3 (imag q)); [|contradiction]. split; [reflexivity|].
  intros v. destruct q as [x y z w]. injection Hz as -> -> ->. unfold qmag2 in H. un3. assert (E : w * w = 1) by lra.
  by3. - transitivity (vx v * (w * w)); [ring|rewrite E; ring]. - transitivity (vy v * (w * w)); [ring|rewrite E; ring].
  - transitivity (vz v * (w * w)); [ring|rewrite E; ring].
Qed.
Lemma to_axis_angle_range q : qmag2 q = 1 -> 0 <= snd (to_axis_angle q) <= 2 * PI /\ is_unit (fst (to_axis_angle q)).
Proof.
  intros H. unfold to_axis_angle. pose proof (is_zero3_spec (imag q)) as Z. destruct (is_zero3 (imag q)); cbn [fst snd].
  - split; [pose proof PI_RGT_0; lra|]. unfold is_unit, mag2_3, dot3. cbn. ring.
  - split; [|now apply unit_unit]. destruct (unit_parts q H) as [B _]. rewrite clamp_id by assumption. pose proof (acos_bound (qw q)). lra.
Qed.

(** ** exp, log, pow *)
Lemma qmag_of v w : qmag2 (quat_of v w) = mag2_3 v + w * w.
Proof. unfold qmag2, mag2_3, dot3. un3. ring. Qed.
Lemma mag2_scale k v : mag2_3 (scale3 k v) = k * k * mag2_3 v.
Proof. unfold mag2_3, dot3. un3. ring. Qed.
Lemma mag_scale k v : mag3 (scale3 k v) = Rabs k * mag3 v.
Proof. unfold mag3. rewrite mag2_scale, sqrt_mult by (nra || apply mag2_nonneg). f_equal. apply (sqrt_Rsqr_abs k). Qed.
Lemma qexp_nonzero q : imag q <> zero3 -> qexp q = qscale (exp (qw q)) (quat_of (scale3 (sin (mag3 (imag q))) (unit3 (imag q))) (cos (mag3 (imag q)))).
Proof.
  intros H. pose proof (mag_pos _ H). unfold qexp. destruct (Req_EM_T (mag3 (imag q)) 0); [lra|]. unfold unit3. by4; field; lra.
Qed.
Lemma qexp_zero q : imag q = zero3 -> qexp q = quat_of zero3 (exp (qw q)).
Proof. intros H. unfold qexp. destruct (Req_EM_T (mag3 (imag q)) 0) as [|N]; [reflexivity|]. exfalso. apply N. now apply mag_zero. Qed.
Lemma qmag2_scale k q : qmag2 (qscale k q) = k * k * qmag2 q.
Proof. unfold qmag2. un3. ring. Qed.
Lemma qmag_scale k q : 0 <= k -> qmag (qscale k q) = k * qmag q.
Proof. intros H. unfold qmag. rewrite qmag2_scale, sqrt_mult, sqrt_square by (nra || apply qmag2_nonneg). reflexivity. Qed.
Lemma qmag_unit q : qmag2 q = 1 -> qmag q = 1.
Proof. unfold qmag. intros ->. apply sqrt_1. Qed.
Lemma qexp_mag q : qmag (qexp q) = exp (qw q).
Proof.
  pose proof (is_zero3_spec (imag q)) as Z. pose proof (exp_pos (qw q)). destruct (is_zero3 (imag q)).
  - rewrite qexp_zero by assumption. unfold qmag. rewrite qmag_of. unfold mag2_3, dot3. cbn. rewrite <- (sqrt_square (exp (qw q))) at 3 by lra. f_equal. ring.
  - rewrite qexp_nonzero by assumption. rewrite qmag_scale by lra. rewrite qmag_unit; [ring|]. now apply trig_unit, unit_unit.
Qed.
Lemma quat_polar q : imag q <> zero3 ->
  let t := acos (qw q / qmag q) in 0 < qmag q /\ 0 < t < PI /\
  q = qscale (qmag q) (quat_of (scale3 (sin t) (unit3 (imag q))) (cos t)) /\ qmag q * sin t = mag3 (imag q).
Proof.
  intros H t. pose proof (mag_pos _ H) as P. pose proof (mag_sq (imag q)) as MS. pose proof (qmag_sq q) as QS.
  assert (E : qmag2 q = mag2_3 (imag q) + qw q * qw q) by (unfold qmag2, mag2_3, dot3; un3; ring).
  assert (Pq : 0 < qmag q) by (unfold qmag; apply sqrt_lt_R0; nra).
  assert (B : -1 < qw q / qmag q < 1).
  { assert (S : qw q * qw q < qmag q * qmag q) by nra. split.
    - apply (Rmult_lt_reg_r (qmag q)); [exact Pq|]. unfold Rdiv. rewrite Rmult_assoc, Rinv_l by lra. nra.
    - apply (Rmult_lt_reg_r (qmag q)); [exact Pq|]. unfold Rdiv. rewrite Rmult_assoc, Rinv_l by lra. nra. }
  assert (Sin : qmag q * sin t = mag3 (imag q)).
  { unfold t. rewrite sin_acos by lra. unfold mag3.
    replace (qmag q) with (sqrt (qmag q * qmag q)) at 1 by (apply sqrt_square; lra). rewrite <- sqrt_mult; [|nra|unfold Rsqr; nra].
    f_equal. rewrite <- MS. unfold Rsqr. transitivity (qmag q * qmag q - qw q * qw q); [field; lra|]. lra. }
  split; [exact Pq|]. split; [|split; [|exact Sin]].
  - now apply acos_bound_lt.
  - assert (Cos : qmag q * cos t = qw q) by (unfold t; rewrite cos_acos by lra; field; lra).
    transitivity (quat_of (scale3 (mag3 (imag q)) (unit3 (imag q))) (qw q)); [rewrite unit_scale by assumption; destruct q; reflexivity|].
    rewrite <- Sin, <- Cos at 1. generalize (unit3 (imag q)). intros u. by4; ring.
Qed.
Lemma qexp_qlog q : imag q <> zero3 -> exists l, qlog q = Some l /\ qexp l = q.
Proof.
  intros H. destruct (quat_polar q H) as (Pq & [T0 T1] & E & _). set (t := acos (qw q / qmag q)) in *. pose proof (mag_pos _ H) as P.
  unfold qlog. destruct (Req_EM_T (mag3 (imag q)) 0); [lra|]. eexists. split; [reflexivity|]. fold t.
  assert (V : scale3 (/ mag3 (imag q)) (scale3 t (imag q)) = scale3 t (unit3 (imag q))) by (unfold unit3; by3; field; lra). rewrite V.
  set (u := unit3 (imag q)) in *. assert (Hu : is_unit u) by now apply unit_unit.
  assert (M : mag3 (scale3 t u) = t) by (rewrite mag_scale, mag_unit, Rabs_pos_eq by (assumption || lra); ring).
  assert (N : scale3 t u <> zero3) by (intros Z; apply mag_zero in Z; rewrite M in Z; lra).
  rewrite qexp_nonzero by exact N. cbn [qw quat_of]. change (imag (quat_of (scale3 t u) (ln (qmag q)))) with (scale3 t u). rewrite M, exp_ln by assumption.
  transitivity (qscale (qmag q) (quat_of (scale3 (sin t) u) (cos t))); [|now symmetry]. f_equal. f_equal. f_equal. unfold unit3 at 1. rewrite M. by3; field; lra.
Qed.
Lemma qlog_real q : imag q = zero3 -> qlog q = None.
Proof. intros H. unfold qlog. destruct (Req_EM_T (mag3 (imag q)) 0) as [|N]; [reflexivity|]. exfalso. apply N, mag_zero, H. Qed.
Lemma qlog_qexp q : imag q <> zero3 -> mag3 (imag q) < PI -> qlog (qexp q) = Some q.
Proof.
  intros H Hpi. pose proof (mag_pos _ H) as P. rewrite qexp_nonzero by assumption. set (m := mag3 (imag q)) in *. set (u := unit3 (imag q)).
  assert (Hu : is_unit u) by now apply unit_unit. pose proof (exp_pos (qw q)) as Pe. assert (Ps : 0 < sin m) by (apply sin_gt_0; lra).
  set (e := qscale (exp (qw q)) (quat_of (scale3 (sin m) u) (cos m))).
  assert (Me : qmag e = exp (qw q)) by (unfold e; rewrite qmag_scale, qmag_unit by (lra || now apply trig_unit); ring).
  assert (Ie : imag e = scale3 (exp (qw q) * sin m) u) by (unfold e; by3; ring).
  assert (Mi : mag3 (imag e) = exp (qw q) * sin m) by (rewrite Ie, mag_scale, mag_unit, Rabs_pos_eq by (assumption || nra); ring).
  unfold qlog. rewrite Mi, Me. destruct (Req_EM_T (exp (qw q) * sin m) 0) as [Z|Z]; [exfalso; nra|]. f_equal.
  assert (C : qw e / exp (qw q) = cos m) by (unfold e; cbn; field; lra). rewrite C, acos_cos by lra. rewrite ln_exp, Ie.
  transitivity (quat_of (scale3 m u) (qw q)).
  - f_equal. by3; field; nra.
  - unfold u, m. rewrite unit_scale by assumption. destruct q; reflexivity.
Qed.
Lemma qpow_nonzero q a : imag q <> zero3 -> qpow q a = Some (qscale (Rpower (qmag q) a)
    (quat_of (scale3 (sin (a * acos (qw q / qmag q))) (unit3 (imag q))) (cos (a * acos (qw q / qmag q))))).
Proof.
  intros H. destruct (quat_polar q H) as (Pq & _). unfold qpow. destruct (Req_EM_T (qmag q) 0); [lra|]. pose proof (is_zero3_spec (imag q)) as Z. destruct (is_zero3 (imag q)); [contradiction|reflexivity].
Qed.
Lemma qscale_mult j k p q : qmult (qscale j p) (qscale k q) = qscale (j * k) (qmult p q).
Proof. by4; ring. Qed.
Lemma qpow_add q a b pa pb : imag q <> zero3 -> qpow q a = Some pa -> qpow q b = Some pb -> qpow q (a + b) = Some (qmult pa pb).
Proof.
  intros H. rewrite !qpow_nonzero by assumption. intros Ea Eb. injection Ea as <-. injection Eb as <-. f_equal. rewrite qscale_mult, Rpower_plus. f_equal.
  set (t := acos _). set (u := unit3 _). assert (Hu : is_unit u) by now apply unit_unit. unfold is_unit, mag2_3 in Hu. rewrite dot3_def in Hu.
  rewrite Rmult_plus_distr_r, sin_plus, cos_plus. by4; try ring.
  transitivity (cos (a * t) * cos (b * t) - sin (a * t) * sin (b * t) * (vx u * vx u + vy u * vy u + vz u * vz u)); [rewrite Hu; ring|ring].
Qed.
Lemma qpow_1 q : imag q <> zero3 -> qpow q 1 = Some q.
Proof.
  intros H. rewrite qpow_nonzero by assumption. destruct (quat_polar q H) as (Pq & _ & E & _). f_equal. rewrite Rmult_1_l, Rpower_1 by assumption. now symmetry.
Qed.
Lemma qpow_0 q : imag q <> zero3 -> qpow q 0 = Some qident.
Proof.
  intros H. rewrite qpow_nonzero by assumption. destruct (quat_polar q H) as (Pq & _). f_equal. rewrite Rmult_0_l, Rpower_O, sin_0, cos_0 by assumption. by4; ring.
Qed.
Lemma qpow_real q a : imag q = zero3 -> qw q <> 0 -> qpow q a = None.
Proof.
  intros H Hw. unfold qpow. destruct (Req_EM_T (qmag q) 0) as [Z|Z].
  - exfalso. assert (qmag2 q = 0) by (rewrite <- qmag_sq, Z; ring). apply qmag2_zero in H0. rewrite H0 in Hw. cbn in Hw. lra.
  - pose proof (is_zero3_spec (imag q)) as S. destruct (is_zero3 (imag q)); [reflexivity|contradiction].
Qed.
Lemma angular_velocity_back q : qmag2 q = 1 -> qw q <> -1 -> qexp (quat_of (scale3 (1/2) (to_angular_velocity q)) 0) = q.
Proof.
  intros H Hw. unfold to_angular_velocity. pose proof (is_zero3_spec (imag q)) as Z. destruct (unit_parts q H) as [B E]. rewrite clamp_id by assumption. destruct (is_zero3 (imag q)).
  - rewrite qexp_zero by (by3; ring). cbn [qw quat_of]. rewrite exp_0. destruct q as [x y z w]. injection Z as -> -> ->. unfold qmag2 in H. un3.
    assert (w = 1) by nra. subst. by4; ring.
  - assert (Hq : qmag q = 1) by now apply qmag_unit. destruct (quat_polar q Z) as (_ & [T0 T1] & P & _). rewrite Hq in *.
    replace (qw q / 1) with (qw q) in * by field. set (t := acos (qw q)) in *. set (u := unit3 (imag q)) in *. assert (Hu : is_unit u) by now apply unit_unit.
    replace (scale3 (1/2) (scale3 (2 * t) u)) with (scale3 t u) by (by3; field).
    assert (M : mag3 (scale3 t u) = t) by (rewrite mag_scale, mag_unit, Rabs_pos_eq by (assumption || lra); ring).
    assert (N : scale3 t u <> zero3) by (intros W; apply mag_zero in W; rewrite M in W; lra).
    rewrite qexp_nonzero by exact N. cbn [qw quat_of]. change (imag (quat_of (scale3 t u) 0)) with (scale3 t u). rewrite M, exp_0. transitivity (qscale 1 (quat_of (scale3 (sin t) u) (cos t))); [|now symmetry]. f_equal. f_equal. f_equal.
    unfold unit3 at 1. rewrite M. by3; field; lra.
Qed.
