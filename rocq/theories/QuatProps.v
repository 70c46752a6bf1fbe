(** Property C35: quaternions, over the reals. *)
From Coq Require Import Reals Lra.
From Verif Require Import Vec3Model QuatModel GeoSpec QuatProofs.
Open Scope R_scope.

(** Multiplication: associative, identity, multiplicative squared norm, conjugate is the inverse up to the norm. *)
Theorem quaternion_algebra p q r :
  qmult (qmult p q) r = qmult p (qmult q r) /\ qmult qident q = q /\ qmult q qident = q /\
  qmag2 (qmult p q) = qmag2 p * qmag2 q /\ conj (qmult p q) = qmult (conj q) (conj p) /\
  qmult q (conj q) = Q4 0 0 0 (qmag2 q) /\ qmult (conj q) q = Q4 0 0 0 (qmag2 q).
Proof.
  split; [exact (qmult_assoc p q r)|]. split; [exact (qmult_1_l q)|]. split; [exact (qmult_1_r q)|]. split; [exact (qmag2_mult p q)|].
  split; [exact (conj_mult p q)|exact (conj_inverse q)].
Qed.
Print Assumptions quaternion_algebra.
(** q * v for a unit quaternion is a rotation; v * q undoes it; products compose. *)
Theorem quaternion_rotates q : qmag2 q = 1 ->
  is_rotation (qrot q) /\ (forall v, qrot_inv (qrot q v) q = v) /\ (forall v, qrot q (qrot_inv v q) = v).
Proof.
  intros H. split; [exact (qrot_rotation q H)|]. split; intros v; [rewrite qrot_inv_qrot|rewrite qrot_qrot_inv]; rewrite H, Rmult_1_l; apply scale3_1.
Qed.
Print Assumptions quaternion_rotates.
Theorem quaternion_composition p q v : qrot (qmult p q) v = qrot p (qrot q v).
Proof. exact (qrot_mult p q v). Qed.
Print Assumptions quaternion_composition.
(** rotation_from_axis_angle: a unit quaternion that turns by the angle about the axis, whatever the axis's length. *)
Theorem axis_angle_rotation axis t : qmag2 (rotation_from_axis_angle axis t) = 1 /\
  (axis <> zero3 -> forall v, qrot (rotation_from_axis_angle axis t) v = rodrigues (unit3 axis) t v) /\
  (axis = zero3 -> forall v, qrot (rotation_from_axis_angle axis t) v = v).
Proof.
  split; [exact (axis_angle_unit axis t)|]. split; [intros H v; exact (axis_angle_rotates axis t v H)|].
  intros -> v. rewrite axis_angle_zero. exact (qrot_ident v).
Qed.
Print Assumptions axis_angle_rotation.
(** The specification's rotation fixes its axis and adds angles. *)
Theorem rodrigues_sane k s t v : is_unit k -> rodrigues k t k = k /\ rodrigues k s (rodrigues k t v) = rodrigues k (s + t) v /\ rodrigues k 0 v = v.
Proof.
  intros H. split; [exact (rodrigues_axis k t H)|]. split; [exact (rodrigues_add k s t v H)|].
  unfold rodrigues. rewrite cos_0, sin_0. apply v3_eq; cbn; ring.
Qed.
Print Assumptions rodrigues_sane.
(** Conversion to axis and angle and back. *)
Theorem axis_angle_round_trip q : qmag2 q = 1 ->
  let (axis, t) := to_axis_angle q in
  is_unit axis /\ 0 <= t <= 2 * PI /\ (imag q <> zero3 -> rotation_from_axis_angle axis t = q) /\
  (forall v, qrot (rotation_from_axis_angle axis t) v = qrot q v).
Proof.
  intros H. destruct (to_axis_angle q) as [axis t] eqn:E. pose proof (to_axis_angle_range q H) as [B U]. pose proof (to_axis_angle_back q H) as K.
  rewrite E in *. cbn [fst snd] in *. split; [exact U|]. split; [exact B|]. split; [exact K|]. intros v.
  pose proof (is_zero3_spec (imag q)) as Z. destruct (is_zero3 (imag q)); [|now rewrite K].
  destruct (to_axis_angle_real q H Z) as [E' R]. rewrite E' in E. injection E as <- <-. rewrite R. rewrite (axis_angle_rotates (V3 1 0 0) 0 v) by (intros W; injection W; lra).
  apply (rodrigues_sane (unit3 (V3 1 0 0)) 0 0 v). apply unit_unit. intros W; injection W; lra.
Qed.
Print Assumptions axis_angle_round_trip.
(** Angular velocity: the exponential of half of it gives the rotation back, except for the quaternion -1. *)
Theorem angular_velocity_round_trip q : qmag2 q = 1 -> qw q <> -1 -> qexp (quat_of (scale3 (1/2) (to_angular_velocity q)) 0) = q.
Proof. exact (angular_velocity_back q). Qed.
Print Assumptions angular_velocity_round_trip.
(** Exponential and logarithm. *)
Theorem quaternion_exp_log q : qmag (qexp q) = exp (qw q) /\
  (imag q <> zero3 -> exists l, qlog q = Some l /\ qexp l = q) /\
  (imag q <> zero3 -> mag3 (imag q) < PI -> qlog (qexp q) = Some q).
Proof. split; [exact (qexp_mag q)|]. split; [exact (qexp_qlog q)|exact (qlog_qexp q)]. Qed.
Print Assumptions quaternion_exp_log.
(** Real powers. *)
Theorem quaternion_powers q a b : imag q <> zero3 ->
  qpow q 0 = Some qident /\ qpow q 1 = Some q /\
  exists pa pb, qpow q a = Some pa /\ qpow q b = Some pb /\ qpow q (a + b) = Some (qmult pa pb).
Proof.
  intros H. split; [exact (qpow_0 q H)|]. split; [exact (qpow_1 q H)|]. eexists; eexists. split; [exact (qpow_nonzero q a H)|]. split; [exact (qpow_nonzero q b H)|].
  exact (qpow_add q a b _ _ H (qpow_nonzero q a H) (qpow_nonzero q b H)).
Qed.
Print Assumptions quaternion_powers.
(** Logarithm and powers of every real quaternion, the identity rotation among them, are NaN. *)
Theorem quaternion_real_log_refuted w a : qlog (Q4 0 0 0 w) = None /\ (w <> 0 -> qpow (Q4 0 0 0 w) a = None).
Proof. split; [exact (qlog_real (Q4 0 0 0 w) eq_refl)|exact (qpow_real (Q4 0 0 0 w) a eq_refl)]. Qed.
Print Assumptions quaternion_real_log_refuted.
(** rotation_direction_align turns by twice the angle: it aligns two unit vectors only if they are already equal. *)
Theorem quaternion_align_refuted v a : is_unit v -> is_unit a ->
  qrot (rotation_direction_align v a) v = sub3 (scale3 (2 * dot3 v a) a) v /\
  (v <> a -> qrot (rotation_direction_align v a) v <> a).
Proof.
  intros Hv Ha. split; [exact (align_doubles v a Hv Ha)|]. intros N E. exact (N (align_only_equal v a Hv Ha E)).
Qed.
Print Assumptions quaternion_align_refuted.
(** Hypotheses met. *)
Example unit_quaternion : qmag2 (Q4 (1/2) (1/2) (1/2) (1/2)) = 1 /\ qrot (Q4 (1/2) (1/2) (1/2) (1/2)) (V3 1 2 3) = V3 3 1 2 /\ imag (Q4 (1/2) (1/2) (1/2) (1/2)) <> zero3.
Proof.
  split; [unfold qmag2; cbn; field|]. split; [apply v3_eq; unfold qrot; cbn; field|]. cbn. intros E. injection E. lra.
Qed.
Example align_xy : is_unit (V3 1 0 0) /\ is_unit (V3 0 1 0) /\ qrot (rotation_direction_align (V3 1 0 0) (V3 0 1 0)) (V3 1 0 0) = V3 (-1) 0 0.
Proof.
  split; [unfold is_unit, mag2_3, dot3; cbn; ring|]. split; [unfold is_unit, mag2_3, dot3; cbn; ring|]. apply v3_eq; unfold qrot, rotation_direction_align, dot3; cbn; ring.
Qed.
