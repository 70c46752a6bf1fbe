(** Quaternions of floating-point numbers: products and rotations are close to the exact ones. *)
From Coq Require Import Reals ZArith.
From Flocq Require Import Core BinarySingleNaN.
From Verif Require Import FmaModel FmaSpec FmaProofs FquadModel FmtxSpec Vec3Model QuatModel FqnModel FqnSpec FqnProofs.
Open Scope R_scope.

Section Props.
Variable prec emax : Z.
Context {Hp : Prec_gt_0 prec} {He : Prec_lt_emax prec emax}.

(** Every element of a product of numbers, if none overflowed, is off by at most five roundings of |p| |q|, and what underflow loses. *)
Theorem flq_product_accurate (p q : fl_quat prec emax) : quat_numbers p -> quat_numbers q -> quat_numbers (fl_qmult p q) ->
  quat_near (product_error_bound prec emax 4 (qmag (exact_quat p) * qmag (exact_quat q))) (exact_quat (fl_qmult p q)) (qmult (exact_quat p) (exact_quat q)).
Proof. exact (mult_accurate prec emax p q). Qed.
Print Assumptions flq_product_accurate.

Theorem flq_product_finite : (4 <= prec)%Z -> forall p q : fl_quat prec emax, quat_numbers p -> quat_numbers q ->
  qmag (exact_quat p) * qmag (exact_quat q) <= bpow radix2 (emax - 3) -> quat_numbers (fl_qmult p q).
Proof. exact (qmult_finite prec emax). Qed.
Print Assumptions flq_product_finite.

(** Products of integers are exact while |p| |q| is at most 2^prec. *)
Theorem flq_product_integers : (2 <= prec)%Z -> forall p q : fl_quat prec emax, integral_quat p -> integral_quat q -> qmag (exact_quat p) * qmag (exact_quat q) <= bpow radix2 prec ->
  quat_numbers (fl_qmult p q) /\ exact_quat (fl_qmult p q) = qmult (exact_quat p) (exact_quat q).
Proof. exact (mult_integers prec emax). Qed.
Print Assumptions flq_product_integers.

(** The conjugate is exact, and undoes itself for all data, NaN included. *)
Theorem flq_conjugate (q : fl_quat prec emax) : exact_quat (fl_conj q) = conj (exact_quat q) /\ (quat_numbers q -> quat_numbers (fl_conj q)) /\ fl_conj (fl_conj q) = q.
Proof. exact (Logic.conj (conj_exact prec emax q) (Logic.conj (conj_numbers prec emax q) (conj_conj prec emax q))). Qed.
Print Assumptions flq_conjugate.

(** The identity changes no quaternion or vector of numbers, but for signs of zeros; it turns a vector with an infinite element into NaNs. *)
Theorem flq_identity (q : fl_quat prec emax) (v : fl_vec3 prec emax) :
  (quat_numbers q -> same_quat (fl_qmult fl_qident q) q /\ same_quat (fl_qmult q fl_qident) q) /\
  (vec3_numbers v -> same_vec3 (fl_qrot fl_qident v) v /\ same_vec3 (fl_qrot_inv v fl_qident) v).
Proof.
  split; [intros N; split|exact (rot_ident prec emax v)].
  - exact (mult_ident_l prec emax q false false false N).
  - exact (mult_ident_r prec emax q false false false N).
Qed.
Print Assumptions flq_identity.
Theorem flq_identity_infinite_refuted (y z : binary_float prec emax) s : fl_qrot fl_qident (FV (B754_infinity s) y z) = FV B754_nan B754_nan B754_nan.
Proof. exact (ident_infinite prec emax y z s). Qed.
Print Assumptions flq_identity_infinite_refuted.

(** Rotation, and rotation by the inverse, of magnitude k of the quaternion and length m of the vector, not too large: the results are
    numbers within [rotation_error] of the exact ones. *)
Theorem flq_rotation_accurate : (8 <= prec)%Z -> forall (q : fl_quat prec emax) (v : fl_vec3 prec emax), quat_numbers q -> vec3_numbers v ->
  let k := qmag (exact_quat q) in let m := mag3 (exact_vec3 v) in (1 + k * m) * (1 + k) <= bpow radix2 (emax - 5) ->
  (vec3_numbers (fl_qrot q v) /\ vec3_near (rotation_error prec emax k m) (exact_vec3 (fl_qrot q v)) (qrot (exact_quat q) (exact_vec3 v))) /\
  (vec3_numbers (fl_qrot_inv v q) /\ vec3_near (rotation_error prec emax k m) (exact_vec3 (fl_qrot_inv v q)) (qrot_inv (exact_vec3 v) (exact_quat q))).
Proof. exact (rot_both prec emax). Qed.
Print Assumptions flq_rotation_accurate.

(** The length changes by the factor k^2, up to twice that error. *)
Theorem flq_rotation_length : (8 <= prec)%Z -> forall (q : fl_quat prec emax) (v : fl_vec3 prec emax), quat_numbers q -> vec3_numbers v ->
  let k := qmag (exact_quat q) in let m := mag3 (exact_vec3 v) in (1 + k * m) * (1 + k) <= bpow radix2 (emax - 5) ->
  Rabs (mag3 (exact_vec3 (fl_qrot q v)) - k * k * m) <= 2 * rotation_error prec emax k m.
Proof. exact (rot_length prec emax). Qed.
Print Assumptions flq_rotation_length.

(** Rotating back gives k^4 times the vector, up to the error e of the first rotation, scaled, and that of the second. *)
Theorem flq_round_trip : (8 <= prec)%Z -> forall (q : fl_quat prec emax) (v : fl_vec3 prec emax), quat_numbers q -> vec3_numbers v ->
  let k := qmag (exact_quat q) in let m := mag3 (exact_vec3 v) in let e := rotation_error prec emax k m in let m' := k * k * m + 2 * e in
  (1 + k * m) * (1 + k) <= bpow radix2 (emax - 5) -> (1 + k * m') * (1 + k) <= bpow radix2 (emax - 5) ->
  vec3_numbers (fl_qrot_inv (fl_qrot q v) q) /\
  vec3_near (rotation_error prec emax k m' + 2 * (k * k * e)) (exact_vec3 (fl_qrot_inv (fl_qrot q v) q)) (scale3 (k * k * (k * k)) (exact_vec3 v)).
Proof. exact (round_trip prec emax). Qed.
Print Assumptions flq_round_trip.
End Props.

(** Doubles, and a quaternion of magnitude exactly 1 (all elements 1/2: it permutes the axes): a small element next to a large one is lost,
    and not restored by the inverse; a vector of finite elements becomes infinite though its exact image is itself. *)
Theorem flq_round_trip_refuted : exists (q : fl_quat 53 1024) (v : fl_vec3 53 1024), quat_numbers q /\ qmag (exact_quat q) = 1 /\ vec3_numbers v /\
  vz (qrot (exact_quat q) (exact_vec3 v)) = bpow radix2 (-60) /\ B2R (fv_z (fl_qrot q v)) = 0 /\
  B2R (fv_y v) = bpow radix2 (-60) /\ B2R (fv_y (fl_qrot_inv (fl_qrot q v) q)) = 0.
Proof. exact lost_rotation. Qed.
Print Assumptions flq_round_trip_refuted.
Theorem flq_rotation_overflow_refuted : exists (q : fl_quat 53 1024) (v : fl_vec3 53 1024), quat_numbers q /\ qmag (exact_quat q) = 1 /\ vec3_numbers v /\
  qrot (exact_quat q) (exact_vec3 v) = exact_vec3 v /\ fl_qrot q v = FV (B754_infinity false) (B754_infinity false) (B754_infinity false).
Proof. exact huge_rotation. Qed.
Print Assumptions flq_rotation_overflow_refuted.

(** The hypotheses can hold: (3, 4, 0) rotated by that quaternion is (0, 3, 4), and the error allowed is less than 2^-46. *)
Example flq_rotation_example : let q := FQ (dbl 1 (-1)) (dbl 1 (-1)) (dbl 1 (-1)) (dbl 1 (-1)) in let v := FV (dbl 3 0) (dbl 4 0) (dbl 0 0) in
  quat_numbers q /\ vec3_numbers v /\ (1 + qmag (exact_quat q) * mag3 (exact_vec3 v)) * (1 + qmag (exact_quat q)) <= bpow radix2 (1024 - 5) /\
  rotation_error 53 1024 (qmag (exact_quat q)) (mag3 (exact_vec3 v)) <= bpow radix2 (-46) /\ fl_qrot q v = FV (dbl 0 0) (dbl 3 0) (dbl 4 0).
Proof. exact rotation_example. Qed.
