(** The exact values of quaternions of floating-point numbers, and the sizes of errors. *)
From Coq Require Import Reals ZArith.
From Flocq Require Import Core BinarySingleNaN.
From Verif Require Import FmaSpec FvecSpec FmtxSpec Vec3Model QuatModel FqnModel.
Open Scope R_scope.

Section Spec.
Context {prec emax : Z}.
(** The real quaternion and vector of the same values (QuatModel.v, Vec3Model.v). *)
Definition exact_quat (q : fl_quat prec emax) : quat := Q4 (B2R (fq_x q)) (B2R (fq_y q)) (B2R (fq_z q)) (B2R (fq_w q)).
Definition exact_vec3 (v : fl_vec3 prec emax) : v3 := V3 (B2R (fv_x v)) (B2R (fv_y v)) (B2R (fv_z v)).
(** No element is infinite or NaN. *)
Definition quat_numbers (q : fl_quat prec emax) : Prop := is_finite (fq_x q) = true /\ is_finite (fq_y q) = true /\ is_finite (fq_z q) = true /\ is_finite (fq_w q) = true.
Definition vec3_numbers (v : fl_vec3 prec emax) : Prop := is_finite (fv_x v) = true /\ is_finite (fv_y v) = true /\ is_finite (fv_z v) = true.
(** All elements are integers. *)
Definition integral_quat (q : fl_quat prec emax) : Prop := integral (fq_x q) /\ integral (fq_y q) /\ integral (fq_z q) /\ integral (fq_w q).
(** The same data, but for signs of zeros. *)
Definition same_quat (p q : fl_quat prec emax) : Prop := same_number (fq_x p) (fq_x q) /\ same_number (fq_y p) (fq_y q) /\ same_number (fq_z p) (fq_z q) /\ same_number (fq_w p) (fq_w q).
Definition same_vec3 (v w : fl_vec3 prec emax) : Prop := same_number (fv_x v) (fv_x w) /\ same_number (fv_y v) (fv_y w) /\ same_number (fv_z v) (fv_z w).
End Spec.
(** Every element of one is within e of that of the other. *)
Definition quat_near (e : R) (p q : quat) : Prop := Rabs (qx p - qx q) <= e /\ Rabs (qy p - qy q) <= e /\ Rabs (qz p - qz q) <= e /\ Rabs (qw p - qw q) <= e.
Definition vec3_near (e : R) (v w : v3) : Prop := Rabs (vx v - vx w) <= e /\ Rabs (vy v - vy w) <= e /\ Rabs (vz v - vz w) <= e.
(** The error of every element of a vector of length m rotated by a quaternion of magnitude k: the first term for rounding, in units of 2^-prec;
    the other for products which underflow, in halves of the least positive number. *)
Definition rotation_error (prec emax : Z) (k m : R) : R := 19 * bpow radix2 (- prec) * (k * k * m) + (5 + 11 * k) * bpow radix2 (emin prec emax - 1).
