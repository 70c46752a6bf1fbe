(** Quaternions of floating-point numbers (see FmaModel.v for the numbers and operators; QuatModel.v has the exact arithmetic). Every
    operator rounds: the compiler is assumed not to contract a product and a sum into a fused operation. *)
From Coq Require Import Reals ZArith.
From Flocq Require Import Core BinarySingleNaN.
From Verif Require Import FmaModel FquadModel.

Section Model.
Variable prec emax : Z.
Context {Hprec : Prec_gt_0 prec} {Hemax : Prec_lt_emax prec emax}.
Notation float := (binary_float prec emax).
Local Notation "x *. y" := (fl_mul prec emax x y) (at level 40, left associativity).
Local Notation "x +. y" := (fl_add prec emax x y) (at level 50, left associativity).
Local Notation "x -. y" := (fl_sub prec emax x y) (at level 50, left associativity).

(** Quaternion.h:25-69: the elements of a quaternion, and of the Vec<T,3> it rotates. *)
Record fl_quat : Type := FQ { fq_x : float; fq_y : float; fq_z : float; fq_w : float }.
Record fl_vec3 : Type := FV { fv_x : float; fv_y : float; fv_z : float }.
(** Quaternion.h:47-52: vector part and real part. *)
Definition fl_quat_of (v : fl_vec3) (w : float) : fl_quat := FQ (fv_x v) (fv_y v) (fv_z v) w.
(** Quaternion.h:75-77. *)
Definition fl_qident : fl_quat := FQ (fl_lit prec emax 0 0) (fl_lit prec emax 0 0) (fl_lit prec emax 0 0) (fl_one prec emax).
(** Quaternion.h:153-158, 167-172. *)
Definition fl_imag (q : fl_quat) : fl_vec3 := FV (fq_x q) (fq_y q) (fq_z q).
Definition fl_conj (q : fl_quat) : fl_quat := FQ (fl_neg prec emax (fq_x q)) (fl_neg prec emax (fq_y q)) (fl_neg prec emax (fq_z q)) (fq_w q).
(** Quaternion.h:175-189. *)
Definition fl_qmult (p q : fl_quat) : fl_quat :=
  let x := fq_x p in let y := fq_y p in let z := fq_z p in let w := fq_w p in
  FQ (w *. fq_x q +. x *. fq_w q +. y *. fq_z q -. z *. fq_y q)
     (w *. fq_y q -. x *. fq_z q +. y *. fq_w q +. z *. fq_x q)
     (w *. fq_z q +. x *. fq_y q -. y *. fq_x q +. z *. fq_w q)
     (w *. fq_w q -. x *. fq_x q -. y *. fq_y q -. z *. fq_z q).
(** Quaternion.h:123-126: q * v, and 133-136: v * q. *)
Definition fl_qrot (q : fl_quat) (v : fl_vec3) : fl_vec3 := fl_imag (fl_qmult (fl_qmult q (fl_quat_of v (fl_lit prec emax 0 0))) (fl_conj q)).
Definition fl_qrot_inv (v : fl_vec3) (q : fl_quat) : fl_vec3 := fl_imag (fl_qmult (fl_qmult (fl_conj q) (fl_quat_of v (fl_lit prec emax 0 0))) q).
End Model.
Arguments FQ {prec emax}. Arguments fq_x {prec emax}. Arguments fq_y {prec emax}. Arguments fq_z {prec emax}. Arguments fq_w {prec emax}.
Arguments FV {prec emax}. Arguments fv_x {prec emax}. Arguments fv_y {prec emax}. Arguments fv_z {prec emax}.
Arguments fl_quat_of {prec emax}. Arguments fl_imag {prec emax}. Arguments fl_conj {prec emax}. Arguments fl_qident {prec emax Hprec Hemax}.
Arguments fl_qmult {prec emax Hprec Hemax}. Arguments fl_qrot {prec emax Hprec Hemax}. Arguments fl_qrot_inv {prec emax Hprec Hemax}.
