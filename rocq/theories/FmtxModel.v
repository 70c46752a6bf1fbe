(** Products of matrices and vectors, and affine transforms, of floating-point numbers (see FmaModel.v for the numbers and operators;
    MulModel.v and AffineModel.v have the exact arithmetic, the order of the writes, and aliasing). Every operator rounds: the
    compiler is assumed not to contract x += a * b into a fused operation. A matrix is a function of row and column; only
    elements inside it are read. The functions give the elements of a destination which shares no memory with the operands. *)
From Coq Require Import Reals ZArith Bool.
From Flocq Require Import Core BinarySingleNaN.
From Verif Require Import FmaModel FquadModel.

Section Model.
Variable prec emax : Z.
Context {Hprec : Prec_gt_0 prec} {Hemax : Prec_lt_emax prec emax}.
Notation float := (binary_float prec emax).
Notation vector := (nat -> float).
Notation matrix := (nat -> nat -> float).
(** The loop for (n = 0; n < k; n++) { s += v(n) * w(n); }, by the number of iterations done. *)
Fixpoint fl_accum (k : nat) (v w : vector) (s : float) : float := match k with
  | O => s
  | S n => fl_add prec emax (fl_accum n v w s) (fl_mul prec emax (v n) (w n))
  end.
(** mtxdetail/MatrixMult.h:56-67 and 70-81: mul and mul_acc of matrices; a has [inner] columns and b as many rows. *)
Definition fl_mtx_mul (inner : nat) (a b : matrix) : matrix := fun r c => fl_accum inner (a r) (fun n => b n c) (fl_lit prec emax 0 0).
Definition fl_mtx_mul_acc (inner : nat) (a b d : matrix) : matrix := fun r c => fl_accum inner (a r) (fun n => b n c) (d r c).
(** MatrixMult.h:185-193 and 196-204: matrix * vector. *)
Definition fl_mtx_vec (inner : nat) (a : matrix) (b : vector) : vector := fun r => fl_accum inner (a r) b (fl_lit prec emax 0 0).
Definition fl_mtx_vec_acc (inner : nat) (a : matrix) (b d : vector) : vector := fun r => fl_accum inner (a r) b (d r).
(** MatrixMult.h:238-246: vector * matrix. *)
Definition fl_vec_mtx (inner : nat) (b : vector) (a : matrix) : vector := fun c => fl_accum inner (fun r => a r c) b (fl_lit prec emax 0 0).

(** AffineTransform.h:80-88: the matrices of a transform and of its inverse. *)
Record fl_xform : Type := fl_mkXf { fl_mat : matrix; fl_inv : matrix }.
(** SimpleMatrix.h: a new matrix is the identity. *)
Definition fl_delta : matrix := fun r c => if Nat.eqb r c then fl_one prec emax else fl_lit prec emax 0 0.
(** AffineTransform.h:217: the vector (p, 1). *)
Definition fl_hom (N : nat) (p : vector) : vector := fun i => if Nat.ltb i N then p i else fl_one prec emax.
(** AffineTransform.h:216-220, 225-233, 240-249: apply, apply_vector, apply_normal. *)
Definition fl_apply (N : nat) (xf : fl_xform) (p : vector) : vector := fl_mtx_vec (S N) (fl_mat xf) (fl_hom N p).
Definition fl_apply_vector (N : nat) (xf : fl_xform) (v : vector) : vector := fun r => fl_accum N (fl_mat xf r) v (fl_lit prec emax 0 0).
Definition fl_apply_normal (N : nat) (xf : fl_xform) (n : vector) : vector := fun r => fl_accum N (fun c => fl_inv xf c r) n (fl_lit prec emax 0 0).
(** AffineTransform.h:254-258: apply_inverse. *)
Definition fl_apply_inverse (N : nat) (xf : fl_xform) (p : vector) : vector := fl_mtx_vec (S N) (fl_inv xf) (fl_hom N p).
(** AffineTransform.h:292-297: apply of a transform: first this, then xf. *)
Definition fl_then (N : nat) (this xf : fl_xform) : fl_xform :=
  fl_mkXf (fl_mtx_mul (S N) (fl_mat xf) (fl_mat this)) (fl_mtx_mul (S N) (fl_inv this) (fl_inv xf)).
(** AffineTransform.h:88: the identity. *)
Definition fl_identity : fl_xform := fl_mkXf fl_delta fl_delta.
(** AffineTransform.h:782-790: translation; the elements after the loop. *)
Definition fl_translation (N : nat) (tx : vector) : fl_xform :=
  fl_mkXf (fun r c => if Nat.eqb c N && Nat.ltb r N then tx r else fl_delta r c)
          (fun r c => if Nat.eqb c N && Nat.ltb r N then fl_neg prec emax (tx r) else fl_delta r c).
(** AffineTransform.h:798-806: scale; the elements after the loop. *)
Definition fl_scale (N : nat) (sx : vector) : fl_xform :=
  fl_mkXf (fun r c => if Nat.eqb r c && Nat.ltb r N then sx r else fl_delta r c)
          (fun r c => if Nat.eqb r c && Nat.ltb r N then fl_div prec emax (fl_one prec emax) (sx r) else fl_delta r c).
End Model.
Arguments fl_accum {prec emax Hprec Hemax}. Arguments fl_mtx_mul {prec emax Hprec Hemax}. Arguments fl_mtx_mul_acc {prec emax Hprec Hemax}.
Arguments fl_mtx_vec {prec emax Hprec Hemax}. Arguments fl_mtx_vec_acc {prec emax Hprec Hemax}. Arguments fl_vec_mtx {prec emax Hprec Hemax}. Arguments fl_mat {prec emax}. Arguments fl_inv {prec emax}. Arguments fl_mkXf {prec emax}.
Arguments fl_delta {prec emax Hprec Hemax}. Arguments fl_hom {prec emax Hprec Hemax}. Arguments fl_apply {prec emax Hprec Hemax}. Arguments fl_apply_vector {prec emax Hprec Hemax}. Arguments fl_apply_normal {prec emax Hprec Hemax}.
Arguments fl_apply_inverse {prec emax Hprec Hemax}. Arguments fl_then {prec emax Hprec Hemax}. Arguments fl_identity {prec emax Hprec Hemax}. Arguments fl_translation {prec emax Hprec Hemax}. Arguments fl_scale {prec emax Hprec Hemax}.
