(** Vectors of floating-point numbers (see FmaModel.v for the numbers and operators; VecNModel.v and Vec3Model.v have the vectors of reals).
    A vector of N elements is a function from indices; only indices below N are read. *)
From Coq Require Import Reals ZArith Bool.
From Flocq Require Import Core BinarySingleNaN.
From Verif Require Import FmaModel FquadModel.

Section Model.
Variable prec emax : Z.
Context {Hprec : Prec_gt_0 prec} {Hemax : Prec_lt_emax prec emax}.
Notation float := (binary_float prec emax).
Notation vector := (nat -> float).
(** std::max and std::min: the first argument unless the other is strictly greater (less); comparisons with NaN are false. *)
Definition fl_max (a b : float) : float := if fl_ltb prec emax a b then b else a.
Definition fl_min (a b : float) : float := if fl_ltb prec emax b a then b else a.
(** VecBase.h:553-559: dot. The loop, by the number of iterations done. *)
Fixpoint fl_dot (N : nat) (v w : vector) : float := match N with
  | O => fl_lit prec emax 0 0
  | S i => fl_multiply_add (v i) (w i) (fl_dot i v w)
  end.
(** VecBase.h:573-580: mag2. *)
Fixpoint fl_mag2 (N : nat) (v : vector) : float := match N with
  | O => fl_lit prec emax 0 0
  | S i => let xi := v i in fl_multiply_add xi xi (fl_mag2 i v)
  end.
(** VecBase.h:565-567: mag. *)
Definition fl_mag (N : nat) (v : vector) : float := fl_sqrt prec emax (fl_mag2 N v).
(** VecBase.h:538-545: unit. *)
Definition fl_unit (N : nat) (v : vector) : vector := let n := fl_mag N v in fun i => fl_div prec emax (v i) n.
(** VecBase.h:587-589, 596-598: dist and dist2, with sub (the elementwise difference). *)
Definition fl_vsub (v w : vector) : vector := fun i => fl_sub prec emax (v i) (w i).
Definition fl_dist (N : nat) (v w : vector) : float := fl_mag N (fl_vsub v w).
Definition fl_dist2 (N : nat) (v w : vector) : float := fl_mag2 N (fl_vsub v w).
(** VecBase.h:649-657: with_length. *)
Definition fl_with_length (N : nat) (v : vector) (mag : float) : vector :=
  let m2 := fl_mag2 N v in
  if fl_eqb prec emax m2 (fl_lit prec emax 0 0) then fun _ => fl_lit prec emax 0 0
  else fun i => fl_div prec emax (fl_mul prec emax mag (v i)) (fl_sqrt prec emax m2).
(** VecBase.h:681-685: angle_to, of the vector v, to w: the number whose arc cosine is returned. *)
Definition fl_cosine (N : nat) (v w : vector) : float :=
  let c := fl_dot N (fl_unit N w) (fl_unit N v) in
  fl_min (fl_lit prec emax 1 0) (fl_max c (fl_lit prec emax (-1) 0)).
(** Vec3.h:206-218: cross; the elements x, y, z are 0, 1, 2. *)
Definition fl_cross (a b : vector) : vector := fun i => match i with
  | 0%nat => fl_diff_of_products (a 1%nat) (b 2%nat) (a 2%nat) (b 1%nat)
  | 1%nat => fl_diff_of_products (a 2%nat) (b 0%nat) (a 0%nat) (b 2%nat)
  | _ => fl_diff_of_products (a 0%nat) (b 1%nat) (a 1%nat) (b 0%nat)
  end.
End Model.
Arguments fl_dot {prec emax Hprec Hemax}. Arguments fl_mag2 {prec emax Hprec Hemax}. Arguments fl_mag {prec emax Hprec Hemax}. Arguments fl_unit {prec emax Hprec Hemax}.
Arguments fl_dist {prec emax Hprec Hemax}. Arguments fl_dist2 {prec emax Hprec Hemax}. Arguments fl_with_length {prec emax Hprec Hemax}.
Arguments fl_cosine {prec emax Hprec Hemax}. Arguments fl_cross {prec emax Hprec Hemax}.
