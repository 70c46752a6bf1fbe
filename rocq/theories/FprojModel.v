(** Projections of vectors on an axis in floating point (see FmaModel.v for the numbers and operators, FvecModel.v for dot and mag2;
    OrthoModel.v and VecNModel.v have the exact arithmetic). *)
From Coq Require Import Reals ZArith Bool.
From Flocq Require Import Core BinarySingleNaN.
From Verif Require Import FmaModel FquadModel FvecModel.

Section Model.
Variable prec emax : Z.
Context {Hprec : Prec_gt_0 prec} {Hemax : Prec_lt_emax prec emax}.
Notation float := (binary_float prec emax).
Notation vector := (nat -> float).
(** VecBase.h:630-633: project_on; Vec.h:54-63 and 121-131: vector * scalar and vector / scalar, element by element. *)
Definition fl_project_on (N : nat) (x axis : vector) : vector :=
  let m2 := fl_mag2 N axis in
  if negb (fl_eqb prec emax m2 (fl_lit prec emax 0 0)) then fun i => fl_div prec emax (fl_mul prec emax (axis i) (fl_dot N x axis)) m2 else axis.
(** VecBase.h:640-642: fraction_on. *)
Definition fl_fraction_on (N : nat) (x axis : vector) : float := fl_div prec emax (fl_dot N x axis) (fl_mag2 N axis).
End Model.
Arguments fl_project_on {prec emax Hprec Hemax}. Arguments fl_fraction_on {prec emax Hprec Hemax}.
