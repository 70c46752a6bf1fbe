(** quadratic_solve on floating-point numbers (see FmaModel.v for the numbers and operators; RealUtilModel.v has the function on the reals). *)
From Coq Require Import Reals ZArith Bool.
From Flocq Require Import Core BinarySingleNaN.
From Verif Require Import FmaModel.

Section Model.
Variable prec emax : Z.
Context {Hprec : Prec_gt_0 prec} {Hemax : Prec_lt_emax prec emax}.
Notation float := (binary_float prec emax).
(** Literals: the number m * 2^e, rounded; the comparisons < and ==; std::sqrt; std::copysign (on NaN, whose sign is not modelled, the identity). *)
Definition fl_lit (m e : Z) : float := binary_normalize prec emax Hprec Hemax mode_NE m e false.
Definition fl_ltb (x y : float) : bool := Bltb x y.
Definition fl_eqb (x y : float) : bool := Beqb x y.
Definition fl_sqrt (x : float) : float := Bsqrt mode_NE x.
Definition fl_copysign (x y : float) : float := if Bool.eqb (Bsign x) (Bsign y) then x else fl_neg prec emax x.

(** Utils.h:182-195. [None]: the function returns false. The literal -0.5 is a double; where T is float the product by it is exact in
    double, and converting it to T rounds once, so it is the product in T. *)
Definition fl_quadratic_solve (a b c : float) : option (float * float) :=
  let descr := fl_diff_of_products b b (fl_mul prec emax (fl_lit 4 0) a) c in
  if fl_ltb descr (fl_lit 0 0) || (fl_eqb a (fl_lit 0 0) && fl_eqb b (fl_lit 0 0)) then None
  else
    let q := fl_mul prec emax (fl_lit (-1) (-1)) (fl_add prec emax b (fl_copysign (fl_sqrt descr) b)) in
    let x0 := fl_div prec emax q a in
    let x1 := fl_div prec emax c q in
    Some (if negb (fl_eqb a (fl_lit 0 0)) then x0 else x1, if negb (fl_eqb q (fl_lit 0 0)) then x1 else x0).
End Model.
Arguments fl_quadratic_solve {prec emax Hprec Hemax}.
