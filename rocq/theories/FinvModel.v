(** Determinants and inverses of 2 x 2 and 3 x 3 matrices of floating-point numbers (see FmaModel.v for the numbers and operators). *)
From Coq Require Import Reals ZArith.
From Flocq Require Import Core BinarySingleNaN.
From Verif Require Import FmaModel FquadModel.

Open Scope nat_scope.
Section Model.
Variable prec emax : Z.
Context {Hprec : Prec_gt_0 prec} {Hemax : Prec_lt_emax prec emax}.
Notation float := (binary_float prec emax).
(** The arrays of 4 and 9 elements are given by row and column: element n of the array is m (n / cols) (n mod cols). *)
Notation matrix := (nat -> nat -> float).
(** MatrixDet.h:50-53: det2x2 of individual parameters. *)
Definition fl_det2 (a b c d : float) : float := fl_diff_of_products a d b c.
(** MatrixInv.h:50-62: inv2x2. [None]: the function returns false. The element -b / det is (-b) / det. *)
Definition fl_inv2 (m : matrix) : option matrix :=
  let a := m 0 0 in let b := m 0 1 in let c := m 1 0 in let d := m 1 1 in
  let det := fl_det2 a b c d in
  if fl_eqb prec emax det (fl_lit prec emax 0 0) then None
  else Some (fun r k => match r, k with
    | 0, 0 => fl_div prec emax d det
    | 0, _ => fl_div prec emax (fl_neg prec emax b) det
    | _, 0 => fl_div prec emax (fl_neg prec emax c) det
    | _, _ => fl_div prec emax a det
    end).
(** MatrixDet.h:36-40: cofac, a b - c d + e f. *)
Definition fl_cofac (a b c d e f : float) : float := fl_multiply_add e f (fl_diff_of_products a b c d).
(** MatrixDet.h:61-84: det3x3 (of an array, and of individual parameters). *)
Definition fl_det3 (m : matrix) : float :=
  fl_cofac (m 0 0) (fl_det2 (m 1 1) (m 1 2) (m 2 1) (m 2 2)) (m 0 1) (fl_det2 (m 1 0) (m 1 2) (m 2 0) (m 2 2)) (m 0 2) (fl_det2 (m 1 0) (m 1 1) (m 2 0) (m 2 1)).
(** MatrixInv.h:88-100: the numerators of the elements of the inverse. *)
Definition fl_adj (m : matrix) (r k : nat) : float :=
  let a := m 0 0 in let b := m 0 1 in let c := m 0 2 in
  let d := m 1 0 in let e := m 1 1 in let f := m 1 2 in
  let g := m 2 0 in let h := m 2 1 in let i := m 2 2 in
  match r, k with
  | 0, 0 => fl_det2 i h f e | 0, 1 => fl_det2 h i b c | 0, _ => fl_det2 f e c b
  | 1, 0 => fl_det2 g i d f | 1, 1 => fl_det2 i g c a | 1, _ => fl_det2 d f a c
  | _, 0 => fl_det2 h g e d | _, 1 => fl_det2 g h a b | _, _ => fl_det2 e d b a
  end.
(** MatrixInv.h:79-85: the determinant as inv3x3 computes it. *)
Definition fl_inv3_det (m : matrix) : float :=
  let p0 := fl_det2 (m 2 2) (m 2 1) (m 1 2) (m 1 1) in
  let p1 := fl_det2 (m 2 2) (m 2 1) (m 0 2) (m 0 1) in
  let p2 := fl_det2 (m 1 2) (m 1 1) (m 0 2) (m 0 1) in
  fl_multiply_add (m 2 0) p2 (fl_det2 (m 0 0) (m 1 0) p1 p0).
(** MatrixInv.h:76-104: inv3x3. *)
Definition fl_inv3 (m : matrix) : option matrix :=
  let det := fl_inv3_det m in
  if fl_eqb prec emax det (fl_lit prec emax 0 0) then None else Some (fun r k => fl_div prec emax (fl_adj m r k) det).
End Model.
Arguments fl_det2 {prec emax Hprec Hemax}. Arguments fl_inv2 {prec emax Hprec Hemax}. Arguments fl_cofac {prec emax Hprec Hemax}. Arguments fl_det3 {prec emax Hprec Hemax}.
Arguments fl_adj {prec emax Hprec Hemax}. Arguments fl_inv3_det {prec emax Hprec Hemax}. Arguments fl_inv3 {prec emax Hprec Hemax}.
