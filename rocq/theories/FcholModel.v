(** The Cholesky decomposition of floating-point numbers (see FmaModel.v for the numbers and operators; CholModel.v has the exact arithmetic). *)
From Coq Require Import Reals ZArith List Bool.
From Flocq Require Import Core BinarySingleNaN.
From Verif Require Import FmaModel FquadModel.
Import ListNotations.

Section Model.
Variable prec emax : Z.
Context {Hprec : Prec_gt_0 prec} {Hemax : Prec_lt_emax prec emax}.
Notation float := (binary_float prec emax).
Notation matrix := (nat -> nat -> float).
(** An assignment to an element. *)
Definition fl_set (m : matrix) (r c : nat) (x : float) : matrix := fun i j => if Nat.eqb i r && Nat.eqb j c then x else m i j.
(** Cholesky.h:43-46: the element less the already known products; s -= a * b rounds twice. *)
Definition fl_residue (m : matrix) (r c : nat) : float := fold_left (fun s k => fl_sub prec emax s (fl_mul prec emax (m r k) (m c k))) (seq 0 c) (m r c).
(** Cholesky.h:43-55: one element; the state is the matrix and the flag. The square root of a negative number is NaN. *)
Definition fl_chol_elem (r : nat) (st : matrix * bool) (c : nat) : matrix * bool :=
  let (m, ok) := st in
  let s := fl_residue m r c in
  if Nat.eqb r c then (fl_set m r c (fl_sqrt prec emax s), ok && fl_ltb prec emax (fl_lit prec emax 0 0) s)
  else (fl_set (fl_set m c r (fl_lit prec emax 0 0)) r c (fl_div prec emax s (m c c)), ok).
(** Cholesky.h:42: a row. *)
Definition fl_chol_row (st : matrix * bool) (r : nat) : matrix * bool := fold_left (fl_chol_elem r) (seq 0 (S r)) st.
(** Cholesky.h:37-59: cholesky. *)
Definition fl_cholesky (m : matrix) (n : nat) : matrix * bool := fold_left fl_chol_row (seq 0 n) (m, true).
End Model.
Arguments fl_set {prec emax}. Arguments fl_residue {prec emax Hprec Hemax}. Arguments fl_chol_elem {prec emax Hprec Hemax}. Arguments fl_chol_row {prec emax Hprec Hemax}. Arguments fl_cholesky {prec emax Hprec Hemax}.
