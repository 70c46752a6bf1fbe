(** Null spaces in floating point (see FmaModel.v for the numbers and operators; OrthoModel.v has the exact arithmetic). *)
From Coq Require Import Reals ZArith Arith List Bool.
From Flocq Require Import Core BinarySingleNaN.
From Verif Require Import PermModel FmaModel FquadModel FpluModel.

Section Model.
Variable prec emax : Z.
Context {Hprec : Prec_gt_0 prec} {Hemax : Prec_lt_emax prec emax}.
Notation float := (binary_float prec emax).
Notation matrix := (nat -> nat -> float).
(** Orthogonal.h:164-169: component r of null vector b; x_i -= V(r,c) * X(c,b) rounds twice. *)
Definition fl_null_row (n b : nat) (V : matrix) (x : nat -> float) (r : nat) : nat -> float :=
  let x1 := fold_left (fun (x : nat -> float) c => upd x r (fl_sub prec emax (x r) (fl_mul prec emax (V r c) (x c)))) (seq (S r) (n - S r)) (upd x r (fl_neg prec emax (V r (n + b)%nat))) in
  upd x1 r (fl_div prec emax (x1 r) (V r r)).
(** Orthogonal.h:160-170: null vector b, column b of X. The columns are written one after another and do not read each other,
    so each is modelled by itself, from zeros (Orthogonal.h:147) and a one. *)
Definition fl_null_vector (n : nat) (V : matrix) (b : nat) : nat -> float :=
  fold_left (fl_null_row n b V) (rev (seq 0 n)) (upd (fun _ => fl_lit prec emax 0 0) (b + n) (fl_lit prec emax 1 0)).
(** Orthogonal.h:132-174: nullspace, for the n rows of [bases] with n <= N - 2 (for n = N - 1 it is [orthogonal], for more it does nothing):
    the flag and the null vectors. *)
Definition fl_nullspace (N n : nat) (bases : matrix) : bool * matrix :=
  let d := fl_decomp_plu bases n N in
  if Nat.ltb 0 (fl_degenerate d) then (false, fun _ _ => fl_lit prec emax 0 0) else (true, fl_null_vector n (fl_lu d)).
End Model.
Arguments fl_null_row {prec emax Hprec Hemax}. Arguments fl_null_vector {prec emax Hprec Hemax}. Arguments fl_nullspace {prec emax Hprec Hemax}.
