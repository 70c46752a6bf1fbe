(** Vectors orthogonal to N - 1 given ones in floating point (see FmaModel.v for the numbers and operators; OrthoModel.v has the exact arithmetic). *)
From Coq Require Import Reals ZArith Arith List Bool.
From Flocq Require Import Core BinarySingleNaN.
From Verif Require Import PermModel FmaModel FquadModel FpluModel.

Section Model.
Variable prec emax : Z.
Context {Hprec : Prec_gt_0 prec} {Hemax : Prec_lt_emax prec emax}.
Notation float := (binary_float prec emax).
Notation matrix := (nat -> nat -> float).
(** Orthogonal.h:86-90: one row; the columns run downwards from N-1 to r+1, o[r] -= o[c] * mx(r,c) rounds twice. *)
Definition fl_orthogonal_row (N : nat) (m : matrix) (o : nat -> float) (r : nat) : nat -> float :=
  let o1 := fold_left (fun (o : nat -> float) c => upd o r (fl_sub prec emax (o r) (fl_mul prec emax (o c) (m r c)))) (rev (seq (S r) (N - S r))) o in
  upd o1 r (fl_div prec emax (o1 r) (m r r)).
(** Orthogonal.h:84-91: the back substitution, from the vector that is zero but for its last element. *)
Definition fl_orthogonal_loop (N : nat) (m : matrix) : nat -> float :=
  fold_left (fl_orthogonal_row N m) (rev (seq 0 (N - 1))) (upd (fun _ => fl_lit prec emax 0 0) (N - 1) (fl_lit prec emax 1 0)).
(** Orthogonal.h:69-94: orthogonal, for the N-1 rows of [v] (in two and three dimensions other overloads are chosen). *)
Definition fl_orthogonal (N : nat) (v : matrix) : nat -> float :=
  let d := fl_decomp_plu v (N - 1) N in
  if Nat.ltb 0 (fl_degenerate d) then (fun _ => fl_lit prec emax 0 0) else fl_orthogonal_loop N (fl_lu d).
End Model.
Arguments fl_orthogonal_row {prec emax Hprec Hemax}. Arguments fl_orthogonal_loop {prec emax Hprec Hemax}. Arguments fl_orthogonal {prec emax Hprec Hemax}.
