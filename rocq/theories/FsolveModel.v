(** Solving decomposed systems of floating-point numbers (see FmaModel.v for the numbers and operators; PluModel.v has the exact arithmetic). *)
From Coq Require Import Reals ZArith List Bool.
From Flocq Require Import Core BinarySingleNaN.
From Verif Require Import FmaModel FquadModel FcholModel.
Import ListNotations.

Section Model.
Variable prec emax : Z.
Context {Hprec : Prec_gt_0 prec} {Hemax : Prec_lt_emax prec emax}.
Notation float := (binary_float prec emax).
Notation matrix := (nat -> nat -> float).
(** LUDecomp.h:351-353, 297-299, 362-364 and 308-310: subtract the known terms of row [r], column [i] of X, for the columns [cs] of the
    matrix; X(r,i) -= X(c,i) * mx(r,c) rounds twice. *)
Definition fl_sub_terms (lu : matrix) (r i : nat) (cs : list nat) (X : matrix) : matrix :=
  fold_left (fun (X : matrix) c => fl_set X r i (fl_sub prec emax (X r i) (fl_mul prec emax (X c i) (lu r c)))) cs X.
(** LUDecomp.h:347-355: forward substitution, row [r], for the [m] columns of X. *)
Definition fl_forward_row (lu : matrix) (m : nat) (X : matrix) (r : nat) : matrix :=
  fold_left (fun (X : matrix) i => fl_sub_terms lu r i (seq 0 r) X) (seq 0 m) X.
(** LUDecomp.h:358-367 and 304-313: back substitution, row [r]; the columns of the matrix run downwards from n-1 to r+1. *)
Definition fl_backward_row (lu : matrix) (n m : nat) (X : matrix) (r : nat) : matrix :=
  let k := lu r r in
  fold_left (fun (X : matrix) i => let X1 := fl_sub_terms lu r i (rev (seq (S r) (n - S r))) X in fl_set X1 r i (fl_div prec emax (X1 r i) k)) (seq 0 m) X.
Definition fl_backward (lu : matrix) (n m skip : nat) (X : matrix) : matrix := fold_left (fl_backward_row lu n m) (rev (seq skip (n - skip))) X.
(** LUDecomp.h:334-368: backsolve_lu; X initially holds the right-hand sides. *)
Definition fl_backsolve_lu (lu : matrix) (n m skip : nat) (X : matrix) : matrix := fl_backward lu n m skip (fold_left (fl_forward_row lu m) (seq 1 (n - 1)) X).
(** LUDecomp.h:294-301: forward substitution from the permuted right-hand sides. *)
Definition fl_forward_row_plu (lu : matrix) (p : nat -> nat) (B : matrix) (m : nat) (X : matrix) (r : nat) : matrix :=
  fold_left (fun (X : matrix) i => fl_sub_terms lu r i (seq 0 r) (fl_set X r i (B (p r) i))) (seq 0 m) X.
(** LUDecomp.h:273-314: backsolve_plu; [B] and [X] do not overlap. *)
Definition fl_backsolve_plu (lu : matrix) (p : nat -> nat) (n m skip : nat) (B X : matrix) : matrix :=
  fl_backward lu n m skip (fold_left (fl_forward_row_plu lu p B m) (seq 0 n) X).
End Model.
Arguments fl_sub_terms {prec emax Hprec Hemax}. Arguments fl_forward_row {prec emax Hprec Hemax}. Arguments fl_backward_row {prec emax Hprec Hemax}. Arguments fl_backward {prec emax Hprec Hemax}.
Arguments fl_backsolve_lu {prec emax Hprec Hemax}. Arguments fl_forward_row_plu {prec emax Hprec Hemax}. Arguments fl_backsolve_plu {prec emax Hprec Hemax}.
