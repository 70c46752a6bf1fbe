(** Gram-Schmidt orthogonalisation in floating point (see FmaModel.v for the numbers and operators, FprojModel.v for project_on;
    OrthoModel.v has the exact arithmetic). *)
From Coq Require Import Reals ZArith List.
From Flocq Require Import Core BinarySingleNaN.
From Verif Require Import PermModel FmaModel FvecModel FprojModel.

Section Model.
Variable prec emax : Z.
Context {Hprec : Prec_gt_0 prec} {Hemax : Prec_lt_emax prec emax}.
Notation float := (binary_float prec emax).
Notation vector := (nat -> float).
(** Orthogonal.h:193: basis[i] -= basis[i].project_on(basis[j]). *)
Definition fl_ortho_step (N i : nat) (B : nat -> vector) (j : nat) : nat -> vector := upd B i (fl_vsub prec emax (B i) (fl_project_on N (B i) (B j))).
(** Orthogonal.h:188-196: orthogonalize, for dimensions other than two (which have an overload of their own). *)
Definition fl_orthogonalize (N n : nat) (B : nat -> vector) : nat -> vector :=
  fold_left (fun B i => fold_left (fl_ortho_step N i) (seq 0 i) B) (seq 1 (n - 1)) B.
End Model.
Arguments fl_ortho_step {prec emax Hprec Hemax}. Arguments fl_orthogonalize {prec emax Hprec Hemax}.
