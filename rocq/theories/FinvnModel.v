(** Inverting matrices of floating-point numbers of any size (see FmaModel.v for the numbers and operators; DetInvModel.v has the exact arithmetic and the buffers). *)
From Coq Require Import Reals ZArith Arith List Bool.
From Flocq Require Import Core BinarySingleNaN.
From Verif Require Import PermModel FmaModel FquadModel FcholModel FsolveModel FpluModel.

Section Model.
Variable prec emax : Z.
Context {Hprec : Prec_gt_0 prec} {Hemax : Prec_lt_emax prec emax}.
Notation float := (binary_float prec emax).
Notation matrix := (nat -> nat -> float).
(** MatrixInv.h:192-197 and 225-230: zeros, and a one in each row. *)
Definition fl_write_perm (n : nat) (p : nat -> nat) : matrix :=
  fold_left (fun (o : matrix) i => fl_set o i (p i) (fl_lit prec emax 1 0)) (seq 0 n) (fun _ _ => fl_lit prec emax 0 0).
(** MatrixInv.h:188-200 and 221-233 invNxN, both matrices row-major (the buffers are in DetInvModel.v): the returned flag and the output. *)
Definition fl_invNxN (out A : matrix) (n : nat) : bool * matrix :=
  let d := fl_decomp_plu A n n in
  if Nat.ltb 0 (fl_degenerate d) then (false, out)
  else (true, fl_backsolve_lu (fl_lu d) n n 0 (fl_write_perm n (fl_reorder d))).
End Model.
Arguments fl_write_perm {prec emax Hprec Hemax}. Arguments fl_invNxN {prec emax Hprec Hemax}.
