(** Solving systems of floating-point numbers (see FmaModel.v for the numbers and operators; PluModel.v has the exact arithmetic). *)
From Coq Require Import Reals ZArith Arith List Bool.
From Flocq Require Import Core BinarySingleNaN.
From Verif Require Import PermModel FmaModel FquadModel FcholModel FsolveModel FpluModel.

Section Model.
Variable prec emax : Z.
Context {Hprec : Prec_gt_0 prec} {Hemax : Prec_lt_emax prec emax}.
Notation float := (binary_float prec emax).
Notation matrix := (nat -> nat -> float).
(** LUDecomp.h:390-401 linear_solve (and 430-441, the branch N >= 5 of the version for vectors): the returned flag, the matrix as it is
    left, and X, which initially holds the right-hand sides.  [None] would be a loop of destructive_apply_permutation that does not end. *)
Definition fl_linear_solve (A : matrix) (n m skip : nat) (X : matrix) : option (bool * matrix * matrix) :=
  let d := fl_decomp_plu A n n in
  if Nat.ltb 0 (fl_degenerate d) then Some (false, fl_lu d, X)
  else match destructive_apply_permutation (fl_reorder d) X n with
       | Some (_, X1) => Some (true, fl_lu d, fl_backsolve_lu (fl_lu d) n m skip X1)
       | None => None
       end.
End Model.
Arguments fl_linear_solve {prec emax Hprec Hemax}.
