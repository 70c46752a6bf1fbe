(** Systems of equations, and the size of the residuals of their solutions. *)
From Coq Require Import Reals ZArith.
From Flocq Require Import Core BinarySingleNaN.
From Verif Require Import FmaSpec FvecSpec FsolveSpec FpluSpec.
Open Scope R_scope.
Section Spec.
Context {prec emax : Z}.
Notation float := (binary_float prec emax).
(** Element r of A x. *)
Definition row_times (n : nat) (A : nat -> nat -> float) (x : nat -> R) (r : nat) : R := total n (fun c => B2R (A r c) * x c).
(** The bound on the residual of the equation in position r: the error of the substitutions, and that of the decomposition times |x|. *)
Definition system_bound (n : nat) (lu : nat -> nat -> float) (x : nat -> float) (r : nat) : R :=
  solve_bound n lu x r + total n (fun c => plu_bound n lu r c * Rabs (B2R (x c))).
End Spec.
