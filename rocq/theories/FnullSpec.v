(** The size of the error of a null vector. *)
From Coq Require Import Reals ZArith.
From Flocq Require Import Core BinarySingleNaN.
From Verif Require Import FmaSpec FvecSpec FsolveSpec FpluSpec.
Open Scope R_scope.
Section Spec.
Context {prec emax : Z}.
Notation float := (binary_float prec emax).
(** The bound on the dot product with the basis vector in position r: the error of the substitution, and that of the decomposition times |x|. *)
Definition null_bound (N n : nat) (lu : nat -> nat -> float) (x : nat -> float) (r : nat) : R :=
  total n (fun k => Rabs (lower_part lu r k) *
    ((step prec ^ n - 1) * total n (fun c => Rabs (upper_part lu k c * B2R (x c))) + step prec ^ n * bpow radix2 (emin prec emax - 1) * (INR n + Rabs (B2R (lu k k))))) +
  total N (fun c => plu_bound n lu r c * Rabs (B2R (x c))).
End Spec.
