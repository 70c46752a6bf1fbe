(** The size of the error of a projection. *)
From Coq Require Import Reals ZArith.
From Flocq Require Import Core BinarySingleNaN.
From Verif Require Import FmaSpec FvecSpec.
Open Scope R_scope.
(** What k roundings may change in a sum whose terms have absolute values adding to s, underflow included. *)
Definition sum_error (prec emax : Z) (k : nat) (s : R) : R := (step prec ^ k - 1) * s + INR k * step prec ^ k * bpow radix2 (emin prec emax - 1).
