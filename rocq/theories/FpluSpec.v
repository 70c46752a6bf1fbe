(** Products of triangular factors, and the size of the error of a decomposition. *)
From Coq Require Import Reals ZArith.
From Flocq Require Import Core BinarySingleNaN.
From Verif Require Import FmaSpec FvecSpec FsolveSpec.
Open Scope R_scope.
Section Spec.
Context {prec emax : Z}.
Notation float := (binary_float prec emax).
(** Element (r, c) of L U, and of |L| |U|, for a matrix of n rows. *)
Definition lu_product (n : nat) (lu : nat -> nat -> float) (r c : nat) : R := total n (fun k => lower_part lu r k * upper_part lu k c).
Definition lu_product_size (n : nat) (lu : nat -> nat -> float) (r c : nat) : R := total n (fun k => Rabs (lower_part lu r k * upper_part lu k c)).
(** The bound on the difference of element (r, c) of the reordered matrix and of L U: n roundings of the size, and what underflow loses (left of the diagonal also in the quotients by element (c, c)). *)
Definition plu_bound (n : nat) (lu : nat -> nat -> float) (r c : nat) : R :=
  (step prec ^ n - 1) * lu_product_size n lu r c + step prec ^ n * bpow radix2 (emin prec emax - 1) * (INR n + if Nat.ltb c r then Rabs (B2R (lu c c)) else 0).
End Spec.
