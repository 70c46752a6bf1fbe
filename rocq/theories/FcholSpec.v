(** The backward error of a Cholesky decomposition. *)
From Coq Require Import Reals ZArith.
From Flocq Require Import Core BinarySingleNaN.
From Verif Require Import FmaSpec FvecSpec.
Open Scope R_scope.
(** The bound on the difference of element (i, j) of A, j <= i, and of L L^T: j + 3 roundings of [size], the sum of the sizes of the
    element and the products subtracted from it; and what underflow loses, where [d] is the element of L that is divided by. *)
Definition cholesky_bound (prec emax : Z) (j : nat) (size d : R) : R :=
  (step prec ^ (j + 3) - 1) * size + (INR j * step prec ^ (j + 3) + d) * bpow radix2 (emin prec emax - 1).
