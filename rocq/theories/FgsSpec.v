(** The size of what is left of the dot product after one step of Gram-Schmidt. *)
From Coq Require Import Reals ZArith.
From Flocq Require Import Core BinarySingleNaN.
From Verif Require Import FmaSpec FvecSpec FprojSpec.
Open Scope R_scope.
Section Spec.
Context {prec emax : Z}.
Notation float := (binary_float prec emax).
(** The bound of element k of the projection p of x on a (see FprojProps.v). *)
Definition project_bound (N : nat) (x a p : nat -> float) (k : nat) : R :=
  Rabs (B2R (p k)) * sum_error prec emax (S N) (exact_dot N a a) + Rabs (B2R (a k)) * sum_error prec emax (S N) (sum_of_sizes N x a) +
  (exact_dot N a a + sum_error prec emax N (exact_dot N a a) + 1) * bpow radix2 (emin prec emax - 1).
(** The bound on the dot product of y = x - p with a, times the squared length of a: the errors of p, and the rounding of the differences. *)
Definition ortho_step_bound (N : nat) (x a p y : nat -> float) : R :=
  total N (fun k => Rabs (B2R (a k)) * project_bound N x a p k) + bpow radix2 (- prec) * sum_of_sizes N y a * exact_dot N a a.
End Spec.
