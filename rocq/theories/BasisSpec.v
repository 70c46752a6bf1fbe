(** Legendre polynomials by Rodrigues' formula. *)
From Coq Require Import Reals.
Open Scope R_scope.

(** [g] is the derivative of [f] everywhere; the [n]-th derivative. *)
Definition deriv (f g : R -> R) : Prop := forall x, derivable_pt_lim f x (g x).
Fixpoint nth_deriv (n : nat) (f g : R -> R) : Prop :=
  match n with O => forall x, f x = g x | S n => exists h, deriv f h /\ nth_deriv n h g end.
(** (x^2 - 1)^n / (2^n n!), whose n-th derivative is the Legendre polynomial of order n. *)
Definition rodrigues (n : nat) (x : R) : R := (x ^ 2 - 1) ^ n / (2 ^ n * INR (fact n)).
(** The integral of [f] from [a] to [b] is [v]: the change of an antiderivative. *)
Definition integral (f : R -> R) (a b v : R) : Prop := exists F, deriv F f /\ F b - F a = v.
