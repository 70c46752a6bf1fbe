(** Solutions of decomposed systems, and the size of their residuals. *)
From Coq Require Import Reals ZArith.
From Flocq Require Import Core BinarySingleNaN.
From Verif Require Import FmaSpec FvecSpec.
Open Scope R_scope.
Section Spec.
Context {prec emax : Z}.
Notation float := (binary_float prec emax).
(** A decomposed matrix holds two triangular ones: the lower has ones on its diagonal, which are not stored. *)
Definition lower_part (lu : nat -> nat -> float) (r c : nat) : R := if Nat.ltb c r then B2R (lu r c) else if Nat.eqb c r then 1 else 0.
Definition upper_part (lu : nat -> nat -> float) (r c : nat) : R := if Nat.ltb c r then 0 else B2R (lu r c).
(** Element r of L U x; and of |L| |U| |x|, the absolute values being taken element by element. *)
Definition lu_times (n : nat) (lu : nat -> nat -> float) (x : nat -> float) (r : nat) : R :=
  total n (fun k => lower_part lu r k * total n (fun c => upper_part lu k c * B2R (x c))).
Definition lu_size (n : nat) (lu : nat -> nat -> float) (x : nat -> float) (r : nat) : R :=
  total n (fun k => Rabs (lower_part lu r k) * total n (fun c => Rabs (upper_part lu k c * B2R (x c)))).
(** The bound on element r of the residual b - L U x: 2 n roundings of the size, and what underflow loses. *)
Definition solve_bound (n : nat) (lu : nat -> nat -> float) (x : nat -> float) (r : nat) : R :=
  (step prec ^ (2 * n) - 1) * lu_size n lu x r +
  step prec ^ (2 * n) * bpow radix2 (emin prec emax - 1) * (INR n + total n (fun k => Rabs (lower_part lu r k) * (INR n + Rabs (B2R (lu k k))))).
End Spec.
