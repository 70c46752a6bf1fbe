(** Orthogonality to rows of floating-point numbers, and the size of the error. *)
From Coq Require Import Reals ZArith.
From Flocq Require Import Core BinarySingleNaN.
From Verif Require Import FmaSpec FvecSpec FsolveSpec FpluSpec FlsysSpec.
Open Scope R_scope.
Section Spec.
Context {prec emax : Z}.
Notation float := (binary_float prec emax).
(** No combination of the rows but the one with zeros only vanishes. *)
Definition independent (rows N : nat) (v : nat -> nat -> float) : Prop :=
  forall a : nat -> R, (forall c, (c < N)%nat -> total rows (fun r => a r * B2R (v r c)) = 0) -> forall r, (r < rows)%nat -> a r = 0.
(** The bound on the dot product with the row in position r: the error of the substitution, and that of the decomposition times |o|. *)
Definition ortho_bound (N : nat) (lu : nat -> nat -> float) (o : nat -> float) (r : nat) : R :=
  total (N - 1) (fun k => Rabs (lower_part lu r k) *
    ((step prec ^ N - 1) * total N (fun c => Rabs (upper_part lu k c * B2R (o c))) + step prec ^ N * bpow radix2 (emin prec emax - 1) * (INR N + Rabs (B2R (lu k k))))) +
  total N (fun c => plu_bound (N - 1) lu r c * Rabs (B2R (o c))).
End Spec.
