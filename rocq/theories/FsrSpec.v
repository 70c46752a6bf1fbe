(** Rays. *)
From Coq Require Import Reals ZArith.
From Flocq Require Import Core BinarySingleNaN.
From Verif Require Import FvecSpec.
Open Scope R_scope.
(** The exact squared distance from c to the point at parameter t of the ray with origin o and direction d. *)
Definition ray_dist2 {prec emax : Z} (N : nat) (c o d : nat -> binary_float prec emax) (t : R) : R :=
  total N (fun i => (B2R (c i) - (B2R (o i) + t * B2R (d i))) * (B2R (c i) - (B2R (o i) + t * B2R (d i)))).
