(** Specification vocabulary for real matrices and vectors. *)
From Coq Require Import Reals Arith.
From Verif Require Import Fld RFld.
Open Scope R_scope.
Definition symmetric (n : nat) (A : mtx R_field) : Prop := forall r c, (r < n)%nat -> (c < n)%nat -> A r c = A c r.
(** v^T A v *)
Definition quadratic_form (n : nat) (A : mtx R_field) (v : nat -> R) : R :=
  @sum R_field n (fun r => @sum R_field n (fun c => v r * A r c * v c)).
Definition positive_definite (n : nat) (A : mtx R_field) : Prop :=
  forall v : nat -> R, (exists i, (i < n)%nat /\ v i <> 0) -> 0 < quadratic_form n A v.
Definition rdot (n : nat) (u v : nat -> R) : R := @sum R_field n (fun i => u i * v i).
(** Families of vectors: [V j k] is component [k] of vector [j]; [N] is the dimension, [p] the number of vectors. *)
Definition in_span (N p : nat) (V : nat -> nat -> R) (x : nat -> R) : Prop :=
  exists t : nat -> R, forall k, (k < N)%nat -> x k = @sum R_field p (fun j => t j * V j k).
Definition independent (N p : nat) (V : nat -> nat -> R) : Prop :=
  forall t : nat -> R, (forall k, (k < N)%nat -> @sum R_field p (fun j => t j * V j k) = 0) -> forall j, (j < p)%nat -> t j = 0.
