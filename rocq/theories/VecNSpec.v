(** Euclidean space of dimension N, independently of the library's loops. *)
From Coq Require Import Reals Arith.
From Verif Require Import PerlinSpec.
Open Scope R_scope.

Definition same (N : nat) (a b : nat -> R) : Prop := forall i, (i < N)%nat -> a i = b i.
Definition all_zero (N : nat) (a : nat -> R) : Prop := forall i, (i < N)%nat -> a i = 0.
Definition inner (N : nat) (a b : nat -> R) : R := rsum N (fun i => a i * b i).
Definition length (N : nat) (a : nat -> R) : R := sqrt (inner N a a).
Definition distance (N : nat) (a b : nat -> R) : R := length N (fun i => a i - b i).
