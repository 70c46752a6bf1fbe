(** Specification vocabulary for simplices; the set of a simplex is the convex hull of its vertices (ShapeSpec.hull). *)
From Coq Require Import Reals Arith.
From Verif Require Import PerlinSpec VecNSpec ShapeSpec.
Open Scope R_scope.
(** No affine relation between the points. *)
Definition affinely_independent (N k : nat) (pts : nat -> nat -> R) : Prop := forall w : nat -> R,
  rsum k w = 0 -> (forall i, (i < N)%nat -> rsum k (fun j => w j * pts j i) = 0) -> forall j, (j < k)%nat -> w j = 0.
(** No linear relation between the vectors. *)
Definition independent_vectors (N k : nat) (b : nat -> nat -> R) : Prop := forall w : nat -> R,
  (forall i, (i < N)%nat -> rsum k (fun j => w j * b j i) = 0) -> forall j, (j < k)%nat -> w j = 0.
(** Factorial. *)
Fixpoint rfact (n : nat) : R := match n with O => 1 | S n => INR (S n) * rfact n end.
(** The orthogonal projection of [p] to the span of the points lies in their hull. *)
Definition faces (N k : nat) (pts : nat -> nat -> R) (p : nat -> R) : Prop :=
  exists q, hull N k pts q /\ forall j, (j < k)%nat -> inner N (fun i => p i - q i) (fun i => pts j i - pts 0%nat i) = 0.
(** The line along a direction meets the set. *)
Definition line_meets (X : region) (origin direction : nat -> R) : Prop := exists t, X (fun i => origin i + t * direction i).
(** N - 1 edges at the first of N points, and a direction. *)
Definition trace_bases (N : nat) (pts : nat -> nat -> R) (d : nat -> R) : nat -> nat -> R :=
  fun c => if (c <? N - 1)%nat then fun i => pts (c + 1)%nat i - pts 0%nat i else fun i => - d i.
(** Points by their coordinates, and lists of three. *)
Definition pt2 (x y : R) : nat -> R := fun i => match i with 0%nat => x | 1%nat => y | _ => 0 end.
Definition pt3 (x y z : R) : nat -> R := fun i => match i with 0%nat => x | 1%nat => y | 2%nat => z | _ => 0 end.
Definition three (a b c : nat -> R) : nat -> nat -> R := fun j => match j with 0%nat => a | 1%nat => b | _ => c end.
