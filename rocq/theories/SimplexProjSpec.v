(** What projecting to a simplex should mean. *)
From Coq Require Import Reals.
From Verif Require Import PerlinSpec VecNSpec ShapeSpec.
Open Scope R_scope.

(** [face] lists [k] distinct points out of the [n] points [pts]. *)
Definition chosen_from (k : nat) (face : nat -> nat -> R) (n : nat) (pts : nat -> nat -> R) : Prop :=
  exists m : nat -> nat, (forall j, (j < k)%nat -> (m j < n)%nat) /\ (forall i j, (i < k)%nat -> (j < k)%nat -> m i = m j -> i = j) /\
    forall j, (j < k)%nat -> face j = pts (m j).
(** Combinations of [k] points in which the first [m] have no negative weight; [m] = [k] gives the hull. *)
Definition wedge (N m k : nat) (pts : nat -> nat -> R) (q : nat -> R) : Prop :=
  exists w : nat -> R, (forall j, (j < m)%nat -> 0 <= w j) /\ rsum k w = 1 /\ same N q (fun i => rsum k (fun j => w j * pts j i)).
Definition inside_wedge (N m k : nat) (pts : nat -> nat -> R) (q : nat -> R) : Prop :=
  exists w : nat -> R, (forall j, (j < m)%nat -> 0 < w j) /\ rsum k w = 1 /\ same N q (fun i => rsum k (fun j => w j * pts j i)).
(** A combination of the points in which each has a positive weight: in no hull of fewer of them, if they are independent. *)
Definition inside_hull (N k : nat) (pts : nat -> nat -> R) (q : nat -> R) : Prop :=
  exists w : nat -> R, (forall j, (j < k)%nat -> 0 < w j) /\ rsum k w = 1 /\ same N q (fun i => rsum k (fun j => w j * pts j i)).
(** The union of the facets: the surface of a simplex with [k] = [N] + 1 vertices. *)
Definition facets (N k : nat) (pts : nat -> nat -> R) (q : nat -> R) : Prop :=
  exists w i, (i < k)%nat /\ w i = 0 /\ (forall j, (j < k)%nat -> 0 <= w j) /\ rsum k w = 1 /\ same N q (fun c => rsum k (fun j => w j * pts j c)).
