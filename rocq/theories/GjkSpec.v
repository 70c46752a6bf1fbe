(** What testing two shapes for an intersection by their support functions should mean. *)
From Coq Require Import Reals Arith.
From Verif Require Import VecNSpec ShapeSpec SimplexSpec.
Open Scope R_scope.

(** [f] gives a farthest point of [X] in each direction; it may fail for the zero vector only. *)
Definition supports_of (N : nat) (X : region) (f : (nat -> R) -> option (nat -> R)) : Prop :=
  (forall d p, f d = Some p -> is_support N X d p) /\ forall d, ~ all_zero N d -> f d <> None.
(** No common point. *)
Definition apart (N : nat) (A B : region) : Prop := forall x y, A x -> B y -> ~ same N x y.
(** Along [v] every point of [B] is farther than every point of [A], by the length of [v] or more. *)
Definition separates (N : nat) (v : nat -> R) (A B : region) : Prop :=
  ~ all_zero N v /\ forall x y, A x -> B y -> inner N x v + length N v * length N v <= inner N y v.
(** Vertices on a parabola, [eps] below the origin; the signs of the x coordinates alternate. *)
Definition zigzag (eps : R) (j : nat) : nat -> R := pt2 ((- 1 / 2) ^ j) (- eps - (1 / 4) ^ j).
