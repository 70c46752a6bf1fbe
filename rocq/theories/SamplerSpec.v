(** Specification vocabulary for random sampling. *)
From Coq Require Import List Reals Arith.
From Verif Require Import Vec3Model VecNSpec.
Import ListNotations.
Open Scope R_scope.

(** Numbers as rand<T>() returns them. *)
Definition unit_numbers (u : nat -> R) : Prop := forall k, 0 <= u k <= 1.
(** The choices rand(len - i) can return. *)
Definition choices (n : nat) (c : nat -> nat) : Prop := forall i, (i < n)%nat -> (c i < n - i)%nat.
(** The area of the cap of the unit sphere within the angle [a] of its axis. *)
Definition cap_area (a : R) : R := 2 * PI * (1 - cos a).
(** [d] has the direction of the negative z axis. *)
Definition points_down (d : v3) : Prop := vx d = 0 /\ vy d = 0 /\ vz d < 0.
(** The fraction of the (equally likely) outcomes [l] for which [P] holds. *)
Definition share {A} (P : A -> Prop) (dec : forall a, {P a} + {~ P a}) (l : list A) : R :=
  INR (List.length (filter (fun a => if dec a then true else false) l)) / INR (List.length l).
Definition shorter (N : nat) (d : R) (v : nat -> R) : Prop := length N v <= d.
