(** Interpolation as weighted sums of grid values. *)
From Coq Require Import Reals Arith.
From Verif Require Import PerlinSpec.
Open Scope R_scope.

(** Corner [c] of the unit cell, bit [i] giving the side on axis [i]; its multilinear weight at [s]. *)
Definition corner_weight (dim : nat) (s : nat -> R) (c : nat) : R := rprod dim (fun i => if Nat.testbit c i then s i else 1 - s i).
Definition multilinear (dim : nat) (s p : nat -> R) : R := rsum (2 ^ dim) (fun c => corner_weight dim s c * p c).
(** The four Catmull-Rom weights. *)
Definition catmull_rom (k : nat) (s : R) : R :=
  match k with
  | 0%nat => (- s + 2 * s ^ 2 - s ^ 3) / 2
  | 1%nat => (2 - 5 * s ^ 2 + 3 * s ^ 3) / 2
  | 2%nat => (s + 4 * s ^ 2 - 3 * s ^ 3) / 2
  | _ => (- s ^ 2 + s ^ 3) / 2
  end.
(** Grid node [c], its base-4 digit [i] giving the position on axis [i]. *)
Definition digit (c i : nat) : nat := ((c / 4 ^ i) mod 4)%nat.
Definition multicubic (dim : nat) (s p : nat -> R) : R := rsum (4 ^ dim) (fun c => rprod dim (fun i => catmull_rom (digit c i) (s i)) * p c).
(** Index of the grid node at inner corner [c] (bits): digit 1 or 2 on each axis. *)
Fixpoint inner_node (dim c : nat) : nat := match dim with O => 0 | S d => inner_node d c + (if Nat.testbit c d then 2 else 1) * 4 ^ d end.
