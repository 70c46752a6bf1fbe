(** Boxes of integers as sets of cells. *)
From Coq Require Import ZArith List.
Import ListNotations.
Open Scope Z_scope.

(** z is a value of the signed type of w bits. *)
Definition fits (w z : Z) : Prop := - 2 ^ (w - 1) <= z < 2 ^ (w - 1).
(** The extremes of every axis are values of the type. *)
Definition box_fits (w : Z) (b : list (Z * Z)) : Prop := Forall (fun '(l, h) => fits w l /\ fits w h) b.
(** The cell with these coordinates is in the box. *)
Definition in_cells (b : list (Z * Z)) (p : list Z) : Prop := Forall2 (fun '(l, h) x => l <= x <= h) b p.
(** The box has exactly n cells. *)
Definition cell_count (b : list (Z * Z)) (n : Z) : Prop := exists cells, NoDup cells /\ (forall p, In p cells <-> in_cells b p) /\ Z.of_nat (length cells) = n.
(** The axes with a vector's coordinates beside them. *)
Definition beside (b : list (Z * Z)) (v : list Z) : list (Z * Z * Z) := combine b v.
(** Coordinatewise sums, differences and products. *)
Fixpoint with_each (f : Z -> Z -> Z) (p v : list Z) : list Z := match p, v with x :: p', y :: v' => f x y :: with_each f p' v' | _, _ => [] end.
