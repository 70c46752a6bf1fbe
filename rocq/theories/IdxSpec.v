(** Values of a signed type. *)
From Coq Require Import ZArith List.
From Verif Require Import RasterModel.
Import ListNotations.
Open Scope Z_scope.

(** z is a value of the signed type of w bits. *)
Definition in_type (w z : Z) : Prop := - 2 ^ (w - 1) <= z < 2 ^ (w - 1).
(** The product of the numbers. *)
Definition product (l : list Z) : Z := fold_right Z.mul 1 l.
(** Extents and coordinates on which an edge behaviour is free of undefined behaviour. *)
Definition edge_safe (w : Z) (e : edge) (m c : Z) : Prop :=
  match e with
  | EClamp => 0 < m
  | EPeriodic => 0 < m <= 2 ^ (w - 2)
  | EMirror => 2 <= m <= 2 ^ 31 /\ c <> - 2 ^ (w - 1)
  | EConstant => 0 <= c < m
  end.
(** z is a value of the type other than the greatest. *)
Definition room (w z : Z) : Prop := in_type w z /\ z < 2 ^ (w - 1) - 1.
