(** What the box intersection tests should decide. *)
From Coq Require Import Reals Arith List.
From Verif Require Import Fld RFld AffineModel Ord RectModel VecNSpec ShapeSpec.
Import ListNotations.
Open Scope R_scope.

(** Some hyperplane has [A] on one side and [B] on the other; both may touch it. *)
Definition divided (N : nat) (A B : region) : Prop :=
  exists v, ~ all_zero N v /\ forall x y, A x -> B y -> inner N x v <= inner N y v.
(** Some ball lies in both. *)
Definition overlap (N : nat) (A B : region) : Prop := exists c r, 0 < r /\ forall p, ball N c r p -> A p /\ B p.
(** A square turned by an eighth of a turn and stretched, with a corner at the origin, and a box that ends at the line through that corner. *)
Definition turned : xformR := mkXf (mat3 [1; 1; 0; 1; -1; 0; 0; 0; 1]) (mat3 [/ 2; / 2; 0; / 2; - / 2; 0; 0; 0; 1]).
Definition unit_box : @rect R_ord := mkRect (K := R_ord) (fun _ => 0) (fun _ => 1).
Definition left_box : @rect R_ord := mkRect (K := R_ord) (fun _ => -1) (fun i => if (i =? 0)%nat then 0 else 1).
