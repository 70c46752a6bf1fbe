(** The points of an integer box and their order. *)
From Coq Require Import ZArith List Bool.
Import ListNotations.
Open Scope Z_scope.

(** [p] has the box's dimension and lies between its corners, inclusively. *)
Inductive in_box : list Z -> list Z -> list Z -> Prop :=
| box_nil : in_box [] [] []
| box_cons l lo h hi p pt : l <= p <= h -> in_box lo hi pt -> in_box (l :: lo) (h :: hi) (p :: pt).

(** A non-empty box: lo <= hi on every axis. *)
Definition nonempty_box (lo hi : list Z) : Prop := Forall2 Z.le lo hi.

(** Order of visit: the last coordinate (in loop order) is the most significant. *)
Fixpoint before (p q : list Z) : Prop :=
  match p, q with
  | a :: p', b :: q' => before p' q' \/ (p' = q' /\ a < b)
  | _, _ => False
  end.

(** Coordinate-wise sum. *)
Fixpoint vadd (p q : list Z) : list Z :=
  match p, q with a :: p', b :: q' => (a + b) :: vadd p' q' | _, _ => [] end.
