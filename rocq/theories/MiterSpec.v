(** The cells of a rectangle of a matrix. *)
From Coq Require Import ZArith List.
Import ListNotations.
Open Scope Z_scope.

(** [n] values of f: f 0, f 1, ... *)
Definition listing {A} (n : Z) (f : Z -> A) : list A := map (fun k => f (Z.of_nat k)) (seq 0 (Z.to_nat n)).
(** The elements of the rows r0 .. r1 and the columns c0 .. c1, both ends included, in row-major order. *)
Definition row_major {A} (r0 c0 r1 c1 : Z) (f : Z -> Z -> A) : list A :=
  let w := c1 - c0 + 1 in listing ((r1 - r0 + 1) * w) (fun k => f (r0 + k / w) (c0 + k mod w)).
(** (r, c) is in that rectangle. *)
Definition in_region (r0 c0 r1 c1 r c : Z) : Prop := r0 <= r <= r1 /\ c0 <= c <= c1.
