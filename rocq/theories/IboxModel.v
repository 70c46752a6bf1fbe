(** Boxes (Rect) of machine integers (RectModel.v and RectArithModel.v have boxes of exact integers). A box is the list of the extremes (lo, hi) of
    its axes, a point or vector the list of its coordinates; both have one entry per axis.

    Signed types of at least the width of int: an operator whose exact result does not fit is undefined behaviour, here [None].
    (Narrower types are promoted first and are not modelled.) Division by 2 truncates and always fits. Unsigned types wrap around. *)
From Coq Require Import ZArith List Bool.
Import ListNotations.
Open Scope Z_scope.

Notation "'do' x <- a ; b" := (match a with Some x => b | None => None end) (at level 200, x name, a at level 100, b at level 200).

Section Signed.
(** The width of the type in bits. *)
Variable w : Z.
(** numeric_limits<T>::lowest() and max(). *)
Definition i_min : Z := - 2 ^ (w - 1).
Definition i_max : Z := 2 ^ (w - 1) - 1.
(** The result of a signed operator. *)
Definition chk (z : Z) : option Z := if (i_min <=? z) && (z <=? i_max) then Some z else None.
(** The operators of vectors act on each coordinate: VecBase.h:415-438, Vec.h:57-63 and 124-130. *)
Fixpoint each {A B} (f : A -> option B) (l : list A) : option (list B) := match l with
  | [] => Some []
  | a :: r => do b <- f a; do s <- each f r; Some (b :: s)
  end.
(** Rect.h:92-94: the default box, one axis. *)
Definition i_default : Z * Z := (i_max, i_min).
(** Rect.h:167-174: spanning_corners, one axis. *)
Definition i_span (a b : Z) : Z * Z := (Z.min a b, Z.max a b).
(** Rect.h:666-668: dimensions; endpoint_measure (1046-1047) is 1. *)
Definition i_dims : list (Z * Z) -> option (list Z) := each (fun '(l, h) => do d <- chk (h - l); chk (d + 1)).
(** Rect.h:655-657: center. *)
Definition i_center : list (Z * Z) -> option (list Z) := each (fun '(l, h) => do s <- chk (h + l); do t <- chk (s + 1); Some (Z.quot t 2)).
(** Rect.h:136-144: from_center, for pairs of a center coordinate and a length. *)
Definition i_from_center : list (Z * Z) -> option (list (Z * Z)) :=
  each (fun '(c, d) => do a <- chk (c - Z.quot d 2); do e <- chk (d - 1); do b <- chk (c + Z.quot e 2); Some (i_span a b)).
(** Rect.h:152-159: from_corner, for pairs of a corner coordinate and a length. *)
Definition i_from_corner : list (Z * Z) -> option (list (Z * Z)) :=
  each (fun '(c, d) => do s <- chk (c + d); do b <- chk (s - 1); Some (i_span c b)).
(** Rect.h:365-367, 376-378 and 778-780: translation by a vector, back, and dilated, for triples of the extremes and a coordinate. *)
Definition i_add : list (Z * Z * Z) -> option (list (Z * Z)) := each (fun '(l, h, t) => do a <- chk (l + t); do b <- chk (h + t); Some (a, b)).
Definition i_sub : list (Z * Z * Z) -> option (list (Z * Z)) := each (fun '(l, h, t) => do a <- chk (l - t); do b <- chk (h - t); Some (a, b)).
Definition i_dilated : list (Z * Z * Z) -> option (list (Z * Z)) := each (fun '(l, h, t) => do a <- chk (l - t); do b <- chk (h + t); Some (a, b)).
(** Rect.h:482-490: scale. *)
Definition i_mul : list (Z * Z * Z) -> option (list (Z * Z)) := each (fun '(l, h, t) => do a <- chk (l * t); do b <- chk (h * t); Some (i_span a b)).
(** Rect.h:674-695: set_dimensions; std::abs of the lowest value is undefined too. *)
Definition i_set_dims : list (Z * Z * Z) -> option (list (Z * Z)) :=
  each (fun '(l, h, d) => do n <- chk (Z.abs d); do s <- chk (h - l); do m <- chk (s + 1); do f <- chk (n - m); let g := Z.quot f 2 in do a <- chk (l - g); do b <- chk (h + g); Some (a, b)).
(** Rect.h:800-807: volume (the product so far is a value of the type). *)
Definition i_volume (b : list (Z * Z)) : option Z :=
  do dims <- i_dims b; fold_left (fun vol d => do v <- vol; chk (v * Z.max d 0)) dims (Some 1).
End Signed.

Section Unsigned.
(** An unsigned type of w bits (at least those of unsigned int). *)
Variable w : Z.
Definition wrap (z : Z) : Z := z mod 2 ^ w.
(** Rect.h:655-657, 666-668 and 136-144, one axis. *)
Definition u_center (l h : Z) : Z := wrap (wrap (h + l) + 1) / 2.
Definition u_dims (l h : Z) : Z := wrap (wrap (h - l) + 1).
Definition u_from_center (c d : Z) : Z * Z := i_span (wrap (c - d / 2)) (wrap (c + wrap (d - 1) / 2)).
(** Rect.h:365-367: translation, one axis. *)
Definition u_add (b : Z * Z) (t : Z) : Z * Z := (wrap (fst b + t), wrap (snd b + t)).
End Unsigned.
