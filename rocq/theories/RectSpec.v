(** Rects as sets of points. *)
From Coq Require Import List Bool Arith.
From Verif Require Import Ord RectModel.

Section S.
Context {K : ord}.
Variable N : nat.

(** Membership of a point. *)
Definition inside (p : @point K) (r : @rect K) : Prop := forall i, i < N -> le (lo r i) (p i) /\ le (p i) (hi r i).
(** Membership in the interior. *)
Definition interior (p : @point K) (r : @rect K) : Prop := forall i, i < N -> lt (lo r i) (p i) /\ lt (p i) (hi r i).
Definition nonempty (r : @rect K) : Prop := exists p, inside p r.
Definition subset (a b : @rect K) : Prop := forall p, inside p a -> inside p b.
End S.
