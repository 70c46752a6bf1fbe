(** Solids: their boundary, the signed distance to it, and solids made from other solids. *)
From Coq Require Import Reals Arith.
From Verif Require Import PerlinSpec VecNSpec ShapeSpec.
Open Scope R_scope.

(** The points of [X] with points outside [X] arbitrarily near. *)
Definition boundary (N : nat) (X : region) : region := fun q => X q /\ forall e, 0 < e -> exists y, ~ X y /\ distance N q y < e.
(** [v] is the signed distance of [p] from the boundary of the solid [X]: if positive, the distance to a nearest point of [X];
    otherwise its negation is the radius of the largest ball around [p] in [X]. *)
Definition solid_distance (N : nat) (X : region) (p : nat -> R) (v : R) : Prop :=
  (0 < v -> exists q, is_nearest N X p q /\ v = distance N p q) /\
  (v <= 0 -> (forall y, distance N p y <= - v -> X y) /\ forall e, 0 < e -> exists y, ~ X y /\ distance N p y < - v + e).
(** Every point has a nearest point in [X]; true of every non-empty closed set. *)
Definition has_nearest (N : nat) (X : region) : Prop := forall p, exists q, is_nearest N X p q.
(** [q] is what projecting [p] to the boundary of [X] should give. *)
Definition projection (N : nat) (X : region) (p q : nat -> R) : Prop :=
  boundary N X q /\ is_nearest N (boundary N X) p q /\ (~ X p -> is_nearest N X p q).
(** The points within [k] of [X]. *)
Definition dilation (N : nat) (X : region) (k : R) : region := fun p => exists x, X x /\ distance N p x <= k.
(** The points with the first [N] coordinates in [X] and the next one from [lo] to [hi]. *)
Definition prism (N : nat) (X : region) (lo hi : R) : region := fun p => X p /\ lo <= p N <= hi.
(** The frustum over the base [X] at height 1 between the heights [lo] and [hi]: every section is the base scaled by its height, which is
    coordinate [N]; of a range spanning 0 the negative part is left out. *)
Definition frustum_set (N : nat) (X : region) (lo hi : R) : region := fun p =>
  lo <= p N <= hi /\ (lo < 0 < hi -> 0 <= p N) /\ (p N = 0 -> all_zero N p) /\ (p N <> 0 -> X (fun i => p i / p N)).
(** [bottom] is the lowest height of that frustum. *)
Definition frustum_bottom (lo hi bottom : R) : Prop := (lo < 0 < hi /\ bottom = 0) \/ (~ lo < 0 < hi /\ bottom = lo).
(** The point of the line nearest the origin is not at height 0 (coordinate [N]); so the line does not pass the origin. *)
Definition foot_off_plane (N : nat) (o d : nat -> R) : Prop := forall s, inner (S N) (fun i => o i + s * d i) d = 0 -> o N + s * d N <> 0.
