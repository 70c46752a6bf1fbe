(** Solid shapes as sets of points of N-dimensional Euclidean space, and what the queries of a shape mean. *)
From Coq Require Import Reals Arith.
From Verif Require Import PerlinSpec VecNSpec Ord RectModel RectArithModel.
Open Scope R_scope.

Definition region := (nat -> R) -> Prop.
(** A set of points only depends on the N coordinates that exist. *)
Definition respects (N : nat) (X : region) : Prop := forall p q, same N p q -> X p -> X q.
Definition meets (X Y : region) : Prop := exists p, X p /\ Y p.
(** [p] is a point of [X] as far as possible in direction [d]. *)
Definition is_support (N : nat) (X : region) (d p : nat -> R) : Prop := X p /\ forall q, X q -> inner N q d <= inner N p d.
(** [q] is a point of [X] nearest to [p]. *)
Definition is_nearest (N : nat) (X : region) (p q : nat -> R) : Prop := X q /\ forall q', X q' -> distance N p q <= distance N p q'.
(** [v] is the distance from [p] to the surface, negated inside the shape. *)
Definition signed_distance (N : nat) (inside surface : region) (p : nat -> R) (v : R) : Prop :=
  (exists q, is_nearest N surface p q /\ Rabs v = distance N p q) /\ (v <= 0 <-> inside p).
(** A box as a set of points. *)
Definition in_box (N : nat) (b : @rect R_ord) : region := fun p => forall i, (i < N)%nat -> (lo b i : R) <= p i <= hi b i.
(** The smallest box around a set of points. *)
Definition tight_box (N : nat) (X : region) (b : @rect R_ord) : Prop :=
  (forall p, X p -> in_box N b p) /\
  forall i, (i < N)%nat -> (exists p, X p /\ p i = (lo b i : R)) /\ (exists p, X p /\ p i = (hi b i : R)).
(** The numbers in an interval whose ends may be infinite. *)
Definition in_interval (iv : interval) (s : R) : Prop :=
  match lo iv 0%nat with NInf => True | Fin a => a <= s | PInf => False end /\
  match hi iv 0%nat with NInf => False | Fin b => s <= b | PInf => True end.
(** The interval of multiples of the direction at which a ray is in the shape. *)
Definition ray_in (X : region) (origin direction : nat -> R) (iv : interval) : Prop :=
  forall s, in_interval iv s <-> X (fun i => origin i + s * direction i).
Definition convex (X : region) : Prop := forall p q t, X p -> X q -> 0 <= t <= 1 -> X (fun i => (1 - t) * p i + t * q i).

(** Solid ball and its surface. *)
Definition ball (N : nat) (c : nat -> R) (r : R) : region := fun p => distance N p c <= r.
Definition sphere_surface (N : nat) (c : nat -> R) (r : R) : region := fun p => distance N p c = r.
(** The plane through [p0] perpendicular to [n] and the half-space behind it. *)
Definition on_plane (N : nat) (n p0 : nat -> R) : region := fun p => inner N (fun i => p i - p0 i) n = 0.
Definition behind_plane (N : nat) (n p0 : nat -> R) : region := fun p => inner N (fun i => p i - p0 i) n <= 0.
(** The convex hull of [k] points. *)
Definition hull (N k : nat) (pts : nat -> nat -> R) : region := fun p => exists w : nat -> R,
  (forall j, (j < k)%nat -> 0 <= w j) /\ rsum k w = 1 /\ same N p (fun i => rsum k (fun j => w j * pts j i)).
(** The same by equations: the points with n . p + d = 0, and those behind them. *)
Definition plane_set (N : nat) (n : nat -> R) (d : R) : region := fun p => inner N n p + d = 0.
Definition half_space (N : nat) (n : nat -> R) (d : R) : region := fun p => inner N n p + d <= 0.
(** The point at fraction [t] of the way from [p0] to [p1]. *)
Definition along (p0 p1 : nat -> R) (t : R) : nat -> R := fun i => p0 i + t * (p1 i - p0 i).
(** The points within [r] of the segment, and the surface of that set: the points at distance exactly [r]. *)
Definition capsule (N : nat) (p0 p1 : nat -> R) (r : R) : region := fun p => exists t, 0 <= t <= 1 /\ distance N p (along p0 p1 t) <= r.
Definition capsule_surface (N : nat) (p0 p1 : nat -> R) (r : R) : region := fun p =>
  (exists t, 0 <= t <= 1 /\ distance N p (along p0 p1 t) = r) /\ forall t, 0 <= t <= 1 -> r <= distance N p (along p0 p1 t).
(** The points within [r] of a point of the segment, perpendicularly to the axis; and their surface: the two caps and the wall. *)
Definition cylinder_at (N : nat) (p0 p1 p : nat -> R) (t rho : R) : Prop :=
  inner N (fun i => p i - along p0 p1 t i) (fun i => p1 i - p0 i) = 0 /\ distance N p (along p0 p1 t) = rho.
Definition cylinder (N : nat) (p0 p1 : nat -> R) (r : R) : region := fun p => exists t rho,
  cylinder_at N p0 p1 p t rho /\ 0 <= t <= 1 /\ rho <= r.
Definition cylinder_surface (N : nat) (p0 p1 : nat -> R) (r : R) : region := fun p => exists t rho,
  cylinder_at N p0 p1 p t rho /\ 0 <= t <= 1 /\ rho <= r /\ (t = 0 \/ t = 1 \/ rho = r).
