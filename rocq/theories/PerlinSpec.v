(** What Perlin noise is, independently of how the library computes it. *)
From Coq Require Import Reals ZArith Arith.
Open Scope R_scope.

Fixpoint rsum (n : nat) (f : nat -> R) : R := match n with O => 0 | S n => rsum n f + f n end.
Fixpoint rprod (n : nat) (f : nat -> R) : R := match n with O => 1 | S n => rprod n f * f n end.
(** Lattice point below a point. *)
Definition lattice_floor (x : nat -> R) : nat -> Z := fun i => Int_part (x i).
(** The quintic ease curve. *)
Definition ease (t : R) : R := 6 * t ^ 5 - 15 * t ^ 4 + 10 * t ^ 3.
(** Corner [c] of the cell with lowest corner [p]. *)
Definition cell_corner (p : nat -> Z) (c : nat) : nat -> Z := fun i => (p i + if Nat.testbit c i then 1 else 0)%Z.
(** Value at [x] of the plane through zero at lattice point [q] with the slope that [G] assigns to [q]. *)
Definition plane (G : (nat -> Z) -> nat -> R) (N : nat) (q : nat -> Z) (x : nat -> R) : R := rsum N (fun j => (x j - IZR (q j)) * G q j).
(** Weight of corner [c] of cell [p] at [x]. *)
Definition weight (N : nat) (p : nat -> Z) (c : nat) (x : nat -> R) : R :=
  rprod N (fun i => if Nat.testbit c i then ease (x i - IZR (p i)) else 1 - ease (x i - IZR (p i))).
(** Blend of the planes of the corners of cell [p]; the noise at [x] uses the cell of [x]. *)
Definition blend (G : (nat -> Z) -> nat -> R) (N : nat) (p : nat -> Z) (x : nat -> R) : R :=
  rsum (2 ^ N) (fun c => weight N p c x * plane G N (cell_corner p c) x).
Definition noise (G : (nat -> Z) -> nat -> R) (N : nat) (x : nat -> R) : R := blend G N (lattice_floor x) x.
(** [x] is in the closed cell [p]. *)
Definition in_cell (N : nat) (p : nat -> Z) (x : nat -> R) : Prop := forall i, (i < N)%nat -> IZR (p i) <= x i <= IZR (p i) + 1.
(** [F] is totally differentiable at [x], with gradient [w]. *)
Definition has_gradient (N : nat) (F : (nat -> R) -> R) (x w : nat -> R) : Prop :=
  forall eps, 0 < eps -> exists del, 0 < del /\ forall r h, 0 <= r < del -> (forall i, (i < N)%nat -> Rabs (h i) <= r) ->
    Rabs (F (fun i => x i + h i) - F x - rsum N (fun i => w i * h i)) <= eps * r.
Definition continuous_at (N : nat) (F : (nat -> R) -> R) (x : nat -> R) : Prop :=
  forall eps, 0 < eps -> exists del, 0 < del /\ forall y, (forall i, (i < N)%nat -> Rabs (y i - x i) < del) -> Rabs (F y - F x) < eps.
(** The lattice coordinates of the point and its cell's corners fit 64-bit integers. *)
Definition in_range (N : nat) (x : nat -> R) : Prop := forall i, (i < N)%nat -> (- 2 ^ 63 <= Int_part (x i) < 2 ^ 63)%Z.
(** The gradient index of a lattice point: an iterated linear congruential step over unbounded integers, modulo 256. *)
Fixpoint lattice_hash (N : nat) (q : nat -> Z) : Z :=
  match N with O => 0 | S n => 6364136223846793005 * (q n + lattice_hash n q) + 1442695040888963407 end%Z.
Definition lattice_gradient (gradients : Z -> nat -> R) (N : nat) (q : nat -> Z) : nat -> R := gradients (lattice_hash N q mod 256)%Z.
(** How the index moves when the lattice point is shifted by [d]. *)
Fixpoint shift_hash (N : nat) (d : nat -> Z) : Z := match N with O => 0 | S n => 45 * (d n + shift_hash n d) end%Z.
