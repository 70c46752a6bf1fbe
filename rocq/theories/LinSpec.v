(** Specification vocabulary for linear algebra over a field. *)
From Coq Require Import Arith.
From Verif Require Import Fld.
Open Scope nat_scope.

Section Spec.
Context {K : field}.
Local Open Scope fld_scope.
(** The factors packed into one matrix: unit lower triangle, upper triangle. *)
Definition lower_of (m : mtx K) : mtx K := fun r c => if (c <? r)%nat then m r c else if (c =? r)%nat then 1 else 0.
Definition upper_of (m : mtx K) : mtx K := fun r c => if (c <? r)%nat then 0 else m r c.
(** [abs] comparisons need only these two facts: a non-zero value exceeds zero, zero exceeds nothing. *)
Definition sane_order (bigger : K -> K -> bool) : Prop :=
  (forall y, y <> 0 -> bigger y 0 = true) /\ (forall x, bigger 0 x = false).
(** Diagonal matrix. *)
Definition diag (d : nat -> K) : mtx K := fun r c => if (r =? c)%nat then d r else 0.
(** A square matrix is singular when it sends some non-zero vector to zero. *)
Definition singular (n : nat) (A : mtx K) : Prop :=
  exists v : nat -> K, (exists i, (i < n)%nat /\ v i <> 0) /\ forall r, (r < n)%nat -> sum n (fun c => A r c * v c) = 0.
(** Linear independence of the first [p] rows, as vectors of dimension [N]. *)
Definition independent_rows (N p : nat) (V : mtx K) : Prop :=
  forall t : nat -> K, (forall k, (k < N)%nat -> sum p (fun j => t j * V j k) = 0) -> forall j, (j < p)%nat -> t j = 0.
(** Two-sided inverse. *)
Definition inverse_of (n : nat) (A B : mtx K) : Prop :=
  forall r c, (r < n)%nat -> (c < n)%nat -> mmul n A B r c = delta r c /\ mmul n B A r c = delta r c.
End Spec.

(** Determinant by expansion along the first column. *)
Section Det.
Context {K : field}.
Local Open Scope fld_scope.
Definition alt (i : nat) (x : K) : K := if Nat.even i then x else - x.
(** Remove row [i] and the first column. *)
Definition minor (M : mtx K) (i : nat) : mtx K := fun r c => M (if (r <? i)%nat then r else S r) (S c).
Fixpoint det (n : nat) (M : mtx K) : K :=
  match n with O => 1 | S n' => sum (S n') (fun i => alt i (M i 0%nat * det n' (minor M i))) end.
End Det.
(** The [n] x [n] matrix stored in a flat buffer, row-major or column-major. *)
Definition stored {K : field} (row_major : bool) (n : nat) (b : nat -> K) : mtx K :=
  fun r c => if row_major then b (n * r + c) else b (n * c + r).
(** What an inversion promises: success exactly on nonsingular input, and then a two-sided inverse; otherwise the
    output is unchanged.  [lo], [lm]: layouts of output and input. *)
Definition inverts (K : field) (n : nat) (lo lm : bool) (out m : nat -> K) (r : bool * (nat -> K)) : Prop :=
  (fst r = true /\ inverse_of n (stored lm n m) (stored lo n (snd r))) \/ (fst r = false /\ singular n (stored lm n m) /\ forall k, snd r k = out k).
