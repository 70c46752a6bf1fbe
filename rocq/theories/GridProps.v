(** C17 and C18: grid iteration. *)
From Coq Require Import ZArith List Bool Sorting.Sorted.
From Verif Require Import Mem GridModel GridSpec GridProofs.
Import ListNotations.
Open Scope Z_scope.

(** C17: from begin() the loop visits exactly the integer points of the region, each once, in the axis order
    chosen, as many as the region's volume, and stops. *)
Theorem grid_visits_every_cell_once o lo hi : nonempty_box lo hi -> lo <> [] ->
  exists l, (forall fuel p, (length l <= fuel)%nat -> g_walk fuel (g_begin (mkG o lo hi p)) = Some l) /\
    Z.of_nat (length l) = volume lo hi /\
    NoDup l /\ (forall p, In p l <-> in_box lo hi p) /\
    StronglySorted (fun p q => before (along o p) (along o q)) l.
Proof. exact (grid_walk_ok o lo hi). Qed.
Print Assumptions grid_visits_every_cell_once.

Example grid_visits_2x3 : g_walk 6 (g_begin (g_new true [0; -1] [1; 1])) =
  Some [[0; -1]; [1; -1]; [0; 0]; [1; 0]; [0; 1]; [1; 1]].
Proof. reflexivity. Qed.
Example grid_visits_2x3_last : g_walk 6 (g_begin (g_new_corners false [0; -1] [2; 2])) =
  Some [[0; -1]; [0; 0]; [0; 1]; [1; -1]; [1; 0]; [1; 1]].
Proof. reflexivity. Qed.

(** An empty region is still visited, unless the last axis has exactly hi + 1 = lo. *)
Theorem grid_empty_region_refuted o lo hi p0 : length lo = length hi -> lo <> [] -> ~ nonempty_box lo hi ->
  last (along o lo) 0 <> last (along o hi) 0 + 1 ->
  (forall p, ~ in_box lo hi p) /\
  forall fuel, g_walk fuel (g_begin (mkG o lo hi p0)) <> Some [].
Proof. exact (grid_empty_walk o lo hi p0). Qed.
Print Assumptions grid_empty_region_refuted.
Example grid_empty_region_example : g_walk 9 (g_begin (g_new true [0; 0] [-1; 2])) = Some [[0; 0]; [0; 1]; [0; 2]].
Proof. reflexivity. Qed.

(** C18: other - it counts the increments from one to the other, for any two positions (including end). *)
Theorem grid_distance_counts_increments o lo hi g g' : nonempty_box lo hi -> lo <> [] ->
  (g = g_end (mkG o lo hi lo) \/ exists p, in_box lo hi p /\ g = mkG o lo hi p) ->
  (g' = g_end (mkG o lo hi lo) \/ exists p, in_box lo hi p /\ g' = mkG o lo hi p) ->
  g_dist g' g = - g_dist g g' /\
  (0 <= g_dist g g' -> Nat.iter (Z.to_nat (g_dist g g')) g_inc g = g').
Proof. exact (fun H N => grid_dist_sub o lo hi H N g g'). Qed.
Print Assumptions grid_distance_counts_increments.

(** C18: a decrement undoes an increment exactly when the increment does not carry (or N = 1). *)
Theorem grid_decrement_inverts_iff o lo hi p : nonempty_box lo hi -> lo <> [] -> in_box lo hi p ->
  (g_dec (g_inc (mkG o lo hi p)) = mkG o lo hi p <-> (length lo = 1%nat \/ hd 0 (along o p) < hd 0 (along o hi))).
Proof. exact (fun H N => grid_dec_ok o lo hi H N p). Qed.
Print Assumptions grid_decrement_inverts_iff.
Example grid_decrement_refuted : g_dec (g_inc (mkG true [0; 0] [2; 2] [2; 0])) = mkG true [0; 0] [2; 2] [1; 0].
Proof. reflexivity. Qed.

(** C18: it += n jumps to the n-th position counted from begin(), displaced by -lo, whatever the position of
    the iterator was. *)
Theorem grid_advance_is_absolute o lo hi p n : nonempty_box lo hi -> lo <> [] -> 0 <= n <= volume lo hi ->
  exists q, g_advance (mkG o lo hi p) n = Ok (mkG o lo hi q) /\ length q = length lo /\
    vadd lo q = g_pt (Nat.iter (Z.to_nat n) g_inc (g_begin (mkG o lo hi p))).
Proof. exact (fun H N => grid_advance_ok o lo hi H N p n). Qed.
Print Assumptions grid_advance_is_absolute.

(** So it agrees with n increments from begin() of a region anchored at the origin... *)
Theorem grid_advance_from_begin o lo hi p n : nonempty_box lo hi -> lo <> [] -> Forall (eq 0) lo -> 0 <= n <= volume lo hi ->
  g_advance (mkG o lo hi p) n = Ok (Nat.iter (Z.to_nat n) g_inc (g_begin (mkG o lo hi p))).
Proof. exact (fun H N => grid_advance_origin o lo hi H N p n). Qed.
Print Assumptions grid_advance_from_begin.

(** ...and it += 0 moves every iterator that is not at the origin; += n never depends on the position. *)
Theorem grid_advance_refuted o lo hi p : nonempty_box lo hi -> lo <> [] -> ~ Forall (eq 0) p ->
  g_advance (mkG o lo hi p) 0 <> Ok (mkG o lo hi p) /\
  forall q n, g_advance (mkG o lo hi p) n = g_advance (mkG o lo hi q) n.
Proof.
  exact (fun H N F => conj (grid_advance_bad o lo hi H N p F)
    (fun q n => grid_advance_ignores (mkG o lo hi p) p q n)).
Qed.
Print Assumptions grid_advance_refuted.

(** The one-dimensional iterator over a Rect. *)
Theorem grid1_visits_every_cell_once lo hi : lo <= hi ->
  exists l, (forall fuel, (length l <= fuel)%nat -> g1_walk fuel (g1_new lo hi) = Some l) /\
  StronglySorted Z.lt l /\ forall x, In x l <-> lo <= x <= hi.
Proof. exact (g1_walk_ok lo hi). Qed.
Print Assumptions grid1_visits_every_cell_once.

(** Built from [lo] and an exclusive [hi], it visits hi and hi + 1 too. *)
Theorem grid1_corners_refuted lo hi : lo <= hi ->
  exists l, (forall fuel, (length l <= fuel)%nat -> g1_walk fuel (g1_new_corners lo hi) = Some l) /\
  In hi l /\ In (hi + 1) l.
Proof. exact (g1_corners_bad lo hi). Qed.
Print Assumptions grid1_corners_refuted.

(** In one dimension the arithmetic is right. *)
Theorem grid1_arithmetic g n : g1_dec (g1_inc g) = g /\ g1_inc (g1_dec g) = g /\
  g1_dist g (g1_advance g n) = n /\
  (0 <= n -> g1_advance g n = Nat.iter (Z.to_nat n) g1_inc g).
Proof. exact (g1_arith g n). Qed.
Print Assumptions grid1_arithmetic.
