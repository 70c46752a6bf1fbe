(** C94: rasters and grid iterators in machine integers. *)
From Coq Require Import ZArith List Bool Lia.
From Verif Require Import Mem GridModel GridSpec GridProofs RasterModel RasterSpec IdxModel IdxSpec IdxProofs IdxMore.
Import ListNotations.
Open Scope Z_scope.

(** An edge behaviour computes, without overflow, the coordinate of the exact model, which is inside the raster. *)
Theorem machine_edge w e c m : 1 < w -> in_type w c -> in_type w m -> edge_safe w e m c ->
  exists k, m_edge w e c m = Ok k /\ edge_coord e c m = Ok k /\ 0 <= k < m.
Proof. exact (edge_machine w e c m). Qed.
Print Assumptions machine_edge.
Example machine_edge_case : edge_safe 64 EMirror 10 (-23) /\ m_edge 64 EMirror (-23) 10 = Ok 5. Proof. split; [cbn; lia|reflexivity]. Qed.

(** When the number of values of a raster fits in index_t, the offset of every sample is computed without overflow and its values are in the array. *)
Theorem machine_index w e ext n c : 1 < w -> 0 < n -> Forall (fun m => 0 < m) ext ->
  Forall2 (fun m x => edge_safe w e m x /\ in_type w x) ext c -> in_type w (product ext * n) ->
  exists k, m_index w e ext n c = Ok (k * n) /\ flat_index e ext c 1 0 = Ok k /\ 0 <= k * n /\ k * n + n <= product ext * n.
Proof. exact (index_machine w e ext n c). Qed.
Print Assumptions machine_index.
Example machine_index_case : m_index 64 EPeriodic [4; 6] 3 [-1; 2 ^ 63 - 1] = Ok 21. Proof. reflexivity. Qed.

(** The number of values of a new raster is computed exactly when it fits. *)
Theorem machine_size w ext n r : 1 < w -> 0 < n -> Forall (fun m => 0 < m) ext ->
  (m_size w ext n = Ok r <-> r = product ext * n /\ in_type w (product ext * n)).
Proof. exact (size_machine w ext n r). Qed.
Print Assumptions machine_size.
Example machine_size_case : m_size 64 [2 ^ 20; 2 ^ 20] 3 = Ok (3 * 2 ^ 40) /\ m_size 64 [2 ^ 40; 2 ^ 20] 8 = Fault OtherUB. Proof. split; reflexivity. Qed.

(** Mirroring the lowest coordinate is undefined, whatever the extent. *)
Theorem machine_mirror_lowest_refuted w m : 1 < w -> m_edge w EMirror (- 2 ^ (w - 1)) m = Fault OtherUB.
Proof. exact (mirror_lowest w m). Qed.
Print Assumptions machine_mirror_lowest_refuted.

(** The periodic behaviour is undefined at the last sample of an axis of more than half the range. *)
Theorem machine_periodic_refuted w m : 1 < w -> 2 ^ (w - 2) < m -> in_type w m -> m_edge w EPeriodic (m - 1) m = Fault OtherUB.
Proof. exact (periodic_huge w m). Qed.
Print Assumptions machine_periodic_refuted.
Example machine_periodic_case : in_type 64 (2 ^ 62 + 1). Proof. unfold in_type. lia. Qed.

(** On an axis of more than 2^31 + 1 samples the mirror behaviour maps a sample of the raster out of it. *)
Theorem machine_mirror_narrow_refuted w m : 33 <= w -> 2 ^ 31 + 1 < m -> in_type w m ->
  edge_coord EMirror (2 ^ 31) m = Ok (- 2 ^ 31) /\ m_edge w EMirror (2 ^ 31) m = Ok (- 2 ^ 31).
Proof. exact (fun W L T => conj (mirror_wide m L) (mirror_wide_machine w m W L T)). Qed.
Print Assumptions machine_mirror_narrow_refuted.

(** The loop over a region runs as in the exact model, without overflow, when no axis ends at the greatest value of the type. *)
Theorem machine_walk w o lo hi p fuel : nonempty_box lo hi -> lo <> [] -> Forall (in_type w) lo -> Forall (room w) hi ->
  m_walk w fuel (mkG o lo hi p) = match g_walk fuel (g_begin (mkG o lo hi p)) with Some l => Some (Ok l) | None => None end.
Proof. exact (fun N E L => walk_ok w o lo hi N E L fuel p). Qed.
Print Assumptions machine_walk.
Example machine_walk_case : m_walk 32 9 (mkG true [2 ^ 31 - 3; -1] [2 ^ 31 - 2; 0] []) =
  Some (Ok [[2 ^ 31 - 3; -1]; [2 ^ 31 - 2; -1]; [2 ^ 31 - 3; 0]; [2 ^ 31 - 2; 0]]). Proof. reflexivity. Qed.

(** Otherwise the loop is undefined. *)
Theorem machine_walk_refuted w o lo hi p : nonempty_box lo hi -> lo <> [] -> In (2 ^ (w - 1) - 1) hi ->
  exists fuel0, forall fuel, (fuel0 <= fuel)%nat -> m_walk w fuel (mkG o lo hi p) = Some (Fault OtherUB).
Proof. exact (fun N E => walk_bad w o lo hi N E p). Qed.
Print Assumptions machine_walk_refuted.
Example machine_walk_refuted_case : m_walk 32 9 (mkG true [2 ^ 31 - 2; 0] [2 ^ 31 - 1; 1] []) = Some (Fault OtherUB). Proof. reflexivity. Qed.

(** other - it is the exact distance when the dimensions of the region fit in T and its volume in index_t. *)
Theorem machine_distance w wi o lo hi g g' : nonempty_box lo hi -> lo <> [] ->
  (g = g_end (mkG o lo hi lo) \/ exists p, in_box lo hi p /\ g = mkG o lo hi p) ->
  (g' = g_end (mkG o lo hi lo) \/ exists p, in_box lo hi p /\ g' = mkG o lo hi p) ->
  Forall (in_type w) (dims lo hi) -> in_type wi (volume lo hi) -> mg_dist w wi g g' = Ok (g_dist g g').
Proof. exact (fun N E => mg_dist_ok w wi o lo hi N E g g'). Qed.
Print Assumptions machine_distance.
Example machine_distance_case : mg_dist 32 64 (mkG true [0; 0] [2 ^ 20; 2 ^ 20] [0; 0]) (mkG true [0; 0] [2 ^ 20; 2 ^ 20] [5; 2 ^ 20]) = Ok (2 ^ 40 + 2 ^ 20 + 5). Proof. reflexivity. Qed.

(** it += n is the exact one when the volume fits in T ... *)
Theorem machine_advance w wi o lo hi p n : nonempty_box lo hi -> lo <> [] -> 1 < w -> w <= wi ->
  Forall (in_type w) (dims lo hi) -> in_type w (volume lo hi) -> 0 <= n <= volume lo hi ->
  mg_advance w wi (mkG o lo hi p) n = g_advance (mkG o lo hi p) n.
Proof. exact (fun N E => mg_advance_ok w wi o lo hi N E p n). Qed.
Print Assumptions machine_advance.
Example machine_advance_case : mg_advance 32 64 (mkG false [0; 0] [9; 99] [0; 0]) 321 = Ok (mkG false [0; 0] [9; 99] [3; 21]). Proof. reflexivity. Qed.

(** ... and undefined when it does not, although index_t could hold the position. *)
Theorem machine_advance_refuted w wi o lo hi p n : nonempty_box lo hi -> lo <> [] -> ~ in_type w (volume lo hi) ->
  mg_advance w wi (mkG o lo hi p) n = Fault OtherUB.
Proof. exact (fun N E => mg_advance_bad w wi o lo hi N E p n). Qed.
Print Assumptions machine_advance_refuted.
Example machine_advance_refuted_case : mg_advance 32 64 (mkG true [0; 0] [2 ^ 16 - 1; 2 ^ 16 - 1] [0; 0]) 0 = Fault OtherUB. Proof. reflexivity. Qed.
