(** Properties of the lattice of bins. *)
From Coq Require Import Reals ZArith List Bool Permutation.
From Verif Require Import LatticeModel LatticeSpec LatticeProofs.
Import ListNotations.
Open Scope R_scope.

(** The bin of a point is the cell of the lattice that contains it. *)
Theorem lattice_bin cs p i : 0 < cs -> (i < length p)%nat -> IZR (nth i (bin_of cs p) 0%Z) * cs <= coord p i < (IZR (nth i (bin_of cs p) 0%Z) + 1) * cs.
Proof. exact (bin_of_ok cs p i). Qed.
Print Assumptions lattice_bin.
(** A lattice has as many entries as items were put in and not erased. *)
Theorem lattice_size {V} cs (m : cells V) xs : holds cs m xs -> size m = length xs.
Proof. exact (holds_size cs m xs). Qed.
Print Assumptions lattice_size.
(** A query visits each item whose bin is in the block of the region once, and no other; whatever the order of the map. *)
Theorem lattice_query_block {V} cs (m : cells V) xs fuel p r : holds cs m xs ->
  let lo := bin_lo cs (map (fun x => x - r) p) in let hi := bin_hi cs (map (fun x => x + r) p) in
  (volume lo hi <= fuel)%nat -> exists res rest, query_near cs m fuel p r = Some res /\ Permutation (res ++ rest) xs /\
    Forall (fun x => in_block lo hi (bin_of cs (fst x))) res /\ Forall (fun x => ~ in_block lo hi (bin_of cs (fst x))) rest.
Proof. exact (query_ok cs m xs fuel p r). Qed.
Print Assumptions lattice_query_block.
(** Items not visited are outside of the region, which is open above; those visited are less than a cell away from it. *)
Theorem lattice_query {V} cs (m : cells V) xs (fuel : nat) (p : point) r : 0 < cs -> holds cs m xs -> (volume (bin_lo cs (map (fun c => c - r)%R p)) (bin_hi cs (map (fun c => c + r)%R p)) <= fuel)%nat ->
  0 <= r -> Forall (fun x => length (fst x) = length p) xs ->
  exists res rest, query_near cs m fuel p r = Some res /\ Permutation (res ++ rest) xs /\
    (forall x i, In x res -> (i < length p)%nat -> coord p i - r - cs < coord (fst x) i < coord p i + r + cs) /\
    (forall x, In x rest -> exists i, (i < length p)%nat /\ ~ (coord p i - r <= coord (fst x) i /\ (coord (fst x) i < coord p i + r \/ coord (fst x) i = coord p i - r))).
Proof. exact (near_found cs m xs fuel p r). Qed.
Print Assumptions lattice_query.
(** Items at distance exactly [r] along an axis are missed when that is the boundary of a cell. *)
Theorem lattice_query_refuted {V} cs (m : cells V) xs (fuel : nat) (p : point) r x i k res : 0 < cs -> holds cs m xs -> (volume (bin_lo cs (map (fun c => c - r)%R p)) (bin_hi cs (map (fun c => c + r)%R p)) <= fuel)%nat ->
  0 < r -> (i < length p)%nat -> length (fst x) = length p -> coord (fst x) i = coord p i + r -> coord p i + r = IZR k * cs -> query_near cs m fuel p r = Some res -> ~ In x res.
Proof. intros C H F. exact (edge_missed cs m xs fuel p r C H F x i k res). Qed.
Print Assumptions lattice_query_refuted.
(** A lattice of two items; the second is at distance 1 of the origin on a boundary. *)
Example lattice_hypotheses : holds 1 [entry_of 1 [0; 0] 7%nat; entry_of 1 [1; 0] 8%nat] [([0; 0], 7%nat); ([1; 0], 8%nat)] /\ coord [1; 0] 0 = coord [0; 0] 0 + 1 /\ coord [0; 0] 0 + 1 = IZR 1 * 1.
Proof. split; [exact holds_two|]. unfold coord. cbn. split; ring. Qed.
