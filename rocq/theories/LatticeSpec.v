(** Specification of the lattice of bins. *)
From Coq Require Import Reals ZArith List Bool Permutation.
From Verif Require Import LatticeModel.
Import ListNotations.

Section Spec.
Context {V : Type}.
(** What std::unordered_multimap promises: entries of equal keys are adjacent. *)
Definition grouped (m : cells V) : Prop := forall a e b e' c, m = a ++ e :: b ++ e' :: c -> fst e = fst e' -> Forall (fun x => fst x = fst e) b.
(** The states after insertions and erasures, in whatever order the map keeps its entries; [contents] are the items in it. *)
Inductive holds (cellsize : R) : cells V -> list (item V) -> Prop :=
| holds_none : holds cellsize [] []
| holds_insert m xs p v m' : holds cellsize m xs -> grouped m' -> Permutation m' (entry_of cellsize p v :: m) -> holds cellsize m' ((p, v) :: xs)
| holds_erase m xs a e b : holds cellsize m xs -> m = a ++ e :: b -> forall ys, Permutation (snd e :: ys) xs -> holds cellsize (a ++ b) ys
| holds_rehash m xs m' ys : holds cellsize m xs -> grouped m' -> Permutation m' m -> Permutation ys xs -> holds cellsize m' ys.
End Spec.
(** [b] is a cell of the block from [lo] up to, not including, [hi]; a block always has the cells of [lo]. *)
Definition in_block (lo hi b : bin) : Prop := length lo = length b /\ length hi = length b /\ forall i, (i < length b)%nat -> (nth i lo 0 <= nth i b 0 /\ (nth i b 0 < nth i hi 0 \/ nth i b 0 = nth i lo 0))%Z.
(** The number of cells of a block. *)
Fixpoint volume (lo hi : bin) : nat :=
  match lo, hi with l :: lo, h :: hi => Z.to_nat (Z.max 1 (h - l)) * volume lo hi | _, _ => 1 end%nat.
Definition coord (p : point) (i : nat) : R := nth i p 0%R.
