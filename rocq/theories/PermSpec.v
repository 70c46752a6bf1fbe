(** Permutations of the first [n] naturals. *)
From Coq Require Import Arith List Bool.
Import ListNotations.

Definition is_perm (n : nat) (p : nat -> nat) : Prop :=
  (forall i, i < n -> p i < n) /\ (forall i j, i < n -> j < n -> p i = p j -> i = j).
(** Two maps that are inverse permutations of each other. *)
Definition inverse_maps (n : nat) (f g : nat -> nat) : Prop :=
  (forall i, i < n -> f i < n /\ g (f i) = i) /\ (forall i, i < n -> g i < n /\ f (g i) = i).
Definition is_identity (n : nat) (p : nat -> nat) : Prop := forall i, i < n -> p i = i.
(** Number of positions a permutation moves. *)
Definition displaced (n : nat) (p : nat -> nat) : nat := length (filter (fun i => negb (p i =? i)) (seq 0 n)).
(** The least position of its cycle; one per cycle. *)
Definition leader (n : nat) (p : nat -> nat) (i : nat) : bool :=
  forallb (fun k => i <=? Nat.iter k p i) (seq 0 n).
(** Number of cycles of length two or more. *)
Definition nontrivial_cycles (n : nat) (p : nat -> nat) : nat :=
  length (filter (fun i => leader n p i && negb (p i =? i)) (seq 0 n)).
(** [p] is obtained from the identity arrangement by [k] exchanges of two distinct entries; the parity of [k] is the
    parity of the permutation. *)
Inductive by_swaps (n : nat) : nat -> (nat -> nat) -> Prop :=
| bs_id p : is_identity n p -> by_swaps n 0 p
| bs_swap k p q a b : by_swaps n k p -> a < n -> b < n -> a <> b ->
    (forall i, i < n -> q i = p (if i =? a then b else if i =? b then a else i)) -> by_swaps n (S k) q.
