(** Specification of the tree: what a user sees by walking it. *)
From Coq Require Import List Arith Bool Permutation.
From Verif Require Import TreeModel.
Import ListNotations.

Section Spec.
Context {D L : Type}.
(** for (i = start; i != stop; ++i). *)
Fixpoint walk (l : list nat) (fuel : nat) (i stop : ref) : option (list nat) :=
  match fuel with
  | O => None
  | S fuel =>
      if ref_eqb i stop then Some []
      else match i with
           | None => None
           | Some x => match after l x with
                       | Some j => match walk l fuel j stop with Some r => Some (x :: r) | None => None end
                       | None => None
                       end
           end
  end.
(** The nodes from begin() to end(), and the items from items_begin() to items_end(). *)
Definition children (t : tree D L) (k : nat) : option (list nat) :=
  match end_ t k with Some e => walk (nodes t) (S (length (nodes t))) (begin t k) e | None => None end.
Definition items_of (t : tree D L) (k : nat) : option (list nat) :=
  match items_end t k with Some e => walk (items t) (S (length (items t))) (items_begin t k) e | None => None end.
(** The position of the list [b], when [stop] is the end. *)
Definition position (b : list nat) (stop : ref) : ref := match b with [] => stop | x :: _ => Some x end.
Definition root (t : tree D L) : ref := hd_error (nodes t).
Definition parent_of (t : tree D L) (k : nat) : ref := parent (node_at t k).
(** Trees that can be made: by inserting nodes before a child or at the end, inserting items to leaves before an item or at the end,
    splitting nodes, erasing children that have no children, and assigning values. *)
Inductive reachable : tree D L -> Prop :=
| made_empty d v : reachable (new_tree d v)
| made_value t k d : reachable t -> reachable (set_data t k d)
| made_child t p a b e d t' new : reachable t -> In p (nodes t) -> children t p = Some (a ++ b) -> end_ t p = Some e ->
    insert_child_node t p (position b e) d = Some (t', new) -> reachable t'
| made_item t k a b e v t' new : reachable t -> In k (nodes t) -> items_of t k = Some (a ++ b) -> items_end t k = Some e ->
    insert_item t k (position b e) v = Some (t', new) -> reachable t'
| made_split t k less d t' new : reachable t -> In k (nodes t) -> split t k less d = Some (t', new) -> reachable t'
| made_erase t p c t' : reachable t -> In p (nodes t) -> In c (nodes t) -> node_count t c = 0 -> erase t p c = Some (t', true) -> reachable t'.
(** [x] is [k], or an ancestor of it. *)
Inductive ancestor (t : tree D L) (x : nat) : nat -> Prop :=
| ancestor_self : ancestor t x x
| ancestor_up k p : parent_of t k = Some p -> ancestor t x p -> ancestor t x k.
Definition values (t : tree D L) (xs : list nat) : list L := map (item_at t) xs.
(** The order in which the nodes below [k] are documented to be kept, and the items below it in depth-first order; [depth] bounds the depth. *)
Fixpoint documented_order (t : tree D L) (depth k : nat) : list nat :=
  match depth with
  | O => []
  | S depth => match children t k with Some cs => cs ++ flat_map (documented_order t depth) cs | None => [] end
  end.
Fixpoint depth_first_items (t : tree D L) (depth k : nat) : list nat :=
  match depth with
  | O => []
  | S depth => match children t k with
               | Some [] => match items_of t k with Some xs => xs | None => [] end
               | Some cs => flat_map (depth_first_items t depth) cs
               | None => []
               end
  end.
(** The tree below a node, as a value. *)
Inductive shape : Type := Shape (d : D) (vals : list L) (below : list shape).
Fixpoint shape_of (t : tree D L) (depth k : nat) : shape :=
  match depth with
  | O => Shape (data (node_at t k)) [] []
  | S depth => match children t k with
               | Some [] => Shape (data (node_at t k)) (match items_of t k with Some xs => values t xs | None => [] end) []
               | Some cs => Shape (data (node_at t k)) [] (map (shape_of t depth) cs)
               | None => Shape (data (node_at t k)) [] []
               end
  end.
(** Programs that add nodes and items at the end of those of a node. *)
Inductive op : Type := Child (p : nat) (d : D) | Item (k : nat) (v : L).
Definition listed (k : nat) (l : list nat) : bool := existsb (Nat.eqb k) l.
Definition step (t : tree D L) (o : op) : option (tree D L) :=
  match o with
  | Child p d => if listed p (nodes t) then match append_child t p d with Some (t, Some _) => Some t | _ => None end else None
  | Item k v => if listed k (nodes t) then match append_item t k v with Some (t, Some _) => Some t | _ => None end else None
  end.
Fixpoint run (t : tree D L) (os : list op) : option (tree D L) := match os with [] => Some t | o :: os => match step t o with Some t => run t os | None => None end end.
End Spec.
Arguments shape : clear implicits.
Arguments op : clear implicits.
(** Some programs; nodes and items are numbered from 1 as they are added to the root 0. *)
Definition two_levels : list (op nat nat) := [Child 0 10; Child 0 20; Child 1 11; Child 1 12; Item 3 1; Item 4 2; Item 2 5; Item 3 7].
Definition a_chain : list (op nat nat) := [Child 0 10; Child 1 11; Child 2 12].
Definition left_last : list (op nat nat) := [Child 0 10; Child 1 11; Child 1 12; Child 3 13; Child 4 14; Child 2 15].
Definition left_first : list (op nat nat) := [Child 0 10; Child 1 11; Child 1 12; Child 2 15; Child 3 13; Child 5 14].
Definition sorted_leaf : list (op nat nat) := [Child 0 10; Item 1 1; Item 1 2; Item 1 5; Item 1 6].
Definition long_left : list (op nat nat) := [Child 0 10; Child 0 10; Child 1 10; Child 2 10; Child 3 10; Child 4 10].
Definition long_right : list (op nat nat) := [Child 0 10; Child 0 10; Child 2 10; Child 3 10; Child 1 10; Child 4 10].
