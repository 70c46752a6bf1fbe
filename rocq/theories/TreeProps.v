(** Properties of the tree. *)
From Coq Require Import List Arith Bool Permutation.
From Verif Require Import TreeModel TreeSpec TreeProofs TreeInv TreeOps TreeFacts TreeMore.
Import ListNotations.

Section Props.
Context {D L : Type}.
Implicit Types t : tree D L.
(** The nodes from begin() to end() are exactly those whose parent is the node, each once, and node_count() counts them. *)
Theorem tree_children t k : reachable t -> In k (nodes t) -> exists cs, children t k = Some cs /\ length cs = node_count t k /\ NoDup cs /\ forall c, In c cs <-> In c (nodes t) /\ parent_of t c = Some k.
Proof. exact (children_fact t k). Qed.
(** Every node is listed once, and the root, which has no parent, is an ancestor of every one. *)
Theorem tree_connected t : reachable t -> NoDup (nodes t) /\ exists r, root t = Some r /\ In r (nodes t) /\ parent_of t r = None /\ forall k, In k (nodes t) -> ancestor t r k.
Proof. exact (connected_fact t). Qed.
(** The items of a leaf are walked once each and item_count() counts them; that of a node with children is the sum of those of its children. *)
Theorem tree_item_counts t k : reachable t -> In k (nodes t) ->
  (node_count t k = 0 -> exists xs, items_of t k = Some xs /\ length xs = item_count t k /\ NoDup xs) /\
  (forall cs, children t k = Some cs -> cs <> [] -> item_count t k = list_sum (map (item_count t) cs)).
Proof. exact (items_fact t k). Qed.
(** Every item is owned by exactly one leaf. *)
Theorem tree_items_owned t x : reachable t -> (In x (items t) <-> exists k xs, In k (nodes t) /\ node_count t k = 0 /\ items_of t k = Some xs /\ In x xs).
Proof. exact (owned_fact t x). Qed.
Theorem tree_items_owned_once t x k l xs ys : reachable t -> In k (nodes t) -> In l (nodes t) -> node_count t k = 0 -> node_count t l = 0 -> items_of t k = Some xs -> items_of t l = Some ys -> In x xs -> In x ys -> k = l.
Proof. exact (owned_once t x k l xs ys). Qed.
(** Inserting a node puts it before the given child (or at the end), gives it the items of a parent that had no children, and changes nothing else. *)
Theorem tree_insert_child t p a b e d : reachable t -> In p (nodes t) -> children t p = Some (a ++ b) -> end_ t p = Some e ->
  exists t' new, insert_child_node t p (position b e) d = Some (t', Some new) /\ ~ In new (nodes t) /\ (forall x, In x (nodes t') <-> In x (nodes t) \/ x = new) /\
    children t' p = Some (a ++ new :: b) /\ children t' new = Some [] /\ (forall x, In x (nodes t) -> x <> p -> children t' x = children t x) /\
    parent_of t' new = Some p /\ data (node_at t' new) = d /\ (forall x, In x (nodes t) -> data (node_at t' x) = data (node_at t x)) /\
    items_of t' new = (if node_count t p =? 0 then items_of t p else Some []) /\ (forall x, In x (nodes t) -> x <> p -> node_count t x = 0 -> items_of t' x = items_of t x) /\
    item_count t' new = (if node_count t p =? 0 then item_count t p else 0) /\ (forall x, In x (nodes t) -> item_count t' x = item_count t x) /\
    items t' = items t /\ item_at t' = item_at t.
Proof. exact (insert_child_fact t p a b e d). Qed.
(** A position that is not a child of the node, nor its end, is refused. *)
Theorem tree_insert_child_refuses t p n e d : reachable t -> In p (nodes t) -> In n (nodes t) -> end_ t p = Some e -> parent_of t n <> Some p -> Some n <> e -> insert_child_node t p (Some n) d = Some (t, None).
Proof. exact (insert_child_refused t p n e d). Qed.
Theorem tree_append_child t p d cs : reachable t -> In p (nodes t) -> children t p = Some cs -> exists t' new, append_child t p d = Some (t', Some new) /\ ~ In new (nodes t) /\ children t' p = Some (cs ++ [new]) /\ data (node_at t' new) = d.
Proof. exact (append_child_fact t p d cs). Qed.
(** Inserting an item puts it before the given item of the leaf, or at its end, counts it in every ancestor, and changes nothing else. *)
Theorem tree_insert_item t k a b e v : reachable t -> In k (nodes t) -> node_count t k = 0 -> items_of t k = Some (a ++ b) -> items_end t k = Some e ->
  exists t' new, insert_item t k (position b e) v = Some (t', Some new) /\ ~ In new (items t) /\ nodes t' = nodes t /\
    items_of t' k = Some (a ++ new :: b) /\ item_at t' new = v /\ (forall x, In x (items t) -> item_at t' x = item_at t x) /\
    (forall x, In x (nodes t) -> x <> k -> node_count t x = 0 -> items_of t' x = items_of t x) /\
    (forall x, In x (nodes t) -> children t' x = children t x) /\ (forall x, data (node_at t' x) = data (node_at t x)) /\
    (forall x, ancestor t x k -> item_count t' x = item_count t x + 1) /\ (forall x, ~ ancestor t x k -> item_count t' x = item_count t x).
Proof. exact (insert_item_fact t k a b e v). Qed.
Theorem tree_append_item t k v xs : reachable t -> In k (nodes t) -> node_count t k = 0 -> items_of t k = Some xs -> exists t' new, append_item t k v = Some (t', Some new) /\ ~ In new (items t) /\ items_of t' k = Some (xs ++ [new]) /\ item_at t' new = v.
Proof. exact (append_item_fact t k v xs). Qed.
Theorem tree_insert_item_refuses t k pos v : 0 < node_count t k -> insert_item t k pos v = Some (t, None).
Proof. exact (insert_item_refused t k pos v). Qed.
(** Splitting a leaf makes a sibling before it with the items that compare less, and keeps the others; no other leaf changes. *)
Theorem tree_split t k (less : L -> bool) d xs : reachable t -> In k (nodes t) -> root t <> Some k -> node_count t k = 0 -> items_of t k = Some xs -> 2 <= length xs ->
  exists t' p a b lo u w, split t k less d = Some (t', Some lo) /\ parent_of t k = Some p /\ children t p = Some (a ++ k :: b) /\ ~ In lo (nodes t) /\ (forall x, In x (nodes t') <-> In x (nodes t) \/ x = lo) /\
    children t' p = Some (a ++ lo :: k :: b) /\ children t' lo = Some [] /\ (forall x, In x (nodes t) -> x <> p -> children t' x = children t x) /\
    items_of t' lo = Some u /\ items_of t' k = Some w /\ Forall (fun v => less v = true) (values t' u) /\ Forall (fun v => less v = false) (values t' w) /\
    Permutation (values t' u ++ values t' w) (values t xs) /\
    (forall x ys, In x (nodes t) -> x <> k -> node_count t x = 0 -> items_of t x = Some ys -> items_of t' x = Some ys /\ values t' ys = values t ys) /\
    data (node_at t' lo) = d /\ (forall x, In x (nodes t) -> data (node_at t' x) = data (node_at t x)).
Proof. exact (split_fact t k less d xs). Qed.
Theorem tree_split_refuses t k less d : root t = Some k \/ 0 < node_count t k \/ item_count t k < 2 -> split t k less d = Some (t, None).
Proof. exact (split_refused t k less d). Qed.
(** Erasing a child with neither children nor items removes it alone; erasing one with items is undefined. *)
Theorem tree_erase t p c a b : reachable t -> In p (nodes t) -> children t p = Some (a ++ c :: b) -> node_count t c = 0 ->
  (item_count t c = 0 -> exists t', erase t p c = Some (t', true) /\ children t' p = Some (a ++ b) /\ (forall x, In x (nodes t') <-> In x (nodes t) /\ x <> c) /\
     (forall x, In x (nodes t') -> x <> p -> children t' x = children t x) /\ (forall x, In x (nodes t') -> item_count t' x = item_count t x /\ data (node_at t' x) = data (node_at t x)) /\
     (forall x, In x (nodes t') -> node_count t x = 0 -> items_of t' x = items_of t x) /\ item_at t' = item_at t) /\
  (0 < item_count t c -> erase t p c = None).
Proof. exact (erase_fact t p c a b). Qed.
Theorem tree_erase_refuses t k c : parent_of t c <> Some k -> erase t k c = Some (t, false).
Proof. exact (erase_refused t k c). Qed.
(** From the root, find_parent() finds the leaf that owns an item. *)
Theorem tree_find_parent t x k xs r : reachable t -> root t = Some r -> In k (nodes t) -> node_count t k = 0 -> items_of t k = Some xs -> In x xs -> find_parent t r x = Some (inl k).
Proof. intros R Hr H C Hi X. exact (find_fact t x k xs R H C Hi X r Hr). Qed.
(** A query from a root whose children have none finds every node that passes, and skips the children if the root is out of bounds. *)
Theorem tree_query t r cs bound test : reachable t -> root t = Some r -> children t r = Some cs -> (forall c, In c cs -> node_count t c = 0) -> query t bound test r = Some (filter test (r :: if bound r then cs else [])).
Proof. exact (query_fact t r cs bound test). Qed.
(** Flattening such a root removes its children and keeps the items; flattening any other node with children removes none. *)
Theorem tree_flatten t r cs : reachable t -> root t = Some r -> children t r = Some cs -> (forall c, In c cs -> node_count t c = 0) ->
  exists t', flatten t r = Some t' /\ nodes t' = [r] /\ node_count t' r = 0 /\ item_count t' r = item_count t r /\ items t' = items t /\ item_at t' = item_at t.
Proof. exact (flatten_fact t r cs). Qed.
Theorem tree_flatten_refuted t k cs : reachable t -> In k (nodes t) -> root t <> Some k -> children t k = Some cs -> cs <> [] -> exists t', flatten t k = Some t' /\ nodes t' = nodes t /\ node_count t' k = 0 /\ forall c, In c cs -> parent_of t' c = Some k.
Proof. exact (flatten_other t k cs). Qed.
(** Clearing a node that has items is undefined. *)
Theorem tree_clear_refuted t k : 0 < item_count t k -> clear t k = None.
Proof. exact (clear_stuck t k). Qed.
(** The tree made of a range of items counts one, whatever their number. *)
Theorem tree_of_range_refuted d v vals : length (items (tree_of_items d v vals : tree D L)) = length vals /\ item_count (tree_of_items d v vals : tree D L) 0 = 1.
Proof. exact (range_count d v vals). Qed.
(** A tree equals itself. *)
Theorem tree_equal_refl t (deq : D -> D -> bool) (leq : L -> L -> bool) : reachable t -> (forall d, deq d d = true) -> (forall v, leq v v = true) -> tree_eqb deq leq t t = true.
Proof.
  intros R Rd Rl. destruct (connected_fact t R) as (_ & r & Hr & _). unfold tree_eqb. unfold root in Hr. rewrite Hr, Nat.eqb_refl, vals_eqb_refl, nodes_eqb_refl by assumption. reflexivity.
Qed.
(** It tells whether the nodes (by value and counts) and the items of the two trees are the same in the order they are kept in. *)
Theorem tree_equal_iff t s (deq : D -> D -> bool) (leq : L -> L -> bool) : reachable t -> (forall d e, deq d e = true <-> d = e) -> (forall v w, leq v w = true <-> v = w) ->
  tree_eqb deq leq t s = true <->
  map (fun k => (item_count t k, node_count t k, data (node_at t k))) (nodes t) = map (fun k => (item_count s k, node_count s k, data (node_at s k))) (nodes s) /\
  values t (items t) = values s (items s).
Proof. intros R Rd Rl. apply tree_eqb_iff; auto. destruct (connected_fact t R) as (_ & r & Hr & _). unfold root in Hr. intros E. rewrite E in Hr. discriminate Hr. Qed.
End Props.
(** With children two levels deep, the items from items_begin() to items_end() of a node are not those of its leaves, and the items are not in depth-first order. *)
Theorem tree_items_refuted : exists t, run (new_tree 0 0) two_levels = Some t /\ reachable t /\ (item_count t 1 = 3 /\ items_of t 1 = Some [] /\ depth_first_items t 3 1 = [1; 4; 2] /\
  item_count t 0 = 4 /\ items_of t 0 = Some [1; 4; 3] /\ items t = [2; 1; 4; 3] /\ depth_first_items t 3 0 = [1; 4; 2; 3]).
Proof. exact items_broken. Qed.
(** From a node other than the root, find_parent() misses items below it. *)
Theorem tree_find_parent_refuted : exists t, run (new_tree 0 0) two_levels = Some t /\ reachable t /\ (parent_of t 3 = Some 1 /\ items_of t 3 = Some [1; 4] /\ find_parent t 1 1 = Some (inr None)).
Proof. exact find_broken. Qed.
(** Nodes are not kept in the documented order. *)
Theorem tree_order_refuted : exists t, run (new_tree 0 0) a_chain = Some t /\ reachable t /\ (map (children t) [0; 1; 2; 3] = [Some [1]; Some [2]; Some [3]; Some []] /\ documented_order t 4 0 = [1; 2; 3] /\ nodes t = [0; 1; 3; 2]).
Proof. exact order_broken. Qed.
(** A query that accepts everything stops at the first grandchild of the root. *)
Theorem tree_query_refuted : exists t, run (new_tree 0 0) two_levels = Some t /\ reachable t /\ (nodes t = [0; 1; 2; 3; 4] /\ query t (fun _ => true) (fun _ => true) 0 = Some [0; 1]).
Proof. exact query_broken. Qed.
(** Two trees of the same shape and values compare different, since the order of insertion shows. *)
Theorem tree_equal_refuted : exists t s, run (new_tree 0 0) left_last = Some t /\ run (new_tree 0 0) left_first = Some s /\ reachable t /\ reachable s /\ root t = Some 0 /\ root s = Some 0 /\
  shape_of t 5 0 = Shape 0 [] [Shape 10 [] [Shape 11 [] [Shape 15 [] []]; Shape 12 [] [Shape 13 [] [Shape 14 [] []]]]] /\ shape_of s 5 0 = shape_of t 5 0 /\ tree_eqb Nat.eqb Nat.eqb t s = false.
Proof. exact equal_broken. Qed.
(** Two trees of different shapes compare equal. *)
Theorem tree_equal_different_refuted : exists t s, run (new_tree 0 0) long_left = Some t /\ run (new_tree 0 0) long_right = Some s /\ reachable t /\ reachable s /\ root t = Some 0 /\ root s = Some 0 /\
  shape_of t 5 0 = Shape 0 [] [Shape 10 [] [Shape 10 [] [Shape 10 [] []]]; Shape 10 [] [Shape 10 [] [Shape 10 [] []]]] /\
  shape_of s 5 0 = Shape 0 [] [Shape 10 [] [Shape 10 [] []]; Shape 10 [] [Shape 10 [] [Shape 10 [] [Shape 10 [] []]]]] /\ tree_eqb Nat.eqb Nat.eqb t s = true.
Proof. exact equal_differs. Qed.
(** Splitting unsorts sorted items. *)
Theorem tree_split_order_refuted : exists t, run (new_tree 0 0) sorted_leaf = Some t /\ reachable t /\ (exists xs t' lo u w, items_of t 1 = Some xs /\ values t xs = [1; 2; 5; 6] /\ split t 1 (fun v => v <? 3) 20 = Some (t', Some lo) /\
  items_of t' lo = Some u /\ items_of t' 1 = Some w /\ values t' u = [2; 1] /\ values t' w = [5; 6]).
Proof. exact split_broken. Qed.
(** A reachable tree with inner nodes, leaves and items. *)
Example tree_reachable : exists t, run (new_tree 0 0) two_levels = Some t /\ reachable t /\ (nodes t = [0; 1; 2; 3; 4] /\ map (children t) (nodes t) = [Some [1; 2]; Some [3; 4]; Some []; Some []; Some []] /\
  map (item_count t) (nodes t) = [4; 3; 1; 2; 1] /\ map (items_of t) [2; 3; 4] = [Some [3]; Some [1; 4]; Some [2]] /\ values t [3; 1; 4; 2] = [5; 1; 7; 2]).
Proof. exact two_levels_ok. Qed.

Print Assumptions tree_children.
Print Assumptions tree_connected.
Print Assumptions tree_item_counts.
Print Assumptions tree_items_owned.
Print Assumptions tree_items_owned_once.
Print Assumptions tree_insert_child.
Print Assumptions tree_insert_child_refuses.
Print Assumptions tree_append_child.
Print Assumptions tree_insert_item.
Print Assumptions tree_append_item.
Print Assumptions tree_insert_item_refuses.
Print Assumptions tree_split.
Print Assumptions tree_split_refuses.
Print Assumptions tree_erase.
Print Assumptions tree_erase_refuses.
Print Assumptions tree_find_parent.
Print Assumptions tree_query.
Print Assumptions tree_flatten.
Print Assumptions tree_flatten_refuted.
Print Assumptions tree_clear_refuted.
Print Assumptions tree_of_range_refuted.
Print Assumptions tree_equal_refl.
Print Assumptions tree_items_refuted.
Print Assumptions tree_find_parent_refuted.
Print Assumptions tree_order_refuted.
Print Assumptions tree_query_refuted.
Print Assumptions tree_equal_refuted.
Print Assumptions tree_split_order_refuted.
Print Assumptions tree_equal_iff.
Print Assumptions tree_equal_different_refuted.
