(** Model of geomc/Tree.h.  The two std::lists are lists of identifiers; an iterator is an identifier, or [None] for end().
    A result [None] is undefined behaviour (or running out of fuel).
    Two kinds of access are undefined by the C++ standard but without effect in every implementation, and are given that meaning here:
    insert_child_node reads the parent of end() (Tree.h:1013), the result of which does not matter if end() is the end of the node's children;
    and insert_item and split step back from the first item (Tree.h:1203, 1422), which the circular lists of all implementations make end().
    Not modelled: insert_child_nodes (1084-1134), insert_items (1253-1311), adopt (1339-1373), erase of items (1480-1530) and
    subtree_begin (717-719), none of which compile. *)
From Coq Require Import List Arith Bool.
Import ListNotations.

(** ** std::list *)
Definition ref : Type := option nat.
Definition ref_eqb (a b : ref) : bool := match a, b with Some x, Some y => x =? y | None, None => true | _, _ => false end.
(** ++x and --x (or --end()). *)
Fixpoint after (l : list nat) (x : nat) : option ref :=
  match l with [] => None | y :: r => if y =? x then Some (hd_error r) else after r x end.
Fixpoint before_from (prev : ref) (l : list nat) (x : ref) : option ref :=
  match l with
  | [] => match x with None => Some prev | Some _ => None end
  | y :: r => if ref_eqb (Some y) x then Some prev else before_from (Some y) r x
  end.
Definition before (l : list nat) (x : ref) : option ref := before_from None l x.
Definition next (l : list nat) (x : ref) : option ref := match x with None => None | Some x => after l x end.
(** insert(pos, x) and erase(x). *)
Fixpoint insert_at (l : list nat) (pos : ref) (x : nat) : list nat :=
  match l with [] => [x] | y :: r => if ref_eqb (Some y) pos then x :: y :: r else y :: insert_at r pos x end.
Fixpoint remove_at (l : list nat) (x : nat) : list nat :=
  match l with [] => [] | y :: r => if y =? x then r else y :: remove_at r x end.

Section Tree.
Context {D L : Type}.
(** Tree.h:142-171. *)
Record node : Type := mkNode { parent : ref; child_first : ref; child_last : ref; items_first : ref; items_last : ref; n_items : nat; n_children : nat; data : D }.
(** Tree.h:173-174. *)
Record tree : Type := mkTree { nodes : list nat; items : list nat; node_at : nat -> node; item_at : nat -> L }.
Definition upd {A} (f : nat -> A) (k : nat) (x : A) : nat -> A := fun j => if j =? k then x else f j.
Definition set_node (t : tree) (k : nat) (n : node) : tree := mkTree (nodes t) (items t) (upd (node_at t) k n) (item_at t).
Definition set_nodes (t : tree) (l : list nat) : tree := mkTree l (items t) (node_at t) (item_at t).
Definition with_parent (n : node) (p : ref) : node := mkNode p (child_first n) (child_last n) (items_first n) (items_last n) (n_items n) (n_children n) (data n).
Definition with_children (n : node) (f l : ref) (k : nat) : node := mkNode (parent n) f l (items_first n) (items_last n) (n_items n) k (data n).
Definition with_items (n : node) (f l : ref) (k : nat) : node := mkNode (parent n) (child_first n) (child_last n) f l k (n_children n) (data n).
(** Tree.h:146-160: a new node. *)
Definition new_node_rec (p : ref) (d : D) : node := mkNode p None None None None 0 0 d.
(** Memory that push_back or insert obtains is not in use: the new identifier. *)
Definition fresh (l : list nat) : nat := S (list_max l).
(** Tree.h:182-184; the value of the root is default-constructed. *)
Definition new_tree (d : D) (v : L) : tree := mkTree [0] [] (fun _ => new_node_rec None d) (fun _ => v).
(** Tree.h:196-208: the constructor from a range of items; n_items receives the number of nodes. *)
Definition tree_of_items (d : D) (v : L) (vals : list L) : tree :=
  let ids := seq 0 (length vals) in
  mkTree [0] ids (fun _ => mkNode None None None (hd_error ids) (match before ids None with Some r => r | None => None end) 1 0 d) (fun k => nth k vals v).
(** Tree.h:666-668 (operator* ): assignment of the value of a node. *)
Definition set_data (t : tree) (k : nat) (d : D) : tree :=
  let n := node_at t k in set_node t k (mkNode (parent n) (child_first n) (child_last n) (items_first n) (items_last n) (n_items n) (n_children n) d).
(** Tree.h:298-308, 676-710: size, item_count, node_count, begin, end, items_begin, items_end. *)
Definition size (t : tree) : nat := length (nodes t).
Definition node_count (t : tree) (k : nat) : nat := n_children (node_at t k).
Definition item_count (t : tree) (k : nat) : nat := n_items (node_at t k).
Definition begin (t : tree) (k : nat) : ref := child_first (node_at t k).
Definition end_ (t : tree) (k : nat) : option ref := if 0 <? n_children (node_at t k) then next (nodes t) (child_last (node_at t k)) else Some (child_last (node_at t k)).
Definition items_begin (t : tree) (k : nat) : ref := items_first (node_at t k).
Definition items_end (t : tree) (k : nat) : option ref := if 0 <? n_items (node_at t k) then next (items t) (items_last (node_at t k)) else Some (items_last (node_at t k)).
(** Tree.h:865-870: the first node with children from [c] on, before [stop]. *)
Fixpoint populated (t : tree) (fuel : nat) (c stop : ref) : option ref :=
  match fuel with
  | O => None
  | S fuel =>
      if ref_eqb c stop then Some None
      else match c with
           | None => None
           | Some k => if 0 <? n_children (node_at t k) then Some (child_first (node_at t k))
                       else match after (nodes t) k with Some c => populated t fuel c stop | None => None end
           end
  end.
(** Tree.h:854-881: node_successor. *)
Fixpoint successor_loop (t : tree) (fuel : nat) (ancestor : ref) (child : nat) : option ref :=
  match fuel with
  | O => None
  | S fuel =>
      match ancestor with
      | None => Some None
      | Some a =>
          match end_ t a with
          | None => None
          | Some off_end_child =>
              match populated t (S (length (nodes t))) (Some child) off_end_child with
              | None => None
              | Some None => successor_loop t fuel (parent (node_at t a)) a
              | Some successor => Some successor
              end
          end
      end
  end.
Definition node_successor (t : tree) (k : nat) : option ref := successor_loop t (S (length (nodes t))) (parent (node_at t k)) k.
(** Tree.h:893-897: the first item of the first node with items from [c] on. *)
Fixpoint holding (t : tree) (fuel : nat) (c stop : ref) : option ref :=
  match fuel with
  | O => None
  | S fuel =>
      if ref_eqb c stop then Some None
      else match c with
           | None => None
           | Some k => if 0 <? n_items (node_at t k) then Some (items_first (node_at t k))
                       else match after (nodes t) k with Some c => holding t fuel c stop | None => None end
           end
  end.
(** Tree.h:886-900: item_successor. *)
Fixpoint item_successor_loop (t : tree) (fuel : nat) (p : ref) (k : nat) : option ref :=
  match fuel with
  | O => None
  | S fuel =>
      match p with
      | None => Some None
      | Some a =>
          if n_children (node_at t a) =? 0 then item_successor_loop t fuel (parent (node_at t a)) a
          else
            match next (nodes t) (child_last (node_at t a)) with
            | None => None
            | Some end_c =>
                match holding t (S (length (nodes t))) (Some k) end_c with
                | None => None
                | Some None => item_successor_loop t fuel (parent (node_at t a)) a
                | Some i => Some i
                end
            end
      end
  end.
Definition item_successor (t : tree) (k : nat) : option ref := item_successor_loop t (S (length (nodes t))) (parent (node_at t k)) k.
(** Tree.h:356-393: update_boundary_items, for an insertion of [delta] items. *)
Fixpoint update_loop (t : tree) (fuel : nat) (prev_child n : ref) (old_first old_last new_first new_last : ref) (delta : nat) : option tree :=
  match fuel with
  | O => None
  | S fuel =>
      match n with
      | None => Some t
      | Some k =>
          let r := node_at t k in
          let count := n_items r + delta in
          let r' :=
            if count =? 0 then with_items r None None 0
            else with_items r (if ref_eqb (child_first r) prev_child || ref_eqb (items_first r) old_first then new_first else items_first r)
                              (if ref_eqb (child_last r) prev_child || ref_eqb (items_last r) old_last then new_last else items_last r) count in
          update_loop (set_node t k r') fuel (Some k) (parent r) old_first old_last new_first new_last delta
      end
  end.
Definition update_boundary_items (t : tree) (leaf : nat) (new_first new_last : ref) (delta : nat) : option tree :=
  update_loop t (S (length (nodes t))) None (Some leaf) (items_first (node_at t leaf)) (items_last (node_at t leaf)) new_first new_last delta.
(** Tree.h:1004-1046: insert_child_node; [Some (t, None)] if the position is not valid. *)
Definition insert_child_node (t : tree) (p : nat) (insert_before : ref) (d : D) : option (tree * ref) :=
  let childless := n_children (node_at t p) =? 0 in
  match end_ t p with
  | None => None
  | Some e =>
      if ref_eqb insert_before (hd_error (nodes t)) then Some (t, None)
      else if (match insert_before with Some n => negb (ref_eqb (parent (node_at t n)) (Some p)) | None => true end) && negb (ref_eqb insert_before e) then
        match insert_before with Some _ => Some (t, None) | None => None end
      else
        match (if childless then node_successor t p else Some insert_before) with
        | None => None
        | Some n =>
            let new := fresh (nodes t) in
            let r := new_node_rec (Some p) d in
            let pr := node_at t p in
            let r := if childless then with_items r (items_first pr) (items_last pr) (n_items pr) else r in
            let pr := with_children pr (if ref_eqb insert_before (child_first pr) then Some new else child_first pr)
                                       (if ref_eqb insert_before e then Some new else child_last pr) (n_children pr + 1) in
            let t := set_nodes t (insert_at (nodes t) n new) in
            Some (set_node (set_node t new r) p pr, Some new)
        end
  end.
(** Tree.h:1055-1057: insert_child_node at the end. *)
Definition append_child (t : tree) (p : nat) (d : D) : option (tree * ref) := match end_ t p with Some e => insert_child_node t p e d | None => None end.
(** Tree.h:1174-1217: insert_item; [Some (t, None)] if the node has children. *)
Definition insert_item (t : tree) (k : nat) (insert_before : ref) (v : L) : option (tree * ref) :=
  let n := node_at t k in
  if 0 <? n_children n then Some (t, None)
  else
    match (if n_items n =? 0 then item_successor t k else Some insert_before) with
    | None => None
    | Some insert_pt =>
        let new := fresh (items t) in
        let its := insert_at (items t) insert_pt new in
        let t := mkTree (nodes t) its (node_at t) (upd (item_at t) new v) in
        match before its (Some new) with
        | None => None
        | Some prev =>
            let new_begin := if ref_eqb insert_pt (items_first n) || (n_items n =? 0) then Some new else items_first n in
            let new_end := if ref_eqb prev (items_last n) || (n_items n =? 0) then Some new else items_last n in
            match update_boundary_items t k new_begin new_end 1 with
            | None => None
            | Some t => Some (t, Some new)
            end
        end
    end.
(** Tree.h:1221-1223: insert_item at the end. *)
Definition append_item (t : tree) (k : nat) (v : L) : option (tree * ref) := match items_end t k with Some e => insert_item t k e v | None => None end.
(** Tree.h:1422-1449: the loop of split; [less] is the comparison with the pivot. *)
Fixpoint split_loop (t : tree) (fuel : nat) (less : L -> bool) (hi lo : nat) (i : ref) : option tree :=
  match fuel with
  | O => None
  | S fuel =>
      let h := node_at t hi in
      let l := node_at t lo in
      match before (items t) (items_first h) with
      | None => None
      | Some stop =>
          if ref_eqb i stop then Some t
          else
            match i, items_first h with
            | Some k, Some first =>
                if less (item_at t k) then
                  match after (items t) first with
                  | None => None
                  | Some hi_first =>
                      let l := with_items l (if n_items l =? 0 then Some first else items_first l) (Some first) (n_items l + 1) in
                      let h := with_items h hi_first (items_last h) (n_items h - 1) in
                      let vals := upd (upd (item_at t) k (item_at t first)) first (item_at t k) in
                      split_loop (mkTree (nodes t) (items t) (upd (upd (node_at t) lo l) hi h) vals) fuel less hi lo i
                  end
                else match before (items t) i with Some i => split_loop t fuel less hi lo i | None => None end
            | Some k, None => (* the items of the last leaf are used up *)
                if less (item_at t k) then None else match before (items t) i with Some i => split_loop t fuel less hi lo i | None => None end
            | None, _ => None
            end
      end
  end.
(** Tree.h:1403-1461: split; [Some (t, None)] if the node cannot be split. *)
Definition split (t : tree) (k : nat) (less : L -> bool) (d : D) : option (tree * ref) :=
  if ref_eqb (Some k) (hd_error (nodes t)) || (0 <? n_children (node_at t k)) || (n_items (node_at t k) <? 2) then Some (t, None)
  else
    match parent (node_at t k) with
    | None => None
    | Some p =>
        match insert_child_node t p (Some k) d with
        | Some (t, Some lo) =>
            match split_loop t (2 * n_items (node_at t k) + 1) less k lo (items_last (node_at t k)) with
            | None => None
            | Some t =>
                let h := node_at t k in
                Some (if n_items h =? 0 then set_node t k (with_items h None None 0) else t, Some lo)
            end
        | _ => None
        end
    end.
(** Tree.h:1606-1619: flatten.  Nodes from the first child to the successor are erased; erasing from a position to one that does not follow it is undefined. *)
Fixpoint erase_range (l : list nat) (stop : ref) : option (list nat) :=
  match l with
  | [] => match stop with None => Some [] | Some _ => None end
  | y :: r => if ref_eqb (Some y) stop then Some (y :: r) else erase_range r stop
  end.
Fixpoint erase_from (l : list nat) (start stop : ref) : option (list nat) :=
  match l with
  | [] => match start, stop with None, None => Some [] | _, _ => None end
  | y :: r => if ref_eqb (Some y) start then erase_range l stop else match erase_from r start stop with Some r => Some (y :: r) | None => None end
  end.
Definition flatten (t : tree) (k : nat) : option tree :=
  let n := node_at t k in
  if n_children n =? 0 then Some t
  else
    match node_successor t k with
    | None => None
    | Some s =>
        match erase_from (nodes t) (child_first n) s with
        | None => None
        | Some l => Some (set_node (set_nodes t l) k (with_children n None None 0))
        end
    end.
(** Tree.h:1536-1556: clear; the loop steps from an item just erased, which is undefined. *)
Definition clear (t : tree) (k : nat) : option tree :=
  match flatten t k with
  | None => None
  | Some t => if 0 <? n_items (node_at t k) then None else Some t
  end.
(** Tree.h:1569-1599: erase of a child; [false] if [child] is not one. *)
Definition erase (t : tree) (k child : nat) : option (tree * bool) :=
  if negb (ref_eqb (parent (node_at t child)) (Some k)) then Some (t, false)
  else
    match clear t child with
    | None => None
    | Some t =>
        match after (nodes t) child, before (nodes t) (Some child) with
        | Some next_node, Some prev_node =>
            let n := node_at t k in
            let count := n_children n - 1 in
            let n' := if count =? 0 then with_children n None None 0
                      else if ref_eqb (child_first n) (Some child) then with_children n next_node (child_last n) count
                      else if ref_eqb (child_last n) (Some child) then with_children n (child_first n) prev_node count
                      else with_children n (child_first n) (child_last n) count in
            Some (set_node (set_nodes t (remove_at (nodes t) child)) k n', true)
        | _, _ => None
        end
    end.
(** Tree.h:758-770: find_parent. *)
Fixpoint scan_items (l : list nat) (fuel : nat) (j stop : ref) (i : nat) : option bool :=
  match fuel with
  | O => None
  | S fuel => if ref_eqb j stop then Some false else if ref_eqb j (Some i) then Some true else match next l j with Some j => scan_items l fuel j stop i | None => None end
  end.
Fixpoint find_loop (t : tree) (fuel : nat) (n stop : ref) (i : nat) : option ref :=
  match fuel with
  | O => None
  | S fuel =>
      if ref_eqb n stop then Some None
      else
        match n with
        | None => None
        | Some k =>
            let r := node_at t k in
            match (if (n_children r =? 0) && (0 <? n_items r) then
                     match next (items t) (items_last r) with Some e => scan_items (items t) (S (length (items t))) (items_first r) e i | None => None end
                   else Some false) with
            | None => None
            | Some true => Some (Some k)
            | Some false => match after (nodes t) k with Some n => find_loop t fuel n stop i | None => None end
            end
        end
  end.
(** The result of find_parent is [inl] of the node found, or [inr] of the end() of this node. *)
Definition find_parent (t : tree) (k i : nat) : option (nat + ref) :=
  match node_successor t k with
  | None => None
  | Some last =>
      match find_loop t (S (length (nodes t))) (Some k) last i with
      | None => None
      | Some (Some n) => Some (inl n)
      | Some None => match end_ t k with Some e => Some (inr e) | None => None end
      end
  end.
(** Tree.h:543-557: next_candidate of a query from [root]. *)
Fixpoint ascend (t : tree) (fuel root item : nat) : option nat :=
  match fuel with
  | O => None
  | S fuel =>
      match parent (node_at t item) with
      | None => None
      | Some p => if ref_eqb (Some item) (child_last (node_at t p)) && negb (p =? root) then ascend t fuel root p else Some item
      end
  end.
Definition next_candidate (t : tree) (bound : nat -> bool) (root item : nat) : option ref :=
  if (0 <? n_children (node_at t item)) && bound item then Some (begin t item)
  else if item =? root then end_ t root
  else match ascend t (S (length (nodes t))) root item with Some i => after (nodes t) i | None => None end.
(** Tree.h:514-523, 559-570: a query's results, up to the end() of [root]; the loop that a user writes. *)
Fixpoint find_result (t : tree) (bound test : nat -> bool) (fuel root : nat) (item : ref) : option ref :=
  match fuel with
  | O => None
  | S fuel =>
      match end_ t root with
      | None => None
      | Some e =>
          if ref_eqb item e then Some item
          else match item with
               | None => Some None
               | Some k => if test k then Some item else match next_candidate t bound root k with Some i => find_result t bound test fuel root i | None => None end
               end
      end
  end.
Fixpoint query_from (t : tree) (bound test : nat -> bool) (fuel root : nat) (item : ref) : option (list nat) :=
  match fuel with
  | O => None
  | S fuel =>
      match find_result t bound test (S (length (nodes t))) root item, end_ t root with
      | Some r, Some e =>
          if ref_eqb r e then Some []
          else match r with
               | None => None
               | Some k => match next_candidate t bound root k with
                           | Some i => match query_from t bound test fuel root i with Some rest => Some (k :: rest) | None => None end
                           | None => None
                           end
               end
      | _, _ => None
      end
  end.
Definition query (t : tree) (bound test : nat -> bool) (root : nat) : option (list nat) := query_from t bound test (S (length (nodes t))) root (Some root).
(** Tree.h:311-332: operator==, for two trees that are not the same object. *)
Fixpoint nodes_eqb (deq : D -> D -> bool) (t s : tree) (a b : list nat) : bool :=
  match a, b with
  | [], [] => true
  | x :: a, y :: b => (n_items (node_at t x) =? n_items (node_at s y)) && (n_children (node_at t x) =? n_children (node_at s y)) && deq (data (node_at t x)) (data (node_at s y)) && nodes_eqb deq t s a b
  | _, _ => false
  end.
Fixpoint vals_eqb (leq : L -> L -> bool) (a b : list L) : bool :=
  match a, b with [], [] => true | x :: a, y :: b => leq x y && vals_eqb leq a b | _, _ => false end.
Definition tree_eqb (deq : D -> D -> bool) (leq : L -> L -> bool) (t s : tree) : bool :=
  match hd_error (nodes t), hd_error (nodes s) with
  | Some x, Some y => (n_items (node_at t x) =? n_items (node_at s y)) && vals_eqb leq (map (item_at t) (items t)) (map (item_at s) (items s)) && nodes_eqb deq t s (nodes t) (nodes s)
  | _, _ => false
  end.
End Tree.
Arguments node : clear implicits.
Arguments tree : clear implicits.
