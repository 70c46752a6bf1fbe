(** C19: matrix layouts and their iterators. *)
From Coq Require Import ZArith Bool.
From Verif Require Import Mem LayoutModel LayoutProofs.
Open Scope Z_scope.

(** In either layout, indexing is a bijection between the cells of a rows x cols matrix and [0, rows*cols). *)
Theorem layout_index_bijective L rows cols : 0 <= rows -> 0 <= cols ->
  (forall r c, 0 <= r < rows -> 0 <= c < cols -> 0 <= ix L r c rows cols < rows * cols) /\
  (forall r c r' c', 0 <= r < rows -> 0 <= c < cols -> 0 <= r' < rows -> 0 <= c' < cols ->
    ix L r c rows cols = ix L r' c' rows cols -> r = r' /\ c = c') /\
  (forall k, 0 <= k < rows * cols -> exists r c, 0 <= r < rows /\ 0 <= c < cols /\ ix L r c rows cols = k).
Proof.
  exact (fun R _ => conj (fun r c => ix_range L r c rows cols)
    (conj (fun r c r' c' => ix_inj L r c r' c' rows cols) (fun k => ix_surj L k rows cols R))).
Qed.
Print Assumptions layout_index_bijective.

(** The j-th element from the start of row r is element (r, j), in either layout, and it is j steps away. *)
Theorem row_iterator_addresses L r j rows cols : 0 <= r < rows -> 0 <= j < cols ->
  exists m m', row_it L r rows cols = Ok m /\ m_advance m j = Ok m' /\ m_deref m' = ix L r j rows cols /\ m_dist m m' = Ok j.
Proof. exact (row_it_ok L r j rows cols). Qed.
Print Assumptions row_iterator_addresses.

Theorem col_iterator_addresses L i c rows cols : 0 <= i < rows -> 0 <= c < cols ->
  exists m m', col_it L c rows cols = Ok m /\ m_advance m i = Ok m' /\ m_deref m' = ix L i c rows cols /\ m_dist m m' = Ok i.
Proof. exact (col_it_ok L i c rows cols). Qed.
Print Assumptions col_iterator_addresses.

(** Rows (columns) follow each other: the end of one is the beginning of the next, so a walk over all of them
    covers the matrix. *)
Theorem row_iterator_contiguous L r rows cols : 0 < rows -> 0 < cols ->
  exists m m', row_it L r rows cols = Ok m /\ row_it L (r + 1) rows cols = Ok m' /\ m_advance m cols = Ok m'.
Proof. exact (row_it_next L r rows cols). Qed.
Print Assumptions row_iterator_contiguous.
Theorem col_iterator_contiguous L c rows cols : 0 < rows -> 0 < cols ->
  exists m m', col_it L c rows cols = Ok m /\ col_it L (c + 1) rows cols = Ok m' /\ m_advance m rows = Ok m'.
Proof. exact (col_it_next L c rows cols). Qed.
Print Assumptions col_iterator_contiguous.

(** The transposing iterator is a random access iterator at every (even negative or past-the-end) ordinal:
    the distance inverts the advance, equality is equality of position, and decrement undoes increment. *)
Theorem transpose_iterator_arithmetic major minor i n : 0 < major -> 0 < minor ->
  exists t u, t_new major minor i = Ok t /\ t_advance t n = Ok u /\ t_dist t u = Ok n /\ t_dist u t = Ok (- n) /\
    (t_equal t u = true <-> n = 0) /\
    bind (t_inc t) t_dec = Ok t.
Proof. exact (t_arith major minor i n). Qed.
Print Assumptions transpose_iterator_arithmetic.

Example row_of_col_major_2x3 :
  (exists m, row_it ColMajor 1 2 3 = Ok m /\ exists m', m_advance m 2 = Ok m' /\ m_deref m' = 5) /\
  t_new 3 2 5 = Ok (mkT 3 2 5 5) /\ t_new 3 2 3 = Ok (mkT 3 2 3 4).
Proof. repeat split. eexists. split; [reflexivity|]. eexists. split; reflexivity. Qed.
