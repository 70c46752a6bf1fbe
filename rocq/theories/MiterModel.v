(** Model of geomc/linalg/mtxdetail/MatrixIterator.h (MtxSubsetIterator and MtxColIterator) and of the functions of MatrixBase.h that
    return them.  Elements come from [at_], the matrix's operator(). *)
From Coq Require Import ZArith List Bool.
From Verif Require Import Mem Fld GridModel FlatModel.
Import ListNotations.
Open Scope Z_scope.
Open Scope res_scope.

(** MatrixBase.h:178-180, 189-191, 319-321, 330-332 with MatrixIterator.h:54-56, 77-83: region_begin and region_end of the Rect from (r0, c0) to (r1, c1). *)
Definition region_begin (r0 c0 r1 c1 : Z) : grid_it := g_new false [r0; c0] [r1; c1].
Definition region_end (r0 c0 r1 c1 : Z) : grid_it := g_end (region_begin r0 c0 r1 c1).
(** MatrixBase.h:157-159 and 165-169 with MatrixIterator.h:62-66: begin and end of a whole matrix. *)
Definition whole_begin (rows cols : Z) : grid_it := mkG false [0; 0] [rows - 1; cols - 1] [0; 0].
Definition whole_end (rows cols : Z) : grid_it := mkG false [0; 0] [rows - 1; cols - 1] [rows; 0].

Section Read.
Context {A : Type}.
(** MatrixIterator.h:110-114: dereference. *)
Definition it_read (at_ : Z -> Z -> res A) (g : grid_it) : res A := match g_pt g with [r; c] => at_ r c | _ => Fault OtherUB end.
(** The loop [for (i = b; i != e; ++i)] that collects [*i]; [None] if it still runs after [fuel] steps.  MatrixIterator.h:90-92, 94-96: equal, increment. *)
Fixpoint it_collect (fuel : nat) (at_ : Z -> Z -> res A) (g e : grid_it) : option (res (list A)) :=
  if g_equal g e then Some (Ok [])
  else
    match fuel with
    | O => None
    | S fuel =>
        match it_read at_ g with
        | Fault f => Some (Fault f)
        | Ok x => match it_collect fuel at_ (g_inc g) e with Some (Ok l) => Some (Ok (x :: l)) | o => o end
        end
    end.
(** MatrixIterator.h:102-104 (advance) and 110-114: [*(i + n)]. *)
Definition it_read_at (at_ : Z -> Z -> res A) (g : grid_it) (n : Z) : res A := let* g := g_advance g n in it_read at_ g.
End Read.

(** The loop [for (i = b; i != e; ++i) *i = src[k++]] over a SimpleMatrix. *)
Fixpoint it_store {K : field} (fuel : nat) (mem : memory K) (m : flat) (src : Z -> K) (k : Z) (g e : grid_it) : option (res (memory K)) :=
  if g_equal g e then Some (Ok mem)
  else
    match fuel with
    | O => None
    | S fuel =>
        match (match g_pt g with [r; c] => f_set mem m r c (src k) | _ => Fault OtherUB end) with
        | Fault f => Some (Fault f)
        | Ok mem => it_store fuel mem m src (k + 1) (g_inc g) e
        end
    end.

(** MatrixIterator.h:140-145: an iterator over a column; col(j) starts at the top (MatrixBase.h:132-134, 259-261). *)
Record col_it : Type := mkCol { c_row : Z; c_col : Z }.
Definition col_begin (j : Z) : col_it := mkCol 0 j.
(** MatrixIterator.h:151-169: equal, increment, decrement, advance, distance_to. *)
Definition c_equal (a b : col_it) : bool := (c_row a =? c_row b) && (c_col a =? c_col b).
Definition c_inc (i : col_it) : col_it := mkCol (c_row i + 1) (c_col i).
Definition c_dec (i : col_it) : col_it := mkCol (c_row i - 1) (c_col i).
Definition c_advance (i : col_it) (n : Z) : col_it := mkCol (c_row i + n) (c_col i).
Definition c_dist (i other : col_it) : Z := c_row other - c_row i.
(** MatrixIterator.h:171-174: dereference. *)
Definition c_read {A} (at_ : Z -> Z -> res A) (i : col_it) : res A := at_ (c_row i) (c_col i).
Fixpoint c_collect {A} (fuel : nat) (at_ : Z -> Z -> res A) (i e : col_it) : option (res (list A)) :=
  if c_equal i e then Some (Ok [])
  else
    match fuel with
    | O => None
    | S fuel =>
        match c_read at_ i with
        | Fault f => Some (Fault f)
        | Ok x => match c_collect fuel at_ (c_inc i) e with Some (Ok l) => Some (Ok (x :: l)) | o => o end
        end
    end.
