(** PLU decomposition of matrices of floating-point numbers (see FmaModel.v for the numbers and operators; PluModel.v has the exact arithmetic). *)
From Coq Require Import Reals ZArith List Bool.
From Flocq Require Import Core BinarySingleNaN.
From Verif Require Import PermModel FmaModel FquadModel FcholModel.
Import ListNotations.

Section Model.
Variable prec emax : Z.
Context {Hprec : Prec_gt_0 prec} {Hemax : Prec_lt_emax prec emax}.
Notation float := (binary_float prec emax).
Notation matrix := (nat -> nat -> float).
(** LUDecomp.h:224-227: exchange of rows [a] and [b] element by element. *)
Definition fl_row_swap (cols : nat) (m : matrix) (a b : nat) : matrix :=
  fold_left (fun (m : matrix) c => let x := m a c in let y := m b c in fl_set (fl_set m a c y) b c x) (seq 0 cols) m.
(** LUDecomp.h:207-215: position of the pivot for column [i], among rows [i..rows-1]; [biggest] is the magnitude of the element there. *)
Definition fl_find_pivot (rows : nat) (m : matrix) (i : nat) : nat :=
  fold_left (fun pvt p => if fl_ltb prec emax (Babs (m pvt i)) (Babs (m p i)) then p else pvt) (seq (S i) (rows - S i)) i.
(** LUDecomp.h:236-247: subtract [b] times row [i] from row [r], unless [b] is zero, then store [b]; multiply_add rounds once. *)
Definition fl_elim_row (cols i : nat) (a : float) (m : matrix) (r : nat) : matrix :=
  let b := fl_div prec emax (m r i) a in
  let m1 := if fl_eqb prec emax b (fl_lit prec emax 0 0) then m
            else fold_left (fun (m : matrix) c => fl_set m r c (fl_multiply_add (fl_neg prec emax b) (m i c) (m r c))) (seq (S i) (cols - S i)) m in
  fl_set m1 r i b.
(** LUDecomp.h:234-248. *)
Definition fl_eliminate (rows cols i : nat) (m : matrix) : matrix := fold_left (fl_elim_row cols i (m i i)) (seq (S i) (rows - S i)) m.
(** Loop state: matrix, permutation array, parity flag, number of degenerate lines. *)
Record fl_plu : Type := fl_mkPlu { fl_lu : matrix; fl_reorder : nat -> nat; fl_parity : bool; fl_degenerate : nat }.
(** LUDecomp.h:205-249: one iteration. *)
Definition fl_plu_step (rows cols : nat) (s : fl_plu) (i : nat) : fl_plu :=
  let pvt := fl_find_pivot rows (fl_lu s) i in
  if fl_eqb prec emax (Babs (fl_lu s pvt i)) (fl_lit prec emax 0 0) then fl_mkPlu (fl_lu s) (fl_reorder s) (fl_parity s) (S (fl_degenerate s))
  else
    let s' := if Nat.eqb pvt i then s else fl_mkPlu (fl_row_swap cols (fl_lu s) i pvt) (swap (fl_reorder s) i pvt) (negb (fl_parity s)) (fl_degenerate s) in
    fl_mkPlu (fl_eliminate rows cols i (fl_lu s')) (fl_reorder s') (fl_parity s') (fl_degenerate s').
(** LUDecomp.h:190-252: decomp_plu, with both output pointers non-null; the returned count is [fl_degenerate]. *)
Definition fl_decomp_plu (m : matrix) (rows cols : nat) : fl_plu :=
  fold_left (fl_plu_step rows cols) (seq 0 (Nat.min rows cols - 1)) (fl_mkPlu m (fun i => i) false 0).
End Model.
Arguments fl_row_swap {prec emax}. Arguments fl_find_pivot {prec emax}. Arguments fl_elim_row {prec emax Hprec Hemax}. Arguments fl_eliminate {prec emax Hprec Hemax}.
Arguments fl_lu {prec emax}. Arguments fl_reorder {prec emax}. Arguments fl_parity {prec emax}. Arguments fl_degenerate {prec emax}. Arguments fl_mkPlu {prec emax}.
Arguments fl_plu_step {prec emax Hprec Hemax}. Arguments fl_decomp_plu {prec emax Hprec Hemax}.
