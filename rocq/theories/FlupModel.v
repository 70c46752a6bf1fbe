(** LUP decomposition of matrices of floating-point numbers (see FmaModel.v for the numbers and operators; PluModel.v has the exact arithmetic). *)
From Coq Require Import Reals ZArith List Bool.
From Flocq Require Import Core BinarySingleNaN.
From Verif Require Import PermModel FmaModel FquadModel FcholModel FpluModel.
Import ListNotations.

Section Model.
Variable prec emax : Z.
Context {Hprec : Prec_gt_0 prec} {Hemax : Prec_lt_emax prec emax}.
Notation float := (binary_float prec emax).
Notation matrix := (nat -> nat -> float).
(** LUDecomp.h:139-142: exchange of columns [a] and [b] element by element. *)
Definition fl_col_swap (rows : nat) (m : matrix) (a b : nat) : matrix :=
  fold_left (fun (m : matrix) r => let x := m r a in let y := m r b in fl_set (fl_set m r a y) r b x) (seq 0 rows) m.
(** LUDecomp.h:121-129: position of the pivot for row [i], among columns [i..cols-1]; [biggest] is the magnitude of the element there. *)
Definition fl_find_pivot_col (cols : nat) (m : matrix) (i : nat) : nat :=
  fold_left (fun pvt p => if fl_ltb prec emax (Babs (m i pvt)) (Babs (m i p)) then p else pvt) (seq (S i) (cols - S i)) i.
(** LUDecomp.h:119-164: one iteration; the elimination of lines 149-163 is the one of lines 234-248. *)
Definition fl_lup_step (rows cols : nat) (s : fl_plu prec emax) (i : nat) : fl_plu prec emax :=
  let pvt := fl_find_pivot_col cols (fl_lu s) i in
  if fl_eqb prec emax (Babs (fl_lu s i pvt)) (fl_lit prec emax 0 0) then fl_mkPlu (fl_lu s) (fl_reorder s) (fl_parity s) (S (fl_degenerate s))
  else
    let s' := if Nat.eqb pvt i then s else fl_mkPlu (fl_col_swap rows (fl_lu s) i pvt) (swap (fl_reorder s) i pvt) (negb (fl_parity s)) (fl_degenerate s) in
    fl_mkPlu (fl_eliminate rows cols i (fl_lu s')) (fl_reorder s') (fl_parity s') (fl_degenerate s').
(** LUDecomp.h:104-167: decomp_lup, with both output pointers non-null; the returned count is [fl_degenerate]. *)
Definition fl_decomp_lup (m : matrix) (rows cols : nat) : fl_plu prec emax :=
  fold_left (fl_lup_step rows cols) (seq 0 (Nat.min rows cols - 1)) (fl_mkPlu m (fun i => i) false 0).
End Model.
Arguments fl_col_swap {prec emax}. Arguments fl_find_pivot_col {prec emax}. Arguments fl_lup_step {prec emax Hprec Hemax}. Arguments fl_decomp_lup {prec emax Hprec Hemax}.
