(** Model of geomc/linalg/LUDecomp.h: PLU and LUP decomposition, back substitution, linear_solve.
    Matrices are functions of (row, column): the row- or column-major buffer behind MxWrap (MatrixGlue.h:31-60) is
    abstracted, both layouts being injective addressings of the rectangle.  Elements range over a field with exact
    arithmetic; multiply_add(a,b,c) is a*b+c.  [bigger x y] stands for the comparison std::abs(x) > std::abs(y), and
    std::abs(x) == 0 for x = 0. *)
From Coq Require Import Arith List Bool.
From Verif Require Import Fld PermModel.
Import ListNotations.
Open Scope nat_scope.

Section Plu.
Variable K : field.
Variable bigger : K -> K -> bool.
Local Open Scope fld_scope.

(** Assignment m(r,c) = x. *)
Definition upd2 (m : mtx K) (r c : nat) (x : K) : mtx K := fun i j => if ((i =? r) && (j =? c))%nat then x else m i j.
(** LUDecomp.h:224-227: exchange of rows [a] and [b] element by element. *)
Definition row_swap (cols : nat) (m : mtx K) (a b : nat) : mtx K :=
  fold_left (fun (m : mtx K) c => let x := m a c in let y := m b c in upd2 (upd2 m a c y) b c x) (seq 0 cols) m.
(** LUDecomp.h:139-142: exchange of columns [a] and [b]. *)
Definition col_swap (rows : nat) (m : mtx K) (a b : nat) : mtx K :=
  fold_left (fun (m : mtx K) r => let x := m r a in let y := m r b in upd2 (upd2 m r a y) r b x) (seq 0 rows) m.

(** LUDecomp.h:207-215: position of the pivot for column [i], among rows [i..rows-1]. *)
Definition find_pivot (rows : nat) (m : mtx K) (i : nat) : nat :=
  fold_left (fun pvt p => if bigger (m p i) (m pvt i) then p else pvt) (seq (S i) (rows - S i)) i.
(** LUDecomp.h:121-129: position of the pivot for row [i], among columns [i..cols-1]. *)
Definition find_pivot_col (cols : nat) (m : mtx K) (i : nat) : nat :=
  fold_left (fun pvt p => if bigger (m i p) (m i pvt) then p else pvt) (seq (S i) (cols - S i)) i.

(** LUDecomp.h:236-247: subtract (also 151-162) [b] times row [i] from row [r], then store [b]. *)
Definition elim_row (cols i : nat) (a : K) (m : mtx K) (r : nat) : mtx K :=
  let b := m r i / a in
  let m1 := if feq_dec b 0 then m
            else fold_left (fun (m : mtx K) c => upd2 m r c ((- b) * m i c + m r c)) (seq (S i) (cols - S i)) m in
  upd2 m1 r i b.
(** LUDecomp.h:234-248 (also 149-163). *)
Definition eliminate (rows cols i : nat) (m : mtx K) : mtx K :=
  fold_left (elim_row cols i (m i i)) (seq (S i) (rows - S i)) m.

(** Loop state: matrix, permutation array, parity flag, number of degenerate lines. *)
Record plu_state : Type := mkPlu { pm : mtx K; pr : nat -> nat; pp : bool; pd : nat }.
(** LUDecomp.h:205-249: one iteration of decomp_plu. *)
Definition plu_step (rows cols : nat) (s : plu_state) (i : nat) : plu_state :=
  let pvt := find_pivot rows (pm s) i in
  if feq_dec (pm s pvt i) 0 then mkPlu (pm s) (pr s) (pp s) (pd s + 1)
  else
    let s' := if pvt =? i then s else mkPlu (row_swap cols (pm s) i pvt) (swap (pr s) i pvt) (negb (pp s)) (pd s) in
    mkPlu (eliminate rows cols i (pm s')) (pr s') (pp s') (pd s').
(** LUDecomp.h:190-252 [decomp_plu], with both output pointers non-null; the returned count is [pd]. *)
Definition decomp_plu (m : mtx K) (rows cols : nat) : plu_state :=
  fold_left (plu_step rows cols) (seq 0 (Nat.min rows cols - 1)) (mkPlu m (fun i => i) false 0).
(** LUDecomp.h:119-164: one iteration of decomp_lup. *)
Definition lup_step (rows cols : nat) (s : plu_state) (i : nat) : plu_state :=
  let pvt := find_pivot_col cols (pm s) i in
  if feq_dec (pm s i pvt) 0 then mkPlu (pm s) (pr s) (pp s) (pd s + 1)
  else
    let s' := if pvt =? i then s else mkPlu (col_swap rows (pm s) i pvt) (swap (pr s) i pvt) (negb (pp s)) (pd s) in
    mkPlu (eliminate rows cols i (pm s')) (pr s') (pp s') (pd s').
(** LUDecomp.h:104-167 [decomp_lup]. *)
Definition decomp_lup (m : mtx K) (rows cols : nat) : plu_state :=
  fold_left (lup_step rows cols) (seq 0 (Nat.min rows cols - 1)) (mkPlu m (fun i => i) false 0).

(** LUDecomp.h:351-353 and 297-299: subtract the already known terms of row [r], column [i], for columns [cs]. *)
Definition sub_terms (lu : mtx K) (r i : nat) (cs : list nat) (X : mtx K) : mtx K :=
  fold_left (fun (X : mtx K) c => upd2 X r i (X r i - X c i * lu r c)) cs X.
(** LUDecomp.h:347-355: forward substitution, row [r]. *)
Definition forward_row (lu : mtx K) (m : nat) (X : mtx K) (r : nat) : mtx K :=
  fold_left (fun (X : mtx K) i => sub_terms lu r i (seq 0 r) X) (seq 0 m) X.
(** LUDecomp.h:358-367 (also 304-313): back substitution, row [r]; the columns run downwards from n-1 to r+1. *)
Definition backward_row (lu : mtx K) (n m : nat) (X : mtx K) (r : nat) : mtx K :=
  let k := lu r r in
  fold_left (fun (X : mtx K) i => let X1 := sub_terms lu r i (rev (seq (S r) (n - S r))) X in upd2 X1 r i (X1 r i / k)) (seq 0 m) X.
Definition backward (lu : mtx K) (n m skip : nat) (X : mtx K) : mtx K :=
  fold_left (backward_row lu n m) (rev (seq skip (n - skip))) X.
(** LUDecomp.h:334-368 [backsolve_lu]. *)
Definition backsolve_lu (lu : mtx K) (n m skip : nat) (X : mtx K) : mtx K :=
  backward lu n m skip (fold_left (forward_row lu m) (seq 1 (n - 1)) X).
(** LUDecomp.h:273-314 [backsolve_plu]; [B] and [X] do not overlap. *)
Definition forward_row_plu (lu : mtx K) (p : nat -> nat) (B : mtx K) (m : nat) (X : mtx K) (r : nat) : mtx K :=
  fold_left (fun (X : mtx K) i => sub_terms lu r i (seq 0 r) (upd2 X r i (B (p r) i))) (seq 0 m) X.
Definition backsolve_plu (lu : mtx K) (p : nat -> nat) (n m skip : nat) (B X : mtx K) : mtx K :=
  backward lu n m skip (fold_left (forward_row_plu lu p B m) (seq 0 n) X).

(** LUDecomp.h:390-401 [linear_solve] (and 428-442, the branch N >= 5 of the vector version): [Some (false, _)] when
    the system is reported degenerate.  [None] would be a loop that does not end. *)
Definition linear_solve (A : mtx K) (n m skip : nat) (X : mtx K) : option (bool * mtx K) :=
  let d := decomp_plu A n n in
  if 0 <? pd d then Some (false, X)
  else match destructive_apply_permutation (pr d) X n with
       | Some (_, X1) => Some (true, backsolve_lu (pm d) n m skip X1)
       | None => None
       end.
End Plu.
Arguments upd2 {K}. Arguments row_swap {K}. Arguments col_swap {K}. Arguments find_pivot {K}. Arguments find_pivot_col {K}.
Arguments elim_row {K}. Arguments eliminate {K}. Arguments plu_step {K}. Arguments decomp_plu {K}. Arguments lup_step {K}.
Arguments decomp_lup {K}. Arguments sub_terms {K}. Arguments forward_row {K}. Arguments backward_row {K}. Arguments backward {K}.
Arguments backsolve_lu {K}. Arguments forward_row_plu {K}. Arguments backsolve_plu {K}. Arguments linear_solve {K}.
Arguments pm {K}. Arguments pr {K}. Arguments pp {K}. Arguments pd {K}. Arguments mkPlu {K}.
