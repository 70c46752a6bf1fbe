(** Properties C28 and C29: PLU / LUP decomposition and linear systems, over any field, for every size. *)
From Coq Require Import Arith Lia List Bool QArith Qcanon Qabs.
From Verif Require Import Fld FldLemmas LinSpec PermModel PermSpec PermProofs PluModel PluProofs SolveProofs DetInvModel DetInvProofs InvRawProofs.
Import ListNotations.
Open Scope nat_scope.

(** * C28 *)
(** Square and wide matrices: L U = P M, P is a permutation and the flag its parity. *)
Theorem plu_factors (K : field) (bigger : K -> K -> bool) (M : mtx K) rows cols : sane_order bigger -> rows <= cols ->
  let d := decomp_plu bigger M rows cols in
  (forall r c, r < rows -> c < cols -> mmul rows (lower_of (pm d)) (upper_of (pm d)) r c = M (pr d r) c) /\
  exists k, by_swaps rows k (pr d) /\ pp d = Nat.odd k.
Proof. exact (decomp_plu_ok K bigger M rows cols). Qed.
Print Assumptions plu_factors.
(** Tall matrices: exact only in the square part and in the columns before the last. *)
Theorem plu_tall_error (K : field) (bigger : K -> K -> bool) (M : mtx K) rows cols r c : sane_order bigger ->
  0 < cols <= rows -> r < rows -> c < cols -> let d := decomp_plu bigger M rows cols in
  mmul cols (lower_of (pm d)) (upper_of (pm d)) r c =
  (M (pr d r) c + (if (cols <=? r)%nat && (c =? cols - 1)%nat then pm d r c * (pm d c c - 1) else 0))%F.
Proof. intros O. exact (decomp_plu_tall K bigger M rows cols O r c). Qed.
Print Assumptions plu_tall_error.
Theorem plu_tall_refuted (K : field) (bigger : K -> K -> bool) rows cols : sane_order bigger -> 0 < cols < rows -> exists M : mtx K,
  let d := decomp_plu bigger M rows cols in pd d = 0 /\
  exists r c, r < rows /\ c < cols /\ mmul cols (lower_of (pm d)) (upper_of (pm d)) r c <> M (pr d r) c.
Proof. exact (decomp_plu_tall_wrong K bigger rows cols). Qed.
Print Assumptions plu_tall_refuted.
(** A degenerate line is reported only for singular matrices. *)
Theorem plu_degenerate_singular (K : field) (bigger : K -> K -> bool) (M : mtx K) n : sane_order bigger ->
  pd (decomp_plu bigger M n n) <> 0 -> singular n M.
Proof. exact (decomp_degenerate_singular K bigger M n). Qed.
Print Assumptions plu_degenerate_singular.
(** Nonsingular matrices: no degenerate line and no zero pivot. *)
Theorem plu_nonsingular_pivots (K : field) (bigger : K -> K -> bool) (M : mtx K) n : sane_order bigger -> ~ singular n M ->
  pd (decomp_plu bigger M n n) = 0 /\ forall k, k < n -> pm (decomp_plu bigger M n n) k k <> 0%F.
Proof. exact (decomp_nonsingular K bigger M n). Qed.
Print Assumptions plu_nonsingular_pivots.
(** LUP: the permutation applies to the columns. *)
Theorem lup_factors (K : field) (bigger : K -> K -> bool) (M : mtx K) rows cols : rows <= cols ->
  let d := decomp_lup bigger M rows cols in
  (pd d = 0 -> forall r c, r < rows -> c < cols -> mmul rows (lower_of (pm d)) (upper_of (pm d)) r c = M r (pr d c)) /\
  exists k, by_swaps cols k (pr d) /\ pp d = Nat.odd k.
Proof. exact (decomp_lup_ok K bigger M rows cols). Qed.
Print Assumptions lup_factors.
(** With a degenerate row the factors need not reproduce the matrix, for any shape of at least 2 x 2. *)
Theorem lup_degenerate_refuted (K : field) (bigger : K -> K -> bool) rows cols : 2 <= rows -> 2 <= cols -> sane_order bigger ->
  exists M : mtx K, let d := decomp_lup bigger M rows cols in pd d <> 0 /\
  mmul (Nat.min rows cols) (lower_of (pm d)) (upper_of (pm d)) 1 0 <> M 1 (pr d 0).
Proof. exact (decomp_lup_degenerate_wrong K bigger rows cols). Qed.
Print Assumptions lup_degenerate_refuted.

(** * C29 *)
(** A nonsingular system is solved, for any number of right-hand sides. *)
Theorem linear_solve_solves (K : field) (bigger : K -> K -> bool) (A : mtx K) n m X : sane_order bigger -> ~ singular n A ->
  exists X', linear_solve bigger A n m 0 X = Some (true, X') /\ forall r i, r < n -> i < m -> mmul n A X' r i = X r i.
Proof. exact (linear_solve_ok K bigger A n m X). Qed.
Print Assumptions linear_solve_solves.
(** Failure is reported only for singular systems, and the call always ends. *)
Theorem linear_solve_failure (K : field) (bigger : K -> K -> bool) (A : mtx K) n m skip X : sane_order bigger ->
  linear_solve bigger A n m skip X <> None /\ forall X', linear_solve bigger A n m skip X = Some (false, X') -> singular n A.
Proof. intros O. split; [exact (linear_solve_total K bigger A n m skip X O)|]. intros X'. exact (linear_solve_false K bigger A n m skip X X' O). Qed.
Print Assumptions linear_solve_failure.
(** Skipping the first rows changes nothing in the others. *)
Theorem linear_solve_skips (K : field) (bigger : K -> K -> bool) (A : mtx K) n m skip X b X' : skip <= n ->
  linear_solve bigger A n m skip X = Some (b, X') ->
  exists X0, linear_solve bigger A n m 0 X = Some (b, X0) /\ forall r i, skip <= r < n -> X' r i = X0 r i.
Proof. exact (linear_solve_skip K bigger A n m skip X b X'). Qed.
Print Assumptions linear_solve_skips.
(** Back substitution with a separate permutation and right-hand side. *)
Theorem backsolve_plu_solves (K : field) (lu : mtx K) (p : nat -> nat) n m (B X : mtx K) : (forall r, r < n -> lu r r <> 0%F) ->
  forall r i, r < n -> i < m -> mmul n (mmul n (lower_of lu) (upper_of lu)) (backsolve_plu lu p n m 0 B X) r i = B (p r) i.
Proof. exact (backsolve_plu_ok K lu p n m B X). Qed.
Print Assumptions backsolve_plu_solves.
(** The vector version below five dimensions. *)
Theorem linear_solve_small_solves (K : field) (bigger : K -> K -> bool) n bases out0 X : sane_order bigger ->
  ~ singular n (stored false n bases) -> exists X', linear_solve_inv bigger n bases out0 X = (true, X') /\
  forall r i, r < n -> mmul n (stored false n bases) X' r i = X r i.
Proof. exact (linear_solve_inv_ok K bigger n bases out0 X). Qed.
Print Assumptions linear_solve_small_solves.
(** For every size there are singular systems reported as solved. *)
Theorem linear_solve_singular_refuted (K : field) (bigger : K -> K -> bool) n m skip (d : nat -> K) X : sane_order bigger -> 0 < n ->
  (forall k, k < n - 1 -> d k <> 0%F) -> d (n - 1) = 0%F ->
  singular n (diag d) /\ exists X', linear_solve bigger (diag d) n m skip X = Some (true, X').
Proof.
  intros O Hn Nz Z. split; [exact (diag_singular K n d (n - 1) ltac:(lia) Z)|]. exact (linear_solve_accepts_singular K bigger n m skip d X O Nz).
Qed.
Print Assumptions linear_solve_singular_refuted.

(** The hypotheses are met: magnitude comparison over the rationals, a system with row exchanges. *)
Definition qbigger (x y : Qc_field) : bool := match (Qabs (this y) ?= Qabs (this x))%Q with Lt => true | _ => false end.
Example qbigger_sane : sane_order qbigger.
Proof.
  split.
  - intros y Hy. unfold qbigger. change (0%F : Qc_field) with (Q2Qc 0). destruct (Qcompare_spec (Qabs (this (Q2Qc 0))) (Qabs (this y))) as [E|L|L]; [|reflexivity|].
    + exfalso. apply Hy. apply Qc_is_canon. change (Qabs (this (Q2Qc 0))) with 0%Q in E. symmetry in E. 
      destruct (Qlt_le_dec (this y) 0) as [N|N].
      * rewrite Qabs_neg in E by (apply Qlt_le_weak; exact N). apply Qopp_comp in E. rewrite Qopp_involutive in E. exact E.
      * rewrite Qabs_pos in E by exact N. exact E.
    + exfalso. apply (Qlt_not_le _ _ L). apply Qabs_nonneg.
  - intros x. unfold qbigger. change (0%F : Qc_field) with (Q2Qc 0). destruct (Qcompare_spec (Qabs (this x)) (Qabs (this (Q2Qc 0)))) as [E|L|L]; try reflexivity.
    exfalso. apply (Qlt_not_le _ _ L). apply Qabs_nonneg.
Qed.
Definition qm (l : list (list Z)) : mtx Qc_field := fun r c => Q2Qc (inject_Z (nth c (nth r l []) 0%Z)).
Example plu_example : let d := decomp_plu qbigger (qm [[0;2;1];[4;1;3];[2;5;7]]%Z) 3 3 in
  pd d = 0 /\ map (pr d) [0;1;2] = [1;2;0] /\ pp d = false.
Proof. vm_compute. auto. Qed.
Example solve_example : option_map fst (linear_solve qbigger (qm [[0;2;1];[4;1;3];[2;5;7]]%Z) 3 1 0 (qm [[4];[9];[14]]%Z)) = Some true /\
  match linear_solve qbigger (qm [[0;2;1];[4;1;3];[2;5;7]]%Z) 3 1 0 (qm [[3];[8];[14]]%Z) with
  | Some (_, X) => map (fun r => this (X r 0)) [0;1;2] = [1;1;1]%Q | None => False end.
Proof. vm_compute. auto. Qed.
