(** Properties C30 and C31: determinants and inverses, over any field. *)
From Coq Require Import Arith Lia ZArith List Bool QArith Qcanon.
From Verif Require Import Fld FldLemmas LinSpec PermModel PermSpec PermProofs PluModel PluProofs SolveProofs DetProofs DetInvModel DetInvProofs InvRawProofs PluProps.
Import ListNotations.
Local Close Scope Q_scope.
Open Scope nat_scope.

(** * C30 *)
(** The specification's determinant is the usual one: it vanishes exactly on singular matrices. *)
Theorem det_zero_iff_singular (K : field) n (A : mtx K) : singular n A <-> det n A = 0%F.
Proof. exact (det_iff K n A). Qed.
Print Assumptions det_zero_iff_singular.
Theorem closed_form_determinants (K : field) (m : nat -> K) :
  det2x2_buf m = det 2 (stored true 2 m) /\ det3x3_buf m = det 3 (stored true 3 m) /\ det4x4_buf m = det 4 (stored true 4 m).
Proof. exact (conj (det2x2_ok K m) (conj (det3x3_ok K m) (det4x4_ok K m))). Qed.
Print Assumptions closed_form_determinants.
(** 2x2, 3x3, 4x4, any combination of layouts: a two-sided inverse, or [false] with a singular matrix and the output
    untouched. *)
Theorem closed_form_inverses (K : field) (bigger : K -> K -> bool) lo lm n (out m : nat -> K) : n = 2 \/ n = 3 \/ n = 4 ->
  let r := inv_raw bigger lo lm n out m in
  (fst r = true /\ inverse_of n (stored lm n m) (stored lo n (snd r))) \/
  (fst r = false /\ singular n (stored lm n m) /\ forall k, snd r k = out k).
Proof. exact (inv_raw_small K bigger lo lm n out m). Qed.
Print Assumptions closed_form_inverses.
(** The flat-array functions themselves. *)
Theorem flat_inverses (K : field) (out m : nat -> K) :
  inverts K 2 true true out m (inv2x2 out m) /\ inverts K 3 true true out m (inv3x3 out m) /\ inverts K 4 true true out m (inv4x4 out m).
Proof. exact (conj (inv2x2_ok K out m) (conj (inv3x3_ok K out m) (inv4x4_ok K out m))). Qed.
Print Assumptions flat_inverses.
(** Every size: nonsingular matrices are inverted, and failure means singular, output untouched. *)
Theorem inverse_general (K : field) (bigger : K -> K -> bool) lo lm n (out m : nat -> K) : sane_order bigger ->
  let r := inv_raw bigger lo lm n out m in
  (fst r = false -> singular n (stored lm n m) /\ forall k, snd r k = out k) /\
  (~ singular n (stored lm n m) -> fst r = true /\ inverse_of n (stored lm n m) (stored lo n (snd r))).
Proof. intros O. exact (inv_raw_ok K bigger O lo lm n out m). Qed.
Print Assumptions inverse_general.
(** From five dimensions up (and for 1x1) some singular matrices are reported as inverted. *)
Theorem inverse_singular_refuted (K : field) (bigger : K -> K -> bool) lo lm n (d : nat -> K) (out : nat -> K) : sane_order bigger ->
  n = 1 \/ 5 <= n -> (forall k, k < n - 1 -> d k <> 0%F) -> d (n - 1) = 0%F ->
  singular n (stored lm n (diag_buffer K d n)) /\ fst (inv_raw bigger lo lm n out (diag_buffer K d n)) = true.
Proof.
  intros O Hn Nz Z. split; [exact (stored_diag_singular K d lm n ltac:(lia) Z)|]. exact (inv_raw_accepts_singular K bigger O lo lm d n out Hn Nz).
Qed.
Print Assumptions inverse_singular_refuted.
(** In-place transposition of a square buffer. *)
Theorem transpose_square_transposes (K : field) n (b : nat -> K) r c : r < n -> c < n ->
  stored true n (transpose_square n b) r c = stored true n b c r.
Proof. exact (transpose_square_ok K n b r c). Qed.
Print Assumptions transpose_square_transposes.

(** * C31 *)
(** The determinant is the signed product of the decomposition's diagonal... *)
Theorem plu_determinant (K : field) (bigger : K -> K -> bool) (M : mtx K) n : sane_order bigger ->
  let d := decomp_plu bigger M n n in
  det n M = (if pp d then - prod n (fun k => pm d k k) else prod n (fun k => pm d k k))%F.
Proof. intros O. exact (decomp_det K bigger O M n). Qed.
Print Assumptions plu_determinant.
(** ... but the functions multiply elements 0, 1, 4, 9, ... of the buffer: every invertible diagonal matrix from 2x2 up
    gets determinant zero. *)
Theorem determinant_general_refuted (K : field) (bigger : K -> K -> bool) (d : nat -> K) n : sane_order bigger -> 2 <= n ->
  (forall k, k < n -> d k <> 0%F) ->
  detNxN bigger (diag_buffer K d n) n = 0%F /\ det_destructive bigger (diag_buffer K d n) n = 0%F /\
  det n (stored true n (diag_buffer K d n)) <> 0%F.
Proof.
  intros O Hn Nz. rewrite det_destructive_eq. destruct (detNxN_diag K bigger O d n Hn Nz) as [A B]. auto.
Qed.
Print Assumptions determinant_general_refuted.
(** They are right for 1x1 matrices. *)
Theorem determinant_one (K : field) (bigger : K -> K -> bool) (m : nat -> K) :
  detNxN bigger m 1 = det 1 (stored true 1 m) /\ det_destructive bigger m 1 = det 1 (stored true 1 m).
Proof. rewrite det_destructive_eq. split; apply detNxN_one. Qed.
Print Assumptions determinant_one.
(** Reported zero because of a degenerate line: then the determinant is zero. *)
Theorem determinant_degenerate (K : field) (bigger : K -> K -> bool) (m : nat -> K) n : sane_order bigger ->
  pd (plu_buffer bigger m n) <> 0 -> detNxN bigger m n = 0%F /\ det n (stored true n m) = 0%F.
Proof.
  intros O P. split.
  - rewrite detNxN_eq. destruct (pd (plu_buffer bigger m n)); [contradiction|reflexivity].
  - apply det_iff. exact (decomp_degenerate_singular K bigger (stored true n m) n O P).
Qed.
Print Assumptions determinant_degenerate.
Theorem determinant_diagonal (K : field) (d : nat -> K) n : det_diag d n n = det n (diag d).
Proof. exact (det_diag_ok K d n). Qed.
Print Assumptions determinant_diagonal.
(** A diagonal matrix that is not square counts as singular. *)
Theorem determinant_diagonal_oblong (K : field) (d : nat -> K) rows cols : rows <> cols -> det_diag d rows cols = 0%F.
Proof. intros H. unfold det_diag. destruct (Nat.eqb_spec rows cols); [contradiction|reflexivity]. Qed.
Print Assumptions determinant_diagonal_oblong.
(** The determinant of a permutation matrix is the parity of the permutation (which permutation_sign, used by
    det(PermutationMatrix), does not compute: see permutation_sign in C27). *)
Theorem determinant_permutation (K : field) n k p : by_swaps n k p -> det n (fun r c => delta (p r) c) = (if Nat.odd k then - (1) else 1 : K)%F.
Proof. exact (det_perm K n k p). Qed.
Print Assumptions determinant_permutation.

Example det_example : det 3 (qm [[0;2;1];[4;1;3];[2;5;7]]%Z) = Q2Qc (inject_Z (-26)).
Proof. vm_compute. reflexivity. Qed.
Example inverse_example : let r := inv_raw qbigger true false 5 (fun _ => 0%F) (fun k => if (k / 5 =? k mod 5)%nat then Q2Qc (inject_Z 2) else if k =? 7 then Q2Qc (inject_Z 3) else 0%F) in
  fst r = true /\ this (snd r 11) = (-3 # 4)%Q.
Proof. vm_compute. auto. Qed.
