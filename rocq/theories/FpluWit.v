From Coq Require Import Reals ZArith Lia Lra Bool List.
From Flocq Require Import Core BinarySingleNaN.
From Verif Require Import FmaModel FmaSpec FmaProofs FquadModel FquadProofs FquadMore FinvSpec FpluModel FpluSpec.
Open Scope R_scope.
Notation float := (binary_float 53 1024).
Definition block3 (a b c d : float) (r k : nat) : float := match r, k with O, O => a | O, 1%nat => b | 1%nat, O => c | 1%nat, 1%nat => d | 2%nat, 2%nat => dbl 1 0 | _, _ => dbl 0 0 end.
Lemma block3_det a b c d : exact_det3 (real_matrix (block3 a b c d)) = B2R a * B2R d - B2R b * B2R c.
Proof. unfold exact_det3, minor, exact_det2, real_matrix, skip, block3. cbn [Nat.ltb Nat.leb]. rewrite (proj2 (dbl_int 1 ltac:(lia))), (proj2 (dbl_int 0 ltac:(lia))). ring. Qed.
Lemma below3 r : (r < 3)%nat -> r = 0%nat \/ r = 1%nat \/ r = 2%nat. Proof. lia. Qed.
Ltac nine := let r := fresh "r" in let c := fresh "c" in let I := fresh "I" in let J := fresh "J" in intros r c I J; destruct (below3 r I) as [->|[->| ->]]; destruct (below3 c J) as [->|[->| ->]]; vm_compute; reflexivity.
(** Rows (3, 1) and (1, 1/3 rounded), scaled by 2^54: the second pivot vanishes. *)
Definition regular_plu := block3 (dbl 3 54) (dbl 1 54) (dbl 1 54) (dbl 6004799503160661 0).
Lemma regular_reported : let d := fl_decomp_plu regular_plu 3 3 in (forall r c, (r < 3)%nat -> (c < 3)%nat -> is_finite (fl_lu d r c) = true) /\ exact_det3 (real_matrix regular_plu) <> 0 /\ fl_degenerate d = 1%nat.
Proof.
  intros d. split; [unfold d; nine|]. split; [|vm_compute; reflexivity].
  unfold regular_plu. rewrite block3_det. rewrite (proj2 (dbl_runs 3 54 ltac:(lia) ltac:(lia))), (proj2 (dbl_runs 1 54 ltac:(lia) ltac:(lia))), (proj2 (dbl_int 6004799503160661 ltac:(lia))).
  change (bpow radix2 54) with 18014398509481984. rewrite <- !mult_IZR, <- minus_IZR. apply not_0_IZR. vm_compute. discriminate.
Qed.
(** Rows (7, 7) and (1, 1): the second pivot is 1 - 7 times 1/7 rounded. *)
Definition singular_plu := block3 (dbl 7 0) (dbl 7 0) (dbl 1 0) (dbl 1 0).
Lemma B2R_digits (x : float) : fl_eqb 53 1024 x (fl_lit 53 1024 0 0) = false -> is_finite x = true -> B2R x <> 0.
Proof. destruct x as [s0| | |s0 m0 e0 H0]; try discriminate. intros _ _. cbn [B2R]. destruct s0; [apply Rlt_not_eq, F2R_lt_0|apply Rgt_not_eq, F2R_gt_0]; reflexivity. Qed.
Lemma singular_missed : let d := fl_decomp_plu singular_plu 3 3 in (forall r c, (r < 3)%nat -> (c < 3)%nat -> is_finite (fl_lu d r c) = true) /\ exact_det3 (real_matrix singular_plu) = 0 /\ fl_degenerate d = 0%nat /\ forall k, (k < 3)%nat -> B2R (fl_lu d k k) <> 0.
Proof.
  intros d. split; [unfold d; nine|]. split; [unfold singular_plu; rewrite block3_det, (proj2 (dbl_int 1 ltac:(lia))), (proj2 (dbl_int 7 ltac:(lia))); ring|]. split; [vm_compute; reflexivity|].
  intros k K. apply B2R_digits; unfold d; destruct (below3 k K) as [->|[->| ->]]; vm_compute; reflexivity.
Qed.
(** A matrix whose rows are exchanged twice. *)
Definition plain_plu (r k : nat) : float := match r, k with O, O => dbl 1 0 | O, 1%nat => dbl 2 0 | O, _ => dbl 3 0 | 1%nat, O => dbl 4 0 | 1%nat, 1%nat => dbl 5 0 | 1%nat, _ => dbl 6 0 | _, O => dbl 7 0 | _, 1%nat => dbl 8 0 | _, _ => dbl 10 0 end.
Lemma plain_runs : let d := fl_decomp_plu plain_plu 3 3 in (forall r c, (r < 3)%nat -> (c < 3)%nat -> is_finite (fl_lu d r c) = true) /\ fl_degenerate d = 0%nat /\ fl_reorder d 0%nat = 2%nat.
Proof. intros d. split; [unfold d; nine|]. split; vm_compute; reflexivity. Qed.
