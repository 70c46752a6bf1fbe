From Coq Require Import Reals ZArith Lia Lra Bool List.
From Flocq Require Import Core BinarySingleNaN.
From Verif Require Import FmaModel FmaSpec FmaProofs FquadModel FquadProofs FquadMore FvecSpec FmtxSpec FsolveSpec FinvSpec FpluModel FpluSpec FpluWit FlupModel.
Open Scope R_scope.
Notation float := (binary_float 53 1024).
Definition square2 (a b c d : float) (r k : nat) : float := match r, k with O, O => a | O, _ => b | _, O => c | _, _ => d end.
Lemma below2 r : (r < 2)%nat -> r = 0%nat \/ r = 1%nat. Proof. lia. Qed.
Ltac four := let r := fresh "r" in let c := fresh "c" in let I := fresh "I" in let J := fresh "J" in intros r c I J; destruct (below2 r I) as [->| ->]; destruct (below2 c J) as [->| ->]; vm_compute; reflexivity.
(** Rows (0, 0) and (1, 0). *)
Definition zero_row := square2 (dbl 0 0) (dbl 0 0) (dbl 1 0) (dbl 0 0).
Lemma zero_row_lost : let d := fl_decomp_lup zero_row 2 2 in (forall r c, (r < 2)%nat -> (c < 2)%nat -> is_finite (fl_lu d r c) = true) /\ fl_degenerate d = 1%nat /\
  B2R (zero_row 1%nat (fl_reorder d 0%nat)) = 1 /\ lu_product 2 (fl_lu d) 1 0 = 0.
Proof.
  intros d. split; [unfold d; four|]. split; [vm_compute; reflexivity|]. assert (Z : fl_reorder d 0%nat = 0%nat) by (vm_compute; reflexivity). rewrite Z.
  assert (E : forall r c, (r < 2)%nat -> (c < 2)%nat -> fl_lu d r c = zero_row r c) by (intros r c I J; apply B2SF_inj; destruct (below2 r I) as [->| ->]; destruct (below2 c J) as [->| ->]; vm_compute; reflexivity). clearbody d.
  unfold lu_product, lower_part, upper_part. cbn [total Nat.ltb Nat.leb Nat.eqb]. rewrite !E by lia. unfold zero_row, square2. rewrite (proj2 (dbl_int 1 ltac:(lia))), (proj2 (dbl_int 0 ltac:(lia))). split; [reflexivity|ring].
Qed.
(** Rows (2^-600, 0) and (2^600, 1), with determinant 2^-600. *)
Definition steep := square2 (dbl 1 (-600)) (dbl 0 0) (dbl 1 600) (dbl 1 0).
Lemma steep_lost : let d := fl_decomp_lup steep 2 2 in (forall r c, (r < 2)%nat -> (c < 2)%nat -> is_finite (steep r c) = true) /\ fl_degenerate d = 0%nat /\ is_finite (fl_lu d 1%nat 0%nat) = false /\
  forall r c, (r < 2)%nat -> (c < 2)%nat -> is_finite (fl_lu (fl_decomp_plu steep 2 2) r c) = true.
Proof. intros d. split; [four|]. split; [vm_compute; reflexivity|]. split; [vm_compute; reflexivity|four]. Qed.
Lemma plain_lup : let d := fl_decomp_lup plain_plu 3 3 in (forall r c, (r < 3)%nat -> (c < 3)%nat -> is_finite (fl_lu d r c) = true) /\ fl_degenerate d = 0%nat /\ fl_reorder d 0%nat = 2%nat.
Proof. intros d. split; [unfold d; nine|]. split; vm_compute; reflexivity. Qed.
