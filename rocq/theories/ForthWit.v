From Coq Require Import Reals ZArith Lia Lra Bool List.
From Flocq Require Import Core BinarySingleNaN.
From Verif Require Import FmaModel FmaSpec FmaProofs FquadModel FquadProofs FquadMore FvecSpec FpluModel FpluSpec FpluWit FlsysSpec ForthModel ForthSpec ForthProofs.
Open Scope R_scope.
Notation float := (binary_float 53 1024).
Definition rows34 (a b c d e : float) (r k : nat) : float := match r, k with O, O => a | O, 1%nat => b | 1%nat, O => c | 1%nat, 1%nat => d | 2%nat, 2%nat => e | _, _ => dbl 0 0 end.
Lemma below4 r : (r < 4)%nat -> r = 0%nat \/ r = 1%nat \/ r = 2%nat \/ r = 3%nat. Proof. lia. Qed.
(** Rows (3, 1) and (1, 1/3 rounded), scaled by 2^54, and a unit vector. *)
Definition independent3 := rows34 (dbl 3 54) (dbl 1 54) (dbl 1 54) (dbl 6004799503160661 0) (dbl 1 0).
Lemma independent_zero : independent 3 4 independent3 /\ forall c, B2R (fl_orthogonal 4 independent3 c) = 0.
Proof.
  split.
  - intros a H. pose proof (H 0%nat ltac:(lia)) as H0. pose proof (H 1%nat ltac:(lia)) as H1. pose proof (H 2%nat ltac:(lia)) as H2. unfold independent3, rows34 in H0, H1, H2. cbn [total] in H0, H1, H2.
    rewrite (proj2 (dbl_runs 3 54 ltac:(lia) ltac:(lia))), (proj2 (dbl_runs 1 54 ltac:(lia) ltac:(lia))), (proj2 (dbl_int 0 ltac:(lia))) in H0. rewrite (proj2 (dbl_runs 1 54 ltac:(lia) ltac:(lia))), (proj2 (dbl_int 6004799503160661 ltac:(lia))), (proj2 (dbl_int 0 ltac:(lia))) in H1. rewrite (proj2 (dbl_int 1 ltac:(lia))), (proj2 (dbl_int 0 ltac:(lia))) in H2.
    change (bpow radix2 54) with 18014398509481984 in *. intros r R. destruct (below3 r R) as [->|[->| ->]]; lra.
  - intros c. rewrite (orthogonal_zero 53 1024) by (vm_compute; discriminate). exact (proj2 (lit_zero 53 1024)).
Qed.
(** Rows (7, 7) and (1, 1), and a unit vector. *)
Definition dependent3 := rows34 (dbl 7 0) (dbl 7 0) (dbl 1 0) (dbl 1 0) (dbl 1 0).
Lemma dependent_nonzero : ~ independent 3 4 dependent3 /\ B2R (fl_orthogonal 4 dependent3 3%nat) = 1.
Proof.
  split.
  - intros H. assert (E : 1 = 0); [|lra]. apply (H (fun r => match r with O => 1 | 1%nat => -7 | _ => 0 end)) with (r := 0%nat); [|lia]. intros c C. unfold dependent3, rows34. cbn [total]. destruct (below4 c C) as [->|[->|[->| ->]]]; rewrite ?(proj2 (dbl_int 7 ltac:(lia))), ?(proj2 (dbl_int 1 ltac:(lia))), ?(proj2 (dbl_int 0 ltac:(lia))); ring.
  - apply (orthogonal_last 53 1024 4); [lia|lia|vm_compute; reflexivity].
Qed.
(** Two unit vectors and a zero vector. *)
Definition last3 := rows34 (dbl 1 0) (dbl 0 0) (dbl 0 0) (dbl 1 0) (dbl 0 0).
Lemma last_nan : ~ independent 3 4 last3 /\ fl_orthogonal 4 last3 2%nat = B754_nan.
Proof.
  split; [|apply B2SF_inj; vm_compute; reflexivity]. intros H. assert (E : 1 = 0); [|lra]. apply (H (fun r => match r with 2%nat => 1 | _ => 0 end)) with (r := 2%nat); [|lia]. intros c C. unfold last3, rows34. cbn [total]. destruct (below4 c C) as [->|[->|[->| ->]]]; rewrite ?(proj2 (dbl_int 0 ltac:(lia))); ring.
Qed.
Definition plain34 (r k : nat) : float := match r, k with O, O => dbl 1 0 | O, 3%nat => dbl 2 0 | 1%nat, O => dbl 3 0 | 1%nat, 1%nat => dbl 5 0 | 2%nat, 2%nat => dbl 7 0 | 2%nat, 3%nat => dbl 1 0 | _, _ => dbl 0 0 end.
Lemma plain34_runs : let d := fl_decomp_plu plain34 3 4 in fl_degenerate d = 0%nat /\ (forall r c, (r < 3)%nat -> (c < 4)%nat -> is_finite (fl_lu d r c) = true) /\ (forall c, (c < 4)%nat -> is_finite (fl_orthogonal 4 plain34 c) = true).
Proof. intros d. split; [vm_compute; reflexivity|]. split; [intros r c I J; destruct (below3 r I) as [->|[->| ->]]; destruct (below4 c J) as [->|[->|[->| ->]]]; vm_compute; reflexivity|intros c J; destruct (below4 c J) as [->|[->|[->| ->]]]; vm_compute; reflexivity]. Qed.
