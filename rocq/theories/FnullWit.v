From Coq Require Import Reals ZArith Lia Lra Bool List.
From Flocq Require Import Core BinarySingleNaN.
From Verif Require Import FmaModel FmaSpec FmaProofs FquadModel FquadProofs FquadMore FvecSpec FpluModel FpluSpec FpluWit FlsysSpec ForthSpec ForthWit FnullModel FnullSpec FnullProofs.
Open Scope R_scope.
Notation float := (binary_float 53 1024).
Lemma below5 r : (r < 5)%nat -> r = 0%nat \/ r = 1%nat \/ r = 2%nat \/ r = 3%nat \/ r = 4%nat. Proof. lia. Qed.
(** Two nearly parallel rows and a unit vector, as in ForthWit.v, in five dimensions. *)
Lemma null_independent : independent 3 5 independent3 /\ fst (fl_nullspace 5 3 independent3) = false.
Proof. split; [|vm_compute; reflexivity]. intros a H. apply (proj1 independent_zero). intros c C. apply H. lia. Qed.
Lemma null_dependent : ~ independent 3 5 dependent3 /\ fst (fl_nullspace 5 3 dependent3) = true /\ B2R (snd (fl_nullspace 5 3 dependent3) 0%nat 3%nat) = 1.
Proof.
  assert (F : fst (fl_nullspace 5 3 dependent3) = true) by (vm_compute; reflexivity). split; [|split; [exact F|]].
  - intros H. assert (E : 1 = 0); [|lra]. apply (H (fun r => match r with O => 1 | 1%nat => -7 | _ => 0 end)) with (r := 0%nat); [|lia]. intros c C. unfold dependent3, rows34. cbn [total]. destruct (below5 c C) as [->|[->|[->|[->| ->]]]]; rewrite ?(proj2 (dbl_int 7 ltac:(lia))), ?(proj2 (dbl_int 1 ltac:(lia))), ?(proj2 (dbl_int 0 ltac:(lia))); ring.
  - exact (nullspace_unit 53 1024 5 3 dependent3 ltac:(lia) ltac:(lia) F 0 3 ltac:(lia) ltac:(lia)).
Qed.
(** The zero vector alone, in three dimensions. *)
Definition zero_row (r c : nat) : float := dbl 0 0.
Lemma null_nan : ~ independent 1 3 zero_row /\ fst (fl_nullspace 3 1 zero_row) = true /\ snd (fl_nullspace 3 1 zero_row) 0%nat 0%nat = B754_nan.
Proof.
  split; [|split; [vm_compute; reflexivity|apply B2SF_inj; vm_compute; reflexivity]]. intros H. assert (E : 1 = 0); [|lra]. apply (H (fun _ => 1)) with (r := 0%nat); [|lia]. intros c C. unfold zero_row. cbn [total]. rewrite (proj2 (dbl_int 0 ltac:(lia))). ring.
Qed.
Definition plain25 (r k : nat) : float := match r, k with O, O => dbl 1 0 | O, 3%nat => dbl 2 0 | 1%nat, O => dbl 3 0 | 1%nat, 1%nat => dbl 5 0 | 1%nat, 4%nat => dbl 7 0 | _, _ => dbl 0 0 end.
Lemma below2 r : (r < 2)%nat -> r = 0%nat \/ r = 1%nat. Proof. lia. Qed.
Lemma plain25_runs : fst (fl_nullspace 5 2 plain25) = true /\ (forall r c, (r < 2)%nat -> (c < 5)%nat -> is_finite (fl_lu (fl_decomp_plu plain25 2 5) r c) = true) /\
  (forall b c, (b < 5 - 2)%nat -> (c < 5)%nat -> is_finite (snd (fl_nullspace 5 2 plain25) b c) = true).
Proof. split; [vm_compute; reflexivity|]. split; [intros r c I J; destruct (below2 r I) as [->| ->]; destruct (below5 c J) as [->|[->|[->|[->| ->]]]]; vm_compute; reflexivity|intros b c I J; destruct (below3 b I) as [->|[->| ->]]; destruct (below5 c J) as [->|[->|[->|[->| ->]]]]; vm_compute; reflexivity]. Qed.
