From Coq Require Import Reals ZArith Lia Lra Bool List.
From Flocq Require Import Core BinarySingleNaN.
From Verif Require Import FmaModel FmaSpec FmaProofs FquadModel FquadProofs FquadMore FvecSpec FpluModel FpluSpec FlsysSpec FinvnModel FinvnSpec FinvnProofs.
Open Scope R_scope.
Notation float := (binary_float 53 1024).
Definition block5 (a b c d : float) (r k : nat) : float := match r, k with O, O => a | O, 1%nat => b | 1%nat, O => c | 1%nat, 1%nat => d | O, _ => dbl 0 0 | 1%nat, _ => dbl 0 0 | _, _ => if Nat.eqb r k then dbl 1 0 else dbl 0 0 end.
Lemma below5 r : (r < 5)%nat -> r = 0%nat \/ r = 1%nat \/ r = 2%nat \/ r = 3%nat \/ r = 4%nat. Proof. lia. Qed.
Ltac each5 r I := destruct (below5 r I) as [->|[->|[->|[->| ->]]]].
(** Rows (7, 7) and (1, 1), and a unit matrix. *)
Definition singular5 := block5 (dbl 7 0) (dbl 7 0) (dbl 1 0) (dbl 1 0).
Definition blank (r c : nat) : float := dbl 0 0.
Lemma singular5_inverted : (forall r c, (r < 5)%nat -> (c < 5)%nat -> is_finite (snd (fl_invNxN blank singular5 5) r c) = true) /\ fst (fl_invNxN blank singular5 5) = true /\ ~ exists X, right_inverse 5 singular5 X.
Proof.
  split; [intros r c I J; each5 r I; each5 c J; vm_compute; reflexivity|]. split; [vm_compute; reflexivity|]. intros (X & H). pose proof (H 0%nat 0%nat ltac:(lia) ltac:(lia)) as H0. pose proof (H 1%nat 0%nat ltac:(lia) ltac:(lia)) as H1. unfold row_times, singular5, block5 in H0, H1. cbn [total Nat.eqb] in H0, H1.
  rewrite (proj2 (dbl_int 7 ltac:(lia))), (proj2 (dbl_int 0 ltac:(lia))) in H0. rewrite (proj2 (dbl_int 1 ltac:(lia))), (proj2 (dbl_int 0 ltac:(lia))) in H1. lra.
Qed.
(** Rows (3, 1) and (1, 1/3 rounded), scaled by 2^54, and a unit matrix. *)
Definition regular5 := block5 (dbl 3 54) (dbl 1 54) (dbl 1 54) (dbl 6004799503160661 0).
Definition regular5_inverse (r k : nat) : R := match r, k with O, O => - 6004799503160661 / 18014398509481984 | O, 1%nat => 1 | 1%nat, O => 1 | 1%nat, 1%nat => -3 | O, _ => 0 | 1%nat, _ => 0 | _, _ => if Nat.eqb r k then 1 else 0 end.
Lemma regular5_refused : fl_invNxN blank regular5 5 = (false, blank) /\ right_inverse 5 regular5 regular5_inverse.
Proof.
  split.
  - assert (E : fst (fl_invNxN blank regular5 5) = false) by (vm_compute; reflexivity). destruct (fl_invNxN blank regular5 5) as (f, X) eqn:H. cbn [fst] in E. subst f. apply (inv_refused 53 1024) in H. now rewrite H.
  - intros r i R I. unfold row_times. each5 r R; unfold regular5, block5; cbn [total Nat.eqb]; rewrite ?(proj2 (dbl_runs 3 54 ltac:(lia) ltac:(lia))), ?(proj2 (dbl_runs 1 54 ltac:(lia) ltac:(lia))), ?(proj2 (dbl_int 6004799503160661 ltac:(lia))), ?(proj2 (dbl_int 0 ltac:(lia))), ?(proj2 (dbl_int 1 ltac:(lia))); change (bpow radix2 54) with 18014398509481984; each5 i I; unfold regular5_inverse; cbn [Nat.eqb]; lra.
Qed.
(** Ones on the diagonal, but for a zero at its end. *)
Definition last5 (r k : nat) : float := if (Nat.eqb r k && Nat.ltb r 4)%bool then dbl 1 0 else dbl 0 0.
Lemma last5_inverted : fst (fl_invNxN blank last5 5) = true /\ is_finite (snd (fl_invNxN blank last5 5) 4%nat 4%nat) = false.
Proof. split; vm_compute; reflexivity. Qed.
Definition plain5 := block5 (dbl 1 0) (dbl 2 0) (dbl 3 0) (dbl 5 0).
Lemma plain5_runs : fst (fl_invNxN blank plain5 5) = true /\ (forall r c, (r < 5)%nat -> (c < 5)%nat -> is_finite (fl_lu (fl_decomp_plu plain5 5 5) r c) = true) /\ (forall r c, (r < 5)%nat -> (c < 5)%nat -> is_finite (snd (fl_invNxN blank plain5 5) r c) = true).
Proof. split; [vm_compute; reflexivity|]. split; intros r c I J; each5 r I; each5 c J; vm_compute; reflexivity. Qed.
