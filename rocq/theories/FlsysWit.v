From Coq Require Import Reals ZArith Lia Lra Bool List.
From Flocq Require Import Core BinarySingleNaN.
From Verif Require Import PermSpec FmaModel FmaSpec FmaProofs FquadModel FquadProofs FquadMore FvecSpec FinvSpec FpluModel FpluSpec FpluWit FlsysModel FlsysSpec FlsysProofs.
Open Scope R_scope.
Notation float := (binary_float 53 1024).
Definition rhs3 (a b c : Z) (r k : nat) : float := match r with O => dbl a 0 | 1%nat => dbl b 0 | _ => dbl c 0 end.
Definition finite_at (o : option (bool * (nat -> nat -> float) * (nat -> nat -> float))) (r : nat) : option (bool * bool) :=
  option_map (fun t => (fst (fst t), is_finite (snd t r 0%nat))) o.
Lemma from_finite o n : (forall r, (r < S n)%nat -> finite_at o r = Some (true, true)) -> exists lu X, o = Some (true, lu, X) /\ forall r, (r < S n)%nat -> is_finite (X r 0%nat) = true.
Proof.
  intros H. destruct o as [[[f lu] X]|]; [|specialize (H 0%nat ltac:(lia)); discriminate]. exists lu, X. assert (f = true) as -> by (specialize (H 0%nat ltac:(lia)); unfold finite_at in H; cbn in H; congruence).
  split; [reflexivity|]. intros r R. specialize (H r R). unfold finite_at in H. cbn in H. congruence.
Qed.
(** 7 x + 7 y = 7, x + y = 2, z = 0. *)
Lemma singular_solved : exists lu X, fl_linear_solve singular_plu 3 1 0 (rhs3 7 2 0) = Some (true, lu, X) /\ (forall r, (r < 3)%nat -> is_finite (X r 0%nat) = true) /\
  ~ exists x, forall r, (r < 3)%nat -> row_times 3 singular_plu x r = B2R (rhs3 7 2 0 r 0%nat).
Proof.
  destruct (from_finite (fl_linear_solve singular_plu 3 1 0 (rhs3 7 2 0)) 2) as (lu & X & E & F); [intros r R; destruct (below3 r R) as [->|[->| ->]]; vm_compute; reflexivity|].
  exists lu, X. split; [exact E|]. split; [exact F|]. intros (x & H). pose proof (H 0%nat ltac:(lia)) as H0. pose proof (H 1%nat ltac:(lia)) as H1. unfold row_times in H0, H1. cbn [total] in H0, H1. unfold singular_plu, block3, rhs3 in H0, H1.
  rewrite (proj2 (dbl_int 7 ltac:(lia))), (proj2 (dbl_int 0 ltac:(lia))) in H0. rewrite (proj2 (dbl_int 1 ltac:(lia))), (proj2 (dbl_int 0 ltac:(lia))), (proj2 (dbl_int 2 ltac:(lia))) in H1. lra.
Qed.
Lemma regular_refused_system : exists lu, fl_linear_solve regular_plu 3 1 0 (rhs3 0 0 0) = Some (false, lu, rhs3 0 0 0) /\ exact_det3 (real_matrix regular_plu) <> 0.
Proof.
  destruct regular_reported as (_ & N & D). destruct (answered 53 1024 regular_plu 3 1 0 (rhs3 0 0 0)) as (X & E & _ & E2). cbv zeta in D. rewrite D in E, E2. rewrite (E2 ltac:(discriminate)) in E. eexists. split; [exact E|exact N].
Qed.
(** x + y = 1, x + y = 2. *)
Definition twice (r k : nat) : float := dbl 1 0.
Lemma last_pivot : exists lu X, fl_linear_solve twice 2 1 0 (rhs3 1 2 0) = Some (true, lu, X) /\ is_finite (X 0%nat 0%nat) = false /\ is_finite (X 1%nat 0%nat) = false.
Proof.
  assert (E : finite_at (fl_linear_solve twice 2 1 0 (rhs3 1 2 0)) 0 = Some (true, false)) by (vm_compute; reflexivity). assert (E1 : finite_at (fl_linear_solve twice 2 1 0 (rhs3 1 2 0)) 1 = Some (true, false)) by (vm_compute; reflexivity).
  destruct (fl_linear_solve twice 2 1 0 (rhs3 1 2 0)) as [[[f lu] X]|]; [|discriminate]. unfold finite_at in E, E1. cbn in E, E1. exists lu, X. injection E as -> E. injection E1 as E1. auto.
Qed.
Lemma plain_system : exists lu X, fl_linear_solve plain_plu 3 1 0 (rhs3 1 2 4) = Some (true, lu, X) /\ (forall r c, (r < 3)%nat -> (c < 3)%nat -> is_finite (lu r c) = true) /\ forall r, (r < 3)%nat -> is_finite (X r 0%nat) = true.
Proof.
  destruct plain_runs as (FL & _). cbv zeta in FL. destruct (from_finite (fl_linear_solve plain_plu 3 1 0 (rhs3 1 2 4)) 2) as (lu & X & E & F); [intros r R; destruct (below3 r R) as [->|[->| ->]]; vm_compute; reflexivity|]. exists lu, X. split; [exact E|]. split; [|exact F].
  rewrite (system_left 53 1024 _ _ _ _ _ _ _ _ E). exact FL.
Qed.
