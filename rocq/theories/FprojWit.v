From Coq Require Import Reals ZArith Lia Lra Bool.
From Flocq Require Import Core BinarySingleNaN.
From Verif Require Import FmaModel FmaSpec FmaProofs FquadModel FquadProofs FquadMore FvecModel FvecSpec FvecProofs FvecMore FprojModel FprojSpec FprojProofs.
Open Scope R_scope.
(** The axis (2^e, 0). *)
Definition along (e : Z) : nat -> binary_float 53 1024 := vector2 (dbl 1 e) (dbl 0 0).
Lemma along_zero e : B2R (along e 1%nat) = 0. Proof. exact (proj2 (dbl_int 0 ltac:(lia))). Qed.
Lemma along_small : B2R (along (-600) 0%nat) = bpow radix2 (-600). Proof. apply (dbl_pow (-600)); lia. Qed.
Lemma along_large : B2R (along 600 0%nat) = bpow radix2 600. Proof. apply (dbl_pow 600); lia. Qed.
Lemma along_one : B2R (along 0 0%nat) = 1. Proof. exact (proj2 (dbl_int 1 ltac:(lia))). Qed.
Lemma project_small : B2R (along (-600) 0%nat) * exact_dot 2 (along 0) (along (-600)) / exact_dot 2 (along (-600)) (along (-600)) = 1 /\ B2R (fl_project_on 2 (along 0) (along (-600)) 0%nat) = bpow radix2 (-600).
Proof.
  split.
  - unfold exact_dot. cbn [total]. rewrite !along_zero, along_small, along_one. field. pose proof (bpow_gt_0 radix2 (-600)). nra.
  - rewrite (project_zero 53 1024); [exact along_small|vm_compute; reflexivity|].
    assert (E : B2SF (fl_mag2 2 (along (-600))) = SpecFloat.S754_zero false) by (vm_compute; reflexivity). rewrite <- SF2R_B2SF, E. reflexivity.
Qed.
Lemma project_large : B2R (along 600 0%nat) * exact_dot 2 (along 600) (along 600) / exact_dot 2 (along 600) (along 600) = bpow radix2 600 /\
  is_nan (fl_project_on 2 (along 600) (along 600) 0%nat) = true /\ is_nan (fl_fraction_on 2 (along 600) (along 600)) = true.
Proof.
  split; [|split; vm_compute; reflexivity]. unfold exact_dot. cbn [total]. rewrite !along_zero, along_large. field. pose proof (bpow_gt_0 radix2 600). nra.
Qed.
Definition plain_x : nat -> binary_float 53 1024 := vector2 (dbl 3 0) (dbl 1 0).
Definition plain_a : nat -> binary_float 53 1024 := vector2 (dbl 1 0) (dbl (-2) 0).
Lemma plain_runs : (forall i, (i < 2)%nat -> is_finite (plain_x i) = true /\ is_finite (plain_a i) = true) /\ is_finite (fl_mag2 2 plain_a) = true /\ B2R (fl_mag2 2 plain_a) <> 0 /\
  (forall k, (k < 2)%nat -> is_finite (fl_project_on 2 plain_x plain_a k) = true) /\ is_finite (fl_fraction_on 2 plain_x plain_a) = true.
Proof.
  split; [intros [|[|i]] I; [split; vm_compute; reflexivity|split; vm_compute; reflexivity|lia]|]. split; [vm_compute; reflexivity|]. split.
  - rewrite <- SF2R_B2SF. replace (B2SF (fl_mag2 2 plain_a)) with (B2SF (dbl 5 0)) by (vm_compute; reflexivity). rewrite SF2R_B2SF, (proj2 (dbl_int 5 ltac:(lia))). lra.
  - split; [intros [|[|k]] K; [vm_compute; reflexivity|vm_compute; reflexivity|lia]|vm_compute; reflexivity].
Qed.
