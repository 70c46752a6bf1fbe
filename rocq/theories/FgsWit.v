From Coq Require Import Reals ZArith Lia Lra Bool List.
From Flocq Require Import Core BinarySingleNaN.
From Verif Require Import FmaModel FmaSpec FmaProofs FquadModel FquadProofs FquadMore FvecModel FvecSpec FvecMore FprojModel FprojSpec FprojProofs FgsModel FgsSpec FgsProofs.
Open Scope R_scope.
Notation float := (binary_float 53 1024).
Definition vector3 (x y z : float) (k : nat) : float := match k with O => x | 1%nat => y | _ => z end.
Lemma same (x y : float) : B2SF x = B2SF y -> B2R x = B2R y. Proof. intros E. now rewrite <- !SF2R_B2SF, E. Qed.
(** (1, 1, 1) and (1 + 2^-52, 1, 1). *)
Definition close (i : nat) : nat -> float := match i with O => vector3 (dbl 1 0) (dbl 1 0) (dbl 1 0) | _ => vector3 (dbl 4503599627370497 (-52)) (dbl 1 0) (dbl 1 0) end.
Lemma close_dots : let Q := fl_orthogonalize 3 2 close in (forall k, B2R (close 0 k) = 1) /\ (B2R (close 1 0%nat) = 1 + bpow radix2 (-52) /\ B2R (close 1 1%nat) = 1 /\ B2R (close 1 2%nat) = 1) /\
  0 < exact_dot 3 (Q 1%nat) (Q 1%nat) /\ 3 * (exact_dot 3 (Q 1%nat) (Q 0%nat) * exact_dot 3 (Q 1%nat) (Q 0%nat)) = exact_dot 3 (Q 1%nat) (Q 1%nat) * exact_dot 3 (Q 0%nat) (Q 0%nat).
Proof.
  intros Q. assert (V1 : B2R (dbl 1 0) = 1) by exact (proj2 (dbl_int 1 ltac:(lia))). assert (C0 : forall k, B2R (close 0 k) = 1) by (intros [|[|k]]; exact V1). split; [exact C0|].
  assert (P : bpow radix2 (-52) = / 4503599627370496) by (cbn; lra).
  split; [split; [|split; exact V1]; cbn [close vector3]; rewrite (proj2 (dbl_runs 4503599627370497 (-52) ltac:(lia) ltac:(lia))), P; lra|].
  assert (Q0 : forall k, B2R (Q 0%nat k) = 1) by (intros k; unfold Q; rewrite (kept 53 1024) by (left; reflexivity); apply C0).
  assert (A : B2R (Q 1%nat 0%nat) = bpow radix2 (-52)) by (rewrite (same _ (dbl 1 (-52))) by (vm_compute; reflexivity); apply dbl_pow; lia).
  assert (B : B2R (Q 1%nat 1%nat) = 0) by (rewrite (same _ (dbl 0 0)) by (vm_compute; reflexivity); exact (proj2 (dbl_int 0 ltac:(lia)))).
  assert (C : B2R (Q 1%nat 2%nat) = 0) by (rewrite (same _ (dbl 0 0)) by (vm_compute; reflexivity); exact (proj2 (dbl_int 0 ltac:(lia)))).
  clearbody Q. unfold exact_dot. cbn [total]. rewrite !Q0, A, B, C. pose proof (bpow_gt_0 radix2 (-52)). split; [|ring]. nra.
Qed.
(** (2^-600, 0, 0) and (1, 1, 0). *)
Definition short (i : nat) : nat -> float := match i with O => vector3 (dbl 1 (-600)) (dbl 0 0) (dbl 0 0) | _ => vector3 (dbl 1 0) (dbl 1 0) (dbl 0 0) end.
Lemma short_dots : let Q := fl_orthogonalize 3 2 short in (forall k, (k < 3)%nat -> B2R (Q 1%nat k) = B2R (short 1 k)) /\ exact_dot 3 (Q 1%nat) (Q 0%nat) = bpow radix2 (-600).
Proof.
  intros Q. assert (E : forall k, (k < 3)%nat -> B2R (Q 1%nat k) = B2R (short 1 k)) by (intros [|[|[|k]]] K; [apply same; vm_compute; reflexivity|apply same; vm_compute; reflexivity|apply same; vm_compute; reflexivity|lia]). split; [exact E|].
  unfold exact_dot. cbn [total]. rewrite !E by lia. unfold Q. rewrite (kept 53 1024) by (left; reflexivity). cbn [short vector3]. rewrite (dbl_pow (-600)) by lia. rewrite (proj2 (dbl_int 0 ltac:(lia))), (proj2 (dbl_int 1 ltac:(lia))). ring.
Qed.
Definition plain_basis (i : nat) : nat -> float := match i with O => vector3 (dbl 1 0) (dbl 2 0) (dbl 0 0) | 1%nat => vector3 (dbl 3 0) (dbl 1 0) (dbl 1 0) | _ => vector3 (dbl 1 0) (dbl 5 0) (dbl 7 0) end.
Lemma plain_basis_runs : let Q := fl_orthogonalize 3 3 plain_basis in forall i, (i < 2)%nat ->
  (forall k, (k < 3)%nat -> is_finite (Q i k) = true /\ is_finite (Q (S i) k) = true) /\ is_finite (fl_mag2 3 (Q i)) = true /\ B2R (fl_mag2 3 (Q i)) <> 0.
Proof.
  intros Q i I. assert (P : forall x : float, match B2SF x with SpecFloat.S754_finite _ _ _ => true | _ => false end = true -> is_finite x = true /\ B2R x <> 0).
  { intros [s|s| |s m e H] E; try discriminate. split; [reflexivity|]. cbn. intros Z. apply eq_0_F2R in Z. destruct s; discriminate. }
  split; [|apply P; destruct i as [|[|i]]; [vm_compute; reflexivity|vm_compute; reflexivity|lia]].
  intros k K. destruct i as [|[|i]]; [| |lia]; (destruct k as [|[|[|k]]]; [| | |lia]); split; vm_compute; reflexivity.
Qed.
