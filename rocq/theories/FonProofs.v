From Coq Require Import Reals ZArith Lia Lra Bool List.
From Flocq Require Import Core BinarySingleNaN.
From Verif Require Import PermModel.
From Verif Require Import FmaModel FmaSpec FmaProofs FquadModel FquadProofs FquadMore FvecModel FvecSpec FvecProofs FvecMore FvecAcc ForthProofs FprojModel FgsModel FgsProofs FgsWit FonModel.
Import ListNotations.
Open Scope R_scope.

Section On.
Variable prec emax : Z.
Context {Hp : Prec_gt_0 prec} {He : Prec_lt_emax prec emax}.
Notation float := (binary_float prec emax).
Notation vector := (nat -> float).
Lemma scaled N n (B : nat -> vector) : forall i, fl_orthonormalize N n B i = if Nat.ltb i n then fl_unit N (fl_orthogonalize_any N n B i) else fl_orthogonalize_any N n B i.
Proof.
  unfold fl_orthonormalize. set (Q := fl_orthogonalize_any N n B). clearbody Q. induction n as [|n IH]; intros i; [reflexivity|]. rewrite seq_S, fold_left_app. cbn [fold_left Nat.add]. destruct (Nat.eq_dec i n) as [->|NE].
  - rewrite upd_at, IH, Nat.ltb_irrefl. destruct (Nat.ltb_spec n (S n)); [reflexivity|lia].
  - rewrite upd_off by exact NE. rewrite IH. destruct (Nat.ltb_spec i n), (Nat.ltb_spec i (S n)); try reflexivity; lia.
Qed.
Lemma scaled_length N n (B : nat -> vector) i : (4 <= prec)%Z -> (8 <= emax)%Z -> (Z.of_nat N <= 2 ^ (prec - 1))%Z -> (i < n)%nat -> safe_vector N (fl_orthogonalize_any N n B i) -> exact_dot N (fl_orthogonalize_any N n B i) (fl_orthogonalize_any N n B i) <> 0 ->
  within_factor prec (N + 4) (exact_dot N (fl_orthonormalize N n B i) (fl_orthonormalize N n B i)) 1.
Proof. intros P4 E8 NB I S NZ. rewrite scaled. destruct (Nat.ltb_spec i n); [|lia]. exact (unit_length prec emax P4 E8 N _ S NB NZ). Qed.
Lemma plane (B : nat -> vector) : let Q := fl_orthogonalize_any 2 2 B in Q 0%nat = B 0%nat /\ exact_dot 2 (Q 1%nat) (Q 0%nat) = 0 /\ exact_dot 2 (Q 1%nat) (Q 1%nat) = exact_dot 2 (B 0%nat) (B 0%nat) /\
  B2R (Q 0%nat 0%nat) * B2R (Q 1%nat 1%nat) - B2R (Q 0%nat 1%nat) * B2R (Q 1%nat 0%nat) = exact_dot 2 (B 0%nat) (B 0%nat).
Proof.
  intros Q. unfold Q, fl_orthogonalize_any, fl_orthogonalize2. cbn [Nat.eqb]. rewrite upd_at, upd_off by lia. split; [reflexivity|]. unfold exact_dot, fl_left_perpendicular. cbn [total]. unfold fl_neg. rewrite B2R_Bopp. repeat split; ring.
Qed.
Lemma other N n (B : nat -> vector) : N <> 2%nat -> fl_orthogonalize_any N n B = fl_orthogonalize N n B.
Proof. intros H. unfold fl_orthogonalize_any. destruct (Nat.eqb_spec N 2); [contradiction|reflexivity]. Qed.
Lemma plane_one n (B : nat -> vector) : n <> 2%nat -> fl_orthogonalize_any 2 n B = B.
Proof. intros H. unfold fl_orthogonalize_any, fl_orthogonalize2. cbn [Nat.eqb]. destruct (Nat.eqb_spec n 2); [contradiction|reflexivity]. Qed.
End On.
(** (1, 0, 0) and (2, 0, 0). *)
Definition parallel (i : nat) : nat -> binary_float 53 1024 := match i with O => vector3 (dbl 1 0) (dbl 0 0) (dbl 0 0) | _ => vector3 (dbl 2 0) (dbl 0 0) (dbl 0 0) end.
Lemma parallel_nan : forall k, (k < 3)%nat -> is_nan (fl_orthonormalize 3 2 parallel 1 k) = true.
Proof. intros [|[|[|k]]] K; [vm_compute; reflexivity|vm_compute; reflexivity|vm_compute; reflexivity|lia]. Qed.
Lemma close_scaled : B2R (fl_orthonormalize 3 2 close 1 0%nat) = 1 /\ B2R (fl_orthonormalize 3 2 close 1 1%nat) = 0 /\ B2R (fl_orthonormalize 3 2 close 1 2%nat) = 0 /\ (forall k, (k < 3)%nat -> / 2 < B2R (fl_orthonormalize 3 2 close 0 k)).
Proof.
  assert (Z : B2R (dbl 0 0) = 0) by exact (proj2 (dbl_int 0 ltac:(lia))).
  split; [rewrite (same _ (dbl 1 0)) by (vm_compute; reflexivity); exact (proj2 (dbl_int 1 ltac:(lia)))|]. split; [rewrite (same _ (dbl 0 0)) by (vm_compute; reflexivity); exact Z|]. split; [rewrite (same _ (dbl 0 0)) by (vm_compute; reflexivity); exact Z|].
  assert (W : B2R (dbl 1 (-1)) = / 2) by (rewrite (dbl_pow (-1)) by lia; cbn; lra). rewrite <- W. assert (Fh : is_finite (dbl 1 (-1)) = true) by (vm_compute; reflexivity).
  assert (G : forall x : binary_float 53 1024, is_finite x && Bltb (dbl 1 (-1)) x = true -> B2R (dbl 1 (-1)) < B2R x). { intros x H. apply andb_prop in H. destruct H as (F & L). rewrite Bltb_correct in L by assumption. revert L. case Rlt_bool_spec; [auto|discriminate]. }
  intros [|[|[|k]]] K; [apply G; vm_compute; reflexivity|apply G; vm_compute; reflexivity|apply G; vm_compute; reflexivity|lia].
Qed.
Lemma close_on : (B2R (close 0%nat 0%nat) <> B2R (close 1%nat 0%nat) /\ B2R (close 0%nat 1%nat) = B2R (close 1%nat 1%nat) /\ B2R (close 0%nat 1%nat) = 1) /\
  let R := fl_orthonormalize 3 2 close in / 2 < exact_dot 3 (R 1%nat) (R 0%nat).
Proof.
  destruct close_dots as (A & (C & D & _) & _). split; [rewrite !A, C, D; pose proof (bpow_gt_0 radix2 (-52)); lra|].
  destruct close_scaled as (X & Y & Z & W). unfold exact_dot. cbn [total]. rewrite X, Y, Z. pose proof (W 0%nat ltac:(lia)). lra.
Qed.
Lemma parallel_on : (forall k, (k < 3)%nat -> B2R (parallel 1%nat k) = 2 * B2R (parallel 0%nat k)) /\ forall k, (k < 3)%nat -> is_nan (fl_orthonormalize 3 2 parallel 1 k) = true.
Proof.
  split; [|exact parallel_nan]. destruct (dbl_int 0 ltac:(lia)) as (_ & Z). destruct (dbl_int 1 ltac:(lia)) as (_ & O1). destruct (dbl_int 2 ltac:(lia)) as (_ & T).
  intros k K. destruct k as [|[|k]]; cbn [parallel vector3]; rewrite ?Z, ?O1, ?T; lra.
Qed.
