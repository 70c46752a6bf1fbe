From Coq Require Import Arith Lia List Bool Field Ring.
From Verif Require Import Fld.
Import ListNotations.
Open Scope nat_scope.

Section Lemmas.
Variable K : field.
Add Field KF : (fth K).
Local Open Scope fld_scope.
Implicit Types f g : nat -> K.

Lemma f_1_0 : (1 : K) <> 0.
Proof. exact (F_1_neq_0 (fth K)). Qed.
Lemma mul_zero (x y : K) : x * y = 0 -> x = 0 \/ y = 0.
Proof.
  intros H. destruct (feq_dec x 0) as [|N]; [now left|right]. transitivity ((x * y) / x); [field; exact N|]. rewrite H. field. exact N.
Qed.
Lemma mul_nonzero (x y : K) : x <> 0 -> y <> 0 -> x * y <> 0.
Proof. intros Hx Hy E. apply mul_zero in E as [E|E]; contradiction. Qed.
Lemma opp_nonzero (x : K) : x <> 0 -> - x <> 0.
Proof. intros Hx E. apply Hx. transitivity (- (- x)); [ring|]. rewrite E. ring. Qed.

Lemma sum_ext n f g : (forall i, (i < n)%nat -> f i = g i) -> sum n f = sum n g.
Proof. induction n as [|n IH]; intros H; [reflexivity|]. cbn. rewrite IH, H by (auto with arith). reflexivity. Qed.
Lemma sum_zero n f : (forall i, (i < n)%nat -> f i = 0) -> sum n f = 0.
Proof. induction n as [|n IH]; intros H; [reflexivity|]. cbn. rewrite IH, H by (auto with arith). ring. Qed.
Lemma sum_add n f g : sum n (fun i => f i + g i) = sum n f + sum n g.
Proof. induction n as [|n IH]; [cbn; ring|]. cbn. rewrite IH. ring. Qed.
Lemma sum_sub n f g : sum n (fun i => f i - g i) = sum n f - sum n g.
Proof. induction n as [|n IH]; [cbn; ring|]. cbn. rewrite IH. ring. Qed.
Lemma sum_opp n f : sum n (fun i => - f i) = - sum n f.
Proof. induction n as [|n IH]; [cbn; ring|]. cbn. rewrite IH. ring. Qed.
Lemma sum_scale n a f : sum n (fun i => a * f i) = a * sum n f.
Proof. induction n as [|n IH]; [cbn; ring|]. cbn. rewrite IH. ring. Qed.
Lemma sum_scale_r n a f : sum n (fun i => f i * a) = sum n f * a.
Proof. induction n as [|n IH]; [cbn; ring|]. cbn. rewrite IH. ring. Qed.
Lemma sum_swap n m (f : nat -> nat -> K) : sum n (fun i => sum m (f i)) = sum m (fun j => sum n (fun i => f i j)).
Proof.
  induction n as [|n IH]; [cbn; symmetry; now apply sum_zero|]. cbn. rewrite IH, <- sum_add. reflexivity.
Qed.
Lemma sum_split n m f : sum (n + m) f = sum n f + sum m (fun i => f (n + i)%nat).
Proof.
  induction m as [|m IH]; [cbn; rewrite Nat.add_0_r; ring|]. rewrite Nat.add_succ_r. cbn. rewrite IH. ring.
Qed.
Lemma sum_first n f : sum (S n) f = f 0%nat + sum n (fun i => f (S i)).
Proof. change (S n) with (1 + n)%nat. rewrite sum_split. cbn. ring. Qed.
Lemma sum_single n a f : (a < n)%nat -> (forall i, (i < n)%nat -> i <> a -> f i = 0) -> sum n f = f a.
Proof.
  intros Ha H. replace n with (a + (1 + (n - a - 1)))%nat by lia. rewrite !sum_split.
  rewrite sum_zero by (intros; apply H; lia). rewrite (sum_zero (n - a - 1)) by (intros; apply H; lia). cbn. rewrite Nat.add_0_r. ring.
Qed.
Lemma sum_delta n a f : (a < n)%nat -> sum n (fun i => delta a i * f i) = f a.
Proof.
  intros Ha. rewrite (sum_single n a); auto.
  - unfold delta. rewrite Nat.eqb_refl. ring.
  - intros i _ N. unfold delta. destruct (Nat.eqb_spec a i); [congruence|ring].
Qed.
Lemma sum_delta_r n a f : (a < n)%nat -> sum n (fun i => f i * delta i a) = f a.
Proof.
  intros Ha. rewrite (sum_single n a); auto.
  - unfold delta. rewrite Nat.eqb_refl. ring.
  - intros i _ N. unfold delta. destruct (Nat.eqb_spec i a); [congruence|ring].
Qed.
(** Terms below [a] only. *)
Lemma sum_trunc n a f : (a <= n)%nat -> (forall i, (a <= i < n)%nat -> f i = 0) -> sum n f = sum a f.
Proof. intros Ha H. replace n with (a + (n - a))%nat by lia. rewrite sum_split, (sum_zero (n - a)) by (intros; apply H; lia). ring. Qed.

Lemma prod_ext n f g : (forall i, (i < n)%nat -> f i = g i) -> prod n f = prod n g.
Proof. induction n as [|n IH]; intros H; [reflexivity|]. cbn. rewrite IH, H by (auto with arith). reflexivity. Qed.
Lemma prod_nonzero n f : (forall i, (i < n)%nat -> f i <> 0) -> prod n f <> 0.
Proof. induction n as [|n IH]; intros H; cbn; [exact f_1_0|]. apply mul_nonzero; auto with arith. Qed.
Lemma prod_zero n f i : (i < n)%nat -> f i = 0 -> prod n f = 0.
Proof.
  induction n as [|n IH]; intros Hi E; [lia|]. cbn. destruct (Nat.eq_dec i n) as [->|N]; [rewrite E; ring|]. rewrite IH by (lia || exact E). ring.
Qed.
Lemma prod_first n f : prod (S n) f = f 0%nat * prod n (fun i => f (S i)).
Proof. induction n as [|n IH]; [cbn; ring|]. cbn [prod] in *. rewrite IH. ring. Qed.

Lemma mmul_assoc k l (A B C : mtx K) r c : mmul l (mmul k A B) C r c = mmul k A (mmul l B C) r c.
Proof.
  unfold mmul. rewrite (sum_ext l _ (fun j => sum k (fun i => A r i * B i j * C j c))) by (intros; now rewrite sum_scale_r).
  rewrite sum_swap. apply sum_ext. intros i _. rewrite <- sum_scale. apply sum_ext. intros j _. ring.
Qed.
End Lemmas.
