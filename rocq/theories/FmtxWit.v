From Coq Require Import Reals ZArith Lia Lra Bool.
From Flocq Require Import Core BinarySingleNaN.
From Verif Require Import FmaModel FmaSpec FmaProofs FquadModel FquadProofs FquadMore FvecModel FvecSpec FvecProofs FvecMore FmtxModel FmtxSpec FmtxProofs FmtxMore.
Open Scope R_scope.

Section Dots.
Variable prec emax : Z.
Context {Hp : Prec_gt_0 prec} {He : Prec_lt_emax prec emax}.
Notation float := (binary_float prec emax).
Notation zero := (fl_lit prec emax 0 0).
Lemma product_accurate k (v w : nat -> float) : numbers k v -> numbers k w -> is_finite (fl_accum k v w zero) = true ->
  Rabs (B2R (fl_accum k v w zero) - exact_dot k v w) <= product_error_bound prec emax k (sum_of_sizes k v w).
Proof.
  intros Fv Fw F. destruct (accum_accurate prec emax k v w zero Fv Fw F) as (_ & B). destruct (lit_zero prec emax) as (_ & Z). rewrite Z, Rabs_R0, !Rplus_0_l in B. exact B.
Qed.
Lemma product_finite (P2 : (2 <= prec)%Z) k (v w : nat -> float) : (Z.of_nat k < 2 ^ (prec - 1))%Z -> numbers k v -> numbers k w -> sum_of_sizes k v w <= bpow radix2 (emax - 3) -> is_finite (fl_accum k v w zero) = true.
Proof.
  intros K Fv Fw S. destruct (lit_zero prec emax) as (F & Z). apply (accum_runs prec emax P2 k v w zero K Fv Fw F); [|apply le_n]. rewrite Z, Rabs_R0, Rplus_0_l. exact S.
Qed.
Lemma product_integers (P2 : (2 <= prec)%Z) k (v w : nat -> float) : (forall n, (n < k)%nat -> integral (v n) /\ integral (w n)) -> sum_of_sizes k v w <= bpow radix2 prec ->
  is_finite (fl_accum k v w zero) = true /\ B2R (fl_accum k v w zero) = exact_dot k v w.
Proof.
  intros I S. destruct (lit_zero prec emax) as (F & Z). assert (IZ : integral zero) by (split; [exact F|exists 0%Z; exact Z]). destruct (integer_exact prec emax P2 k v w zero IZ I) as (A & B & _); [rewrite Z, Rabs_R0, Rplus_0_l; exact S|]. split; [exact A|]. rewrite B, Z. ring.
Qed.
Lemma apply_accurate N (m : nat -> nat -> float) p i : numbers (S N) (m i) -> numbers N p -> is_finite (fl_mtx_vec (S N) m (fl_hom N p) i) = true ->
  Rabs (B2R (fl_mtx_vec (S N) m (fl_hom N p) i) - (exact_dot N (m i) p + B2R (m i N))) <= product_error_bound prec emax (S N) (sum_of_sizes N (m i) p + Rabs (B2R (m i N))).
Proof.
  intros Fm Fp F. assert (Fh : numbers (S N) (fl_hom N p)). { intros j J. destruct (Nat.eq_dec j N) as [E|Ne]; [rewrite E, hom_last; apply is_finite_Bone|rewrite hom_in by lia; apply Fp; lia]. }
  pose proof (product_accurate (S N) (m i) (fl_hom N p) Fm Fh F) as B. unfold fl_mtx_vec. unfold exact_dot, sum_of_sizes in *. cbn [total] in B. rewrite hom_last, one_value, Rmult_1_r in B.
  rewrite (total_ext N _ (fun i0 => B2R (m i i0) * B2R (p i0))) in B by (intros j J; now rewrite hom_in). rewrite (total_ext N (fun i0 => Rabs (B2R (m i i0) * B2R (fl_hom N p i0))) (fun i0 => Rabs (B2R (m i i0) * B2R (p i0)))) in B by (intros j J; now rewrite hom_in). exact B.
Qed.
End Dots.

Lemma lost_translation : exists t p : nat -> binary_float 53 1024, numbers 1 t /\ numbers 1 p /\ B2R (p 0%nat) = 1 /\
  B2R (fl_apply_inverse 1 (fl_translation 1 t) (fl_apply 1 (fl_translation 1 t) p) 0%nat) = 0.
Proof.
  exists (fun _ => dbl 1 60), (fun _ => dbl 1 0). split; [intros i _; apply dbl_runs; lia|]. split; [intros i _; apply dbl_int; lia|]. split; [apply (dbl_pow 0); lia|].
  set (x := fl_apply_inverse _ _ _ _). assert (E : B2SF x = SpecFloat.S754_zero false) by (vm_compute; reflexivity). rewrite <- SF2R_B2SF, E. reflexivity.
Qed.
Lemma lost_composition : exists (first second : fl_xform 53 1024) (p : nat -> binary_float 53 1024), numbers 1 p /\
  B2R (fl_apply 1 second (fl_apply 1 first p) 0%nat) = 1 /\ is_finite (fl_apply 1 (fl_then 1 first second) p 0%nat) = true /\ B2R (fl_apply 1 (fl_then 1 first second) p 0%nat) = 0.
Proof.
  exists (fl_translation 1 (fun _ => dbl 1 60)), (fl_translation 1 (fun _ => dbl 1 0)), (fun _ => dbl (-1) 60). split; [intros i _; apply dbl_runs; lia|].
  set (x := fl_apply 1 _ (fl_apply 1 _ _) _). set (y := fl_apply 1 (fl_then _ _ _) _ _). assert (Y : B2SF y = SpecFloat.S754_zero false) by (vm_compute; reflexivity). assert (X : B2SF x = B2SF (dbl 1 0)) by (vm_compute; reflexivity).
  apply B2SF_inj in X. rewrite X. split; [apply (dbl_pow 0); lia|]. rewrite <- SF2R_B2SF, <- is_finite_SF_B2SF, Y. split; reflexivity.
Qed.
Lemma integers_example : let a := matrix2 (dbl 1 0) (dbl 2 0) (dbl 3 0) (dbl 4 0) in let b := matrix2 (dbl 5 0) (dbl 6 0) (dbl 7 0) (dbl 8 0) in
  (forall r n c, (n < 2)%nat -> integral (a r n) /\ integral (b n c)) /\ (forall r c, (r < 2)%nat -> (c < 2)%nat -> sum_of_sizes 2 (a r) (fun n => b n c) <= bpow radix2 53) /\
  B2R (fl_mtx_mul 2 a b 1%nat 1%nat) = 50.
Proof.
  intros a b. assert (V : forall m, (Z.abs m < 2 ^ 53)%Z -> integral (dbl m 0) /\ B2R (dbl m 0) = IZR m) by (intros m M; destruct (dbl_int m M) as (F & E); repeat split; eauto).
  destruct (V 1%Z ltac:(lia)) as (I1 & V1), (V 2%Z ltac:(lia)) as (I2 & V2), (V 3%Z ltac:(lia)) as (I3 & V3), (V 4%Z ltac:(lia)) as (I4 & V4), (V 5%Z ltac:(lia)) as (I5 & V5), (V 6%Z ltac:(lia)) as (I6 & V6), (V 7%Z ltac:(lia)) as (I7 & V7), (V 8%Z ltac:(lia)) as (I8 & V8).
  assert (Q : 64 <= bpow radix2 53) by (change 64 with (bpow radix2 6); apply bpow_le; lia).
  split; [|split].
  - intros r n c _. unfold a, b, matrix2. destruct r, n, c; split; assumption.
  - intros r c R C. unfold a, b, sum_of_sizes. destruct r as [|[|r]]; [| |lia]; (destruct c as [|[|c]]; [| |lia]); cbn [total matrix2]; rewrite ?V1, ?V2, ?V3, ?V4, ?V5, ?V6, ?V7, ?V8, !Rabs_pos_eq by lra; lra.
  - set (x := fl_mtx_mul 2 a b 1%nat 1%nat). assert (X : B2SF x = B2SF (dbl 50 0)) by (vm_compute; reflexivity). apply B2SF_inj in X. rewrite X. apply (V 50%Z). lia.
Qed.
Lemma back_example : let p := fun _ : nat => dbl 3 0 in let t := fun _ : nat => dbl (-5) 0 in
  numbers 3 p /\ numbers 3 t /\ (forall j, (j < 3)%nat -> is_finite (fl_add 53 1024 (p j) (t j)) = true) /\ B2R (fl_add 53 1024 (p 1%nat) (t 1%nat)) = B2R (p 1%nat) + B2R (t 1%nat).
Proof.
  intros p t. destruct (dbl_int 3 ltac:(lia)) as (F1 & V1). destruct (dbl_int (-5) ltac:(lia)) as (F2 & V2). destruct (dbl_int (-2) ltac:(lia)) as (F3 & V3).
  assert (X : fl_add 53 1024 (dbl 3 0) (dbl (-5) 0) = dbl (-2) 0) by (apply B2SF_inj; vm_compute; reflexivity). unfold p, t. rewrite X, V1, V2, V3. repeat split; try (intros j J; assumption). lra.
Qed.
