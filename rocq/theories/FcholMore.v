From Coq Require Import Reals ZArith Lia Lra Bool List.
From Flocq Require Import Core Relative BinarySingleNaN.
From Verif Require Import Fld FldLemmas RFld LinSpec RLinSpec PluModel PluProofs SolveProofs DetInvProofs CholProofs.
From Verif Require Import FmaModel FmaSpec FmaProofs FquadModel FquadSpec FquadProofs FquadMore FvecModel FvecSpec FvecProofs FvecMore FmtxModel FmtxSpec FmtxProofs FmtxMore FqnModel FqnProofs FinvProofs FcholModel FcholSpec FcholProofs.
Import ListNotations.
Open Scope R_scope.

(** ** A matrix that is not positive definite *)
Section Exact.
Variables (L B : nat -> nat -> R) (i : nat) (t : R).
Hypothesis Dg : forall k, (k < i)%nat -> L k k <> 0.
Hypothesis Up : forall a k, (a < k < i)%nat -> L a k = 0.
Hypothesis T : t <= 0.
Hypothesis HB : forall a b, (a < S i)%nat -> (b < S i)%nat -> B a b = rsum i (fun k => L a k * L b k) + (if (a =? i)%nat && (b =? i)%nat then t else 0).
Lemma not_definite : ~ positive_definite (S i) B.
Proof.
  intros PD. destruct (upper_solve R_field (fun r c => L c r) i Dg (fun k => - L i k)%R) as (v0 & V0 & V).
  set (v := fun c => if (c =? i)%nat then 1 else v0 c : R). assert (Vi : v i = 1) by (unfold v; now rewrite Nat.eqb_refl).
  assert (Q : 0 < quadratic_form (S i) B v) by (apply PD; exists i; split; [lia|rewrite Vi; lra]).
  rewrite (gram (S i) i B L (fun a b => if ((a =? i) && (b =? i))%nat then t else 0) v HB) in Q.
  rewrite (rsum_zero i (fun k => rsum (S i) (fun a => L a k * v a) * rsum (S i) (fun a => L a k * v a))) in Q.
  - rewrite Rplus_0_l, (rsum_S i), (rsum_zero i), Rplus_0_l in Q.
    + rewrite rsum_S, rsum_zero, Rplus_0_l in Q; [rewrite !Nat.eqb_refl, Vi in Q; cbn [andb] in Q; lra|]. intros b Hb. rewrite Nat.eqb_refl. destruct (Nat.eqb_spec b i); [lia|]. cbn [andb]. lra.
    + intros a Ha. apply rsum_zero. intros b Hb. destruct (Nat.eqb_spec a i); [lia|]. cbn [andb]. lra.
  - intros k Hk. rewrite rsum_S, Vi. replace (rsum i (fun a => L a k * v a)) with (- L i k); [lra|]. rewrite <- (V k Hk). apply rsum_ext. intros c Hc.
    unfold upper_of, v. destruct (Nat.eqb_spec c i); [lia|]. destruct (Nat.ltb_spec c k) as [H|H]; [|reflexivity]. rewrite (Up c k) by lia. unR. lra.
Qed.
End Exact.
Lemma rsum_total n (f : nat -> R) : rsum n f = total n f.
Proof. induction n as [|n IH]; [reflexivity|]. cbn [sum total]. unR. now rewrite IH. Qed.

Section Chol.
Variable prec emax : Z.
Context {Hp : Prec_gt_0 prec} {He : Prec_lt_emax prec emax}.
Notation float := (binary_float prec emax).
Notation matrix := (nat -> nat -> float).
Notation zero := (fl_lit prec emax 0 0).
Notation ltb := (fl_ltb prec emax).
(** Later rows leave the earlier ones alone. *)
Lemma elem_keeps r c (s : matrix * bool) a b : (c <= r)%nat -> (a < r)%nat -> (b <= a)%nat -> fst (fl_chol_elem r s c) a b = fst s a b.
Proof.
  intros Hc Ha Hb. destruct s as [m ok]. unfold fl_chol_elem. destruct (Nat.eqb_spec r c) as [E|N]; cbn [fst]; [apply set_row; lia|]. rewrite set_row by lia. apply set_col. lia.
Qed.
Lemma row_keeps r (s : matrix * bool) a b : (a < r)%nat -> (b <= a)%nat -> fst (fl_chol_row s r) a b = fst s a b.
Proof.
  intros Ha Hb. unfold fl_chol_row. assert (G : forall l, (forall c, In c l -> (c <= r)%nat) -> forall s, fst (fold_left (fl_chol_elem r) l s) a b = fst s a b).
  { induction l as [|c l IH]; intros H t; [reflexivity|]. cbn [fold_left]. rewrite IH by (intros; apply H; now right). apply elem_keeps; [apply H; now left|exact Ha|exact Hb]. }
  apply G. intros c Hc. apply in_seq in Hc. lia.
Qed.
Lemma prefix (A : matrix) n a b : (b <= a < n)%nat -> fst (fl_cholesky A (S n)) a b = fst (fl_cholesky A n) a b.
Proof. intros H. unfold fl_cholesky. rewrite seq_S, fold_left_app. cbn [fold_left Nat.add]. apply row_keeps; lia. Qed.
Lemma failure (A : matrix) i : (2 <= prec)%Z -> (Z.of_nat i < 2 ^ (prec - 1))%Z -> (forall a b, (b <= a < S i)%nat -> is_finite (A a b) = true) -> snd (fl_cholesky A i) = true -> snd (fl_cholesky A (S i)) = false -> let L := fst (fl_cholesky A (S i)) in
  (forall k, (k < i)%nat -> is_finite (L i k) = true) -> Rabs (B2R (A i i)) + sum_of_sizes i (L i) (L i) <= bpow radix2 (emax - 3) ->
  exists B : nat -> nat -> R, symmetric (S i) B /\ ~ positive_definite (S i) B /\
    forall a b, (b <= a < S i)%nat -> Rabs (B a b - B2R (A a b)) <= cholesky_bound prec emax b (Rabs (B2R (A a b)) + sum_of_sizes b (L a) (L b)) (if Nat.eqb b i then 0 else B2R (L b b)).
Proof.
  intros P2 K FA O1 O2 L FL Sz. destruct (equations prec emax A (S i)) as (LV & LP). destruct (equations prec emax A i) as (_ & LP1). fold L in LV, LP. 
  assert (E : forall a b, (b <= a < i)%nat -> L a b = fst (fl_cholesky A i) a b) by (intros a b H; now apply prefix).
  assert (PQ : forall k, (k < i)%nat -> ltb zero (res prec emax A L k k) = true).
  { intros k Hk. rewrite <- (proj1 LP1 O1 k Hk). f_equal. unfold res. apply less_ext. intros j Hj. now rewrite E by lia. }
  assert (NP : ltb zero (res prec emax A L i i) = false).
  { destruct (ltb zero (res prec emax A L i i)) eqn:Q; [|reflexivity]. exfalso. assert (T : snd (fl_cholesky A (S i)) = true); [|congruence]. apply LP. intros k Hk. destruct (Nat.eq_dec k i) as [->|N]; [exact Q|apply PQ; lia]. }
  assert (FD : forall k, (k < i)%nat -> is_finite (A k k) = true) by (intros k H; apply FA; lia).
  set (s := res prec emax A L i i) in *.
  assert (Fs : is_finite s = true).
  { unfold s, res. rewrite less_accum. apply (accum_runs prec emax P2 i); [exact K| |exact FL| | |lia].
    - intros k Hk. unfold fl_neg. rewrite is_finite_Bopp. now apply FL.
    - apply FA. lia.
    - replace (sum_of_sizes i (fun k => fl_neg prec emax (L i k)) (L i)) with (sum_of_sizes i (L i) (L i)); [exact Sz|]. unfold sum_of_sizes. clear. generalize (L i) as v. intros v. induction i as [|q IH]; cbn [total]; [reflexivity|]. rewrite IH. unfold fl_neg. rewrite B2R_Bopp, Ropp_mult_distr_l_reverse, Rabs_Ropp. reflexivity. }
  assert (T0 : B2R s <= 0). { destruct (lit_zero prec emax) as (Fz & Vz). unfold fl_ltb in NP. rewrite Bltb_correct in NP by assumption. rewrite Vz in NP. destruct (Rlt_bool_spec 0 (B2R s)); [discriminate|assumption]. }
  set (R := fun a k => B2R (L a k)). set (B := fun a b => rsum i (fun k => R a k * R b k) + (if (a =? i)%nat && (b =? i)%nat then B2R s else 0)).
  assert (Up : forall a k, (a < k < S i)%nat -> R a k = 0). { intros a k H. unfold R, L. rewrite upper_zero by lia. exact (proj2 (lit_zero prec emax)). }
  exists B. split; [|split].
  - intros a b Ha Hb. unfold B. rewrite andb_comm. f_equal. apply rsum_ext. intros; apply Rmult_comm.
  - apply (not_definite R B i (B2R s)); [|intros a k H; apply Up; lia|exact T0|reflexivity]. intros k Hk Z. pose proof (diagonal_positive prec emax A L (S i) i P2 ltac:(lia) FD LV PQ k Hk). unfold R in Z. lra.
  - intros a b H. destruct (Nat.eqb_spec b i) as [->|N].
    + assert (a = i) by lia. subst a. unfold B. rewrite Nat.eqb_refl. cbn [andb]. rewrite rsum_total. fold (exact_dot i (L i) (L i)). change (total i (fun k => R i k * R i k)) with (exact_dot i (L i) (L i)).
      pose proof (less_accurate prec emax i (L i) (L i) (A i i) FL FL Fs) as G. change (less prec emax i (L i) (L i) (A i i)) with s in G.
      replace (exact_dot i (L i) (L i) + B2R s - B2R (A i i)) with (B2R s - (B2R (A i i) - exact_dot i (L i) (L i))) by ring. eapply Rle_trans; [exact G|]. rewrite (bound_split prec emax). rewrite Rmult_0_l, Rplus_0_r.
      set (sz := Rabs (B2R (A i i)) + sum_of_sizes i (L i) (L i)) in *. pose proof (two_steps prec) as S2. assert (0 <= product_error_bound prec emax i sz) by (eapply Rle_trans; [apply Rabs_pos|exact G]).
      assert (0 <= sz) by (unfold sz; pose proof (Rabs_pos (B2R (A i i))); assert (0 <= sum_of_sizes i (L i) (L i)) by (apply total_nonneg; intros; apply Rabs_pos); lra). pose proof (Rmult_le_pos _ (sz + product_error_bound prec emax i sz) S2 ltac:(lra)). lra.
    + assert (Hb : (b < i)%nat) by lia. replace (B a b) with (exact_dot (S b) (L a) (L b)).
      * rewrite Rabs_minus_sym. apply (backward prec emax A L (S i) i P2 ltac:(lia) FD LV PQ); [lia|lia|]. intros k Hk. destruct (Nat.eq_dec a i) as [->|Na]; [apply FL; lia|apply (lower_finite prec emax A L (S i) i P2 ltac:(lia) FD LV PQ); lia].
      * unfold B. apply Nat.eqb_neq in N. rewrite N, andb_false_r, Rplus_0_r. rewrite (rsum_trunc i (S b)); [rewrite rsum_total; reflexivity|lia|]. intros k Hk. rewrite (Up b k) by lia. apply Rmult_0_r.
Qed.
End Chol.
