From Coq Require Import Reals Lra Lia Arith List Bool.
From Verif Require Import Fld FldLemmas RFld LinSpec RLinSpec PluModel PluProofs SolveProofs DetInvProofs CholModel.
Import ListNotations.
Open Scope R_scope.
Notation rsum := (@sum R_field).
Implicit Types (A m L : mtx R_field) (v : nat -> R).

Definition res A m (i j : nat) : R := A i j - rsum j (fun k => m i k * m j k).
Lemma residue_eq m r c : chol_residue m r c = m r c - rsum c (fun k => m r k * m c k).
Proof.
  unfold chol_residue. generalize (m r c : R). intros x. 
  assert (G : forall l (y : R), fold_left (fun s k => s - m r k * m c k) l y = y - fold_right (fun k s => m r k * m c k + s) 0 l).
  { induction l as [|k l IH]; intros y; cbn [fold_left fold_right]; [lra|]. rewrite IH. unR. lra. }
  rewrite G. f_equal. assert (H : forall a, fold_right (fun (k : nat) (s : R) => m r k * m c k + s) 0 (seq 0 a) = rsum a (fun k => m r k * m c k)); [|apply H]. clear.
  induction a as [|a IH]; [reflexivity|]. rewrite seq_S, fold_right_app. cbn [fold_right sum Nat.add].
  unR. rewrite <- IH. rewrite Rplus_0_r. generalize (m r a * m c a). clear. intros x. 
  induction (seq 0 a) as [|k l IH]; cbn [fold_right]; [lra|]. rewrite IH. lra.
Qed.
Section Inv.
Variables (A : mtx R_field) (n : nat).
Definition done (r c i j : nat) : Prop := (i < r \/ (i = r /\ j < c))%nat.
Definition value m (i j : nat) : R := if (i =? j)%nat then sqrt (res A m i j) else res A m i j / m j j.
Definition inv (r c : nat) (st : mtx R_field * bool) : Prop := let (m, ok) := st in
  (forall i j, (j <= i)%nat -> done r c i j -> m i j = value m i j) /\
  (forall i j, (j <= i)%nat -> ~ done r c i j -> m i j = A i j) /\
  (forall i j, (j < i)%nat -> done r c i j -> m j i = 0) /\
  (ok = true <-> forall i, done r c i i -> 0 < res A m i i).
Lemma inv_step r c st : (c <= r)%nat -> inv r c st -> inv r (S c) (chol_elem r st c).
Proof.
  intros Hc. destruct st as [m ok]. intros (I1 & I2 & I3 & I4). unfold chol_elem. rewrite residue_eq.
  rewrite (I2 r c Hc) by (unfold done; lia). fold (res A m r c).
  assert (E : forall m', (forall i j, (j <= i)%nat -> (i <> r \/ j <> c) -> m' i j = m i j) -> 
    (forall i j, (j <= i)%nat -> done r (S c) i j -> res A m' i j = res A m i j)).
  { intros m' H i j Hj D. unfold res. f_equal. apply sum_ext. intros k Hk. unfold done in D. rewrite !H by lia. reflexivity. }
  destruct (Nat.eqb_spec r c) as [Erc|Nrc].
  - subst c. set (m' := upd2 m r r _). 
    assert (Eo : forall i j, (j <= i)%nat -> (i <> r \/ j <> r) -> m' i j = m i j).
    { intros i j Hj N. unfold m'. destruct N; [now rewrite upd2_row by auto|now rewrite upd2_col by auto]. }
    pose proof (E m' Eo) as Er. clear E. split; [|split; [|split]].
    + intros i j Hj D. unfold value. rewrite Er by auto. destruct (Nat.eq_dec i r) as [->|Ni]; [destruct (Nat.eq_dec j r) as [->|Nj]|].
      * rewrite Nat.eqb_refl. unfold m'. now rewrite upd2_same.
      * rewrite !Eo by lia. apply (I1 r j Hj). unfold done in *. lia.
      * destruct (Nat.eqb_spec i j) as [<-|N]; rewrite !Eo by (unfold done in *; lia).
        -- rewrite I1 by (unfold done in *; lia). unfold value. now rewrite Nat.eqb_refl.
        -- rewrite I1 by (unfold done in *; lia). unfold value. destruct (Nat.eqb_spec i j); [contradiction|reflexivity].
    + intros i j Hj D. rewrite Eo by (unfold done in *; lia). apply I2; unfold done in *; lia.
    + intros i j Hj D. unfold m'. rewrite upd2_row by (unfold done in D; lia). apply (I3 i j Hj). unfold done in *. lia.
    + rewrite andb_true_iff, I4. split.
      * intros [H1 H2] i D. destruct (Nat.eq_dec i r) as [->|Ni].
        -- rewrite Er by (auto; unfold done; lia). destruct (Rlt_dec 0 (res A m r r)); [auto|discriminate].
        -- rewrite Er by auto. apply H1. unfold done in *. lia.
      * intros H. split.
        -- intros i D. rewrite <- Er by (auto; unfold done in *; lia). apply H. unfold done in *. lia.
        -- destruct (Rlt_dec 0 (res A m r r)) as [|N]; [reflexivity|]. exfalso. apply N. rewrite <- Er by (auto; unfold done; lia). apply H. unfold done. lia.
  - set (x := (res A m r c / m c c)%R). set (m' := upd2 (upd2 m c r 0%R) r c x).
    assert (Eo : forall i j, (j <= i)%nat -> (i <> r \/ j <> c) -> m' i j = m i j).
    { intros i j Hj N. transitivity (upd2 m c r 0%R i j).
      - unfold m'. destruct N as [N|N]; [apply upd2_row|apply upd2_col]; exact N.
      - destruct (Nat.eq_dec i c) as [->|Nc]; [apply upd2_col; lia|apply upd2_row; exact Nc]. }
    pose proof (E m' Eo) as Er. clear E. split; [|split; [|split]].
    + intros i j Hj D. unfold value. rewrite Er by auto. destruct (Nat.eq_dec i r) as [->|Ni]; [destruct (Nat.eq_dec j c) as [->|Nj]|].
      * destruct (Nat.eqb_spec r c); [contradiction|]. rewrite (Eo c c) by lia. unfold m'. now rewrite upd2_same.
      * destruct (Nat.eqb_spec r j); [unfold done in D; lia|]. rewrite !Eo by (unfold done in *; lia). rewrite I1 by (unfold done in *; lia). unfold value.
        destruct (Nat.eqb_spec r j); [contradiction|reflexivity].
      * destruct (Nat.eqb_spec i j) as [<-|N]; rewrite !Eo by (unfold done in *; lia).
        -- rewrite I1 by (unfold done in *; lia). unfold value. now rewrite Nat.eqb_refl.
        -- rewrite I1 by (unfold done in *; lia). unfold value. destruct (Nat.eqb_spec i j); [contradiction|reflexivity].
    + intros i j Hj D. rewrite Eo by (unfold done in *; lia). apply I2; unfold done in *; lia.
    + intros i j Hj D. unfold m'. rewrite upd2_row by (unfold done in D; lia).
      destruct (Nat.eq_dec i r) as [->|Ni]; [destruct (Nat.eq_dec j c) as [->|Nj]|].
      * apply upd2_same.
      * rewrite upd2_row by auto. apply (I3 r j Hj). unfold done in *. lia.
      * rewrite upd2_col by auto. apply (I3 i j Hj). unfold done in *. lia.
    + rewrite I4. split; intros H i D.
      * rewrite Er by (auto; unfold done in *; lia). apply H. unfold done in *. lia.
      * rewrite <- Er by (auto; unfold done in *; lia). apply H. unfold done in *. lia.
Qed.
Lemma inv_row r st c : (c <= S r)%nat -> inv r 0 st -> inv r c (fold_left (chol_elem r) (seq 0 c) st).
Proof.
  intros Hc I. induction c as [|c IH]; [exact I|]. rewrite seq_S, fold_left_app. cbn [fold_left Nat.add]. apply inv_step; [lia|]. apply IH. lia.
Qed.
Lemma inv_next r st : inv r (S r) st -> inv (S r) 0 st.
Proof.
  destruct st as [m ok]. intros (I1 & I2 & I3 & I4).
  assert (D : forall i j, (j <= i)%nat -> done r (S r) i j <-> done (S r) 0 i j) by (intros i j H; unfold done; lia).
  split; [|split; [|split]].
  - intros i j Hj H. apply I1; auto. now apply D.
  - intros i j Hj H. apply I2; auto. rewrite D; auto.
  - intros i j Hj H. apply (I3 i j); auto. apply D; auto. lia.
  - rewrite I4. split; intros H i Hi; apply H; apply D; auto.
Qed.
Lemma inv_run r : inv r 0 (fold_left chol_row (seq 0 r) (A, true)).
Proof.
  induction r as [|r IH].
  - cbn. split; [|split; [|split]]; try (intros; unfold done in *; lia); [reflexivity|]. split; [|reflexivity]. intros _ i H. unfold done in H. lia.
  - rewrite seq_S, fold_left_app. cbn [fold_left Nat.add]. apply inv_next. unfold chol_row. apply inv_row; [lia|exact IH].
Qed.
End Inv.

(** ** Quadratic forms *)
Lemma rsum_ext n (f g : nat -> R) : (forall i, (i < n)%nat -> f i = g i) -> rsum n f = rsum n g.
Proof. exact (sum_ext R_field n f g). Qed.
Lemma rsum_zero n (f : nat -> R) : (forall i, (i < n)%nat -> f i = 0) -> rsum n f = 0.
Proof. exact (sum_zero R_field n f). Qed.
Lemma rsum_add n (f g : nat -> R) : rsum n (fun i => f i + g i) = rsum n f + rsum n g.
Proof. exact (sum_add R_field n f g). Qed.
Lemma rsum_scale n a (f : nat -> R) : rsum n (fun i => a * f i) = a * rsum n f.
Proof. exact (sum_scale R_field n a f). Qed.
Lemma rsum_swap n p (f : nat -> nat -> R) : rsum n (fun i => rsum p (f i)) = rsum p (fun j => rsum n (fun i => f i j)).
Proof. exact (sum_swap R_field n p f). Qed.
Lemma rsum_S n (f : nat -> R) : rsum (S n) f = rsum n f + f n.
Proof. reflexivity. Qed.
Lemma rsum_trunc n a (f : nat -> R) : (a <= n)%nat -> (forall i, (a <= i < n)%nat -> f i = 0) -> rsum n f = rsum a f.
Proof. exact (sum_trunc R_field n a f). Qed.
Lemma rsum_nonneg n (f : nat -> R) : (forall i, (i < n)%nat -> 0 <= f i) -> 0 <= rsum n f.
Proof. induction n as [|n IH]; intros H; [cbn; lra|]. rewrite rsum_S. specialize (IH (fun i Hi => H i ltac:(lia))). specialize (H n ltac:(lia)). lra. Qed.
Lemma rsum_pos n (f : nat -> R) k : (forall i, (i < n)%nat -> 0 <= f i) -> (k < n)%nat -> 0 < f k -> 0 < rsum n f.
Proof.
  induction n as [|n IH]; intros H Hk P; [lia|]. rewrite rsum_S. pose proof (rsum_nonneg n f (fun i Hi => H i ltac:(lia))) as Q.
  destruct (Nat.eq_dec k n) as [->|N]; [lra|]. specialize (IH (fun i Hi => H i ltac:(lia)) ltac:(lia) P). specialize (H n ltac:(lia)). lra.
Qed.
Lemma rsum_sq n v : (forall k, (k < n)%nat -> v k = 0) \/ 0 < rsum n (fun k => v k * v k).
Proof.
  induction n as [|n IH]; [left; lia|]. rewrite rsum_S. pose proof (rsum_nonneg n (fun k => v k * v k) (fun i _ => Rle_0_sqr (v i))) as Q.
  destruct IH as [Z|P].
  - destruct (Req_dec (v n) 0) as [E|E].
    + left. intros k Hk. destruct (Nat.eq_dec k n) as [->|]; [exact E|apply Z; lia].
    + right. pose proof (Rsqr_pos_lt (v n) E) as S. unfold Rsqr in S. lra.
  - right. pose proof (Rle_0_sqr (v n)) as S. unfold Rsqr in S. lra.
Qed.
Lemma gram q p A (B : nat -> nat -> R) (s : nat -> nat -> R) v :
  (forall a b, (a < q)%nat -> (b < q)%nat -> A a b = rsum p (fun k => B a k * B b k) + s a b) ->
  quadratic_form q A v = rsum p (fun k => rsum q (fun a => B a k * v a) * rsum q (fun a => B a k * v a)) + rsum q (fun a => rsum q (fun b => v a * s a b * v b)).
Proof.
  intros H. unfold quadratic_form.
  rewrite (rsum_ext q _ (fun a => rsum p (fun k => (B a k * v a) * rsum q (fun b => B b k * v b)) + rsum q (fun b => v a * s a b * v b))).
  - rewrite rsum_add. f_equal. rewrite rsum_swap. apply rsum_ext. intros k Hk. 
    rewrite (rsum_ext q _ (fun a => rsum q (fun b => B b k * v b) * (B a k * v a))) by (intros; apply Rmult_comm). now rewrite rsum_scale.
  - intros a Ha. rewrite (rsum_ext q _ (fun b => rsum p (fun k => (B a k * v a) * (B b k * v b)) + v a * s a b * v b)).
    + rewrite rsum_add. f_equal. rewrite rsum_swap. apply rsum_ext. intros k Hk. now rewrite rsum_scale.
    + intros b Hb. rewrite H by auto. rewrite (rsum_ext p (fun k => B a k * v a * (B b k * v b)) (fun k => v a * v b * (B a k * B b k))) by (intros; ring). rewrite rsum_scale. ring.
Qed.
(** ** The result *)
Section Result.
Variables (A : mtx R_field) (n : nat) (m : mtx R_field) (ok : bool).
Hypothesis E : cholesky A n = (m, ok).
Hypothesis Sym : symmetric n A.
Lemma final : inv A n 0 (m, ok).
Proof. rewrite <- E. apply inv_run. Qed.
Lemma upper_zero i j : (i < j < n)%nat -> m i j = 0.
Proof. intros H. destruct final as (_ & _ & I3 & _). apply (I3 j i); [lia|]. left. lia. Qed.
Lemma diag_value i : (i < n)%nat -> m i i = sqrt (res A m i i).
Proof. intros H. destruct final as (I1 & _). rewrite I1 by (auto; left; lia). unfold value. now rewrite Nat.eqb_refl. Qed.
Lemma off_value i j : (j < i < n)%nat -> m i j = res A m i j / m j j.
Proof. intros H. destruct final as (I1 & _). rewrite I1 by (try (left; lia); lia). unfold value. destruct (Nat.eqb_spec i j); [lia|reflexivity]. Qed.
Lemma product_at i j q : (j <= i < n)%nat -> (j < q <= n)%nat -> 0 < res A m j j -> rsum q (fun k => m i k * m j k) = A i j.
Proof.
  intros H Hq P. rewrite (rsum_trunc q (S j)) by (try lia; intros k Hk; rewrite (upper_zero j k) by lia; apply Rmult_0_r).
  rewrite rsum_S. assert (D : m j j * m j j = res A m j j) by (rewrite diag_value by lia; apply sqrt_sqrt; lra).
  assert (D0 : (m j j : R) <> 0). { intros Z. rewrite Z in D. lra. }
  assert (V : m i j * m j j = res A m i j).
  { destruct (Nat.eq_dec i j) as [->|N]; [exact D|]. rewrite off_value by lia. unR. field. exact D0. }
  rewrite V. unfold res. lra.
Qed.
Lemma product_sym i j q : (i < n)%nat -> (j < n)%nat -> (i < q \/ j < q)%nat -> (q <= n)%nat -> (forall k, (k < q)%nat -> 0 < res A m k k) ->
  rsum q (fun k => m i k * m j k) = A i j.
Proof.
  intros Hi Hj Hq Hn P. destruct (Nat.le_ge_cases j i) as [L|L].
  - apply product_at; [lia|lia|apply P; lia].
  - rewrite Sym by auto. rewrite (rsum_ext q _ (fun k => m j k * m i k)) by (intros; apply Rmult_comm). apply product_at; [lia|lia|apply P; lia].
Qed.
Lemma ok_res : ok = true <-> forall i, (i < n)%nat -> 0 < res A m i i.
Proof.
  destruct final as (_ & _ & _ & I4). rewrite I4. split; intros H i Hi; apply H; [left; exact Hi|destruct Hi as [?|[? ?]]; lia].
Qed.
Lemma success : ok = true -> (forall i, (i < n)%nat -> 0 < m i i) /\ (forall i j, (i < j < n)%nat -> m i j = 0) /\
  (forall i j, (i < n)%nat -> (j < n)%nat -> rsum n (fun k => m i k * m j k) = A i j) /\ positive_definite n A.
Proof.
  intros H. rewrite ok_res in H. split; [|split; [|split]].
  - intros i Hi. rewrite diag_value by auto. now apply sqrt_lt_R0, H.
  - exact upper_zero.
  - intros i j Hi Hj. apply product_sym; auto.
  - intros v (i & Hi & Vi). rewrite (gram n n A m (fun _ _ => 0) v) by (intros; rewrite product_sym by auto; lra).
    rewrite (rsum_zero n (fun a => rsum n _)) by (intros; apply rsum_zero; intros; lra). rewrite Rplus_0_r.
    destruct (rsum_sq n (fun k => rsum n (fun a => m a k * v a))) as [Z|P]; [|exact P]. exfalso. apply Vi.
    apply (upper_kernel R_field n (fun r c => m c r) v); [| |exact Z|exact Hi].
    + intros r c Hr Hc. apply upper_zero. lia.
    + intros k Hk D. assert (0 < m k k) by (rewrite diag_value by auto; now apply sqrt_lt_R0, H). change (m k k = 0) in D. lra.
Qed.
Lemma failure : ok = false -> ~ positive_definite n A.
Proof.
  intros F. 
  assert (X : forall q, (forall i, (i < q)%nat -> 0 < res A m i i) \/ exists i, (i < q)%nat /\ ~ 0 < res A m i i /\ forall k, (k < i)%nat -> 0 < res A m k k).
  { induction q as [|q IH]; [left; lia|]. destruct IH as [H|(i & Hi & H)]; [|right; exists i; split; [lia|exact H]].
    destruct (Rlt_dec 0 (res A m q q)) as [P|P]; [left|right; exists q; auto].
    intros i Hi. destruct (Nat.eq_dec i q) as [->|]; [exact P|apply H; lia]. }
  destruct (X n) as [H|(i & Hi & Neg & H)]; [apply ok_res in H; congruence|]. intros PD.
  assert (Dg : forall k, (k < i)%nat -> (m k k : R) <> 0).
  { intros k Hk Z. assert (0 < m k k) by (rewrite diag_value by lia; now apply sqrt_lt_R0, H). change (m k k = 0) in Z. lra. }
  destruct (upper_solve R_field (fun r c => m c r) i Dg (fun k => - m i k)%R) as (v0 & V0 & V).
  set (v := fun c => if (c =? i)%nat then 1 else v0 c : R).
  assert (Vz : forall c, (i < c)%nat -> v c = 0) by (intros c Hc; unfold v; destruct (Nat.eqb_spec c i); [lia|apply V0; lia]).
  assert (Vi : v i = 1) by (unfold v; now rewrite Nat.eqb_refl).
  assert (T : quadratic_form n A v = quadratic_form (S i) A v).
  { unfold quadratic_form. rewrite (rsum_trunc n (S i)); [|lia|].
    - apply rsum_ext. intros a Ha. apply rsum_trunc; [lia|]. intros b Hb. rewrite (Vz b) by lia. lra.
    - intros a Ha. apply rsum_zero. intros b Hb. rewrite (Vz a) by lia. lra. }
  assert (Q : 0 < quadratic_form n A v) by (apply PD; exists i; split; [exact Hi|rewrite Vi; lra]). rewrite T in Q. apply Neg. clear T Neg.
  rewrite (gram (S i) i A m (fun a b => if ((a =? i) && (b =? i))%nat then res A m i i else 0) v) in Q.
  - rewrite (rsum_zero i (fun k => rsum (S i) (fun a => m a k * v a) * rsum (S i) (fun a => m a k * v a))) in Q.
    + rewrite Rplus_0_l, (rsum_S i), (rsum_zero i), Rplus_0_l in Q.
      * rewrite rsum_S, rsum_zero, Rplus_0_l in Q; [rewrite !Nat.eqb_refl, Vi in Q; cbn [andb] in Q; lra|].
        intros b Hb. rewrite Nat.eqb_refl. destruct (Nat.eqb_spec b i); [lia|]. cbn [andb]. lra.
      * intros a Ha. apply rsum_zero. intros b Hb. destruct (Nat.eqb_spec a i); [lia|]. cbn [andb]. lra.
    + intros k Hk. rewrite rsum_S, Vi. replace (rsum i (fun a => m a k * v a)) with (- m i k); [lra|]. rewrite <- (V k Hk). apply rsum_ext. intros c Hc.
      unfold upper_of, v. destruct (Nat.eqb_spec c i); [lia|]. destruct (Nat.ltb_spec c k) as [L|L]; [|reflexivity].
      rewrite (upper_zero c k) by lia. unR. lra.
  - intros a b Ha Hb. destruct (Nat.eqb_spec a i) as [Ea|Na], (Nat.eqb_spec b i) as [Eb|Nb]; cbn [andb].
    + subst a b. unfold res. lra.
    + rewrite product_sym by (try lia; exact H). lra.
    + rewrite product_sym by (try lia; exact H). lra.
    + rewrite product_sym by (try lia; exact H). lra.
Qed.
End Result.

(** ** Only the lower triangle is read *)
Definition agree (s s' : mtx R_field * bool) : Prop := snd s = snd s' /\ forall i j, (j <= i)%nat -> fst s i j = fst s' i j.
Lemma agree_elem r s s' c : (c <= r)%nat -> agree s s' -> agree (chol_elem r s c) (chol_elem r s' c).
Proof.
  intros Hc. destruct s as [m ok], s' as [m' ok']. intros [E1 E2]. cbn [fst snd] in *. subst ok'. unfold chol_elem.
  assert (R : chol_residue m r c = chol_residue m' r c).
  { rewrite !residue_eq, E2 by auto. f_equal. apply rsum_ext. intros k Hk. now rewrite !E2 by lia. }
  rewrite R. destruct (Nat.eqb_spec r c) as [<-|N]; (split; [reflexivity|]); cbn [fst]; intros i j Hj.
  - unfold upd2. destruct (_ && _)%bool; auto.
  - rewrite (E2 c c) by lia. unfold upd2. destruct (_ && _)%bool; [reflexivity|]. destruct (_ && _)%bool; auto.
Qed.
Lemma agree_row r s s' : agree s s' -> agree (chol_row s r) (chol_row s' r).
Proof.
  unfold chol_row. assert (G : forall l, (forall c, In c l -> (c <= r)%nat) -> forall s s', agree s s' -> agree (fold_left (chol_elem r) l s) (fold_left (chol_elem r) l s')).
  { induction l as [|c l IH]; intros H t t' Hs; [exact Hs|]. cbn [fold_left]. apply IH; [intros; apply H; now right|]. apply agree_elem; [apply H; now left|exact Hs]. }
  apply G. intros c Hc. apply in_seq in Hc. lia.
Qed.
Lemma agree_run l : forall s s', agree s s' -> agree (fold_left chol_row l s) (fold_left chol_row l s').
Proof. induction l as [|r l IH]; intros s s' H; [exact H|]. cbn [fold_left]. apply IH, agree_row, H. Qed.
Lemma lower_only A A' n : (forall i j, (j <= i)%nat -> A i j = A' i j) -> snd (cholesky A n) = snd (cholesky A' n).
Proof. intros H. apply (agree_run (seq 0 n) (A, true) (A', true)). split; [reflexivity|exact H]. Qed.
Lemma complete A n : symmetric n A -> positive_definite n A -> snd (cholesky A n) = true.
Proof.
  intros S P. destruct (cholesky A n) as [m [|]] eqn:E; [reflexivity|]. destruct (failure A n m false E S eq_refl P).
Qed.
Lemma identity_pd n : positive_definite n (fun r c => @delta R_field r c).
Proof.
  intros v (i & Hi & Vi). unfold quadratic_form. rewrite (rsum_ext n _ (fun k => v k * v k)).
  - destruct (rsum_sq n v) as [Z|P]; [destruct (Vi (Z i Hi))|exact P].
  - intros r Hr. rewrite (sum_single R_field n r (fun c => v r * @delta R_field r c * v c)); [|exact Hr|].
    + unfold delta. rewrite Nat.eqb_refl. unR. ring.
    + intros c Hc N. unfold delta. destruct (Nat.eqb_spec r c); [congruence|]. unR. ring.
Qed.
Definition skewed (x : R) : mtx R_field := fun r c => if ((r =? 0) && (c =? 1))%nat then x else @delta R_field r c.
Lemma skewed_accepted n x : snd (cholesky (skewed x) n) = true.
Proof.
  rewrite (lower_only _ (fun r c => @delta R_field r c)).
  - apply complete; [|apply identity_pd]. intros r c _ _. unfold delta. now rewrite Nat.eqb_sym.
  - intros i j H. unfold skewed. destruct (Nat.eqb_spec i 0), (Nat.eqb_spec j 1); try lia; reflexivity.
Qed.
Lemma skewed_not_pd n : (2 <= n)%nat -> ~ positive_definite n (skewed 4).
Proof.
  intros Hn P. set (v := fun i => if (i =? 0)%nat then 1 else if (i =? 1)%nat then -1 else 0 : R).
  assert (Q : 0 < quadratic_form n (skewed 4) v) by (apply P; exists 0%nat; split; [lia|unfold v; cbn; lra]).
  assert (Z : forall i, (2 <= i)%nat -> v i = 0) by (intros i Hi; unfold v; destruct (Nat.eqb_spec i 0), (Nat.eqb_spec i 1); try lia; reflexivity).
  assert (T : quadratic_form n (skewed 4) v = -2); [|lra].
  unfold quadratic_form. rewrite (rsum_trunc n 2); [|exact Hn|].
  - rewrite !rsum_S. rewrite !(rsum_trunc n 2) by (try exact Hn; intros b Hb; rewrite (Z b) by lia; lra). rewrite !rsum_S. unfold v, skewed, delta. cbn. unR. lra.
  - intros a Ha. apply rsum_zero. intros b Hb. rewrite (Z a) by lia. lra.
Qed.
