From Coq Require Import ZArith Bool Lia ZifyBool.
From Verif Require Import Mem LayoutModel.
Open Scope Z_scope.

Lemma rem_mod a b : 0 <= a -> 0 < b -> Z.rem a b = a mod b.
Proof. intros. apply Z.rem_mod_nonneg; lia. Qed.
Lemma quot_div a b : 0 <= a -> 0 < b -> Z.quot a b = a / b.
Proof. intros. apply Z.quot_div_nonneg; lia. Qed.

Lemma ix_range L r c rows cols : 0 <= r < rows -> 0 <= c < cols -> 0 <= ix L r c rows cols < rows * cols.
Proof. destruct L; cbn; nia. Qed.

Lemma euclid_inj b q r q' r' : 0 <= r < b -> 0 <= r' < b -> q * b + r = q' * b + r' -> q = q' /\ r = r'.
Proof.
  intros H H' E. assert (q = q') by nia. subst. split; [auto|lia].
Qed.

Lemma ix_inj L r c r' c' rows cols :
  0 <= r < rows -> 0 <= c < cols -> 0 <= r' < rows -> 0 <= c' < cols ->
  ix L r c rows cols = ix L r' c' rows cols -> r = r' /\ c = c'.
Proof.
  intros Hr Hc Hr' Hc' E. destruct L; cbn in E.
  - exact (euclid_inj cols _ _ _ _ Hc Hc' E).
  - destruct (euclid_inj rows _ _ _ _ Hr Hr' E). auto.
Qed.

Lemma ix_surj L k rows cols : 0 <= rows -> 0 <= k < rows * cols ->
  exists r c, 0 <= r < rows /\ 0 <= c < cols /\ ix L r c rows cols = k.
Proof.
  intros H0 H. assert (R : 0 < rows) by (destruct (Z.eq_dec rows 0); [subst; rewrite Z.mul_0_l in H; lia|lia]). assert (C : 0 < cols) by nia.
  destruct L; cbn.
  - exists (k / cols), (k mod cols). pose proof (Z.div_mod k cols ltac:(lia)). pose proof (Z.mod_pos_bound k cols ltac:(lia)).
    assert (0 <= k / cols) by (apply Z.div_pos; lia). assert (k / cols < rows) by (apply Z.div_lt_upper_bound; lia). lia.
  - exists (k mod rows), (k / rows). pose proof (Z.div_mod k rows ltac:(lia)). pose proof (Z.mod_pos_bound k rows ltac:(lia)).
    assert (0 <= k / rows) by (apply Z.div_pos; lia). assert (k / rows < cols) by (apply Z.div_lt_upper_bound; lia). lia.
Qed.

(** [offs] on [k*s + (m*minor + n)] *)
Lemma offs_pos major minor k a b : 0 < major -> 0 < minor -> 0 <= k -> 0 <= a < major -> 0 <= b < minor ->
  offs major minor (k * (major * minor) + (a * minor + b)) = Ok (k * (major * minor) + (b * major + a)).
Proof.
  intros HM Hm Hk Ha Hb. unfold offs. assert (0 < major * minor) by nia.
  replace (major * minor =? 0) with false by lia.
  assert (0 <= a * minor + b < major * minor) by nia.
  assert (0 <= k * (major * minor)) by (apply Z.mul_nonneg_nonneg; lia).
  rewrite (rem_mod (_ + _)), (quot_div (_ + _) (major * minor)) by lia.
  replace ((k * (major * minor) + (a * minor + b)) mod (major * minor)) with (a * minor + b)
    by (apply Z.mod_unique with k; lia).
  replace ((k * (major * minor) + (a * minor + b)) / (major * minor)) with k
    by (apply Z.div_unique with (a * minor + b); lia).
  rewrite rem_mod, quot_div by lia.
  replace ((a * minor + b) mod minor) with b by (apply Z.mod_unique with a; lia).
  replace ((a * minor + b) / minor) with a by (apply Z.div_unique with b; lia).
  f_equal. lia.
Qed.

Lemma offs_opp major minor i p : 0 < major -> 0 < minor -> offs major minor i = Ok p -> offs major minor (- i) = Ok (- p).
Proof.
  intros HM Hm. unfold offs. assert (0 < major * minor) by nia.
  replace (major * minor =? 0) with false by lia. intros E. injection E as <-. f_equal.
  repeat first [rewrite Z.rem_opp_l by nia | rewrite Z.quot_opp_l by nia]. ring.
Qed.

Lemma split3 major minor i : 0 < major -> 0 < minor -> 0 <= i ->
  exists k a b, 0 <= k /\ 0 <= a < major /\ 0 <= b < minor /\ i = k * (major * minor) + (a * minor + b).
Proof.
  intros HM Hm Hi. assert (0 < major * minor) by nia.
  pose proof (Z.div_mod i (major * minor) ltac:(lia)) as E. pose proof (Z.mod_pos_bound i (major * minor) ltac:(lia)) as B.
  assert (0 <= i / (major * minor)) by (apply Z.div_pos; lia).
  set (j := i mod (major * minor)) in *. set (k := i / (major * minor)) in *. clearbody j k.
  pose proof (Z.div_mod j minor ltac:(lia)). pose proof (Z.mod_pos_bound j minor ltac:(lia)).
  assert (0 <= j / minor) by (apply Z.div_pos; lia). assert (j / minor < major) by (apply Z.div_lt_upper_bound; lia).
  exists k, (j / minor), (j mod minor). lia.
Qed.

(** Transposing twice: [offs] with the axes exchanged inverts [offs]. *)
Lemma offs_inv major minor i : 0 < major -> 0 < minor ->
  exists p, offs major minor i = Ok p /\ offs minor major p = Ok i.
Proof.
  intros HM Hm.
  assert (P : forall i, 0 <= i -> exists p, offs major minor i = Ok p /\ offs minor major p = Ok i).
  { clear i. intros i Hi. destruct (split3 major minor i HM Hm Hi) as (k & a & b & Hk & Ha & Hb & ->).
    eexists. split; [apply offs_pos; auto|]. rewrite (Z.mul_comm major minor). apply offs_pos; auto. }
  destruct (Z_le_gt_dec 0 i) as [Hi|Hi]; [auto|].
  destruct (P (- i)) as (p & E1 & E2); [lia|]. exists (- p). split.
  - replace i with (- - i) by lia. now apply offs_opp.
  - replace i with (- - i) at 1 by lia. now apply offs_opp.
Qed.

Lemma t_dist_offs t u : t_dist t u = (let* o := offs (t_minor t) (t_major t) (t_p u) in Ok (o - t_i t)).
Proof.
  unfold t_dist, offs. rewrite (Z.mul_comm (t_minor t)). destruct (t_major t * t_minor t =? 0); reflexivity.
Qed.

Lemma t_new_ok major minor i : 0 < major -> 0 < minor ->
  exists t, t_new major minor i = Ok t /\ t_major t = major /\ t_minor t = minor /\ t_i t = i /\ offs minor major (t_p t) = Ok i.
Proof.
  intros HM Hm. destruct (offs_inv major minor i HM Hm) as (p & E1 & E2).
  unfold t_new. rewrite E1. cbn [bind]. eexists. split; [reflexivity|]. cbn. auto.
Qed.

(** Arithmetic of the transposing iterator. *)
Lemma t_arith major minor i n : 0 < major -> 0 < minor ->
  exists t u, t_new major minor i = Ok t /\ t_advance t n = Ok u /\ t_dist t u = Ok n /\ t_dist u t = Ok (- n) /\
    (t_equal t u = true <-> n = 0) /\
    (let* u := t_inc t in t_dec u) = Ok t.
Proof.
  intros HM Hm. destruct (t_new_ok major minor i HM Hm) as (t & Et & M1 & M2 & I & P).
  destruct (t_new_ok major minor (i + n) HM Hm) as (u & Eu & U1 & U2 & IU & PU).
  exists t, u. split; [auto|]. split; [unfold t_advance; rewrite M1, M2, I; auto|].
  rewrite !t_dist_offs, M1, M2, U1, U2, P, PU. cbn [bind]. rewrite I, IU.
  split; [f_equal; lia|]. split; [f_equal; lia|]. split.
  - unfold t_equal. split; intros H.
    + assert (t_p t = t_p u) by lia. rewrite H0 in P. rewrite P in PU. injection PU. lia.
    + subst n. replace (i + 0) with i in Eu by lia. rewrite Et in Eu. injection Eu as <-. lia.
  - unfold t_inc. rewrite M1, M2, I. destruct (t_new_ok major minor (i + 1) HM Hm) as (w & Ew & W1 & W2 & IW & _).
    rewrite Ew. cbn [bind]. unfold t_dec. rewrite W1, W2, IW. replace (i + 1 - 1) with i by lia. auto.
Qed.

Lemma offs_col major minor a b : 0 < major -> 0 < minor -> 0 <= a < major -> 0 <= b < minor ->
  offs major minor (a * minor + b) = Ok (b * major + a).
Proof. intros. pose proof (offs_pos major minor 0 a b). rewrite !Z.mul_0_l, !Z.add_0_l in H3. apply H3; lia. Qed.

(** Row [r] plus [j] steps is element (r, j); a row ends where the next begins. *)
Lemma row_it_ok L r j rows cols : 0 <= r < rows -> 0 <= j < cols ->
  exists m m', row_it L r rows cols = Ok m /\ m_advance m j = Ok m' /\ m_deref m' = ix L r j rows cols /\ m_dist m m' = Ok j.
Proof.
  intros Hr Hj. destruct L; cbn [row_it ix].
  - do 2 eexists. split; [reflexivity|]. cbn. split; [reflexivity|]. split; [reflexivity|]. f_equal. lia.
  - destruct (t_arith rows cols (r * cols) j) as (t & u & Et & Eu & D & _); [lia|lia|].
    rewrite Et. cbn [bind]. exists (Tr t), (Tr u). split; [reflexivity|]. cbn [m_advance m_deref m_dist]. rewrite Eu.
    split; [reflexivity|]. split; [|auto].
    unfold t_advance in Eu. unfold t_new in Et. rewrite <- (Z.add_0_r (r * cols)) in Et. rewrite offs_col in Et by lia.
    injection Et as <-. cbn in Eu. unfold t_new in Eu. rewrite Z.add_0_r in Eu. rewrite offs_col in Eu by lia. injection Eu as <-. reflexivity.
Qed.
Lemma col_it_ok L i c rows cols : 0 <= i < rows -> 0 <= c < cols ->
  exists m m', col_it L c rows cols = Ok m /\ m_advance m i = Ok m' /\ m_deref m' = ix L i c rows cols /\ m_dist m m' = Ok i.
Proof.
  intros Hr Hj. destruct L; cbn [col_it ix].
  - destruct (t_arith cols rows (c * rows) i) as (t & u & Et & Eu & D & _); [lia|lia|].
    rewrite Et. cbn [bind]. exists (Tr t), (Tr u). split; [reflexivity|]. cbn [m_advance m_deref m_dist]. rewrite Eu.
    split; [reflexivity|]. split; [|auto].
    unfold t_advance in Eu. unfold t_new in Et. rewrite <- (Z.add_0_r (c * rows)) in Et. rewrite offs_col in Et by lia.
    injection Et as <-. cbn in Eu. unfold t_new in Eu. rewrite Z.add_0_r in Eu. rewrite offs_col in Eu by lia. injection Eu as <-. reflexivity.
  - do 2 eexists. split; [reflexivity|]. cbn. split; [reflexivity|]. split; [reflexivity|]. f_equal. lia.
Qed.

Lemma row_it_next L r rows cols : 0 < rows -> 0 < cols -> 
  exists m m', row_it L r rows cols = Ok m /\ row_it L (r + 1) rows cols = Ok m' /\ m_advance m cols = Ok m'.
Proof.
  intros HR HC. destruct L; cbn [row_it].
  - do 2 eexists. split; [reflexivity|]. split; [reflexivity|]. cbn. do 2 f_equal. lia.
  - destruct (t_arith rows cols (r * cols) cols) as (t & u & Et & Eu & _); auto.
    destruct (t_new_ok rows cols (r * cols) HR HC) as (t' & Et' & M1 & M2 & I & _). rewrite Et in Et'. injection Et' as <-.
    rewrite Et. cbn [bind]. exists (Tr t), (Tr u). split; [auto|]. cbn [m_advance]. rewrite Eu. cbn [bind]. split; [|auto].
    unfold t_advance in Eu. rewrite M1, M2, I in Eu. replace (r * cols + cols) with ((r + 1) * cols) in Eu by ring. now rewrite Eu.
Qed.
Lemma col_it_next L c rows cols : 0 < rows -> 0 < cols -> 
  exists m m', col_it L c rows cols = Ok m /\ col_it L (c + 1) rows cols = Ok m' /\ m_advance m rows = Ok m'.
Proof.
  intros HR HC. destruct L; cbn [col_it].
  - destruct (t_arith cols rows (c * rows) rows) as (t & u & Et & Eu & _); auto.
    destruct (t_new_ok cols rows (c * rows) HC HR) as (t' & Et' & M1 & M2 & I & _). rewrite Et in Et'. injection Et' as <-.
    rewrite Et. cbn [bind]. exists (Tr t), (Tr u). split; [auto|]. cbn [m_advance]. rewrite Eu. cbn [bind]. split; [|auto].
    unfold t_advance in Eu. rewrite M1, M2, I in Eu. replace (c * rows + rows) with ((c + 1) * rows) in Eu by ring. now rewrite Eu.
  - do 2 eexists. split; [reflexivity|]. split; [reflexivity|]. cbn. do 2 f_equal. lia.
Qed.
