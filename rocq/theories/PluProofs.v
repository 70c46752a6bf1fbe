From Coq Require Import Arith Lia List Bool Field Ring.
From Verif Require Import Fld FldLemmas LinSpec PermModel PermSpec PermProofs PermCycleProofs PermSignProofs PluModel.
Import ListNotations.
Open Scope nat_scope.

Section Plu.
Variable K : field.
Add Field KF : (fth K).
Variable bigger : K -> K -> bool.
Local Open Scope fld_scope.
Implicit Types m M : mtx K.

Lemma upd2_same m r c x : upd2 m r c x r c = x.
Proof. unfold upd2. now rewrite !Nat.eqb_refl. Qed.
Lemma upd2_row m r c x r' c' : r' <> r -> upd2 m r c x r' c' = m r' c'.
Proof. intros N. unfold upd2. destruct (Nat.eqb_spec r' r); [contradiction|reflexivity]. Qed.
Lemma upd2_col m r c x r' c' : c' <> c -> upd2 m r c x r' c' = m r' c'.
Proof. intros N. unfold upd2. destruct (Nat.eqb_spec c' c); [contradiction|]. now rewrite andb_false_r. Qed.

(** ** The loops *)
Lemma row_swap_spec cols m a b r c :
  row_swap cols m a b r c = if (c <? cols)%nat then m (if (r =? b)%nat then a else if (r =? a)%nat then b else r) c else m r c.
Proof.
  unfold row_swap. revert r c. induction cols as [|n IH]; intros r c; [reflexivity|]. rewrite seq_S, fold_left_app. cbn [fold_left Nat.add].
  set (m1 := fold_left _ (seq 0 n) m : mtx K) in *. destruct (Nat.eq_dec c n) as [->|N].
  - replace (n <? S n)%nat with true by (symmetry; apply Nat.ltb_lt; lia).
    assert (E : forall r, m1 r n = m r n) by (intros r'; rewrite IH, Nat.ltb_irrefl; reflexivity).
    destruct (Nat.eqb_spec r b) as [->|Nb]; [rewrite upd2_same; apply E|]. rewrite upd2_row by auto.
    destruct (Nat.eqb_spec r a) as [->|Na]; [rewrite upd2_same; apply E|]. rewrite upd2_row by auto. apply E.
  - rewrite !upd2_col by auto. rewrite IH. destruct (Nat.ltb_spec c n), (Nat.ltb_spec c (S n)); try lia; reflexivity.
Qed.
Lemma col_swap_spec rows m a b r c :
  col_swap rows m a b r c = if (r <? rows)%nat then m r (if (c =? b)%nat then a else if (c =? a)%nat then b else c) else m r c.
Proof.
  unfold col_swap. revert r c. induction rows as [|n IH]; intros r c; [reflexivity|]. rewrite seq_S, fold_left_app. cbn [fold_left Nat.add].
  set (m1 := fold_left _ (seq 0 n) m : mtx K) in *. destruct (Nat.eq_dec r n) as [->|N].
  - replace (n <? S n)%nat with true by (symmetry; apply Nat.ltb_lt; lia).
    assert (E : forall c, m1 n c = m n c) by (intros c'; rewrite IH, Nat.ltb_irrefl; reflexivity).
    destruct (Nat.eqb_spec c b) as [->|Nb]; [rewrite upd2_same; apply E|]. rewrite upd2_col by auto.
    destruct (Nat.eqb_spec c a) as [->|Na]; [rewrite upd2_same; apply E|]. rewrite upd2_col by auto. apply E.
  - rewrite !upd2_row by auto. rewrite IH. destruct (Nat.ltb_spec r n), (Nat.ltb_spec r (S n)); try lia; reflexivity.
Qed.

Lemma elim_inner m r i b : r <> i -> forall k c0 r' c, 
  fold_left (fun (m : mtx K) c => upd2 m r c ((- b) * m i c + m r c)) (seq c0 k) m r' c =
  if ((r' =? r) && (c0 <=? c) && (c <? c0 + k))%nat then m r c - b * m i c else m r' c.
Proof.
  intros N k c0. induction k as [|k IH]; intros r' c.
  - cbn [seq fold_left]. destruct (r' =? r), (Nat.leb_spec c0 c), (Nat.ltb_spec c (c0 + 0)); try reflexivity; lia.
  - rewrite seq_S, fold_left_app. cbn [fold_left]. destruct (Nat.eq_dec r' r) as [->|Nr].
    + rewrite Nat.eqb_refl. destruct (Nat.eq_dec c (c0 + k)) as [->|Nc].
      * rewrite upd2_same, !IH, Nat.eqb_refl. destruct (Nat.eqb_spec i r); [congruence|].
        destruct (Nat.leb_spec c0 (c0 + k)), (Nat.ltb_spec (c0 + k) (c0 + k)), (Nat.ltb_spec (c0 + k) (c0 + S k)); try lia. cbn [andb]. ring.
      * rewrite upd2_col by auto. rewrite IH, Nat.eqb_refl.
        destruct (Nat.leb_spec c0 c), (Nat.ltb_spec c (c0 + k)), (Nat.ltb_spec c (c0 + S k)); try lia; reflexivity.
    + rewrite upd2_row by auto. rewrite IH. destruct (Nat.eqb_spec r' r); [contradiction|reflexivity].
Qed.
Lemma elim_row_spec cols i a m r r' c : r <> i ->
  elim_row cols i a m r r' c =
  if (r' =? r)%nat then (if (c =? i)%nat then m r i / a else if ((i <? c) && (c <? cols))%nat then m r c - m r i / a * m i c else m r c) else m r' c.
Proof.
  intros N. unfold elim_row. destruct (Nat.eqb_spec r' r) as [->|Nr]; [|].
  - destruct (Nat.eqb_spec c i) as [->|Nc]; [apply upd2_same|]. rewrite upd2_col by auto.
    destruct (feq_dec (m r i / a) 0) as [E|E].
    + rewrite E. destruct (_ && _); [ring|reflexivity].
    + rewrite elim_inner by auto. rewrite Nat.eqb_refl. cbn [andb].
      destruct (Nat.leb_spec (S i) c), (Nat.ltb_spec c (S i + (cols - S i))), (Nat.ltb_spec i c), (Nat.ltb_spec c cols); try lia; reflexivity.
  - rewrite upd2_row by auto. destruct (feq_dec (m r i / a) 0) as [E|E]; [reflexivity|]. rewrite elim_inner by auto.
    destruct (Nat.eqb_spec r' r); [contradiction|reflexivity].
Qed.
Lemma eliminate_spec rows cols i m r c :
  eliminate rows cols i m r c =
  if ((i <? r) && (r <? rows))%nat then
    (if (c =? i)%nat then m r i / m i i else if ((i <? c) && (c <? cols))%nat then m r c - m r i / m i i * m i c else m r c)
  else m r c.
Proof.
  unfold eliminate. set (a := m i i).
  assert (G : forall k r c, fold_left (elim_row cols i a) (seq (S i) k) m r c =
    if ((i <? r) && (r <? S i + k))%nat then
      (if (c =? i)%nat then m r i / a else if ((i <? c) && (c <? cols))%nat then m r c - m r i / a * m i c else m r c)
    else m r c).
  { induction k as [|k IH]; intros r' c'.
    - cbn [seq fold_left]. destruct (Nat.ltb_spec i r'), (Nat.ltb_spec r' (S i + 0)); try lia; reflexivity.
    - rewrite seq_S, fold_left_app. cbn [fold_left]. rewrite elim_row_spec by lia. rewrite !IH.
      replace (i <? i)%nat with false by (symmetry; apply Nat.ltb_irrefl). cbn [andb].
      replace (S i + k <? S i + k)%nat with false by (symmetry; apply Nat.ltb_irrefl). rewrite andb_false_r.
      destruct (Nat.eqb_spec r' (S i + k)) as [->|N].
      + replace (i <? S i + k)%nat with true by (symmetry; apply Nat.ltb_lt; lia).
        replace (S i + k <? S i + S k)%nat with true by (symmetry; apply Nat.ltb_lt; lia). reflexivity.
      + destruct (Nat.ltb_spec i r'), (Nat.ltb_spec r' (S i + k)), (Nat.ltb_spec r' (S i + S k)); try lia; reflexivity. }
  rewrite G. destruct (Nat.ltb_spec i r), (Nat.ltb_spec r (S i + (rows - S i))), (Nat.ltb_spec r rows); try lia; reflexivity.
Qed.

(** A scan for the greatest magnitude of [v] from [i]. *)
Definition scan (v : nat -> K) (i k : nat) : nat :=
  fold_left (fun pvt p => if bigger (v p) (v pvt) then p else pvt) (seq (S i) k) i.
Lemma scan_range v i k : (i <= scan v i k <= i + k)%nat.
Proof.
  unfold scan. induction k as [|k IH]; [cbn; lia|]. rewrite seq_S, fold_left_app. cbn [fold_left]. destruct bigger; lia.
Qed.
Lemma scan_zero v i k : sane_order bigger -> v (scan v i k) = 0 -> forall p, (i <= p <= i + k)%nat -> v p = 0.
Proof.
  intros [L1 L2]. unfold scan. induction k as [|k IH]; intros Z p Hp; [cbn in Z; replace p with i by lia; exact Z|].
  rewrite seq_S, fold_left_app in Z. cbn [fold_left] in Z. set (q := fold_left _ _ _) in *.
  destruct (bigger (v (S i + k)%nat) (v q)) eqn:B.
  - rewrite Z, L2 in B. discriminate.
  - specialize (IH Z). destruct (Nat.eq_dec p (i + S k)) as [->|]; [|apply IH; lia].
    destruct (feq_dec (v (i + S k)%nat) 0) as [E|E]; [exact E|]. rewrite Z in B. replace (S i + k)%nat with (i + S k)%nat in B by lia. rewrite L1 in B by exact E. discriminate.
Qed.
Lemma find_pivot_range rows m i : (i < rows)%nat -> (i <= find_pivot bigger rows m i < rows)%nat.
Proof. intros H. pose proof (scan_range (fun p => m p i) i (rows - S i)) as R. change (scan (fun p => m p i) i (rows - S i)) with (find_pivot bigger rows m i) in R. lia. Qed.
Lemma find_pivot_zero rows m i : sane_order bigger -> (i < rows)%nat -> m (find_pivot bigger rows m i) i = 0 -> forall r, (i <= r < rows)%nat -> m r i = 0.
Proof. intros S H Z r Hr. apply (scan_zero (fun p => m p i) i (rows - Datatypes.S i) S Z). lia. Qed.
Lemma find_pivot_col_range cols m i : (i < cols)%nat -> (i <= find_pivot_col bigger cols m i < cols)%nat.
Proof. intros H. pose proof (scan_range (fun p => m i p) i (cols - S i)) as R. change (scan (fun p => m i p) i (cols - S i)) with (find_pivot_col bigger cols m i) in R. lia. Qed.
Lemma find_pivot_col_zero cols m i : sane_order bigger -> (i < cols)%nat -> m i (find_pivot_col bigger cols m i) = 0 -> forall c, (i <= c < cols)%nat -> m i c = 0.
Proof. intros S H Z r Hr. apply (scan_zero (fun p => m i p) i (cols - Datatypes.S i) S Z). lia. Qed.

(** ** The elimination invariant *)
(** Upper part after [i] columns have been cleared. *)
Definition part (i : nat) m : mtx K := fun r c => if ((c <? r) && (c <? i))%nat then 0 else m r c.
(** The matrix represented by the working array after [i] steps. *)
Definition rep (i : nat) m : mtx K := fun r c => sum i (fun k => if (k <? r)%nat then m r k * part i m k c else 0) + part i m r c.

Lemma part_low i m k c : (k < i)%nat -> part i m k c = upper_of m k c.
Proof. intros H. unfold part, upper_of. destruct (Nat.ltb_spec c k), (Nat.ltb_spec c i); try lia; reflexivity. Qed.
Lemma rep_0 m r c : rep 0 m r c = m r c.
Proof. unfold rep, part. cbn [sum]. replace (c <? 0)%nat with false by (symmetry; apply Nat.ltb_ge; lia). rewrite andb_false_r. ring. Qed.
Lemma rep_ext i m m' r c : (forall k c', (k < i)%nat -> m k c' = m' k c') -> (forall c', m r c' = m' r c') -> rep i m r c = rep i m' r c.
Proof.
  intros H1 H2. unfold rep. f_equal; [|unfold part; destruct (_ && _); auto]. apply sum_ext. intros k Hk.
  destruct (k <? r)%nat; [|reflexivity]. rewrite H2, !part_low by auto. unfold upper_of. rewrite H1 by auto. reflexivity.
Qed.
Lemma rep_row_swap cols i pvt m r c : (i < pvt)%nat -> (i < cols)%nat -> (c < cols)%nat ->
  rep i (row_swap cols m i pvt) r c = rep i m (if (r =? pvt)%nat then i else if (r =? i)%nat then pvt else r) c.
Proof.
  intros H Hi Hc. unfold rep.
  assert (U : forall k, (k < i)%nat -> part i (row_swap cols m i pvt) k c = part i m k c).
  { intros k Hk. unfold part. rewrite row_swap_spec. destruct (Nat.eqb_spec k pvt), (Nat.eqb_spec k i); try lia. destruct (c <? cols)%nat; reflexivity. }
  destruct (Nat.eqb_spec r pvt) as [->|N1]; [|destruct (Nat.eqb_spec r i) as [->|N2]].
  - f_equal.
    + apply sum_ext. intros k Hk. rewrite U by auto. rewrite row_swap_spec, Nat.eqb_refl.
      destruct (Nat.ltb_spec k pvt), (Nat.ltb_spec k i), (Nat.ltb_spec k cols); try lia; reflexivity.
    + unfold part. rewrite row_swap_spec, Nat.eqb_refl. destruct (Nat.ltb_spec c pvt), (Nat.ltb_spec c i), (Nat.ltb_spec c cols); try lia; reflexivity.
  - f_equal.
    + apply sum_ext. intros k Hk. rewrite U by auto. rewrite row_swap_spec, Nat.eqb_refl. destruct (Nat.eqb_spec i pvt); [lia|].
      destruct (Nat.ltb_spec k pvt), (Nat.ltb_spec k i), (Nat.ltb_spec k cols); try lia; reflexivity.
    + unfold part. rewrite row_swap_spec, Nat.eqb_refl. destruct (Nat.eqb_spec i pvt); [lia|].
      destruct (Nat.ltb_spec c pvt), (Nat.ltb_spec c i), (Nat.ltb_spec c cols); try lia; reflexivity.
  - f_equal.
    + apply sum_ext. intros k Hk. rewrite U by auto. rewrite row_swap_spec. destruct (Nat.eqb_spec r pvt), (Nat.eqb_spec r i); try lia.
      destruct (k <? cols)%nat; reflexivity.
    + unfold part. rewrite row_swap_spec. destruct (Nat.eqb_spec r pvt), (Nat.eqb_spec r i); try lia. destruct (c <? cols)%nat; reflexivity.
Qed.
Lemma rep_col_swap rows i pvt m r c : (i < pvt)%nat -> (i < rows)%nat -> (r < rows)%nat ->
  rep i (col_swap rows m i pvt) r c = rep i m r (if (c =? pvt)%nat then i else if (c =? i)%nat then pvt else c).
Proof.
  intros H Hi Hr. unfold rep.
  assert (U : forall k, (k < rows)%nat -> (k < i)%nat \/ k = r -> part i (col_swap rows m i pvt) k c = part i m k (if (c =? pvt)%nat then i else if (c =? i)%nat then pvt else c)).
  { intros k Hk _. unfold part. rewrite col_swap_spec. replace (k <? rows)%nat with true by (symmetry; apply Nat.ltb_lt; lia).
    destruct (Nat.eqb_spec c pvt) as [->|]; [|destruct (Nat.eqb_spec c i) as [->|]; [|reflexivity]];
      destruct (Nat.ltb_spec pvt k), (Nat.ltb_spec pvt i), (Nat.ltb_spec i k), (Nat.ltb_spec i i); try lia; reflexivity. }
  f_equal; [|apply U; [lia|now right]]. apply sum_ext. intros k Hk. destruct (Nat.ltb_spec k r); [|reflexivity]. rewrite U by (lia || now left). f_equal.
  rewrite col_swap_spec. destruct (Nat.eqb_spec k pvt), (Nat.eqb_spec k i); try lia. destruct (r <? rows)%nat; reflexivity.
Qed.
Lemma rep_eliminate rows cols i m r c : m i i <> 0 -> (r < rows)%nat -> (c < cols)%nat ->
  rep (S i) (eliminate rows cols i m) r c = rep i m r c.
Proof.
  intros Ha Hr Hc. unfold rep. cbn [sum]. set (m' := eliminate rows cols i m).
  assert (E0 : forall k c, (k <= i)%nat -> m' k c = m k c).
  { intros k c' Hk. unfold m'. rewrite eliminate_spec. destruct (Nat.ltb_spec i k); [lia|reflexivity]. }
  assert (E1 : sum i (fun k => if (k <? r)%nat then m' r k * part (S i) m' k c else 0) = sum i (fun k => if (k <? r)%nat then m r k * part i m k c else 0)).
  { apply sum_ext. intros k Hk. destruct (Nat.ltb_spec k r); [|reflexivity]. rewrite !part_low by lia. unfold upper_of. rewrite (E0 k c) by lia. f_equal.
    unfold m'. rewrite eliminate_spec. destruct (Nat.eqb_spec k i), (Nat.ltb_spec i k); try lia. cbn [andb]. destruct (_ && _); reflexivity. }
  rewrite E1. destruct (Nat.ltb_spec i r) as [L|L].
  - (* a row below the pivot *)
    rewrite part_low by lia. unfold upper_of. rewrite (E0 i c) by lia.
    assert (Eb : m' r i = m r i / m i i).
    { unfold m'. rewrite eliminate_spec. destruct (Nat.ltb_spec i r), (Nat.ltb_spec r rows); try lia. cbn [andb]. now rewrite Nat.eqb_refl. }
    rewrite Eb. unfold part. destruct (Nat.lt_trichotomy c i) as [C|[->|C]].
    + destruct (Nat.ltb_spec c i), (Nat.ltb_spec c r), (Nat.ltb_spec c (S i)); try lia. cbn [andb]. ring.
    + destruct (Nat.ltb_spec i i), (Nat.ltb_spec i r), (Nat.ltb_spec i (S i)); try lia. cbn [andb]. field. exact Ha.
    + destruct (Nat.ltb_spec c i), (Nat.ltb_spec c (S i)); try lia. rewrite !andb_false_r.
      unfold m'. rewrite eliminate_spec. destruct (Nat.ltb_spec i r), (Nat.ltb_spec r rows), (Nat.eqb_spec c i), (Nat.ltb_spec i c), (Nat.ltb_spec c cols); try lia.
      cbn [andb]. ring.
  - replace (part (S i) m' r c) with (part i m r c); [ring|]. unfold part. rewrite E0 by lia.
    destruct (Nat.ltb_spec c r), (Nat.ltb_spec c i), (Nat.ltb_spec c (S i)); try lia; reflexivity.
Qed.
Lemma rep_degenerate rows i m r c : (forall r, (i <= r < rows)%nat -> m r i = 0) -> (r < rows)%nat ->
  rep (S i) m r c = rep i m r c.
Proof.
  intros Z Hr. unfold rep. cbn [sum].
  assert (E1 : sum i (fun k => if (k <? r)%nat then m r k * part (S i) m k c else 0) = sum i (fun k => if (k <? r)%nat then m r k * part i m k c else 0)).
  { apply sum_ext. intros k Hk. destruct (k <? r)%nat; [|reflexivity]. rewrite !part_low by lia. reflexivity. }
  rewrite E1. set (s := sum i _). clearbody s. clear E1. unfold part. destruct (Nat.ltb_spec i r).
  - rewrite (Z r) by lia. destruct (Nat.eq_dec c i) as [->|N].
    + rewrite (Z r) by lia. destruct (i <? r)%nat, (i <? S i)%nat, (i <? i)%nat; cbn [andb]; ring.
    + destruct (Nat.ltb_spec c i), (Nat.ltb_spec c (S i)); try lia; ring.
  - destruct (Nat.ltb_spec c r), (Nat.ltb_spec c i), (Nat.ltb_spec c (S i)); try lia; cbn [andb]; ring.
Qed.
(** At the end, the representation is the product of the packed factors. *)
Lemma rep_final rows cols m r c : (0 < rows)%nat -> (rows <= cols)%nat -> (r < rows)%nat -> (c < cols)%nat ->
  rep (rows - 1) m r c = mmul rows (lower_of m) (upper_of m) r c.
Proof.
  intros Hp Hrc Hr Hc. unfold rep, mmul.
  rewrite (sum_trunc K rows (S r)); [|lia|].
  - cbn [sum]. replace (lower_of m r r) with (1 : K) by (unfold lower_of; now rewrite Nat.ltb_irrefl, Nat.eqb_refl).
    replace (part (rows - 1) m r c) with (upper_of m r c); [|unfold part, upper_of; destruct (Nat.ltb_spec c r), (Nat.ltb_spec c (rows - 1)); try lia; reflexivity].
    rewrite (sum_trunc K (rows - 1) r); [|lia|].
    + rewrite (sum_ext K r _ (fun j => lower_of m r j * upper_of m j c)); [ring|]. intros k Hk.
      replace (k <? r)%nat with true by (symmetry; apply Nat.ltb_lt; lia). rewrite part_low by lia. unfold lower_of.
      replace (k <? r)%nat with true by (symmetry; apply Nat.ltb_lt; lia). reflexivity.
    + intros k Hk. destruct (Nat.ltb_spec k r); [lia|reflexivity].
  - intros k Hk. unfold lower_of. destruct (Nat.ltb_spec k r), (Nat.eqb_spec k r); try lia. ring.
Qed.

(** ** decomp_plu *)
(** When there are more rows than columns the rows below the square part are left undivided in the last column. *)
Lemma rep_final_tall cols m r c : (0 < cols)%nat -> (c < cols)%nat ->
  mmul cols (lower_of m) (upper_of m) r c =
  rep (cols - 1) m r c + (if ((cols <=? r) && (c =? cols - 1))%nat then m r c * (m c c - 1) else 0).
Proof.
  intros Hp Hc. destruct (Nat.leb_spec cols r) as [H|H]; cbn [andb].
  - unfold rep, mmul. replace cols with (S (cols - 1)) at 1 by lia. cbn [sum].
    rewrite (sum_ext K (cols - 1) (fun j => lower_of m r j * upper_of m j c) (fun k => if (k <? r)%nat then m r k * part (cols - 1) m k c else 0)).
    + unfold lower_of, upper_of, part. replace (cols - 1 <? r)%nat with true by (symmetry; apply Nat.ltb_lt; lia).
      replace (c <? r)%nat with true by (symmetry; apply Nat.ltb_lt; lia). cbn [andb].
      destruct (Nat.ltb_spec c (cols - 1)), (Nat.eqb_spec c (cols - 1)); try lia; [ring|]. replace (cols - 1)%nat with c by lia. ring.
    + intros k Hk. unfold lower_of. replace (k <? r)%nat with true by (symmetry; apply Nat.ltb_lt; lia). now rewrite part_low by lia.
  - rewrite (rep_final cols cols) by lia. ring.
Qed.
Section Run.
Variables (M : mtx K) (rows cols : nat).
Hypothesis O : sane_order bigger.

Definition plu_inv (i : nat) (s : plu_state K) : Prop :=
  (forall r c, (r < rows)%nat -> (c < cols)%nat -> rep i (pm s) r c = M (pr s r) c) /\
  (exists k, by_swaps rows k (pr s) /\ pp s = Nat.odd k) /\
  (pd s = 0%nat -> forall k, (k < i)%nat -> pm s k k <> 0).

Lemma plu_init : plu_inv 0 (mkPlu M (fun i => i) false 0).
Proof.
  split; [|split]; cbn [pm pr pp pd].
  - intros r c _ _. apply rep_0.
  - exists 0%nat. split; [|reflexivity]. constructor. intros i _. reflexivity.
  - intros _ k Hk. lia.
Qed.
Lemma plu_step_cases i s : (i < rows)%nat -> (i < cols)%nat -> plu_inv i s ->
  (pd (plu_step bigger rows cols s i) = pd s + 1 /\ pm (plu_step bigger rows cols s i) = pm s /\ pr (plu_step bigger rows cols s i) = pr s /\
   forall r, (i <= r < rows)%nat -> pm s r i = 0%F)%nat \/
  (pd (plu_step bigger rows cols s i) = pd s /\ exists r, (i <= r < rows)%nat /\ pm s r i <> 0).
Proof.
  intros Hi Hj I. unfold plu_step. destruct (feq_dec _ 0) as [Z|Z]; cbn [pd pm pr].
  - left. split; [reflexivity|]. split; [reflexivity|]. split; [reflexivity|]. apply (find_pivot_zero rows (pm s) i O Hi Z).
  - right. split; [destruct (_ =? i)%nat; reflexivity|]. exists (find_pivot bigger rows (pm s) i). split; [now apply find_pivot_range|exact Z].
Qed.
Lemma plu_step_ok i s : (i < rows)%nat -> (i < cols)%nat -> plu_inv i s -> plu_inv (S i) (plu_step bigger rows cols s i).
Proof.
  intros Hi Hj (I1 & (k & I2 & I3) & I4). unfold plu_step. pose proof (find_pivot_range rows (pm s) i Hi) as R.
  set (pvt := find_pivot bigger rows (pm s) i) in *. destruct (feq_dec (pm s pvt i) 0) as [Z|Z].
  - pose proof (find_pivot_zero rows (pm s) i O Hi Z) as Zc. split; [|split]; cbn [pm pr pp pd].
    + intros r c Hr Hc. rewrite (rep_degenerate rows) by auto. auto.
    + exists k. auto.
    + intros E. lia.
  - destruct (Nat.eqb_spec pvt i) as [E|N].
    + rewrite E in Z. split; [|split]; cbn [pm pr pp pd].
      * intros r c Hr Hc. rewrite rep_eliminate by auto. auto.
      * exists k. auto.
      * intros E0 j Hj'. rewrite eliminate_spec. destruct (Nat.ltb_spec i j); [lia|]. cbn [andb].
        destruct (Nat.eq_dec j i) as [->|]; [exact Z|]. apply I4; [exact E0|lia].
    + split; [|split]; cbn [pm pr pp pd].
      * intros r c Hr Hc. rewrite rep_eliminate; auto.
        -- rewrite rep_row_swap by lia. destruct (Nat.eqb_spec r pvt) as [->|N1]; [|destruct (Nat.eqb_spec r i) as [->|N2]].
           ++ rewrite I1 by auto. now rewrite swap_r.
           ++ rewrite I1 by lia. now rewrite swap_l.
           ++ rewrite I1 by auto. now rewrite swap_other by auto.
        -- rewrite row_swap_spec. destruct (Nat.ltb_spec i cols), (Nat.eqb_spec i pvt); try lia. now rewrite Nat.eqb_refl.
      * exists (S k). split.
        -- apply (bs_swap rows k (pr s) _ i pvt); auto; [lia|]. intros x _. apply swap_eq. auto.
        -- rewrite I3, Nat.odd_succ. apply Nat.negb_odd.
      * intros E0 j Hj'. rewrite eliminate_spec. destruct (Nat.ltb_spec i j); [lia|]. cbn [andb]. rewrite row_swap_spec.
        destruct (Nat.ltb_spec j cols), (Nat.eqb_spec j pvt), (Nat.eqb_spec j i); try lia; [subst; exact Z|]. apply I4; [exact E0|lia].
Qed.
Lemma plu_run i : (i <= Nat.min rows cols)%nat ->
  plu_inv i (fold_left (plu_step bigger rows cols) (seq 0 i) (mkPlu M (fun i => i) false 0)).
Proof.
  induction i as [|i IH]; intros H; [apply plu_init|]. rewrite seq_S, fold_left_app. cbn [fold_left Nat.add]. apply plu_step_ok; [lia|lia|]. apply IH. lia.
Qed.
Lemma decomp_plu_inv : plu_inv (Nat.min rows cols - 1) (decomp_plu bigger M rows cols).
Proof. apply plu_run. lia. Qed.
Lemma decomp_plu_ok : (rows <= cols)%nat -> let d := decomp_plu bigger M rows cols in
  (forall r c, (r < rows)%nat -> (c < cols)%nat -> mmul rows (lower_of (pm d)) (upper_of (pm d)) r c = M (pr d r) c) /\
  exists k, by_swaps rows k (pr d) /\ pp d = Nat.odd k.
Proof.
  intros H d. destruct decomp_plu_inv as (I1 & I2 & _). fold d in I1, I2. split; [|exact I2]. intros r c Hr Hc. rewrite <- I1 by auto.
  replace (Nat.min rows cols - 1)%nat with (rows - 1)%nat by lia. symmetry. apply (rep_final rows cols); lia.
Qed.

Lemma decomp_plu_tall r c : (0 < cols <= rows)%nat -> (r < rows)%nat -> (c < cols)%nat -> let d := decomp_plu bigger M rows cols in
  mmul cols (lower_of (pm d)) (upper_of (pm d)) r c =
  M (pr d r) c + (if ((cols <=? r) && (c =? cols - 1))%nat then pm d r c * (pm d c c - 1) else 0).
Proof.
  intros H Hr Hc d. destruct decomp_plu_inv as (I1 & _). fold d in I1. rewrite rep_final_tall, <- I1 by lia. 
  replace (Nat.min rows cols - 1)%nat with (cols - 1)%nat by lia. reflexivity.
Qed.

(** decomp_lup; a degenerate row is not cleared, so nothing is said once one was met. *)
Definition lup_inv (i : nat) (s : plu_state K) : Prop :=
  (pd s = 0%nat -> forall r c, (r < rows)%nat -> (c < cols)%nat -> rep i (pm s) r c = M r (pr s c)) /\
  (exists k, by_swaps cols k (pr s) /\ pp s = Nat.odd k).
Lemma lup_step_ok i s : (i < rows)%nat -> (i < cols)%nat -> lup_inv i s -> lup_inv (S i) (lup_step bigger rows cols s i).
Proof.
  intros Hi Hj (I1 & (k & I2 & I3)). unfold lup_step. pose proof (find_pivot_col_range cols (pm s) i Hj) as R.
  set (pvt := find_pivot_col bigger cols (pm s) i) in *. destruct (feq_dec (pm s i pvt) 0) as [Z|Z].
  - split; cbn [pm pr pp pd]; [lia|exists k; auto].
  - destruct (Nat.eqb_spec pvt i) as [E|N].
    + rewrite E in Z. split; cbn [pm pr pp pd]; [|exists k; auto]. intros E0 r c Hr Hc. rewrite rep_eliminate by auto. auto.
    + split; cbn [pm pr pp pd].
      * intros E0 r c Hr Hc. rewrite rep_eliminate; auto.
        -- rewrite rep_col_swap by lia. destruct (Nat.eqb_spec c pvt) as [->|N1]; [|destruct (Nat.eqb_spec c i) as [->|N2]].
           ++ rewrite I1 by auto. now rewrite swap_r.
           ++ rewrite I1 by (lia || auto). now rewrite swap_l.
           ++ rewrite I1 by auto. now rewrite swap_other by auto.
        -- rewrite col_swap_spec. destruct (Nat.ltb_spec i rows), (Nat.eqb_spec i pvt); try lia. now rewrite Nat.eqb_refl.
      * exists (S k). split.
        -- apply (bs_swap cols k (pr s) _ i pvt); auto; [lia|]. intros x _. apply swap_eq. auto.
        -- rewrite I3, Nat.odd_succ. apply Nat.negb_odd.
Qed.
Lemma lup_run i : (i <= Nat.min rows cols)%nat ->
  lup_inv i (fold_left (lup_step bigger rows cols) (seq 0 i) (mkPlu M (fun i => i) false 0)).
Proof.
  induction i as [|i IH]; intros H.
  - split; cbn [fold_left seq pm pr pp pd]; [intros _ r c _ _; apply rep_0|]. exists 0%nat. split; [|reflexivity]. constructor. intros i _. reflexivity.
  - rewrite seq_S, fold_left_app. cbn [fold_left Nat.add]. apply lup_step_ok; [lia|lia|]. apply IH. lia.
Qed.
Lemma decomp_lup_ok : (rows <= cols)%nat -> let d := decomp_lup bigger M rows cols in
  (pd d = 0%nat -> forall r c, (r < rows)%nat -> (c < cols)%nat -> mmul rows (lower_of (pm d)) (upper_of (pm d)) r c = M r (pr d c)) /\
  exists k, by_swaps cols k (pr d) /\ pp d = Nat.odd k.
Proof.
  intros H d. destruct (lup_run (Nat.min rows cols - 1) ltac:(lia)) as (I1 & I2). fold (decomp_lup bigger M rows cols) in I1, I2. fold d in I1, I2.
  split; [|exact I2]. intros E r c Hr Hc. rewrite <- I1 by auto.
  replace (Nat.min rows cols - 1)%nat with (rows - 1)%nat by lia. symmetry. apply (rep_final rows cols); lia.
Qed.
End Run.
End Plu.
