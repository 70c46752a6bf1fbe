From Coq Require Import ZArith Lia List Bool Arith ZifyBool Permutation.
From Verif Require Import Mem PermModel PermSpec PermProofs PermCycleProofs.
Import ListNotations.
Open Scope nat_scope.

(** ** Exclusive-or sums *)
Definition xl (l : list nat) (f : nat -> bool) : bool := fold_right (fun a b => xorb (f a) b) false l.
Lemma xl_cons a l f : xl (a :: l) f = xorb (f a) (xl l f).
Proof. reflexivity. Qed.
Lemma xl_ext l f g : (forall x, In x l -> f x = g x) -> xl l f = xl l g.
Proof. induction l as [|a l IH]; intros H; [reflexivity|]. rewrite !xl_cons, H by (now left). f_equal. apply IH. intros x Hx. apply H. now right. Qed.
Lemma xl_zero l : xl l (fun _ => false) = false.
Proof. induction l; [reflexivity|]. rewrite xl_cons, IHl. reflexivity. Qed.
Lemma xl_xor l f g : xl l (fun x => xorb (f x) (g x)) = xorb (xl l f) (xl l g).
Proof. induction l as [|a l IH]; [reflexivity|]. rewrite !xl_cons, IH. destruct (f a), (g a), (xl l f), (xl l g); reflexivity. Qed.
Lemma xl_swap l m (f : nat -> nat -> bool) : xl l (fun i => xl m (f i)) = xl m (fun j => xl l (fun i => f i j)).
Proof.
  induction l as [|a l IH]; [change (false = xl m (fun _ => false)); now rewrite xl_zero|]. rewrite xl_cons, IH, <- xl_xor.
  apply xl_ext. intros j _. reflexivity.
Qed.
Lemma xl_perm l m f : Permutation l m -> xl l f = xl m f.
Proof.
  induction 1; rewrite ?xl_cons.
  - reflexivity.
  - now rewrite IHPermutation.
  - destruct (f y), (f x), (xl l f); reflexivity.
  - congruence.
Qed.
Lemma xl_map l f p : xl (map p l) f = xl l (fun x => f (p x)).
Proof. induction l as [|a l IH]; [reflexivity|]. cbn [map]. rewrite !xl_cons. now rewrite IH. Qed.
Lemma perm_Permutation n p : is_perm n p -> Permutation (map p (seq 0 n)) (seq 0 n).
Proof.
  intros [B I]. apply NoDup_Permutation_bis.
  - apply NoDup_map_on; [apply seq_NoDup|]. intros a b Ha Hb. apply in_seq in Ha, Hb. apply I; lia.
  - now rewrite map_length.
  - intros x Hx. apply in_map_iff in Hx as (y & <- & Hy). apply in_seq in Hy. apply in_seq. specialize (B y). lia.
Qed.
Lemma xl_reindex n p f : is_perm n p -> xl (seq 0 n) (fun x => f (p x)) = xl (seq 0 n) f.
Proof. intros P. rewrite <- xl_map. apply xl_perm. now apply perm_Permutation. Qed.
Lemma xl_single l f a : NoDup l -> In a l -> (forall x, In x l -> x <> a -> f x = false) -> xl l f = f a.
Proof.
  induction l as [|b l IH]; intros ND H Z; [easy|]. inversion ND; subst. rewrite xl_cons. destruct H as [->|H].
  - rewrite (xl_ext l f (fun _ => false)), xl_zero, xorb_false_r; [reflexivity|]. intros x Hx. apply Z; [now right|]. congruence.
  - rewrite IH; auto. { rewrite (Z b); [apply xorb_false_l|now left|congruence]. } intros x Hx. apply Z. now right.
Qed.

(** ** Parity of the number of inversions *)
Definition xx (n : nat) (f : nat -> nat -> bool) : bool := xl (seq 0 n) (fun i => xl (seq 0 n) (f i)).
Lemma xx_ext n f g : (forall i j, i < n -> j < n -> f i j = g i j) -> xx n f = xx n g.
Proof. intros H. apply xl_ext. intros i Hi. apply xl_ext. intros j Hj. apply in_seq in Hi, Hj. apply H; lia. Qed.
Lemma xx_xor n f g : xx n (fun i j => xorb (f i j) (g i j)) = xorb (xx n f) (xx n g).
Proof. unfold xx. rewrite <- xl_xor. apply xl_ext. intros i _. apply xl_xor. Qed.
Lemma xx_swap n f : xx n f = xx n (fun i j => f j i).
Proof. apply xl_swap. Qed.
Lemma xx_reindex n p f : is_perm n p -> xx n (fun i j => f (p i) (p j)) = xx n f.
Proof.
  intros P. unfold xx. rewrite <- (xl_reindex n p (fun i => xl (seq 0 n) (f i)) P). apply xl_ext. intros i _.
  apply (xl_reindex n p (f (p i)) P).
Qed.
Definition inv_parity (n : nat) (p : nat -> nat) : bool := xx n (fun i j => (i <? j) && (p j <? p i)).

(** A symmetric relation is counted alike along the order of any injective labelling. *)
Lemma xx_order n p D : is_perm n p -> (forall i j, i < n -> j < n -> i <> j -> D i j = D j i) ->
  xx n (fun i j => D i j && (p j <? p i)) = xx n (fun i j => (i <? j) && D i j).
Proof.
  intros P S. set (A := fun i j => D i j && (p j <? p i)).
  transitivity (xorb (xx n (fun i j => (i <? j) && A i j)) (xx n (fun i j => (j <? i) && A i j))).
  - rewrite <- xx_xor. apply xx_ext. intros i j Hi Hj. unfold A.
    destruct (Nat.ltb_spec i j), (Nat.ltb_spec j i); try lia; cbn [andb xorb]; try (destruct (D i j && (p j <? p i)); reflexivity).
    replace i with j by lia. rewrite Nat.ltb_irrefl. now rewrite andb_false_r.
  - rewrite (xx_swap n (fun i j => (j <? i) && A i j)), <- xx_xor. apply xx_ext. intros i j Hi Hj. unfold A.
    destruct (Nat.ltb_spec i j); [|reflexivity]. cbn [andb]. rewrite (S j i) by lia.
    assert (p i <> p j) by (intros E; apply (proj2 P) in E; lia).
    destruct (D i j); [|reflexivity]. cbn [andb]. destruct (Nat.ltb_spec (p j) (p i)), (Nat.ltb_spec (p i) (p j)); try lia; reflexivity.
Qed.
Lemma inv_parity_comp n p t g : is_perm n p -> is_perm n t -> is_perm n g -> (forall i, i < n -> t (g i) = i) ->
  inv_parity n (fun i => p (t i)) = xorb (inv_parity n p) (inv_parity n g).
Proof.
  intros P T G I. unfold inv_parity at 1.
  rewrite <- (xx_reindex n g (fun i j => (i <? j) && (p (t j) <? p (t i))) G).
  rewrite (xx_ext n _ (fun i j => (g i <? g j) && (p j <? p i))) by (intros; rewrite !I by auto; reflexivity).
  assert (E : xorb (inv_parity n p) (xx n (fun i j => (g i <? g j) && (p j <? p i))) = inv_parity n g).
  { unfold inv_parity at 1. rewrite <- xx_xor.
    rewrite (xx_ext n _ (fun i j => xorb (i <? j) (g i <? g j) && (p j <? p i))).
    - rewrite (xx_order n p (fun i j => xorb (i <? j) (g i <? g j)) P).
      + unfold inv_parity. apply xx_ext. intros i j Hi Hj. destruct (Nat.ltb_spec i j); [|reflexivity]. cbn [andb xorb].
        assert (g i <> g j) by (intros Q; apply (proj2 G) in Q; lia).
        destruct (Nat.ltb_spec (g i) (g j)), (Nat.ltb_spec (g j) (g i)); try lia; reflexivity.
      + intros i j Hi Hj N. assert (g i <> g j) by (intros Q; apply (proj2 G) in Q; lia).
        destruct (Nat.ltb_spec (g i) (g j)), (Nat.ltb_spec (g j) (g i)), (Nat.ltb_spec i j), (Nat.ltb_spec j i); try lia; reflexivity.
    - intros i j _ _. destruct (i <? j), (g i <? g j), (p j <? p i); reflexivity. }
  rewrite <- E. destruct (inv_parity n p), (xx n (fun i j => (g i <? g j) && (p j <? p i))); reflexivity.
Qed.
Lemma inv_parity_ext n p q : (forall i, i < n -> p i = q i) -> inv_parity n p = inv_parity n q.
Proof. intros E. apply xx_ext. intros i j Hi Hj. now rewrite !E. Qed.
Lemma inv_parity_id n p : is_identity n p -> inv_parity n p = false.
Proof.
  intros Id. unfold inv_parity. rewrite (xx_ext n _ (fun _ _ => false)).
  - unfold xx. rewrite (xl_ext _ _ (fun _ => false)); [apply xl_zero|]. intros. apply xl_zero.
  - intros i j Hi Hj. rewrite !Id by auto. destruct (Nat.ltb_spec i j), (Nat.ltb_spec j i); try lia; reflexivity.
Qed.
Lemma inv_parity_inverse n f g : inverse_maps n f g -> inv_parity n f = inv_parity n g.
Proof.
  intros I. pose proof (inverse_perm _ _ _ I) as Pf. pose proof (inverse_perm _ _ _ (inverse_sym _ _ _ I)) as Pg. destruct I as [I1 I2].
  pose proof (inv_parity_comp n f g f Pf Pg Pf (fun i Hi => proj2 (I1 i Hi))) as E.
  unfold inv_parity. rewrite <- (xx_reindex n g (fun i j => (i <? j) && (f j <? f i)) Pg).
  rewrite (xx_swap n (fun i j => (i <? j) && (g j <? g i))). apply xx_ext. intros i j Hi Hj.
  rewrite (proj2 (I2 i Hi)), (proj2 (I2 j Hj)). apply andb_comm.
Qed.

(** Transpositions. *)
Definition tr (a b i : nat) : nat := if i =? a then b else if i =? b then a else i.
Lemma tr_tr a b i : tr a b (tr a b i) = i.
Proof. unfold tr. destruct (Nat.eqb_spec i a), (Nat.eqb_spec i b); subst; repeat rewrite Nat.eqb_refl; auto.
  - destruct (Nat.eqb_spec b a); auto.
  - destruct (Nat.eqb_spec i a), (Nat.eqb_spec i b); congruence. Qed.
Lemma tr_lt n a b i : a < n -> b < n -> i < n -> tr a b i < n.
Proof. intros. unfold tr. destruct (i =? a), (i =? b); auto. Qed.
Lemma tr_perm n a b : a < n -> b < n -> is_perm n (tr a b).
Proof. intros Ha Hb. split; [intros; now apply tr_lt|]. intros i j _ _ E. rewrite <- (tr_tr a b i), E. apply tr_tr. Qed.
Lemma comp_perm n p t : is_perm n p -> is_perm n t -> is_perm n (fun i => p (t i)).
Proof. intros [B1 I1] [B2 I2]. split; [auto|]. intros i j Hi Hj E. apply I1 in E; auto. Qed.
Lemma inv_parity_tr n p a b : is_perm n p -> a < n -> b < n ->
  inv_parity n (fun i => p (tr a b i)) = xorb (inv_parity n p) (inv_parity n (tr a b)).
Proof. intros P Ha Hb. apply inv_parity_comp; auto using tr_perm. intros. apply tr_tr. Qed.
Lemma tr_conj n a b c : a < n -> b < n -> c < n -> a <> b -> a <> c -> b <> c -> inv_parity n (tr a b) = inv_parity n (tr c b).
Proof.
  intros Ha Hb Hc N1 N2 N3.
  rewrite <- (inv_parity_ext n (fun i => tr a c (tr a b (tr a c i))) (tr c b)).
  - rewrite (inv_parity_tr n (fun i => tr a c (tr a b i)) a c); auto.
    + rewrite (inv_parity_tr n (tr a c) a b) by auto using tr_perm. destruct (inv_parity n (tr a c)), (inv_parity n (tr a b)); reflexivity.
    + apply comp_perm; auto using tr_perm.
  - intros i Hi. unfold tr.
    repeat (match goal with |- context [?x =? ?y] => is_var x; is_var y; destruct (Nat.eqb_spec x y) end; try congruence).
Qed.
Lemma tr_comm n a b : inv_parity n (tr a b) = inv_parity n (tr b a).
Proof. apply inv_parity_ext. intros i _. unfold tr. destruct (Nat.eqb_spec i a), (Nat.eqb_spec i b); congruence. Qed.
Lemma tr_01 n : 1 < n -> inv_parity n (tr 0 1) = true.
Proof.
  intros H. unfold inv_parity, xx. rewrite (xl_single _ _ 0); [|apply seq_NoDup|apply in_seq; lia|].
  - rewrite (xl_single _ _ 1); [reflexivity|apply seq_NoDup|apply in_seq; lia|]. intros [|[|j]] _ N; [reflexivity|congruence|reflexivity].
  - intros i _ N. rewrite (xl_ext _ _ (fun _ => false)); [apply xl_zero|]. intros j _. unfold tr.
    destruct (Nat.ltb_spec i j) as [L|L]; [|reflexivity]. cbn [andb].
    destruct (Nat.eqb_spec j 0), (Nat.eqb_spec j 1), (Nat.eqb_spec i 0), (Nat.eqb_spec i 1); lia.
Qed.
Lemma tr_odd n a b : a < n -> b < n -> a <> b -> inv_parity n (tr a b) = true.
Proof.
  assert (Z : forall b, b < n -> b <> 0 -> inv_parity n (tr 0 b) = true).
  { intros b0 Hb N. destruct (Nat.eq_dec b0 1) as [->|N1]; [apply tr_01; lia|].
    rewrite tr_comm, (tr_conj n b0 0 1) by lia. rewrite tr_comm. apply tr_01. lia. }
  intros Ha Hb N. destruct (Nat.eq_dec a 0) as [->|Na]; [now apply Z; auto|].
  destruct (Nat.eq_dec b 0) as [->|Nb]; [rewrite tr_comm; now apply Z|].
  rewrite (tr_conj n a b 0) by lia. now apply Z.
Qed.

(** ** Exchanges *)
Lemma by_swaps_inv n k p : by_swaps n k p -> is_perm n p /\ inv_parity n p = Nat.odd k.
Proof.
  induction 1 as [p Id|k p q a b _ [P I] Ha Hb N E].
  - split; [|now apply inv_parity_id]. split; [intros i Hi; now rewrite Id|intros i j Hi Hj E; now rewrite !Id in E].
  - assert (E' : forall i, i < n -> p (tr a b i) = q i) by (intros i Hi; symmetry; exact (E i Hi)). split.
    + pose proof (comp_perm n p (tr a b) P (tr_perm n a b Ha Hb)) as [B J].
      split; [intros i Hi; rewrite <- E' by auto; now apply B|intros i j Hi Hj Q; rewrite <- !E' in Q by auto; now apply J].
    + rewrite <- (inv_parity_ext n (fun i => p (tr a b i)) q E'), (inv_parity_tr n p a b P Ha Hb), tr_odd, I by auto.
      rewrite Nat.odd_succ, <- Nat.negb_odd. now rewrite xorb_true_r.
Qed.
Lemma by_swaps_perm n k p : by_swaps n k p -> is_perm n p.
Proof. apply by_swaps_inv. Qed.
Lemma by_swaps_parity n k1 k2 p : by_swaps n k1 p -> by_swaps n k2 p -> Nat.odd k1 = Nat.odd k2.
Proof. intros H1 H2. rewrite <- (proj2 (by_swaps_inv _ _ _ H1)). apply (by_swaps_inv _ _ _ H2). Qed.
Lemma by_swaps_exists n p : is_perm n p -> exists k, by_swaps n k p.
Proof. intros P. eexists. exact (by_swaps_followers n p P). Qed.
Lemma followers_by_swaps n k p : by_swaps n k p ->
  Nat.odd (length (filter (fun x => negb (leader n p x)) (seq 0 n))) = Nat.odd k.
Proof. intros H. refine (by_swaps_parity n _ k p _ H). exact (by_swaps_followers n p (by_swaps_perm _ _ _ H)). Qed.
Lemma inverse_parity n f g k : inverse_maps n f g -> by_swaps n k f -> exists k', by_swaps n k' g /\ Nat.odd k' = Nat.odd k.
Proof.
  intros I H. destruct (by_swaps_exists n g (inverse_perm _ _ _ (inverse_sym _ _ _ I))) as (k' & H'). exists k'. split; [exact H'|].
  rewrite <- (proj2 (by_swaps_inv _ _ _ H)), <- (proj2 (by_swaps_inv _ _ _ H')). symmetry. now apply inv_parity_inverse.
Qed.
