From Coq Require Import ZArith Lia List Bool Arith ZifyBool.
From Verif Require Import Mem PermModel PermSpec.
Import ListNotations.
Open Scope nat_scope.

Lemma upd_same {A} (f : nat -> A) i x : upd f i x i = x.
Proof. unfold upd. now rewrite Nat.eqb_refl. Qed.
Lemma upd_diff {A} (f : nat -> A) i x j : j <> i -> upd f i x j = f j.
Proof. intros H. unfold upd. apply Nat.eqb_neq in H. now rewrite H. Qed.
Lemma swap_l {A} (f : nat -> A) a b : swap f a b a = f b.
Proof. unfold swap. destruct (Nat.eq_dec a b) as [->|N]; [now rewrite upd_same|]. rewrite upd_diff by auto. apply upd_same. Qed.
Lemma swap_r {A} (f : nat -> A) a b : swap f a b b = f a.
Proof. unfold swap. apply upd_same. Qed.
Lemma swap_other {A} (f : nat -> A) a b j : j <> a -> j <> b -> swap f a b j = f j.
Proof. intros. unfold swap. rewrite !upd_diff; auto. Qed.

(** ** Inverses *)
Lemma NoDup_map_on {A B} (f : A -> B) l : NoDup l -> (forall x y, In x l -> In y l -> f x = f y -> x = y) -> NoDup (map f l).
Proof.
  induction 1 as [|x l N ND IH]; intros H; cbn; constructor.
  - intros I. apply in_map_iff in I as (y & E & I). assert (y = x) by (apply H; [now right|now left|auto]). now subst.
  - apply IH. intros; apply H; auto; now right.
Qed.
Lemma perm_onto n p : is_perm n p -> forall y, y < n -> exists x, x < n /\ p x = y.
Proof.
  intros [B I] y Hy. assert (ND : NoDup (map p (seq 0 n))).
  { apply NoDup_map_on; [apply seq_NoDup|]. intros a b Ha Hb. apply in_seq in Ha, Hb. apply I; lia. }
  assert (Inc : incl (seq 0 n) (map p (seq 0 n))).
  { apply NoDup_length_incl; auto.
    - rewrite map_length. auto.
    - intros z Hz. apply in_map_iff in Hz as (x & <- & Hx). apply in_seq in Hx. apply in_seq. specialize (B x). lia. }
  assert (Y : In y (map p (seq 0 n))) by (apply Inc; apply in_seq; lia).
  apply in_map_iff in Y as (x & E & Hx). apply in_seq in Hx. exists x. split; [lia|auto].
Qed.

Lemma fill_inverse_spec (p : nat -> nat) l : forall inv, (forall i j, In i l -> In j l -> p i = p j -> i = j) -> NoDup l ->
  (forall i, In i l -> fold_left (fun inv i => upd inv (p i) i) l inv (p i) = i) /\
  (forall x, (forall i, In i l -> p i <> x) -> fold_left (fun inv i => upd inv (p i) i) l inv x = inv x).
Proof.
  induction l as [|a l IH]; intros inv I ND; [split; [easy|auto]|]. inversion ND as [|? ? Na ND']; subst.
  assert (I' : forall i j, In i l -> In j l -> p i = p j -> i = j) by (intros; apply I; auto; now right).
  cbn [fold_left]. destruct (IH (upd inv (p a) a) I' ND') as [A B]. split.
  - intros i [<-|Hi]; [|auto]. rewrite B; [apply upd_same|]. intros j Hj E. assert (j = a) by (apply I; auto; [now right|now left]). now subst.
  - intros x Hx. rewrite B; [apply upd_diff|]; intros; [intros ->; apply (Hx a); [now left|auto]|apply Hx; now right].
Qed.

Lemma inverse_of_left n f g : is_perm n f -> (forall i, i < n -> g (f i) = i) -> inverse_maps n f g.
Proof.
  intros P H. pose proof P as [B I]. split; [intros; split; auto|].
  intros y Hy. destruct (perm_onto n f P y Hy) as (x & Hx & <-). rewrite H by auto. auto.
Qed.
Lemma inverse_sym n f g : inverse_maps n f g -> inverse_maps n g f.
Proof. intros [A B]. split; auto. Qed.
Lemma inverse_perm n f g : inverse_maps n f g -> is_perm n f.
Proof.
  intros [A B]. split; [intros; now apply A|]. intros i j Hi Hj E. rewrite <- (proj2 (A i Hi)), <- (proj2 (A j Hj)). now rewrite E.
Qed.
Lemma copy_n_lt n p a i : i < n -> copy_n n p a i = p i.
Proof. intros H. unfold copy_n. apply Nat.ltb_lt in H. now rewrite H. Qed.
Lemma perm_ext n f g : is_perm n f -> (forall i, i < n -> g i = f i) -> is_perm n g.
Proof.
  intros [A B] E. split.
  - intros i H. rewrite E by auto. auto.
  - intros i j Hi Hj. rewrite !E by auto. auto.
Qed.

Lemma fill_inverse_ok n p inv : is_perm n p -> inverse_maps n p (fill_inverse n p inv).
Proof.
  intros P. apply inverse_of_left; auto. intros i Hi. unfold fill_inverse.
  apply fill_inverse_spec; [|apply seq_NoDup|apply in_seq; lia]. intros a b Ha Hb. apply in_seq in Ha, Hb. apply P; lia.
Qed.

Definition pinv (n : nat) (m : pmat) : Prop := inverse_maps n (src m) (dst m).

Lemma set_row_ok n m p : is_perm n p ->
  pinv n (set_row_sources n m p) /\ forall i, i < n -> src (set_row_sources n m p) i = p i.
Proof.
  intros P. split; [|intros; now apply copy_n_lt]. unfold pinv, set_row_sources. cbn [src dst].
  apply fill_inverse_ok. apply perm_ext with p; auto. intros; now apply copy_n_lt.
Qed.
Lemma set_col_ok n m p : is_perm n p ->
  pinv n (set_col_sources n m p) /\ forall i, i < n -> dst (set_col_sources n m p) i = p i.
Proof.
  intros P. split; [|intros; now apply copy_n_lt]. unfold pinv, set_col_sources. cbn [src dst].
  apply inverse_sym. apply fill_inverse_ok. apply perm_ext with p; auto. intros; now apply copy_n_lt.
Qed.

Lemma swap_inverse n f g a b : inverse_maps n f g -> a < n -> b < n ->
  inverse_maps n (swap f a b) (upd (upd g (f a) b) (f b) a).
Proof.
  intros H Ha Hb. pose proof (inverse_perm n f g H) as [_ Inj]. destruct H as [A B]. apply inverse_of_left.
  - split.
    + intros i Hi. unfold swap, upd. destruct (i =? b), (i =? a); apply A; auto.
    + intros i j Hi Hj. unfold swap, upd.
      destruct (Nat.eqb_spec i b), (Nat.eqb_spec i a), (Nat.eqb_spec j b), (Nat.eqb_spec j a); subst; intros E;
        try reflexivity; apply Inj in E; try assumption; congruence.
  - intros i Hi. destruct (Nat.eq_dec i b) as [->|Nb].
    + rewrite swap_r. destruct (Nat.eq_dec a b) as [->|N]; [now rewrite upd_same|].
      rewrite upd_diff, upd_same; auto.
    + destruct (Nat.eq_dec i a) as [->|Na]; [rewrite swap_l; apply upd_same|].
      rewrite swap_other by auto. rewrite !upd_diff; [now apply A| |]; intros E; apply Inj in E; congruence.
Qed.
Lemma swap_rows_ok n m a b : pinv n m -> a < n -> b < n -> pinv n (swap_rows m a b).
Proof. intros H Ha Hb. exact (swap_inverse n _ _ a b H Ha Hb). Qed.
Lemma swap_cols_ok n m a b : pinv n m -> a < n -> b < n -> pinv n (swap_cols m a b).
Proof. intros H Ha Hb. apply inverse_sym. exact (swap_inverse n _ _ a b (inverse_sym _ _ _ H) Ha Hb). Qed.
Lemma identity_ok n m : pinv n (set_identity n m).
Proof. split; intros i Hi; cbn [set_identity src dst]; rewrite (copy_n_lt n _ _ i) by auto; (split; [auto|now apply copy_n_lt]). Qed.
Lemma transpose_ok n m : pinv n m -> pinv n (ptranspose m).
Proof. exact (inverse_sym n _ _). Qed.

(** Histories. *)
Inductive pop : Type :=
| PSetRow (p : nat -> nat) | PSetCol (p : nat -> nat) | PSwapRows (a b : nat) | PSwapCols (a b : nat) | PTranspose | PIdentity.
Definition pvalid (n : nat) (o : pop) : Prop :=
  match o with
  | PSetRow p | PSetCol p => is_perm n p
  | PSwapRows a b | PSwapCols a b => a < n /\ b < n
  | PTranspose | PIdentity => True
  end.
Definition pstep (n : nat) (m : pmat) (o : pop) : pmat :=
  match o with
  | PSetRow p => set_row_sources n m p
  | PSetCol p => set_col_sources n m p
  | PSwapRows a b => swap_rows m a b
  | PSwapCols a b => swap_cols m a b
  | PTranspose => ptranspose m
  | PIdentity => set_identity n m
  end.
(** A history from construction over arbitrary memory [m0]. *)
Definition prun (n : nat) (m0 : pmat) (os : list pop) : pmat := fold_left (pstep n) os (set_identity n m0).

Lemma pstep_ok n m o : pinv n m -> pvalid n o -> pinv n (pstep n m o).
Proof.
  intros H V. destruct o; cbn [pstep pvalid] in *.
  - now apply set_row_ok.
  - now apply set_col_ok.
  - now apply swap_rows_ok.
  - now apply swap_cols_ok.
  - now apply transpose_ok.
  - apply identity_ok.
Qed.
Lemma fold_pstep_ok n os : forall m, pinv n m -> Forall (pvalid n) os -> pinv n (fold_left (pstep n) os m).
Proof.
  induction os as [|o os IH]; intros m H V; cbn [fold_left]; [auto|]. inversion V; subst. apply IH; auto. now apply pstep_ok.
Qed.
Lemma prun_ok n m0 os : Forall (pvalid n) os -> pinv n (prun n m0 os).
Proof. intros V. apply fold_pstep_ok; auto. apply identity_ok. Qed.

Lemma pelem_ok n m : pinv n m -> 
  (forall r c, r < n -> c < n -> (pelem m r c = true <-> src m r = c) /\ (pelem m r c = true <-> dst m c = r)) /\
  (forall r, r < n -> exists c, c < n /\ pelem m r c = true /\ forall c', c' < n -> pelem m r c' = true -> c' = c) /\
  (forall c, c < n -> exists r, r < n /\ pelem m r c = true /\ forall r', r' < n -> pelem m r' c = true -> r' = r).
Proof.
  intros H. pose proof (inverse_perm _ _ _ H) as [_ Inj]. destruct H as [A B]. unfold pelem. split; [|split].
  - intros r c Hr Hc. rewrite Nat.eqb_eq. split; [reflexivity|]. split; intros E.
    + rewrite <- E. now apply A.
    + rewrite <- E. now apply B.
  - intros r Hr. exists (src m r). rewrite Nat.eqb_refl. split; [now apply A|]. split; [auto|]. intros c' _ E. apply Nat.eqb_eq in E. auto.
  - intros c Hc. exists (dst m c). destruct (B c Hc) as [B1 B2]. rewrite B2, Nat.eqb_refl. split; [auto|]. split; [auto|].
    intros r' Hr E. apply Nat.eqb_eq in E. rewrite <- E. symmetry. now apply A.
Qed.

(** ** Cycles *)
Lemma iter_S {A} k (f : A -> A) x : Nat.iter (S k) f x = f (Nat.iter k f x).
Proof. reflexivity. Qed.
Lemma iter_S_r {A} k (f : A -> A) x : Nat.iter (S k) f x = Nat.iter k f (f x).
Proof. induction k; [reflexivity|]. rewrite (iter_S (S k)), IHk. reflexivity. Qed.
Lemma iter_add {A} a b (f : A -> A) x : Nat.iter (a + b) f x = Nat.iter a f (Nat.iter b f x).
Proof. induction a; [reflexivity|]. cbn [Nat.add]. rewrite !iter_S, IHa. reflexivity. Qed.
Lemma iter_lt n p : is_perm n p -> forall k i, i < n -> Nat.iter k p i < n.
Proof. intros [B _] k. induction k; intros i Hi; [auto|]. rewrite iter_S. auto. Qed.
Lemma iter_inj n p : is_perm n p -> forall k i j, i < n -> j < n -> Nat.iter k p i = Nat.iter k p j -> i = j.
Proof.
  intros P k. induction k; intros i j Hi Hj E; [exact E|]. rewrite !iter_S in E. apply (proj2 P) in E; auto using iter_lt.
Qed.

(** [k] is the length of the cycle of [i]. *)
Definition period (p : nat -> nat) (i k : nat) : Prop :=
  0 < k /\ Nat.iter k p i = i /\ forall a b, a < k -> b < k -> Nat.iter a p i = Nat.iter b p i -> a = b.

Lemma least_true (f : nat -> bool) n : (forall k, k < n -> f k = false) \/ exists k, k < n /\ f k = true /\ forall j, j < k -> f j = false.
Proof.
  induction n as [|n [IH|(k & H & T & L)]]; [left; lia| |right; exists k; split; [lia|auto]].
  destruct (f n) eqn:E; [right; exists n; auto|]. left. intros k Hk. destruct (Nat.eq_dec k n); [now subst|apply IH; lia].
Qed.

Lemma distinct_until n p i k : is_perm n p -> i < n -> (forall j, 0 < j < k -> Nat.iter j p i <> i) ->
  forall a b, a < k -> b < k -> Nat.iter a p i = Nat.iter b p i -> a = b.
Proof.
  intros P Hi H. assert (W : forall a b, a < b -> b < k -> Nat.iter a p i = Nat.iter b p i -> False).
  { intros a b L Hb E. apply (H (b - a)); [lia|]. replace b with (a + (b - a)) in E by lia. rewrite iter_add in E.
    symmetry. apply (iter_inj n p P a); auto using iter_lt. }
  intros a b Ha Hb E. destruct (Nat.lt_trichotomy a b) as [L|[L|L]]; [destruct (W a b); auto|auto|destruct (W b a); auto].
Qed.

Lemma period_exists n p i : is_perm n p -> i < n -> exists k, k <= n /\ period p i k.
Proof.
  intros P Hi. destruct (least_true (fun j => Nat.iter (S j) p i =? i) n) as [N|(k & Hk & E & L)].
  - exfalso. assert (D : forall a b, a < S n -> b < S n -> Nat.iter a p i = Nat.iter b p i -> a = b).
    { apply (distinct_until n); auto. intros j Hj. specialize (N (j - 1) ltac:(lia)). replace (S (j - 1)) with j in N by lia.
      now apply Nat.eqb_neq in N. }
    assert (ND : NoDup (map (fun j => Nat.iter j p i) (seq 0 (S n)))).
    { apply NoDup_map_on; [apply seq_NoDup|]. intros a b Ha Hb. apply in_seq in Ha, Hb. apply D; lia. }
    assert (Inc : incl (map (fun j => Nat.iter j p i) (seq 0 (S n))) (seq 0 n)).
    { intros x Hx. apply in_map_iff in Hx as (j & <- & _). apply in_seq. pose proof (iter_lt n p P j i Hi). lia. }
    pose proof (NoDup_incl_length ND Inc) as LL. rewrite map_length, !seq_length in LL. lia.
  - apply Nat.eqb_eq in E. exists (S k). split; [lia|]. split; [lia|]. split; [auto|].
    apply (distinct_until n); auto. intros j Hj. specialize (L (j - 1) ltac:(lia)). replace (S (j - 1)) with j in L by lia.
    now apply Nat.eqb_neq in L.
Qed.
Lemma period_eq (p : nat -> nat) i k j : period p i k -> j <= k -> 0 < j -> Nat.iter j p i = i -> j = k.
Proof.
  intros (K & E & D) L J H. destruct (Nat.eq_dec j k); [auto|]. specialize (D j 0 ltac:(lia) K H). lia.
Qed.
Lemma ops_elements n m p a b : pinv n m -> is_perm n p -> a < n -> b < n -> forall r c, r < n -> c < n ->
  pelem (set_row_sources n m p) r c = (p r =? c) /\
  pelem (set_col_sources n m p) r c = (p c =? r) /\
  pelem (swap_rows m a b) r c = pelem m (if r =? a then b else if r =? b then a else r) c /\
  pelem (swap_cols m a b) r c = pelem m r (if c =? a then b else if c =? b then a else c) /\
  pelem (ptranspose m) r c = pelem m c r /\
  pelem (set_identity n m) r c = (r =? c).
Proof.
  intros H P Ha Hb r c Hr Hc.
  assert (T : forall m', pinv n m' -> forall r c, r < n -> c < n -> pelem m' r c = (dst m' c =? r)).
  { intros m' H' r' c' Hr' Hc'. apply eq_true_iff_eq. rewrite Nat.eqb_eq. apply (proj1 (pelem_ok n m' H')); auto. }
  split; [|split; [|split; [|split; [|split]]]].
  - unfold pelem. cbn [set_row_sources src]. now rewrite copy_n_lt.
  - rewrite (T _ (proj1 (set_col_ok n m p P))) by auto. cbn [set_col_sources dst]. now rewrite copy_n_lt.
  - unfold pelem. cbn [swap_rows src]. unfold swap, upd. destruct (Nat.eqb_spec r b), (Nat.eqb_spec r a); try reflexivity. congruence.
  - rewrite (T _ (swap_cols_ok n m a b H Ha Hb)) by auto.
    rewrite (T m H) by (auto; destruct (c =? a), (c =? b); auto). cbn [swap_cols dst]. unfold swap, upd.
    destruct (Nat.eqb_spec c b), (Nat.eqb_spec c a); try reflexivity. congruence.
  - unfold pelem at 1. cbn [ptranspose src]. symmetry. now apply T.
  - unfold pelem. cbn [set_identity src]. now rewrite copy_n_lt.
Qed.
