From Coq Require Import ZArith Lia List Bool Arith ZifyBool.
From Verif Require Import Mem PermModel PermSpec PermProofs.
Import ListNotations.
Open Scope nat_scope.

(** ** The set of positions on the cycle of [i] *)
Definition cyc (p : nat -> nat) (i k x : nat) : bool := existsb (fun j => Nat.iter j p i =? x) (seq 0 k).
Lemma cyc_iff p i k x : cyc p i k x = true <-> exists j, j < k /\ Nat.iter j p i = x.
Proof.
  unfold cyc. rewrite existsb_exists. setoid_rewrite in_seq. setoid_rewrite Nat.eqb_eq.
  split; intros (j & H & E); exists j; split; auto; lia.
Qed.
Lemma cyc_false p i k x : cyc p i k x = false <-> forall j, j < k -> x <> Nat.iter j p i.
Proof.
  rewrite <- not_true_iff_false, cyc_iff. split.
  - intros H j Hj E. apply H. exists j. auto.
  - intros H (j & Hj & E). apply (H j); auto.
Qed.
Lemma cyc_closed n p i k x : is_perm n p -> i < n -> period p i k -> x < n -> cyc p i k (p x) = cyc p i k x.
Proof.
  intros P Hi (K & E & D) Hx. apply eq_true_iff_eq. rewrite !cyc_iff. split.
  - intros (j & Hj & F). destruct j as [|j].
    + exists (k - 1). split; [lia|]. apply (proj2 P); auto using iter_lt. rewrite <- iter_S. replace (S (k - 1)) with k by lia.
      cbn in F. congruence.
    + exists j. split; [lia|]. rewrite iter_S in F. apply (proj2 P); auto using iter_lt.
  - intros (j & Hj & <-). destruct (Nat.eq_dec (S j) k) as [<-|N].
    + exists 0. split; [lia|]. rewrite <- iter_S, E. reflexivity.
    + exists (S j). split; [lia|reflexivity].
Qed.
Lemma iter_closed n p (D : nat -> bool) : is_perm n p -> (forall x, x < n -> D (p x) = D x) ->
  forall j x, x < n -> D (Nat.iter j p x) = D x.
Proof. intros P H j. induction j; intros x Hx; [auto|]. rewrite iter_S, H by auto using iter_lt. auto. Qed.
Lemma iter_period (p : nat -> nat) i k : Nat.iter k p i = i -> forall q : nat, Nat.iter (q * k) p i = i.
Proof. intros E q. induction q; [reflexivity|]. cbn [Nat.mul]. rewrite iter_add, IHq. exact E. Qed.
Lemma iter_mod (p : nat -> nat) i k j : 0 < k -> Nat.iter k p i = i -> Nat.iter j p i = Nat.iter (j mod k) p i.
Proof.
  intros K E. assert (F : j = j mod k + j / k * k) by (pose proof (Nat.div_mod j k); lia).
  transitivity (Nat.iter (j mod k + j / k * k) p i); [f_equal; exact F|]. rewrite iter_add. now rewrite iter_period.
Qed.

(** ** Leaders *)
Lemma leader_iff n p i : is_perm n p -> i < n -> (leader n p i = true <-> forall j, i <= Nat.iter j p i).
Proof.
  intros P Hi. unfold leader. rewrite forallb_forall. split.
  - intros H j. destruct (period_exists n p i P Hi) as (k & Hk & K & E & _). rewrite (iter_mod p i k j K E).
    pose proof (Nat.mod_upper_bound j k ltac:(lia)). specialize (H (j mod k)). rewrite Nat.leb_le in H. apply H. apply in_seq. lia.
  - intros H j _. apply Nat.leb_le. auto.
Qed.
Lemma not_leader n p i j : is_perm n p -> i < n -> Nat.iter j p i < i -> leader n p i = false.
Proof.
  intros P Hi H. destruct (leader n p i) eqn:E; [|auto]. apply (leader_iff n p i P Hi) with (j := j) in E. lia.
Qed.
(** Every cycle has a leader. *)
Lemma leader_exists n p x : is_perm n p -> x < n -> exists j, leader n p (Nat.iter j p x) = true.
Proof.
  intros P. induction x as [x IH] using lt_wf_ind. intros Hx. destruct (leader n p x) eqn:E; [now exists 0|].
  assert (exists j, Nat.iter j p x < x) as (j & Hj).
  { unfold leader in E. assert (X : existsb (fun k => negb (x <=? Nat.iter k p x)) (seq 0 n) = true).
    { revert E. induction (seq 0 n); cbn; [discriminate|]. destruct (x <=? _); cbn; auto. }
    apply existsb_exists in X as (j & _ & X). exists j. lia. }
  destruct (IH (Nat.iter j p x) Hj ltac:(lia)) as (j' & L). exists (j' + j). now rewrite iter_add.
Qed.
Lemma leader_unique n p i j : is_perm n p -> i < n -> leader n p i = true -> leader n p (Nat.iter j p i) = true -> Nat.iter j p i = i.
Proof.
  intros P Hi L1 L2. pose proof (proj1 (leader_iff n p i P Hi) L1 j).
  destruct (period_exists n p i P Hi) as (k & Hk & K & E & _).
  pose proof (proj1 (leader_iff n p _ P (iter_lt n p P j i Hi)) L2 (j * k - j)) as G. rewrite <- iter_add in G.
  replace (j * k - j + j) with (j * k) in G by nia. rewrite iter_period in G by auto. lia.
Qed.

(** ** Counting *)
Lemma filter_or_length {A} (f g : A -> bool) l : (forall x, In x l -> f x = true -> g x = false) ->
  length (filter (fun x => f x || g x) l) = length (filter f l) + length (filter g l).
Proof.
  induction l as [|a l IH]; intros H; [reflexivity|]. cbn [filter]. assert (IH' := IH (fun x Hx => H x (or_intror Hx))).
  specialize (H a (or_introl eq_refl)). destruct (f a) eqn:F; cbn [orb length].
  - rewrite (H eq_refl). cbn [length]. lia.
  - destruct (g a); cbn [length]; lia.
Qed.
Lemma filter_ext_length {A} (f g : A -> bool) l : (forall x, In x l -> f x = g x) -> length (filter f l) = length (filter g l).
Proof. intros H. f_equal. now apply filter_ext_in. Qed.
Lemma cyc_count n s i k : is_perm n s -> i < n -> period s i k -> length (filter (cyc s i k) (seq 0 n)) = k.
Proof.
  intros P Hi Hk. assert (ND : NoDup (map (fun j => Nat.iter j s i) (seq 0 k))).
  { apply NoDup_map_on; [apply seq_NoDup|]. intros a b Ha Hb. apply in_seq in Ha, Hb. apply (proj2 (proj2 Hk)); lia. }
  assert (ND2 : NoDup (filter (cyc s i k) (seq 0 n))) by (apply NoDup_filter; apply seq_NoDup).
  apply Nat.le_antisymm.
  - replace k with (length (map (fun j => Nat.iter j s i) (seq 0 k))) at 2 by (now rewrite map_length, seq_length).
    apply NoDup_incl_length; auto. intros x Hx. apply filter_In in Hx as [_ C]. apply cyc_iff in C as (j & Hj & <-).
    apply in_map_iff. exists j. split; [auto|apply in_seq; lia].
  - replace k with (length (map (fun j => Nat.iter j s i) (seq 0 k))) at 1 by (now rewrite map_length, seq_length).
    apply NoDup_incl_length; auto. intros x Hx. apply in_map_iff in Hx as (j & <- & Hj). apply in_seq in Hj. apply filter_In.
    split; [apply in_seq; pose proof (iter_lt n s P j i Hi); lia|]. apply cyc_iff. exists j. split; [lia|auto].
Qed.

(** Positions in [D] that are not the least of their cycle. *)
Definition followers_in (n : nat) (s : nat -> nat) (D : nat -> bool) : nat :=
  length (filter (fun x => D x && negb (leader n s x)) (seq 0 n)).
Lemma filter_eqb_1 i n : i < n -> length (filter (fun x => x =? i) (seq 0 n)) = 1.
Proof.
  intros Hi. assert (Q : filter (fun x => x =? i) (seq 0 n) = [i]).
  { replace n with (i + (1 + (n - i - 1))) by lia. rewrite seq_app, filter_app. cbn [Nat.add seq filter]. rewrite Nat.eqb_refl.
    assert (Z : forall l, (forall x, In x l -> x <> i) -> filter (fun x => x =? i) l = []).
    { induction l as [|y l IH]; intros H; [reflexivity|]. cbn [filter]. destruct (Nat.eqb_spec y i) as [->|]; [destruct (H i); [now left|auto]|]. apply IH. intros x Hx. apply H. now right. }
    rewrite !Z; [reflexivity| |]; intros x Hx; apply in_seq in Hx; lia. }
  now rewrite Q.
Qed.
Lemma followers_cycle n s i k D : is_perm n s -> i < n -> period s i k -> leader n s i = true ->
  (forall x, x < n -> D (s x) = D x) -> D i = false ->
  followers_in n s (fun x => D x || cyc s i k x) = followers_in n s D + (k - 1).
Proof.
  intros P Hi Hk Li I2 Di. pose proof (proj1 Hk) as K.
  assert (Dc : forall j, D (Nat.iter j s i) = false) by (intros j; rewrite (iter_closed n s D P I2) by auto; auto).
  unfold followers_in.
  rewrite (filter_ext_length (fun x => (D x || cyc s i k x) && negb (leader n s x)) (fun x => (D x && negb (leader n s x)) || (cyc s i k x && negb (x =? i)))).
  - rewrite filter_or_length.
    + assert (C : length (filter (cyc s i k) (seq 0 n)) = 1 + length (filter (fun x => cyc s i k x && negb (x =? i)) (seq 0 n))).
      { rewrite <- (filter_ext_length (fun x => (x =? i) || (cyc s i k x && negb (x =? i))) (cyc s i k)).
        - rewrite filter_or_length; [|intros x _ Q; rewrite Q; apply andb_false_r]. f_equal. now apply filter_eqb_1.
        - intros x Hx. destruct (Nat.eqb_spec x i) as [->|]; cbn [orb negb].
          + symmetry. apply cyc_iff. exists 0. split; [lia|reflexivity].
          + apply andb_true_r. }
      rewrite cyc_count in C by auto. lia.
    + intros x Hx Q. apply andb_true_iff in Q as [Q _]. replace (cyc s i k x) with false; [reflexivity|].
      symmetry. apply cyc_false. intros j Hj ->. rewrite Dc in Q. discriminate.
  - intros x Hx. apply in_seq in Hx. destruct (cyc s i k x) eqn:C; [|rewrite !orb_false_r; reflexivity].
    apply cyc_iff in C as (j & Hj & <-). rewrite orb_true_r, Dc. cbn [andb orb]. f_equal.
    destruct (Nat.eqb_spec (Nat.iter j s i) i) as [Q|Q]; [rewrite Q; auto|].
    destruct (leader n s (Nat.iter j s i)) eqn:L; [|reflexivity]. destruct Q. now apply (leader_unique n).
Qed.
Lemma followers_none n s : followers_in n s (fun _ => false) = 0.
Proof.
  unfold followers_in. cbn [andb]. assert (Q : filter (fun _ : nat => false) (seq 0 n) = []) by (induction (seq 0 n); auto). now rewrite Q.
Qed.
Lemma fixed_leader n s x : is_perm n s -> x < n -> s x = x -> leader n s x = true.
Proof.
  intros P Hx E. apply leader_iff; [auto|lia|]. intros j. replace (Nat.iter j s x) with x; [lia|].
  symmetry. induction j; [reflexivity|]. rewrite iter_S, IHj. auto.
Qed.

(** ** permutation_apply *)
Lemma swap_through {A} (v v0 : nat -> A) (w : nat -> nat) a b : (forall x, v x = v0 (w x)) -> forall x, swap v a b x = v0 (swap w a b x).
Proof. intros V x. unfold swap, upd. destruct (x =? b), (x =? a); apply V. Qed.
Lemma swap_eq (w : nat -> nat) a b i : a <> b -> swap w a b i = w (if i =? a then b else if i =? b then a else i).
Proof. intros N. unfold swap, upd. destruct (Nat.eqb_spec i b), (Nat.eqb_spec i a); congruence. Qed.

Section Cycle.
Variables (i k : nat) (s : nat -> nat).
Hypothesis Hk : period s i k.
Notation c j := (Nat.iter j s i).

Lemma c_inj a b : a < k -> b < k -> c a = c b -> a = b.
Proof. apply Hk. Qed.

Lemma apply_cycle_spec {A} : forall r m fuel p (v : nat -> A), m + 2 + r = k -> r < fuel ->
  (forall j, m < j < k -> p (c j) = c (S j)) ->
  exists p' v', apply_cycle fuel i (c m) (c (S m)) p v = Some (p', v') /\
    (forall j, m < j < k -> p' (c j) = c j) /\
    (forall x, (forall j, m < j < k -> x <> c j) -> p' x = p x) /\
    (forall j, m <= j < k - 1 -> v' (c j) = v (c (S j))) /\ v' (c (k - 1)) = v (c m) /\
    (forall x, (forall j, m <= j < k -> x <> c j) -> v' x = v x) /\
    (forall n d (w : nat -> nat) (v0 : nat -> A), (forall j, c j < n) -> by_swaps n d w -> (forall x, v x = v0 (w x)) ->
      exists w', by_swaps n (d + (r + 1)) w' /\ forall x, v' x = v0 (w' x)).
Proof.
  induction r as [|r IH]; intros m fuel p v Hr Hf Hp; (destruct fuel as [|fuel]; [lia|]); cbn [apply_cycle].
  - rewrite Hp by lia. replace (S (S m)) with k by lia. rewrite (proj1 (proj2 Hk)), Nat.eqb_refl.
    eexists _, _. split; [reflexivity|]. assert (E : k - 1 = S m) by lia. rewrite E. split; [|split; [|split; [|split; [|split]]]].
    + intros j Hj. replace j with (S m) by lia. apply upd_same.
    + intros x Hx. apply upd_diff. apply Hx. lia.
    + intros j Hj. replace j with m by lia. apply swap_l.
    + apply swap_r.
    + intros x Hx. apply swap_other; apply Hx; lia.
    + intros n d w v0 Bc S V. exists (swap w (c m) (c (Datatypes.S m))). split; [|now apply swap_through].
      rewrite Nat.add_comm. apply (bs_swap n d w _ (c m) (c (Datatypes.S m))); auto; [intros Q; apply c_inj in Q; lia|]. intros x _. apply swap_eq. intros Q; apply c_inj in Q; lia.
  - rewrite Hp by lia. destruct (Nat.eqb_spec (c (S (S m))) i) as [E|N].
    { exfalso. assert (S (S m) = 0) by (apply c_inj; [lia|apply Hk|exact E]). lia. }
    destruct (IH (S m) fuel (upd p (c (S m)) (c (S m))) (swap v (c m) (c (S m))) ltac:(lia) ltac:(lia)) as (p' & v' & E & A1 & A2 & A3 & A4 & A5 & A6).
    { intros j Hj. rewrite upd_diff; [apply Hp; lia|]. intros Q. apply c_inj in Q; lia. }
    exists p', v'. split; [exact E|]. split; [|split; [|split; [|split; [|split]]]].
    + intros j Hj. destruct (Nat.eq_dec j (S m)) as [->|]; [|apply A1; lia]. rewrite A2; [apply upd_same|].
      intros j Hj2 Q. apply c_inj in Q; lia.
    + intros x Hx. rewrite A2; [apply upd_diff; apply Hx; lia|]. intros j Hj. apply Hx. lia.
    + intros j Hj. destruct (Nat.eq_dec j m) as [->|].
      * rewrite A5; [apply swap_l|]. intros j Hj2 Q. apply c_inj in Q; lia.
      * rewrite A3 by lia. apply swap_other; intros Q; apply c_inj in Q; lia.
    + rewrite A4. apply swap_r.
    + intros x Hx. rewrite A5; [apply swap_other; apply Hx; lia|]. intros j Hj. apply Hx. lia.
    + intros n d w v0 Bc S V. destruct (A6 n (1 + d) (swap w (c m) (c (Datatypes.S m))) v0 Bc) as (w' & S' & V').
      * apply (bs_swap n d w _ (c m) (c (Datatypes.S m))); auto; [intros Q; apply c_inj in Q; lia|]. intros x _. apply swap_eq. intros Q; apply c_inj in Q; lia.
      * now apply swap_through.
      * exists w'. split; [|exact V']. replace (d + (Datatypes.S r + 1)) with (1 + d + (r + 1)) by lia. exact S'.
Qed.

Lemma sign_cycle_spec : forall r m fuel p odd, m + 1 + r = k -> r < fuel ->
  (forall j, m <= j < k -> p (c j) = c (S j)) ->
  exists p', sign_cycle fuel i (c m) p odd = Some (p', xorb odd (Nat.odd (k - m))) /\
    (forall j, m <= j < k -> p' (c j) = c j) /\ (forall x, (forall j, m <= j < k -> x <> c j) -> p' x = p x).
Proof.
  induction r as [|r IH]; intros m fuel p odd Hr Hf Hp; (destruct fuel as [|fuel]; [lia|]); cbn [sign_cycle]; rewrite Hp by lia.
  - replace (S m) with k by lia. rewrite (proj1 (proj2 Hk)), Nat.eqb_refl. eexists. split; [|split].
    + replace (k - m) with 1 by lia. cbn. rewrite xorb_true_r. reflexivity.
    + intros j Hj. replace j with m by lia. apply upd_same.
    + intros x Hx. apply upd_diff. apply Hx. lia.
  - destruct (Nat.eqb_spec (c (S m)) i) as [E|N].
    { exfalso. assert (S m = 0) by (apply c_inj; [lia|apply Hk|exact E]). lia. }
    destruct (IH (S m) fuel (upd p (c m) (c m)) (negb odd) ltac:(lia) ltac:(lia)) as (p' & E & A1 & A2).
    { intros j Hj. rewrite upd_diff; [apply Hp; lia|]. intros Q. apply c_inj in Q; lia. }
    exists p'. split; [|split].
    + rewrite E. f_equal. f_equal. replace (k - m) with (S (k - S m)) by lia. rewrite Nat.odd_succ, <- Nat.negb_odd.
      destruct odd, (Nat.odd (k - S m)); reflexivity.
    + intros j Hj. destruct (Nat.eq_dec j m) as [->|]; [|apply A1; lia]. rewrite A2; [apply upd_same|].
      intros j Hj2 Q. apply c_inj in Q; lia.
    + intros x Hx. rewrite A2; [apply upd_diff; apply Hx; lia|]. intros j Hj. apply Hx. lia.
Qed.

(** [m] steps already taken: positions [c 0 .. c (m-1)] marked. *)
Lemma mark_cycle_spec : forall r m fuel (buf : nat -> bool) odd, m + r = k -> r < fuel -> 0 < m ->
  (forall j, j < m -> buf (c j) = true) -> (forall j, m <= j < k -> buf (c j) = false) ->
  exists buf', mark_cycle fuel (c m) s buf odd = Some (buf', xorb odd (Nat.odd (k - m))) /\
    forall x, buf' x = buf x || cyc s i k x.
Proof.
  induction r as [|r IH]; intros m fuel buf odd Hr Hf Hm B1 B2; (destruct fuel as [|fuel]; [lia|]); cbn [mark_cycle].
  - replace m with k by lia. replace (k - k) with 0 by lia. rewrite (proj1 (proj2 Hk)).
    assert (B0 : buf i = true) by exact (B1 0 Hm). rewrite B0. exists buf. split; [cbn; now rewrite xorb_false_r|].
    intros x. destruct (cyc s i k x) eqn:C; [|now rewrite orb_false_r]. rewrite orb_true_r. apply cyc_iff in C as (j & Hj & <-). apply B1. lia.
  - rewrite B2 by lia. rewrite <- iter_S.
    destruct (IH (S m) fuel (upd buf (c m) true) (negb odd) ltac:(lia) ltac:(lia) ltac:(lia)) as (buf' & E & A).
    + intros j Hj. destruct (Nat.eq_dec j m) as [->|N]; [apply upd_same|]. rewrite upd_diff; [apply B1; lia|]. intros Q. apply c_inj in Q; lia.
    + intros j Hj. rewrite upd_diff; [apply B2; lia|]. intros Q. apply c_inj in Q; lia.
    + exists buf'. split.
      * rewrite E. f_equal. f_equal. replace (k - m) with (S (k - S m)) by lia. rewrite Nat.odd_succ, <- Nat.negb_odd.
        destruct odd, (Nat.odd (k - S m)); reflexivity.
      * intros x. rewrite A. destruct (Nat.eq_dec x (c m)) as [->|N]; [|now rewrite upd_diff].
        assert (C : cyc s i k (c m) = true) by (apply cyc_iff; exists m; split; [lia|auto]). rewrite C. now rewrite !orb_true_r.
Qed.
End Cycle.

Section Apply.
Variables (n : nat) (s : nat -> nat).
Hypothesis P : is_perm n s.

Section V.
Context {A : Type}.
Variable v0 : nat -> A.

(** [D]: positions whose cycle has been dealt with. *)
Definition ainv (i : nat) (D : nat -> bool) (p : nat -> nat) (v : nat -> A) : Prop :=
  (forall x, x < n -> if D x then v x = v0 (s x) /\ (p x = x \/ x < i) else v x = v0 x /\ p x = s x) /\
  (forall x, x < n -> D (s x) = D x) /\ (forall x, x < n -> x < i -> D x = true) /\
  (forall x, n <= x -> v x = v0 x) /\ (forall x, x < n -> leader n s x = true -> p x = s x) /\
  (exists d w, by_swaps n d w /\ (forall x, v x = v0 (w x)) /\ d = followers_in n s D).

Lemma apply_from_spec : forall m i p v D, i + m = n -> ainv i D p v ->
  exists p' v' D', apply_from n (seq i m) p v = Some (p', v') /\ ainv n D' p' v'.
Proof.
  induction m as [|m IH]; intros i p v D Hm I; cbn [seq apply_from].
  { exists p, v, D. replace i with n in I by lia. auto. }
  assert (Hi : i < n) by lia. destruct I as (I1 & I2 & I3 & I4 & I5 & I6).
  destruct (Nat.eqb_spec (p i) i) as [E|N].
  - (* skipped *)
    apply IH with (D := fun x => D x || (x =? i)); [lia|]. split; [|split; [|split; [|split; [|split]]]]; auto.
    + intros x Hx. specialize (I1 x Hx). destruct (D x) eqn:Dx; cbn [orb].
      * destruct I1 as [V [Q|Q]]; split; auto; lia.
      * destruct (Nat.eqb_spec x i) as [->|Nx]; [|exact I1]. destruct I1 as [V Q]. split; [|now left]. rewrite V. congruence.
    + intros x Hx. rewrite I2 by auto. destruct (D x) eqn:Dx; [reflexivity|]. cbn [orb].
      destruct (D i) eqn:Di.
      * assert (s x <> i). { intros Q. specialize (I2 x Hx). rewrite Q in I2. congruence. }
        assert (x <> i) by congruence. destruct (Nat.eqb_spec (s x) i), (Nat.eqb_spec x i); congruence.
      * assert (Si : s i = i). { specialize (I1 i Hi). rewrite Di in I1. destruct I1. congruence. }
        destruct (Nat.eqb_spec x i) as [->|Nx]; [rewrite Si; apply Nat.eqb_refl|]. apply Nat.eqb_neq. intros Q. apply Nx. apply (proj2 P); auto. congruence.
    + intros x Hx Hxi. destruct (Nat.eq_dec x i) as [->|]; [rewrite Nat.eqb_refl; apply orb_true_r|]. rewrite I3 by lia. reflexivity.
    + destruct I6 as (d & w & S & V & Ed). exists d, w. split; [exact S|]. split; [exact V|]. rewrite Ed. unfold followers_in.
      apply filter_ext_length. intros x Hx. apply in_seq in Hx. destruct (D x) eqn:Dx; [reflexivity|]. cbn [orb andb].
      destruct (Nat.eqb_spec x i) as [->|Nx]; [|reflexivity]. cbn [andb]. rewrite fixed_leader; auto.
      specialize (I1 i Hi). rewrite Dx in I1. destruct I1. congruence.
  - (* a new cycle *)
    assert (Di : D i = false). { pose proof (I1 i Hi) as Q. destruct (D i); [destruct Q as [_ [Q|Q]]; [congruence|lia]|auto]. }
    assert (Pi : p i = s i) by (pose proof (I1 i Hi) as Q; rewrite Di in Q; apply Q).
    destruct (period_exists n s i P Hi) as (k & Hkn & Hk).
    assert (K2 : 2 <= k). { destruct Hk as (K & E & _). destruct k as [|[|]]; [lia| |lia]. cbn in E. congruence. }
    assert (Dc : forall j, D (Nat.iter j s i) = false) by (intros j; rewrite (iter_closed n s D P I2) by auto; auto).
    assert (Bc : forall j, Nat.iter j s i < n) by (intros; now apply iter_lt).
    destruct (apply_cycle_spec i k s Hk (k - 2) 0 n p v ltac:(lia) ltac:(lia)) as (p' & v' & E & A1 & A2 & A3 & A4 & A5 & A6).
    { intros j Hj. specialize (I1 _ (Bc j)). rewrite Dc in I1. apply I1. }
    change (Nat.iter 1 s i) with (s i) in E. change (Nat.iter 0 s i) with i in E. rewrite Pi, E.
    apply IH with (D := fun x => D x || cyc s i k x); [lia|]. split; [|split; [|split; [|split; [|split]]]].
    + intros x Hx. destruct (cyc s i k x) eqn:C.
      * rewrite orb_true_r. apply cyc_iff in C as (j & Hj & <-). split.
        -- destruct (Nat.eq_dec j (k - 1)) as [->|Nj].
           ++ rewrite A4. rewrite <- iter_S. replace (S (k - 1)) with k by lia. rewrite (proj1 (proj2 Hk)). cbn.
              specialize (I1 i Hi). rewrite Di in I1. apply I1.
           ++ rewrite A3 by lia. specialize (I1 _ (Bc (S j))). rewrite Dc in I1. apply I1.
        -- destruct j; [right; cbn; lia|left; apply A1; lia].
      * pose proof (proj1 (cyc_false _ _ _ _) C) as C'. rewrite orb_false_r. rewrite A5 by (intros; apply C'; lia).
        rewrite A2 by (intros; apply C'; lia). specialize (I1 x Hx). destruct (D x); [|exact I1]. destruct I1 as [V [Q|Q]]; split; auto; lia.
    + intros x Hx. rewrite I2 by auto. rewrite (cyc_closed n s i k x P Hi Hk Hx). reflexivity.
    + intros x Hx Hxi. destruct (Nat.eq_dec x i) as [->|]; [|rewrite I3 by lia; reflexivity].
      replace (cyc s i k i) with true; [apply orb_true_r|]. symmetry. apply cyc_iff. exists 0. split; [lia|reflexivity].
    + intros x Hx. rewrite A5; [auto|]. intros j Hj Q. subst x. specialize (Bc j). lia.
    + intros x Hx L. rewrite A2; [auto|]. intros j Hj ->.
      assert (Q : ~ (Nat.iter j s i < i)). { intros Q. specialize (I3 _ (Bc j) Q). rewrite Dc in I3. discriminate. }
      assert (Q2 : Nat.iter j s i <> i). { intros Q2. assert (j = 0) by (apply (proj2 (proj2 Hk)); [lia|lia|exact Q2]). lia. }
      assert (Q3 : leader n s (Nat.iter j s i) = false).
      { apply (not_leader n s _ (k - j)); auto. rewrite <- iter_add. replace (k - j + j) with k by lia. rewrite (proj1 (proj2 Hk)). lia. }
      congruence.
    + destruct I6 as (d & w & S & V & Ed). destruct (A6 n d w v0 Bc S V) as (w' & S' & V'). exists (d + (k - 2 + 1)), w'.
      split; [exact S'|]. split; [exact V'|]. rewrite followers_cycle; auto; [lia|]. apply leader_iff; auto. intros j.
      destruct (Nat.le_gt_cases i (Nat.iter j s i)) as [Q|Q]; [auto|]. specialize (I3 _ (Bc j) Q). rewrite Dc in I3. discriminate.
Qed.

End V.
End Apply.

Lemma by_swaps_ext n d p q : by_swaps n d p -> (forall i, i < n -> p i = q i) -> by_swaps n d q.
Proof.
  intros S E. destruct S as [p Id|k p0 p a b S Ha Hb N Q].
  - constructor. intros i Hi. rewrite <- E by auto. now apply Id.
  - apply (bs_swap n k p0 q a b); auto. intros i Hi. rewrite <- E by auto. auto.
Qed.
Lemma apply_init {A} n s (v0 : nat -> A) : is_perm n s -> ainv n s v0 0 (fun _ => false) s v0.
Proof.
  intros P. split; [|split; [|split; [|split; [|split]]]]; auto; [intros; lia|]. exists 0, (fun x => x).
  split; [constructor; intros x _; reflexivity|]. split; [auto|]. now rewrite followers_none.
Qed.
(** Every permutation is reached by as many exchanges as it has positions that are not least of their cycle. *)
Lemma by_swaps_followers n s : is_perm n s -> by_swaps n (length (filter (fun x => negb (leader n s x)) (seq 0 n))) s.
Proof.
  intros P. destruct (apply_from_spec n s P (fun x => x) n 0 s (fun x => x) _ eq_refl (apply_init n s (fun x => x) P))
    as (p' & v' & D & E & I1 & I2 & I3 & I4 & I5 & d & w & S & V & Ed).
  replace (length (filter (fun x => negb (leader n s x)) (seq 0 n))) with d.
  - apply (by_swaps_ext n d w); auto. intros i Hi. rewrite <- V. specialize (I1 i Hi). rewrite (I3 i Hi Hi) in I1. apply I1.
  - rewrite Ed. unfold followers_in. apply filter_ext_length. intros x Hx. apply in_seq in Hx. rewrite I3 by lia. reflexivity.
Qed.

Lemma apply_ok {A} n s (v0 : nat -> A) : is_perm n s -> exists p' v', permutation_apply s n v0 = Some (p', v') /\
  (forall i, i < n -> v' i = v0 (s i)) /\ (forall i, n <= i -> v' i = v0 i) /\
  (forall i, i < n -> leader n s i = true -> p' i = s i).
Proof.
  intros P. destruct (apply_from_spec n s P v0 n 0 s v0 _ eq_refl (apply_init n s v0 P)) as (p' & v' & D & E & I1 & I2 & I3 & I4 & I5 & _).
  exists p', v'. split; [exact E|]. split; [|split; [exact I4|exact I5]].
  intros i Hi. specialize (I1 i Hi). rewrite (I3 i Hi Hi) in I1. apply I1.
Qed.
Lemma apply_not_identity {A} n s (v0 : nat -> A) p' v' : is_perm n s -> ~ is_identity n s ->
  permutation_apply s n v0 = Some (p', v') -> ~ is_identity n p'.
Proof.
  intros P NI E Id. destruct (apply_ok n s v0 P) as (p2 & v2 & E2 & _ & _ & L). rewrite E in E2. injection E2 as <- <-.
  apply NI. intros x Hx. destruct (leader_exists n s x P Hx) as (j & Lj).
  pose proof (iter_lt n s P j x Hx) as B. assert (F : s (Nat.iter j s x) = Nat.iter j s x).
  { rewrite <- (L _ B Lj). now apply Id. }
  apply (iter_inj n s P j); [apply P; auto|auto|]. rewrite <- iter_S_r. exact F.
Qed.

(** ** permutation_sign *)
Section Sign.
Variables (n : nat) (s : nat -> nat).
Hypothesis P : is_perm n s.

Definition moved_in (D : nat -> bool) : nat := length (filter (fun x => D x && negb (s x =? x)) (seq 0 n)).
Definition sinv (i : nat) (D : nat -> bool) (p : nat -> nat) (odd : bool) : Prop :=
  (forall x, x < n -> p x = if D x then x else s x) /\
  (forall x, x < n -> D (s x) = D x) /\ (forall x, x < n -> x < i -> D x = true) /\ odd = Nat.odd (moved_in D).

Lemma sign_from_spec : forall m i p odd D, i + m = n -> sinv i D p odd ->
  exists p' odd' D', sign_from n (seq i m) p odd = Some (p', odd') /\ sinv n D' p' odd'.
Proof.
  induction m as [|m IH]; intros i p odd D Hm I; cbn [seq sign_from].
  { exists p, odd, D. replace i with n in I by lia. auto. }
  assert (Hi : i < n) by lia. destruct I as (I1 & I2 & I3 & I4).
  destruct (Nat.eqb_spec (p i) i) as [E|N].
  - apply IH with (D := fun x => D x || (x =? i)); [lia|]. split; [|split; [|split]].
    + intros x Hx. rewrite I1 by auto. destruct (D x) eqn:Dx; [reflexivity|]. cbn [orb].
      destruct (Nat.eqb_spec x i) as [->|Nx]; [|reflexivity]. rewrite I1 in E by auto. rewrite Dx in E. exact E.
    + intros x Hx. rewrite I2 by auto. destruct (D x) eqn:Dx; [reflexivity|]. cbn [orb].
      destruct (D i) eqn:Di.
      * assert (s x <> i). { intros Q. specialize (I2 x Hx). rewrite Q in I2. congruence. }
        assert (x <> i) by congruence. destruct (Nat.eqb_spec (s x) i), (Nat.eqb_spec x i); congruence.
      * assert (Si : s i = i). { rewrite I1 in E by auto. rewrite Di in E. exact E. }
        destruct (Nat.eqb_spec x i) as [->|Nx]; [rewrite Si; apply Nat.eqb_refl|]. apply Nat.eqb_neq. intros Q. apply Nx. apply (proj2 P); auto. congruence.
    + intros x Hx Hxi. destruct (Nat.eq_dec x i) as [->|]; [rewrite Nat.eqb_refl; apply orb_true_r|]. rewrite I3 by lia. reflexivity.
    + rewrite I4. f_equal. unfold moved_in. apply filter_ext_length. intros x Hx. apply in_seq in Hx.
      destruct (D x) eqn:Dx; [reflexivity|]. cbn [orb andb]. destruct (Nat.eqb_spec x i) as [->|Nx]; [|reflexivity].
      cbn [andb]. rewrite I1 in E by auto. rewrite Dx in E. rewrite E, Nat.eqb_refl. reflexivity.
  - assert (Di : D i = false). { pose proof (I1 i Hi) as Q. destruct (D i); [congruence|auto]. }
    assert (Pi : p i = s i) by (rewrite I1 by auto; now rewrite Di).
    destruct (period_exists n s i P Hi) as (k & Hkn & Hk).
    assert (K2 : 2 <= k). { destruct Hk as (K & E & _). destruct k as [|[|]]; [lia| |lia]. cbn in E. congruence. }
    assert (Dc : forall j, D (Nat.iter j s i) = false) by (intros j; rewrite (iter_closed n s D P I2) by auto; auto).
    assert (Bc : forall j, Nat.iter j s i < n) by (intros; now apply iter_lt).
    destruct (sign_cycle_spec i k s Hk (k - 1) 0 n p odd ltac:(lia) ltac:(lia)) as (p' & E & A1 & A2).
    { intros j Hj. rewrite I1 by auto. now rewrite Dc. }
    change (Nat.iter 0 s i) with i in E. rewrite E.
    apply IH with (D := fun x => D x || cyc s i k x); [lia|]. split; [|split; [|split]].
    + intros x Hx. destruct (cyc s i k x) eqn:C.
      * rewrite orb_true_r. apply cyc_iff in C as (j & Hj & <-). apply A1. lia.
      * rewrite orb_false_r. rewrite A2; [auto|]. intros. apply (proj1 (cyc_false _ _ _ _) C). lia.
    + intros x Hx. rewrite I2 by auto. rewrite (cyc_closed n s i k x P Hi Hk Hx). reflexivity.
    + intros x Hx Hxi. destruct (Nat.eq_dec x i) as [->|]; [|rewrite I3 by lia; reflexivity].
      replace (cyc s i k i) with true; [apply orb_true_r|]. symmetry. apply cyc_iff. exists 0. split; [lia|reflexivity].
    + rewrite I4. unfold moved_in.
      rewrite (filter_ext_length (fun x => (D x || cyc s i k x) && negb (s x =? x)) (fun x => (D x && negb (s x =? x)) || cyc s i k x)).
      * rewrite filter_or_length.
        -- rewrite cyc_count by auto. rewrite Nat.odd_add. now rewrite Nat.sub_0_r.
        -- intros x Hx Q. apply andb_true_iff in Q as [Q _]. apply cyc_false. intros j Hj ->. rewrite Dc in Q. discriminate.
      * intros x Hx. apply in_seq in Hx. destruct (cyc s i k x) eqn:C; [|rewrite !orb_false_r; reflexivity].
        rewrite !orb_true_r. cbn [andb]. apply cyc_iff in C as (j & Hj & <-). rewrite negb_true_iff. apply Nat.eqb_neq.
        rewrite <- iter_S. intros Q. rewrite iter_S_r in Q. apply (iter_inj n s P j) in Q; auto. { congruence. } apply (Bc 1).
Qed.
Lemma sign_ok : exists p', permutation_sign s n = Some (p', if Nat.odd (displaced n s) then (-1)%Z else 1%Z) /\ is_identity n p'.
Proof.
  destruct (sign_from_spec n 0 s false (fun _ => false) eq_refl) as (p' & o & D & E & I1 & I2 & I3 & I4).
  { split; [|split; [|split]]; auto; [intros; lia|]. unfold moved_in. cbn [andb].
    assert (Q : filter (fun _ : nat => false) (seq 0 n) = []) by (induction (seq 0 n); auto). rewrite Q. reflexivity. }
  exists p'. unfold permutation_sign. rewrite E. split.
  - rewrite I4. unfold moved_in, displaced. rewrite (filter_ext_length _ (fun i => negb (s i =? i))); [reflexivity|].
    intros x Hx. apply in_seq in Hx. rewrite I3 by lia. reflexivity.
  - intros x Hx. rewrite I1 by auto. rewrite I3 by auto. reflexivity.
Qed.

(** ** _compute_sign *)
Definition cinv (i : nat) (D : nat -> bool) (odd : bool) : Prop :=
  (forall x, x < n -> D (s x) = D x) /\ (forall x, x < n -> x < i -> D x = true) /\ odd = Nat.odd (followers_in n s D).

Lemma compute_from_spec : forall m i D odd, i + m = n -> cinv i D odd ->
  exists odd' D', compute_from n (seq i m) s D odd = Some odd' /\ cinv n D' odd'.
Proof.
  induction m as [|m IH]; intros i D odd Hm I; cbn [seq compute_from].
  { exists odd, D. replace i with n in I by lia. auto. }
  assert (Hi : i < n) by lia. destruct I as (I2 & I3 & I4). destruct (D i) eqn:Di.
  - apply IH with (D := D); [lia|]. split; [auto|]. split; [|auto]. intros x Hx Hxi. destruct (Nat.eq_dec x i) as [->|]; [auto|apply I3; lia].
  - destruct (period_exists n s i P Hi) as (k & Hkn & Hk). pose proof (proj1 Hk) as K.
    assert (Dc : forall j, D (Nat.iter j s i) = false) by (intros j; rewrite (iter_closed n s D P I2) by auto; auto).
    assert (Bc : forall j, Nat.iter j s i < n) by (intros; now apply iter_lt).
    destruct (mark_cycle_spec i k s Hk (k - 1) 1 (S n) (upd D i true) odd ltac:(lia) ltac:(lia) ltac:(lia)) as (buf' & E & A).
    { intros j Hj. replace j with 0 by lia. apply upd_same. }
    { intros j Hj. rewrite upd_diff; [apply Dc|]. intros Q. assert (j = 0) by (apply (proj2 (proj2 Hk)); [lia|lia|exact Q]). lia. }
    change (Nat.iter 1 s i) with (s i) in E. rewrite E.
    assert (A' : forall x, buf' x = D x || cyc s i k x).
    { intros x. rewrite A. unfold upd. destruct (Nat.eqb_spec x i) as [->|]; [|reflexivity].
      replace (cyc s i k i) with true; [now rewrite !orb_true_r|]. symmetry. apply cyc_iff. exists 0. split; [lia|reflexivity]. }
    apply IH with (D := buf'); [lia|]. split; [|split].
    + intros x Hx. rewrite !A'. rewrite I2 by auto. rewrite (cyc_closed n s i k x P Hi Hk Hx). reflexivity.
    + intros x Hx Hxi. rewrite A'. destruct (Nat.eq_dec x i) as [->|]; [|rewrite I3 by lia; reflexivity].
      replace (cyc s i k i) with true; [apply orb_true_r|]. symmetry. apply cyc_iff. exists 0. split; [lia|reflexivity].
    + assert (Li : leader n s i = true).
      { apply leader_iff; auto. intros j. destruct (Nat.le_gt_cases i (Nat.iter j s i)) as [Q|Q]; [auto|].
        specialize (I3 _ (Bc j) Q). rewrite Dc in I3. discriminate. }
      replace (followers_in n s buf') with (followers_in n s (fun x => D x || cyc s i k x)).
      * rewrite (followers_cycle n s i k D) by auto. rewrite I4, Nat.odd_add. reflexivity.
      * unfold followers_in. apply filter_ext_length. intros x _. now rewrite A'.
Qed.
Lemma compute_ok : compute_sign s n = Some (Nat.odd (length (filter (fun x => negb (leader n s x)) (seq 0 n)))).
Proof.
  destruct (compute_from_spec n 0 (fun _ => false) false eq_refl) as (o & D & E & I2 & I3 & I4).
  { split; [auto|]. split; [intros; lia|]. now rewrite followers_none. }
  unfold compute_sign. rewrite E. f_equal. rewrite I4. unfold followers_in. f_equal. apply filter_ext_length.
  intros x Hx. apply in_seq in Hx. rewrite I3 by lia. reflexivity.
Qed.
(** A position that is not a leader is displaced. *)
Lemma displaced_split : displaced n s = length (filter (fun x => negb (leader n s x)) (seq 0 n)) + nontrivial_cycles n s.
Proof.
  unfold displaced, nontrivial_cycles. rewrite <- filter_or_length.
  - apply filter_ext_length. intros x Hx. apply in_seq in Hx. destruct (leader n s x) eqn:L; cbn [negb orb andb]; [reflexivity|].
    rewrite negb_true_iff. apply Nat.eqb_neq. intros E. assert (F : leader n s x = true); [|congruence]. apply fixed_leader; auto; lia.
  - intros x _ Q. apply negb_true_iff in Q. now rewrite Q.
Qed.
End Sign.
