(** Refinement proof: SmallModel refines SmallSpec.  A SmallStorage is viewed as a ring buffer whose
    head never moves, so that the memory lemmas of the Deque proof apply. *)
From Coq Require Import ZArith List Bool Lia PeanoNat ZifyBool ZifyNat.
From Verif Require Import Mem MemLemmas DequeModel DequeSpec DequeProofs DequeProofs2 SmallModel SmallSpec.
Import ListNotations.
Open Scope Z_scope.
Open Scope res_scope.

Section P.
Context {A : Type}.
Variable N : Z.
Hypothesis HN : 0 <= N.

Notation mem := (mem A).

Definition toD (s : small) : deque := mkDeque (s_inl s) (s_data s) (s_cap s) 0 (s_size s).
Notation srep m s L := (rep N m (toD s) L).

Lemma item0 s i : 0 <= i < s_cap s -> item (toD s) i = Ok i.
Proof.
  intros H. unfold item, c_rem, toD; cbn [cap head]. replace (s_cap s =? 0) with false by lia.
  rewrite Z.rem_mod_nonneg by lia. rewrite Z.mod_small by lia. f_equal; lia.
Qed.

Lemma index0 s i : 0 <= i < s_size s -> s_size s <= s_cap s -> index_slot (toD s) i = Ok i.
Proof.
  intros H Hc. rewrite index_slot_small; unfold toD; cbn [cap head size]; try lia.
  rewrite Z.mod_small by lia. f_equal; lia.
Qed.

Lemma destroy_range_eq s n : forall (m : mem) i, 0 <= i -> i + Z.of_nat n <= s_cap s ->
  destroy_range m (s_data s) i n = destroy_items m (toD s) i n.
Proof.
  induction n as [|n IH]; intros m i Hi Hn; cbn [destroy_range destroy_items]; [reflexivity|].
  rewrite item0 by lia. cbn [bind]. unfold toD at 1; cbn [data].
  destruct (destroy m (s_data s) i); [|reflexivity]. cbn [bind]. apply IH; lia.
Qed.

Lemma move_range_eq s b n : forall (m : mem) i, 0 <= i -> i + Z.of_nat n <= s_cap s ->
  move_range m (s_data s) b i n = reserve_items m (toD s) b i n.
Proof.
  induction n as [|n IH]; intros m i Hi Hn; cbn [move_range reserve_items]; [reflexivity|].
  rewrite item0 by lia. cbn [bind]. unfold toD at 1 2; cbn [data].
  destruct (move_out m (s_data s) i) as [[v m1]|]; [|reflexivity]. cbn [bind].
  destruct (construct m1 b i v) as [m2|]; [|reflexivity]. cbn [bind].
  destruct (destroy m2 (s_data s) i) as [m3|]; [|reflexivity]. cbn [bind]. apply IH; lia.
Qed.

Lemma copy_range_eq s b n : forall (m : mem) i, 0 <= i -> i + Z.of_nat n <= s_size s ->
  s_size s <= s_cap s ->
  copy_range m (s_data s) b i n = copy_items m b (toD s) i n.
Proof.
  induction n as [|n IH]; intros m i Hi Hn Hc; cbn [copy_range copy_items]; [reflexivity|].
  rewrite index0 by lia. cbn [bind]. unfold toD at 1; cbn [data].
  destruct (load m (s_data s) i) as [v|]; [|reflexivity]. cbn [bind].
  destruct (construct m b i v) as [m1|]; [|reflexivity]. cbn [bind]. apply IH; lia.
Qed.

Lemma fill_range_eq b v n : forall (m : mem) i,
  fill_range m b v i n = construct_seq m b i (repeat v n).
Proof.
  induction n as [|n IH]; intros m i; cbn [fill_range construct_seq repeat]; [reflexivity|].
  destruct (construct m b i v); [|reflexivity]. cbn [bind]. apply IH.
Qed.

Lemma srep_bounds (m : mem) s L : srep m s L ->
  s_size s = len L /\ s_size s <= s_cap s /\ N <= s_cap s /\ 0 <= s_size s.
Proof.
  intros R. pose proof (r_size _ _ _ _ R) as H1. pose proof (r_le _ _ _ _ R) as H2.
  pose proof (r_cap _ _ _ _ R) as H3. unfold toD in *; cbn [size cap] in *.
  unfold len in *. repeat split; lia.
Qed.

Lemma s_dtor_eq (m : mem) s L : srep m s L -> s_dtor N m s = dtor N m (toD s).
Proof.
  intros R. destruct (srep_bounds _ _ _ R) as (H1 & H2 & H3 & H4). unfold s_dtor, dtor.
  rewrite destroy_range_eq by lia. unfold toD; cbn [size cap data inl].
  destruct (destroy_items m _ 0 _) as [m1|]; [|reflexivity]. cbn [bind].
  replace ((N <? s_cap s) && (0 <? s_cap s)) with (N <? s_cap s) by lia. reflexivity.
Qed.

Definition lift (r : res (mem * deque)) : res (mem * small) :=
  match r with Ok (m, d) => Ok (m, mkSmall (inl d) (data d) (cap d) (size d)) | Fault f => Fault f end.

Lemma lift_toD (m : mem) s : lift (Ok (m, toD s)) = Ok (m, s).
Proof. destruct s; reflexivity. Qed.

Lemma s_clear_eq (m : mem) s L : srep m s L -> s_clear m s = lift (clear m (toD s)).
Proof.
  intros R. destruct (srep_bounds _ _ _ R) as (H1 & H2 & H3 & H4). unfold s_clear, clear.
  rewrite destroy_range_eq by lia. unfold toD; cbn [size cap data inl].
  destruct (destroy_items m _ 0 _) as [m1|]; reflexivity.
Qed.

Lemma trans_in (m : mem) o m' (s : small) : trans m o m' (fp (toD s)) -> trans m o m' (ofp (Some (toD s))).
Proof. auto. Qed.

Lemma s_new_ok (m : mem) m' s :
  fresh_ok m -> s_new N m = (m', s) ->
  srep m' s [] /\ s_cap s = N /\ trans m (fun _ => False) m' (fp (toD s)).
Proof.
  intros Hf E. apply (new_default_ok N HN m m' (toD s) Hf).
  unfold s_new in E. unfold new_default. destruct (alloc m Inl N) as [b m1].
  injection E as <- <-. reflexivity.
Qed.

Lemma s_new_seq_ok (m : mem) l :
  fresh_ok m ->
  exists m' s, s_new_seq N m l = Ok (m', s) /\
  srep m' s l /\ s_cap s = Z.max (len l) N /\ trans m (fun _ => False) m' (fp (toD s)).
Proof.
  intros Hf. destruct (new_seq_ok N HN m l Hf) as (m' & d & E & R & C & T).
  unfold new_seq in E. unfold s_new_seq. fold (len l) in *.
  destruct (alloc m Inl N) as [b m1].
  replace (N <? Z.max (len l) N) with (N <? len l) by lia.
  destruct (new_storage m1 b (N <? len l) (len l)) as [dat m2].
  destruct (construct_seq m2 dat 0 l) as [m3|]; [|discriminate]. cbn [bind] in *.
  injection E as <- <-. eexists _, _. split; [reflexivity|]. auto.
Qed.

Lemma s_new_fill_ok (m : mem) v n :
  fresh_ok m -> 0 <= n ->
  exists m' s, s_new_fill N m v n = Ok (m', s) /\
  srep m' s (repeat v (Z.to_nat n)) /\ s_cap s = Z.max n N /\ trans m (fun _ => False) m' (fp (toD s)).
Proof.
  intros Hf Hn. destruct (s_new_seq_ok m (repeat v (Z.to_nat n)) Hf) as (m' & s & E & R & C & T).
  assert (El : len (repeat v (Z.to_nat n)) = n) by (unfold len; rewrite repeat_length; lia).
  exists m', s. rewrite El in C. split; [|auto].
  unfold s_new_seq in E. unfold s_new_fill. fold (len (repeat v (Z.to_nat n))) in E. rewrite El in E.
  destruct (alloc m Inl N) as [b m1]. replace (N <? Z.max n N) with (N <? n) in E by lia.
  destruct (new_storage m1 b (N <? n) n) as [dat m2]. rewrite fill_range_eq. exact E.
Qed.

Lemma s_copy_ctor_ok (m : mem) s L :
  srep m s L -> fresh_ok m ->
  exists m' s', s_copy_ctor N m s = Ok (m', s') /\
  srep m' s' L /\ s_cap s' = Z.max (len L) N /\ trans m (fun _ => False) m' (fp (toD s')).
Proof.
  intros R Hf. destruct (srep_bounds _ _ _ R) as (Hs & Hle & Hc & H0). unfold s_copy_ctor.
  destruct (alloc m Inl N) as [b m1] eqn:E1.
  replace (N <? Z.max (s_size s) N) with (N <? s_size s) by lia.
  destruct (new_storage m1 b (N <? s_size s) (s_size s)) as [dat m2] eqn:E2.
  destruct (new_obj N HN _ _ _ _ _ _ Hf E1 E2) as (R2 & T & Nb & Nd).
  pose proof (r_data _ _ _ _ R2) as B. cbn [data cap head] in B.
  assert (Hal : forall b', fp (toD s) b' -> blk m2 b' = blk m b').
  { intros b' Hb'. pose proof (rep_blocks _ _ _ _ _ R Hb') as Hnn.
    apply (t_same _ _ _ _ T); [tauto|]. intros [E|E]; cbn in E; subst b'; congruence. }
  pose proof (rep_frame _ _ _ _ _ R Hal) as R'.
  assert (Hned : dat <> data (toD s)).
  { intros ->. apply (rep_blocks _ _ _ _ (data (toD s)) R); [right; auto|auto]. }
  rewrite copy_range_eq by lia.
  destruct (copy_items_ok (Z.to_nat (s_size s)) m2 dat (toD s) 0 _ _ _ _ _ (r_data _ _ _ _ R')
     ltac:(cbn; lia) ltac:(lia) ltac:(cbn [toD size]; lia) (r_le _ _ _ _ R') B Hned ltac:(lia))
     as (m3 & E3 & B3 & F3).
  { intros k Hk. split; [|apply cellsof_nil].
    destruct (cellsof_live L k) as (v & _ & Hv); [lia|]. eauto. }
  rewrite E3. cbn [bind]. eexists _, _. split; [reflexivity|]. split; [|split; [cbn; lia|]].
  - eapply (rep_content N m2 m3 (mkDeque b dat (Z.max (s_size s) N) 0 0) [] L 0 (s_size s)); auto.
    + lia.
    + cbn [cap]. lia.
    + cbn [cap]. lia.
    + cbn [data cap] in *. eapply brep_ext; [|exact B3]. intros k Hk. cbn beta. unfold in_rng.
      destruct ((0 <=? k) && _) eqn:Er; [reflexivity|].
      rewrite cellsof_nil. symmetry. apply cellsof_raw. lia.
  - eapply trans_frame; [exact T|eapply (frame_fp m2 m3 (mkDeque b dat (Z.max (s_size s) N) 0 0)); exact F3| |reflexivity|reflexivity].
    intros b0 Hb0. exact (rep_blocks _ _ _ _ _ R2 Hb0).
Qed.

Lemma s_move_ctor_ok (m : mem) s L :
  srep m s L -> fresh_ok m -> (N < s_cap s \/ len L = 0) ->
  exists m' s' o', s_move_ctor N m s = Ok (m', s', o') /\
  srep m' s' L /\ s_cap s' = s_cap s /\ srep m' o' [] /\ s_cap o' = N /\
  trans m (fp (toD s)) m' (fun b => fp (toD s') b \/ fp (toD o') b) /\
  (forall b, fp (toD s') b -> ~ fp (toD o') b).
Proof.
  intros R Hf Hg. destruct (srep_bounds _ _ _ R) as (Hs & Hle & Hc & H0).
  destruct (move_ctor_ok N HN m (toD s) L R Hf) as (m' & d' & o' & E & R' & C' & Ro & Co & T & Hd).
  unfold move_ctor in E. unfold s_move_ctor. unfold toD at 1 2 3 4 5 6 7 8 9 10 in E; cbn [cap data head size inl] in E.
  destruct (alloc m Inl N) as [b m1].
  destruct (s_cap s <=? N) eqn:Ec.
  - assert (L = []) as -> by (destruct L; [auto|unfold len in *; cbn [length] in *; lia]).
    assert (Es : s_size s = 0) by (unfold len in Hs; cbn in Hs; lia).
    rewrite Es in *. cbn [Z.to_nat move_items bind move_range] in *.
    injection E as <- <- <-. eexists _, _, _. split; [reflexivity|].
    unfold toD in *; cbn [cap data head size inl s_inl s_data s_cap s_size] in *.
    replace (if N <? s_cap s then 0 else 0) with 0 in R' by (destruct (N <? s_cap s); auto).
    rewrite ?Es in *. split; [exact R'|]. split; [reflexivity|]. split; [exact Ro|].
    split; [exact Co|]. split; [exact T|exact Hd].
  - cbn [bind] in E. injection E as <- <- <-. eexists _, _, _. split; [reflexivity|].
    unfold toD in *; cbn [cap data head size inl s_inl s_data s_cap s_size] in *.
    replace (if N <? s_cap s then 0 else 0) with 0 in R' by (destruct (N <? s_cap s); auto).
    split; [exact R'|]. split; [reflexivity|]. split; [exact Ro|].
    split; [exact Co|]. split; [exact T|exact Hd].
Qed.

(** Destroying everything and giving the heap array back, if there is one. *)
Lemma empty_out (m : mem) s L :
  srep m s L -> fresh_ok m ->
  exists m1 m2, destroy_range m (s_data s) 0 (Z.to_nat (s_size s)) = Ok m1 /\
    (if N <? s_cap s then release m1 Heap (s_data s) else Ok m1) = Ok m2 /\
    brep m2 (s_inl s) Inl N 0 (fun _ => Raw) /\ fresh_ok m2 /\ next m2 = next m /\
    (forall b, ~ fp (toD s) b -> blk m2 b = blk m b) /\
    (N < s_cap s -> blk m2 (s_data s) = None /\ s_data s <> s_inl s) /\
    (s_cap s <= N -> s_data s = s_inl s).
Proof.
  intros R Hf. destruct (srep_bounds _ _ _ R) as (Hs & Hle & Hc & H0).
  destruct (destroy_all_ok N m (toD s) L R) as (m1 & E1 & B1 & F1). cbn [toD size data cap head] in *.
  exists m1. rewrite destroy_range_eq by lia. rewrite E1.
  pose proof (r_inl _ _ _ _ R) as RI. cbn [toD cap data inl] in RI.
  assert (Hf1 : fresh_ok m1).
  { eapply frame_fresh; [exact F1| |exact Hf]. cbn. intros b ->.
    eapply rep_blocks; [exact R|right; auto]. }
  unfold dkind in B1; cbn [cap toD] in B1. destruct (N <? s_cap s) eqn:EN.
  - destruct RI as [Hne BI].
    destruct (release_brep _ _ _ _ _ _ B1 ltac:(auto)) as (m3 & E3 & Hn3 & F3).
    exists m3. split; [reflexivity|]. split; [exact E3|]. split; [|split; [|split; [|split; [|split]]]].
    + eapply frame_brep; [exact F3|cbn; auto|]. eapply frame_brep; [exact F1|cbn; auto|exact BI].
    + intros b Hb. destruct F3 as [F3n F3]. rewrite F3n in Hb.
      destruct (Nat.eq_dec b (s_data s)) as [->|]; [exact Hn3|]. rewrite F3 by (cbn; auto). auto.
    + destruct F3 as [-> _], F1 as [-> _]. reflexivity.
    + intros b Hb. unfold fp in Hb; cbn in Hb. destruct F3 as [_ F3], F1 as [_ F1].
      rewrite F3, F1 by (cbn; tauto). reflexivity.
    + intros _. split; auto.
    + lia.
  - exists m1. split; [reflexivity|]. split; [reflexivity|]. split; [|split; [|split; [|split; [|split]]]]; auto.
    + assert (EcN : s_cap s = N) by lia. rewrite RI, EcN in B1. exact B1.
    + destruct F1 as [-> _]. reflexivity.
    + intros b Hb. unfold fp in Hb; cbn in Hb. destruct F1 as [_ F1]. apply F1; cbn; tauto.
    + lia.
Qed.

Lemma s_move_assign_ok (m : mem) s L o Lo :
  srep m s L -> srep m o Lo -> fresh_ok m -> (forall b, fp (toD s) b -> ~ fp (toD o) b) ->
  exists m' s' o', s_move_assign N m s o = Ok (m', s', o') /\
  srep m' s' Lo /\ s_cap s' = s_cap o /\
  srep m' o' [] /\ s_cap o' = N /\
  trans m (fun b => fp (toD s) b \/ fp (toD o) b) m' (fun b => fp (toD s') b \/ fp (toD o') b) /\
  (forall b, fp (toD s') b -> ~ fp (toD o') b).
Proof.
  intros R Ro Hf Hdis. unfold s_move_assign.
  destruct (srep_bounds _ _ _ R) as (Hs & Hle & Hc & H0).
  destruct (srep_bounds _ _ _ Ro) as (Hso & Hleo & Hco & H0o).
  destruct (empty_out m s L R Hf) as (m1 & m2 & E1 & E2 & BI & Hf2 & Hn2 & Hsame & Hheap & Hinl).
  rewrite E1. cbn [bind]. rewrite E2. cbn [bind].
  assert (Ro2 : srep m2 o Lo).
  { eapply rep_frame; [exact Ro|]. intros b Hb. apply Hsame. intro H. exact (Hdis b H Hb). }
  assert (N2 : s_data o <> s_inl s) by (intro; apply (Hdis (s_inl s)); [left|right]; cbn; auto).
  assert (N4 : s_inl o <> s_inl s) by (intro; apply (Hdis (s_inl s)); [left|left]; cbn; auto).
  assert (N1 : s_data o <> s_data s) by (intro; apply (Hdis (s_data s)); [right|right]; cbn; auto).
  assert (N3 : s_inl o <> s_data s) by (intro; apply (Hdis (s_data s)); [right|left]; cbn; auto).
  pose proof (r_inl _ _ _ _ Ro2) as RIo. cbn [toD cap data inl] in RIo.
  pose proof (r_data _ _ _ _ Ro2) as BD. cbn [toD cap data head] in BD. unfold dkind in BD; cbn [cap toD] in BD.
  destruct (N <? s_cap o) eqn:EN.
  - destruct RIo as [Hneo BIo]. cbn [bind]. eexists _, _, _. split; [reflexivity|].
    unfold toD; cbn [s_inl s_data s_cap s_size].
    split; [|split; [reflexivity|split; [|split; [reflexivity|split]]]].
    + constructor; cbn [cap head size inl data]; auto; try lia.
      * unfold dkind; cbn [cap]. rewrite EN. exact BD.
      * rewrite EN. split; auto.
    + apply (rep_empty_inline N HN m2 (toD o)). exact BIo.
    + constructor; [exact Hf2| | |].
      * intros b H1 H2. unfold fp in H1, H2; cbn in H1, H2. apply Hsame. unfold fp; cbn. tauto.
      * intros b Hb. unfold fp; cbn.
        destruct (Nat.eq_dec b (s_data o)); [auto|]. destruct (Nat.eq_dec b (s_inl o)); [auto|].
        destruct (Nat.eq_dec b (s_inl s)); [auto|].
        destruct (Nat.eq_dec b (s_data s)) as [->|].
        -- destruct (Z.lt_ge_cases N (s_cap s)) as [Hl|Hl]; [apply Hheap in Hl; tauto|].
           apply Hinl in Hl; congruence.
        -- right. rewrite Hsame in Hb by (unfold fp; cbn; tauto). tauto.
      * intros b H. unfold fp in *; cbn in *. destruct H as [[|]|[|]]; auto.
    + intros b [H|H] [H'|H']; cbn in H, H'; subst b; congruence.
  - assert (Hcapo : s_cap o = N) by lia.
    rewrite move_range_eq by lia.
    destruct (reserve_items_ok (Z.to_nat (s_size o)) m2 (toD o) (s_inl s) 0 _ _ _ _ _ (r_data _ _ _ _ Ro2)
       ltac:(cbn; lia) ltac:(lia) ltac:(cbn [toD cap]; lia) BI) as (m3 & E3 & B3 & B3' & F3).
    { cbn [toD data]. auto. } { lia. }
    { intros k Hk. split; [|reflexivity].
      destruct (cellsof_live Lo k) as (v & _ & Hv); [lia|]. eauto. }
    rewrite E3. cbn [bind]. eexists _, _, _. split; [reflexivity|].
    unfold toD in *; cbn [s_inl s_data s_cap s_size data cap head size inl] in *.
    split; [|split; [reflexivity|split; [|split; [reflexivity|split]]]].
    + constructor; cbn [cap head size inl data]; auto; try lia.
      * unfold dkind; cbn [cap]. rewrite EN, Hcapo.
        eapply brep_ext; [|exact B3']. intros k Hk. cbn beta. unfold in_rng.
        destruct ((0 <=? k) && _) eqn:Er; [reflexivity|]. symmetry; apply cellsof_raw; lia.
      * rewrite EN. reflexivity.
    + apply (rep_empty_inline N HN m3 (mkDeque (s_inl o) 0 0 0 0)). cbn [inl].
      rewrite <- RIo, <- Hcapo. unfold dkind in B3; cbn [cap] in B3. rewrite EN in B3.
      eapply brep_ext; [|exact B3]. intros k Hk. cbn beta. unfold in_rng.
      destruct ((0 <=? k) && _) eqn:Er; [reflexivity|]. apply cellsof_raw; lia.
    + destruct F3 as [F3n F3]. constructor.
      * intros b Hb. rewrite F3n in Hb. rewrite F3; [auto|]. intros H. cbn in H.
        assert (blk m2 b <> None); [|now apply H1, Hf2].
        destruct H as [->| ->].
        -- exact (rep_blocks _ _ _ _ (s_data o) Ro2 (or_intror eq_refl)).
        -- eapply brep_some; exact BI.
      * intros b H1 H2. unfold fp in H1, H2; cbn in H1, H2.
        rewrite F3 by (cbn; tauto). apply Hsame. unfold fp; cbn. tauto.
      * intros b Hb. unfold fp; cbn.
        destruct (Nat.eq_dec b (s_data o)) as [->|]; [rewrite RIo; auto|]. destruct (Nat.eq_dec b (s_inl o)); [auto|].
        destruct (Nat.eq_dec b (s_inl s)); [auto|].
        rewrite F3 in Hb by (cbn; tauto).
        destruct (Nat.eq_dec b (s_data s)) as [->|].
        -- destruct (Z.lt_ge_cases N (s_cap s)) as [Hl|Hl]; [apply Hheap in Hl; tauto|].
           apply Hinl in Hl; congruence.
        -- right. rewrite Hsame in Hb by (unfold fp; cbn; tauto). tauto.
      * intros b H. unfold fp in *; cbn in *. destruct H as [[|]|[|]]; auto.
    + intros b [H|H] [H'|H']; cbn in H, H'; subst b; congruence.
Qed.

Lemma s_copy_assign_ok (m : mem) s L o Lo :
  srep m s L -> srep m o Lo -> fresh_ok m -> (forall b, fp (toD s) b -> ~ fp (toD o) b) ->
  exists m' s', s_copy_assign N m false s o = Ok (m', s') /\
  srep m' s' Lo /\
  s_cap s' = (if s_cap s <? len Lo then Z.min (s_cap o) (2 * len Lo) else s_cap s) /\
  trans m (fp (toD s)) m' (fp (toD s')).
Proof.
  intros R Ro Hf Hdis. unfold s_copy_assign.
  destruct (srep_bounds _ _ _ R) as (Hs & Hle & Hc & H0).
  destruct (srep_bounds _ _ _ Ro) as (Hso & Hleo & Hco & H0o).
  rewrite <- Hso.
  (* the state in which copying starts: an empty container [s2] *)
  assert (Hprep : exists m1 m2 s2,
    destroy_range m (s_data s) 0 (Z.to_nat (s_size s)) = Ok m1 /\
    (if s_cap s <? s_size o then
       let* m2 := (if N <? s_cap s then release m1 Heap (s_data s) else Ok m1) in
       let c := Z.min (s_cap o) (2 * s_size o) in
       let (dat, m3) := alloc m2 Heap c in
       Ok (m3, mkSmall (s_inl s) dat c (s_size s))
     else Ok (m1, s)) = Ok (m2, s2) /\
    rep N m2 (mkDeque (s_inl s2) (s_data s2) (s_cap s2) 0 0) [] /\
    s_cap s2 = (if s_cap s <? s_size o then Z.min (s_cap o) (2 * s_size o) else s_cap s) /\
    trans m (fp (toD s)) m2 (fp (toD s2)) /\
    (forall b, blk m b <> None -> ~ fp (toD s) b -> ~ fp (toD s2) b)).
  { destruct (s_cap s <? s_size o) eqn:Eg.
    - destruct (empty_out m s L R Hf) as (m1 & m2 & E1 & E2 & BI & Hf2 & Hn2 & Hsame & Hheap & Hinl).
      destruct (alloc m2 Heap (Z.min (s_cap o) (2 * s_size o))) as [dat m3] eqn:Ea.
      destruct (alloc_spec _ _ _ _ _ Hf2 Ea) as (Eb & Hn & Hf3 & Hx3 & Hb3 & Ho3).
      exists m1, m3. eexists. split; [exact E1|]. rewrite E2. cbn [bind]. rewrite Ea.
      split; [reflexivity|]. cbn [s_inl s_data s_cap s_size].
      assert (Hdi : dat <> s_inl s) by (intros ->; apply (brep_some _ _ _ _ _ _ BI); auto).
      assert (Hdm : blk m dat = None) by (apply Hf; lia).
      split; [|split; [reflexivity|split]].
      + constructor; cbn [cap head size inl data]; auto; try lia.
        * unfold dkind; cbn [cap]. replace (N <? Z.min (s_cap o) (2 * s_size o)) with true by lia.
          eapply brep_ext; [|apply (Hb3 0)]. intros; now rewrite cellsof_nil.
        * replace (N <? Z.min (s_cap o) (2 * s_size o)) with true by lia. split; [auto|].
          eapply brep_blk; [apply Ho3; auto|exact BI].
      + constructor; auto.
        * intros b H1 H2. unfold fp in *; cbn in *. rewrite Ho3 by tauto. apply Hsame. unfold fp; cbn; tauto.
        * intros b Hb. unfold fp; cbn. destruct (Nat.eq_dec b dat); [auto|].
          destruct (Nat.eq_dec b (s_inl s)); [auto|]. rewrite Ho3 in Hb by auto.
          destruct (Nat.eq_dec b (s_data s)) as [->|].
          -- destruct (Z.lt_ge_cases N (s_cap s)) as [Hl|Hl]; [apply Hheap in Hl; tauto|].
             apply Hinl in Hl; congruence.
          -- right. rewrite Hsame in Hb by (unfold fp; cbn; tauto). tauto.
        * intros b H. unfold fp in *; cbn in *. destruct H; subst; auto.
      + intros b Hb Hb' [H|H]; unfold fp in *; cbn in *; subst b; [tauto|congruence].
    - destruct (destroy_all_ok N m (toD s) L R) as (m1 & E1 & B1 & F1).
      rewrite <- (destroy_range_eq s) in E1 by (cbn [toD size]; lia). cbn [toD size] in E1.
      exists m1, m1, s. split; [exact E1|]. split; [reflexivity|]. split; [|split; [reflexivity|split]].
      + eapply (rep_content N m m1 (toD s) L [] 0 0); auto; cbn [toD cap]; try lia.
        eapply brep_ext; [|exact B1]. intros; now rewrite cellsof_nil.
      + eapply trans_frame; [apply trans_refl; exact Hf|apply frame_fp; exact F1| |reflexivity|reflexivity].
        intros b0 Hb0. exact (rep_blocks _ _ _ _ _ R Hb0).
      + auto. }
  destruct Hprep as (m1 & m2 & s2 & E1 & E2 & R2 & C2 & T2 & Hnf).
  rewrite E1. unfold bind at 1. cbn beta iota. cbn zeta in E2. cbn zeta. rewrite E2. cbn [bind].
  assert (Ro2 : srep m2 o Lo).
  { eapply rep_frame; [exact Ro|]. intros b Hb.
    assert (~ fp (toD s) b) by (intro H; exact (Hdis b H Hb)).
    apply (t_same _ _ _ _ T2); [auto|]. apply Hnf; [|auto]. exact (rep_blocks _ _ _ _ _ Ro Hb). }
  pose proof (r_data _ _ _ _ R2) as B2. cbn [data cap head] in B2.
  assert (Hne : s_data s2 <> data (toD o)).
  { intros E. apply (Hnf (s_data o)).
    - exact (rep_blocks _ _ _ _ (s_data o) Ro (or_intror eq_refl)).
    - intro H. apply (Hdis (s_data o)); [exact H|right; auto].
    - right. exact (eq_sym E). }
  assert (Hcap2 : s_size o <= s_cap s2).
  { rewrite C2. destruct (s_cap s <? s_size o) eqn:?; lia. }
  rewrite copy_range_eq by lia.
  destruct (copy_items_ok (Z.to_nat (s_size o)) m2 (s_data s2) (toD o) 0 _ _ _ _ _ (r_data _ _ _ _ Ro2)
     ltac:(cbn; lia) ltac:(lia) ltac:(cbn [toD size]; lia) (r_le _ _ _ _ Ro2) B2 Hne ltac:(lia))
     as (m3 & E3 & B3 & F3).
  { intros k Hk. split; [|apply cellsof_nil].
    destruct (cellsof_live Lo k) as (v & _ & Hv); [lia|]. eauto. }
  rewrite E3. cbn [bind]. eexists _, _. split; [reflexivity|]. split; [|split; [exact C2|]].
  - eapply (rep_content N m2 m3 (mkDeque (s_inl s2) (s_data s2) (s_cap s2) 0 0) [] Lo 0 (s_size o)); auto;
      cbn [cap data] in *; try lia.
    eapply brep_ext; [|exact B3]. intros k Hk. cbn beta. unfold in_rng.
    destruct ((0 <=? k) && _) eqn:Er; [reflexivity|].
    rewrite cellsof_nil. symmetry. apply cellsof_raw. lia.
  - eapply trans_frame; [exact T2|apply (frame_fp m2 m3 (toD s2)); exact F3| |reflexivity|reflexivity].
    intros b0 Hb0. exact (rep_blocks _ _ _ _ _ R2 Hb0).
Qed.

Lemma ensure_room (m : mem) s n : n <= s_cap s -> ensure_capacity N m s n = Ok (m, s).
Proof. intros H. unfold ensure_capacity. replace (s_cap s <? n) with false by lia. reflexivity. Qed.

Lemma s_push_back_ok (m : mem) s L v :
  srep m s L -> fresh_ok m -> len L < s_cap s ->
  exists m' s', s_push_back N m s v = Ok (m', s') /\ srep m' s' (L ++ [v]) /\
  s_cap s' = s_cap s /\ trans m (fp (toD s)) m' (fp (toD s')).
Proof.
  intros R Hf Hg. destruct (srep_bounds _ _ _ R) as (Hs & Hle & Hc & H0).
  destruct (push_back_ok N HN m (toD s) L v R Hf) as (m' & d' & E & R' & C' & T).
  unfold s_push_back. rewrite ensure_room by lia. cbn [bind].
  unfold push_back, reserve in E.
  change (cap (toD s)) with (s_cap s) in E. change (size (toD s)) with (s_size s) in E.
  replace (s_cap s <? s_size s + 1) with false in E by lia. cbn [bind] in E.
  change (size (toD s)) with (s_size s) in E. rewrite (item0 s (s_size s)) in E by lia. cbn [bind toD data inl cap head size] in E.
  destruct (construct m (s_data s) (s_size s) v) as [m1|]; [|discriminate]. cbn [bind] in *.
  injection E as <- <-. eexists _, _. split; [reflexivity|]. auto.
Qed.

Lemma s_pop_back_ok (m : mem) s L :
  srep m s L -> fresh_ok m ->
  exists m' s', s_pop_back m s = Ok (m', s', last_opt L) /\ srep m' s' (removelast L) /\
  s_cap s' = s_cap s /\ trans m (fp (toD s)) m' (fp (toD s')).
Proof.
  intros R Hf. destruct (srep_bounds _ _ _ R) as (Hs & Hle & Hc & H0).
  destruct (pop_back_ok N m (toD s) L R Hf) as (m' & d' & E & R' & C' & T).
  unfold pop_back in E. unfold s_pop_back. cbn [toD size cap head] in E.
  destruct (s_size s =? 0) eqn:Es.
  - injection E as <- <- Eo. exists m, s. rewrite Eo. split; [reflexivity|]. auto.
  - assert (Ei : c_rem (0 + s_size s - 1) (s_cap s) = Ok (s_size s - 1)).
    { pose proof (item0 s (s_size s - 1) ltac:(lia)) as H. unfold item in H; cbn [toD head cap] in H.
      rewrite <- H. reflexivity. }
    rewrite Ei in E. cbn [bind toD data] in E.
    destruct (move_out m (s_data s) (s_size s - 1)) as [[v m1]|]; [|discriminate]. cbn [bind] in *.
    destruct (destroy m1 (s_data s) (s_size s - 1)) as [m2|]; [|discriminate]. cbn [bind] in *.
    injection E as <- <- <-. eexists _, _. split; [reflexivity|]. auto.
Qed.

Lemma s_clear_ok (m : mem) s L :
  srep m s L -> fresh_ok m ->
  exists m' s', s_clear m s = Ok (m', s') /\ srep m' s' [] /\
  s_cap s' = s_cap s /\ trans m (fp (toD s)) m' (fp (toD s')).
Proof.
  intros R Hf. rewrite (s_clear_eq m s L R).
  destruct (clear_ok N m (toD s) L R Hf) as (m' & d' & E & R' & C' & T).
  rewrite E. cbn [lift]. eexists _, _. split; [reflexivity|].
  unfold clear in E. destruct (destroy_items m (toD s) 0 _) as [m1|]; [|discriminate].
  cbn [bind] in E. injection E as <- <-. auto.
Qed.

Lemma s_get_ok (m : mem) s L i v :
  srep m s L -> 0 <= i < len L -> nth_error L (Z.to_nat i) = Some v -> s_get m s i = Ok v.
Proof.
  intros R Hi Hv. destruct (srep_bounds _ _ _ R) as (Hs & Hle & Hc & H0). unfold s_get.
  pose proof (r_data _ _ _ _ R) as B. cbn [toD data cap head] in B.
  replace i with ((0 + i) mod s_cap s) by (rewrite Z.mod_small; lia).
  eapply load_brep; [exact B|lia|]. unfold cellsof. now rewrite Hv.
Qed.

Lemma s_set_ok (m : mem) s L i v :
  srep m s L -> fresh_ok m -> 0 <= i < len L ->
  exists m', s_set m s i v = Ok m' /\ srep m' s (replace L (Z.to_nat i) v) /\
  trans m (fp (toD s)) m' (fp (toD s)).
Proof.
  intros R Hf Hi. destruct (srep_bounds _ _ _ R) as (Hs & Hle & Hc & H0).
  assert (Ew : set_wrapped L i v = Some (replace L (Z.to_nat i) v)).
  { unfold set_wrapped. destruct L; [unfold len in Hi; cbn in Hi; lia|].
    rewrite Z.mod_small by lia. reflexivity. }
  destruct (set_ok N m (toD s) L i v _ R Hf Ew) as (m' & E & R' & T).
  exists m'. split; [|auto]. unfold set in E. rewrite index0 in E by lia. exact E.
Qed.

Lemma hd_nth (L : list A) : hd_error L = nth_error L 0.
Proof. destruct L; reflexivity. Qed.

Lemma last_nth (L : list A) v : last_opt L = Some v ->
  nth_error L (length L - 1) = Some v /\ (0 < length L)%nat.
Proof.
  intros H. destruct (last_split L) as (L' & w & ->).
  { intros ->; discriminate. }
  rewrite last_opt_app in H. injection H as ->. rewrite app_length; cbn.
  replace (length L' + 1 - 1)%nat with (length L') by lia.
  rewrite nth_error_app2, Nat.sub_diag by lia. split; [reflexivity|lia].
Qed.

Lemma nth_error_firstn_lt (L : list A) : forall k n, (k < n)%nat ->
  nth_error (firstn n L) k = nth_error L k.
Proof.
  induction L as [|a L IH]; intros k n H; [now rewrite firstn_nil|].
  destruct n; [lia|]. destruct k; cbn; [reflexivity|]. apply IH. lia.
Qed.

Lemma s_resize_ok (m : mem) s L n v :
  srep m s L -> fresh_ok m -> 0 <= n <= s_cap s ->
  exists m' s', s_resize N m s n v = Ok (m', s') /\
  srep m' s' (firstn (Z.to_nat n) L ++ repeat v (Z.to_nat (n - len L))) /\
  s_cap s' = s_cap s /\ trans m (fp (toD s)) m' (fp (toD s')).
Proof.
  intros R Hf Hn. destruct (srep_bounds _ _ _ R) as (Hs & Hle & Hc & H0).
  unfold s_resize. destruct (s_size s <? n) eqn:Eg.
  - rewrite ensure_room by lia. cbn [bind]. rewrite fill_range_eq.
    pose proof (r_data _ _ _ _ R) as B. cbn [toD data cap head] in B.
    set (k := Z.to_nat (n - s_size s)).
    assert (Elen : len (repeat v k) = n - s_size s) by (unfold len, k; rewrite repeat_length; lia).
    destruct (construct_seq_ok (repeat v k) m (s_data s) (s_size s) _ _ _ B) as (m1 & E1 & B1 & F1);
      [lia|lia| |].
    { intros j Hj. apply cellsof_raw. lia. }
    rewrite E1. cbn [bind]. eexists _, _. split; [reflexivity|].
    rewrite firstn_all2 by (unfold len in *; lia). rewrite <- Hs. fold k.
    assert (Elen2 : n = len (L ++ repeat v k)) by (unfold len in *; rewrite app_length; lia).
    split; [|split; [reflexivity|]].
    + eapply (rep_content N m m1 (toD s) L (L ++ repeat v k) 0 n); auto; cbn [toD cap data] in *; try lia.
      eapply brep_ext; [|exact B1]. intros j Hj. cbn beta. unfold cellsof.
      destruct ((s_size s <=? j) && (j <? s_size s + len (repeat v k))) eqn:Ej.
      * rewrite nth_error_app2 by (unfold len in *; lia).
        replace (Z.to_nat (j - s_size s)) with (Z.to_nat j - length L)%nat by (unfold len in *; lia).
        reflexivity.
      * destruct (Z.lt_ge_cases j (s_size s)).
        -- rewrite nth_error_app1 by (unfold len in *; lia). reflexivity.
        -- replace (nth_error (L ++ repeat v k) (Z.to_nat j)) with (@None A).
           2: { symmetry. apply nth_error_None. unfold len in *. lia. }
           replace (nth_error L (Z.to_nat j)) with (@None A); [reflexivity|].
           symmetry. apply nth_error_None. unfold len in *. lia.
    + eapply trans_frame; [apply trans_refl; exact Hf|apply (frame_fp m m1 (toD s)); exact F1| |reflexivity|reflexivity].
      intros b0 Hb0. exact (rep_blocks _ _ _ _ _ R Hb0).
  - rewrite destroy_range_eq by lia.
    destruct (destroy_items_ok (Z.to_nat (s_size s - n)) m (toD s) n _ _ (r_data _ _ _ _ R) ltac:(cbn; lia))
      as (m1 & E1 & B1 & F1); try (cbn [toD cap]; lia).
    { intros k Hk. destruct (cellsof_live L k) as (w & _ & Hw); [lia|]. congruence. }
    rewrite E1. cbn [bind]. eexists _, _. split; [reflexivity|].
    replace (Z.to_nat (n - len L)) with 0%nat by lia. cbn [repeat]. rewrite app_nil_r.
    assert (El : len (firstn (Z.to_nat n) L) = n).
    { unfold len in *. rewrite firstn_length. lia. }
    split; [|split; [reflexivity|]].
    + eapply (rep_content N m m1 (toD s) L (firstn (Z.to_nat n) L) 0 n); auto; cbn [toD cap data head] in *; try lia.
      eapply brep_ext; [|exact B1]. intros j Hj. cbn beta. 
      destruct ((n <=? j) && (j <? n + _)) eqn:Ej.
      * symmetry. apply cellsof_raw. lia.
      * destruct (Z.lt_ge_cases j n).
        -- unfold cellsof. rewrite nth_error_firstn_lt by lia. reflexivity.
        -- rewrite !cellsof_raw by lia. reflexivity.
    + eapply trans_frame; [apply trans_refl; exact Hf|apply (frame_fp m m1 (toD s)); exact F1| |reflexivity|reflexivity].
      intros b0 Hb0. exact (rep_blocks _ _ _ _ _ R Hb0).
Qed.

End P.
