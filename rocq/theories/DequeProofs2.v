(** Refinement proof, part two: constructors, copies, moves and whole programs. *)
From Coq Require Import ZArith List Bool Lia PeanoNat ZifyBool ZifyNat.
From Verif Require Import Mem MemLemmas DequeModel DequeSpec DequeProofs.
Import ListNotations.
Open Scope Z_scope.
Open Scope res_scope.

Section P.
Context {A : Type}.
Variable eqb : A -> A -> bool.
Variable N : Z.
Hypothesis HN : 0 <= N.

Notation mem := (mem A).
Notation rep := (rep N).
Notation dkind := (dkind N).

Lemma cellsof_nil k : cellsof (@nil A) k = Raw.
Proof. unfold cellsof. now destruct (Z.to_nat k). Qed.

(** Creating an object with inline storage and, when [N < c], a heap array of [c] slots. *)
Lemma new_obj (m : mem) c b m1 dat m2 :
  fresh_ok m -> alloc m Inl N = (b, m1) ->
  new_storage m1 b (N <? c) c = (dat, m2) ->
  rep m2 (mkDeque b dat (Z.max c N) 0 0) [] /\
  trans m (fun _ => False) m2 (fp (mkDeque b dat (Z.max c N) 0 0)) /\
  blk m b = None /\ blk m dat = None.
Proof.
  intros Hf E1 E2.
  destruct (alloc_spec _ _ _ _ _ Hf E1) as (Eb & Hn & Hf1 & Hx1 & Hb1 & Ho1).
  unfold new_storage in E2. destruct (Z.ltb_spec N c) as [Hlt|Hge].
  - destruct (alloc_spec _ _ _ _ _ Hf1 E2) as (Ed & Hn2 & Hf2 & Hx2 & Hb2 & Ho2).
    assert (Hne : dat <> b) by (subst; lia).
    assert (Hndat : blk m dat = None) by (apply Hf; lia).
    split; [|split; [|split; auto]].
    + constructor; cbn [cap head size inl data]; try lia.
      * reflexivity.
      * unfold DequeProofs.dkind; cbn [cap]. replace (N <? Z.max c N) with true by lia.
        replace (Z.max c N) with c by lia.
        eapply brep_ext; [|apply (Hb2 0)]. intros k _. now rewrite cellsof_nil.
      * replace (N <? Z.max c N) with true by lia. split; [auto|].
        eapply brep_blk; [apply Ho2; auto|]. apply (Hb1 0).
    + constructor; auto.
      * intros b0 _ H. unfold fp in H; cbn in H. rewrite Ho2, Ho1 by tauto. reflexivity.
      * intros b0 H. unfold fp; cbn. destruct (Nat.eq_dec b0 dat); [auto|].
        destruct (Nat.eq_dec b0 b); [auto|]. right. split; [tauto|].
        rewrite Ho2, Ho1 in H by auto. auto.
      * intros b0 [H|H]; cbn in H; subst b0; auto.
  - injection E2 as <- <-.
    split; [|split; [|split; auto]].
    + constructor; cbn [cap head size inl data]; try lia.
      * reflexivity.
      * unfold DequeProofs.dkind; cbn [cap]. replace (N <? Z.max c N) with false by lia.
        replace (Z.max c N) with N by lia.
        eapply brep_ext; [|apply (Hb1 0)]. intros k _. now rewrite cellsof_nil.
      * replace (N <? Z.max c N) with false by lia. reflexivity.
    + constructor; auto.
      * intros b0 _ H. unfold fp in H; cbn in H. rewrite Ho1 by tauto. reflexivity.
      * intros b0 H. unfold fp; cbn.
        destruct (Nat.eq_dec b0 b); [auto|]. right. split; [tauto|].
        rewrite Ho1 in H by auto. auto.
      * intros b0 [H|H]; cbn in H; subst b0; auto.
Qed.

Lemma new_cap_ok (m : mem) c m' d :
  fresh_ok m -> new_cap N m c = (m', d) ->
  rep m' d [] /\ cap d = Z.max c N /\ trans m (fun _ => False) m' (fp d).
Proof.
  intros Hf E. unfold new_cap in E.
  destruct (alloc m Inl N) as [b m1] eqn:E1.
  destruct (new_storage m1 b (N <? c) c) as [dat m2] eqn:E2.
  injection E as <- <-. destruct (new_obj _ _ _ _ _ _ Hf E1 E2) as (R & T & _).
  auto.
Qed.

Lemma new_default_ok (m : mem) m' d :
  fresh_ok m -> new_default N m = (m', d) ->
  rep m' d [] /\ cap d = N /\ trans m (fun _ => False) m' (fp d).
Proof.
  intros Hf E. assert (E' : new_cap N m N = (m', d)).
  { unfold new_default in E. unfold new_cap.
    destruct (alloc m Inl N) as [b m1]. unfold new_storage.
    rewrite Z.ltb_irrefl, Z.max_id. exact E. }
  destruct (new_cap_ok m N m' d Hf E') as (R & C & T). rewrite Z.max_id in C. auto.
Qed.

Lemma new_seq_ok (m : mem) l :
  fresh_ok m ->
  exists m' d, new_seq N m l = Ok (m', d) /\
  rep m' d l /\ cap d = Z.max (len l) N /\ trans m (fun _ => False) m' (fp d).
Proof.
  intros Hf. unfold new_seq. fold (len l).
  assert (0 <= len l) by (unfold len; lia).
  destruct (alloc m Inl N) as [b m1] eqn:E1.
  destruct (new_storage m1 b (N <? len l) (len l)) as [dat m2] eqn:E2.
  destruct (new_obj _ _ _ _ _ _ Hf E1 E2) as (R & T & _).
  pose proof (r_data _ _ _ _ R) as B. cbn [data cap head] in B.
  destruct (construct_seq_ok l m2 dat 0 _ _ _ B) as (m3 & E3 & B3 & F3); [lia|lia| |].
  { intros; apply cellsof_nil. }
  rewrite E3. cbn [bind]. eexists _, _. split; [reflexivity|]. split; [|split; [reflexivity|]].
  - eapply (rep_content N m2 m3 (mkDeque b dat (Z.max (len l) N) 0 0) [] l 0 (len l)); auto.
    + lia.
    + cbn [cap]. lia.
    + cbn [cap]. lia.
    + cbn [data cap] in *. eapply brep_ext; [|exact B3]. intros k Hk. cbn beta.
      destruct ((0 <=? k) && _) eqn:Er; [now rewrite Z.sub_0_r|].
      rewrite cellsof_nil. symmetry. apply cellsof_raw. lia.
  - eapply trans_frame; [exact T|eapply (frame_fp m2 m3 (mkDeque b dat (Z.max (len l) N) 0 0)); exact F3| |reflexivity|reflexivity].
    intros b0 Hb0. eapply rep_blocks; eauto.
Qed.

Lemma copy_ctor_ok (m : mem) d L :
  rep m d L -> fresh_ok m -> (cap d <= N \/ N < len L) ->
  exists m' d', copy_ctor N m d = Ok (m', d') /\
  rep m' d' L /\ cap d' = cap d /\ trans m (fun _ => False) m' (fp d').
Proof.
  intros R Hf Hg. unfold copy_ctor.
  pose proof (r_size _ _ _ _ R) as Hs. pose proof (r_le _ _ _ _ R) as Hle.
  pose proof (r_cap _ _ _ _ R) as Hc. pose proof (r_head0 _ _ _ _ R) as Hh.
  assert (0 <= len L) by (unfold len; lia).
  destruct (alloc m Inl N) as [b m1] eqn:E1.
  replace (N <? size d) with (N <? cap d) by lia.
  destruct (new_storage m1 b (N <? cap d) (cap d)) as [dat m2] eqn:E2.
  destruct (new_obj _ _ _ _ _ _ Hf E1 E2) as (R2 & T & Nb & Nd).
  pose proof (r_data _ _ _ _ R2) as B. cbn [data cap head] in B.
  assert (Hal : forall b', fp d b' -> blk m2 b' = blk m b').
  { intros b' Hb'. pose proof (rep_blocks _ _ _ _ _ R Hb') as Hnn.
    apply (t_same _ _ _ _ T); [tauto|]. intros [H0|H0]; cbn in H0; subst b'; congruence. }
  pose proof (rep_frame _ _ _ _ _ R Hal) as R'.
  assert (Hned : dat <> data d).
  { intros ->. apply (rep_blocks _ _ _ _ (data d) R); [right; auto|auto]. }
  destruct (copy_items_ok (Z.to_nat (size d)) m2 dat d 0 _ _ _ _ _ (r_data _ _ _ _ R') Hh
     ltac:(lia) ltac:(lia) Hle B Hned ltac:(lia)) as (m3 & E3 & B3 & F3).
  { intros k Hk. split; [|apply cellsof_nil].
    destruct (cellsof_live L k) as (v & _ & Hv); [lia|]. eauto. }
  rewrite E3. cbn [bind]. eexists _, _. split; [reflexivity|]. split; [|split; [cbn; lia|]].
  - eapply (rep_content N m2 m3 (mkDeque b dat (Z.max (cap d) N) 0 0) [] L 0 (size d)); auto.
    + lia.
    + cbn [cap]. lia.
    + cbn [cap]. lia.
    + cbn [data cap] in *. eapply brep_ext; [|exact B3]. intros k Hk. cbn beta. unfold in_rng.
      destruct ((0 <=? k) && _) eqn:Er; [reflexivity|].
      rewrite cellsof_nil. symmetry. apply cellsof_raw. lia.
  - eapply trans_frame; [exact T|eapply (frame_fp m2 m3 (mkDeque b dat (Z.max (cap d) N) 0 0)); exact F3| |reflexivity|reflexivity].
    intros b0 Hb0. exact (rep_blocks _ _ _ _ _ R2 Hb0).
Qed.

(** Copy assignment from a different deque, whose blocks are disjoint. *)
Lemma copy_assign_ok (m : mem) d L o Lo :
  rep m d L -> rep m o Lo -> fresh_ok m -> (forall b, fp d b -> ~ fp o b) ->
  exists m' d', copy_assign N m d o = Ok (m', d') /\
  rep m' d' Lo /\ cap d' = grow (cap d) (len Lo) /\ trans m (fp d) m' (fp d').
Proof.
  intros R Ro Hf Hdis. unfold copy_assign.
  destruct (reserve_ok N HN m d L (size o) R Hf) as (m1 & d1 & E1 & R1 & C1 & T1 & Hno & Hfp).
  rewrite E1. cbn [bind].
  pose proof (r_size _ _ _ _ Ro) as So. pose proof (r_le _ _ _ _ Ro) as Leo.
  pose proof (r_size _ _ _ _ R) as S. pose proof (r_size _ _ _ _ R1) as S1.
  pose proof (r_le _ _ _ _ R1) as Le1.
  assert (L0 : 0 <= len L) by (unfold len; lia). assert (Lo0 : 0 <= len Lo) by (unfold len; lia).
  assert (Hal : forall b', fp o b' -> ~ fp d b' /\ ~ fp d1 b').
  { intros b' Hb'. assert (Hnd : ~ fp d b') by (intro H; exact (Hdis b' H Hb')).
    split; [exact Hnd|]. apply Hfp; [exact Hnd|]. exact (rep_blocks _ _ _ _ _ Ro Hb'). }
  assert (Ro1 : rep m1 o Lo).
  { eapply rep_frame; [exact Ro|]. intros b' Hb'. destruct (Hal b' Hb').
    apply (t_same _ _ _ _ T1); auto. }
  assert (Hne : data d1 <> data o).
  { intros E. apply (proj2 (Hal (data o) (or_intror eq_refl))). right; auto. }
  pose proof (grow_ge (cap d) (size o)) as G.
  destruct (assign_items_ok (Z.to_nat (Z.min (size d) (size o))) m1 d1 o 0 _ _ _ _
     (r_data _ _ _ _ Ro1) (r_head0 _ _ _ _ Ro1) Leo (r_data _ _ _ _ R1) (r_head0 _ _ _ _ R1) Le1)
     as (m2 & E2 & B2 & F2); auto; try lia.
  { intros k Hk. split.
    - destruct (cellsof_live Lo k) as (v & _ & Hv); [lia|]. eauto.
    - destruct (cellsof_live L k) as (v & _ & Hv); [lia|]. congruence. }
  rewrite E2. cbn [bind].
  pose proof (frame_brep _ _ _ _ _ _ _ _ F2 (not_eq_sym Hne) (r_data _ _ _ _ Ro1)) as Bo2.
  set (n := Z.min (size d) (size o)) in *.
  destruct (extend_items_ok (Z.to_nat (size o - n)) m2 d1 o n _ _ _ _
     Bo2 (r_head0 _ _ _ _ Ro1) Leo B2 (r_head0 _ _ _ _ R1) Hne)
     as (m3 & E3 & B3 & F3); auto; try lia.
  { intros k Hk. split.
    - destruct (cellsof_live Lo k) as (v & _ & Hv); [lia|]. eauto.
    - cbn beta. unfold in_rng. replace ((0 <=? k) && _) with false by lia.
      apply cellsof_raw. lia. }
  rewrite E3. cbn [bind].
  destruct (destroy_items_ok (Z.to_nat (size d - n)) m3 d1 n _ _ B3 (r_head0 _ _ _ _ R1))
    as (m4 & E4 & B4 & F4); try lia.
  { intros k Hk. cbn beta. unfold in_rng.
    replace ((n <=? k) && (k <? n + Z.of_nat (Z.to_nat (size o - n)))) with false by lia.
    replace ((0 <=? k) && (k <? 0 + Z.of_nat (Z.to_nat n))) with false by lia.
    destruct (cellsof_live L k) as (v & _ & Hv); [lia|]. congruence. }
  rewrite E4. cbn [bind].
  pose proof (frame_trans _ _ _ _ (frame_trans _ _ _ _ F2 F3) F4) as F.
  eexists _, _. split; [reflexivity|]. split; [|split].
  - eapply (rep_content N m1 m4 d1 L Lo (head d1) (size o) R1 F); try apply R1; try lia.
    eapply brep_ext; [|exact B4]. intros k Hk. cbn beta. unfold in_rng.
    destruct ((n <=? k) && (k <? n + Z.of_nat (Z.to_nat (size d - n)))) eqn:C1'.
    { symmetry. apply cellsof_raw. lia. }
    destruct ((n <=? k) && (k <? n + Z.of_nat (Z.to_nat (size o - n)))) eqn:C2'; [reflexivity|].
    destruct ((0 <=? k) && (k <? 0 + Z.of_nat (Z.to_nat n))) eqn:C3'; [reflexivity|].
    rewrite !cellsof_raw by lia. reflexivity.
  - cbn [cap]. rewrite C1, So. reflexivity.
  - eapply trans_frame; [exact T1|apply frame_fp; exact F| |reflexivity|reflexivity].
    intros b0 Hb0. exact (rep_blocks _ _ _ _ _ R1 Hb0).
Qed.

Lemma copy_assign_self (m : mem) d L :
  rep m d L -> fresh_ok m ->
  exists m', copy_assign N m d d = Ok (m', d) /\ rep m' d L /\ trans m (fp d) m' (fp d).
Proof.
  intros R Hf. unfold copy_assign.
  pose proof (r_size _ _ _ _ R) as S. pose proof (r_le _ _ _ _ R) as Le.
  assert (L0 : 0 <= len L) by (unfold len; lia).
  assert (Er : reserve N m d (size d) = Ok (m, d)).
  { unfold reserve. replace (cap d <? size d) with false by lia. reflexivity. }
  rewrite Er. cbn [bind]. rewrite Z.min_id, Z.sub_diag.
  destruct (assign_items_self (Z.to_nat (size d)) m d 0 _ _ (r_data _ _ _ _ R) (r_head0 _ _ _ _ R) Le)
    as (m1 & E1 & B1 & F1); try lia.
  { intros k Hk. destruct (cellsof_live L k) as (v & _ & Hv); [lia|]. eauto. }
  rewrite E1. cbn [bind Z.to_nat extend_items destroy_items].
  assert (Ed : mkDeque (inl d) (data d) (cap d) (head d) (size d) = d) by (destruct d; reflexivity).
  rewrite Ed. exists m1. split; [reflexivity|]. split.
  - rewrite <- Ed. eapply rep_content; eauto; apply R.
  - eapply trans_frame; [apply trans_refl; exact Hf|apply frame_fp; exact F1| |reflexivity|reflexivity].
    intros b0 Hb0. eapply rep_blocks; eauto.
Qed.

(** Moves change two deques at once. *)
Lemma rep_empty_inline (m : mem) d :
  brep m (inl d) Inl N 0 (fun _ => Raw) -> rep m (mkDeque (inl d) (inl d) N 0 0) [].
Proof.
  intros B. constructor; cbn [cap head size inl data]; try lia.
  - reflexivity.
  - unfold DequeProofs.dkind; cbn [cap]. rewrite Z.ltb_irrefl.
    eapply brep_ext; [|exact B]. intros; now rewrite cellsof_nil.
  - now rewrite Z.ltb_irrefl.
Qed.

Lemma move_ctor_ok (m : mem) d L :
  rep m d L -> fresh_ok m ->
  exists m' d' o', move_ctor N m d = Ok (m', d', o') /\
  rep m' d' L /\ cap d' = cap d /\ rep m' o' [] /\ cap o' = N /\
  trans m (fp d) m' (fun b => fp d' b \/ fp o' b) /\ (forall b, fp d' b -> ~ fp o' b).
Proof.
  intros R Hf. unfold move_ctor.
  pose proof (r_size _ _ _ _ R) as S. pose proof (r_le _ _ _ _ R) as Le.
  pose proof (r_cap _ _ _ _ R) as Hc. pose proof (r_head0 _ _ _ _ R) as Hh.
  pose proof (r_head _ _ _ _ R) as Hh2.
  assert (L0 : 0 <= len L) by (unfold len; lia).
  destruct (alloc m Inl N) as [b m1] eqn:E1.
  destruct (alloc_spec _ _ _ _ _ Hf E1) as (Eb & Hn & Hf1 & Hx1 & Hb1 & Ho1).
  assert (Hal : forall b', fp d b' -> b' <> b).
  { intros b' Hb' ->. exact (rep_blocks _ _ _ _ _ R Hb' Hn). }
  assert (R1 : rep m1 d L).
  { eapply rep_frame; [exact R|]. intros; apply Ho1; auto. }
  destruct (Z.ltb_spec N (cap d)) as [Hlt|Hge].
  - replace (cap d <=? N) with false by lia. cbn [bind].
    pose proof (r_inl _ _ _ _ R1) as RI. replace (N <? cap d) with true in RI by lia.
    destruct RI as [Hne BI].
    eexists _, _, _. split; [reflexivity|]. cbn [inl data cap].
    assert (Hb_ne : b <> data d) by (intro; apply (Hal (data d)); [right|]; auto).
    assert (Hb_ne2 : b <> inl d) by (intro; apply (Hal (inl d)); [left|]; auto).
    split; [|split; [reflexivity|split; [|split; [reflexivity|split]]]].
    + pose proof (r_data _ _ _ _ R1) as BD.
      constructor; cbn [cap head size inl data]; auto.
      replace (N <? cap d) with true by lia. split; [auto|]. apply (Hb1 0).
    + apply rep_empty_inline. exact BI.
    + constructor.
      * exact Hf1.
      * intros b0 _ H. unfold fp in H; cbn in H. apply Ho1. tauto.
      * intros b0 H. unfold fp; cbn. destruct (Nat.eq_dec b0 b); [auto|].
        rewrite Ho1 in H by auto.
        destruct (Nat.eq_dec b0 (inl d)); [auto|]. destruct (Nat.eq_dec b0 (data d)); [auto|].
        right. split; [tauto|auto].
      * intros b0 [[H|H]|[H|H]]; cbn in H; subst b0; unfold fp; auto.
    + intros b0 [H|H] [H'|H']; cbn in H, H'; subst b0; congruence.
  - replace (cap d <=? N) with true by lia. cbn [bind].
    assert (Hcap : cap d = N) by lia.
    rewrite move_items_eq by lia.
    destruct (reserve_items_ok (Z.to_nat (size d)) m1 d b 0 _ _ _ _ _ (r_data _ _ _ _ R1) Hh
       ltac:(lia) ltac:(lia) (Hb1 0)) as (m2 & E2 & B2 & B2' & F2).
    { intros Eq. apply (Hal (data d)); [right|]; auto. } { lia. }
    { intros k Hk. split; [|reflexivity].
      destruct (cellsof_live L k) as (v & _ & Hv); [lia|]. eauto. }
    rewrite E2. cbn [bind]. eexists _, _, _. split; [reflexivity|]. cbn [inl data cap].
    pose proof (r_inl _ _ _ _ R1) as RI. replace (N <? cap d) with false in RI by lia.
    assert (Hb_ne : b <> data d) by (intro; apply (Hal (data d)); [right|]; auto).
    split; [|split; [reflexivity|split; [|split; [exact Hcap|split]]]].
    + constructor; cbn [cap head size inl data]; try lia; auto.
      * unfold DequeProofs.dkind; cbn [cap]. replace (N <? cap d) with false by lia. rewrite Hcap.
        eapply brep_ext; [|exact B2']. intros k Hk. cbn beta. unfold in_rng.
        destruct ((0 <=? k) && _) eqn:Er; [reflexivity|]. symmetry; apply cellsof_raw; lia.
      * replace (N <? cap d) with false by lia. reflexivity.
    + constructor; cbn [cap head size inl data]; try lia; auto.
      * unfold DequeProofs.dkind in *; cbn [cap]. 
        eapply brep_ext; [|apply (brep_rebase _ _ _ _ _ 0 _ B2)]. intros k Hk. cbn beta. unfold in_rng.
        pose proof (Z.mod_pos_bound (0 - head d + k) (cap d) ltac:(lia)) as Hmb.
        set (x := (0 - head d + k) mod cap d) in *. clearbody x. rewrite cellsof_nil.
        destruct ((0 <=? x) && _) eqn:Er; [reflexivity|]. apply cellsof_raw; lia.
      * replace (N <? cap d) with false by lia. exact RI.
    + constructor.
      * destruct F2 as [F2n F2]. intros b0 H. rewrite F2n in H. rewrite F2; [auto|].
        cbn. intros [->| ->].
        -- apply (rep_blocks _ _ _ _ (data d) R1); [right; auto|auto].
        -- lia.
      * destruct F2 as [_ F2]. intros b0 H1 H2. unfold fp in H1, H2; cbn in H2.
        rewrite F2 by (cbn; tauto). apply Ho1; tauto.
      * destruct F2 as [_ F2]. intros b0 H. unfold fp; cbn. destruct (Nat.eq_dec b0 b); [auto|].
        destruct (Nat.eq_dec b0 (data d)); [auto|]. rewrite F2 in H by (cbn; tauto).
        rewrite Ho1 in H by auto. right. rewrite <- RI. tauto.
      * intros b0 [[H|H]|[H|H]]; cbn in H; subst b0; unfold fp; auto.
    + rewrite RI in Hb_ne. intros b0 [H|H] [H'|H']; cbn in H, H'; subst b0; congruence.
Qed.

Lemma move_assign_ok (m : mem) d L o Lo :
  rep m d L -> rep m o Lo -> fresh_ok m -> (forall b, fp d b -> ~ fp o b) ->
  exists m' d' o', move_assign N m d o = Ok (m', d', o') /\
  rep m' d' Lo /\ cap d' = (if N <? cap o then cap o else cap d) /\
  rep m' o' [] /\ cap o' = N /\
  trans m (fun b => fp d b \/ fp o b) m' (fun b => fp d' b \/ fp o' b) /\
  (forall b, fp d' b -> ~ fp o' b).
Proof.
  intros R Ro Hf Hdis. unfold move_assign.
  pose proof (r_size _ _ _ _ R) as S. pose proof (r_le _ _ _ _ R) as Le.
  pose proof (r_cap _ _ _ _ R) as Hc. 
  pose proof (r_size _ _ _ _ Ro) as So. pose proof (r_le _ _ _ _ Ro) as Leo.
  pose proof (r_cap _ _ _ _ Ro) as Hco. pose proof (r_head0 _ _ _ _ Ro) as Hho.
  pose proof (r_head _ _ _ _ Ro) as Hho2.
  assert (L0 : 0 <= len L) by (unfold len; lia). assert (Lo0 : 0 <= len Lo) by (unfold len; lia).
  destruct (destroy_all_ok N m d L R) as (m1 & E1 & B1 & F1). rewrite E1. cbn [bind].
  assert (N1 : data o <> data d) by (intro; apply (Hdis (data d)); [right|right]; auto).
  assert (N2 : data o <> inl d) by (intro; apply (Hdis (inl d)); [left|right]; auto).
  assert (N3 : inl o <> data d) by (intro; apply (Hdis (data d)); [right|left]; auto).
  assert (N4 : inl o <> inl d) by (intro; apply (Hdis (inl d)); [left|left]; auto).
  assert (Ro1 : rep m1 o Lo).
  { eapply rep_frame; [exact Ro|]. intros b Hb. apply F1. cbn. intros ->.
    apply (Hdis (data d)); [right; auto|auto]. }
  pose proof (r_inl _ _ _ _ R) as RI.
  assert (Hf1 : fresh_ok m1).
  { eapply frame_fresh; [exact F1| |exact Hf]. cbn. intros b ->.
    eapply rep_blocks; [exact R|right; auto]. }
  destruct (Z.ltb_spec N (cap o)) as [Hlt|Hge].
  - assert (Hrel : exists m2, (if N <? cap d then release m1 Heap (data d) else Ok m1) = Ok m2 /\
            (N < cap d -> blk m2 (data d) = None) /\
            (forall b, (N < cap d -> b <> data d) -> blk m2 b = blk m1 b) /\ next m2 = next m1).
    { unfold DequeProofs.dkind in B1. destruct (N <? cap d) eqn:EN.
      - destruct (release_brep _ _ _ _ _ _ B1 ltac:(auto)) as (m3 & E3 & Hnone3 & [F3n F3]).
        exists m3. split; [exact E3|]. split; [auto|]. split; [|auto].
        intros b Hb. apply F3. apply Hb. lia.
      - exists m1. split; [auto|]. split; [lia|]. auto. }
    destruct Hrel as (m2 & E2 & Hfreed & Hother & Hnext2). rewrite E2. cbn [bind].
    eexists _, _, _. split; [reflexivity|]. cbn [inl data cap].
    pose proof (r_inl _ _ _ _ Ro1) as RIo. replace (N <? cap o) with true in RIo by lia.
    destruct RIo as [Hneo BIo].
    assert (Binl : brep m2 (inl d) Inl N 0 (fun _ => Raw)).
    { destruct (N <? cap d) eqn:EN.
      - destruct RI as [Qne Qb]. eapply brep_blk; [apply Hother; intros _; congruence|].
        eapply frame_brep; [exact F1| |exact Qb]. cbn. congruence.
      - eapply brep_blk; [apply Hother; lia|].
        assert (EcN : cap d = N) by lia. unfold DequeProofs.dkind in B1. rewrite EN, RI, EcN in B1.
        pose proof (brep_rebase _ _ _ _ _ 0 _ B1) as B1'. exact B1'. }
    split; [|split; [reflexivity|split; [|split; [reflexivity|split]]]].
    + constructor; cbn [cap head size inl data]; auto.
      * unfold DequeProofs.dkind; cbn [cap]. replace (N <? cap o) with true by lia.
        eapply brep_blk; [apply Hother; auto|].
        pose proof (r_data _ _ _ _ Ro1) as BB. unfold DequeProofs.dkind in BB.
        replace (N <? cap o) with true in BB by lia. exact BB.
      * replace (N <? cap o) with true by lia. split; [auto|exact Binl].
    + apply rep_empty_inline. eapply brep_blk; [apply Hother; auto|exact BIo].
    + destruct F1 as [F1n F1]. constructor.
      * intros b Hb. rewrite Hnext2, F1n in Hb.
        destruct (Nat.eq_dec b (data d)) as [->|].
        -- exfalso. apply (rep_blocks _ _ _ _ (data d) R); [right; auto|auto].
        -- rewrite Hother, F1 by auto. auto.
      * intros b H1 H2. unfold fp in H1, H2; cbn in H2.
        rewrite Hother by (intros _; tauto). apply F1. tauto.
      * intros b Hb. unfold fp; cbn.
        destruct (Nat.eq_dec b (data o)); [auto|]. destruct (Nat.eq_dec b (inl o)); [auto|].
        destruct (Nat.eq_dec b (inl d)); [auto|].
        destruct (Nat.eq_dec b (data d)) as [->|].
        -- destruct (Z.ltb_spec N (cap d)); [tauto|]. congruence.
        -- rewrite Hother, F1 in Hb by auto. right. split; [tauto|auto].
      * intros b [[H|H]|[H|H]]; cbn in H; subst b; unfold fp; auto.
    + intros b [H|H] [H'|H']; cbn in H, H'; subst b; congruence.
  - assert (Hcapo : cap o = N) by lia.
    rewrite move_items_eq by lia.
    pose proof (brep_rebase _ _ _ _ _ 0 _ B1) as B1'.
    destruct (reserve_items_ok (Z.to_nat (size o)) m1 o (data d) 0 _ _ _ _ _ (r_data _ _ _ _ Ro1) Hho
       ltac:(lia) ltac:(lia) B1') as (m2 & E2 & B2 & B2' & F2).
    { auto. } { lia. }
    { intros k Hk. split; [|reflexivity].
      destruct (cellsof_live Lo k) as (v & _ & Hv); [lia|]. eauto. }
    rewrite E2. cbn [bind]. eexists _, _, _. split; [reflexivity|]. cbn [inl data cap].
    pose proof (r_inl _ _ _ _ Ro1) as RIo. replace (N <? cap o) with false in RIo by lia.
    split; [|split; [reflexivity|split; [|split; [exact Hcapo|split]]]].
    + constructor; cbn [cap head size inl data]; auto; try lia.
      * unfold DequeProofs.dkind in *; cbn [cap].
        eapply brep_ext; [|exact B2']. intros k Hk. cbn beta. unfold in_rng.
        destruct ((0 <=? k) && _) eqn:Er; [reflexivity|]. symmetry; apply cellsof_raw; lia.
      * destruct (N <? cap d); [|exact RI]. destruct RI as [Qne Qb]. split; [auto|].
        eapply frame_brep; [exact F2|cbn; intros [?|?]; congruence|].
        eapply frame_brep; [exact F1|cbn; auto|exact Qb].
    + constructor; cbn [cap head size inl data]; auto; try lia.
      * unfold DequeProofs.dkind in *; cbn [cap].
        eapply brep_ext; [|apply (brep_rebase _ _ _ _ _ 0 _ B2)]. intros k Hk. cbn beta. unfold in_rng.
        pose proof (Z.mod_pos_bound (0 - head o + k) (cap o) ltac:(lia)) as Hmb.
        set (x := (0 - head o + k) mod cap o) in *. clearbody x. rewrite cellsof_nil.
        destruct ((0 <=? x) && _) eqn:Er; [reflexivity|]. apply cellsof_raw; lia.
      * replace (N <? cap o) with false by lia. exact RIo.
    + destruct F1 as [F1n F1], F2 as [F2n F2]. constructor.
      * intros b H. rewrite F2n, F1n in H.
        assert (b <> data d).
        { intros ->. apply (rep_blocks _ _ _ _ (data d) R); [right; auto|auto]. }
        assert (b <> data o).
        { intros ->. apply (rep_blocks _ _ _ _ (data o) Ro); [right; auto|auto]. }
        rewrite F2, F1 by (cbn; tauto). auto.
      * intros b H1 H2. unfold fp in H1, H2; cbn in H2.
        rewrite F2, F1 by (cbn; tauto). reflexivity.
      * intros b H. unfold fp; cbn.
        destruct (Nat.eq_dec b (data d)); [auto|]. destruct (Nat.eq_dec b (data o)); [auto|].
        destruct (Nat.eq_dec b (inl d)); [auto|]. destruct (Nat.eq_dec b (inl o)); [auto|].
        rewrite F2, F1 in H by (cbn; tauto). right. tauto.
      * intros b [[H|H]|[H|H]]; cbn in H; subst b; unfold fp; auto.
    + intros b [H|H] [H'|H']; cbn in H, H'; subst b; congruence.
Qed.

(** Comparison. *)
Lemma equal_items_ok n : forall (m : mem) d o i L Lo,
  rep m d L -> rep m o Lo -> 0 <= i -> i + Z.of_nat n = len L -> len L = len Lo ->
  equal_items eqb m d o i n =
    Ok (list_eqb eqb (skipn (Z.to_nat i) L) (skipn (Z.to_nat i) Lo)).
Proof.
  induction n as [|n IH]; intros m d o i L Lo R Ro Hi Hn Hl; cbn [equal_items].
  - unfold len in *. rewrite !skipn_all2 by lia. reflexivity.
  - pose proof (r_size _ _ _ _ R) as Sd. pose proof (r_le _ _ _ _ R) as Le.
    pose proof (r_size _ _ _ _ Ro) as So. pose proof (r_le _ _ _ _ Ro) as Leo.
    pose proof (r_head0 _ _ _ _ R). pose proof (r_head0 _ _ _ _ Ro).
    rewrite index_slot_small by lia. cbn [bind]. rewrite index_slot_small by lia. cbn [bind].
    destruct (cellsof_live L i) as (v & Hv1 & Hv2); [lia|].
    destruct (cellsof_live Lo i) as (w & Hw1 & Hw2); [lia|].
    rewrite (load_brep _ _ _ _ _ _ i v (r_data _ _ _ _ R)) by (lia || auto). cbn [bind].
    rewrite (load_brep _ _ _ _ _ _ i w (r_data _ _ _ _ Ro)) by (lia || auto). cbn [bind].
    assert (Hsk : forall (l : list A) k a, nth_error l k = Some a -> skipn k l = a :: skipn (S k) l).
    { clear. induction l as [|x l IH]; intros k a H; [destruct k; discriminate|].
      destruct k; simpl in *; [injection H as ->; reflexivity|]. now apply IH. }
    rewrite (Hsk _ _ _ Hv1), (Hsk _ _ _ Hw1). cbn [list_eqb].
    destruct (eqb v w); [|reflexivity]. rewrite (IH m d o (i+1) L Lo) by (auto; lia).
    replace (Z.to_nat (i + 1)) with (S (Z.to_nat i)) by lia. reflexivity.
Qed.

Lemma list_eqb_length (l l' : list A) : length l <> length l' -> list_eqb eqb l l' = false.
Proof.
  revert l'; induction l as [|a l IH]; intros [|b l'] H; simpl in *; try lia; try reflexivity.
  rewrite IH by lia. apply andb_false_r.
Qed.

Lemma equal_ok (m : mem) same d o L Lo :
  rep m d L -> rep m o Lo ->
  equal eqb m same d o = Ok (if same then true else list_eqb eqb L Lo).
Proof.
  intros R Ro. unfold equal. destruct same; [reflexivity|].
  pose proof (r_size _ _ _ _ R) as S. pose proof (r_size _ _ _ _ Ro) as So.
  destruct (Z.eqb_spec (size d) (size o)) as [E|E]; cbn [negb].
  - rewrite (equal_items_ok _ m d o 0 L Lo) by (auto; unfold len in *; lia). reflexivity.
  - rewrite list_eqb_length; [reflexivity|]. unfold len in *. lia.
Qed.

(** ** Worlds *)

Definition vrel (m : mem) (od : option deque) (os : option (@sdeque A)) : Prop :=
  match od, os with
  | Some d, Some (L, c) => rep m d L /\ cap d = c
  | None, None => True
  | _, _ => False
  end.

Record winv (m : mem) (e : nat -> option deque) (s : @senv A) : Prop := {
  w_fresh : fresh_ok m;
  w_rel : forall x, vrel m (e x) (s x);
  w_disj : forall x y b, x <> y -> ofp (e x) b -> ~ ofp (e y) b;
  w_leak : forall b, blk m b <> None -> exists x, ofp (e x) b
}.

Lemma vrel_blocks m od os b : vrel m od os -> ofp od b -> blk m b <> None.
Proof.
  destruct od as [d|], os as [[L c]|]; cbn; try tauto. intros [R _]. eapply rep_blocks; eauto.
Qed.

Lemma vrel_frame m m' od os :
  vrel m od os -> (forall b, ofp od b -> blk m' b = blk m b) -> vrel m' od os.
Proof.
  destruct od as [d|], os as [[L c]|]; cbn; auto. intros [R Hc] H. split; [|auto].
  eapply rep_frame; eauto.
Qed.

Lemma winv_gen m e s m' e' s' (ch : nat -> bool) (old new : nat -> Prop) :
  winv m e s -> trans m old m' new ->
  (forall x, ch x = false -> e' x = e x /\ s' x = s x) ->
  (forall b, old b <-> exists x, ch x = true /\ ofp (e x) b) ->
  (forall b, new b <-> exists x, ch x = true /\ ofp (e' x) b) ->
  (forall x, ch x = true -> vrel m' (e' x) (s' x)) ->
  (forall x y b, ch x = true -> ch y = true -> x <> y -> ofp (e' x) b -> ~ ofp (e' y) b) ->
  winv m' e' s'.
Proof.
  intros W T Hsame Hold Hnew Hrel Hdis.
  assert (Hun : forall x b, ch x = false -> ofp (e x) b -> ~ old b /\ ~ new b).
  { intros x b Hc Hb.
    assert (Ho : ~ old b).
    { intros H. apply Hold in H. destruct H as (y & Hy & Hyb).
      apply (w_disj _ _ _ W y x b); auto. intros ->; congruence. }
    split; [exact Ho|]. intros H. destruct (t_new _ _ _ _ T b H) as [?|?]; [tauto|].
    apply (vrel_blocks _ _ _ b (w_rel _ _ _ W x)); auto. }
  constructor.
  - apply (t_fresh _ _ _ _ T).
  - intros x. destruct (ch x) eqn:Hc; [auto|].
    destruct (Hsame x Hc) as [-> ->]. eapply vrel_frame; [apply (w_rel _ _ _ W)|].
    intros b Hb. destruct (Hun x b Hc Hb). apply (t_same _ _ _ _ T); auto.
  - intros x y b Hxy Hx Hy. destruct (ch x) eqn:Hcx, (ch y) eqn:Hcy.
    + exact (Hdis x y b Hcx Hcy Hxy Hx Hy).
    + rewrite (proj1 (Hsame y Hcy)) in Hy. destruct (Hun y b Hcy Hy) as [_ Hn].
      apply Hn, Hnew. eauto.
    + rewrite (proj1 (Hsame x Hcx)) in Hx. destruct (Hun x b Hcx Hx) as [_ Hn].
      apply Hn, Hnew. eauto.
    + rewrite (proj1 (Hsame x Hcx)) in Hx. rewrite (proj1 (Hsame y Hcy)) in Hy.
      exact (w_disj _ _ _ W x y b Hxy Hx Hy).
  - intros b Hb. destruct (t_leak _ _ _ _ T b Hb) as [Hn|[Ho Ha]].
    + apply Hnew in Hn. destruct Hn as (x & _ & Hx). eauto.
    + destruct (w_leak _ _ _ W b Ha) as (x & Hx). exists x.
      destruct (ch x) eqn:Hc.
      * exfalso. apply Ho, Hold. eauto.
      * now rewrite (proj1 (Hsame x Hc)).
Qed.

Lemma upd_same {B} (f : nat -> option B) x v : upd f x v x = v.
Proof. unfold upd. now rewrite Nat.eqb_refl. Qed.

Lemma upd_other {B} (f : nat -> option B) x v y : y <> x -> upd f x v y = f y.
Proof. unfold upd. intros H. destruct (Nat.eqb_spec y x); congruence. Qed.

Lemma winv_one m e s m' x od os :
  winv m e s -> trans m (ofp (e x)) m' (ofp od) -> vrel m' od os ->
  winv m' (upd e x od) (upd s x os).
Proof.
  intros W T V. eapply (winv_gen m e s m' _ _ (fun y => Nat.eqb y x)); [exact W|exact T| | | | |].
  - intros y Hy. apply Nat.eqb_neq in Hy. now rewrite !upd_other.
  - intros b. split.
    + intros H. exists x. rewrite Nat.eqb_refl. auto.
    + intros (y & Hy & H). apply Nat.eqb_eq in Hy. now subst.
  - intros b. split.
    + intros H. exists x. rewrite Nat.eqb_refl, upd_same. auto.
    + intros (y & Hy & H). apply Nat.eqb_eq in Hy. subst y. now rewrite upd_same in H.
  - intros y Hy. apply Nat.eqb_eq in Hy. subst y. now rewrite !upd_same.
  - intros y z b Hy Hz Hne. apply Nat.eqb_eq in Hy, Hz. congruence.
Qed.

Lemma winv_two m e s m' x y odx osx ody osy :
  x <> y -> winv m e s ->
  trans m (fun b => ofp (e x) b \/ ofp (e y) b) m' (fun b => ofp odx b \/ ofp ody b) ->
  vrel m' odx osx -> vrel m' ody osy -> (forall b, ofp odx b -> ~ ofp ody b) ->
  winv m' (upd (upd e y ody) x odx) (upd (upd s y osy) x osx).
Proof.
  intros Hxy W T Vx Vy Hd.
  eapply (winv_gen m e s m' _ _ (fun z => Nat.eqb z x || Nat.eqb z y)); [exact W|exact T| | | | |].
  - intros z Hz. apply orb_false_iff in Hz. destruct Hz as [H1 H2].
    apply Nat.eqb_neq in H1, H2. now rewrite !upd_other.
  - intros b. split.
    + intros [H|H]; [exists x|exists y]; rewrite Nat.eqb_refl, ?orb_true_r; auto.
    + intros (z & Hz & H). apply orb_true_iff in Hz. rewrite !Nat.eqb_eq in Hz.
      destruct Hz; subst z; auto.
  - intros b. split.
    + intros [H|H]; [exists x|exists y]; rewrite Nat.eqb_refl, ?orb_true_r; (split; [auto|]).
      * now rewrite upd_same.
      * rewrite upd_other by auto. now rewrite upd_same.
    + intros (z & Hz & H). apply orb_true_iff in Hz. rewrite !Nat.eqb_eq in Hz.
      destruct Hz; subst z; [rewrite upd_same in H; auto|].
      rewrite upd_other, upd_same in H by auto. auto.
  - intros z Hz. apply orb_true_iff in Hz. rewrite !Nat.eqb_eq in Hz.
    destruct Hz; subst z; [now rewrite !upd_same|].
    rewrite !(upd_other _ x _ y) by auto. now rewrite !upd_same.
  - intros z1 z2 b H1 H2 Hne. apply orb_true_iff in H1, H2. rewrite !Nat.eqb_eq in H1, H2.
    destruct H1, H2; subst z1 z2; try congruence.
    + rewrite upd_same, upd_other, upd_same by auto. apply Hd.
    + rewrite upd_other, upd_same, upd_same by auto. intros H1 H2. exact (Hd b H2 H1).
Qed.

Lemma vrel_some m od L c : vrel m od (Some (L, c)) -> exists d, od = Some d /\ rep m d L /\ cap d = c.
Proof. destruct od as [d|]; cbn; [|tauto]. intros [H1 H2]; eauto. Qed.

Lemma vrel_none m od : vrel m od None -> od = None.
Proof. destruct od; cbn; tauto. Qed.

Lemma trans_pre_ext (m : mem) (o1 o2 : nat -> Prop) m' o' :
  (forall b, o1 b <-> o2 b) -> trans m o1 m' o' -> trans m o2 m' o'.
Proof.
  intros E [H1 H2 H3 H4]. constructor; auto.
  - intros b Hb. apply H2. now rewrite E.
  - intros b Hb. destruct (H3 b Hb) as [?|[? ?]]; [auto|right]. now rewrite <- E.
  - intros b Hb. rewrite <- E. auto.
Qed.

Theorem step_ok m e s o s' r :
  winv m e s -> spec_step eqb N s o = Some (s', r) ->
  exists w', step eqb N (mkWorld m e) o = Ok (w', r) /\ winv (wmem w') (env w') s'.
Proof.
  intros W Hs.
  pose proof (w_fresh _ _ _ W) as Hf.
  assert (Hrel : forall x L c, s x = Some (L, c) -> exists d, e x = Some d /\ rep m d L /\ cap d = c).
  { intros x L c E. apply (vrel_some m). rewrite <- E. apply (w_rel _ _ _ W). }
  assert (Hnone : forall x, s x = None -> e x = None).
  { intros x E. apply (vrel_none m). rewrite <- E. apply (w_rel _ _ _ W). }
  assert (One : forall x od od' os m', e x = od -> trans m (ofp od) m' (ofp od') -> vrel m' od' os ->
            winv m' (upd e x od') (upd s x os)).
  { intros x od od' os m' <- T V. now apply (winv_one m). }
  destruct o as [x|x c|x l|x y|x y|x|x y|x y|x v|x v|x i|x|x|x|x c|x i|x i v|x|x|x|x|x y];
    cbn [spec_step] in Hs; cbn [step]; unfold fresh, lookup; cbn [env wmem].
  - (* ONew *)
    destruct (s x) eqn:Ex; [discriminate|]. injection Hs as <- <-.
    rewrite (Hnone x Ex). cbn [bind].
    destruct (new_default N m) as [m' d] eqn:E.
    destruct (new_default_ok _ _ _ Hf E) as (R & C & T).
    eexists; split; [reflexivity|]. cbn [wmem env]. eapply (One x None (Some d)); auto.
    cbn; auto.
  - (* ONewCap *)
    destruct (s x) eqn:Ex; [discriminate|]. injection Hs as <- <-.
    rewrite (Hnone x Ex). cbn [bind].
    destruct (new_cap N m c) as [m' d] eqn:E.
    destruct (new_cap_ok _ _ _ _ Hf E) as (R & C & T).
    eexists; split; [reflexivity|]. cbn [wmem env]. eapply (One x None (Some d)); auto.
    cbn; auto.
  - (* ONewSeq *)
    destruct (s x) eqn:Ex; [discriminate|]. injection Hs as <- <-.
    rewrite (Hnone x Ex). cbn [bind].
    destruct (new_seq_ok _ l Hf) as (m' & d & E & R & C & T). rewrite E. cbn [bind].
    eexists; split; [reflexivity|]. cbn [wmem env]. eapply (One x None (Some d)); auto.
    cbn; auto.
  - (* OCopyNew *)
    destruct (s x) eqn:Ex; [discriminate|].
    destruct (s y) as [[l c]|] eqn:Ey; [|discriminate].
    destruct ((c <=? N) || (N <? len l)) eqn:Eg; [|discriminate]. injection Hs as <- <-.
    rewrite (Hnone x Ex). cbn [bind].
    destruct (Hrel y l c Ey) as (d & Ed & R & C). rewrite Ed. cbn [bind].
    destruct (copy_ctor_ok m d l R Hf) as (m' & d' & E & R' & C' & T); [lia|].
    rewrite E. cbn [bind]. eexists; split; [reflexivity|]. cbn [wmem env].
    eapply (One x None (Some d')); auto. cbn. split; [auto|congruence].
  - (* OMoveNew *)
    destruct (s x) eqn:Ex; [discriminate|].
    destruct (s y) as [[l c]|] eqn:Ey; [|discriminate]. injection Hs as <- <-.
    rewrite (Hnone x Ex). cbn [bind].
    destruct (Hrel y l c Ey) as (d & Ed & R & C). rewrite Ed. cbn [bind].
    destruct (move_ctor_ok m d l R Hf) as (m' & d' & o' & E & R' & C' & Ro & Co & T & Hd).
    rewrite E. cbn [bind]. eexists; split; [reflexivity|]. cbn [wmem env].
    apply (winv_two m e s m' x y (Some d') (Some (l, c)) (Some o') (Some ([], N))); auto.
    + intros ->; congruence.
    + eapply trans_pre_ext; [|exact T]. intros b. rewrite (Hnone x Ex), Ed. cbn. tauto.
    + cbn. split; [auto|congruence].
    + cbn. auto.
  - (* ODestroy *)
    destruct (s x) as [[l c]|] eqn:Ex; [|discriminate]. injection Hs as <- <-.
    destruct (Hrel x l c Ex) as (d & Ed & R & C). rewrite Ed. cbn [bind].
    destruct (dtor_ok N HN m d l R Hf) as (m' & E & T). rewrite E. cbn [bind].
    eexists; split; [reflexivity|]. cbn [wmem env]. eapply (One x (Some d) None); auto. cbn; auto.
  - (* OCopyAssign *)
    destruct (s x) as [[l c]|] eqn:Ex; [|discriminate].
    destruct (s y) as [[l' c']|] eqn:Ey; [|discriminate]. injection Hs as <- <-.
    destruct (Hrel x l c Ex) as (d & Ed & R & C). rewrite Ed. cbn [bind].
    destruct (Hrel y l' c' Ey) as (dy & Edy & Ry & Cy). rewrite Edy. cbn [bind].
    destruct (Nat.eq_dec x y) as [->|Hxy].
    + rewrite Ed in Edy. injection Edy as <-. rewrite Ex in Ey. injection Ey as <- <-.
      destruct (copy_assign_self m d l R Hf) as (m' & E & R' & T). rewrite E. cbn [bind].
      eexists; split; [reflexivity|]. cbn [wmem env]. eapply (One y (Some d) (Some d)); auto.
      cbn. split; [auto|]. pose proof (r_size _ _ _ _ R). pose proof (r_le _ _ _ _ R).
      unfold grow. replace (c <? len l) with false by lia. auto.
    + destruct (copy_assign_ok m d l dy l' R Ry Hf) as (m' & d' & E & R' & C' & T).
      { intros b Hb Hb'. apply (w_disj _ _ _ W x y b Hxy); [now rewrite Ed|now rewrite Edy]. }
      rewrite E. cbn [bind]. eexists; split; [reflexivity|]. cbn [wmem env].
      eapply (One x (Some d) (Some d')); auto. cbn. split; [auto|congruence].
  - (* OMoveAssign *)
    destruct (Nat.eqb_spec x y) as [|Hxy]; [discriminate|].
    destruct (s x) as [[l c]|] eqn:Ex; [|discriminate].
    destruct (s y) as [[l' c']|] eqn:Ey; [|discriminate]. injection Hs as <- <-.
    destruct (Hrel x l c Ex) as (d & Ed & R & C). rewrite Ed. cbn [bind].
    destruct (Hrel y l' c' Ey) as (dy & Edy & Ry & Cy). rewrite Edy. cbn [bind].
    destruct (move_assign_ok m d l dy l' R Ry Hf) as (m' & d' & o' & E & R' & C' & Ro & Co & T & Hd).
    { intros b Hb Hb'. apply (w_disj _ _ _ W x y b Hxy); [now rewrite Ed|now rewrite Edy]. }
    rewrite E. cbn [bind]. eexists; split; [reflexivity|]. cbn [wmem env].
    apply (winv_two m e s m' x y (Some d') (Some (l', if N <? c' then c' else c)) (Some o') (Some ([], N))); auto.
    + eapply trans_pre_ext; [|exact T]. intros b. rewrite Ed, Edy. cbn. tauto.
    + cbn. split; [auto|]. rewrite <- Cy, <- C. exact C'.
    + cbn. auto.
  - (* OPushBack *)
    destruct (s x) as [[l c]|] eqn:Ex; [|discriminate]. injection Hs as <- <-.
    destruct (Hrel x l c Ex) as (d & Ed & R & C). rewrite Ed. cbn [bind].
    destruct (push_back_ok N HN m d l v R Hf) as (m' & d' & E & R' & C' & T). rewrite E. cbn [bind].
    eexists; split; [reflexivity|]. cbn [wmem env]. eapply (One x (Some d) (Some d')); auto.
    cbn. split; [auto|congruence].
  - (* OPushFront *)
    destruct (s x) as [[l c]|] eqn:Ex; [|discriminate]. injection Hs as <- <-.
    destruct (Hrel x l c Ex) as (d & Ed & R & C). rewrite Ed. cbn [bind].
    destruct (push_front_ok N HN m d l v R Hf) as (m' & d' & E & R' & C' & T). rewrite E. cbn [bind].
    eexists; split; [reflexivity|]. cbn [wmem env]. eapply (One x (Some d) (Some d')); auto.
    cbn. split; [auto|congruence].
  - (* OPushBackRef *)
    destruct (s x) as [[l c]|] eqn:Ex; [|discriminate].
    destruct (len l <? c) eqn:El; [|discriminate].
    destruct (at_wrapped l i) as [v|] eqn:Ev; [|discriminate]. injection Hs as <- <-.
    destruct (Hrel x l c Ex) as (d & Ed & R & C). rewrite Ed. cbn [bind].
    destruct (push_back_ref_ok N HN m d l i v R Hf Ev) as (m' & d' & E & R' & C' & T); [lia|].
    rewrite E. cbn [bind].
    eexists; split; [reflexivity|]. cbn [wmem env]. eapply (One x (Some d) (Some d')); auto.
    cbn. split; [auto|congruence].
  - (* OPopBack *)
    destruct (s x) as [[l c]|] eqn:Ex; [|discriminate]. injection Hs as <- <-.
    destruct (Hrel x l c Ex) as (d & Ed & R & C). rewrite Ed. cbn [bind].
    destruct (pop_back_ok N m d l R Hf) as (m' & d' & E & R' & C' & T). rewrite E. cbn [bind].
    eexists; split; [reflexivity|]. cbn [wmem env]. eapply (One x (Some d) (Some d')); auto.
    cbn. split; [auto|congruence].
  - (* OPopFront *)
    destruct (s x) as [[l c]|] eqn:Ex; [|discriminate]. injection Hs as <- <-.
    destruct (Hrel x l c Ex) as (d & Ed & R & C). rewrite Ed. cbn [bind].
    destruct (pop_front_ok N m d l R Hf) as (m' & d' & E & R' & C' & T). rewrite E. cbn [bind].
    eexists; split; [reflexivity|]. cbn [wmem env]. eapply (One x (Some d) (Some d')); auto.
    cbn. split; [auto|congruence].
  - (* OClear *)
    destruct (s x) as [[l c]|] eqn:Ex; [|discriminate]. injection Hs as <- <-.
    destruct (Hrel x l c Ex) as (d & Ed & R & C). rewrite Ed. cbn [bind].
    destruct (clear_ok N m d l R Hf) as (m' & d' & E & R' & C' & T). rewrite E. cbn [bind].
    eexists; split; [reflexivity|]. cbn [wmem env]. eapply (One x (Some d) (Some d')); auto.
    cbn. split; [auto|congruence].
  - (* OReserve *)
    destruct (s x) as [[l c0]|] eqn:Ex; [|discriminate]. injection Hs as <- <-.
    destruct (Hrel x l c0 Ex) as (d & Ed & R & C). rewrite Ed. cbn [bind].
    destruct (reserve_ok N HN m d l c R Hf) as (m' & d' & E & R' & C' & T & _). rewrite E. cbn [bind].
    eexists; split; [reflexivity|]. cbn [wmem env]. eapply (One x (Some d) (Some d')); auto.
    cbn. split; [auto|congruence].
  - (* OGet *)
    destruct (s x) as [[l c]|] eqn:Ex; [|discriminate].
    destruct (at_wrapped l i) as [v|] eqn:Ev; [|discriminate]. injection Hs as <- <-.
    destruct (Hrel x l c Ex) as (d & Ed & R & C). rewrite Ed. cbn [bind].
    rewrite (get_ok N m d l i v R Ev). cbn [bind]. eexists; split; [reflexivity|]. exact W.
  - (* OSet *)
    destruct (s x) as [[l c]|] eqn:Ex; [|discriminate].
    destruct (set_wrapped l i v) as [l'|] eqn:Ev; [|discriminate]. injection Hs as <- <-.
    destruct (Hrel x l c Ex) as (d & Ed & R & C). rewrite Ed. cbn [bind].
    destruct (set_ok N m d l i v l' R Hf Ev) as (m' & E & R' & T). rewrite E. cbn [bind].
    eexists; split; [reflexivity|]. cbn [wmem env].
    assert (W' : winv m' (upd e x (Some d)) (upd s x (Some (l', c)))).
    { eapply (One x (Some d) (Some d)); auto. cbn; auto. }
    assert (Eu : forall z, upd e x (Some d) z = e z).
    { intros z. unfold upd. destruct (Nat.eqb_spec z x); congruence. }
    destruct W' as [W1 W2 W3 W4]. constructor; auto.
    + intros z. rewrite <- Eu. apply W2.
    + intros z1 z2 b. rewrite <- !Eu. apply W3.
    + intros b Hb. destruct (W4 b Hb) as (z & Hz). exists z. now rewrite <- Eu.
  - (* OFront *)
    destruct (s x) as [[l c]|] eqn:Ex; [|discriminate].
    destruct (hd_error l) as [v|] eqn:Ev; [|discriminate]. injection Hs as <- <-.
    destruct (Hrel x l c Ex) as (d & Ed & R & C). rewrite Ed. cbn [bind].
    rewrite (front_ok N m d l v R Ev). cbn [bind]. eexists; split; [reflexivity|]. exact W.
  - (* OBack *)
    destruct (s x) as [[l c]|] eqn:Ex; [|discriminate].
    destruct (last_opt l) as [v|] eqn:Ev; [|discriminate]. injection Hs as <- <-.
    destruct (Hrel x l c Ex) as (d & Ed & R & C). rewrite Ed. cbn [bind].
    rewrite (back_ok N m d l v R Ev). cbn [bind]. eexists; split; [reflexivity|]. exact W.
  - (* OSize *)
    destruct (s x) as [[l c]|] eqn:Ex; [|discriminate]. injection Hs as <- <-.
    destruct (Hrel x l c Ex) as (d & Ed & R & C). rewrite Ed. cbn [bind].
    exists (mkWorld m e). split; [|exact W]. now rewrite (r_size _ _ _ _ R).
  - (* OCapacity *)
    destruct (s x) as [[l c]|] eqn:Ex; [|discriminate]. injection Hs as <- <-.
    destruct (Hrel x l c Ex) as (d & Ed & R & C). rewrite Ed. cbn [bind].
    exists (mkWorld m e). split; [|exact W]. now rewrite C.
  - (* OEqual *)
    destruct (s x) as [[l c]|] eqn:Ex; [|discriminate].
    destruct (s y) as [[l' c']|] eqn:Ey; [|discriminate]. injection Hs as <- <-.
    destruct (Hrel x l c Ex) as (d & Ed & R & C). rewrite Ed. cbn [bind].
    destruct (Hrel y l' c' Ey) as (dy & Edy & Ry & Cy). rewrite Edy. cbn [bind].
    rewrite (equal_ok m _ d dy l l' R Ry). cbn [bind]. eexists; split; [reflexivity|]. exact W.
Qed.

Lemma winv0 : winv mem0 (fun _ => None) senv0.
Proof.
  constructor; cbn; auto.
  - intros b _; reflexivity.
  - intros b H; congruence.
Qed.

Theorem run_ok p : forall w s s' rs,
  winv (wmem w) (env w) s -> spec_run eqb N s p = Some (s', rs) ->
  exists w', run eqb N w p = Ok (w', rs) /\ winv (wmem w') (env w') s'.
Proof.
  induction p as [|o p IH]; intros w s s' rs W H; cbn [spec_run run] in *.
  - injection H as <- <-. eauto.
  - destruct (spec_step eqb N s o) as [[s1 r]|] eqn:E1; [|discriminate].
    destruct (spec_run eqb N s1 p) as [[s2 rs']|] eqn:E2; [|discriminate]. injection H as <- <-.
    destruct w as [m e]. destruct (step_ok m e s o s1 r W E1) as (w1 & F1 & W1).
    rewrite F1. cbn [bind]. destruct (IH w1 s1 s2 rs' W1 E2) as (w2 & F2 & W2).
    rewrite F2. cbn [bind]. eauto.
Qed.

End P.
