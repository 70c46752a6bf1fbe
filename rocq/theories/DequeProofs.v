(** Refinement proof: DequeModel refines DequeSpec. *)
From Coq Require Import ZArith List Bool Lia PeanoNat ZifyBool ZifyNat.
From Verif Require Import Mem MemLemmas DequeModel DequeSpec.
Import ListNotations.
Open Scope Z_scope.
Open Scope res_scope.

Section P.
Context {A : Type}.
Variable N : Z.
Hypothesis HN : 0 <= N.

Notation mem := (mem A).

Definition cellsof (L : list A) : Z -> cell A :=
  fun k => match nth_error L (Z.to_nat k) with Some v => Live v | None => Raw end.

Definition dkind (d : deque) : kind := if N <? cap d then Heap else Inl.

Record rep (m : mem) (d : deque) (L : list A) : Prop := {
  r_cap : N <= cap d;
  r_head0 : 0 <= head d;
  r_head : head d < cap d \/ (cap d = 0 /\ head d = 0);
  r_size : size d = len L;
  r_le : size d <= cap d;
  r_data : brep m (data d) (dkind d) (cap d) (head d) (cellsof L);
  r_inl : if N <? cap d then data d <> inl d /\ brep m (inl d) Inl N 0 (fun _ => Raw)
          else data d = inl d
}.

Lemma positive_mod_ok a b : 0 < b -> positive_mod a b = Ok (a mod b).
Proof.
  intros Hb. unfold positive_mod, c_rem, bind.
  replace (b =? 0) with false by lia. f_equal.
  pose proof (Z.quot_rem' a b) as E.
  pose proof (Z.rem_bound_abs a b ltac:(lia)) as B.
  rewrite Z.rem_mod_nonneg by lia.
  rewrite E at 2. replace (b * (a ÷ b) + Z.rem a b) with (Z.rem a b + (a ÷ b) * b) by ring.
  rewrite Z.mod_add by lia.
  replace (Z.rem a b + b) with (Z.rem a b + 1 * b) by ring.
  now rewrite Z.mod_add by lia.
Qed.

Lemma item_ok d i : 0 < cap d -> 0 <= head d -> 0 <= i ->
  item d i = Ok ((head d + i) mod cap d).
Proof.
  intros. unfold item, c_rem. replace (cap d =? 0) with false by lia.
  now rewrite Z.rem_mod_nonneg by lia.
Qed.

Lemma index_slot_ok d i : 0 < size d -> size d <= cap d -> 0 <= head d ->
  index_slot d i = Ok ((head d + i mod size d) mod cap d).
Proof.
  intros. unfold index_slot. rewrite positive_mod_ok by lia. cbn [bind].
  pose proof (Z.mod_pos_bound i (size d)). apply item_ok; lia.
Qed.

Lemma index_slot_small d i : 0 <= i < size d -> size d <= cap d -> 0 <= head d ->
  index_slot d i = Ok ((head d + i) mod cap d).
Proof. intros. rewrite index_slot_ok by lia. now rewrite (Z.mod_small i) by lia. Qed.

Lemma raw0 n i : 0 <= i < n -> i = (0 + i) mod n.
Proof. intros. now rewrite Z.add_0_l, Z.mod_small by lia. Qed.

Lemma destroy_items_ok n : forall (m : mem) d i g kd,
  brep m (data d) kd (cap d) (head d) g -> 0 <= head d -> 0 <= i ->
  i + Z.of_nat n <= cap d ->
  (forall k, i <= k < i + Z.of_nat n -> g k <> Raw) ->
  exists m', destroy_items m d i n = Ok m' /\
    brep m' (data d) kd (cap d) (head d)
      (fun k => if (i <=? k) && (k <? i + Z.of_nat n) then Raw else g k) /\
    frame (fun x => x = data d) m m'.
Proof.
  induction n as [|n IH]; intros m d i g kd HB Hh Hi Hle Hg; cbn [destroy_items].
  - exists m. split; [reflexivity|]. split; [|apply frame_refl].
    eapply brep_ext; [|exact HB]. intros k _. cbn beta.
    replace ((i <=? k) && (k <? i + Z.of_nat 0)) with false by lia. reflexivity.
  - rewrite item_ok by lia. cbn [bind].
    destruct (destroy_brep _ _ _ _ _ _ i HB ltac:(lia) (Hg i ltac:(lia))) as (m1 & E1 & B1 & F1).
    rewrite E1. cbn [bind].
    destruct (IH m1 d (i + 1) _ _ B1 Hh ltac:(lia) ltac:(lia)) as (m2 & E2 & B2 & F2).
    { intros k Hk. unfold updz. destruct (Z.eqb_spec k i); [lia|]. apply Hg; lia. }
    exists m2. split; [exact E2|]. split; [|eapply frame_trans; eauto].
    eapply brep_ext; [|exact B2]. intros k Hk. cbn beta. unfold updz.
    destruct (Z.eqb_spec k i) as [->|].
    + replace ((i <=? i) && (i <? i + Z.of_nat (S n))) with true by lia.
      replace ((i + 1 <=? i) && (i <? i + 1 + Z.of_nat n)) with false by lia; congruence.
    + replace ((i + 1 <=? k) && (k <? i + 1 + Z.of_nat n))
        with ((i <=? k) && (k <? i + Z.of_nat (S n))) by lia. reflexivity.
Qed.

Definition in_rng (i : Z) (n : nat) (k : Z) : bool := (i <=? k) && (k <? i + Z.of_nat n).

(** Moving [n] consecutive elements out of a deque into the front slots of another block. *)
Lemma reserve_items_ok n : forall (m : mem) d arr i g g2 kd kd2 n2,
  brep m (data d) kd (cap d) (head d) g -> 0 <= head d -> 0 <= i ->
  i + Z.of_nat n <= cap d ->
  brep m arr kd2 n2 0 g2 -> arr <> data d -> i + Z.of_nat n <= n2 ->
  (forall k, i <= k < i + Z.of_nat n -> (exists v, g k = Live v) /\ g2 k = Raw) ->
  exists m', reserve_items m d arr i n = Ok m' /\
    brep m' (data d) kd (cap d) (head d) (fun k => if in_rng i n k then Raw else g k) /\
    brep m' arr kd2 n2 0 (fun k => if in_rng i n k then g k else g2 k) /\
    frame (fun x => x = data d \/ x = arr) m m'.
Proof.
  induction n as [|n IH]; intros m d arr i g g2 kd kd2 n2 HB Hh Hi Hle HB2 Hne Hle2 Hg;
    cbn [reserve_items].
  - exists m. split; [reflexivity|]. unfold in_rng. 
    (split; [|split; [|apply frame_refl]]); (eapply brep_ext; try eassumption; intros k _; cbn beta);
    replace ((i <=? k) && (k <? i + Z.of_nat 0)) with false by lia; reflexivity.
  - destruct (Hg i ltac:(lia)) as [[v Hgi] Hg2i].
    rewrite item_ok by lia. cbn [bind].
    destruct (move_out_brep _ _ _ _ _ _ i _ HB ltac:(lia) Hgi) as (m1 & E1 & B1 & F1).
    rewrite E1. cbn [bind].
    assert (B1' : brep m1 arr kd2 n2 0 g2) by (eapply frame_brep; [exact F1|cbn; auto|exact HB2]).
    destruct (construct_brep _ _ _ _ _ _ i v B1' ltac:(lia) Hg2i) as (m2 & E2 & B2 & F2).
    rewrite <- (raw0 n2 i) in E2 by lia. rewrite E2. cbn [bind].
    assert (B2' : brep m2 (data d) kd (cap d) (head d) (updz g i Moved))
      by (eapply frame_brep; [exact F2|cbn; auto|exact B1]).
    rewrite ?item_ok by lia. cbn [bind].
    destruct (destroy_brep _ _ _ _ _ _ i B2' ltac:(lia)) as (m3 & E3 & B3 & F3).
    { unfold updz. rewrite Z.eqb_refl. discriminate. }
    rewrite E3. cbn [bind].
    assert (B3' : brep m3 arr kd2 n2 0 (updz g2 i (Live v)))
      by (eapply frame_brep; [exact F3|cbn; auto|exact B2]).
    destruct (IH m3 d arr (i+1) _ _ kd kd2 n2 B3 Hh ltac:(lia) ltac:(lia) B3' Hne ltac:(lia))
      as (m4 & E4 & B4 & B4' & F4).
    { intros k Hk. unfold updz. destruct (Z.eqb_spec k i); [lia|]. apply Hg; lia. }
    exists m4. split; [exact E4|]. split; [|split].
    + eapply brep_ext; [|exact B4]. intros k Hk. cbn beta. unfold updz, in_rng.
      destruct (Z.eqb_spec k i) as [->|].
      * replace ((i <=? i) && (i <? i + Z.of_nat (S n))) with true by lia.
        replace ((i + 1 <=? i) && (i <? i + 1 + Z.of_nat n)) with false by lia; congruence.
      * replace ((i + 1 <=? k) && (k <? i + 1 + Z.of_nat n))
          with ((i <=? k) && (k <? i + Z.of_nat (S n))) by lia. reflexivity.
    + eapply brep_ext; [|exact B4']. intros k Hk. cbn beta. unfold updz, in_rng.
      destruct (Z.eqb_spec k i) as [->|].
      * replace ((i <=? i) && (i <? i + Z.of_nat (S n))) with true by lia.
        replace ((i + 1 <=? i) && (i <? i + 1 + Z.of_nat n)) with false by lia; congruence.
      * replace ((i + 1 <=? k) && (k <? i + 1 + Z.of_nat n))
          with ((i <=? k) && (k <? i + Z.of_nat (S n))) by lia. reflexivity.
    + eapply frame_trans; [|exact F4].
      eapply frame_trans; [eapply frame_weaken; [|exact F1]; cbn; auto|].
      eapply frame_trans; [eapply frame_weaken; [|exact F2]; cbn; auto|].
      eapply frame_weaken; [|exact F3]; cbn; auto.
Qed.

Lemma move_items_eq n : forall (m : mem) b d i,
  0 <= i -> i + Z.of_nat n <= size d -> size d <= cap d -> 0 <= head d ->
  move_items m b d i n = reserve_items m d b i n.
Proof.
  induction n as [|n IH]; intros m b d i Hi Hle Hc Hh; [reflexivity|].
  cbn [move_items reserve_items].
  rewrite index_slot_small, item_ok by lia. cbn [bind].
  destruct (move_out m (data d) ((head d + i) mod cap d)) as [[v m1]|]; [|reflexivity]. cbn [bind].
  destruct (construct m1 b i v) as [m2|]; [|reflexivity]. cbn [bind].
  destruct (destroy m2 (data d) ((head d + i) mod cap d)) as [m3|]; [|reflexivity]. cbn [bind].
  apply IH; lia.
Qed.

(** Copying. *)
Lemma copy_items_ok n : forall (m : mem) b d i g g2 kd kd2 n2,
  brep m (data d) kd (cap d) (head d) g -> 0 <= head d -> 0 <= i ->
  i + Z.of_nat n <= size d -> size d <= cap d ->
  brep m b kd2 n2 0 g2 -> b <> data d -> i + Z.of_nat n <= n2 ->
  (forall k, i <= k < i + Z.of_nat n -> (exists v, g k = Live v) /\ g2 k = Raw) ->
  exists m', copy_items m b d i n = Ok m' /\
    brep m' b kd2 n2 0 (fun k => if in_rng i n k then g k else g2 k) /\
    frame (fun x => x = b) m m'.
Proof.
  induction n as [|n IH]; intros m b d i g g2 kd kd2 n2 HB Hh Hi Hle Hc HB2 Hne Hle2 Hg;
    cbn [copy_items].
  - exists m. split; [reflexivity|]. split; [|apply frame_refl]. unfold in_rng.
    eapply brep_ext; try eassumption; intros k _; cbn beta.
    replace ((i <=? k) && (k <? i + Z.of_nat 0)) with false by lia; reflexivity.
  - destruct (Hg i ltac:(lia)) as [[v Hgi] Hg2i].
    rewrite index_slot_small by lia. cbn [bind].
    rewrite (load_brep _ _ _ _ _ _ i v HB) by (lia || auto). cbn [bind].
    destruct (construct_brep _ _ _ _ _ _ i v HB2 ltac:(lia) Hg2i) as (m2 & E2 & B2 & F2).
    rewrite <- (raw0 n2 i) in E2 by lia. rewrite E2. cbn [bind].
    assert (B2' : brep m2 (data d) kd (cap d) (head d) g)
      by (eapply frame_brep; [exact F2|cbn; auto|exact HB]).
    destruct (IH m2 b d (i+1) _ _ kd kd2 n2 B2' Hh ltac:(lia) ltac:(lia) Hc B2 Hne ltac:(lia))
      as (m4 & E4 & B4 & F4).
    { intros k Hk. unfold updz. destruct (Z.eqb_spec k i); [lia|]. apply Hg; lia. }
    exists m4. split; [exact E4|]. split.
    + eapply brep_ext; [|exact B4]. intros k Hk. cbn beta. unfold updz, in_rng.
      destruct (Z.eqb_spec k i) as [->|].
      * replace ((i <=? i) && (i <? i + Z.of_nat (S n))) with true by lia.
        replace ((i + 1 <=? i) && (i <? i + 1 + Z.of_nat n)) with false by lia; congruence.
      * replace ((i + 1 <=? k) && (k <? i + 1 + Z.of_nat n))
          with ((i <=? k) && (k <? i + Z.of_nat (S n))) by lia. reflexivity.
    + eapply frame_trans; [|exact F4]. eapply frame_weaken; [|exact F2]; cbn; auto.
Qed.

(** Assigning, between different buffers. *)
Lemma assign_items_ok n : forall (m : mem) d o i g g2 kd kd2,
  brep m (data o) kd (cap o) (head o) g -> 0 <= head o -> size o <= cap o ->
  brep m (data d) kd2 (cap d) (head d) g2 -> 0 <= head d -> size d <= cap d ->
  data d <> data o -> 0 <= i ->
  i + Z.of_nat n <= size o -> i + Z.of_nat n <= size d ->
  (forall k, i <= k < i + Z.of_nat n -> (exists v, g k = Live v) /\ g2 k <> Raw) ->
  exists m', assign_items m d o i n = Ok m' /\
    brep m' (data d) kd2 (cap d) (head d) (fun k => if in_rng i n k then g k else g2 k) /\
    frame (fun x => x = data d) m m'.
Proof.
  induction n as [|n IH]; intros m d o i g g2 kd kd2 HB Hh Hc HB2 Hh2 Hc2 Hne Hi Hle Hle2 Hg;
    cbn [assign_items].
  - exists m. split; [reflexivity|]. split; [|apply frame_refl]. unfold in_rng.
    eapply brep_ext; try eassumption; intros k _; cbn beta.
    replace ((i <=? k) && (k <? i + Z.of_nat 0)) with false by lia; reflexivity.
  - destruct (Hg i ltac:(lia)) as [[v Hgi] Hg2i].
    rewrite index_slot_small by lia. cbn [bind].
    rewrite (load_brep _ _ _ _ _ _ i v HB) by (lia || auto). cbn [bind].
    rewrite ?index_slot_small by lia. cbn [bind].
    destruct (assign_brep _ _ _ _ _ _ i v HB2 ltac:(lia) Hg2i) as (m2 & E2 & B2 & F2).
    rewrite E2. cbn [bind].
    assert (B2' : brep m2 (data o) kd (cap o) (head o) g)
      by (eapply frame_brep; [exact F2|cbn; auto|exact HB]).
    destruct (IH m2 d o (i+1) _ _ kd kd2 B2' Hh Hc B2 Hh2 Hc2 Hne ltac:(lia) ltac:(lia) ltac:(lia))
      as (m4 & E4 & B4 & F4).
    { intros k Hk. unfold updz. destruct (Z.eqb_spec k i); [lia|]. apply Hg; lia. }
    exists m4. split; [exact E4|]. split.
    + eapply brep_ext; [|exact B4]. intros k Hk. cbn beta. unfold updz, in_rng.
      destruct (Z.eqb_spec k i) as [->|].
      * replace ((i <=? i) && (i <? i + Z.of_nat (S n))) with true by lia.
        replace ((i + 1 <=? i) && (i <? i + 1 + Z.of_nat n)) with false by lia; congruence.
      * replace ((i + 1 <=? k) && (k <? i + 1 + Z.of_nat n))
          with ((i <=? k) && (k <? i + Z.of_nat (S n))) by lia. reflexivity.
    + eapply frame_trans; [|exact F4]. eapply frame_weaken; [|exact F2]; cbn; auto.
Qed.

(** Assigning a deque to itself. *)
Lemma assign_items_self n : forall (m : mem) d i g kd,
  brep m (data d) kd (cap d) (head d) g -> 0 <= head d -> size d <= cap d ->
  0 <= i -> i + Z.of_nat n <= size d ->
  (forall k, i <= k < i + Z.of_nat n -> exists v, g k = Live v) ->
  exists m', assign_items m d d i n = Ok m' /\
    brep m' (data d) kd (cap d) (head d) g /\
    frame (fun x => x = data d) m m'.
Proof.
  induction n as [|n IH]; intros m d i g kd HB Hh Hc Hi Hle Hg; cbn [assign_items].
  - exists m. split; [reflexivity|]. split; [exact HB|apply frame_refl].
  - destruct (Hg i ltac:(lia)) as [v Hgi].
    rewrite index_slot_small by lia. cbn [bind].
    rewrite (load_brep _ _ _ _ _ _ i v HB) by (lia || auto). cbn [bind].
    destruct (assign_brep _ _ _ _ _ _ i v HB ltac:(lia)) as (m2 & E2 & B2 & F2);
      [congruence|].
    rewrite E2. cbn [bind].
    assert (B2' : brep m2 (data d) kd (cap d) (head d) g).
    { eapply brep_ext; [|exact B2]. intros k Hk. unfold updz.
      destruct (Z.eqb_spec k i) as [->|]; congruence. }
    destruct (IH m2 d (i+1) _ kd B2' Hh Hc ltac:(lia) ltac:(lia)) as (m4 & E4 & B4 & F4).
    { intros k Hk. apply Hg; lia. }
    exists m4. split; [exact E4|]. split; [exact B4|].
    eapply frame_trans; [exact F2|exact F4].
Qed.

Lemma extend_items_ok n : forall (m : mem) d o i g g2 kd kd2,
  brep m (data o) kd (cap o) (head o) g -> 0 <= head o -> size o <= cap o ->
  brep m (data d) kd2 (cap d) (head d) g2 -> 0 <= head d ->
  data d <> data o -> 0 <= i ->
  i + Z.of_nat n <= size o -> i + Z.of_nat n <= cap d ->
  (forall k, i <= k < i + Z.of_nat n -> (exists v, g k = Live v) /\ g2 k = Raw) ->
  exists m', extend_items m d o i n = Ok m' /\
    brep m' (data d) kd2 (cap d) (head d) (fun k => if in_rng i n k then g k else g2 k) /\
    frame (fun x => x = data d) m m'.
Proof.
  induction n as [|n IH]; intros m d o i g g2 kd kd2 HB Hh Hc HB2 Hh2 Hne Hi Hle Hle2 Hg;
    cbn [extend_items].
  - exists m. split; [reflexivity|]. split; [|apply frame_refl]. unfold in_rng.
    eapply brep_ext; try eassumption; intros k _; cbn beta.
    replace ((i <=? k) && (k <? i + Z.of_nat 0)) with false by lia; reflexivity.
  - destruct (Hg i ltac:(lia)) as [[v Hgi] Hg2i].
    rewrite item_ok by lia. cbn [bind].
    rewrite index_slot_small by lia. cbn [bind].
    rewrite (load_brep _ _ _ _ _ _ i v HB) by (lia || auto). cbn [bind].
    destruct (construct_brep _ _ _ _ _ _ i v HB2 ltac:(lia) Hg2i) as (m2 & E2 & B2 & F2).
    rewrite E2. cbn [bind].
    assert (B2' : brep m2 (data o) kd (cap o) (head o) g)
      by (eapply frame_brep; [exact F2|cbn; auto|exact HB]).
    destruct (IH m2 d o (i+1) _ _ kd kd2 B2' Hh Hc B2 Hh2 Hne ltac:(lia) ltac:(lia) ltac:(lia))
      as (m4 & E4 & B4 & F4).
    { intros k Hk. unfold updz. destruct (Z.eqb_spec k i); [lia|]. apply Hg; lia. }
    exists m4. split; [exact E4|]. split.
    + eapply brep_ext; [|exact B4]. intros k Hk. cbn beta. unfold updz, in_rng.
      destruct (Z.eqb_spec k i) as [->|].
      * replace ((i <=? i) && (i <? i + Z.of_nat (S n))) with true by lia.
        replace ((i + 1 <=? i) && (i <? i + 1 + Z.of_nat n)) with false by lia; congruence.
      * replace ((i + 1 <=? k) && (k <? i + 1 + Z.of_nat n))
          with ((i <=? k) && (k <? i + Z.of_nat (S n))) by lia. reflexivity.
    + eapply frame_trans; [|exact F4]. eapply frame_weaken; [|exact F2]; cbn; auto.
Qed.

Lemma construct_seq_ok l : forall (m : mem) b i g kd n,
  brep m b kd n 0 g -> 0 <= i -> i + len l <= n ->
  (forall k, i <= k < i + len l -> g k = Raw) ->
  exists m', construct_seq m b i l = Ok m' /\
    brep m' b kd n 0 (fun k => if (i <=? k) && (k <? i + len l) then cellsof l (k - i) else g k) /\
    frame (fun x => x = b) m m'.
Proof.
  unfold len. induction l as [|v l IH]; intros m b i g kd n HB Hi Hle Hg; cbn [construct_seq].
  - exists m. split; [reflexivity|]. split; [|apply frame_refl].
    eapply brep_ext; [|exact HB]. intros k _. cbn beta.
    replace ((i <=? k) && (k <? i + Z.of_nat (length (@nil A)))) with false by (simpl; lia). reflexivity.
  - cbn [length] in *.
    destruct (construct_brep _ _ _ _ _ _ i v HB ltac:(lia) (Hg i ltac:(lia))) as (m1 & E1 & B1 & F1).
    rewrite <- (raw0 n i) in E1 by lia. rewrite E1. cbn [bind].
    destruct (IH m1 b (i+1) _ _ _ B1 ltac:(lia) ltac:(lia)) as (m2 & E2 & B2 & F2).
    { intros k Hk. unfold updz. destruct (Z.eqb_spec k i); [lia|]. apply Hg; lia. }
    exists m2. split; [exact E2|]. split; [|eapply frame_trans; eauto].
    eapply brep_ext; [|exact B2]. intros k Hk. cbn beta. unfold updz.
    destruct (Z.eqb_spec k i) as [->|].
    + replace ((i <=? i) && (i <? i + Z.of_nat (S (length l)))) with true by lia.
      replace ((i + 1 <=? i) && _) with false by lia.
      unfold cellsof. rewrite Z.sub_diag. reflexivity.
    + replace ((i + 1 <=? k) && (k <? i + 1 + Z.of_nat (length l)))
        with ((i <=? k) && (k <? i + Z.of_nat (S (length l)))) by lia.
      destruct ((i <=? k) && _) eqn:Er; [|reflexivity].
      unfold cellsof. replace (Z.to_nat (k - i)) with (S (Z.to_nat (k - (i+1)))) by lia. reflexivity.
Qed.

Lemma cellsof_live L k : 0 <= k < len L ->
  exists v, nth_error L (Z.to_nat k) = Some v /\ cellsof L k = Live v.
Proof.
  unfold len, cellsof. intros H.
  destruct (nth_error L (Z.to_nat k)) as [v|] eqn:E; [eauto|].
  apply nth_error_None in E. lia.
Qed.

Lemma cellsof_raw L k : len L <= k -> cellsof L k = Raw.
Proof.
  unfold len, cellsof. intros H.
  destruct (nth_error L (Z.to_nat k)) as [v|] eqn:E; [|auto].
  assert (Z.to_nat k < length L)%nat by (apply nth_error_Some; congruence). lia.
Qed.


(** ** Ownership: which blocks belong to a deque. *)

Definition fp (d : deque) (b : nat) : Prop := b = inl d \/ b = data d.
Definition ofp (o : option deque) (b : nat) : Prop :=
  match o with Some d => fp d b | None => False end.

Lemma fp_dec d b : {fp d b} + {~ fp d b}.
Proof.
  unfold fp. destruct (Nat.eq_dec b (inl d)); [left; auto|].
  destruct (Nat.eq_dec b (data d)); [left; auto|right; tauto].
Qed.

Lemma rep_blocks m d L b : rep m d L -> fp d b -> blk m b <> None.
Proof.
  intros R [->| ->].
  - pose proof (r_inl _ _ _ R) as H. destruct (N <? cap d).
    + eapply brep_some. apply H.
    + rewrite <- H. eapply brep_some, (r_data _ _ _ R).
  - eapply brep_some, (r_data _ _ _ R).
Qed.

Lemma rep_frame m m' d L :
  rep m d L -> (forall b, fp d b -> blk m' b = blk m b) -> rep m' d L.
Proof.
  intros R H. destruct R. constructor; auto.
  - eapply brep_blk; [|eassumption]. apply H; right; auto.
  - destruct (N <? cap d); [|auto]. destruct r_inl0; split; auto.
    eapply brep_blk; [|eassumption]. apply H; left; auto.
Qed.

(** How one operation changes the set of blocks: [o] before, [o'] after. *)
Record trans (m : mem) (o : nat -> Prop) (m' : mem) (o' : nat -> Prop) : Prop := {
  t_fresh : fresh_ok m';
  t_same : forall b, ~ o b -> ~ o' b -> blk m' b = blk m b;
  t_leak : forall b, blk m' b <> None -> o' b \/ (~ o b /\ blk m b <> None);
  t_new : forall b, o' b -> o b \/ blk m b = None
}.

Lemma trans_refl m d : fresh_ok m -> trans m (fp d) m (fp d).
Proof.
  intros H; constructor; auto. intros b Hb. destruct (fp_dec d b); auto.
Qed.

Lemma trans_frame m o m1 d1 m2 d2 :
  trans m o m1 (fp d1) -> frame (fp d1) m1 m2 ->
  (forall b, fp d1 b -> blk m1 b <> None) ->
  inl d2 = inl d1 -> data d2 = data d1 ->
  trans m o m2 (fp d2).
Proof.
  intros T F Hal Ei Ed.
  assert (Efp : forall b, fp d2 b <-> fp d1 b) by (intros b; unfold fp; rewrite Ei, Ed; tauto).
  destruct T, F as [Fn Fb]. constructor.
  - eapply frame_fresh; [split; eauto|exact Hal|auto].
  - intros b H1 H2. rewrite Efp in H2. rewrite Fb by auto. auto.
  - intros b Hb. rewrite Efp. destruct (fp_dec d1 b); [auto|].
    rewrite Fb in Hb by auto. auto.
  - intros b Hb. rewrite Efp in Hb. auto.
Qed.

Lemma frame_fp (m m' : mem) d : frame (fun x => x = data d) m m' -> frame (fp d) m m'.
Proof. apply frame_weaken. unfold fp; auto. Qed.

Lemma rep_len_nonneg m d L : rep m d L -> 0 <= size d.
Proof. intros R. rewrite (r_size _ _ _ R). unfold len. lia. Qed.

Lemma reserve_ok m d L c :
  rep m d L -> fresh_ok m ->
  exists m' d', reserve N m d c = Ok (m', d') /\ rep m' d' L /\
    cap d' = grow (cap d) c /\ trans m (fp d) m' (fp d') /\
    (c <= cap d -> m' = m /\ d' = d) /\
    (forall b, ~ fp d b -> blk m b <> None -> ~ fp d' b).
Proof.
  intros R Hf. unfold reserve, grow.
  pose proof (rep_len_nonneg _ _ _ R) as Hsz.
  destruct (Z.ltb_spec (cap d) c) as [Hlt|Hge].
  2:{ exists m, d. split; [reflexivity|]. split; [exact R|]. split; [reflexivity|].
      split; [apply trans_refl; auto|]. split; auto. }
  destruct (alloc m Heap (Z.max (cap d * 2) c)) as [arr m1] eqn:Ea.
  destruct (alloc_spec _ _ _ _ _ Hf Ea) as (Earr & Hnone & Hf1 & Hn1 & Hb1 & Ho1).
  assert (Hal : forall b, fp d b -> b <> arr).
  { intros b Hb ->. apply (rep_blocks _ _ _ _ R Hb). auto. }
  assert (R1 : rep m1 d L).
  { eapply rep_frame; [exact R|]. intros b Hb. apply Ho1. auto. }
  destruct R1 as [Q1 Q2 Q3 Q4 Q5 Q6 Q7].
  destruct (reserve_items_ok (Z.to_nat (size d)) m1 d arr 0 _ _ _ _ _ Q6 Q2
              ltac:(lia) ltac:(lia) (Hb1 0)) as (m2 & E2 & B2 & B2' & F2).
  { intro Heq. apply (Hal (data d)); [right; auto|auto]. }
  { lia. }
  { intros k Hk. split; [|reflexivity].
    destruct (cellsof_live L k) as (v & _ & Hv); [lia|]. eauto. }
  rewrite E2. cbn [bind].
  assert (Bd : brep m2 (data d) (dkind d) (cap d) (head d) (fun _ => Raw)).
  { eapply brep_ext; [|exact B2]. intros k Hk. cbn beta. unfold in_rng.
    destruct ((0 <=? k) && _) eqn:Er; [reflexivity|]. apply cellsof_raw. lia. }
  assert (Hgt : N < Z.max (cap d * 2) c) by lia.
  (* release of the old heap block, if any *)
  assert (Hrel : exists m3, (if N <? cap d then release m2 Heap (data d) else Ok m2) = Ok m3 /\
            (N < cap d -> blk m3 (data d) = None) /\
            (forall b, (N < cap d -> b <> data d) -> blk m3 b = blk m2 b) /\ next m3 = next m2).
  { unfold dkind in Bd. destruct (N <? cap d) eqn:EN.
    - destruct (release_brep _ _ _ _ _ _ Bd ltac:(auto)) as (m3 & E3 & Hnone3 & [F3n F3]).
      exists m3. split; [exact E3|]. split; [auto|]. split; [|auto].
      intros b Hb. apply F3. apply Hb. lia.
    - exists m2. split; [auto|]. split; [lia|]. auto. }
  destruct Hrel as (m3 & E3 & Hfreed & Hother & Hnext3).
  rewrite E3. cbn [bind].
  set (d' := mkDeque (inl d) arr (Z.max (cap d * 2) c) 0 (size d)).
  exists m3, d'. split; [reflexivity|].
  assert (Harr_ne : arr <> inl d) by (intro; apply (Hal (inl d)); [left; auto|auto]).
  assert (Harr_ne2 : arr <> data d) by (intro; apply (Hal (data d)); [right; auto|auto]).
  assert (Binl : brep m3 (inl d) Inl N 0 (fun _ => Raw)).
  { destruct (N <? cap d) eqn:EN.
    - destruct Q7 as [Qne Qb]. eapply brep_blk; [apply Hother; intros _; congruence|].
      eapply frame_brep; [exact F2| |exact Qb]. cbn. intros [H|H]; congruence.
    - eapply brep_blk; [apply Hother; lia|]. 
      assert (cap d = N) by lia. unfold dkind in Bd. rewrite EN in Bd. rewrite Q7 in Bd.
      destruct Bd as (B & HB & Hk & Hl & Hg). exists B; repeat split; auto; [lia|].
      intros k Hk'. rewrite <- (mod_surj N (head d) ((0 + k) mod N)).
      + rewrite H in Hg. apply Hg. apply Z.mod_pos_bound; lia.
      + apply Z.mod_pos_bound; lia. }
  split; [|split; [reflexivity|split; [|split]]].
  - constructor; cbn [cap head size inl data d']; try lia; auto.
    + unfold dkind. cbn [cap d']. replace (N <? Z.max (cap d * 2) c) with true by lia.
      eapply brep_blk; [apply Hother; intros _; exact Harr_ne2|].
      eapply brep_ext; [|exact B2']. intros k Hk. cbn beta. unfold in_rng.
      destruct ((0 <=? k) && _) eqn:Er; [reflexivity|]. symmetry. apply cellsof_raw. lia.
    + replace (N <? Z.max (cap d * 2) c) with true by lia. auto.
  - constructor.
    + intros b Hb. rewrite Hnext3 in Hb. destruct F2 as [F2n F2].
      destruct (Nat.eq_dec b (data d)) as [->|Hne].
      * destruct (Z.ltb_spec N (cap d)); [auto|].
        exfalso. apply (rep_blocks _ _ _ (data d) R); [right; auto|].
        apply Hf. rewrite F2n, Hn1 in Hb. lia.
      * rewrite Hother by auto. rewrite F2; [apply Hf1; lia|]. cbn. intros [?|?]; [auto|].
        subst b. rewrite F2n, Hn1 in Hb. lia.
    + intros b H1 H2. destruct F2 as [_ F2]. unfold fp in H1, H2. cbn in H2.
      rewrite Hother by (intros _; tauto). rewrite F2 by (cbn; tauto). apply Ho1. tauto.
    + intros b Hb. destruct F2 as [_ F2]. unfold fp; cbn.
      destruct (Nat.eq_dec b arr) as [?|Hna]; [left; auto|].
      destruct (Nat.eq_dec b (inl d)) as [?|Hni]; [left; auto|].
      destruct (Nat.eq_dec b (data d)) as [->|Hnd].
      * destruct (Z.ltb_spec N (cap d)); [tauto|].
        left; left. assumption.
      * right. split; [tauto|]. rewrite Hother in Hb by auto.
        rewrite F2 in Hb by (cbn; tauto). rewrite Ho1 in Hb by auto. auto.
    + intros b [Hb|Hb]; cbn in Hb; subst b; [left; left; auto|right; auto].
  - intros Hc; lia.
  - intros b Hnb Hal' [Hb|Hb]; cbn in Hb; subst b; [apply Hnb; left; auto|congruence].
Qed.

Lemma fp_alive_data m d L : rep m d L -> fp d (data d).
Proof. right; auto. Qed.

(** Replacing the contents of the data block, same geometry. *)
Lemma rep_content m m' d L L' h s :
  rep m d L -> frame (fun x => x = data d) m m' ->
  0 <= h -> (h < cap d \/ (cap d = 0 /\ h = 0)) -> s = len L' -> s <= cap d ->
  brep m' (data d) (dkind d) (cap d) h (cellsof L') ->
  rep m' (mkDeque (inl d) (data d) (cap d) h s) L'.
Proof.
  intros R F Hh Hh2 Hs Hle B. destruct R. constructor; cbn [cap head size inl data]; auto.
  destruct (N <? cap d) eqn:E; [|auto]. destruct r_inl0 as [Hne Hb]; split; [auto|].
  eapply frame_brep; [exact F| |exact Hb]. cbn; auto.
Qed.

Lemma len_app (L : list A) v : len (L ++ [v]) = len L + 1.
Proof. unfold len. rewrite app_length; simpl; lia. Qed.

Lemma grow_ge c n : n <= grow c n.
Proof. unfold grow. destruct (Z.ltb_spec c n); lia. Qed.

Lemma cellsof_app L v k : 0 <= k -> cellsof (L ++ [v]) k = if k =? len L then Live v else cellsof L k.
Proof.
  intros Hk. unfold cellsof, len. destruct (Z.eqb_spec k (Z.of_nat (length L))) as [->|Hne].
  - rewrite nth_error_app2 by lia. replace (Z.to_nat (Z.of_nat (length L)) - length L)%nat with O by lia.
    reflexivity.
  - destruct (Z.ltb_spec k (Z.of_nat (length L))).
    + rewrite nth_error_app1 by lia. reflexivity.
    + rewrite nth_error_app2 by lia. destruct (Z.to_nat k - length L)%nat as [|q] eqn:E; [lia|].
      destruct (nth_error L (Z.to_nat k)) eqn:E2.
      * assert (Z.to_nat k < length L)%nat by (apply nth_error_Some; congruence). lia.
      * simpl. now destruct q.
Qed.

Lemma push_back_ok m d L v :
  rep m d L -> fresh_ok m ->
  exists m' d', push_back N m d v = Ok (m', d') /\ rep m' d' (L ++ [v]) /\
    cap d' = grow (cap d) (len L + 1) /\ trans m (fp d) m' (fp d').
Proof.
  intros R Hf. unfold push_back.
  destruct (reserve_ok m d L (size d + 1) R Hf) as (m1 & d1 & E1 & R1 & C1 & T1 & _ & _).
  rewrite E1. cbn [bind].
  pose proof (r_size _ _ _ R) as Hs. pose proof (r_size _ _ _ R1) as Hs1.
  pose proof (rep_len_nonneg _ _ _ R1) as Hs0.
  pose proof (grow_ge (cap d) (size d + 1)) as G.
  rewrite item_ok; [|lia|apply (r_head0 _ _ _ R1)|lia]. cbn [bind].
  destruct (construct_brep _ _ _ _ _ _ (size d1) v (r_data _ _ _ R1)) as (m2 & E2 & B2 & F2).
  { lia. } { apply cellsof_raw. lia. }
  rewrite E2. cbn [bind]. eexists _, _. split; [reflexivity|]. split; [|split].
  - eapply rep_content; eauto; try apply R1.
    + rewrite len_app; lia.
    + lia.
    + eapply brep_ext; [|exact B2]. intros k Hk. unfold updz. rewrite cellsof_app by lia.
      rewrite Hs1. reflexivity.
  - cbn [cap]. rewrite C1, Hs. reflexivity.
  - eapply trans_frame; [exact T1|apply frame_fp; exact F2| |reflexivity|reflexivity].
    intros b Hb. eapply rep_blocks; eauto.
Qed.

Lemma mod_add_mod h k n : 0 < n -> ((h mod n) + k) mod n = (h + k) mod n.
Proof. intros. now rewrite Zplus_mod_idemp_l. Qed.

(** Re-basing a block at a different head. *)
Lemma brep_rebase (m : mem) b kd n h h' g :
  brep m b kd n h g ->
  brep m b kd n h' (fun k => g ((h' - h + k) mod n)).
Proof.
  intros (B & HB & Hk & Hl & Hg). exists B; repeat split; auto.
  intros k Hr. rewrite <- Hg by (apply Z.mod_pos_bound; lia).
  f_equal. rewrite Zplus_mod_idemp_r. f_equal. lia.
Qed.

Lemma push_front_ok m d L v :
  rep m d L -> fresh_ok m ->
  exists m' d', push_front N m d v = Ok (m', d') /\ rep m' d' (v :: L) /\
    cap d' = grow (cap d) (len L + 1) /\ trans m (fp d) m' (fp d').
Proof.
  intros R Hf. unfold push_front.
  destruct (reserve_ok m d L (size d + 1) R Hf) as (m1 & d1 & E1 & R1 & C1 & T1 & _ & _).
  rewrite E1. cbn [bind].
  pose proof (r_size _ _ _ R) as Hs. pose proof (r_size _ _ _ R1) as Hs1.
  pose proof (rep_len_nonneg _ _ _ R1) as Hs0.
  pose proof (grow_ge (cap d) (size d + 1)) as G.
  pose proof (r_head0 _ _ _ R1) as Hh. pose proof (r_head _ _ _ R1) as Hh2.
  assert (Hc : 0 < cap d1) by lia.
  unfold c_rem. replace (cap d1 =? 0) with false by lia. cbn [bind].
  rewrite Z.rem_mod_nonneg by lia.
  set (h := (head d1 + cap d1 - 1) mod cap d1).
  assert (Hhb : 0 <= h < cap d1) by (apply Z.mod_pos_bound; lia).
  pose proof (brep_rebase _ _ _ _ _ h _ (r_data _ _ _ R1)) as B.
  destruct (construct_brep _ _ _ _ _ _ 0 v B) as (m2 & E2 & B2 & F2).
  { lia. }
  { apply cellsof_raw. 
    assert (Hx : (h - head d1 + 0) mod cap d1 = cap d1 - 1).
    { unfold h. rewrite Z.add_0_r, Zminus_mod_idemp_l.
      replace (head d1 + cap d1 - 1 - head d1) with (cap d1 - 1) by lia. apply Z.mod_small. lia. }
    rewrite Hx. lia. }
  rewrite Z.add_0_r, Z.mod_small in E2 by lia.
  rewrite E2. cbn [bind]. eexists _, _. split; [reflexivity|]. split; [|split].
  - eapply rep_content; eauto; try lia.
    + unfold len in *; simpl; lia.
    + eapply brep_ext; [|exact B2]. intros k Hk. unfold updz.
      destruct (Z.eqb_spec k 0) as [->|]; [reflexivity|].
      assert (Hx : (h - head d1 + k) mod cap d1 = k - 1).
      { unfold h. rewrite Z.sub_opp_r || idtac. replace ((head d1 + cap d1 - 1) mod cap d1 - head d1 + k)
          with ((head d1 + cap d1 - 1) mod cap d1 + (k - head d1)) by lia.
        rewrite Zplus_mod_idemp_l. replace (head d1 + cap d1 - 1 + (k - head d1)) with (k - 1 + 1 * cap d1) by lia.
        rewrite Z.mod_add by lia. apply Z.mod_small; lia. }
      rewrite Hx. unfold cellsof. replace (Z.to_nat k) with (S (Z.to_nat (k - 1))) by lia. reflexivity.
  - cbn [cap]. rewrite C1, Hs. reflexivity.
  - eapply trans_frame; [exact T1|apply frame_fp; exact F2| |reflexivity|reflexivity].
    intros b Hb. eapply rep_blocks; eauto.
Qed.

Lemma updz_updz (g : Z -> cell A) k c c' : forall j, updz (updz g k c) k c' j = updz g k c' j.
Proof. intros j. unfold updz. now destruct (j =? k). Qed.

Lemma pop_front_ok m d L :
  rep m d L -> fresh_ok m ->
  exists m' d', pop_front m d = Ok (m', d', hd_error L) /\ rep m' d' (tl L) /\
    cap d' = cap d /\ trans m (fp d) m' (fp d').
Proof.
  intros R Hf. unfold pop_front. pose proof (r_size _ _ _ R) as Hs.
  destruct L as [|a L].
  { unfold len in Hs; simpl in Hs. rewrite Hs. simpl. exists m, d. split; [reflexivity|].
    split; [exact R|]. split; [reflexivity|]. apply trans_refl; auto. }
  unfold len in Hs; simpl in Hs. replace (size d =? 0) with false by lia.
  pose proof (r_le _ _ _ R) as Hle.
  pose proof (r_head0 _ _ _ R) as Hh. pose proof (r_head _ _ _ R) as Hh2.
  unfold c_rem. replace (cap d =? 0) with false by lia. cbn [bind].
  rewrite Z.rem_mod_nonneg by lia.
  destruct (move_out_brep _ _ _ _ _ _ 0 a (r_data _ _ _ R)) as (m1 & E1 & B1 & F1); [lia|reflexivity|].
  rewrite Z.add_0_r, Z.mod_small in E1 by lia. rewrite E1. cbn [bind].
  destruct (destroy_brep _ _ _ _ _ _ 0 B1) as (m2 & E2 & B2 & F2); [lia|discriminate|].
  rewrite Z.add_0_r, Z.mod_small in E2 by lia. rewrite E2. cbn [bind].
  pose proof (frame_trans _ _ _ _ F1 F2) as F.
  eexists _, _. split; [reflexivity|]. split; [|split; [reflexivity|]].
  - pose proof (Z.mod_pos_bound (head d + 1) (cap d) ltac:(lia)) as Hb.
    eapply rep_content; eauto; try lia.
    + simpl. unfold len. lia.
    + eapply brep_ext; [|apply (brep_rebase _ _ _ _ _ ((head d + 1) mod cap d) _ B2)].
      intros k Hk. cbn beta. rewrite updz_updz. unfold updz.
      assert (Hx : ((head d + 1) mod cap d - head d + k) mod cap d = (k + 1) mod cap d).
      { replace ((head d + 1) mod cap d - head d + k) with ((head d + 1) mod cap d + (k - head d)) by lia.
        rewrite Zplus_mod_idemp_l. f_equal. lia. }
      rewrite Hx. destruct (Z.eq_dec k (cap d - 1)) as [->|Hne].
      * replace (cap d - 1 + 1) with (cap d) by lia. rewrite Z.mod_same by lia. simpl.
        symmetry. apply cellsof_raw. unfold len. lia.
      * rewrite Z.mod_small by lia. replace (k + 1 =? 0) with false by lia.
        unfold cellsof. replace (Z.to_nat (k + 1)) with (S (Z.to_nat k)) by lia. reflexivity.
  - eapply trans_frame; [apply trans_refl; exact Hf|apply frame_fp; exact F| |reflexivity|reflexivity].
    intros b Hb. eapply rep_blocks; eauto.
Qed.

Lemma last_split (L : list A) : L <> [] -> exists L' v, L = L' ++ [v].
Proof. intros H. destruct (exists_last H) as (L' & v & E). eauto. Qed.

Lemma last_opt_app (L : list A) v : last_opt (L ++ [v]) = Some v.
Proof. unfold last_opt. now rewrite rev_app_distr. Qed.

Lemma pop_back_ok m d L :
  rep m d L -> fresh_ok m ->
  exists m' d', pop_back m d = Ok (m', d', last_opt L) /\ rep m' d' (removelast L) /\
    cap d' = cap d /\ trans m (fp d) m' (fp d').
Proof.
  intros R Hf. unfold pop_back. pose proof (r_size _ _ _ R) as Hs.
  destruct L as [|a0 L0] eqn:EL.
  { unfold len in Hs; simpl in Hs. rewrite Hs. simpl. exists m, d. split; [reflexivity|].
    split; [exact R|]. split; [reflexivity|]. apply trans_refl; auto. }
  destruct (last_split L) as (L' & a & E'); [subst; discriminate|].
  rewrite <- EL in *. clear EL a0 L0. subst L. rewrite last_opt_app, removelast_last.
  rewrite len_app in Hs.
  pose proof (r_le _ _ _ R) as Hle.
  pose proof (r_head0 _ _ _ R) as Hh. pose proof (r_head _ _ _ R) as Hh2.
  assert (0 <= len L') by (unfold len; lia).
  replace (size d =? 0) with false by lia.
  unfold c_rem. replace (cap d =? 0) with false by lia. cbn [bind].
  rewrite Z.rem_mod_nonneg by lia.
  replace (head d + size d - 1) with (head d + len L') by lia.
  assert (Hl : cellsof (L' ++ [a]) (len L') = Live a).
  { rewrite cellsof_app by lia. now rewrite Z.eqb_refl. }
  destruct (move_out_brep _ _ _ _ _ _ (len L') a (r_data _ _ _ R)) as (m1 & E1 & B1 & F1); [lia|auto|].
  rewrite E1. cbn [bind].
  destruct (destroy_brep _ _ _ _ _ _ (len L') B1) as (m2 & E2 & B2 & F2);
    [lia|unfold updz; rewrite Z.eqb_refl; discriminate|].
  rewrite E2. cbn [bind].
  pose proof (frame_trans _ _ _ _ F1 F2) as F.
  eexists _, _. split; [reflexivity|]. split; [|split; [reflexivity|]].
  - eapply rep_content; eauto; try lia.
    eapply brep_ext; [|exact B2].
    intros k Hk. rewrite updz_updz. unfold updz. rewrite cellsof_app by lia.
    destruct (Z.eqb_spec k (len L')) as [->|]; [|reflexivity].
    symmetry. apply cellsof_raw. lia.
  - eapply trans_frame; [apply trans_refl; exact Hf|apply frame_fp; exact F| |reflexivity|reflexivity].
    intros b Hb. eapply rep_blocks; eauto.
Qed.

Lemma at_wrapped_cell L i : 0 < len L ->
  exists v, at_wrapped L i = Some v /\ cellsof L (i mod len L) = Live v.
Proof.
  intros H. destruct L as [|a L']; [unfold len in H; simpl in H; lia|].
  destruct (cellsof_live (a :: L') (i mod len (a :: L'))) as (v & E1 & E2).
  { apply Z.mod_pos_bound; lia. }
  exists v. split; [exact E1|exact E2].
Qed.

Lemma get_ok m d L i v : rep m d L -> at_wrapped L i = Some v -> get m d i = Ok v.
Proof.
  intros R H. unfold get. pose proof (r_size _ _ _ R) as Hs.
  assert (Hp : 0 < len L) by (destruct L; [discriminate|unfold len; simpl; lia]).
  pose proof (r_le _ _ _ R) as Hle. pose proof (r_head0 _ _ _ R) as Hh.
  rewrite index_slot_ok by lia. cbn [bind].
  destruct (at_wrapped_cell L i Hp) as (w & E1 & E2).
  rewrite H in E1. injection E1 as ->.
  pose proof (Z.mod_pos_bound i (size d)).
  eapply load_brep; [apply (r_data _ _ _ R)|lia|]. rewrite Hs. exact E2.
Qed.

Lemma front_ok m d L v : rep m d L -> hd_error L = Some v -> front m d = Ok v.
Proof.
  intros R H. unfold front. pose proof (r_size _ _ _ R) as Hs.
  destruct L as [|a L]; [discriminate|]. injection H as ->.
  pose proof (r_le _ _ _ R) as Hle. pose proof (r_head0 _ _ _ R) as Hh. pose proof (r_head _ _ _ R).
  unfold len in Hs; simpl in Hs.
  replace (head d) with ((head d + 0) mod cap d) by (rewrite Z.add_0_r; apply Z.mod_small; lia).
  eapply load_brep; [apply (r_data _ _ _ R)|lia|reflexivity].
Qed.

Lemma back_ok m d L v : rep m d L -> last_opt L = Some v -> back m d = Ok v.
Proof.
  intros R H. unfold back. pose proof (r_size _ _ _ R) as Hs.
  destruct (last_split L) as (L' & a & ->); [intros ->; discriminate|].
  rewrite last_opt_app in H. injection H as ->. rewrite len_app in Hs.
  assert (0 <= len L') by (unfold len; lia).
  pose proof (r_le _ _ _ R) as Hle. pose proof (r_head0 _ _ _ R) as Hh. pose proof (r_head _ _ _ R).
  rewrite item_ok by lia. cbn [bind].
  eapply load_brep; [apply (r_data _ _ _ R)|lia|].
  rewrite cellsof_app by lia. replace (size d - 1 =? len L') with true by lia. reflexivity.
Qed.

Lemma replace_length (L : list A) k v : length (replace L k v) = length L.
Proof. revert k; induction L; destruct k; simpl; auto. Qed.

Lemma nth_error_replace (L : list A) k v j : (k < length L)%nat ->
  nth_error (replace L k v) j = if Nat.eqb j k then Some v else nth_error L j.
Proof.
  revert k j; induction L as [|a L IH]; intros k j Hk; simpl in *; [lia|].
  destruct k, j; simpl; auto. apply IH; lia.
Qed.

Lemma set_ok m d L i v L' :
  rep m d L -> fresh_ok m -> set_wrapped L i v = Some L' ->
  exists m', set m d i v = Ok m' /\ rep m' d L' /\ trans m (fp d) m' (fp d).
Proof.
  intros R Hf H. unfold set. pose proof (r_size _ _ _ R) as Hs.
  assert (Hp : 0 < len L) by (destruct L; [discriminate|unfold len; simpl; lia]).
  pose proof (r_le _ _ _ R) as Hle. pose proof (r_head0 _ _ _ R) as Hh.
  rewrite index_slot_ok by lia. cbn [bind].
  destruct (at_wrapped_cell L i Hp) as (w & E1 & E2).
  pose proof (Z.mod_pos_bound i (size d)) as Hmb. rewrite Hs in Hmb |- *.
  destruct (assign_brep _ _ _ _ _ _ (i mod len L) v (r_data _ _ _ R)) as (m1 & F1 & B1 & F2);
    [lia|congruence|].
  rewrite F1. exists m1. split; [reflexivity|].
  assert (HL' : L' = replace L (Z.to_nat (i mod len L)) v).
  { destruct L; [discriminate|]. unfold set_wrapped in H. congruence. }
  split.
  - replace d with (mkDeque (inl d) (data d) (cap d) (head d) (size d)) by (destruct d; reflexivity).
    eapply rep_content; eauto; try apply R.
    + rewrite HL'. unfold len. rewrite replace_length. rewrite Hs. reflexivity.
    + eapply brep_ext; [|exact B1]. intros k Hk. unfold updz. rewrite HL'. unfold cellsof.
      rewrite nth_error_replace by (unfold len in *; lia).
      destruct (Z.eqb_spec k (i mod len L)) as [->|Hne].
      * now rewrite Nat.eqb_refl.
      * replace (Nat.eqb (Z.to_nat k) (Z.to_nat (i mod len L))) with false by lia. reflexivity.
  - eapply trans_frame; [apply trans_refl; exact Hf|apply frame_fp; exact F2| |reflexivity|reflexivity].
    intros b Hb. eapply rep_blocks; eauto.
Qed.

Lemma push_back_ref_ok m d L i v :
  rep m d L -> fresh_ok m -> at_wrapped L i = Some v -> len L < cap d ->
  exists m' d', push_back_ref N m d i = Ok (m', d') /\ rep m' d' (L ++ [v]) /\
    cap d' = cap d /\ trans m (fp d) m' (fp d').
Proof.
  intros R Hf Hv Hlt. unfold push_back_ref.
  pose proof (get_ok _ _ _ _ _ R Hv) as G. unfold get in G.
  pose proof (r_size _ _ _ R) as Hs.
  destruct (index_slot d i) as [sl|] eqn:Esl; [|discriminate]. cbn [bind] in G |- *.
  assert (Er : reserve N m d (size d + 1) = Ok (m, d)).
  { unfold reserve. replace (cap d <? size d + 1) with false by lia. reflexivity. }
  destruct (push_back_ok m d L v R Hf) as (m' & d' & E & R' & C' & T').
  unfold push_back in E. rewrite Er in E |- *. cbn [bind] in E |- *.
  destruct (item d (size d)) as [s|] eqn:Es; [|discriminate]. cbn [bind] in E |- *.
  rewrite G. cbn [bind]. exists m', d'. split; [exact E|]. split; [exact R'|]. split; [|exact T'].
  rewrite C'. unfold grow. replace (cap d <? len L + 1) with false by lia. reflexivity.
Qed.

Lemma clear_ok (m : mem) d L :
  rep m d L -> fresh_ok m ->
  exists m' d', clear m d = Ok (m', d') /\ rep m' d' [] /\
    cap d' = cap d /\ trans m (fp d) m' (fp d').
Proof.
  intros R Hf. unfold clear. pose proof (r_size _ _ _ R) as Hs.
  pose proof (rep_len_nonneg _ _ _ R) as Hs0. pose proof (r_le _ _ _ R) as Hle.
  destruct (destroy_items_ok (Z.to_nat (size d)) m d 0 _ _ (r_data _ _ _ R) (r_head0 _ _ _ R))
    as (m1 & E1 & B1 & F1); [lia|lia| |].
  { intros k Hk. destruct (cellsof_live L k) as (w & _ & Hw); [lia|]. congruence. }
  rewrite E1. cbn [bind]. eexists _, _. split; [reflexivity|]. split; [|split; [reflexivity|]].
  - pose proof (r_head _ _ _ R). pose proof (r_head0 _ _ _ R).
    eapply rep_content; eauto; try lia.
    + eapply brep_ext; [|apply (brep_rebase _ _ _ _ _ 0 _ B1)]. intros k Hk. cbn beta.
      pose proof (Z.mod_pos_bound (0 - head d + k) (cap d) ltac:(lia)) as Hmb.
      set (x := (0 - head d + k) mod cap d) in *. clearbody x.
      replace (cellsof [] k) with (@Raw A) by (unfold cellsof; destruct (Z.to_nat k); reflexivity).
      destruct ((0 <=? _) && _) eqn:Er; [reflexivity|]. apply cellsof_raw. lia.
  - eapply trans_frame; [apply trans_refl; exact Hf|apply frame_fp; exact F1| |reflexivity|reflexivity].
    intros b Hb. eapply rep_blocks; eauto.
Qed.

Lemma destroy_all_ok m d L :
  rep m d L ->
  exists m1, destroy_items m d 0 (Z.to_nat (size d)) = Ok m1 /\
    brep m1 (data d) (dkind d) (cap d) (head d) (fun _ => Raw) /\
    frame (fun x => x = data d) m m1.
Proof.
  intros R. pose proof (r_size _ _ _ R) as Hs.
  pose proof (rep_len_nonneg _ _ _ R) as Hs0. pose proof (r_le _ _ _ R) as Hle.
  destruct (destroy_items_ok (Z.to_nat (size d)) m d 0 _ _ (r_data _ _ _ R) (r_head0 _ _ _ R))
    as (m1 & E1 & B1 & F1); [lia|lia| |].
  { intros k Hk. destruct (cellsof_live L k) as (w & _ & Hw); [lia|]. congruence. }
  exists m1. split; [exact E1|]. split; [|exact F1].
  eapply brep_ext; [|exact B1]. intros k Hk. cbn beta.
  destruct ((0 <=? _) && _) eqn:Er; [reflexivity|]. apply cellsof_raw. lia.
Qed.

Lemma dtor_ok (m : mem) d L :
  rep m d L -> fresh_ok m ->
  exists m', dtor N m d = Ok m' /\ trans m (fp d) m' (fun _ => False).
Proof.
  intros R Hf. unfold dtor.
  destruct (destroy_all_ok m d L R) as (m1 & E1 & B1 & F1). rewrite E1. cbn [bind].
  pose proof (rep_blocks _ _ _ (inl d) R (or_introl eq_refl)) as Ai.
  pose proof (rep_blocks _ _ _ (data d) R (or_intror eq_refl)) as Ad.
  pose proof (r_inl _ _ _ R) as RI. pose proof (r_cap _ _ _ R) as RC.
  unfold dkind in B1.
  destruct (N <? cap d) eqn:EN.
  - replace (0 <? cap d) with true by lia. cbn [andb].
    destruct (release_brep _ _ _ _ _ _ B1) as (m2 & E2 & N2 & F2); [auto|].
    rewrite E2. cbn [bind]. destruct RI as [Hne BI].
    assert (BI2 : brep m2 (inl d) Inl N 0 (fun _ => Raw)).
    { eapply frame_brep; [exact F2|cbn; auto|]. eapply frame_brep; [exact F1|cbn; auto|exact BI]. }
    destruct (release_brep _ _ _ _ _ _ BI2) as (m3 & E3 & N3 & F3); [auto|].
    exists m3. split; [exact E3|].
    destruct F1 as [F1n F1], F2 as [F2n F2], F3 as [F3n F3].
    constructor.
    + intros b Hb. rewrite F3n, F2n, F1n in Hb.
      destruct (Nat.eq_dec b (inl d)) as [->|Hb1]; [auto|]. rewrite F3 by auto.
      destruct (Nat.eq_dec b (data d)) as [->|Hb2]; [auto|]. rewrite F2 by auto.
      rewrite F1 by auto. auto.
    + intros b Hb _. unfold fp in Hb. rewrite F3, F2, F1 by tauto. reflexivity.
    + intros b Hb. right.
      destruct (Nat.eq_dec b (inl d)) as [->|Hb1]; [congruence|]. rewrite F3 in Hb by auto.
      destruct (Nat.eq_dec b (data d)) as [->|Hb2]; [congruence|]. rewrite F2 in Hb by auto.
      rewrite F1 in Hb by auto. unfold fp; tauto.
    + intros b [].
  - cbn [andb bind].
    rewrite RI in B1.
    destruct (release_brep _ _ _ _ _ _ B1) as (m3 & E3 & N3 & F3); [auto|].
    exists m3. split; [exact E3|].
    destruct F1 as [F1n F1], F3 as [F3n F3].
    constructor.
    + intros b Hb. rewrite F3n, F1n in Hb.
      destruct (Nat.eq_dec b (inl d)) as [->|Hb1]; [auto|]. rewrite F3 by auto.
      rewrite F1 by congruence. auto.
    + intros b Hb _. unfold fp in Hb. rewrite F3, F1 by tauto. reflexivity.
    + intros b Hb. right.
      destruct (Nat.eq_dec b (inl d)) as [->|Hb1]; [congruence|]. rewrite F3 in Hb by auto.
      rewrite F1 in Hb by congruence. unfold fp. rewrite RI. tauto.
    + intros b [].
Qed.

End P.
