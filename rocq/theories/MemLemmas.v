(** Lemmas about [Mem]: blocks seen as rotated sequences of slots. *)
From Coq Require Import ZArith List Bool Lia PeanoNat ZifyBool ZifyNat.
From Verif Require Import Mem.
Import ListNotations.
Open Scope Z_scope.
Open Scope res_scope.

Section L.
Context {A : Type}.
Notation mem := (mem A).
Notation cell := (cell A).

(** Block [b] has kind [kd], [n] slots, and slot (h+k) mod n holds [g k]. *)
Definition brep (m : mem) (b : nat) (kd : kind) (n h : Z) (g : Z -> cell) : Prop :=
  exists B, blk m b = Some B /\ bkind B = kd /\ blen B = n /\
            forall k, 0 <= k < n -> bat B ((h + k) mod n) = g k.

Definition frame (P : nat -> Prop) (m m' : mem) : Prop :=
  next m' = next m /\ forall b, ~ P b -> blk m' b = blk m b.

Lemma frame_refl P m : frame P m m.
Proof. split; auto. Qed.

Lemma frame_trans P m1 m2 m3 : frame P m1 m2 -> frame P m2 m3 -> frame P m1 m3.
Proof. intros [H1 H2] [H3 H4]; split; [congruence|]. intros b Hb; rewrite H4, H2; auto. Qed.

Lemma frame_weaken (P Q : nat -> Prop) m m' :
  (forall b, P b -> Q b) -> frame P m m' -> frame Q m m'.
Proof. intros HPQ [H1 H2]; split; [auto|]. intros b Hb; apply H2; auto. Qed.

Lemma mod_inj n h k k' : 0 <= k < n -> 0 <= k' < n -> (h + k) mod n = (h + k') mod n -> k = k'.
Proof.
  intros Hk Hk' E.
  assert (Hn : n <> 0) by lia.
  assert (D : (k - k') mod n = 0).
  { replace (k - k') with ((h + k) - (h + k')) by lia.
    rewrite Zminus_mod, E, Z.sub_diag. apply Z.mod_0_l; lia. }
  apply Z.mod_divide in D; [|lia]. destruct D as [q Hq]. 
  assert (q = 0) by nia. lia.
Qed.

Lemma mod_surj n h j : 0 <= j < n -> (h + (j - h) mod n) mod n = j.
Proof.
  intros Hj. rewrite Zplus_mod_idemp_r. replace (h + (j - h)) with j by lia.
  apply Z.mod_small; lia.
Qed.

Lemma set_blk_same (m : mem) b x : blk (set_blk m b x) b = x.
Proof. unfold set_blk; simpl. now rewrite Nat.eqb_refl. Qed.

Lemma set_blk_other (m : mem) b x c : c <> b -> blk (set_blk m b x) c = blk m c.
Proof. unfold set_blk; simpl; intros H. destruct (Nat.eqb_spec c b); congruence. Qed.

Lemma peek_brep m b kd n h g k :
  brep m b kd n h g -> 0 <= k < n ->
  exists B, blk m b = Some B /\ bkind B = kd /\ blen B = n /\
    peek m b ((h + k) mod n) = Ok (B, g k).
Proof.
  intros (B & HB & Hk & Hl & Hg) Hr. exists B. repeat split; auto.
  unfold peek. rewrite HB. unfold in_bounds. rewrite Hl.
  pose proof (Z.mod_pos_bound (h + k) n ltac:(lia)).
  replace ((0 <=? (h + k) mod n) && ((h + k) mod n <? n)) with true by lia.
  now rewrite Hg.
Qed.

Definition updz (g : Z -> cell) (k : Z) (c : cell) : Z -> cell := fun j => if j =? k then c else g j.

Lemma put_brep m b kd n h g k B c :
  brep m b kd n h g -> 0 <= k < n -> blk m b = Some B ->
  brep (put m b B ((h + k) mod n) c) b kd n h (updz g k c).
Proof.
  intros (B' & HB' & Hk & Hl & Hg) Hr HB. rewrite HB in HB'. injection HB' as <-.
  exists (set_cell B ((h + k) mod n) c). unfold put. rewrite set_blk_same.
  repeat split; auto. intros j Hj. unfold set_cell, updz; simpl.
  destruct (Z.eqb_spec j k) as [->|Hne].
  - now rewrite Z.eqb_refl.
  - destruct (Z.eqb_spec ((h + j) mod n) ((h + k) mod n)) as [E|E]; [|auto].
    apply mod_inj in E; try lia.
Qed.

Lemma put_frame m b B i c : frame (fun x => x = b) m (put m b B i c).
Proof. split; [reflexivity|]. intros x Hx. unfold put. now rewrite set_blk_other. Qed.

Lemma put_other (m : mem) b B i c b' : b' <> b -> blk (put m b B i c) b' = blk m b'.
Proof. intros; unfold put; now rewrite set_blk_other. Qed.

Lemma brep_ext m b kd n h g g' :
  (forall k, 0 <= k < n -> g k = g' k) -> brep m b kd n h g -> brep m b kd n h g'.
Proof.
  intros E (B & HB & Hk & Hl & Hg). exists B; repeat split; auto.
  intros k Hr. rewrite <- E; auto.
Qed.

Lemma brep_blk m m' b kd n h g : blk m' b = blk m b -> brep m b kd n h g -> brep m' b kd n h g.
Proof. intros E (B & HB & R). exists B. rewrite E. auto. Qed.

Lemma brep_some m b kd n h g : brep m b kd n h g -> blk m b <> None.
Proof. intros (B & HB & _); congruence. Qed.

Lemma load_brep m b kd n h g k v :
  brep m b kd n h g -> 0 <= k < n -> g k = Live v -> load m b ((h + k) mod n) = Ok v.
Proof.
  intros H Hr Hv. destruct (peek_brep _ _ _ _ _ _ _ H Hr) as (B & _ & _ & _ & E).
  unfold load. rewrite E. simpl. now rewrite Hv.
Qed.

Lemma construct_brep m b kd n h g k v :
  brep m b kd n h g -> 0 <= k < n -> g k = Raw ->
  exists m', construct m b ((h + k) mod n) v = Ok m' /\
    brep m' b kd n h (updz g k (Live v)) /\ frame (fun x => x = b) m m'.
Proof.
  intros H Hr Hv. destruct (peek_brep _ _ _ _ _ _ _ H Hr) as (B & HB & _ & _ & E).
  unfold construct. rewrite E. simpl. rewrite Hv. eexists; split; [reflexivity|].
  split; [now apply put_brep|apply put_frame].
Qed.

Lemma move_out_brep m b kd n h g k v :
  brep m b kd n h g -> 0 <= k < n -> g k = Live v ->
  exists m', move_out m b ((h + k) mod n) = Ok (v, m') /\
    brep m' b kd n h (updz g k Moved) /\ frame (fun x => x = b) m m'.
Proof.
  intros H Hr Hv. destruct (peek_brep _ _ _ _ _ _ _ H Hr) as (B & HB & _ & _ & E).
  unfold move_out. rewrite E. simpl. rewrite Hv. eexists; split; [reflexivity|].
  split; [now apply put_brep|apply put_frame].
Qed.

Lemma destroy_brep m b kd n h g k :
  brep m b kd n h g -> 0 <= k < n -> g k <> Raw ->
  exists m', destroy m b ((h + k) mod n) = Ok m' /\
    brep m' b kd n h (updz g k Raw) /\ frame (fun x => x = b) m m'.
Proof.
  intros H Hr Hv. destruct (peek_brep _ _ _ _ _ _ _ H Hr) as (B & HB & _ & _ & E).
  unfold destroy. rewrite E. simpl.
  destruct (g k) eqn:Eg; [congruence| |]; (eexists; split; [reflexivity|]);
    (split; [now apply put_brep|apply put_frame]).
Qed.

Lemma assign_brep m b kd n h g k v :
  brep m b kd n h g -> 0 <= k < n -> g k <> Raw ->
  exists m', assign m b ((h + k) mod n) v = Ok m' /\
    brep m' b kd n h (updz g k (Live v)) /\ frame (fun x => x = b) m m'.
Proof.
  intros H Hr Hv. destruct (peek_brep _ _ _ _ _ _ _ H Hr) as (B & HB & _ & _ & E).
  unfold assign. rewrite E. simpl.
  destruct (g k) eqn:Eg; [congruence| |]; (eexists; split; [reflexivity|]);
    (split; [now apply put_brep|apply put_frame]).
Qed.

(** Fault cases, used by refutations. *)
Lemma all_raw_spec (f : Z -> cell) n :
  all_raw f n = true <-> forall i, 0 <= i < Z.of_nat n -> f i = Raw.
Proof.
  induction n as [|n IH]; cbn [all_raw].
  - split; [intros _ i Hi; lia|auto].
  - rewrite andb_true_iff, IH. split.
    + intros [H1 H2] i Hi. destruct (Z.eq_dec i (Z.of_nat n)) as [->|]; [|apply H2; lia].
      destruct (f (Z.of_nat n)); simpl in H1; congruence.
    + intros H. split; [rewrite H by lia; reflexivity|intros i Hi; apply H; lia].
Qed.

Lemma release_brep m b kd n h g :
  brep m b kd n h g -> (forall k, 0 <= k < n -> g k = Raw) ->
  exists m', release m kd b = Ok m' /\ blk m' b = None /\ frame (fun x => x = b) m m'.
Proof.
  intros (B & HB & Hk & Hl & Hg) Hraw. unfold release. rewrite HB, Hk.
  assert (E : all_raw (bat B) (Z.to_nat (blen B)) = true).
  { apply all_raw_spec. intros i Hi. rewrite Hl in Hi.
    rewrite <- (mod_surj n h i) by lia. rewrite Hg; [apply Hraw|];
    apply Z.mod_pos_bound; lia. }
  rewrite E. eexists; split; [destruct kd; reflexivity|].
  split; [apply set_blk_same|]. split; [reflexivity|].
  intros x Hx; now apply set_blk_other.
Qed.

Definition fresh_ok (m : mem) : Prop := forall b, (next m <= b)%nat -> blk m b = None.

Lemma alloc_spec m kd n b m' :
  fresh_ok m -> alloc m kd n = (b, m') ->
  b = next m /\ blk m b = None /\ fresh_ok m' /\ next m' = S (next m) /\
  (forall h, brep m' b kd n h (fun _ => Raw)) /\ (forall c, c <> b -> blk m' c = blk m c).
Proof.
  intros Hf E. unfold alloc in E. injection E as <- <-. simpl.
  split; [reflexivity|]. split; [apply Hf; lia|]. split.
  - intros b Hb; simpl in *. destruct (Nat.eqb_spec b (next m)); [lia|]. apply Hf; lia.
  - split; [reflexivity|]. split.
    + intros h. exists (mkBlock kd n (fun _ => Raw)); simpl. rewrite Nat.eqb_refl. auto.
    + intros c Hc. destruct (Nat.eqb_spec c (next m)); congruence.
Qed.

Lemma frame_fresh (P : nat -> Prop) m m' :
  frame P m m' -> (forall b, P b -> blk m b <> None) -> fresh_ok m -> fresh_ok m'.
Proof.
  intros [Hn Hb] HP Hf b Hlt. rewrite Hn in Hlt.
  rewrite Hb; [now apply Hf|]. intros HPb. apply (HP b HPb). now apply Hf.
Qed.

Lemma frame_brep (P : nat -> Prop) m m' b kd n h g :
  frame P m m' -> ~ P b -> brep m b kd n h g -> brep m' b kd n h g.
Proof. intros [_ Hf] HP. apply brep_blk. now apply Hf. Qed.

End L.
