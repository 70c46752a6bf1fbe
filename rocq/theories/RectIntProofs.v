From Coq Require Import ZArith Lia List Bool Arith ZifyBool.
From Verif Require Import Mem Ord RectModel RectSpec RectProofs RectArithModel.
Import ListNotations.
Open Scope Z_scope.

Notation zpt := (@point Z_ord).
Notation zrect := (@rect Z_ord).

Lemma Zomin (x y : Z) : @omin Z_ord x y = Z.min x y.
Proof. unfold omin. cbn. destruct (Z.ltb_spec y x); lia. Qed.
Lemma Zomax (x y : Z) : @omax Z_ord x y = Z.max x y.
Proof. unfold omax. cbn. destruct (Z.ltb_spec x y); lia. Qed.
Lemma inside_Z N (p : zpt) (r : zrect) : inside N p r <-> forall i, (i < N)%nat -> (lo r i : Z) <= p i <= hi r i.
Proof. unfold inside. setoid_rewrite Z_le. reflexivity. Qed.
Lemma nonempty_Z N (r : zrect) : nonempty N r <-> forall i, (i < N)%nat -> (lo r i : Z) <= hi r i.
Proof. rewrite nonempty_iff. setoid_rewrite Z_le. reflexivity. Qed.

Lemma from_center_dims (c d : zpt) i : 1 <= (d i : Z) -> (z_dims (z_from_center c d) i : Z) = d i.
Proof.
  intros H. unfold z_dims, z_from_center. cbn [spanning_corners lo hi]. unfold vmin, vmax. rewrite Zomin, Zomax.
  generalize dependent (d i : Z). generalize (c i : Z). cbn. intros x y H.
  pose proof (Z.quot_rem' y 2). pose proof (Z.quot_rem' (y - 1) 2).
  pose proof (Z.rem_bound_pos y 2). pose proof (Z.rem_bound_pos (y - 1) 2). lia.
Qed.
Lemma from_center_dims_neg (c d : zpt) i : (d i : Z) <= 0 -> (z_dims (z_from_center c d) i : Z) = Z.abs (d i) + 1.
Proof.
  intros H. unfold z_dims, z_from_center. cbn [spanning_corners lo hi]. unfold vmin, vmax. rewrite Zomin, Zomax.
  generalize dependent (d i : Z). generalize (c i : Z). cbn. intros x y H.
  pose proof (Z.quot_rem' y 2). pose proof (Z.quot_rem' (y - 1) 2).
  pose proof (Z.rem_bound_pos_neg (y - 1) 2). pose proof (Z.rem_bound_pos_neg y 2). lia.
Qed.
Lemma from_center_center (c d : zpt) i : 1 <= (d i : Z) ->
  (z_center (z_from_center c d) i : Z) = (if Z.even (d i) || (0 <=? c i) then c i else c i + 1).
Proof.
  intros H. unfold z_center, z_from_center. cbn [spanning_corners lo hi]. unfold vmin, vmax. rewrite Zomin, Zomax.
  generalize dependent (d i : Z). generalize (c i : Z). cbn. intros x y H.
  pose proof (Z.quot_rem' y 2). pose proof (Z.quot_rem' (y - 1) 2).
  pose proof (Z.rem_bound_pos y 2). pose proof (Z.rem_bound_pos (y - 1) 2).
  assert (E : Z.even y = (Z.rem y 2 =? 0)).
  { rewrite Zeven_mod. rewrite Z.rem_mod_nonneg by lia. unfold Zeq_bool. destruct (Z.eqb_spec (y mod 2) 0) as [->|N]; [reflexivity|].
    destruct (y mod 2 ?= 0) eqn:C; auto. apply Z.compare_eq in C. lia. }
  rewrite E. replace (Z.max _ _ + Z.min _ _ + 1) with (2 * x + Z.rem y 2) by lia.
  assert (R : Z.rem y 2 = 0 \/ Z.rem y 2 = 1) by lia. destruct R as [-> | ->]; cbn [Z.eqb orb].
  - rewrite Z.add_0_r, (Z.mul_comm 2), Z.quot_mul by lia. reflexivity.
  - pose proof (Z.quot_rem' (2 * x + 1) 2). destruct (Z.leb_spec 0 x).
    + pose proof (Z.rem_bound_pos (2 * x + 1) 2). lia.
    + pose proof (Z.rem_bound_pos_neg (2 * x + 1) 2). lia.
Qed.
Lemma from_corner_dims (c d : zpt) i : (z_dims (z_from_corner c d) i : Z) = (if 1 <=? d i then d i else Z.abs (d i) + 2).
Proof.
  unfold z_dims, z_from_corner. cbn [spanning_corners lo hi]. unfold vmin, vmax. rewrite Zomin, Zomax. cbn.
  destruct (Z.leb_spec 1 (d i)); lia.
Qed.
Lemma set_dims_dims (r : zrect) (d : zpt) i :
  (z_dims (z_set_dims r d) i : Z) = Z.abs (d i) - Z.rem (Z.abs (d i) - z_dims r i) 2.
Proof.
  unfold z_set_dims. unfold z_dims at 1. cbn [lo hi]. pose proof (Z.quot_rem' (Z.abs (d i) - z_dims r i) 2).
  unfold z_dims in *. lia.
Qed.

(** ** contact_vector *)
Section Contact.
Variables (N : nat) (a b : zrect).
Hypothesis NA : nonempty N a.
Hypothesis NB : nonempty N b.
Hypothesis N0 : (0 < N)%nat.

Lemma cv_all : all_axes N (fun i => snd (cv_step a b i)) = intersects N a b.
Proof using N a b. clear NA NB N0.
  unfold intersects, all_axes.
  induction (seq 0 N) as [|x l IH]; [reflexivity|]. cbn [forallb]. rewrite IH. f_equal. cbn [cv_step snd].
  unfold leb. cbn. f_equal. rewrite <- !Z.leb_antisym. reflexivity.
Qed.

Lemma cv_shortest_spec axes : forall v0 k0,
  (forall k, k0 = Some k -> v0 = fst (cv_step a b k)) ->
  let st := fold_left (fun st i => let s := fst (cv_step a b i) in
     if Z.abs s <? Z.abs (fst st) then (s, Some i) else st) axes (v0, k0) in
  (forall k, snd st = Some k -> fst st = fst (cv_step a b k) /\ (k0 = Some k \/ In k axes)) /\
  (Z.abs (fst st) <= Z.abs v0) /\
  (forall i, In i axes -> Z.abs (fst st) <= Z.abs (fst (cv_step a b i))) /\
  (snd st = None -> k0 = None /\ forall i, In i axes -> Z.abs v0 <= Z.abs (fst (cv_step a b i))).
Proof using N a b. clear NA NB N0.
  induction axes as [|x l IH]; intros v0 k0 H st; subst st; cbn [fold_left].
  - cbn [fst snd]. split; [intros k ->; auto|]. split; [lia|]. split; [easy|]. intros ->. split; [auto|easy].
  - cbn [fst]. destruct (Z.ltb_spec (Z.abs (fst (cv_step a b x))) (Z.abs v0)) as [L|L].
    + specialize (IH (fst (cv_step a b x)) (Some x) ltac:(intros k [= ->]; auto)). cbv zeta in IH.
      set (st := fold_left _ l _) in *. destruct IH as (A & B & C & D). split; [|split; [|split]].
      * intros k K. apply A in K as [K [[= ->]|K']]; split; auto; right; [now left|now right].
      * lia.
      * intros i [<-|Hi]; auto.
      * intros E. destruct (D E). discriminate.
    + specialize (IH v0 k0 H). cbv zeta in IH.
      set (st := fold_left _ l _) in *. destruct IH as (A & B & C & D). split; [|split; [|split]].
      * intros k K. apply A in K as [K [K'|K']]; split; auto; right; now right.
      * lia.
      * intros i [<-|Hi]; auto. lia.
      * intros E. destruct (D E) as [D1 D2]. split; [auto|]. intros i [<-|Hi]; auto.
Qed.

Lemma axis_meet (v : nat -> Z) : (forall i, (i < N)%nat -> lo a i + v i <= hi b i /\ lo b i <= hi a i + v i) ->
  exists p, inside N p (z_add a v) /\ inside N p b.
Proof.
  intros H. pose proof (proj1 (nonempty_Z N a) NA) as LA. pose proof (proj1 (nonempty_Z N b) NB) as LB. exists (fun i => Z.max (lo a i + v i) (lo b i)). rewrite !inside_Z. cbn [z_add lo hi].
  split; intros i Hi; specialize (H i Hi); pose proof (LA i Hi); pose proof (LB i Hi); lia.
Qed.
Lemma not_intersects (r s : zrect) i : (i < N)%nat -> (hi r i : Z) <= lo s i \/ (hi s i : Z) <= lo r i -> intersects N r s = false.
Proof using N a b. clear NA NB N0.
  intros Hi H. destruct (intersects N r s) eqn:E; [|auto]. unfold intersects, all_axes in E. rewrite forallb_forall in E.
  specialize (E i ltac:(apply in_seq; lia)). unfold leb in E. cbn in E. lia.
Qed.
Lemma not_intersects_inv (r s : zrect) : intersects N r s = false -> exists i, (i < N)%nat /\ ((hi r i : Z) <= lo s i \/ (hi s i : Z) <= lo r i).
Proof using N a b. clear NA NB N0.
  unfold intersects, all_axes. intros E.
  assert (G : forall l, forallb (fun i => negb (@leb Z_ord (hi r i) (lo s i) || @leb Z_ord (hi s i) (lo r i))) l = false ->
     exists i, In i l /\ ((hi r i : Z) <= lo s i \/ (hi s i : Z) <= lo r i)).
  { induction l as [|x l IH]; [discriminate|]. cbn [forallb]. intros F. apply andb_false_iff in F as [F|F].
    - exists x. split; [now left|]. unfold leb in F. cbn in F. lia.
    - apply IH in F as (i & I & F). exists i. split; [now right|auto]. }
  apply G in E as (i & I & F). exists i. apply in_seq in I. split; [lia|auto].
Qed.

Lemma contact_ok tmax : (forall i, (i < N)%nat -> Z.abs (hi b i - lo a i) < tmax) -> exists v,
  contact_vector N tmax a b = Ok (v, intersects N a b) /\
  (exists p, inside N p (z_add a v) /\ inside N p b) /\ intersects N (z_add a v) b = false.
Proof.
  intros T. unfold contact_vector. rewrite cv_all. destruct (intersects N a b) eqn:I.
  - unfold cv_shortest. destruct (cv_shortest_spec (seq 0 N) tmax None ltac:(discriminate)) as (A & B & C & D).
    set (st := fold_left _ _ _) in *. clearbody st. destruct st as [v [k|]]; cbn [fst snd] in *.
    + eexists. split; [reflexivity|]. destruct (A k eq_refl) as [E [K|K]]; [discriminate|]. apply in_seq in K.
      pose proof (proj1 (nonempty_Z N a) NA) as LA. pose proof (proj1 (nonempty_Z N b) NB) as LB.
      assert (Hx : forall i, (i < N)%nat -> (lo b i : Z) < hi a i /\ (lo a i : Z) < hi b i).
      { intros i Hi. unfold intersects, all_axes in I. rewrite forallb_forall in I. specialize (I i ltac:(apply in_seq; lia)).
        unfold leb in I. cbn in I. lia. }
      split.
      * apply axis_meet. intros i Hi. specialize (Hx i Hi). destruct (Nat.eqb_spec i k) as [->|Ne]; [|lia].
        rewrite E. cbn [cv_step fst]. pose proof (LA k ltac:(lia)). pose proof (LB k ltac:(lia)). destruct Z.ltb; lia.
      * apply (not_intersects _ _ k); [lia|]. cbn [z_add lo hi]. rewrite Nat.eqb_refl. rewrite E. cbn [cv_step fst].
        destruct Z.ltb; lia.
    + exfalso. destruct (D eq_refl) as [_ D']. specialize (D' 0%nat ltac:(apply in_seq; lia)). specialize (T 0%nat N0).
      cbn [cv_step fst] in D'. destruct (Z.ltb_spec (Z.abs (lo b 0%nat - hi a 0%nat)) (Z.abs (hi b 0%nat - lo a 0%nat))); lia.
  - eexists. split; [reflexivity|]. pose proof (proj1 (nonempty_Z N a) NA) as LA. pose proof (proj1 (nonempty_Z N b) NB) as LB. split.
    + apply axis_meet. intros i Hi. pose proof (LA i Hi). pose proof (LB i Hi). cbn [cv_step fst snd].
      destruct (Z.leb_spec (hi a i) (lo b i)), (Z.leb_spec (hi b i) (lo a i)); cbn [negb orb];
        try destruct (Z.ltb_spec (Z.abs (lo b i - hi a i)) (Z.abs (hi b i - lo a i))); lia.
    + destruct (not_intersects_inv a b I) as (i & Hi & E). apply (not_intersects _ _ i Hi). cbn [z_add lo hi cv_step fst snd].
      pose proof (LA i Hi). pose proof (LB i Hi).
      destruct (Z.leb_spec (hi a i) (lo b i)), (Z.leb_spec (hi b i) (lo a i)); cbn [negb orb];
        try destruct (Z.ltb_spec (Z.abs (lo b i - hi a i)) (Z.abs (hi b i - lo a i))); lia.
Qed.

(** Overlapping: one axis only, and no translation that separates the boxes is shorter. *)
Lemma contact_minimal tmax v : contact_vector N tmax a b = Ok (v, true) ->
  exists k, (k < N)%nat /\ (forall i, i <> k -> v i = 0) /\
  forall w : nat -> Z, intersects N (z_add a w) b = false -> exists i, (i < N)%nat /\ Z.abs (v k) <= Z.abs (w i).
Proof using N a b. clear NA NB N0.
  unfold contact_vector. rewrite cv_all. destruct (intersects N a b) eqn:I; [|discriminate].
  unfold cv_shortest. destruct (cv_shortest_spec (seq 0 N) tmax None ltac:(discriminate)) as (A & B & C & D).
  set (st := fold_left _ _ _) in *. clearbody st. destruct st as [u [k|]]; cbn [fst snd] in *; [|discriminate].
  intros [= <-]. destruct (A k eq_refl) as [E [K|K]]; [discriminate|]. apply in_seq in K. exists k. split; [lia|]. split.
  - intros i Hi. apply Nat.eqb_neq in Hi. now rewrite Hi.
  - rewrite Nat.eqb_refl. intros w W. apply not_intersects_inv in W as (i & Hi & W). cbn [z_add lo hi] in W. exists i. split; [auto|].
    specialize (C i ltac:(apply in_seq; lia)). cbn [cv_step fst] in C.
    unfold intersects, all_axes in I. rewrite forallb_forall in I. specialize (I i ltac:(apply in_seq; lia)).
    unfold leb in I. cbn in I. destruct (Z.ltb_spec (Z.abs (lo b i - hi a i)) (Z.abs (hi b i - lo a i))); lia.
Qed.
(** Apart: every coordinate of the move is the least that brings the boxes together. *)
Lemma contact_gap tmax v : contact_vector N tmax a b = Ok (v, false) ->
  forall w : nat -> Z, (exists p, inside N p (z_add a w) /\ inside N p b) -> forall i, (i < N)%nat -> Z.abs (v i) <= Z.abs (w i).
Proof using N a b NA NB. clear N0.
  unfold contact_vector. rewrite cv_all. destruct (intersects N a b) eqn:I; [destruct cv_shortest as [? [?|]]; discriminate|].
  intros [= <-] w (p & P & Q) i Hi. rewrite inside_Z in P, Q. specialize (P i Hi). specialize (Q i Hi). cbn [z_add lo hi] in P.
  pose proof (proj1 (nonempty_Z N a) NA i Hi). pose proof (proj1 (nonempty_Z N b) NB i Hi). cbn [cv_step fst snd].
  destruct (Z.leb_spec (hi a i) (lo b i)), (Z.leb_spec (hi b i) (lo a i)); cbn [negb orb];
    try destruct (Z.ltb_spec (Z.abs (lo b i - hi a i)) (Z.abs (hi b i - lo a i))); lia.
Qed.
End Contact.
