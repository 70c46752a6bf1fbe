From Coq Require Import ZArith List Bool Lia PeanoNat ZifyBool ZifyNat.
From Verif Require Import Mem DequeModel DequeProofs2 UniqueModel UniqueSpec.
Import ListNotations.
Open Scope Z_scope.
Open Scope res_scope.

Section P.
Context {A : Type}.
Variable dflt : A.
Notation uheap := (@uheap A).

Lemma list_set_eq (l : list A) i v : (i < length l)%nat ->
  list_set l i v = firstn i l ++ v :: skipn (S i) l.
Proof.
  revert i; induction l as [|a l IH]; intros i H; cbn [length] in H; [lia|].
  destruct i; [reflexivity|]. cbn [list_set firstn skipn app]. f_equal. apply IH. lia.
Qed.

Lemma list_set_length (l : list A) i v : length (list_set l i v) = length l.
Proof. revert i; induction l; intros [|i]; cbn; auto. Qed.

Record uwinv (h : uheap) (e : nat -> option ustore) (s : nat -> option (list A)) : Prop := {
  uw_fresh : forall b, (nxt h <= b)%nat -> arr h b = None;
  uw_rel : forall x, match e x, s x with
     | None, None => True
     | Some u, Some l => u_sz u = Z.of_nat (length l) /\
         match u_data u with None => l = [] | Some b => arr h b = Some l end
     | _, _ => False end;
  uw_own : forall x y u v b, e x = Some u -> e y = Some v -> u_data u = Some b -> u_data v = Some b -> x = y;
  uw_leak : forall b, arr h b <> None -> exists x u, e x = Some u /\ u_data u = Some b }.

Lemma h_set_ok (h : uheap) b l i v : arr h b = Some l -> (i < length l)%nat ->
  h_set h (Some b) (Z.of_nat i) v = Ok (h_upd h b (Some (list_set l i v))).
Proof.
  intros H Hi. unfold h_set. rewrite H.
  replace ((0 <=? Z.of_nat i) && (Z.of_nat i <? Z.of_nat (length l))) with true by lia.
  now rewrite Nat2Z.id.
Qed.

Lemma list_set_app (p q : list A) a v : list_set (p ++ a :: q) (length p) v = p ++ v :: q.
Proof. induction p; cbn; congruence. Qed.

(** Copying [q] over the slots after [p]. *)
Lemma h_fill_ok q : forall (h : uheap) b p r, arr h b = Some (p ++ r) -> length r = length q ->
  exists h', h_fill h (Some b) (Z.of_nat (length p)) q = Ok h' /\ arr h' b = Some (p ++ q) /\
    nxt h' = nxt h /\ (forall c, c <> b -> arr h' c = arr h c).
Proof.
  induction q as [|v q IH]; intros h b p r H Hl; cbn [h_fill].
  - destruct r; [|discriminate]. eauto.
  - destruct r as [|a r]; [discriminate|]. cbn [length] in Hl.
    rewrite (h_set_ok h b _ _ v H) by (rewrite app_length; cbn; lia). cbn [bind].
    rewrite list_set_app.
    destruct (IH (h_upd h b (Some (p ++ v :: r))) b (p ++ [v]) r) as (h' & E & B & N & O).
    { cbn [h_upd arr]. rewrite upd_same, <- app_assoc. reflexivity. } { lia. }
    exists h'. replace (Z.of_nat (length p) + 1) with (Z.of_nat (length (p ++ [v])))
      by (rewrite app_length; cbn; lia).
    rewrite E. split; [reflexivity|]. rewrite <- app_assoc in B. split; [exact B|]. split; [exact N|].
    intros c Hc. rewrite O by auto. cbn [h_upd arr]. now rewrite upd_other.
Qed.

Lemma h_copy_ok q : forall (h : uheap) a b p r, a <> b -> arr h a = Some (p ++ q) -> arr h b = Some (p ++ r) ->
  length r = length q ->
  exists h', h_copy h (Some a) (Some b) (Z.of_nat (length p)) (length q) = Ok h' /\
    arr h' b = Some (p ++ q) /\
    nxt h' = nxt h /\ (forall c, c <> b -> arr h' c = arr h c).
Proof.
  induction q as [|v q IH]; intros h a b p r Hab Ha H Hl; cbn [h_copy length].
  - destruct r; [|discriminate]. eauto.
  - destruct r as [|a' r]; [discriminate|]. cbn [length] in Hl.
    assert (Hg : h_get h (Some a) (Z.of_nat (length p)) = Ok v).
    { unfold h_get. rewrite Ha. replace (Z.of_nat (length p) <? 0) with false by lia.
      rewrite Nat2Z.id, nth_error_app2, Nat.sub_diag by lia. reflexivity. }
    rewrite Hg. cbn [bind].
    rewrite (h_set_ok h b _ _ v H) by (rewrite app_length; cbn; lia). cbn [bind].
    rewrite list_set_app.
    destruct (IH (h_upd h b (Some (p ++ v :: r))) a b (p ++ [v]) r) as (h' & E & B & N & O); auto.
    { cbn [h_upd arr]. rewrite upd_other, <- app_assoc by auto. exact Ha. }
    { cbn [h_upd arr]. rewrite upd_same, <- app_assoc. reflexivity. }
    exists h'. replace (Z.of_nat (length p) + 1) with (Z.of_nat (length (p ++ [v])))
      by (rewrite app_length; cbn; lia).
    rewrite E. split; [reflexivity|]. rewrite <- app_assoc in B. split; [exact B|]. split; [exact N|].
    intros c Hc. rewrite O by auto. cbn [h_upd arr]. now rewrite upd_other.
Qed.

Lemma h_new_ok (h : uheap) n : 0 <= n -> (forall b, (nxt h <= b)%nat -> arr h b = None) ->
  exists h', h_new dflt h n = Ok (nxt h, h') /\ arr h' (nxt h) = Some (repeat dflt (Z.to_nat n)) /\
    nxt h' = S (nxt h) /\ (forall c, c <> nxt h -> arr h' c = arr h c) /\ arr h (nxt h) = None.
Proof.
  intros Hn Hf. unfold h_new. replace (n <? 0) with false by lia. eexists. split; [reflexivity|].
  cbn [arr nxt]. rewrite upd_same. repeat split; auto. intros c Hc. now rewrite upd_other.
Qed.

(** One variable gets a new private array (or none). *)
Lemma uwinv_set h e s h' x ou ol :
  uwinv h e s ->
  (nxt h <= nxt h')%nat ->
  (forall b, (nxt h' <= b)%nat -> arr h' b = None) ->
  match ou, ol with
     | None, None => True
     | Some u, Some l => u_sz u = Z.of_nat (length l) /\
         match u_data u with None => l = [] | Some b => arr h' b = Some l end
     | _, _ => False end ->
  (* other arrays untouched *)
  (forall y u b, y <> x -> e y = Some u -> u_data u = Some b ->
     arr h' b = arr h b /\ forall u', ou = Some u' -> u_data u' <> Some b) ->
  (forall b, arr h' b <> None -> (exists u, ou = Some u /\ u_data u = Some b) \/
       (exists y u, y <> x /\ e y = Some u /\ u_data u = Some b)) ->
  uwinv h' (upd e x ou) (upd s x ol).
Proof.
  intros [W1 W2 W3 W4] Hn Hf Hr Ho Hl. constructor.
  - exact Hf.
  - intros y. destruct (Nat.eq_dec y x) as [->|Hy].
    + rewrite !upd_same. destruct ou, ol; exact Hr.
    + rewrite !upd_other by auto. specialize (W2 y). destruct (e y) as [u|] eqn:E, (s y) as [l|]; auto.
      destruct W2 as [Ws Wd]. split; [exact Ws|]. destruct (u_data u) as [b|] eqn:Eb; auto.
      destruct (Ho y u b Hy E Eb) as [-> _]. exact Wd.
  - intros y z u v b. destruct (Nat.eq_dec y x) as [->|Hy], (Nat.eq_dec z x) as [->|Hz];
      rewrite ?upd_same, ?(upd_other _ x) by auto; intros E1 E2 E3 E4; auto.
    + exfalso. destruct (Ho z v b Hz E2 E4) as [_ H]. exact (H u E1 E3).
    + exfalso. destruct (Ho y u b Hy E1 E3) as [_ H]. exact (H v E2 E4).
    + eapply W3; eauto.
  - intros b Hb. destruct (Hl b Hb) as [(u & E & Eb)|(y & u & Hy & E & Eb)].
    + exists x, u. rewrite upd_same. auto.
    + exists y, u. rewrite upd_other by auto. auto.
Qed.

Lemma uwinv_moved h e s x y u l :
  uwinv h e s -> x <> y -> e x = None -> s x = None -> e y = Some u -> s y = Some l ->
  uwinv h (upd (upd e y (Some (mkU None 0))) x (Some u)) (upd (upd s y (Some [])) x (Some l)).
Proof.
  intros [W1 W2 W3 W4] Hxy Ex Sx Ey Sy. constructor; auto.
  - intros z. destruct (Nat.eq_dec z x) as [->|Hz]; [rewrite !upd_same|rewrite !(upd_other _ x _ z) by auto].
    + specialize (W2 y). now rewrite Ey, Sy in W2.
    + destruct (Nat.eq_dec z y) as [->|Hz']; [rewrite !upd_same; cbn; auto|rewrite !upd_other by auto; apply W2].
  - assert (Hsrc : forall z v b, upd (upd e y (Some (mkU None 0))) x (Some u) z = Some v -> u_data v = Some b ->
        (z = x /\ v = u) \/ (z <> x /\ z <> y /\ e z = Some v)).
    { intros z v b E Eb. destruct (Nat.eq_dec z x) as [->|Hz].
      - rewrite upd_same in E. left. split; congruence.
      - rewrite upd_other in E by auto. destruct (Nat.eq_dec z y) as [->|Hz'].
        + rewrite upd_same in E. injection E as <-. discriminate.
        + rewrite upd_other in E by auto. auto. }
    intros z z' v v' b E1 E2 E3 E4.
    destruct (Hsrc z v b E1 E3) as [[-> ->]|(Hz & Hzy & Ez)];
      destruct (Hsrc z' v' b E2 E4) as [[-> ->]|(Hz' & Hzy' & Ez')]; auto.
    + exfalso. pose proof (W3 y z' _ _ b Ey Ez' E3 E4). congruence.
    + exfalso. pose proof (W3 y z _ _ b Ey Ez E4 E3). congruence.
    + eapply W3; eauto.
  - intros b Hb. destruct (W4 b Hb) as (z & v & Ez & Eb).
    destruct (Nat.eq_dec z y) as [->|Hz].
    + exists x, u. rewrite upd_same. split; [auto|congruence].
    + exists z, v. rewrite !upd_other; auto. intros ->. congruence.
Qed.

Lemma release_ok h e s x u l : uwinv h e s -> e x = Some u -> s x = Some l ->
  exists h', u_release h (u_data u) = Ok h' /\ uwinv h' (upd e x None) (upd s x None) /\ nxt h' = nxt h /\
    (forall b, u_data u <> Some b -> arr h' b = arr h b).
Proof.
  intros W Ex Sx. unfold u_release. pose proof (uw_rel _ _ _ W x) as R. rewrite Ex, Sx in R.
  destruct R as [Hs Hd]. destruct (u_data u) as [b|] eqn:Ed.
  - unfold h_del. rewrite Hd. eexists. split; [reflexivity|]. cbn [h_upd nxt arr]. split; [|split; [reflexivity|]].
    + apply (uwinv_set h e s); auto.
      * cbn [h_upd nxt arr]. intros c Hc. unfold upd. destruct (Nat.eqb_spec c b); auto. apply (uw_fresh _ _ _ W); auto.
      * intros y v c Hy Ey Ec. split; [|congruence]. cbn [h_upd arr]. rewrite upd_other; auto.
        intros ->. apply Hy. eapply (uw_own _ _ _ W); eauto.
      * intros c. cbn [h_upd arr]. destruct (Nat.eq_dec c b) as [->|Hc]; [rewrite upd_same; congruence|].
        rewrite upd_other by auto. intros Hn. right. destruct (uw_leak _ _ _ W c Hn) as (y & v & Ey & Ev).
        exists y, v. split; [|auto]. intros ->. congruence.
    + intros c Hc. rewrite upd_other; congruence.
  - exists h. split; [reflexivity|]. split; [|auto]. apply (uwinv_set h e s); auto.
    + apply (uw_fresh _ _ _ W).
    + intros y v c Hy Ey Ec. split; [auto|congruence].
    + intros c Hc. destruct (uw_leak _ _ _ W c Hc) as (y & v & Ey & Ev). right. exists y, v.
      split; [intros ->; congruence|auto].
Qed.

Lemma u_new_ok h e s x n : uwinv h e s -> e x = None -> s x = None -> 0 <= n ->
  exists h' b, h_new dflt h n = Ok (b, h') /\ b = nxt h /\
    uwinv h' (upd e x (Some (mkU (Some b) n))) (upd s x (Some (repeat dflt (Z.to_nat n)))) /\
    (forall c, c <> b -> arr h' c = arr h c) /\ arr h b = None /\
    arr h' b = Some (repeat dflt (Z.to_nat n)).
Proof.
  intros W Ex Sx Hn. destruct (h_new_ok h n Hn (uw_fresh _ _ _ W)) as (h' & E & B & Nx & O & Hb).
  exists h', (nxt h). split; [exact E|]. split; [reflexivity|]. split; [|auto].
  apply (uwinv_set h e s); auto.
  - lia.
  - intros b Hb'. rewrite O by lia. apply (uw_fresh _ _ _ W). lia.
  - cbn [u_sz u_data]. rewrite repeat_length. split; [lia|exact B].
  - intros y u b Hy Ey Eu.
    assert (b <> nxt h).
    { intros ->. pose proof (uw_rel _ _ _ W y) as R. rewrite Ey in R. destruct (s y); [|tauto].
      rewrite Eu in R. destruct R as [_ R]. congruence. }
    split; [auto|]. intros u' [= <-]. cbn. congruence.
  - intros b Hb'. destruct (Nat.eq_dec b (nxt h)) as [->|Hne].
    + left. eexists; split; [reflexivity|reflexivity].
    + right. rewrite O in Hb' by auto. destruct (uw_leak _ _ _ W b Hb') as (y & u & Ey & Eu).
      exists y, u. split; [intros ->; congruence|auto].
Qed.

(** Changing the contents of the array owned by [x]. *)
Lemma uwinv_write h e s h' x u b l' :
  uwinv h e s -> e x = Some u -> u_data u = Some b -> u_sz u = Z.of_nat (length l') ->
  arr h' b = Some l' -> nxt h' = nxt h -> (forall c, c <> b -> arr h' c = arr h c) ->
  uwinv h' e (upd s x (Some l')).
Proof.
  intros W Ex Eu Hs Hb Hn Ho.
  assert (W' : uwinv h' (upd e x (Some u)) (upd s x (Some l'))).
  { apply (uwinv_set h e s); auto.
    - lia.
    - intros c Hc. rewrite Ho; [apply (uw_fresh _ _ _ W); lia|]. intros ->.
      assert (arr h b = None) by (apply (uw_fresh _ _ _ W); lia).
      pose proof (uw_rel _ _ _ W x) as R. rewrite Ex in R. destruct (s x); [|tauto]. rewrite Eu in R.
      destruct R; congruence.
    - rewrite Eu. auto.
    - intros y v c Hy Ey Ec. assert (c <> b). { intros ->. apply Hy. eapply (uw_own _ _ _ W); eauto. }
      split; [auto|]. intros ? [= <-]. congruence.
    - intros c Hc. destruct (Nat.eq_dec c b) as [->|Hne]; [left; eauto|]. right.
      rewrite Ho in Hc by auto. destruct (uw_leak _ _ _ W c Hc) as (y & v & Ey & Ev). exists y, v.
      split; [intros ->; congruence|auto]. }
  destruct W' as [V1 V2 V3 V4]. 
  assert (Hup : forall z, upd e x (Some u) z = e z).
  { intros z. destruct (Nat.eq_dec z x) as [->|]; [now rewrite upd_same|now rewrite upd_other]. }
  constructor; auto.
  - intros z. specialize (V2 z). now rewrite Hup in V2.
  - intros y z v v' c E1 E2. apply (V3 y z v v' c); now rewrite Hup.
  - intros c Hc. destruct (V4 c Hc) as (y & v & E & E'). rewrite Hup in E. eauto.
Qed.

Lemma upd_upd {B} (f : nat -> option B) x a b z : upd (upd f x a) x b z = upd f x b z.
Proof. unfold upd. now destruct (Nat.eqb z x). Qed.

Lemma uwinv_ext h e e' s s' : (forall x, e x = e' x) -> (forall x, s x = s' x) -> uwinv h e s -> uwinv h e' s'.
Proof.
  intros He Hs [W1 W2 W3 W4]. constructor; auto.
  - intros x. rewrite <- He, <- Hs. apply W2.
  - intros x y u v b. rewrite <- !He. apply W3.
  - intros b Hb. destruct (W4 b Hb) as (x & u & E & E'). rewrite He in E. eauto.
Qed.

(** Fresh copy of [l'] in variable [x] that owns nothing. *)
Lemma copy_into_new h e s x y o l' :
  uwinv h e s -> e x = None -> s x = None -> e y = Some o -> s y = Some l' ->
  exists h1 h2 b, h_new dflt h (u_sz o) = Ok (b, h1) /\
    h_copy h1 (u_data o) (Some b) 0 (Z.to_nat (u_sz o)) = Ok h2 /\
    uwinv h2 (upd e x (Some (mkU (Some b) (u_sz o)))) (upd s x (Some l')).
Proof.
  intros W Ex Sx Ey Sy. pose proof (uw_rel _ _ _ W y) as R. rewrite Ey, Sy in R. destruct R as [Hs Hd].
  destruct (u_new_ok h e s x (u_sz o) W Ex Sx ltac:(lia)) as (h1 & b & E & Eb & W1 & O1 & Hb & Hb1).
  exists h1.
  destruct (u_data o) as [a|] eqn:Ea.
  - assert (Hab : a <> b) by (intros ->; congruence).
    destruct (h_copy_ok l' h1 a b [] (repeat dflt (Z.to_nat (u_sz o)))) as (h2 & E2 & B2 & N2 & O2); auto.
    { cbn [app]. rewrite O1 by auto. exact Hd. }
    { rewrite repeat_length. lia. }
    exists h2, b. split; [exact E|]. split.
    { replace (Z.to_nat (u_sz o)) with (length l') by lia. exact E2. }
    eapply uwinv_ext; [intros; reflexivity| |].
    2: { eapply (uwinv_write h1 _ _ h2 x); [exact W1|rewrite upd_same; reflexivity|reflexivity|exact Hs|exact B2|exact N2|exact O2]. }
    intros z. apply upd_upd.
  - subst l'. cbn in Hs. exists h1, b. rewrite Hs. split; [now rewrite <- Hs|]. split; [reflexivity|].
    rewrite Hs in W1. exact W1.
Qed.

Theorem u_step_ok h e s o s' r :
  uwinv h e s -> u_spec_step dflt s o = Some (s', r) ->
  exists w', u_step dflt (mkUW h e) o = Ok (w', r) /\ uwinv (u_heap w') (u_env w') s'.
Proof.
  intros W Hs.
  assert (Hrel : forall x l, s x = Some l -> exists u, e x = Some u /\ u_sz u = Z.of_nat (length l) /\
       match u_data u with None => l = [] | Some b => arr h b = Some l end).
  { intros x l E. pose proof (uw_rel _ _ _ W x) as R. rewrite E in R. destruct (e x) as [u|]; [|tauto]. eauto. }
  assert (Hnone : forall x, s x = None -> e x = None).
  { intros x E. pose proof (uw_rel _ _ _ W x) as R. rewrite E in R. destruct (e x) as [u|]; tauto. }
  destruct o as [x n|x l|x y|x y|x|x y|x y|x i|x i v|x]; cbn [u_spec_step] in Hs; cbn [u_step];
    unfold u_fresh, u_lookup; cbn [u_env u_heap].
  - destruct (s x) eqn:Ex; [discriminate|]. destruct (0 <=? n) eqn:En; [|discriminate]. injection Hs as <- <-.
    rewrite (Hnone _ Ex). cbn [bind]. unfold u_new.
    destruct (u_new_ok h e s x n W (Hnone _ Ex) Ex ltac:(lia)) as (h1 & b & E & Eb & W1 & _).
    rewrite E. cbn [bind]. eexists; split; [reflexivity|]. exact W1.
  - destruct (s x) eqn:Ex; [discriminate|]. injection Hs as <- <-.
    rewrite (Hnone _ Ex). cbn [bind]. unfold u_new_from.
    destruct (u_new_ok h e s x (Z.of_nat (length l)) W (Hnone _ Ex) Ex ltac:(lia)) as (h1 & b & E & Eb & W1 & O1 & Hb & Hb1).
    rewrite E. cbn [bind].
    destruct (h_fill_ok l h1 b [] (repeat dflt (Z.to_nat (Z.of_nat (length l))))) as (h2 & E2 & B2 & N2 & O2); auto.
    { rewrite repeat_length. lia. }
    cbn [length Z.of_nat] in E2. rewrite E2. cbn [bind]. eexists; split; [reflexivity|]. cbn [u_heap u_env].
    eapply uwinv_ext; [intros; reflexivity| |].
    2: { eapply (uwinv_write h1 _ _ h2 x); [exact W1|rewrite upd_same; reflexivity|reflexivity| |exact B2|exact N2|exact O2].
         reflexivity. }
    intros z. apply upd_upd.
  - destruct (s x) eqn:Ex; [discriminate|]. destruct (s y) as [l|] eqn:Ey; [|discriminate]. injection Hs as <- <-.
    rewrite (Hnone _ Ex). cbn [bind]. destruct (Hrel y l Ey) as (u & Eu & Hsz & Hd). rewrite Eu. cbn [bind].
    unfold u_copy_new. destruct (copy_into_new h e s x y u l W (Hnone _ Ex) Ex Eu Ey) as (h1 & h2 & b & E1 & E2 & W2).
    rewrite E1. cbn [bind]. rewrite E2. cbn [bind]. eexists; split; [reflexivity|]. exact W2.
  - destruct (s x) eqn:Ex; [discriminate|]. destruct (s y) as [l|] eqn:Ey; [|discriminate]. injection Hs as <- <-.
    rewrite (Hnone _ Ex). cbn [bind]. destruct (Hrel y l Ey) as (u & Eu & Hsz & Hd). rewrite Eu. cbn [bind u_move_new].
    eexists; split; [reflexivity|]. cbn [u_heap u_env]. apply uwinv_moved; auto. intros ->; congruence.
  - destruct (s x) as [l|] eqn:Ex; [|discriminate]. injection Hs as <- <-.
    destruct (Hrel x l Ex) as (u & Eu & Hsz & Hd). rewrite Eu. cbn [bind]. unfold u_dtor.
    destruct (release_ok h e s x u l W Eu Ex) as (h1 & E1 & W1 & _). rewrite E1. cbn [bind].
    eexists; split; [reflexivity|]. exact W1.
  - destruct (s x) as [l|] eqn:Ex; [|discriminate]. destruct (s y) as [l'|] eqn:Ey; [|discriminate]. injection Hs as <- <-.
    destruct (Hrel x l Ex) as (u & Eu & Hsz & Hd). rewrite Eu. cbn [bind].
    destruct (Hrel y l' Ey) as (o & Eo & Hsz' & Hd'). rewrite Eo. cbn [bind].
    destruct (Nat.eqb_spec x y) as [->|Hxy].
    { eexists; split; [reflexivity|]. cbn [u_heap u_env].
      eapply uwinv_ext; [intros; reflexivity| |exact W]. intros z. rewrite Ey in Ex. injection Ex as <-.
      destruct (Nat.eq_dec z y) as [->|]; [rewrite upd_same; auto|now rewrite upd_other]. }
    unfold u_copy_assign. destruct (u_sz u =? u_sz o) eqn:Esz; cbn [negb bind].
    + destruct (u_data u) as [b|] eqn:Eb.
      * destruct (u_data o) as [a|] eqn:Ea.
        -- assert (Hab : a <> b). { intros ->. apply Hxy. eapply (uw_own _ _ _ W); eauto. }
           destruct (h_copy_ok l' h a b [] l Hab Hd' Hd) as (h2 & E2 & B2 & N2 & O2); [lia|].
           cbn [length Z.of_nat] in E2. replace (Z.to_nat (u_sz o)) with (length l') by lia.
           rewrite E2. cbn [bind]. eexists; split; [reflexivity|]. cbn [u_heap u_env].
           eapply uwinv_ext; [| |eapply (uwinv_write h e s h2 x u b l'); eauto; lia].
           ++ intros z. destruct (Nat.eq_dec z x) as [->|]; [rewrite upd_same, Eu; f_equal; destruct u; cbn in *; f_equal; auto; lia|now rewrite upd_other].
           ++ reflexivity.
        -- subst l'. cbn in Hsz'. rewrite Hsz'. cbn [Z.to_nat h_copy bind].
           eexists; split; [reflexivity|]. cbn [u_heap u_env].
           assert (l = []) by (destruct l; [auto|cbn in *; lia]). subst l.
           eapply uwinv_ext; [| |exact W].
           ++ intros z. destruct (Nat.eq_dec z x) as [->|]; [rewrite upd_same, Eu; f_equal; destruct u; cbn in *; f_equal; auto; lia|now rewrite upd_other].
           ++ intros z. destruct (Nat.eq_dec z x) as [->|]; [rewrite upd_same; auto|now rewrite upd_other].
      * subst l. cbn in Hsz. assert (l' = []) by (destruct l'; [auto|cbn in *; lia]). subst l'. cbn in Hsz'.
        rewrite Hsz'. cbn [Z.to_nat h_copy bind].
        eexists; split; [reflexivity|]. cbn [u_heap u_env].
        eapply uwinv_ext; [| |exact W].
        ++ intros z. destruct (Nat.eq_dec z x) as [->|]; [rewrite upd_same, Eu; f_equal; destruct u; cbn in *; f_equal; auto; lia|now rewrite upd_other].
        ++ intros z. destruct (Nat.eq_dec z x) as [->|]; [rewrite upd_same; auto|now rewrite upd_other].
    + destruct (release_ok h e s x u l W Eu Ex) as (h1 & E1 & W1 & N1 & O1). rewrite E1. cbn [bind].
      assert (Hyx : y <> x) by auto.
      destruct (copy_into_new h1 (upd e x None) (upd s x None) x y o l' W1) as (h2 & h3 & b & E2 & E3 & W3).
      { apply upd_same. } { apply upd_same. } { now rewrite upd_other. } { now rewrite upd_other. }
      rewrite E2. cbn [bind]. rewrite E3. cbn [bind]. eexists; split; [reflexivity|]. cbn [u_heap u_env].
      eapply uwinv_ext; [| |exact W3]; intros z; apply upd_upd.
  - destruct (s x) as [l|] eqn:Ex; [|discriminate]. destruct (s y) as [l'|] eqn:Ey; [|discriminate].
    destruct (Hrel x l Ex) as (u & Eu & Hsz & Hd). rewrite Eu. cbn [bind].
    destruct (Hrel y l' Ey) as (o & Eo & Hsz' & Hd'). rewrite Eo. cbn [bind].
    destruct (release_ok h e s x u l W Eu Ex) as (h1 & E1 & W1 & N1 & O1).
    destruct (Nat.eqb_spec x y) as [->|Hxy]; injection Hs as <- <-.
    + unfold u_move_assign_self. rewrite E1. cbn [bind]. eexists; split; [reflexivity|]. cbn [u_heap u_env].
      eapply uwinv_ext; [| |apply (uwinv_set h1 _ _ h1 y (Some (mkU None 0)) (Some []) W1)].
      * intros z. apply upd_upd.
      * intros z. apply upd_upd.
      * lia.
      * apply (uw_fresh _ _ _ W1).
      * cbn. auto.
      * intros z v c Hz Ev Ec. split; [auto|]. intros ? [= <-]. cbn. congruence.
      * intros c Hc. right. destruct (uw_leak _ _ _ W1 c Hc) as (z & v & Ev & Ec).
        exists z, v. split; [|auto]. intros ->. rewrite upd_same in Ev. discriminate.
    + unfold u_move_assign. rewrite E1. cbn [bind]. eexists; split; [reflexivity|]. cbn [u_heap u_env].
      assert (Hyx : y <> x) by auto.
      eapply uwinv_ext; [| |apply (uwinv_moved h1 (upd e x None) (upd s x None) x y o l' W1 Hxy)];
        rewrite ?upd_same, ?upd_other by auto; auto;
        intros z; unfold upd; destruct (Nat.eqb z x), (Nat.eqb z y); reflexivity.
  - destruct (s x) as [l|] eqn:Ex; [|discriminate]. destruct (i <? 0) eqn:Ei; [discriminate|].
    destruct (nth_error l (Z.to_nat i)) as [v|] eqn:Ev; [|discriminate]. injection Hs as <- <-.
    destruct (Hrel x l Ex) as (u & Eu & Hsz & Hd). rewrite Eu. cbn [bind]. unfold h_get.
    destruct (u_data u) as [b|]; [|subst; destruct (Z.to_nat i); discriminate].
    rewrite Hd, Ei, Ev. cbn [bind]. eexists; split; [reflexivity|]. exact W.
  - destruct (s x) as [l|] eqn:Ex; [|discriminate].
    destruct ((0 <=? i) && (i <? Z.of_nat (length l))) eqn:Ei; [|discriminate]. injection Hs as <- <-.
    destruct (Hrel x l Ex) as (u & Eu & Hsz & Hd). rewrite Eu. cbn [bind].
    destruct (u_data u) as [b|] eqn:Eb; [|subst; cbn in *; lia].
    assert (Hset : h_set h (Some b) i v = Ok (h_upd h b (Some (list_set l (Z.to_nat i) v)))).
    { replace i with (Z.of_nat (Z.to_nat i)) at 1 by lia. apply h_set_ok; [exact Hd|lia]. }
    rewrite Hset. cbn [bind]. eexists; split; [reflexivity|]. cbn [u_heap u_env].
    rewrite list_set_eq by lia.
    eapply (uwinv_write h e s _ x u b); auto.
    + rewrite <- list_set_eq by lia. rewrite list_set_length. lia.
    + cbn [h_upd arr]. apply upd_same.
    + intros c Hc. cbn [h_upd arr]. now rewrite upd_other.
  - destruct (s x) as [l|] eqn:Ex; [|discriminate]. injection Hs as <- <-.
    destruct (Hrel x l Ex) as (u & Eu & Hsz & Hd). rewrite Eu. cbn [bind]. rewrite Hsz.
    eexists; split; [reflexivity|]. exact W.
Qed.

Lemma uwinv0 : uwinv (mkHeap (fun _ => None) 0) (fun _ => None) (fun _ => None).
Proof. constructor; cbn; auto; try discriminate. congruence. Qed.

Lemma u_run_ok p : forall w s s' rs,
  uwinv (u_heap w) (u_env w) s -> u_spec_run dflt s p = Some (s', rs) ->
  exists w', u_run dflt w p = Ok (w', rs) /\ uwinv (u_heap w') (u_env w') s'.
Proof.
  induction p as [|o p IH]; intros w s s' rs W H; cbn [u_spec_run u_run] in *.
  - injection H as <- <-. eauto.
  - destruct (u_spec_step dflt s o) as [[s1 r]|] eqn:E1; [|discriminate].
    destruct (u_spec_run dflt s1 p) as [[s2 rs']|] eqn:E2; [|discriminate]. injection H as <- <-.
    destruct w as [h e]. destruct (u_step_ok h e s o s1 r W E1) as (w1 & F1 & W1).
    rewrite F1. cbn [bind]. destruct (IH w1 s1 s2 rs' W1 E2) as (w2 & F2 & W2).
    rewrite F2. cbn [bind]. eauto.
Qed.

Lemma u_run_refines p s outs :
  u_spec_run dflt (fun _ => None) p = Some (s, outs) ->
  exists w, u_run dflt uworld0 p = Ok (w, outs) /\
    ((forall x, s x = None) -> forall b, arr (u_heap w) b = None).
Proof.
  intros H. destruct (u_run_ok p uworld0 _ s outs uwinv0 H) as (w & E & W).
  exists w. split; [exact E|]. intros Hn b.
  destruct (arr (u_heap w) b) eqn:Eb; [|reflexivity]. exfalso.
  destruct (uw_leak _ _ _ W b) as (x & u & Hx & _); [congruence|].
  pose proof (uw_rel _ _ _ W x) as V. rewrite Hn, Hx in V. exact V.
Qed.

(** Statically sized variant. *)
Lemma u_static_ok N l : 0 <= N ->
  u_static_from dflt N l =
    if Z.of_nat (length l) <=? N then Ok (l ++ repeat dflt (Z.to_nat N - length l)) else Fault OutOfBounds.
Proof.
  intros HN. unfold u_static_from.
  assert (G : forall q (h : uheap) p r, arr h 0%nat = Some (p ++ r) ->
     (let* h1 := h_fill h (Some 0%nat) (Z.of_nat (length p)) q in
      match arr h1 0%nat with Some r => Ok r | None => Fault OtherUB end) =
     if (length q <=? length r)%nat then Ok (p ++ q ++ skipn (length q) r) else Fault OutOfBounds).
  { induction q as [|v q IH]; intros h p r H; cbn [h_fill].
    - cbn [bind length]. rewrite H. reflexivity.
    - destruct r as [|a r].
      + cbn [h_set bind]. unfold h_set. rewrite H. 
        replace ((0 <=? Z.of_nat (length p)) && (Z.of_nat (length p) <? Z.of_nat (length (p ++ [])))) with false
          by (rewrite app_length; cbn; lia). reflexivity.
      + rewrite (h_set_ok h 0 _ _ v H) by (rewrite app_length; cbn; lia). cbn [bind]. rewrite list_set_app.
        replace (Z.of_nat (length p) + 1) with (Z.of_nat (length (p ++ [v]))) by (rewrite app_length; cbn; lia).
        rewrite (IH _ (p ++ [v]) r).
        * cbn [length skipn]. rewrite <- app_assoc. cbn [app]. 
          destruct (Nat.leb_spec (length q) (length r)), (Nat.leb_spec (S (length q)) (S (length r))); auto; lia.
        * cbn [h_upd arr]. rewrite upd_same, <- app_assoc. reflexivity. }
  cbn zeta. etransitivity; [apply (G l _ [] (repeat dflt (Z.to_nat N))); reflexivity|].
  rewrite repeat_length. cbn [app].
  destruct (Nat.leb_spec (length l) (Z.to_nat N)).
  - replace (Z.of_nat (length l) <=? N) with true by lia. do 2 f_equal.
    clear. generalize (length l) as k. induction (Z.to_nat N) as [|n IH]; intros [|k]; cbn; auto.
  - replace (Z.of_nat (length l) <=? N) with false by lia. reflexivity.
Qed.

End P.
