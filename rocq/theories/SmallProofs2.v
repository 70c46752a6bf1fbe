(** Whole programs over SmallStorage variables. *)
From Coq Require Import ZArith List Bool Lia PeanoNat ZifyBool ZifyNat.
From Verif Require Import Mem MemLemmas DequeModel DequeSpec DequeProofs DequeProofs2 SmallModel SmallSpec
  SmallProofs.
Import ListNotations.
Open Scope Z_scope.
Open Scope res_scope.

Section P.
Context {A : Type}.
Variable eqb : A -> A -> bool.
Variable N : Z.
Hypothesis HN : 0 <= N.

Notation mem := (mem A).
Notation srep m s L := (rep N m (toD s) L).

Definition denv (e : nat -> option small) : nat -> option deque := fun x => option_map toD (e x).
Definition swinv (m : mem) (e : nat -> option small) (s : @senv A) : Prop := winv N m (denv e) s.

Lemma winv_ext m e e' s : (forall x, e x = e' x) -> winv N m e s -> winv N m e' s (A:=A).
Proof.
  intros E [H1 H2 H3 H4]. constructor; auto.
  - intros x. rewrite <- E. apply H2.
  - intros x y b. rewrite <- !E. apply H3.
  - intros b Hb. destruct (H4 b Hb) as (x & Hx). exists x. now rewrite <- E.
Qed.

Lemma denv_upd e x o y : denv (upd e x o) y = upd (denv e) x (option_map toD o) y.
Proof. unfold denv, upd. now destruct (Nat.eqb y x). Qed.

Lemma swinv_one m e s m' x od os :
  swinv m e s -> trans m (ofp (option_map toD (e x))) m' (ofp (option_map toD od)) ->
  vrel N m' (option_map toD od) os ->
  swinv m' (upd e x od) (upd s x os).
Proof.
  intros W T V. eapply winv_ext; [intros y; symmetry; apply denv_upd|].
  eapply winv_one; [exact W|exact T|exact V].
Qed.

Lemma swinv_two m e s m' x y odx osx ody osy :
  x <> y -> swinv m e s ->
  trans m (fun b => ofp (option_map toD (e x)) b \/ ofp (option_map toD (e y)) b) m'
     (fun b => ofp (option_map toD odx) b \/ ofp (option_map toD ody) b) ->
  vrel N m' (option_map toD odx) osx -> vrel N m' (option_map toD ody) osy ->
  (forall b, ofp (option_map toD odx) b -> ~ ofp (option_map toD ody) b) ->
  swinv m' (upd (upd e y ody) x odx) (upd (upd s y osy) x osx).
Proof.
  intros Hxy W T Vx Vy Hd.
  eapply (winv_ext m' (upd (upd (denv e) y (option_map toD ody)) x (option_map toD odx))).
  { intros z. rewrite denv_upd. unfold upd at 1 3. destruct (Nat.eqb z x); [reflexivity|].
    symmetry. apply denv_upd. }
  eapply winv_two; [exact Hxy|exact W|exact T|exact Vx|exact Vy|exact Hd].
Qed.

Lemma swinv_env m e s x d : e x = Some d -> swinv m (upd e x (Some d)) s -> swinv m e s.
Proof.
  intros E W. eapply winv_ext; [|exact W]. intros z. unfold denv, upd.
  destruct (Nat.eqb_spec z x); [subst; now rewrite E|reflexivity].
Qed.

Lemma s_equal_items_ok n : forall (m : mem) d o i L Lo,
  srep m d L -> srep m o Lo -> 0 <= i -> i + Z.of_nat n = len L -> len L = len Lo ->
  s_equal_items eqb m d o i n =
    Ok (list_eqb eqb (skipn (Z.to_nat i) L) (skipn (Z.to_nat i) Lo)).
Proof.
  induction n as [|n IH]; intros m d o i L Lo R Ro Hi Hn Hl; cbn [s_equal_items].
  - unfold len in *. rewrite !skipn_all2 by lia. reflexivity.
  - destruct (cellsof_live L i) as (v & Hv1 & Hv2); [lia|].
    destruct (cellsof_live Lo i) as (w & Hw1 & Hw2); [lia|].
    pose proof (s_get_ok N m d L i v R ltac:(lia) Hv1) as Gv.
    pose proof (s_get_ok N m o Lo i w Ro ltac:(lia) Hw1) as Gw.
    unfold s_get in Gv, Gw. rewrite Gv. cbn [bind]. rewrite Gw. cbn [bind].
    assert (Hsk : forall (l : list A) k a, nth_error l k = Some a -> skipn k l = a :: skipn (S k) l).
    { clear. induction l as [|x l IH]; intros k a H; [destruct k; discriminate|].
      destruct k; simpl in *; [injection H as ->; reflexivity|]. now apply IH. }
    rewrite (Hsk _ _ _ Hv1), (Hsk _ _ _ Hw1). cbn [list_eqb].
    destruct (eqb v w); [|reflexivity]. rewrite (IH m d o (i+1) L Lo) by (auto; lia).
    replace (Z.to_nat (i + 1)) with (S (Z.to_nat i)) by lia. reflexivity.
Qed.

Lemma s_equal_ok (m : mem) d o L Lo :
  srep m d L -> srep m o Lo -> s_data d <> s_data o ->
  s_equal eqb m d o = Ok (list_eqb eqb L Lo).
Proof.
  intros R Ro Hne. unfold s_equal. destruct (Nat.eqb_spec (s_data d) (s_data o)); [congruence|].
  destruct (srep_bounds _ _ _ _ R) as (Hs & _). destruct (srep_bounds _ _ _ _ Ro) as (Hso & _).
  destruct (Z.eqb_spec (s_size d) (s_size o)) as [E|E]; cbn [negb].
  - rewrite (s_equal_items_ok _ m d o 0 L Lo) by (auto; unfold len in *; lia). reflexivity.
  - rewrite list_eqb_length; [reflexivity|]. unfold len in *. lia.
Qed.

Theorem s_step_ok m e s o s' r :
  swinv m e s -> s_spec_step eqb N s o = Some (s', r) ->
  exists w', s_step eqb N (mkSWorld m e) o = Ok (w', r) /\ swinv (sw_mem w') (sw_env w') s'.
Proof.
  intros W Hs.
  pose proof (w_fresh _ _ _ _ W) as Hf.
  assert (Hrel : forall x L c, s x = Some (L, c) -> exists d, e x = Some d /\ srep m d L /\ s_cap d = c).
  { intros x L c E. pose proof (w_rel _ _ _ _ W x) as V. rewrite E in V.
    unfold denv in V. destruct (e x) as [d|]; cbn [option_map vrel] in V; [|tauto].
    exists d. split; [reflexivity|]. exact V. }
  assert (Hnone : forall x, s x = None -> e x = None).
  { intros x E. pose proof (w_rel _ _ _ _ W x) as V. rewrite E in V. unfold denv in V.
    destruct (e x); cbn in V; tauto. }
  assert (Hdis : forall x y d dy, x <> y -> e x = Some d -> e y = Some dy ->
     forall b, fp (toD d) b -> ~ fp (toD dy) b).
  { intros x y d dy Hxy Ex Ey b Hb Hb'. apply (w_disj _ _ _ _ W x y b Hxy).
    - unfold denv. now rewrite Ex.
    - unfold denv. now rewrite Ey. }
  assert (One : forall x od d' os m', e x = od -> trans m (ofp (option_map toD od)) m' (fp (toD d')) ->
            vrel N m' (Some (toD d')) os -> swinv m' (upd e x (Some d')) (upd s x os)).
  { intros x od d' os m' <- T V. now apply (swinv_one m). }
  destruct o as [x|x v n|x l|x y|x y|x|x y|x y|x v|x|x n v|x n|x|x i|x i v|x|x|x|x|x y];
    cbn [s_spec_step] in Hs; cbn [s_step]; unfold s_fresh, s_lookup; cbn [sw_env sw_mem].
  - (* SNew *)
    destruct (s x) eqn:Ex; [discriminate|]. injection Hs as <- <-.
    rewrite (Hnone x Ex). cbn [bind]. destruct (s_new N m) as [m' d] eqn:E.
    destruct (s_new_ok N HN _ _ _ Hf E) as (R & C & T).
    eexists; split; [reflexivity|]. cbn [sw_mem sw_env fst snd].
    eapply (One x None); auto. cbn; auto.
  - (* SNewFill *)
    destruct (s x) eqn:Ex; [discriminate|]. destruct (0 <=? n) eqn:En; [|discriminate].
    injection Hs as <- <-. rewrite (Hnone x Ex). cbn [bind].
    destruct (s_new_fill_ok N HN m v n Hf ltac:(lia)) as (m' & d & E & R & C & T). rewrite E. cbn [bind].
    eexists; split; [reflexivity|]. cbn [sw_mem sw_env fst snd].
    eapply (One x None); auto. cbn; auto.
  - (* SNewSeq *)
    destruct (s x) eqn:Ex; [discriminate|]. injection Hs as <- <-.
    rewrite (Hnone x Ex). cbn [bind].
    destruct (s_new_seq_ok N HN m l Hf) as (m' & d & E & R & C & T). rewrite E. cbn [bind].
    eexists; split; [reflexivity|]. cbn [sw_mem sw_env fst snd].
    eapply (One x None); auto. cbn; auto.
  - (* SCopyNew *)
    destruct (s x) eqn:Ex; [discriminate|]. destruct (s y) as [[l c]|] eqn:Ey; [|discriminate].
    injection Hs as <- <-. rewrite (Hnone x Ex). cbn [bind].
    destruct (Hrel y l c Ey) as (d & Ed & R & C). rewrite Ed. cbn [bind].
    destruct (s_copy_ctor_ok N HN m d l R Hf) as (m' & d' & E & R' & C' & T). rewrite E. cbn [bind].
    eexists; split; [reflexivity|]. cbn [sw_mem sw_env fst snd].
    eapply (One x None); auto. cbn; auto.
  - (* SMoveNew *)
    destruct (s x) eqn:Ex; [discriminate|]. destruct (s y) as [[l c]|] eqn:Ey; [|discriminate].
    destruct ((N <? c) || (len l =? 0)) eqn:Eg; [|discriminate].
    injection Hs as <- <-. rewrite (Hnone x Ex). cbn [bind].
    destruct (Hrel y l c Ey) as (d & Ed & R & C). rewrite Ed. cbn [bind].
    destruct (s_move_ctor_ok N HN m d l R Hf) as (m' & d' & o' & E & R' & C' & Ro & Co & T & Hd); [lia|].
    rewrite E. cbn [bind]. eexists; split; [reflexivity|]. cbn [sw_mem sw_env].
    apply (swinv_two m e s m' x y (Some d') (Some (l, c)) (Some o') (Some ([], N))); auto.
    + intros ->; congruence.
    + eapply trans_pre_ext; [|exact T]. intros b. rewrite (Hnone x Ex), Ed. cbn. tauto.
    + cbn. split; [auto|congruence].
    + cbn. auto.
  - (* SDestroy *)
    destruct (s x) as [[l c]|] eqn:Ex; [|discriminate]. injection Hs as <- <-.
    destruct (Hrel x l c Ex) as (d & Ed & R & C). rewrite Ed. cbn [bind].
    rewrite (s_dtor_eq N HN m d l R).
    destruct (dtor_ok N HN m (toD d) l R Hf) as (m' & E & T). rewrite E. cbn [bind].
    eexists; split; [reflexivity|]. cbn [sw_mem sw_env].
    eapply (swinv_one m e s m' x None None W); [rewrite Ed; exact T|cbn; auto].
  - (* SCopyAssign *)
    destruct (s x) as [[l c]|] eqn:Ex; [|discriminate].
    destruct (s y) as [[l' c']|] eqn:Ey; [|discriminate].
    destruct (Hrel x l c Ex) as (d & Ed & R & C). rewrite Ed. cbn [bind].
    destruct (Hrel y l' c' Ey) as (dy & Edy & Ry & Cy). rewrite Edy. cbn [bind].
    destruct (Nat.eqb_spec x y) as [->|Hxy]; injection Hs as <- <-.
    + cbn [s_copy_assign bind fst snd]. eexists; split; [reflexivity|]. cbn [sw_mem sw_env].
      eapply (One y (Some d)); auto; [apply trans_refl; exact Hf|]. cbn; auto.
    + destruct (s_copy_assign_ok N HN m d l dy l' R Ry Hf) as (m' & d' & E & R' & C' & T).
      { eapply Hdis; eauto. }
      rewrite E. cbn [bind]. eexists; split; [reflexivity|]. cbn [sw_mem sw_env fst snd].
      eapply (One x (Some d)); auto. cbn. split; [auto|]. now rewrite C', C, Cy.
  - (* SMoveAssign *)
    destruct (Nat.eqb_spec x y) as [|Hxy]; [discriminate|].
    destruct (s x) as [[l c]|] eqn:Ex; [|discriminate].
    destruct (s y) as [[l' c']|] eqn:Ey; [|discriminate]. injection Hs as <- <-.
    destruct (Hrel x l c Ex) as (d & Ed & R & C). rewrite Ed. cbn [bind].
    destruct (Hrel y l' c' Ey) as (dy & Edy & Ry & Cy). rewrite Edy. cbn [bind].
    destruct (s_move_assign_ok N HN m d l dy l' R Ry Hf) as (m' & d' & o' & E & R' & C' & Ro & Co & T & Hd).
    { eapply Hdis; eauto. }
    rewrite E. cbn [bind]. eexists; split; [reflexivity|]. cbn [sw_mem sw_env].
    apply (swinv_two m e s m' x y (Some d') (Some (l', c')) (Some o') (Some ([], N))); auto.
    + eapply trans_pre_ext; [|exact T]. intros b. rewrite Ed, Edy. cbn. tauto.
    + cbn. split; [auto|congruence].
    + cbn. auto.
  - (* SPushBack *)
    destruct (s x) as [[l c]|] eqn:Ex; [|discriminate].
    destruct (len l <? c) eqn:Eg; [|discriminate]. injection Hs as <- <-.
    destruct (Hrel x l c Ex) as (d & Ed & R & C). rewrite Ed. cbn [bind].
    destruct (s_push_back_ok N HN m d l v R Hf) as (m' & d' & E & R' & C' & T); [lia|].
    rewrite E. cbn [bind]. eexists; split; [reflexivity|]. cbn [sw_mem sw_env fst snd].
    eapply (One x (Some d)); auto. cbn. split; [auto|congruence].
  - (* SPopBack *)
    destruct (s x) as [[l c]|] eqn:Ex; [|discriminate]. injection Hs as <- <-.
    destruct (Hrel x l c Ex) as (d & Ed & R & C). rewrite Ed. cbn [bind].
    destruct (s_pop_back_ok N m d l R Hf) as (m' & d' & E & R' & C' & T).
    rewrite E. cbn [bind]. eexists; split; [reflexivity|]. cbn [sw_mem sw_env fst snd].
    eapply (One x (Some d)); auto. cbn. split; [auto|congruence].
  - (* SResize *)
    destruct (s x) as [[l c]|] eqn:Ex; [|discriminate].
    destruct ((0 <=? n) && (n <=? c)) eqn:Eg; [|discriminate]. injection Hs as <- <-.
    destruct (Hrel x l c Ex) as (d & Ed & R & C). rewrite Ed. cbn [bind].
    destruct (s_resize_ok N HN m d l n v R Hf) as (m' & d' & E & R' & C' & T); [lia|].
    rewrite E. cbn [bind]. eexists; split; [reflexivity|]. cbn [sw_mem sw_env fst snd].
    eapply (One x (Some d)); auto. cbn. split; [auto|congruence].
  - (* SReserve *)
    destruct (s x) as [[l c]|] eqn:Ex; [|discriminate].
    destruct (n <=? c) eqn:Eg; [|discriminate]. injection Hs as <- <-.
    destruct (Hrel x l c Ex) as (d & Ed & R & C). rewrite Ed. cbn [bind].
    rewrite ensure_room by lia. cbn [bind]. eexists; split; [reflexivity|]. cbn [sw_mem sw_env fst snd].
    eapply (One x (Some d)); auto; [apply trans_refl; exact Hf|]. cbn; auto.
  - (* SClear *)
    destruct (s x) as [[l c]|] eqn:Ex; [|discriminate]. injection Hs as <- <-.
    destruct (Hrel x l c Ex) as (d & Ed & R & C). rewrite Ed. cbn [bind].
    destruct (s_clear_ok N HN m d l R Hf) as (m' & d' & E & R' & C' & T).
    rewrite E. cbn [bind]. eexists; split; [reflexivity|]. cbn [sw_mem sw_env fst snd].
    eapply (One x (Some d)); auto. cbn. split; [auto|congruence].
  - (* SGet *)
    destruct (s x) as [[l c]|] eqn:Ex; [|discriminate].
    destruct ((0 <=? i) && (i <? len l)) eqn:Eg; [|discriminate].
    destruct (nth_error l (Z.to_nat i)) as [v|] eqn:Ev; [|discriminate]. injection Hs as <- <-.
    destruct (Hrel x l c Ex) as (d & Ed & R & C). rewrite Ed. cbn [bind].
    rewrite (s_get_ok N m d l i v R) by (lia || auto). cbn [bind]. eexists; split; [reflexivity|]. exact W.
  - (* SSet *)
    destruct (s x) as [[l c]|] eqn:Ex; [|discriminate].
    destruct ((0 <=? i) && (i <? len l)) eqn:Eg; [|discriminate]. injection Hs as <- <-.
    destruct (Hrel x l c Ex) as (d & Ed & R & C). rewrite Ed. cbn [bind].
    destruct (s_set_ok N m d l i v R Hf) as (m' & E & R' & T); [lia|].
    rewrite E. cbn [bind]. eexists; split; [reflexivity|]. cbn [sw_mem sw_env].
    eapply swinv_env; [exact Ed|]. eapply (One x (Some d)); auto. cbn; auto.
  - (* SFront *)
    destruct (s x) as [[l c]|] eqn:Ex; [|discriminate].
    destruct (hd_error l) as [v|] eqn:Ev; [|discriminate]. injection Hs as <- <-.
    destruct (Hrel x l c Ex) as (d & Ed & R & C). rewrite Ed. cbn [bind].
    assert (E : s_front m d = Ok v).
    { apply (s_get_ok N m d l 0 v R); [destruct l; [discriminate|unfold len; cbn [length]; lia]|].
      rewrite <- Ev, hd_nth. reflexivity. }
    rewrite E. cbn [bind]. eexists; split; [reflexivity|]. exact W.
  - (* SBack *)
    destruct (s x) as [[l c]|] eqn:Ex; [|discriminate].
    destruct (last_opt l) as [v|] eqn:Ev; [|discriminate]. injection Hs as <- <-.
    destruct (Hrel x l c Ex) as (d & Ed & R & C). rewrite Ed. cbn [bind].
    destruct (last_nth l v Ev) as [Hn Hp].
    destruct (srep_bounds _ _ _ _ R) as (Hsz & _).
    assert (E : s_back m d = Ok v).
    { apply (s_get_ok N m d l (s_size d - 1) v R); [unfold len in *; lia|].
      rewrite <- Hn. f_equal. unfold len in *. lia. }
    rewrite E. cbn [bind]. eexists; split; [reflexivity|]. exact W.
  - (* SSize *)
    destruct (s x) as [[l c]|] eqn:Ex; [|discriminate]. injection Hs as <- <-.
    destruct (Hrel x l c Ex) as (d & Ed & R & C). rewrite Ed. cbn [bind].
    exists (mkSWorld m e). split; [|exact W]. now destruct (srep_bounds _ _ _ _ R) as (-> & _).
  - (* SCapacity *)
    destruct (s x) as [[l c]|] eqn:Ex; [|discriminate]. injection Hs as <- <-.
    destruct (Hrel x l c Ex) as (d & Ed & R & C). rewrite Ed. cbn [bind].
    exists (mkSWorld m e). split; [|exact W]. now rewrite C.
  - (* SEqual *)
    destruct (s x) as [[l c]|] eqn:Ex; [|discriminate].
    destruct (s y) as [[l' c']|] eqn:Ey; [|discriminate]. injection Hs as <- <-.
    destruct (Hrel x l c Ex) as (d & Ed & R & C). rewrite Ed. cbn [bind].
    destruct (Hrel y l' c' Ey) as (dy & Edy & Ry & Cy). rewrite Edy. cbn [bind].
    exists (mkSWorld m e). split; [|exact W].
    destruct (Nat.eqb_spec x y) as [->|Hxy].
    + rewrite Ed in Edy. injection Edy as <-. unfold s_equal. rewrite Nat.eqb_refl. reflexivity.
    + rewrite (s_equal_ok m d dy l l' R Ry); [reflexivity|].
      intros Eq. apply (Hdis x y d dy Hxy Ed Edy (s_data d)); [right; auto|right; auto].
Qed.

Lemma swinv0 : swinv mem0 (fun _ => None) senv0.
Proof. eapply winv_ext; [|apply winv0]. reflexivity. Qed.

Theorem s_run_ok p : forall w s s' rs,
  swinv (sw_mem w) (sw_env w) s -> s_spec_run eqb N s p = Some (s', rs) ->
  exists w', s_run eqb N w p = Ok (w', rs) /\ swinv (sw_mem w') (sw_env w') s'.
Proof.
  induction p as [|o p IH]; intros w s s' rs W H; cbn [s_spec_run s_run] in *.
  - injection H as <- <-. eauto.
  - destruct (s_spec_step eqb N s o) as [[s1 r]|] eqn:E1; [|discriminate].
    destruct (s_spec_run eqb N s1 p) as [[s2 rs']|] eqn:E2; [|discriminate]. injection H as <- <-.
    destruct w as [m e]. destruct (s_step_ok m e s o s1 r W E1) as (w1 & F1 & W1).
    rewrite F1. cbn [bind]. destruct (IH w1 s1 s2 rs' W1 E2) as (w2 & F2 & W2).
    rewrite F2. cbn [bind]. eauto.
Qed.

Lemma s_run_refines p s outs :
  s_spec_run eqb N senv0 p = Some (s, outs) ->
  exists w, s_run eqb N sworld0 p = Ok (w, outs) /\
    ((forall x, s x = None) -> forall b, blk (sw_mem w) b = None).
Proof.
  intros H. destruct (s_run_ok p sworld0 senv0 s outs swinv0 H) as (w & E & W).
  exists w. split; [exact E|]. intros Hn b.
  destruct (blk (sw_mem w) b) eqn:Eb; [|reflexivity]. exfalso.
  destruct (w_leak _ _ _ _ W b) as (x & Hx); [congruence|].
  pose proof (w_rel _ _ _ _ W x) as V. rewrite Hn in V. apply vrel_none in V.
  rewrite V in Hx. exact Hx.
Qed.

Lemma s_run_app p q : forall w,
  s_run eqb N w (p ++ q) =
  (let* (w1, r1) := s_run eqb N w p in let* (w2, r2) := s_run eqb N w1 q in Ok (w2, r1 ++ r2)).
Proof.
  induction p as [|o p IH]; intros w; cbn [s_run app].
  - cbn [bind]. destruct (s_run eqb N w q) as [[? ?]|]; reflexivity.
  - destruct (s_step eqb N w o) as [[w1 r]|]; [|reflexivity]. cbn [bind]. rewrite IH.
    destruct (s_run eqb N w1 p) as [[w2 r2]|]; [|reflexivity]. cbn [bind].
    destruct (s_run eqb N w2 q) as [[w3 r3]|]; reflexivity.
Qed.

(** ** The defects, for every reachable container *)

(** Moving more slots than are alive: the first dead slot is read. *)
Lemma move_range_dead n : forall (m : mem) src dst i kd c g kd2 c2 g2 (k : Z),
  brep m src kd c 0 g -> brep m dst kd2 c2 0 g2 -> src <> dst -> 0 <= i ->
  i <= k < i + Z.of_nat n -> k <= c -> k <= c2 ->
  (forall j, i <= j < k -> (exists v, g j = Live v) /\ g2 j = Raw) ->
  (k < c -> g k = Raw) ->
  move_range m src dst i n = Fault (if k <? c then DeadRead else OutOfBounds).
Proof.
  induction n as [|n IH]; intros m src dst i kd c g kd2 c2 g2 k B B2 Hne Hi Hk Hc Hc2 Hg Hraw; [lia|].
  cbn [move_range]. destruct (Z.eq_dec i k) as [->|Hik].
  - unfold move_out. destruct B as (Bk & HB & Hkd & Hl & Hat). unfold peek. rewrite HB.
    unfold in_bounds. rewrite Hl. destruct (k <? c) eqn:Ek.
    + replace (0 <=? k) with true by lia. cbn [andb bind].
      specialize (Hat k ltac:(lia)). rewrite Z.mod_small in Hat by lia. cbn in Hat.
      replace (0 + k) with k in Hat by lia. rewrite Hat, Hraw by lia. reflexivity.
    + replace ((0 <=? k) && false) with false by lia. reflexivity.
  - destruct (Hg i ltac:(lia)) as [(v & Hv) Hr].
    assert (Ei : forall c', i < c' -> (0 + i) mod c' = i) by (intros; rewrite Z.mod_small; lia).
    destruct (move_out_brep m src kd c 0 g i v B ltac:(lia) Hv) as (m1 & E1 & B1 & F1).
    rewrite Ei in E1 by lia. rewrite E1. cbn [bind].
    destruct (construct_brep m1 dst kd2 c2 0 g2 i v) as (m2 & E2 & B2' & F2); [|lia|auto|].
    { eapply frame_brep; [exact F1|cbn; auto|exact B2]. }
    rewrite Ei in E2 by lia. rewrite E2. cbn [bind].
    pose proof (frame_brep _ _ _ _ _ _ _ _ F2 Hne B1) as B1'.
    destruct (destroy_brep m2 src kd c 0 _ i B1' ltac:(lia)) as (m3 & E3 & B3 & F3).
    { unfold updz. rewrite Z.eqb_refl. congruence. }
    rewrite Ei in E3 by lia. rewrite E3. cbn [bind].
    eapply IH with (kd := kd) (kd2 := kd2) (c2 := c2); [exact B3| |exact Hne|lia|lia|lia|exact Hc2| |].
    + eapply frame_brep; [exact F3|cbn; auto|exact B2'].
    + intros j Hj. destruct (Hg j ltac:(lia)) as [(w & Hw) Hr']. unfold updz.
      replace (j =? i) with false by lia. eauto.
    + intros H. unfold updz. replace (k =? i) with false by lia. auto.
Qed.

Lemma ensure_capacity_fault (m : mem) s L n :
  srep m s L -> fresh_ok m -> s_cap s < n ->
  ensure_capacity N m s n = Fault (if len L <? s_cap s then DeadRead else OutOfBounds).
Proof.
  intros R Hf Hn. destruct (srep_bounds _ _ _ _ R) as (Hs & Hle & Hc & H0).
  unfold ensure_capacity. replace (s_cap s <? n) with true by lia.
  destruct (alloc m Heap (Z.max n (s_cap s * 2))) as [b m1] eqn:Ea.
  destruct (alloc_spec _ _ _ _ _ Hf Ea) as (Eb & Hnb & Hf1 & Hx1 & Hb1 & Ho1).
  assert (Hne : s_data s <> b).
  { intros E. apply (rep_blocks _ _ _ _ b R); [right; auto|auto]. }
  pose proof (r_data _ _ _ _ R) as B. cbn [toD data cap head] in B.
  rewrite (move_range_dead (Z.to_nat n) m1 (s_data s) b 0 (dkind N (toD s)) (s_cap s) (cellsof L) Heap
     (Z.max n (s_cap s * 2)) (fun _ => Raw) (len L)); try lia.
  - reflexivity.
  - eapply brep_blk; [apply Ho1; auto|exact B].
  - apply (Hb1 0).
  - intros j Hj. split; [|reflexivity]. destruct (cellsof_live L j) as (v & _ & Hv); [lia|]. eauto.
  - intros _. apply cellsof_raw. lia.
Qed.

Lemma reach p s outs x l c :
  s_spec_run eqb N senv0 p = Some (s, outs) -> s x = Some (l, c) ->
  exists m e d, s_run eqb N sworld0 p = Ok (mkSWorld m e, outs) /\ swinv m e s /\ e x = Some d /\
    srep m d l /\ s_cap d = c.
Proof.
  intros H Hx. destruct (s_run_ok p sworld0 senv0 s outs swinv0 H) as ([m e] & E & W).
  cbn [sw_mem sw_env] in W. pose proof (w_rel _ _ _ _ W x) as V. rewrite Hx in V. unfold denv in V.
  destruct (e x) as [d|] eqn:Ed; cbn in V; [|tauto]. exists m, e, d. tauto.
Qed.

(** Any request for more room than the capacity is undefined behaviour, always. *)
Lemma growth_undefined p s outs x l c n :
  s_spec_run eqb N senv0 p = Some (s, outs) -> s x = Some (l, c) -> c < n ->
  s_run eqb N sworld0 (p ++ [SReserve x n]) =
    Fault (if Z.of_nat (length l) <? c then DeadRead else OutOfBounds).
Proof.
  intros H Hx Hn. destruct (reach p s outs x l c H Hx) as (m & e & d & E & W & Ed & R & C).
  rewrite s_run_app, E. cbn [bind s_run s_step]. unfold s_lookup. cbn [sw_env sw_mem]. rewrite Ed.
  cbn [bind]. rewrite (ensure_capacity_fault m d l n R (w_fresh _ _ _ _ W)) by lia.
  rewrite C. reflexivity.
Qed.

Lemma push_full_undefined p s outs x l c v :
  s_spec_run eqb N senv0 p = Some (s, outs) -> s x = Some (l, c) -> Z.of_nat (length l) = c ->
  s_run eqb N sworld0 (p ++ [SPushBack x v]) = Fault OutOfBounds.
Proof.
  intros H Hx Hn. destruct (reach p s outs x l c H Hx) as (m & e & d & E & W & Ed & R & C).
  destruct (srep_bounds _ _ _ _ R) as (Hs & Hle & Hc & H0).
  rewrite s_run_app, E. cbn [bind s_run s_step]. unfold s_lookup. cbn [sw_env sw_mem]. rewrite Ed.
  cbn [bind]. unfold s_push_back.
  rewrite (ensure_capacity_fault m d l _ R (w_fresh _ _ _ _ W)) by (unfold len in *; lia).
  replace (len l <? s_cap d) with false by (unfold len in *; lia). reflexivity.
Qed.

(** Moving from a non-empty inline container leaves a source whose destructor runs on dead slots. *)
Lemma move_ctor_double_destroy p s outs x y l c :
  s_spec_run eqb N senv0 p = Some (s, outs) -> s x = None -> s y = Some (l, c) ->
  c <= N -> l <> [] ->
  s_run eqb N sworld0 (p ++ [SMoveNew x y; SDestroy y]) = Fault DoubleDestroy.
Proof.
  intros H Hx Hy Hc Hl. destruct (reach p s outs y l c H Hy) as (m & e & d & E & W & Ed & R & C).
  destruct (srep_bounds _ _ _ _ R) as (Hs & Hle & Hc' & H0).
  assert (Hl1 : 0 < len l) by (destruct l; [congruence|unfold len; cbn [length]; lia]).
  assert (Exn : e x = None).
  { pose proof (w_rel _ _ _ _ W x) as V. rewrite Hx in V. unfold denv in V. destruct (e x); cbn in V; tauto. }
  assert (Hxy : x <> y) by (intros ->; congruence).
  rewrite s_run_app, E. cbn [bind s_run s_step]. unfold s_lookup, s_fresh. cbn [sw_env sw_mem].
  rewrite Exn, Ed. cbn [bind]. unfold s_move_ctor.
  destruct (alloc m Inl N) as [b m1] eqn:Ea.
  destruct (alloc_spec _ _ _ _ _ (w_fresh _ _ _ _ W) Ea) as (Eb & Hn & Hf1 & Hx1 & Hb1 & Ho1).
  assert (Hal : forall b', fp (toD d) b' -> b' <> b).
  { intros b' Hb' ->. exact (rep_blocks _ _ _ _ _ R Hb' Hn). }
  assert (R1 : srep m1 d l).
  { eapply rep_frame; [exact R|]. intros; apply Ho1; auto. }
  replace (s_cap d <=? N) with true by lia. replace (N <? s_cap d) with false by lia.
  rewrite move_range_eq by lia.
  destruct (reserve_items_ok (Z.to_nat (s_size d)) m1 (toD d) b 0 _ _ _ _ _ (r_data _ _ _ _ R1)
     ltac:(cbn; lia) ltac:(lia) ltac:(cbn [toD cap]; lia) (Hb1 0)) as (m2 & E2 & B2 & B2' & F2).
  { intros Eq. apply (Hal (s_data d)); [right|]; auto. } { lia. }
  { intros k Hk. split; [|reflexivity]. destruct (cellsof_live l k) as (v & _ & Hv); [lia|]. eauto. }
  rewrite E2. cbn [bind sw_env sw_mem].
  rewrite upd_other, upd_same by auto. cbn [bind].
  unfold s_dtor. replace (Z.to_nat (s_size d)) with (S (Z.to_nat (s_size d) - 1)) by lia.
  cbn [destroy_range]. unfold destroy.
  cbn [toD data cap head] in B2. destruct B2 as (B & HB & Hkd & Hlen & Hat).
  unfold peek. rewrite HB. unfold in_bounds. rewrite Hlen.
  replace ((0 <=? 0) && (0 <? s_cap d)) with true by lia. cbn [bind].
  specialize (Hat 0 ltac:(lia)). rewrite Z.mod_small in Hat by lia. cbn [Z.add] in Hat. rewrite Hat.
  unfold in_rng. replace ((0 <=? 0) && (0 <? 0 + Z.of_nat (Z.to_nat (s_size d)))) with true by lia.
  reflexivity.
Qed.

Lemma s_spec_run_app p q : forall s,
  s_spec_run eqb N s (p ++ q) =
  match s_spec_run eqb N s p with
  | Some (s1, r1) => match s_spec_run eqb N s1 q with Some (s2, r2) => Some (s2, r1 ++ r2) | None => None end
  | None => None end.
Proof.
  induction p as [|o p IH]; intros s; cbn [s_spec_run app].
  - destruct (s_spec_run eqb N s q) as [[? ?]|]; reflexivity.
  - destruct (s_spec_step eqb N s o) as [[s1 r]|]; [|reflexivity]. rewrite IH.
    destruct (s_spec_run eqb N s1 p) as [[s2 r2]|]; [|reflexivity].
    destruct (s_spec_run eqb N s2 q) as [[s3 r3]|]; reflexivity.
Qed.

Lemma s_move_transfers p x y s outs l c i v :
  s_spec_run eqb N senv0 p = Some (s, outs) -> x <> y -> s y = Some (l, c) ->
  (s x = None -> N < c \/ l = []) -> nth_error l i = Some v ->
  exists w,
    s_run eqb N sworld0 (p ++ [match s x with None => SMoveNew x y | Some _ => SMoveAssign x y end;
                            SSize x; SSize y; SGet x (Z.of_nat i); SDestroy y; SDestroy x])
    = Ok (w, outs ++ [OutUnit; OutInt (Z.of_nat (length l)); OutInt 0; OutVal v; OutUnit; OutUnit]).
Proof.
  intros H Hxy Hy Hg Hi.
  assert (Hil : (i < length l)%nat) by (apply nth_error_Some; congruence).
  assert (Hxy' : (x =? y)%nat = false) by (apply Nat.eqb_neq; auto).
  assert (Hyx' : (y =? x)%nat = false) by (apply Nat.eqb_neq; auto).
  assert (exists s', s_spec_run eqb N senv0
     (p ++ [match s x with None => SMoveNew x y | Some _ => SMoveAssign x y end;
                            SSize x; SSize y; SGet x (Z.of_nat i); SDestroy y; SDestroy x]) =
     Some (s', outs ++ [OutUnit; OutInt (Z.of_nat (length l)); OutInt 0; OutVal v; OutUnit; OutUnit])) as (s' & E).
  { rewrite s_spec_run_app, H. destruct (s x) as [[lx cx]|] eqn:Ex.
    - eexists. cbn [s_spec_run s_spec_step]. rewrite Hxy', Ex, Hy.
      cbn iota beta. rewrite ?upd_same. cbn iota beta.
      rewrite ?(upd_other _ x _ y), ?upd_same by auto. cbn iota beta.
      replace ((0 <=? Z.of_nat i) && (Z.of_nat i <? len l)) with true by (unfold len; lia).
      cbn iota beta. rewrite Nat2Z.id, Hi. cbn iota beta.
      rewrite ?(upd_other _ y _ x), ?upd_same by auto. cbn iota beta.
      rewrite ?(upd_other _ x _ y), ?upd_same by auto. cbn iota beta.
      rewrite ?(upd_other _ y _ x), ?upd_same by auto. reflexivity.
    - eexists. cbn [s_spec_run s_spec_step]. rewrite Ex, Hy.
      replace ((N <? c) || (len l =? 0)) with true.
      2: { destruct (Hg eq_refl) as [ | -> ]; unfold len; cbn [length]; lia. }
      cbn iota beta. rewrite ?upd_same. cbn iota beta.
      rewrite ?(upd_other _ x _ y), ?upd_same by auto. cbn iota beta.
      replace ((0 <=? Z.of_nat i) && (Z.of_nat i <? len l)) with true by (unfold len; lia).
      cbn iota beta. rewrite Nat2Z.id, Hi. cbn iota beta.
      rewrite ?(upd_other _ y _ x), ?upd_same by auto. cbn iota beta.
      rewrite ?(upd_other _ x _ y), ?upd_same by auto. cbn iota beta.
      rewrite ?(upd_other _ y _ x), ?upd_same by auto. reflexivity. }
  destruct (s_run_refines _ _ _ E) as (w & Ew & _). eauto.
Qed.

End P.

Lemma s_self_move_inline :
  s_run Z.eqb 2 sworld0 [SNew 0%nat; SPushBack 0%nat 1; SMoveAssign 0%nat 0%nat] = Fault DeadRead.
Proof. vm_compute. reflexivity. Qed.

Lemma s_self_move_heap :
  exists w, s_run Z.eqb 0 sworld0 [SNewSeq 0%nat [1; 2]; SMoveAssign 0%nat 0%nat; SSize 0%nat]
    = Ok (w, [OutUnit; OutUnit; OutInt 0]).
Proof. eexists. vm_compute. reflexivity. Qed.
