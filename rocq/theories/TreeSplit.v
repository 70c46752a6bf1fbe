From Coq Require Import List Arith Bool Lia Permutation.
From Verif Require Import TreeModel TreeSpec TreeProofs TreeInv TreeOps.
Import ListNotations.

Section Split.
Context {D L : Type}.
Implicit Types t : tree D L.
Lemma nodup_join (a b : list nat) : NoDup a -> NoDup b -> (forall x, In x a -> ~ In x b) -> NoDup (a ++ b).
Proof.
  intros Na Nb Dj. induction Na as [|x l Nx Nl IH]; [assumption|]. cbn. constructor.
  - rewrite in_app_iff. intros [G|G]; [contradiction|]. apply (Dj x); [now left|assumption].
  - apply IH. intros y Y. apply Dj. now right.
Qed.
Lemma swap_permutes (f : nat -> L) xs a b : NoDup xs -> In a xs -> In b xs -> Permutation (map (upd (upd f b (f a)) a (f b)) xs) (map f xs).
Proof.
  intros N Ha Hb. set (s := fun x => if x =? a then b else if x =? b then a else x).
  assert (E : map (upd (upd f b (f a)) a (f b)) xs = map f (map s xs)).
  { rewrite map_map. apply map_ext. intros x. unfold upd, s. destruct (x =? a), (x =? b); reflexivity. }
  rewrite E. apply Permutation_map. apply NoDup_Permutation; [|assumption|].
  - apply FinFun.Injective_map_NoDup; [|assumption]. intros x y. unfold s.
    destruct (Nat.eqb_spec x a), (Nat.eqb_spec y a), (Nat.eqb_spec x b), (Nat.eqb_spec y b); congruence.
  - intros x. rewrite in_map_iff. unfold s. split.
    + intros (y & <- & Y). destruct (y =? a); [assumption|]. destruct (y =? b); assumption.
    + intros X. destruct (Nat.eqb_spec x a) as [->|Na]; [|destruct (Nat.eqb_spec x b) as [->|Nb]].
      * exists b. split; [|assumption]. destruct (Nat.eqb_spec b a); [assumption|]. now rewrite Nat.eqb_refl.
      * exists a. split; [|assumption]. now rewrite Nat.eqb_refl.
      * exists x. split; [|assumption]. destruct (Nat.eqb_spec x a); [congruence|]. now destruct (Nat.eqb_spec x b).
Qed.
Definition hi_ok (n m : node D) : Prop := same_place n m /\ items_last n = items_last m.
Lemma split_loop_ok (A B xs : list nat) hi lo (less : L -> bool) : NoDup (A ++ xs ++ B) -> lo <> hi ->
  forall fuel u m z tc, xs = u ++ m ++ z -> items tc = A ++ xs ++ B -> length m < fuel ->
  items_first (node_at tc hi) = hd_error (m ++ z ++ B) -> n_items (node_at tc hi) = length (m ++ z) ->
  items_first (node_at tc lo) = hd_error u -> items_last (node_at tc lo) = last_error u -> n_items (node_at tc lo) = length u ->
  (forall x, In x u -> less (item_at tc x) = true) -> (forall x, In x z -> less (item_at tc x) = false) ->
  exists t' u' w', split_loop tc fuel less hi lo (last_error (A ++ u ++ m)) = Some t' /\ xs = u' ++ w' /\ nodes t' = nodes tc /\ items t' = items tc /\
    (forall x, x <> hi -> x <> lo -> node_at t' x = node_at tc x) /\
    hi_ok (node_at t' hi) (node_at tc hi) /\ items_first (node_at t' hi) = hd_error (w' ++ B) /\ n_items (node_at t' hi) = length w' /\
    same_place (node_at t' lo) (node_at tc lo) /\ items_first (node_at t' lo) = hd_error u' /\ items_last (node_at t' lo) = last_error u' /\ n_items (node_at t' lo) = length u' /\
    (forall x, In x u' -> less (item_at t' x) = true) /\ (forall x, In x w' -> less (item_at t' x) = false) /\
    Permutation (map (item_at t') xs) (map (item_at tc) xs) /\ (forall x, ~ In x xs -> item_at t' x = item_at tc x).
Proof.
  intros ND Nlh. induction fuel as [|fuel IH]; intros u m z tc Ex Ei F H1 H2 G1 G2 G3 Lu Lz; [lia|]. cbn [split_loop].
  assert (Ei2 : items tc = (A ++ u) ++ m ++ z ++ B) by (rewrite Ei, Ex, <- !app_assoc; reflexivity).
  assert (ND2 : NoDup ((A ++ u) ++ m ++ z ++ B)) by (rewrite <- Ei2, Ei; assumption).
  rewrite H1, Ei2, before_ok by assumption.
  destruct (last_cases m) as [[-> _]|(m0 & k & Em & _)].
  - rewrite app_nil_r, ref_eqb_refl. exists tc, u, z. cbn [app] in *. split; [reflexivity|].
    unfold hi_ok, same_place. repeat (split; [first [assumption|reflexivity|now repeat split]|]). reflexivity.
  - assert (Elast : last_error (A ++ u ++ m) = Some k) by (rewrite Em, !app_assoc; apply last_snoc). rewrite Elast.
    rewrite ref_eqb_neq.
    2: { intros E. symmetry in E. apply last_in in E. destruct (nodup_parts _ _ ND2) as (_ & _ & Dj). apply (Dj k E). rewrite Em, !in_app_iff. left. right. now left. }
    assert (exists first m1, m = first :: m1) as (first & m1 & Ecm) by (destruct m; [destruct m0; discriminate|eauto]).
    assert (hd_error (m ++ z ++ B) = Some first) as -> by (now rewrite Ecm).
    destruct (less (item_at tc k)) eqn:Lk.
    + (* an item for the lower node *)
      rewrite Ecm in *. clear Ecm. cbn [app] in ND2 |- *. rewrite after_nd by assumption.
      set (tn := mkTree _ _ _ _).
      destruct (IH (u ++ [first]) m1 z tn) as (t' & u' & w' & Run & Eu & En & Eit & Out & Hh & Hf & Hn & Hl & Hlf & Hll & Hln & Pu & Pw & Pm & Po).
      * rewrite Ex, <- !app_assoc. reflexivity.
      * unfold tn. cbn [items]. rewrite Ex, <- !app_assoc. reflexivity.
      * cbn in F. lia.
      * unfold tn. cbn [node_at]. rewrite upd_same. reflexivity.
      * unfold tn. cbn [node_at]. rewrite upd_same. cbn [with_items n_items]. rewrite H2. cbn. lia.
      * unfold tn. cbn [node_at]. rewrite upd_other, upd_same by assumption. cbn [with_items items_first]. rewrite G3, G1. destruct u; reflexivity.
      * unfold tn. cbn [node_at]. rewrite upd_other, upd_same by assumption. cbn [with_items items_last]. now rewrite last_snoc.
      * unfold tn. cbn [node_at]. rewrite upd_other, upd_same by assumption. cbn [with_items n_items]. rewrite G3, app_length. reflexivity.
      * intros x X. unfold tn. cbn [item_at]. apply in_app_iff in X. destruct X as [X|[<-|[]]]; [|now rewrite upd_same].
        assert (X1 : x <> first) by (intros ->; destruct (nodup_parts _ _ ND2) as (_ & _ & Dj); apply (Dj first); [apply in_app_iff; now right|now left]).
        rewrite upd_other by assumption. rewrite upd_other; [now apply Lu|]. intros ->.
        destruct (nodup_parts _ _ ND2) as (_ & _ & Dj). apply (Dj k); [apply in_app_iff; now right|].
        change (first :: m1 ++ z ++ B) with ((first :: m1) ++ z ++ B). rewrite Em, !in_app_iff. left. right. now left.
      * intros x X. unfold tn. cbn [item_at]. destruct (nodup_parts _ _ ND2) as (_ & N3 & _). change (first :: m1 ++ z ++ B) with ((first :: m1) ++ z ++ B) in N3.
        destruct (nodup_parts _ _ N3) as (_ & _ & Dj). rewrite upd_other, upd_other; [now apply Lz| |].
        -- intros ->. apply (Dj k); [rewrite Em, in_app_iff; right; now left|]. apply in_app_iff. now left.
        -- intros ->. apply (Dj first); [now left|]. apply in_app_iff. now left.
      * exists t', u', w'.
        assert (Earg : last_error (A ++ (u ++ [first]) ++ m1) = Some k) by (rewrite <- Elast; f_equal; rewrite <- !app_assoc; reflexivity).
        rewrite Earg in Run. split; [exact Run|]. split; [assumption|]. unfold tn in *. cbn [nodes items node_at item_at] in *.
        split; [assumption|]. split; [exact Eit|].
        split; [intros x X1 X2; rewrite Out, !upd_other by assumption; reflexivity|].
        rewrite upd_same in Hh. rewrite upd_other, upd_same in Hl by assumption.
        split; [destruct Hh as [Hh1 Hh2]; split; [exact Hh1|exact Hh2]|].
        repeat (split; [assumption|]). split.
        -- eapply perm_trans; [exact Pm|]. apply swap_permutes.
           ++ destruct (nodup_parts _ _ ND) as (_ & N3 & _). now apply nodup_parts in N3.
           ++ rewrite Ex, in_app_iff. right. now left.
           ++ rewrite Ex, Em, !in_app_iff. right. left. right. now left.
        -- intros x X. rewrite Po by assumption. rewrite !upd_other; [reflexivity| |].
           ++ intros ->. apply X. rewrite Ex, Em, !in_app_iff. right. left. right. now left.
           ++ intros ->. apply X. rewrite Ex, in_app_iff. right. now left.
    + (* an item that stays *)
      assert (Ei3 : (A ++ u) ++ m ++ z ++ B = (A ++ u ++ m0) ++ k :: z ++ B) by (rewrite Em, <- !app_assoc; reflexivity).
      assert (Hb : before ((A ++ u) ++ m ++ z ++ B) (Some k) = Some (last_error (A ++ u ++ m0))).
      { rewrite Ei3. change (Some k) with (hd_error (k :: z ++ B)). apply before_ok. now rewrite <- Ei3. }
      rewrite Hb. rewrite <- Ei2. apply (IH u m0 (k :: z) tc); try assumption.
      * rewrite Ex, Em, <- !app_assoc. reflexivity.
      * rewrite Em, app_length in F. cbn in F. lia.
      * rewrite H1, Em, <- !app_assoc. reflexivity.
      * rewrite H2, Em, <- !app_assoc. reflexivity.
      * intros x [<-|X]; [assumption|now apply Lz].
Qed.

Section Node.
Context {t : tree D L} {r : nat} {ch its : nat -> list nat} {gs ls : list nat} {dep : nat -> nat} (I : inv t r ch its gs ls dep).
(** Moving a part of the items of [k] to its empty sibling [lo], which is just before it. *)
Lemma inv_split t2 k lo p u w : In k (nodes t) -> In lo (nodes t) -> In p (nodes t) -> lo <> k -> ch k = [] -> ch lo = [] -> its lo = [] -> its k <> [] ->
  parent_of t lo = Some p -> parent_of t k = Some p -> its k = u ++ w ->
  nodes t2 = nodes t -> items t2 = items t -> (forall x, x <> k -> x <> lo -> node_at t2 x = node_at t x) ->
  same_place (node_at t2 k) (node_at t k) -> same_place (node_at t2 lo) (node_at t lo) ->
  items_first (node_at t2 lo) = hd_error u -> items_last (node_at t2 lo) = last_error u -> n_items (node_at t2 lo) = length u ->
  items_first (node_at t2 k) = hd_error w -> items_last (node_at t2 k) = last_error w -> n_items (node_at t2 k) = length w ->
  exists ls2, inv t2 r ch (upd (upd its lo u) k w) gs ls2 dep.
Proof.
  intros Hk Hlo Hp Nlk Ck Clo Ilo Nk Plo Pk Ei En Eit Out Sk Sl F1 F2 F3 G1 G2 G3.
  pose proof (i_ls_all _ _ _ _ _ _ _ I k Hk Nk) as Kl. destruct (in_split _ _ Kl) as (l1 & l2 & El).
  pose proof (i_ls _ _ _ _ _ _ _ I) as NL.
  assert (Lol : ~ In lo ls) by (intros G; apply (i_ls_in _ _ _ _ _ _ _ I) in G; tauto).
  set (its2 := upd (upd its lo u) k w).
  assert (I2k : its2 k = w) by apply upd_same.
  assert (I2l : its2 lo = u) by (unfold its2; rewrite upd_other by assumption; apply upd_same).
  assert (I2o : forall x, x <> k -> x <> lo -> its2 x = its x) by (intros x X1 X2; unfold its2; now rewrite !upd_other).
  assert (Pl : forall x, same_place (node_at t2 x) (node_at t x)).
  { intros x. destruct (Nat.eq_dec x k) as [->|E1]; [assumption|]. destruct (Nat.eq_dec x lo) as [->|E2]; [assumption|]. rewrite Out by assumption. unfold same_place. now repeat split. }
  assert (Par : forall x, parent_of t2 x = parent_of t x) by (intros x; apply (Pl x)).
  assert (AncM : forall x l, In l (nodes t) -> ancestor t x l -> ancestor t2 x l) by (intros x l Hl; apply (ancestor_mono I); auto).
  assert (Len : length (its k) = length u + length w) by (rewrite Ei; apply app_length).
  assert (Up : forall x, ancestor t x k -> x <> k -> ancestor t x lo).
  { intros x Q N. inversion Q as [|? q Pq Q']; [congruence|]. assert (q = p) by congruence. subst q. now apply (ancestor_up t x lo p). }
  set (ml := (match u with [] => [] | _ => [lo] end) ++ (match w with [] => [] | _ => [k] end)).
  assert (Min : forall g, In g ml <-> (g = lo /\ u <> []) \/ (g = k /\ w <> [])).
  { intros g. unfold ml. rewrite in_app_iff. destruct u, w; cbn; intuition congruence. }
  assert (Mnd : NoDup ml).
  { unfold ml. destruct u, w; cbn; repeat constructor; cbn; intuition. }
  assert (Mcat : concat (map its2 ml) = its k).
  { unfold ml. destruct u, w; cbn [app map concat]; rewrite ?I2k, ?I2l, ?Ei, ?app_nil_r; reflexivity. }
  assert (Lin : forall g, In g (l1 ++ ml ++ l2) <-> (In g ls /\ g <> k) \/ In g ml).
  { intros g. rewrite El, !in_app_iff. cbn. rewrite El in NL. apply nodup_mid in NL. destruct NL as [N1 N2].
    split; [|intuition congruence]. intros [G|[G|G]]; [|tauto|]; (left; split; [tauto|intros ->; contradiction]). }
  exists (l1 ++ ml ++ l2). fold its2. constructor.
  - rewrite En. apply (i_nodes _ _ _ _ _ _ _ I).
  - rewrite En. apply (i_nd _ _ _ _ _ _ _ I).
  - apply (i_gs _ _ _ _ _ _ _ I).
  - rewrite En. apply (i_gs_in _ _ _ _ _ _ _ I).
  - rewrite En. apply (i_gs_all _ _ _ _ _ _ _ I).
  - rewrite Par. apply (i_root _ _ _ _ _ _ _ I).
  - rewrite En. intros x X. destruct (Pl x) as (_ & -> & -> & -> & _). now apply (i_ch _ _ _ _ _ _ _ I).
  - rewrite En. intros x c X C. rewrite Par. now apply (i_par _ _ _ _ _ _ _ I).
  - rewrite Eit, (i_items _ _ _ _ _ _ _ I), El, groups_split, !map_app, !concat_app, Mcat.
    rewrite El in NL, Lol. apply nodup_mid in NL. rewrite in_app_iff in Lol. cbn in Lol.
    f_equal; [|f_equal]; f_equal; apply map_ext_in; intros g G; symmetry; apply I2o; intros ->; tauto.
  - rewrite Eit. apply (i_ind _ _ _ _ _ _ _ I).
  - rewrite El in NL, Lol. rewrite in_app_iff in Lol. cbn in Lol.
    destruct (nodup_mid _ _ _ NL) as [K1 K2]. pose proof (NoDup_remove_1 _ _ _ NL) as NL'. destruct (nodup_parts _ _ NL') as (N1 & N2 & Dj).
    apply (Permutation_NoDup (l := ml ++ l1 ++ l2)).
    + rewrite !app_assoc. apply Permutation_app_tail. apply Permutation_app_comm.
    + apply nodup_join; [assumption|assumption|]. intros g G. apply Min in G. rewrite in_app_iff. destruct G as [[-> _]|[-> _]]; tauto.
  - rewrite En. intros g G. apply Lin in G. destruct G as [[G N]|G].
    + assert (g <> lo) by (intros ->; contradiction). rewrite I2o by assumption. now apply (i_ls_in _ _ _ _ _ _ _ I).
    + apply Min in G. destruct G as [[-> G]|[-> G]]; [rewrite I2l|rewrite I2k]; tauto.
  - rewrite En. intros g G1' G2'. apply Lin. destruct (Nat.eq_dec g k) as [->|E1]; [right; apply Min; right; rewrite I2k in G2'; tauto|].
    destruct (Nat.eq_dec g lo) as [->|E2]; [right; apply Min; left; rewrite I2l in G2'; tauto|].
    left. rewrite I2o in G2' by assumption. split; [now apply (i_ls_all _ _ _ _ _ _ _ I)|assumption].
  - rewrite En. intros x X C. unfold items_in. destruct (Nat.eq_dec x k) as [->|E1]; [rewrite I2k; tauto|].
    destruct (Nat.eq_dec x lo) as [->|E2]; [rewrite I2l; tauto|]. rewrite Out, I2o by assumption. now apply (i_leaf _ _ _ _ _ _ _ I).
  - rewrite En. intros x X C. assert (E1 : x <> k) by congruence. assert (E2 : x <> lo) by congruence. rewrite I2o by assumption.
    destruct (i_int _ _ _ _ _ _ _ I x X C) as [T1 T2]. split; [assumption|]. unfold items_in at 1. rewrite Out by assumption. fold (items_in t x). rewrite T2.
    assert (Oth : forall y, y <> k -> y <> lo -> items_in t y = items_in t2 y) by (intros y Y1 Y2; unfold items_in; now rewrite Out).
    assert (Nch : NoDup (ch x)).
    { destruct (group I x X C) as (g1 & g2 & _ & Eg). pose proof (i_nd _ _ _ _ _ _ _ I) as N0. rewrite Eg in N0. apply nodup_parts in N0. destruct N0 as (_ & N0 & _). now apply nodup_parts in N0. }
    destruct (Nat.eq_dec x p) as [->|E3].
    + assert (Ik : In k (ch p)).
      { destruct (parent_spec I k Hk) as [[_ Q]|(q & Q & _ & Q2 & _)]; [congruence|]. now assert (q = p) as <- by congruence. }
      assert (Il : In lo (ch p)).
      { destruct (parent_spec I lo Hlo) as [[_ Q]|(q & Q & _ & Q2 & _)]; [congruence|]. now assert (q = p) as <- by congruence. }
      assert (Zl : items_in t lo = 0) by (destruct (i_leaf _ _ _ _ _ _ _ I lo Hlo Clo) as (_ & _ & ->); now rewrite Ilo).
      assert (Zk : items_in t k = length u + length w) by (destruct (i_leaf _ _ _ _ _ _ _ I k Hk Ck) as (_ & _ & ->); assumption).
      destruct (in_split _ _ Il) as (c1 & c2 & Ec). rewrite Ec in *. apply in_mid in Ik. destruct Ik as [Ik|Ik]; [congruence|].
      destruct (in_split _ _ Ik) as (d1 & d2 & Ed).
      assert (Pm : Permutation (c1 ++ lo :: c2) (lo :: k :: d1 ++ d2)).
      { etransitivity; [symmetry; apply Permutation_middle|]. constructor. rewrite Ed. symmetry. apply Permutation_middle. }
      assert (Sum : forall f, list_sum (map f (c1 ++ lo :: c2)) = f lo + f k + list_sum (map f (d1 ++ d2))).
      { intros f. transitivity (list_sum (map f (lo :: k :: d1 ++ d2))); [|cbn; unfold list_sum; lia].
        apply (Permutation_map f) in Pm. clear - Pm. induction Pm; cbn in *; unfold list_sum in *; cbn in *; lia. }
      rewrite !Sum, Zl, Zk. unfold items_in at 2 3. rewrite F3, G3.
      rewrite (map_ext_in (items_in t) (items_in t2) (d1 ++ d2)); [lia|].
      assert (Nd2 : NoDup (lo :: k :: d1 ++ d2)) by (now apply (Permutation_NoDup Pm)).
      apply NoDup_cons_iff in Nd2. destruct Nd2 as [M1 Nd3]. apply NoDup_cons_iff in Nd3. destruct Nd3 as [M2 _]. cbn in M1.
      intros y Y. apply Oth; intros ->; tauto.
    + f_equal. apply map_ext_in. intros y Y. apply Oth; intros ->; destruct (i_par _ _ _ _ _ _ _ I x _ X Y) as [Q _]; congruence.
  - rewrite En. intros x X Z. unfold items_in in Z. destruct (Nat.eq_dec x k) as [->|E1].
    { rewrite G3 in Z. rewrite G1, G2. destruct w; [now split|discriminate]. }
    destruct (Nat.eq_dec x lo) as [->|E2].
    { rewrite F3 in Z. rewrite F1, F2. destruct u; [now split|discriminate]. }
    rewrite Out in * by assumption. now apply (i_zero _ _ _ _ _ _ _ I).
  - rewrite En. intros x X Z. unfold items_in in Z. destruct (Nat.eq_dec x k) as [->|E1].
    { exists k. rewrite I2k, G1. rewrite G3 in Z. split; [assumption|]. split; [intros ->; cbn in Z; lia|]. split; [reflexivity|constructor]. }
    destruct (Nat.eq_dec x lo) as [->|E2].
    { exists lo. rewrite I2l, F1. rewrite F3 in Z. split; [assumption|]. split; [intros ->; cbn in Z; lia|]. split; [reflexivity|constructor]. }
    rewrite Out in * by assumption. destruct (i_head _ _ _ _ _ _ _ I x X Z) as (l & Hl & Nl & Elh & Al).
    destruct (Nat.eq_dec l k) as [->|E3].
    + destruct (list_eq_dec Nat.eq_dec u []) as [Eu|Eu].
      * exists k. rewrite I2k, Elh, Ei, Eu. cbn [app]. split; [assumption|]. split; [rewrite Ei, Eu in Nk; exact Nk|]. split; [reflexivity|now apply AncM].
      * exists lo. rewrite I2l, Elh, Ei, hd_app by assumption. split; [assumption|]. split; [assumption|]. split; [reflexivity|]. apply AncM; [assumption|]. now apply Up.
    + assert (l <> lo) by (intros ->; congruence). exists l. rewrite I2o by assumption. split; [assumption|]. split; [assumption|]. split; [assumption|now apply AncM].
Qed.
End Node.
End Split.
