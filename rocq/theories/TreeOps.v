From Coq Require Import List Arith Bool Lia Permutation.
From Verif Require Import TreeModel TreeSpec TreeProofs TreeInv.
Import ListNotations.

Section Ops.
Context {D L : Type}.
Implicit Types t : tree D L.
Lemma inv_data t r ch its gs ls dep k d : inv t r ch its gs ls dep -> inv (set_data t k d) r ch its gs ls dep.
Proof.
  intros I.
  assert (Sm : forall x, parent (node_at (set_data t k d) x) = parent (node_at t x) /\ child_first (node_at (set_data t k d) x) = child_first (node_at t x) /\ child_last (node_at (set_data t k d) x) = child_last (node_at t x)
    /\ items_first (node_at (set_data t k d) x) = items_first (node_at t x) /\ items_last (node_at (set_data t k d) x) = items_last (node_at t x) /\ n_items (node_at (set_data t k d) x) = n_items (node_at t x) /\ n_children (node_at (set_data t k d) x) = n_children (node_at t x)).
  { intros x. unfold set_data, set_node. cbn [node_at]. unfold upd. destruct (Nat.eqb_spec x k) as [->|_]; repeat split; reflexivity. }
  assert (Sn : forall x, items_in (set_data t k d) x = items_in t x) by (intros x; apply (Sm x)).
  assert (Sp : forall x, parent_of (set_data t k d) x = parent_of t x) by (intros x; apply (Sm x)).
  constructor; try (now destruct I).
  - rewrite Sp. now destruct I.
  - intros p H. destruct (Sm p) as (_ & -> & -> & _ & _ & _ & ->). now apply (i_ch _ _ _ _ _ _ _ I).
  - intros p c H C. rewrite Sp. now apply (i_par _ _ _ _ _ _ _ I).
  - intros p H C. rewrite Sn. destruct (Sm p) as (_ & _ & _ & -> & -> & _). now apply (i_leaf _ _ _ _ _ _ _ I).
  - intros p H C. rewrite Sn, (map_ext _ _ Sn). now apply (i_int _ _ _ _ _ _ _ I).
  - intros p H C. rewrite Sn in C. destruct (Sm p) as (_ & _ & _ & -> & -> & _). now apply (i_zero _ _ _ _ _ _ _ I).
  - intros p H C. rewrite Sn in C. destruct (i_head _ _ _ _ _ _ _ I p H C) as (l & Hl & N & E & A). exists l. repeat split; auto.
    + destruct (Sm p) as (_ & _ & _ & -> & _). exact E.
    + clear - A Sp. induction A as [|k0 q P A IH]; [constructor|]. apply (ancestor_up _ p k0 q); [now rewrite Sp|assumption].
Qed.
(** ** Inserting a node *)
Lemma insert_length l pos x : length (insert_at l pos x) = S (length l).
Proof. induction l as [|y l IH]; cbn; [reflexivity|]. destruct (match pos with Some y0 => y =? y0 | None => false end); cbn; [reflexivity|]. now rewrite IH. Qed.
Lemma ref_hd_neq (a b : list nat) x : NoDup (a ++ b) -> In x a -> hd_error b <> Some x.
Proof. intros N H E. destruct (nodup_parts _ _ N) as (_ & _ & Dj). apply (Dj x H). now apply hd_in. Qed.
Section Child.
Context {t : tree D L} {r : nat} {ch its : nat -> list nat} {gs ls : list nat} {dep : nat -> nat} (I : inv t r ch its gs ls dep).
Context (p : nat) (Hp : In p (nodes t)) (a b : list nat) (Hc : ch p = a ++ b) (e : ref) (He : end_ t p = Some e) (d : D).
Let new := fresh (nodes t).
Let ch' := upd (upd ch new []) p (a ++ new :: b).
Let its' := match ch p with [] => upd (upd its new (its p)) p [] | _ => upd its new [] end.
Let ls' := match ch p with [] => map (fun l => if l =? p then new else l) ls | _ => ls end.
Let dep' := upd dep new (S (dep p)).
(** What the function does to the nodes. *)
Definition child_result (t' : tree D L) : Prop :=
  items t' = items t /\ item_at t' = item_at t /\
  (forall x, x <> new -> x <> p -> node_at t' x = node_at t x) /\
  (let n := node_at t' p in parent n = parent (node_at t p) /\ child_first n = hd_error (a ++ new :: b) /\ child_last n = last_error (a ++ new :: b) /\ n_children n = length (a ++ new :: b)
    /\ items_first n = items_first (node_at t p) /\ items_last n = items_last (node_at t p) /\ n_items n = n_items (node_at t p) /\ data n = data (node_at t p)) /\
  (let n := node_at t' new in parent n = Some p /\ child_first n = None /\ child_last n = None /\ n_children n = 0 /\ data n = d /\
    match ch p with [] => items_first n = items_first (node_at t p) /\ items_last n = items_last (node_at t p) /\ n_items n = n_items (node_at t p) | _ => items_first n = None /\ items_last n = None /\ n_items n = 0 end).
Lemma new_out : ~ In new (nodes t).
Proof. apply fresh_not. Qed.
Lemma new_p : new <> p.
Proof. intros E. apply new_out. now rewrite E. Qed.
Lemma insert_child_runs : exists t' gs', insert_child_node t p (position b e) d = Some (t', Some new) /\ child_result t' /\
  nodes t' = r :: concat (map ch' gs') /\ NoDup gs' /\ (forall g, In g gs' <-> In g gs \/ g = p) /\ (forall x, In x (nodes t') <-> In x (nodes t) \/ x = new).
Proof.
  pose proof (i_nd _ _ _ _ _ _ _ I) as ND. pose proof (i_gs _ _ _ _ _ _ _ I) as NG.
  assert (Gn : ~ In new gs) by (intros G; apply new_out; now apply (i_gs_in _ _ _ _ _ _ _ I)).
  destruct (i_ch _ _ _ _ _ _ _ I p Hp) as (F1 & F2 & F3).
  unfold insert_child_node. rewrite He.
  destruct (list_eq_dec Nat.eq_dec (ch p) []) as [C|C].
  - (* a leaf *)
    assert (a = [] /\ b = []) as [Ea Eb] by (apply app_eq_nil; congruence). rewrite Eb. cbn [position].
    assert (e = None) as -> by (rewrite (end_leaf I p Hp C) in He; congruence).
    assert (R : hd_error (nodes t) = Some r) by (now rewrite (i_nodes _ _ _ _ _ _ _ I)). rewrite R. cbn [ref_eqb negb andb].
    rewrite F3, C. cbn [length Nat.eqb].
    destruct (node_successor_ok I p Hp) as (pos & -> & g1 & g2 & Eg & ->).
    assert (Pg : ~ In p gs) by (intros G; apply (i_gs_in _ _ _ _ _ _ _ I) in G; tauto).
    assert (En : nodes t = (r :: concat (map ch g1)) ++ concat (map ch g2)).
    { rewrite (i_nodes _ _ _ _ _ _ _ I), Eg, map_app, concat_app. reflexivity. }
    assert (Ei : insert_at (nodes t) (hd_error (concat (map ch g2))) new = (r :: concat (map ch g1)) ++ new :: concat (map ch g2)).
    { rewrite En. apply insert_ok. now rewrite <- En. }
    fold new. rewrite F1, C. cbn [hd_error last_error rev ref_eqb].
    eexists _, (g1 ++ p :: g2). split; [reflexivity|]. rewrite Eg in *.
    assert (P1 : ~ In p g1 /\ ~ In p g2 /\ ~ In new g1 /\ ~ In new g2).
    { rewrite !in_app_iff in *. tauto. }
    destruct P1 as (P1 & P2 & N1 & N2).
    split; [|split; [|split; [|split]]].
    + unfold child_result. rewrite C. cbn [items item_at set_node set_nodes node_at].
      split; [reflexivity|]. split; [reflexivity|]. split.
      { intros x X1 X2. now rewrite !upd_other. }
      rewrite upd_same, (upd_other _ p _ new) by apply new_p. rewrite upd_same.
      rewrite Ea, Eb. unfold last_error. cbn. now repeat split.
    + cbn [nodes set_node set_nodes]. rewrite Ei, map_app, concat_app. cbn [map concat].
      unfold ch'. rewrite (map_upd_out _ p _ g1), (map_upd_out _ p _ g2), (map_upd_out _ new _ g1), (map_upd_out _ new _ g2) by assumption.
      rewrite upd_same, Ea, Eb. reflexivity.
    + now apply nodup_insert.
    + intros g. rewrite in_mid. tauto.
    + intros x. cbn [nodes set_node set_nodes]. rewrite Ei, in_mid, <- En. tauto.
  - (* a node with children *)
    destruct (group I p Hp C) as (g1 & g2 & Eg & En). destruct (end_ok I p g1 g2 Hp C En) as [He' _].
    assert (e = hd_error (concat (map ch g2))) as -> by congruence. clear He He'.
    assert (Epos : position b (hd_error (concat (map ch g2))) = hd_error (b ++ concat (map ch g2))) by (now destruct b).
    rewrite Epos. set (A := r :: concat (map ch g1)) in *. set (B := concat (map ch g2)) in *.
    assert (En' : nodes t = (A ++ a) ++ b ++ B) by (rewrite En, Hc, <- !app_assoc; reflexivity).
    pose proof ND as ND'. rewrite En' in ND'.
    rewrite ref_eqb_neq.
    2: { rewrite En. unfold A. cbn [app hd_error]. apply (ref_hd_neq (A ++ a) (b ++ B)); [assumption|now left]. }
    assert (Gd : (match hd_error (b ++ B) with Some n => negb (ref_eqb (parent (node_at t n)) (Some p)) | None => true end) && negb (ref_eqb (hd_error (b ++ B)) (hd_error B)) = false).
    { destruct b as [|c b']; cbn [app].
      - rewrite ref_eqb_refl. apply andb_false_r.
      - cbn [hd_error]. destruct (i_par _ _ _ _ _ _ _ I p c Hp) as [P _]; [rewrite Hc, in_app_iff; right; now left|].
        unfold parent_of in P. rewrite P, ref_eqb_refl. reflexivity. }
    rewrite Gd. rewrite F3. destruct (Nat.eqb_spec (length (ch p)) 0) as [Z|_]; [destruct (ch p); [congruence|discriminate]|].
    assert (Ei : insert_at (nodes t) (hd_error (b ++ B)) new = (A ++ a) ++ new :: b ++ B) by (rewrite En'; now apply insert_ok).
    fold new. eexists _, gs. split; [reflexivity|].
    assert (Pg : In p gs) by (now apply (i_gs_all _ _ _ _ _ _ _ I)).
    split; [|split; [|split; [|split]]].
    + unfold child_result. cbn [items item_at set_node set_nodes node_at].
      split; [reflexivity|]. split; [reflexivity|]. split.
      { intros x X1 X2. now rewrite !upd_other. }
      rewrite upd_same, (upd_other _ p _ new) by apply new_p. rewrite upd_same. cbv zeta. rewrite F1, F2. cbn [with_children parent child_first child_last items_first items_last n_items n_children data new_node_rec].
      split; [|destruct (ch p); [congruence|now repeat split]].
      split; [reflexivity|]. split; [|split; [|split; [|now repeat split]]].
      * rewrite Hc. destruct a as [|a0 a'] eqn:Ea.
        -- cbn [app hd_error]. destruct b as [|b0 b'] eqn:Eb; [exfalso; apply C; rewrite Hc; rewrite ?Ea, ?Eb; reflexivity|]. cbn [app hd_error]. now rewrite ref_eqb_refl.
        -- cbn [app hd_error]. rewrite ref_eqb_neq; [reflexivity|]. apply (ref_hd_neq (A ++ a0 :: a')); [assumption|].
           rewrite in_app_iff. right. now left.
      * rewrite Hc. destruct b as [|b0 b'].
        -- cbn [app]. rewrite ref_eqb_refl. symmetry. apply last_snoc.
        -- cbn [app hd_error]. rewrite ref_eqb_neq.
           ++ change (new :: b0 :: b') with ([new] ++ b0 :: b'). rewrite !last_app by discriminate. reflexivity.
           ++ intros E. symmetry in E. revert E. apply (ref_hd_neq (A ++ a ++ b0 :: b') B).
              ** rewrite <- !app_assoc in *. exact ND'.
              ** rewrite !in_app_iff. right. right. now left.
      * rewrite Hc, !app_length. cbn. lia.
    + cbn [nodes set_node set_nodes]. rewrite Ei. rewrite Eg, groups_split.
      assert (Q : ~ In p g1 /\ ~ In p g2) by (rewrite Eg in NG; now apply nodup_mid in NG).
      assert (N1 : ~ In new g1 /\ ~ In new g2) by (rewrite Eg, in_app_iff in Gn; cbn in Gn; tauto).
      unfold ch'. rewrite (map_upd_out _ p _ g1), (map_upd_out _ p _ g2), (map_upd_out _ new _ g1), (map_upd_out _ new _ g2) by tauto.
      rewrite upd_same. unfold A, B. rewrite <- !app_assoc. reflexivity.
    + assumption.
    + intros g. split; [tauto|]. intros [G| ->]; assumption.
    + intros x. cbn [nodes set_node set_nodes]. rewrite Ei, in_mid, <- En'. tauto.
Qed.
Lemma insert_child_ok : exists t' gs', insert_child_node t p (position b e) d = Some (t', Some new) /\ child_result t' /\ (forall x, In x (nodes t') <-> In x (nodes t) \/ x = new)
  /\ inv t' r ch' its' gs' ls' dep'.
Proof.
  destruct insert_child_runs as (t' & gs' & Run & Res & En & NG & Gs & Nin). exists t', gs'. split; [assumption|]. split; [assumption|]. split; [assumption|].
  pose proof Res as (Ei & Ea & Eo & (P1 & P2 & P3 & P4 & P5 & P6 & P7 & _) & (Q1 & Q2 & Q3 & Q4 & _ & Q5)).
  pose proof new_out as NO. pose proof new_p as NP.
  assert (Par : forall y, In y (nodes t) -> parent_of t' y = parent_of t y).
  { intros y Y. unfold parent_of. destruct (Nat.eq_dec y p) as [->|E]; [assumption|]. rewrite Eo; [reflexivity| |assumption]. intros ->. contradiction. }
  assert (Chp : ch' p = a ++ new :: b) by (unfold ch'; apply upd_same).
  assert (Chn : ch' new = []) by (unfold ch'; rewrite upd_other by assumption; apply upd_same).
  assert (Cho : forall x, x <> p -> x <> new -> ch' x = ch x) by (intros x X1 X2; unfold ch'; now rewrite !upd_other).
  assert (Np : a ++ new :: b <> []) by (intros Z; apply app_eq_nil in Z; destruct Z; discriminate).
  assert (Cnt : forall x, In x (nodes t) -> items_in t' x = items_in t x).
  { intros x X. unfold items_in. destruct (Nat.eq_dec x p) as [->|E]; [assumption|]. rewrite Eo; [reflexivity| |assumption]. intros ->. contradiction. }
  assert (Fst : forall x, In x (nodes t) -> items_first (node_at t' x) = items_first (node_at t x) /\ items_last (node_at t' x) = items_last (node_at t x)).
  { intros x X. destruct (Nat.eq_dec x p) as [->|E]; [now split|]. rewrite Eo; [now split| |assumption]. intros ->. contradiction. }
  assert (Sub : forall x c, In x (nodes t) -> In c (ch x) -> In c (nodes t)) by (intros x c X C; now apply (child_in I x c)).
  assert (Ito : forall x, x <> p -> x <> new -> its' x = its x).
  { intros x X1 X2. unfold its'. destruct (ch p); now rewrite !upd_other. }
  (* the items of the new node and of p *)
  assert (Itn : its' new = match ch p with [] => its p | _ => [] end).
  { unfold its'. destruct (ch p); [rewrite upd_other by assumption|]; apply upd_same. }
  assert (Itp : its' p = []).
  { unfold its'. destruct (ch p) as [|c cs] eqn:C; [apply upd_same|]. rewrite upd_other by (intros Z; now apply NP).
    apply (i_int _ _ _ _ _ _ _ I p Hp). congruence. }
  assert (Rp : r <> new) by (intros Z; apply NO; rewrite <- Z; apply (root_in I)).
  constructor.
  - exact En.
  - rewrite En. (* from the permutation *)
    assert (X : forall y, In y (nodes t') -> True) by trivial. clear X.
    rewrite <- En.
    destruct (list_eq_dec Nat.eq_dec (nodes t') []) as [Z|_]; [rewrite Z; constructor|].
    (* nodes t' has the length of nodes t plus one, and covers it *)
    assert (Len : length (nodes t') = S (length (nodes t))).
    { clear - Run. unfold insert_child_node in Run. destruct (end_ t p); [|discriminate]. destruct (ref_eqb _ (hd_error _)); [discriminate|].
      destruct (_ && _); [destruct (position b e); discriminate|].
      destruct (if _ =? 0 then _ else _); [|discriminate]. injection Run as <-. cbn [nodes set_node set_nodes].
      apply insert_length. }
    assert (Pm : NoDup (new :: nodes t)) by (constructor; [assumption|apply (i_nd _ _ _ _ _ _ _ I)]).
    apply (@NoDup_incl_NoDup _ (new :: nodes t) (nodes t')); [assumption|cbn; lia|].
    intros x [<-|X]; apply Nin; tauto.
  - exact NG.
  - intros g G. apply Gs in G. destruct G as [G| ->].
    + destruct (i_gs_in _ _ _ _ _ _ _ I g G) as [G1 G2]. split; [apply Nin; tauto|].
      destruct (Nat.eq_dec g p) as [->|E]; [now rewrite Chp|]. rewrite Cho; [assumption|assumption|]. intros ->. contradiction.
    + split; [apply Nin; tauto|]. now rewrite Chp.
  - intros g G1 G2. apply Gs. destruct (Nat.eq_dec g p) as [->|E]; [tauto|]. left. apply Nin in G1. destruct G1 as [G1| ->]; [|congruence].
    apply (i_gs_all _ _ _ _ _ _ _ I); [assumption|]. rewrite Cho in G2; [assumption|assumption|]. intros ->. contradiction.
  - rewrite Par by apply (root_in I). apply (i_root _ _ _ _ _ _ _ I).
  - intros x X. apply Nin in X. destruct (Nat.eq_dec x p) as [->|E]; [rewrite Chp; tauto|].
    destruct (Nat.eq_dec x new) as [->|E']; [rewrite Chn; cbn; tauto|]. destruct X as [X| ->]; [|congruence].
    rewrite Eo, Cho by assumption. now apply (i_ch _ _ _ _ _ _ _ I).
  - intros x c X C. apply Nin in X. unfold dep'. destruct (Nat.eq_dec x p) as [->|E].
    + rewrite Chp in C. rewrite (upd_other _ new _ p) by (intros Z; now apply NP). apply in_mid in C. destruct C as [->|C].
      * rewrite upd_same. now split.
      * rewrite <- Hc in C. assert (Hcn : In c (nodes t)) by (now apply (Sub p)). rewrite Par by assumption. rewrite upd_other by (intros ->; contradiction).
        now apply (i_par _ _ _ _ _ _ _ I).
    + destruct (Nat.eq_dec x new) as [->|E']; [rewrite Chn in C; destruct C|]. destruct X as [X| ->]; [|congruence].
      rewrite Cho in C by assumption. assert (Hcn : In c (nodes t)) by (now apply (Sub x)). rewrite Par by assumption.
      rewrite !upd_other by (first [assumption|intros ->; contradiction]). now apply (i_par _ _ _ _ _ _ _ I).
  - rewrite Ei, (i_items _ _ _ _ _ _ _ I). f_equal. unfold ls'. destruct (ch p) as [|c cs] eqn:C.
    + rewrite map_map. apply map_ext_in. intros g G. destruct (i_ls_in _ _ _ _ _ _ _ I g G) as (G1 & _).
      destruct (Nat.eqb_spec g p) as [->|E]; [now rewrite Itn|]. symmetry. apply Ito; [assumption|]. intros ->. contradiction.
    + apply map_ext_in. intros g G. destruct (i_ls_in _ _ _ _ _ _ _ I g G) as (G1 & G2 & _). symmetry. apply Ito; [intros ->; congruence|intros ->; contradiction].
  - rewrite Ei. apply (i_ind _ _ _ _ _ _ _ I).
  - unfold ls'. destruct (ch p); [|apply (i_ls _ _ _ _ _ _ _ I)].
    pose proof (i_ls _ _ _ _ _ _ _ I) as N. assert (O : ~ In new ls) by (intros G; apply (i_ls_in _ _ _ _ _ _ _ I) in G; tauto). clear - N O.
    induction N as [|x l Nx N IH]; cbn; [constructor|]. cbn in O. constructor; [|apply IH; tauto].
    intros G. apply in_map_iff in G. destruct G as (y & Ey & Y). destruct (Nat.eqb_spec y p), (Nat.eqb_spec x p); subst; try tauto; congruence.
  - intros g G.
    assert (H : (ch p = [] /\ g = new /\ In p ls) \/ (In g ls /\ g <> p)).
    { unfold ls' in G. destruct (ch p) as [|c cs] eqn:C.
      - apply in_map_iff in G. destruct G as (y & Ey & Y). destruct (Nat.eqb_spec y p); subst; [left; tauto|right; tauto].
      - right. split; [assumption|]. intros ->. apply (i_ls_in _ _ _ _ _ _ _ I) in G. destruct G as (_ & G & _). congruence. }
    destruct H as [(C & -> & G')|[G' N]].
    + apply (i_ls_in _ _ _ _ _ _ _ I) in G'. split; [apply Nin; tauto|]. split; [assumption|]. rewrite Itn, C. tauto.
    + apply (i_ls_in _ _ _ _ _ _ _ I) in G'. destruct G' as (G1 & G2 & G3). assert (g <> new) by (intros ->; contradiction).
      split; [apply Nin; tauto|]. rewrite Cho, Ito by assumption. tauto.
  - intros g G1 G2. apply Nin in G1. destruct (Nat.eq_dec g p) as [->|E]; [congruence|].
    destruct (Nat.eq_dec g new) as [->|E'].
    + rewrite Itn in G2. destruct (ch p) as [|c cs] eqn:C; [|congruence]. unfold ls'.
      apply in_map_iff. exists p. rewrite Nat.eqb_refl. split; [reflexivity|]. now apply (i_ls_all _ _ _ _ _ _ _ I).
    + destruct G1 as [G1| ->]; [|congruence]. rewrite Ito in G2 by assumption. pose proof (i_ls_all _ _ _ _ _ _ _ I g G1 G2) as G.
      unfold ls'. destruct (ch p); [|assumption]. apply in_map_iff. exists g. split; [|assumption]. now destruct (Nat.eqb_spec g p).
  - intros x X C. apply Nin in X. destruct (Nat.eq_dec x p) as [->|E]; [congruence|].
    destruct (Nat.eq_dec x new) as [->|E'].
    + rewrite Itn. destruct (ch p) as [|c cs] eqn:Cp.
      * destruct Q5 as (-> & -> & E5). unfold items_in. rewrite E5. now apply (i_leaf _ _ _ _ _ _ _ I).
      * destruct Q5 as (-> & -> & E5). unfold items_in. rewrite E5. now repeat split.
    + destruct X as [X| ->]; [|congruence]. rewrite Ito by assumption. destruct (Fst x X) as [-> ->]. rewrite Cnt by assumption.
      rewrite Cho in C by assumption. now apply (i_leaf _ _ _ _ _ _ _ I).
  - intros x X C. apply Nin in X. destruct (Nat.eq_dec x p) as [->|E].
    + split; [assumption|]. rewrite Cnt, Chp by assumption. rewrite map_app, list_sum_app. cbn [map list_sum fold_right].
      destruct (ch p) as [|c cs] eqn:Cp.
      * symmetry in Hc. apply app_eq_nil in Hc. destruct Hc as [-> ->]. cbn. unfold items_in. destruct Q5 as (_ & _ & ->). lia.
      * destruct (i_int _ _ _ _ _ _ _ I p Hp ltac:(congruence)) as [_ ->]. rewrite Cp, Hc, map_app, list_sum_app.
        assert (Z0 : items_in t' new = 0) by (apply Q5). rewrite Z0.
        rewrite (map_ext_in (items_in t') (items_in t) a), (map_ext_in (items_in t') (items_in t) b); [unfold list_sum; lia| |];
          intros y Y; apply Cnt; apply (Sub p); try assumption; rewrite Cp, Hc, in_app_iff; tauto.
    + destruct (Nat.eq_dec x new) as [->|E']; [congruence|]. destruct X as [X| ->]; [|congruence].
      rewrite Ito, Cho in * by assumption. rewrite Cnt by assumption. destruct (i_int _ _ _ _ _ _ _ I x X C) as [-> ->]. split; [reflexivity|].
      f_equal. apply map_ext_in. intros y Y. symmetry. apply Cnt. now apply (Sub x).
  - intros x X Z. apply Nin in X. destruct (Nat.eq_dec x new) as [->|E'].
    + destruct (ch p) as [|c cs] eqn:Cp.
      * destruct Q5 as (-> & -> & E5). apply (i_zero _ _ _ _ _ _ _ I); [assumption|]. unfold items_in in *. congruence.
      * destruct Q5 as (-> & -> & E5). now split.
    + destruct X as [X| ->]; [|congruence]. destruct (Fst x X) as [-> ->]. rewrite Cnt in Z by assumption. now apply (i_zero _ _ _ _ _ _ _ I).
  - assert (Old : forall x, In x (nodes t) -> 0 < items_in t x -> exists l, In l (nodes t') /\ its' l <> [] /\ items_first (node_at t x) = hd_error (its' l) /\ ancestor t' x l).
    { intros x X Z. destruct (i_head _ _ _ _ _ _ _ I x X Z) as (l & Hl & Nl & El & Al).
      pose proof (ancestor_mono I t' x l Par Hl Al) as Al'.
      destruct (Nat.eq_dec l p) as [->|E].
      - assert (Cp : ch p = []) by (apply (i_ls_in _ _ _ _ _ _ _ I); now apply (i_ls_all _ _ _ _ _ _ _ I)).
        exists new. rewrite Itn, Cp. split; [apply Nin; tauto|]. split; [assumption|]. split; [assumption|]. now apply (ancestor_up t' x new p).
      - exists l. rewrite Ito; [|assumption|intros ->; contradiction]. split; [apply Nin; tauto|]. now repeat split. }
    intros x X Z. apply Nin in X. destruct (Nat.eq_dec x new) as [->|E'].
    + destruct (ch p) as [|c cs] eqn:Cp.
      * destruct Q5 as (F & _ & E5). unfold items_in in Z. rewrite E5 in Z. exists new. rewrite Itn. split; [apply Nin; tauto|].
        destruct (i_leaf _ _ _ _ _ _ _ I p Hp Cp) as (L1 & _ & L3). unfold items_in in L3. rewrite L3 in Z.
        split; [intros Y; rewrite Y in Z; cbn in Z; lia|]. rewrite F. split; [assumption|constructor].
      * unfold items_in in Z. destruct Q5 as (_ & _ & E5). lia.
    + destruct X as [X| ->]; [|congruence]. rewrite Cnt in Z by assumption. destruct (Fst x X) as [-> _]. now apply Old.
Qed.
End Child.
(** ** Inserting an item *)
Definition same_place (n m : node D) : Prop := parent n = parent m /\ child_first n = child_first m /\ child_last n = child_last m /\ n_children n = n_children m /\ data n = data m.
Section Item.
Context {t : tree D L} {r : nat} {ch its : nat -> list nat} {gs ls : list nat} {dep : nat -> nat} (I : inv t r ch its gs ls dep).
Lemma update_ok fuel k tc prev f l f' l' : In k (nodes t) -> dep k - dep r + 1 < fuel -> (forall x, ancestor t x k -> node_at tc x = node_at t x) ->
  exists t', update_loop tc fuel prev (Some k) f l f' l' 1 = Some t' /\ nodes t' = nodes tc /\ items t' = items tc /\ item_at t' = item_at tc /\
    (forall x, ~ ancestor t x k -> node_at t' x = node_at tc x) /\
    (forall x, ancestor t x k -> same_place (node_at t' x) (node_at t x) /\ n_items (node_at t' x) = n_items (node_at t x) + 1 /\
       (items_first (node_at t' x) = f' \/ (items_first (node_at t' x) = items_first (node_at t x) /\ items_first (node_at t x) <> f))) /\
    (child_first (node_at t k) = prev -> items_first (node_at t' k) = f') /\ (child_last (node_at t k) = prev -> items_last (node_at t' k) = l').
Proof.
  revert k tc prev. induction fuel as [|fuel IH]; intros k tc prev H F Same; [lia|]. cbn [update_loop].
  pose proof (Same k (ancestor_self t k)) as Ek. rewrite Ek.
  set (n' := if n_items (node_at t k) + 1 =? 0 then _ else _).
  assert (Pl : same_place n' (node_at t k) /\ n_items n' = n_items (node_at t k) + 1 /\ (items_first n' = f' \/ (items_first n' = items_first (node_at t k) /\ items_first (node_at t k) <> f))
     /\ (child_first (node_at t k) = prev -> items_first n' = f') /\ (child_last (node_at t k) = prev -> items_last n' = l')).
  { unfold n'. destruct (Nat.eqb_spec (n_items (node_at t k) + 1) 0); [lia|]. unfold with_items, same_place. cbn [parent child_first child_last items_first items_last n_items n_children data].
    split; [now repeat split|]. split; [reflexivity|]. split; [|split].
    - destruct (ref_eqb_spec (child_first (node_at t k)) prev); [now left|]. cbn [orb]. destruct (ref_eqb_spec (items_first (node_at t k)) f); [now left|right; now split].
    - intros ->. rewrite ref_eqb_refl. reflexivity.
    - intros ->. rewrite ref_eqb_refl. reflexivity. }
  clearbody n'. destruct (parent_spec I k H) as [[-> P]|(p & P & Hp & C & Dp)]; unfold parent_of in P; rewrite P.
  - destruct fuel as [|fuel]; [lia|]. cbn [update_loop]. eexists. split; [reflexivity|].
    cbn [set_node nodes items item_at node_at]. split; [reflexivity|]. split; [reflexivity|]. split; [reflexivity|]. split; [|split].
    + intros x A. apply upd_other. intros ->. apply A. constructor.
    + intros x A. inversion A as [|? q Q A']; subst; [|unfold parent_of in Q; congruence]. rewrite upd_same. tauto.
    + rewrite upd_same. tauto.
  - assert (Nk : forall x, ancestor t x p -> x <> k).
    { intros x A ->. destruct (ancestor_in I k p Hp A). lia. }
    destruct (IH p (set_node tc k n') (Some k)) as (t' & -> & En & Ei & Ea & Out & Anc & _).
    + assumption.
    + pose proof (depth_bound I p Hp). lia.
    + intros x A. cbn [set_node node_at]. rewrite upd_other by (now apply Nk). apply Same. now apply (ancestor_up t x k p).
    + assert (Kout : ~ ancestor t k p) by (intros A; now apply (Nk k A)).
      assert (Ekk : node_at t' k = n') by (rewrite (Out k Kout); cbn [set_node node_at]; apply upd_same).
      exists t'. split; [reflexivity|]. cbn [set_node nodes items item_at] in *. split; [assumption|]. split; [assumption|]. split; [assumption|]. split; [|split].
      * intros x A. rewrite Out.
        -- cbn [set_node node_at]. apply upd_other. intros ->. apply A. constructor.
        -- intros B. apply A. now apply (ancestor_up t x k p).
      * intros x A. destruct (Nat.eq_dec x k) as [->|Nx]; [rewrite Ekk; tauto|]. inversion A as [|? q Q A']; [congruence|]. assert (q = p) by (unfold parent_of in Q; congruence). subst q. now apply Anc.
      * rewrite Ekk. tauto.
Qed.
Context (k : nat) (Hk : In k (nodes t)) (Ck : ch k = []) (a b : list nat) (Hi : its k = a ++ b) (e : ref) (He : items_end t k = Some e) (v : L).
Let new := fresh (items t).
Let its' := upd its k (a ++ new :: b).
Definition item_result (t' : tree D L) : Prop :=
  nodes t' = nodes t /\ (forall x, x <> new -> item_at t' x = item_at t x) /\ item_at t' new = v /\
  (forall x, same_place (node_at t' x) (node_at t x)) /\
  (forall x, ~ ancestor t x k -> node_at t' x = node_at t x) /\
  (forall x, ancestor t x k -> n_items (node_at t' x) = n_items (node_at t x) + 1).
Lemma item_place : exists l1 l2 pos, items t = (concat (map its l1) ++ a) ++ b ++ concat (map its l2) /\ pos = hd_error (b ++ concat (map its l2)) /\
  (if n_items (node_at t k) =? 0 then item_successor t k else Some (position b e)) = Some pos /\ NoDup (l1 ++ k :: l2) /\ forall g, In g (l1 ++ k :: l2) <-> In g ls \/ g = k.
Proof.
  destruct (i_leaf _ _ _ _ _ _ _ I k Hk Ck) as (_ & _ & N). unfold items_in in N. rewrite N.
  pose proof (i_ls _ _ _ _ _ _ _ I) as NL.
  destruct (list_eq_dec Nat.eq_dec (its k) []) as [C|C].
  - assert (a = [] /\ b = []) as [Ea Eb] by (apply app_eq_nil; congruence). rewrite C, Ea, Eb. cbn [length Nat.eqb].
    destruct (item_successor_ok I k Hk) as (pos & E & l1 & l2 & El & Ep). exists l1, l2, pos.
    split; [rewrite (i_items _ _ _ _ _ _ _ I), El, map_app, concat_app, app_nil_r; reflexivity|]. split; [assumption|]. split; [assumption|].
    assert (Kl : ~ In k ls) by (intros G; apply (i_ls_in _ _ _ _ _ _ _ I) in G; tauto).
    rewrite El in *. split; [now apply nodup_insert|]. intros g. rewrite in_mid. tauto.
  - destruct (igroup I k Hk C) as (l1 & l2 & El & Ei). destruct (items_end_ok I k l1 l2 Hk C Ei) as [E1 _].
    assert (e = hd_error (concat (map its l2))) as -> by congruence.
    destruct (Nat.eqb_spec (length (its k)) 0) as [Z|_]; [destruct (its k); [congruence|discriminate]|].
    exists l1, l2, (hd_error (b ++ concat (map its l2))). split; [rewrite Ei, Hi, <- !app_assoc; reflexivity|]. split; [reflexivity|].
    split; [now destruct b|]. rewrite El in *. split; [assumption|]. intros g. split; [tauto|]. intros [G| ->]; [assumption|]. apply in_mid. now left.
Qed.
Lemma insert_item_ok : exists t' ls', insert_item t k (position b e) v = Some (t', Some new) /\ item_result t' /\ inv t' r ch its' gs ls' dep.
Proof.
  destruct item_place as (l1 & l2 & pos & Ei & Epos & Erun & NL & Lin).
  set (A := concat (map its l1)) in *. set (B := concat (map its l2)) in *.
  pose proof (i_ind _ _ _ _ _ _ _ I) as ND. rewrite Ei in ND.
  destruct (i_leaf _ _ _ _ _ _ _ I k Hk Ck) as (L1 & L2 & L3). pose proof L3 as L3'. unfold items_in in L3'.
  destruct (i_ch _ _ _ _ _ _ _ I k Hk) as (K1 & K2 & K3). rewrite Ck in K1, K2, K3.
  assert (NO : ~ In new (items t)) by apply fresh_not.
  assert (Eins : insert_at (items t) pos new = (A ++ a) ++ new :: b ++ B) by (rewrite Ei, Epos; now apply insert_ok).
  assert (ND' : NoDup ((A ++ a) ++ new :: b ++ B)) by (apply nodup_insert; [assumption|now rewrite <- Ei]).
  assert (Ebef : before ((A ++ a) ++ new :: b ++ B) (Some new) = Some (last_error (A ++ a))).
  { change (Some new) with (hd_error (new :: b ++ B)). now apply before_ok. }
  assert (Efirst : (if ref_eqb pos (items_first (node_at t k)) || (n_items (node_at t k) =? 0) then Some new else items_first (node_at t k)) = hd_error (a ++ new :: b)).
  { rewrite L3', L1, Hi, Epos. destruct a as [|a0 a'] eqn:Ea.
    - destruct b as [|b0 b'] eqn:Eb; cbn [app hd_error length Nat.eqb]; [now rewrite orb_true_r|]. now rewrite ref_eqb_refl.
    - cbn [app hd_error length Nat.eqb]. rewrite orb_false_r, ref_eqb_neq; [reflexivity|].
      apply (ref_hd_neq (A ++ a0 :: a') (b ++ B)); [rewrite ?Ea in ND; exact ND|]. apply in_app_iff. right. now left. }
  assert (Elast : (if ref_eqb (last_error (A ++ a)) (items_last (node_at t k)) || (n_items (node_at t k) =? 0) then Some new else items_last (node_at t k)) = last_error (a ++ new :: b)).
  { rewrite L3', L2, Hi. destruct (list_eq_dec Nat.eq_dec b []) as [Eb|Eb].
    - rewrite Eb, app_nil_r, last_snoc. destruct (list_eq_dec Nat.eq_dec a []) as [Ea|Ea].
      + rewrite Ea. cbn [length Nat.eqb]. now rewrite orb_true_r.
      + rewrite last_app by assumption. now rewrite ref_eqb_refl.
    - rewrite (last_app a b Eb). change (new :: b) with ([new] ++ b). rewrite app_assoc, (last_app (a ++ [new]) b Eb).
      rewrite ref_eqb_neq.
      + destruct (Nat.eqb_spec (length (a ++ b)) 0) as [Z|_]; [|reflexivity]. rewrite app_length in Z. destruct b; [congruence|cbn in Z; lia].
      + destruct (last_cases b) as [[Z _]|(b1 & y & Eb' & ->)]; [contradiction|]. intros E. apply last_in in E.
        destruct (nodup_parts _ _ ND) as (_ & _ & Dj). apply (Dj y E). rewrite Eb', !in_app_iff. left. right. now left. }
  unfold insert_item. rewrite K3. cbn [length Nat.ltb Nat.leb]. rewrite Erun. fold new. rewrite Eins, Ebef, Efirst, Elast.
  unfold update_boundary_items. cbn [nodes node_at]. rewrite L1, L2.
  destruct (update_ok (S (length (nodes t))) k (mkTree (nodes t) ((A ++ a) ++ new :: b ++ B) (node_at t) (upd (item_at t) new v)) None
     (hd_error (its k)) (last_error (its k)) (hd_error (a ++ new :: b)) (last_error (a ++ new :: b)) Hk) as (t' & -> & En & Ei' & Ea & Out & Anc & Fk & Lk).
  { pose proof (depth_bound I k Hk). lia. }
  { reflexivity. }
  cbn [nodes items item_at node_at] in *. specialize (Fk K1). specialize (Lk K2).
  assert (Pl : forall x, same_place (node_at t' x) (node_at t x)).
  { intros x. destruct (ancestor_dec I x k Hk) as [Q|Q]; [now apply Anc|]. rewrite Out by assumption. unfold same_place. now repeat split. }
  exists t', (l1 ++ k :: l2). split; [reflexivity|]. split.
  { unfold item_result. split; [assumption|]. rewrite Ea. split; [intros x X; now apply upd_other|]. split; [apply upd_same|]. split; [assumption|]. split; [assumption|].
    intros x X. now apply Anc. }
  assert (Par : forall x, parent_of t' x = parent_of t x) by (intros x; apply (Pl x)).
  assert (Itk : its' k = a ++ new :: b) by apply upd_same.
  assert (Ito : forall x, x <> k -> its' x = its x) by (intros x X; now apply upd_other).
  assert (Nn : a ++ new :: b <> []) by (intros Z; apply app_eq_nil in Z; destruct Z; discriminate).
  assert (AncM : forall x l, In l (nodes t) -> ancestor t x l -> ancestor t' x l) by (intros x l Hl; apply (ancestor_mono I); auto).
  constructor.
  - rewrite En. apply (i_nodes _ _ _ _ _ _ _ I).
  - rewrite En. apply (i_nd _ _ _ _ _ _ _ I).
  - apply (i_gs _ _ _ _ _ _ _ I).
  - rewrite En. apply (i_gs_in _ _ _ _ _ _ _ I).
  - rewrite En. apply (i_gs_all _ _ _ _ _ _ _ I).
  - rewrite Par. apply (i_root _ _ _ _ _ _ _ I).
  - rewrite En. intros x X. destruct (Pl x) as (_ & -> & -> & -> & _). now apply (i_ch _ _ _ _ _ _ _ I).
  - rewrite En. intros x c X C. rewrite Par. now apply (i_par _ _ _ _ _ _ _ I).
  - rewrite Ei', groups_split, Itk. apply nodup_mid in NL. unfold its'. rewrite !map_upd_out by tauto. fold A B. rewrite <- !app_assoc. reflexivity.
  - now rewrite Ei'.
  - exact NL.
  - rewrite En. intros g G. apply Lin in G. destruct (Nat.eq_dec g k) as [->|E]; [rewrite Itk; tauto|]. destruct G as [G| ->]; [|congruence].
    rewrite Ito by assumption. now apply (i_ls_in _ _ _ _ _ _ _ I).
  - rewrite En. intros g G1 G2. apply Lin. destruct (Nat.eq_dec g k) as [->|E]; [tauto|]. left. rewrite Ito in G2 by assumption. now apply (i_ls_all _ _ _ _ _ _ _ I).
  - rewrite En. intros x X C. destruct (Nat.eq_dec x k) as [->|E].
    + rewrite Itk. split; [assumption|]. split; [assumption|]. unfold items_in. destruct (Anc k (ancestor_self t k)) as (_ & -> & _). rewrite L3', Hi, !app_length. cbn. lia.
    + rewrite Ito by assumption. assert (NA : ~ ancestor t x k).
      { intros Q. destruct (ancestor_child I x k Hk Q E) as (c & Ic & _). now rewrite C in Ic. }
      unfold items_in. rewrite Out by assumption. now apply (i_leaf _ _ _ _ _ _ _ I).
  - rewrite En. intros x X C. assert (E : x <> k) by (intros ->; contradiction). rewrite Ito by assumption.
    destruct (i_int _ _ _ _ _ _ _ I x X C) as [T1 T2]. split; [assumption|].
    destruct (ancestor_dec I x k Hk) as [Q|Q].
    + unfold items_in at 1. destruct (Anc x Q) as (_ & -> & _). fold (items_in t x). rewrite T2. symmetry.
      destruct (ancestor_child I x k Hk Q E) as (c & Ic & Ac). apply (sum_plus1 _ _ _ c).
      * destruct (group I x X C) as (g1 & g2 & _ & Eg). pose proof (i_nd _ _ _ _ _ _ _ I) as N0. rewrite Eg in N0. apply nodup_parts in N0. destruct N0 as (_ & N0 & _). now apply nodup_parts in N0.
      * assumption.
      * unfold items_in. now apply Anc.
      * intros y Iy Ny. unfold items_in. rewrite Out; [reflexivity|]. intros Ay. apply Ny.
        apply (ancestor_same I y c k Hk Ay Ac). destruct (i_par _ _ _ _ _ _ _ I x y X Iy) as [_ ->]. destruct (i_par _ _ _ _ _ _ _ I x c X Ic) as [_ ->]. reflexivity.
    + unfold items_in at 1. rewrite Out by assumption. fold (items_in t x). rewrite T2. f_equal. apply map_ext_in. intros y Iy. unfold items_in. rewrite Out; [reflexivity|].
      intros Ay. apply Q. apply (ancestor_trans x y k); [|assumption]. apply (ancestor_up t x y x); [now apply (i_par _ _ _ _ _ _ _ I)|constructor].
  - rewrite En. intros x X Z. destruct (ancestor_dec I x k Hk) as [Q|Q].
    + unfold items_in in Z. destruct (Anc x Q) as (_ & E & _). lia.
    + unfold items_in in Z. rewrite Out in * by assumption. now apply (i_zero _ _ _ _ _ _ _ I).
  - rewrite En. intros x X Z. destruct (ancestor_dec I x k Hk) as [Q|Q].
    + destruct (Anc x Q) as (_ & _ & [E|[E Ne]]).
      * exists k. rewrite Itk. split; [assumption|]. split; [assumption|]. split; [assumption|]. now apply AncM.
      * assert (Zx : 0 < items_in t x).
        { destruct (Nat.eq_dec (items_in t x) 0) as [Z0|Z0]; [|lia]. exfalso. apply Ne. destruct (i_zero _ _ _ _ _ _ _ I x X Z0) as [-> _].
          pose proof (count_zero I x k Hk Q) as Le. rewrite L3 in Le. destruct (its k); [reflexivity|cbn in Le; lia]. }
        destruct (i_head _ _ _ _ _ _ _ I x X Zx) as (l & Hl & Nl & El & Al). exists l.
        assert (l <> k) by (intros ->; congruence). rewrite Ito by assumption. rewrite E. split; [assumption|]. split; [assumption|]. split; [assumption|]. now apply AncM.
    + rewrite Out by assumption. unfold items_in in Z. rewrite Out in Z by assumption.
      destruct (i_head _ _ _ _ _ _ _ I x X Z) as (l & Hl & Nl & El & Al). exists l.
      assert (l <> k) by (intros ->; contradiction). rewrite Ito by assumption. split; [assumption|]. split; [assumption|]. split; [assumption|]. now apply AncM.
Qed.
End Item.
End Ops.
