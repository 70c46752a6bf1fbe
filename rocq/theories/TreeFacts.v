From Coq Require Import List Arith Bool Lia Permutation.
From Verif Require Import TreeModel TreeSpec TreeProofs TreeInv TreeOps TreeSplit TreeErase.
Import ListNotations.

Section Facts.
Context {D L : Type}.
Implicit Types t : tree D L.
Definition valid t : Prop := exists r ch its gs ls dep, inv t r ch its gs ls dep.
Lemma valid_of t r ch its gs ls dep : inv t r ch its gs ls dep -> valid t.
Proof. intros I. now exists r, ch, its, gs, ls, dep. Qed.
Lemma leaf_count t r ch its gs ls dep k : inv t r ch its gs ls dep -> In k (nodes t) -> (node_count t k = 0 <-> ch k = []).
Proof. intros I H. unfold node_count. destruct (i_ch _ _ _ _ _ _ _ I k H) as (_ & _ & ->). apply length_zero_iff_nil. Qed.
Lemma hd_root t r ch its gs ls dep : inv t r ch its gs ls dep -> hd_error (nodes t) = Some r.
Proof. intros I. now rewrite (i_nodes _ _ _ _ _ _ _ I). Qed.
Lemma reachable_valid t : reachable t -> valid t.
Proof.
  induction 1 as [d v|t k d R IH|t p a b e d t' new R IH Hp Hc He Run|t k a b e v t' new R IH Hk Hi He Run|t k less d t' new R IH Hk Run|t p c t' R IH Hp Hc Cc Run].
  - exists 0, (fun _ => []), (fun _ => []), [], [], (fun _ => 0). apply inv_new.
  - destruct IH as (r & ch & its & gs & ls & dep & I). exists r, ch, its, gs, ls, dep. now apply inv_data.
  - destruct IH as (r & ch & its & gs & ls & dep & I). rewrite (children_ok I p Hp) in Hc. injection Hc as Hc.
    destruct (insert_child_ok I p Hp a b Hc e He d) as (t2 & gs' & Run2 & _ & _ & I2). rewrite Run in Run2. injection Run2 as <- _. exact (valid_of _ _ _ _ _ _ _ I2).
  - destruct IH as (r & ch & its & gs & ls & dep & I). destruct (list_eq_dec Nat.eq_dec (ch k) []) as [C|C].
    + rewrite (items_of_ok I k Hk C) in Hi. injection Hi as Hi.
      destruct (insert_item_ok I k Hk C a b Hi e He v) as (t2 & ls' & Run2 & _ & I2). rewrite Run in Run2. injection Run2 as <- _. exact (valid_of _ _ _ _ _ _ _ I2).
    + unfold insert_item in Run. destruct (i_ch _ _ _ _ _ _ _ I k Hk) as (_ & _ & N). rewrite N in Run. destruct (ch k) eqn:E; [congruence|]. cbn in Run. injection Run as <- _.
      exact (valid_of _ _ _ _ _ _ _ I).
  - destruct IH as (r & ch & its & gs & ls & dep & I).
    destruct (ref_eqb (Some k) (hd_error (nodes t)) || (0 <? n_children (node_at t k)) || (n_items (node_at t k) <? 2)) eqn:G.
    + unfold split in Run. rewrite G in Run. injection Run as <- _. exact (valid_of _ _ _ _ _ _ _ I).
    + apply orb_false_iff in G. destruct G as [G G3]. apply orb_false_iff in G. destruct G as [G1 G2]. rewrite (hd_root _ _ _ _ _ _ _ I) in G1.
      apply Nat.ltb_ge in G2, G3. destruct (ref_eqb_spec (Some k) (Some r)); [discriminate|].
      assert (C : ch k = []) by (apply (leaf_count _ _ _ _ _ _ _ _ I Hk); unfold node_count; lia).
      destruct (i_leaf _ _ _ _ _ _ _ I k Hk C) as (_ & _ & N). unfold items_in in N.
      destruct (split_ok I k less d Hk C) as (t2 & p & a & b & lo & u & w & ls' & gs' & dep' & Run2 & _ & _ & _ & _ & _ & I2 & _); [lia|congruence|].
      rewrite Run in Run2. injection Run2 as <- _. exact (valid_of _ _ _ _ _ _ _ I2).
  - destruct IH as (r & ch & its & gs & ls & dep & I). apply (leaf_count _ _ _ _ _ _ _ _ I Hc) in Cc.
    destruct (erase_ok I p c t' Hp Hc Cc Run) as (a & b & gs' & _ & _ & I2 & _). exact (valid_of _ _ _ _ _ _ _ I2).
Qed.
(** ** What the tree looks like *)
Lemma children_fact t k : reachable t -> In k (nodes t) -> exists cs, children t k = Some cs /\ length cs = node_count t k /\ NoDup cs /\ forall c, In c cs <-> In c (nodes t) /\ parent_of t c = Some k.
Proof.
  intros R H. destruct (reachable_valid t R) as (r & ch & its & gs & ls & dep & I). exists (ch k). split; [apply (children_ok I k H)|].
  split; [symmetry; apply (i_ch _ _ _ _ _ _ _ I k H)|]. split.
  - destruct (list_eq_dec Nat.eq_dec (ch k) []) as [->|C]; [constructor|]. destruct (group I k H C) as (g1 & g2 & _ & E).
    pose proof (i_nd _ _ _ _ _ _ _ I) as N. rewrite E in N. destruct (nodup_parts _ _ N) as (_ & N2 & _). now apply nodup_parts in N2.
  - intros c. split.
    + intros C. split; [now apply (child_in I k c)|]. now apply (i_par _ _ _ _ _ _ _ I k c).
    + intros [C P]. destruct (parent_spec I c C) as [[_ Q]|(q & Q & _ & Q2 & _)]; [congruence|]. now assert (q = k) as <- by congruence.
Qed.
Lemma connected_fact t : reachable t -> NoDup (nodes t) /\ exists r, root t = Some r /\ In r (nodes t) /\ parent_of t r = None /\ forall k, In k (nodes t) -> ancestor t r k.
Proof.
  intros R. destruct (reachable_valid t R) as (r & ch & its & gs & ls & dep & I). split; [apply I|]. exists r. split; [apply (hd_root _ _ _ _ _ _ _ I)|].
  split; [apply (root_in I)|]. split; [apply (i_root _ _ _ _ _ _ _ I)|].
  intros k. remember (dep k) as d eqn:E. revert k E. induction d as [|d IH]; intros k E H.
  - destruct (parent_spec I k H) as [[-> _]|(p & _ & _ & _ & F)]; [constructor|lia].
  - destruct (parent_spec I k H) as [[-> _]|(p & P & Hp & _ & F)]; [constructor|]. apply (ancestor_up t r k p P). apply IH; [lia|assumption].
Qed.
Lemma items_fact t k : reachable t -> In k (nodes t) ->
  (node_count t k = 0 -> exists xs, items_of t k = Some xs /\ length xs = item_count t k /\ NoDup xs) /\
  (forall cs, children t k = Some cs -> cs <> [] -> item_count t k = list_sum (map (item_count t) cs)).
Proof.
  intros R H. destruct (reachable_valid t R) as (r & ch & its & gs & ls & dep & I). split.
  - intros C. apply (leaf_count _ _ _ _ _ _ _ _ I H) in C. exists (its k). split; [now apply (items_of_ok I)|]. split; [symmetry; now apply (i_leaf _ _ _ _ _ _ _ I)|].
    destruct (list_eq_dec Nat.eq_dec (its k) []) as [->|E]; [constructor|]. destruct (igroup I k H E) as (l1 & l2 & _ & Ei).
    pose proof (i_ind _ _ _ _ _ _ _ I) as N. rewrite Ei in N. destruct (nodup_parts _ _ N) as (_ & N2 & _). now apply nodup_parts in N2.
  - intros cs E N. rewrite (children_ok I k H) in E. injection E as <-. now apply (i_int _ _ _ _ _ _ _ I).
Qed.
Lemma owned_fact t x : reachable t -> (In x (items t) <-> exists k xs, In k (nodes t) /\ node_count t k = 0 /\ items_of t k = Some xs /\ In x xs).
Proof.
  intros R. destruct (reachable_valid t R) as (r & ch & its & gs & ls & dep & I). rewrite (i_items _ _ _ _ _ _ _ I), in_groups. split.
  - intros (k & K & X). destruct (i_ls_in _ _ _ _ _ _ _ I k K) as (H & C & _). exists k, (its k). split; [assumption|].
    split; [now apply (leaf_count _ _ _ _ _ _ _ _ I H)|]. split; [now apply (items_of_ok I)|assumption].
  - intros (k & xs & H & C & E & X). apply (leaf_count _ _ _ _ _ _ _ _ I H) in C. rewrite (items_of_ok I k H C) in E. injection E as <-. exists k. split; [|assumption].
    apply (i_ls_all _ _ _ _ _ _ _ I); [assumption|]. intros Z. now rewrite Z in X.
Qed.
Lemma owned_once t x k l xs ys : reachable t -> In k (nodes t) -> In l (nodes t) -> node_count t k = 0 -> node_count t l = 0 -> items_of t k = Some xs -> items_of t l = Some ys -> In x xs -> In x ys -> k = l.
Proof.
  intros R Hk Hl Ck Cl Ek El Xk Xl. destruct (reachable_valid t R) as (r & ch & its & gs & ls & dep & I).
  apply (leaf_count _ _ _ _ _ _ _ _ I) in Ck, Cl; try assumption. rewrite (items_of_ok I k Hk Ck) in Ek. rewrite (items_of_ok I l Hl Cl) in El. injection Ek as <-. injection El as <-.
  pose proof (i_ind _ _ _ _ _ _ _ I) as N. rewrite (i_items _ _ _ _ _ _ _ I) in N.
  apply (group_unique its ls k l x); try assumption; try apply (i_ls _ _ _ _ _ _ _ I); apply (i_ls_all _ _ _ _ _ _ _ I); try assumption; intros Z; [now rewrite Z in Xk|now rewrite Z in Xl].
Qed.
(** ** Changing it *)
Lemma insert_child_fact t p a b e d : reachable t -> In p (nodes t) -> children t p = Some (a ++ b) -> end_ t p = Some e ->
  exists t' new, insert_child_node t p (position b e) d = Some (t', Some new) /\ ~ In new (nodes t) /\ (forall x, In x (nodes t') <-> In x (nodes t) \/ x = new) /\
    children t' p = Some (a ++ new :: b) /\ children t' new = Some [] /\ (forall x, In x (nodes t) -> x <> p -> children t' x = children t x) /\
    parent_of t' new = Some p /\ data (node_at t' new) = d /\ (forall x, In x (nodes t) -> data (node_at t' x) = data (node_at t x)) /\
    items_of t' new = (if node_count t p =? 0 then items_of t p else Some []) /\ (forall x, In x (nodes t) -> x <> p -> node_count t x = 0 -> items_of t' x = items_of t x) /\
    item_count t' new = (if node_count t p =? 0 then item_count t p else 0) /\ (forall x, In x (nodes t) -> item_count t' x = item_count t x) /\
    items t' = items t /\ item_at t' = item_at t.
Proof.
  intros R Hp Hc He. destruct (reachable_valid t R) as (r & ch & its & gs & ls & dep & I). rewrite (children_ok I p Hp) in Hc. injection Hc as Hc.
  destruct (insert_child_ok I p Hp a b Hc e He d) as (t' & gs' & Run & Res & Nin & I2). set (new := fresh (nodes t)) in *.
  exists t', new. split; [assumption|]. assert (NO : ~ In new (nodes t)) by apply fresh_not. split; [assumption|]. split; [assumption|].
  assert (NP : new <> p) by (intros Z; apply NO; now rewrite Z).
  assert (H1 : In p (nodes t')) by (apply Nin; tauto). assert (H2 : In new (nodes t')) by (apply Nin; tauto).
  destruct Res as (Ei & Ea & Eo & (P1 & _ & _ & _ & _ & _ & P7 & P8) & (Q1 & _ & _ & _ & Qd & Q5)). fold new in Eo, Q1, Qd, Q5.
  assert (Chn : upd (upd ch new []) p (a ++ new :: b) new = []) by (rewrite upd_other by assumption; apply upd_same).
  split; [rewrite (children_ok I2 p H1), upd_same; reflexivity|]. split; [now rewrite (children_ok I2 new H2), Chn|].
  assert (Oth : forall x, In x (nodes t) -> x <> new) by (intros x X ->; contradiction).
  split.
  { intros x X N. rewrite (children_ok I2 x), (children_ok I x X) by (apply Nin; tauto). rewrite !upd_other by (first [assumption|now apply Oth]). reflexivity. }
  split; [assumption|]. split; [assumption|]. split.
  { intros x X. destruct (Nat.eq_dec x p) as [->|N]; [assumption|]. rewrite Eo; [reflexivity|now apply Oth|assumption]. }
  assert (Cp : (node_count t p =? 0) = match ch p with [] => true | _ => false end).
  { unfold node_count. destruct (i_ch _ _ _ _ _ _ _ I p Hp) as (_ & _ & ->). now destruct (ch p). }
  split.
  { rewrite (items_of_ok I2 new H2 Chn), Cp. destruct (ch p) as [|c0 cs0] eqn:E.
    - rewrite (items_of_ok I p Hp E). rewrite upd_other, upd_same by assumption. reflexivity.
    - now rewrite upd_same. }
  split.
  { intros x X N C. apply (leaf_count _ _ _ _ _ _ _ _ I X) in C. rewrite (items_of_ok I x X C).
    assert (C2 : upd (upd ch new []) p (a ++ new :: b) x = []) by (rewrite !upd_other; [assumption|now apply Oth|assumption]).
    rewrite (items_of_ok I2 x) by (first [assumption|apply Nin; tauto]). f_equal. destruct (ch p); rewrite !upd_other by (first [assumption|now apply Oth]); reflexivity. }
  split; [unfold item_count; rewrite Cp; destruct (ch p); tauto|]. split; [|tauto].
  intros x X. unfold item_count. destruct (Nat.eq_dec x p) as [->|N]; [assumption|]. rewrite Eo; [reflexivity|now apply Oth|assumption].
Qed.
Lemma insert_child_refused t p n e d : reachable t -> In p (nodes t) -> In n (nodes t) -> end_ t p = Some e -> parent_of t n <> Some p -> Some n <> e -> insert_child_node t p (Some n) d = Some (t, None).
Proof.
  intros R Hp Hn He P N. unfold insert_child_node. rewrite He. destruct (ref_eqb (Some n) (hd_error (nodes t))); [reflexivity|].
  unfold parent_of in P. rewrite (ref_eqb_neq _ _ P), (ref_eqb_neq _ _ N). reflexivity.
Qed.
Lemma insert_item_fact t k a b e v : reachable t -> In k (nodes t) -> node_count t k = 0 -> items_of t k = Some (a ++ b) -> items_end t k = Some e ->
  exists t' new, insert_item t k (position b e) v = Some (t', Some new) /\ ~ In new (items t) /\ nodes t' = nodes t /\
    items_of t' k = Some (a ++ new :: b) /\ item_at t' new = v /\ (forall x, In x (items t) -> item_at t' x = item_at t x) /\
    (forall x, In x (nodes t) -> x <> k -> node_count t x = 0 -> items_of t' x = items_of t x) /\
    (forall x, In x (nodes t) -> children t' x = children t x) /\ (forall x, data (node_at t' x) = data (node_at t x)) /\
    (forall x, ancestor t x k -> item_count t' x = item_count t x + 1) /\ (forall x, ~ ancestor t x k -> item_count t' x = item_count t x).
Proof.
  intros R Hk C Hi He. destruct (reachable_valid t R) as (r & ch & its & gs & ls & dep & I). apply (leaf_count _ _ _ _ _ _ _ _ I Hk) in C. rewrite (items_of_ok I k Hk C) in Hi. injection Hi as Hi.
  destruct (insert_item_ok I k Hk C a b Hi e He v) as (t' & ls' & Run & Res & I2). set (new := fresh (items t)) in *. exists t', new.
  destruct Res as (En & Eo & Ev & Pl & Out & Anc). fold new in Eo, Ev.
  split; [assumption|]. assert (NO : ~ In new (items t)) by apply fresh_not. split; [assumption|]. split; [assumption|].
  split; [rewrite (items_of_ok I2 k), upd_same; [reflexivity|now rewrite En|assumption]|]. split; [assumption|].
  split; [intros x X; apply Eo; intros ->; contradiction|]. split.
  { intros x X N Cx. apply (leaf_count _ _ _ _ _ _ _ _ I X) in Cx. rewrite (items_of_ok I x X Cx), (items_of_ok I2 x) by (first [assumption|now rewrite En]). now rewrite upd_other. }
  split; [intros x X; rewrite (children_ok I x X), (children_ok I2 x); [reflexivity|now rewrite En]|]. split; [intros x; apply (Pl x)|].
  split; [assumption|]. intros x X. unfold item_count. now rewrite Out.
Qed.
Lemma split_fact t k (less : L -> bool) d xs : reachable t -> In k (nodes t) -> root t <> Some k -> node_count t k = 0 -> items_of t k = Some xs -> 2 <= length xs ->
  exists t' p a b lo u w, split t k less d = Some (t', Some lo) /\ parent_of t k = Some p /\ children t p = Some (a ++ k :: b) /\ ~ In lo (nodes t) /\ (forall x, In x (nodes t') <-> In x (nodes t) \/ x = lo) /\
    children t' p = Some (a ++ lo :: k :: b) /\ children t' lo = Some [] /\ (forall x, In x (nodes t) -> x <> p -> children t' x = children t x) /\
    items_of t' lo = Some u /\ items_of t' k = Some w /\ Forall (fun v => less v = true) (values t' u) /\ Forall (fun v => less v = false) (values t' w) /\
    Permutation (values t' u ++ values t' w) (values t xs) /\
    (forall x ys, In x (nodes t) -> x <> k -> node_count t x = 0 -> items_of t x = Some ys -> items_of t' x = Some ys /\ values t' ys = values t ys) /\
    data (node_at t' lo) = d /\ (forall x, In x (nodes t) -> data (node_at t' x) = data (node_at t x)).
Proof.
  intros R Hk Nr C Hi Len. destruct (reachable_valid t R) as (r & ch & its & gs & ls & dep & I). apply (leaf_count _ _ _ _ _ _ _ _ I Hk) in C. rewrite (items_of_ok I k Hk C) in Hi. injection Hi as <-.
  unfold root in Nr. rewrite (hd_root _ _ _ _ _ _ _ I) in Nr.
  destruct (split_ok I k less d Hk C Len) as (t' & p & a & b & lo & u & w & ls' & gs' & dep' & Run & Hp & Ec & NO & Nin & Ei & I2 & Pu & Pw & Pm & Po & Dl & Do & _); [congruence|].
  exists t', p, a, b, lo, u, w. split; [assumption|].
  assert (Nk : its k <> []) by (intros Z; rewrite Z in Len; cbn in Len; lia).
  assert (Np : p <> k) by (intros ->; rewrite C in Ec; destruct a; discriminate).
  assert (Nl : lo <> k) by (intros ->; contradiction). assert (Nlp : lo <> p) by (intros ->; contradiction).
  split; [apply (i_par _ _ _ _ _ _ _ I p k Hp); rewrite Ec; apply in_app_iff; right; now left|]. split; [rewrite (children_ok I p Hp); congruence|]. split; [assumption|]. split; [assumption|].
  assert (Oth : forall x, In x (nodes t) -> x <> lo) by (intros x X ->; contradiction).
  split; [rewrite (children_ok I2 p), upd_same by (apply Nin; tauto); reflexivity|].
  assert (Cl : upd (upd ch lo []) p (a ++ lo :: k :: b) lo = []) by (rewrite upd_other by assumption; apply upd_same).
  split; [rewrite (children_ok I2 lo), Cl by (apply Nin; tauto); reflexivity|]. split.
  { intros x X N. rewrite (children_ok I x X), (children_ok I2 x) by (apply Nin; tauto). rewrite !upd_other by (first [assumption|now apply Oth]). reflexivity. }
  split; [rewrite (items_of_ok I2 lo) by (first [assumption|apply Nin; tauto]); rewrite upd_other, upd_same by assumption; reflexivity|].
  assert (Ck : upd (upd ch lo []) p (a ++ lo :: k :: b) k = []) by (rewrite !upd_other; [assumption|congruence|congruence]).
  split; [rewrite (items_of_ok I2 k) by (first [assumption|apply Nin; tauto]); rewrite upd_same; reflexivity|].
  split; [apply Forall_forall; intros v V; unfold values in V; apply in_map_iff in V; destruct V as (x & <- & X); now apply Pu|].
  split; [apply Forall_forall; intros v V; unfold values in V; apply in_map_iff in V; destruct V as (x & <- & X); now apply Pw|].
  split; [unfold values; rewrite <- map_app, <- Ei; exact Pm|]. split; [|now split].
  intros x ys X N Cx Hx. apply (leaf_count _ _ _ _ _ _ _ _ I X) in Cx. rewrite (items_of_ok I x X Cx) in Hx. injection Hx as <-.
  assert (Cx2 : upd (upd ch lo []) p (a ++ lo :: k :: b) x = []).
  { rewrite !upd_other; [assumption|now apply Oth|]. intros ->. rewrite Ec in Cx. destruct a; discriminate. }
  split; [rewrite (items_of_ok I2 x) by (first [assumption|apply Nin; tauto]); rewrite !upd_other by (first [assumption|now apply Oth]); reflexivity|].
  unfold values. apply map_ext_in. intros y Y. apply Po. intros Yk. apply N.
  pose proof (i_ind _ _ _ _ _ _ _ I) as ND. rewrite (i_items _ _ _ _ _ _ _ I) in ND.
  apply (group_unique its ls x k y ND); try assumption; try apply (i_ls _ _ _ _ _ _ _ I); apply (i_ls_all _ _ _ _ _ _ _ I); try assumption. intros Z. now rewrite Z in Y.
Qed.
Lemma erase_fact t p c a b : reachable t -> In p (nodes t) -> children t p = Some (a ++ c :: b) -> node_count t c = 0 ->
  (item_count t c = 0 -> exists t', erase t p c = Some (t', true) /\ children t' p = Some (a ++ b) /\ (forall x, In x (nodes t') <-> In x (nodes t) /\ x <> c) /\
     (forall x, In x (nodes t') -> x <> p -> children t' x = children t x) /\ (forall x, In x (nodes t') -> item_count t' x = item_count t x /\ data (node_at t' x) = data (node_at t x)) /\
     (forall x, In x (nodes t') -> node_count t x = 0 -> items_of t' x = items_of t x) /\ item_at t' = item_at t) /\
  (0 < item_count t c -> erase t p c = None).
Proof.
  intros R Hp Hc Cc. destruct (reachable_valid t R) as (r & ch & its & gs & ls & dep & I). rewrite (children_ok I p Hp) in Hc. injection Hc as Ec.
  assert (Ic : In c (ch p)) by (rewrite Ec, in_app_iff; right; now left). destruct (child_in I p c Hp Ic) as [Hcn _].
  apply (leaf_count _ _ _ _ _ _ _ _ I Hcn) in Cc. destruct (i_par _ _ _ _ _ _ _ I p c Hp Ic) as [P _]. unfold parent_of in P.
  destruct (i_ch _ _ _ _ _ _ _ I c Hcn) as (_ & _ & Nc). rewrite Cc in Nc. cbn in Nc. unfold item_count.
  assert (Fl : flatten t c = Some t) by (unfold flatten; now rewrite Nc). split.
  - intros Z.
    assert (Run : exists t', erase t p c = Some (t', true)).
    { unfold erase. rewrite P, ref_eqb_refl. cbn [negb]. unfold clear. rewrite Fl, Z. cbn [Nat.ltb Nat.leb].
      apply in_split in Hcn. destruct Hcn as (A & B & En). pose proof (i_nd _ _ _ _ _ _ _ I) as ND. rewrite En in *.
      rewrite after_nd by assumption. change (Some c) with (hd_error (c :: B)) at 1. rewrite before_ok by assumption. eauto. }
    destruct Run as (t' & Run). exists t'. split; [assumption|].
    destruct (erase_ok I p c t' Hp Hcn Cc Run) as (a' & b' & gs' & Ec' & Ie & I2 & Nin & Ea & _ & Ed & Et).
    assert (Npc : p <> c) by (intros ->; rewrite Cc in Ic; destruct Ic).
    assert (a' = a /\ b' = b) as [-> ->].
    { rewrite Ec in Ec'. assert (N : NoDup (a ++ c :: b)).
      { destruct (group I p Hp) as (g1 & g2 & _ & E); [rewrite Ec; destruct a; discriminate|]. pose proof (i_nd _ _ _ _ _ _ _ I) as N. rewrite E in N.
        destruct (nodup_parts _ _ N) as (_ & N2 & _). rewrite Ec in N2. now apply nodup_parts in N2. }
      clear - Ec' N. revert a' Ec' N. induction a as [|y a IH]; intros a' E N; destruct a' as [|y' a']; cbn in *.
      - injection E as ->. now split.
      - injection E as <- E. inversion N as [|? ? N1 _]. exfalso. apply N1. rewrite E. apply in_app_iff. right. now left.
      - injection E as -> E. inversion N as [|? ? N1 _]. exfalso. apply N1. apply in_app_iff. right. now left.
      - injection E as -> E. inversion N as [|? ? _ N1]. destruct (IH a' E N1) as [-> ->]. now split. }
    split; [rewrite (children_ok I2 p), upd_same by (apply Nin; now split); reflexivity|]. split; [assumption|]. split.
    { intros x X N. rewrite (children_ok I2 x X), upd_other by assumption. apply Nin in X. now rewrite (children_ok I x). }
    split; [intros x X; split; [apply Et|apply Ed]|]. split; [|assumption].
    intros x X C. pose proof X as X'. apply Nin in X. destruct X as [X _]. apply (leaf_count _ _ _ _ _ _ _ _ I X) in C. rewrite (items_of_ok I x X C), (items_of_ok I2 x X'); [reflexivity|].
    rewrite upd_other; [assumption|]. intros ->. rewrite C in Ic. destruct Ic.
  - intros Z. unfold erase. rewrite P, ref_eqb_refl. cbn [negb]. unfold clear. rewrite Fl. destruct (Nat.ltb_spec 0 (n_items (node_at t c))); [reflexivity|lia].
Qed.
End Facts.
