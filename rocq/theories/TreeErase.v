From Coq Require Import List Arith Bool Lia Permutation.
From Verif Require Import TreeModel TreeSpec TreeProofs TreeInv TreeOps TreeSplit.
Import ListNotations.

Section Erase.
Context {D L : Type}.
Context {t : tree D L} {r : nat} {ch its : nat -> list nat} {gs ls : list nat} {dep : nat -> nat} (I : inv t r ch its gs ls dep).
Lemma split_ok k (less : L -> bool) d : In k (nodes t) -> ch k = [] -> 2 <= length (its k) -> k <> r ->
  exists t' p a b lo u w ls' gs' dep', split t k less d = Some (t', Some lo) /\ In p (nodes t) /\ ch p = a ++ k :: b /\ ~ In lo (nodes t) /\ (forall x, In x (nodes t') <-> In x (nodes t) \/ x = lo) /\
    its k = u ++ w /\ inv t' r (upd (upd ch lo []) p (a ++ lo :: k :: b)) (upd (upd its lo u) k w) gs' ls' dep' /\
    (forall x, In x u -> less (item_at t' x) = true) /\ (forall x, In x w -> less (item_at t' x) = false) /\
    Permutation (map (item_at t') (its k)) (map (item_at t) (its k)) /\ (forall x, ~ In x (its k) -> item_at t' x = item_at t x) /\
    data (node_at t' lo) = d /\ (forall x, In x (nodes t) -> data (node_at t' x) = data (node_at t x)) /\ items t' = items t.
Proof.
  intros Hk Ck Len Nr. destruct (parent_spec I k Hk) as [[E _]|(p & P & Hp & Cp & Dp)]; [congruence|].
  destruct (in_split _ _ Cp) as (a & b & Ec). assert (Cn : ch p <> []) by (rewrite Ec; destruct a; discriminate).
  destruct (group I p Hp Cn) as (g1 & g2 & _ & Eg). destruct (end_ok I p g1 g2 Hp Cn Eg) as [Ee _].
  destruct (insert_child_ok I p Hp a (k :: b) Ec _ Ee d) as (t1 & gs1 & Run & Res & Nin & I1).
  set (lo := fresh (nodes t)) in *. assert (NO : ~ In lo (nodes t)) by apply fresh_not.
  assert (Npk : p <> k) by (intros ->; congruence). assert (Nkl : lo <> k) by (intros Z; apply NO; now rewrite Z). assert (Npl : lo <> p) by (intros Z; apply NO; now rewrite Z).
  destruct Res as (Ei & Ea & Eo & (P1 & _ & _ & _ & _ & _ & _ & P8) & (Q1 & Q2 & Q3 & Q4 & Qd & Q5)). fold lo in Eo, Q1, Q2, Q3, Q4, Qd, Q5.
  assert (I1' : inv t1 r (upd (upd ch lo []) p (a ++ lo :: k :: b)) (upd its lo []) gs1 ls (upd dep lo (S (dep p)))) by (destruct (ch p); [congruence|exact I1]).
  clear I1. assert (Q5' : items_first (node_at t1 lo) = None /\ items_last (node_at t1 lo) = None /\ n_items (node_at t1 lo) = 0) by (destruct (ch p); [congruence|exact Q5]).
  clear Q5. destruct Q5' as (Q5 & Q6 & Q7).
  assert (Nk : its k <> []) by (intros Z; rewrite Z in Len; cbn in Len; lia).
  destruct (igroup I k Hk Nk) as (l1 & l2 & El & Eit). set (A := concat (map its l1)) in *. set (B := concat (map its l2)) in *.
  pose proof (i_ind _ _ _ _ _ _ _ I) as ND. rewrite Eit in ND.
  destruct (i_leaf _ _ _ _ _ _ _ I k Hk Ck) as (L1 & L2 & L3). unfold items_in in L3.
  assert (Ek : node_at t1 k = node_at t k) by (apply Eo; congruence).
  destruct (split_loop_ok A B (its k) k lo less ND Nkl (2 * n_items (node_at t1 k) + 1) [] (its k) [] t1)
    as (t2 & u & w & Run2 & Exs & En2 & Ei2 & Out2 & (Hh1 & Hh2) & Hf & Hn & Hl & Hlf & Hll & Hln & Pu & Pw & Pm & Po); try (cbn; tauto).
  { now rewrite app_nil_r. }
  { now rewrite Ei. }
  { rewrite Ek, L3. lia. }
  { rewrite Ek, L1. cbn [app]. symmetry. now apply hd_app. }
  { rewrite Ek, L3, app_nil_r. reflexivity. }
  cbn [app] in Run2. rewrite last_app in Run2 by assumption.
  set (t3 := if n_items (node_at t2 k) =? 0 then set_node t2 k (with_items (node_at t2 k) None None 0) else t2).
  assert (Runs : split t k less d = Some (t3, Some lo)).
  { unfold split. assert (R : hd_error (nodes t) = Some r) by (now rewrite (i_nodes _ _ _ _ _ _ _ I)). rewrite R, ref_eqb_neq by congruence.
    destruct (i_ch _ _ _ _ _ _ _ I k Hk) as (_ & _ & ->). rewrite Ck, L3. replace (length (its k) <? 2) with false by (symmetry; apply Nat.ltb_ge; lia). cbn [length Nat.ltb Nat.leb orb].
    unfold parent_of in P. rewrite P. cbn [position] in Run. rewrite Run. rewrite Ek, L2. rewrite Ek in Run2. rewrite Run2. reflexivity. }
  assert (S3 : nodes t3 = nodes t2 /\ items t3 = items t2 /\ item_at t3 = item_at t2) by (unfold t3; destruct (_ =? 0); now repeat split).
  destruct S3 as (En3 & Ei3 & Ea3).
  assert (S3o : forall x, x <> k -> node_at t3 x = node_at t2 x) by (intros x X; unfold t3; destruct (_ =? 0); [cbn; now apply upd_other|reflexivity]).
  assert (S3k : same_place (node_at t3 k) (node_at t1 k) /\ items_first (node_at t3 k) = hd_error w /\ items_last (node_at t3 k) = last_error w /\ n_items (node_at t3 k) = length w).
  { unfold t3. rewrite Hn. destruct w as [|w0 w'] eqn:Ew.
    - cbn [length Nat.eqb]. cbn [set_node node_at]. rewrite upd_same. split; [exact Hh1|]. now repeat split.
    - cbn [length Nat.eqb]. split; [exact Hh1|]. split; [rewrite Hf; reflexivity|]. split; [|exact Hn].
      rewrite Hh2, Ek, L2, Exs, last_app by discriminate. reflexivity. }
  destruct S3k as (S3p & S3f & S3l & S3n).
  assert (K1 : In k (nodes t1)) by (apply Nin; tauto).
  assert (Chk : upd (upd ch lo []) p (a ++ lo :: k :: b) k = []) by (rewrite !upd_other; [assumption|congruence|congruence]).
  assert (Chl : upd (upd ch lo []) p (a ++ lo :: k :: b) lo = []) by (rewrite upd_other by assumption; apply upd_same).
  destruct (inv_split I1' t3 k lo p u w) as (ls3 & I3); try assumption.
  { apply Nin; tauto. }
  { apply Nin; tauto. }
  { apply upd_same. }
  { rewrite upd_other by congruence. assumption. }
  { unfold parent_of. now rewrite Ek. }
  { rewrite upd_other by congruence. assumption. }
  { now rewrite En3. }
  { now rewrite Ei3. }
  { intros x X1 X2. rewrite S3o by assumption. now apply Out2. }
  { rewrite S3o by assumption. exact Hl. }
  { now rewrite S3o by assumption. }
  { now rewrite S3o by assumption. }
  { now rewrite S3o by assumption. }
  assert (Dat : forall x, data (node_at t3 x) = data (node_at t1 x)).
  { intros x. destruct (Nat.eq_dec x k) as [->|X1]; [apply S3p|]. rewrite S3o by assumption. destruct (Nat.eq_dec x lo) as [->|X2]; [apply Hl|]. now rewrite Out2. }
  exists t3, p, a, b, lo, u, w, ls3, gs1, (upd dep lo (S (dep p))). split; [assumption|]. split; [assumption|]. split; [assumption|]. split; [assumption|].
  split; [intros x; rewrite En3, En2; apply Nin|]. split; [assumption|]. split.
  { assert (Ext : forall x, upd (upd (upd its lo []) lo u) k w x = upd (upd its lo u) k w x).
    { intros x. unfold upd. destruct (x =? k), (x =? lo); reflexivity. }
    destruct I3. constructor; try assumption.
    - rewrite i_items. f_equal. apply map_ext. assumption.
    - intros g G. rewrite <- Ext. now apply i_ls_in.
    - intros g G. rewrite <- Ext. now apply i_ls_all.
    - intros g G. rewrite <- Ext. now apply i_leaf.
    - intros g G. rewrite <- Ext. now apply i_int.
    - intros g G Z. destruct (i_head g G Z) as (l & H1 & H2 & H3 & H4). exists l. rewrite <- Ext. now repeat split. }
  rewrite Ea3. rewrite <- Ea. split; [assumption|]. split; [assumption|]. split; [assumption|]. split; [assumption|]. split; [rewrite Dat; assumption|].
  split; [|now rewrite Ei3, Ei2].
  intros x X. rewrite Dat. destruct (Nat.eq_dec x p) as [->|X1]; [assumption|]. rewrite Eo; [reflexivity| |assumption]. intros ->. contradiction.
Qed.
(** ** Erasing a child *)
Lemma erase_ok p c t' : In p (nodes t) -> In c (nodes t) -> ch c = [] -> erase t p c = Some (t', true) ->
  exists a b gs', ch p = a ++ c :: b /\ its c = [] /\ inv t' r (upd ch p (a ++ b)) its gs' ls dep /\ (forall x, In x (nodes t') <-> In x (nodes t) /\ x <> c) /\
    item_at t' = item_at t /\ items t' = items t /\ (forall x, data (node_at t' x) = data (node_at t x)) /\ (forall x, items_in t' x = items_in t x).
Proof.
  intros Hp Hc Cc Run. unfold erase in Run. destruct (ref_eqb_spec (parent (node_at t c)) (Some p)) as [P|_]; [|discriminate].
  cbn [negb] in Run. unfold clear, flatten in Run. destruct (i_ch _ _ _ _ _ _ _ I c Hc) as (_ & _ & Nc). rewrite Nc, Cc in Run. cbn [length Nat.eqb] in Run.
  destruct (Nat.ltb_spec 0 (n_items (node_at t c))) as [_|Z]; [discriminate|].
  destruct (i_leaf _ _ _ _ _ _ _ I c Hc Cc) as (_ & _ & L3). unfold items_in in L3.
  assert (Ic : its c = []) by (destruct (its c); [reflexivity|cbn in L3; lia]).
  assert (Zc : items_in t c = 0) by (unfold items_in; lia).
  destruct (parent_spec I c Hc) as [[_ Q]|(q & Q & _ & Cp & Dc)]; [unfold parent_of in Q; congruence|].
  assert (q = p) by (unfold parent_of in Q; congruence). subst q.
  destruct (in_split _ _ Cp) as (a & b & Ec). assert (Cn : ch p <> []) by (rewrite Ec; destruct a; discriminate).
  destruct (group I p Hp Cn) as (g1 & g2 & Eg & En). set (A := r :: concat (map ch g1)) in *. set (B := concat (map ch g2)) in *.
  assert (En' : nodes t = (A ++ a) ++ c :: b ++ B) by (rewrite En, Ec, <- !app_assoc; reflexivity).
  pose proof (i_nd _ _ _ _ _ _ _ I) as ND. rewrite En' in ND.
  assert (Haft : after (nodes t) c = Some (hd_error (b ++ B))) by (rewrite En'; now apply after_nd).
  assert (Hbef : before (nodes t) (Some c) = Some (last_error (A ++ a))).
  { rewrite En'. change (Some c) with (hd_error (c :: b ++ B)). now apply before_ok. }
  assert (Hrem : remove_at (nodes t) c = (A ++ a) ++ b ++ B) by (rewrite En'; now apply remove_ok).
  rewrite Haft, Hbef, Hrem in Run. destruct (i_ch _ _ _ _ _ _ _ I p Hp) as (F1 & F2 & F3). rewrite F1, F2, F3 in Run.
  set (n' := if _ =? 0 then _ else _) in Run. injection Run as <-.
  assert (Nch : NoDup (a ++ c :: b)).
  { clear - ND. rewrite <- app_assoc in ND. destruct (nodup_parts _ _ ND) as (_ & N1 & _). change (c :: b ++ B) with ((c :: b) ++ B) in N1. rewrite app_assoc in N1. now apply nodup_parts in N1. }
  destruct (nodup_mid _ _ _ Nch) as [Na Nb].
  assert (Hn : parent n' = parent (node_at t p) /\ items_first n' = items_first (node_at t p) /\ items_last n' = items_last (node_at t p) /\ n_items n' = n_items (node_at t p) /\ data n' = data (node_at t p)
    /\ child_first n' = hd_error (a ++ b) /\ child_last n' = last_error (a ++ b) /\ n_children n' = length (a ++ b)).
  { unfold n'. clear n'. assert (El : length (ch p) - 1 = length (a ++ b)) by (rewrite Ec, !app_length; cbn; lia). rewrite El.
    destruct (Nat.eqb_spec (length (a ++ b)) 0) as [Z0|Z0].
    - apply length_zero_iff_nil in Z0. rewrite Z0. now repeat split.
    - rewrite Ec. destruct a as [|a0 a'].
      + cbn [app hd_error]. rewrite ref_eqb_refl. cbn [app] in Z0. destruct b as [|b0 b']; [now cbn in Z0|].
        cbn [with_children parent items_first items_last n_items data child_first child_last n_children app hd_error]. repeat (split; [reflexivity|]). split; [|reflexivity].
        rewrite ?F2, ?Ec. cbn [app]. change (c :: b0 :: b') with ([c] ++ b0 :: b'). now apply last_app.
      + cbn [app hd_error]. rewrite ref_eqb_neq by (intros [= ->]; apply Na; now left).
        destruct b as [|b0 b'].
        * assert (El2 : last_error (a0 :: a' ++ [c]) = Some c) by (change (a0 :: a' ++ [c]) with ((a0 :: a') ++ [c]); apply last_snoc).
          rewrite El2, ref_eqb_refl. cbn [with_children parent items_first items_last n_items data child_first child_last n_children]. repeat (split; [first [reflexivity|rewrite F1, Ec; reflexivity]|]). split; [|reflexivity]. replace (a0 :: a' ++ []) with (a0 :: a') by (now rewrite app_nil_r). now apply last_app.
        * assert (El2 : last_error (a0 :: a' ++ c :: b0 :: b') = last_error (b0 :: b')).
          { change (a0 :: a' ++ c :: b0 :: b') with ((a0 :: a') ++ [c] ++ b0 :: b'). rewrite app_assoc. now apply last_app. }
          rewrite El2. rewrite ref_eqb_neq by (intros E; apply last_in in E; contradiction).
          cbn [with_children parent items_first items_last n_items data child_first child_last n_children]. repeat (split; [first [reflexivity|rewrite F1, Ec; reflexivity]|]). split; [|reflexivity]. rewrite ?F2, ?Ec. cbn [app]. rewrite ?El2.
          symmetry. change (a0 :: a' ++ b0 :: b') with ((a0 :: a') ++ b0 :: b'). now apply last_app. }
  clearbody n'. set (t' := set_node _ p n').
  destruct Hn as (Hn1 & Hn2 & Hn3 & Hn4 & Hn5 & Hn6 & Hn7 & Hn8).
  assert (Npc : p <> c) by (intros ->; congruence).
  assert (Eo : forall x, x <> p -> node_at t' x = node_at t x) by (intros x X; unfold t'; cbn; now apply upd_other).
  assert (Ep : node_at t' p = n') by (unfold t'; cbn; apply upd_same).
  assert (Et : nodes t' = (A ++ a) ++ b ++ B) by reflexivity.
  assert (Par : forall x, parent_of t' x = parent_of t x) by (intros x; unfold parent_of; destruct (Nat.eq_dec x p) as [->|X]; [now rewrite Ep|now rewrite Eo]).
  assert (Cnt : forall x, items_in t' x = items_in t x) by (intros x; unfold items_in; destruct (Nat.eq_dec x p) as [->|X]; [now rewrite Ep|now rewrite Eo]).
  assert (Fst : forall x, items_first (node_at t' x) = items_first (node_at t x) /\ items_last (node_at t' x) = items_last (node_at t x)) by (intros x; destruct (Nat.eq_dec x p) as [->|X]; [now rewrite Ep|now rewrite Eo]).
  assert (Nin : forall x, In x (nodes t') <-> In x (nodes t) /\ x <> c).
  { intros x. rewrite Et, En', in_mid. destruct (nodup_mid _ _ _ ND) as [M1 M2]. rewrite (in_app_iff (A ++ a)). split; [|intros [[->|X] Y]; [congruence|assumption]].
    intros X. split; [now right|]. intros ->. tauto. }
  set (ch' := upd ch p (a ++ b)).
  assert (Chp : ch' p = a ++ b) by apply upd_same.
  assert (Cho : forall x, x <> p -> ch' x = ch x) by (intros x X; now apply upd_other).
  pose proof (i_gs _ _ _ _ _ _ _ I) as NG.
  assert (G' : exists gs', nodes t' = r :: concat (map ch' gs') /\ NoDup gs' /\ forall g, In g gs' <-> In g gs /\ ch' g <> []).
  { assert (Oth : forall g, In g gs -> g <> p -> ch' g <> []) by (intros g G X; rewrite Cho by assumption; now apply (i_gs_in _ _ _ _ _ _ _ I)).
    rewrite Eg in *. destruct (nodup_mid _ _ _ NG) as [M1 M2].
    assert (E1 : map ch' g1 = map ch g1) by (now apply map_upd_out). assert (E2 : map ch' g2 = map ch g2) by (now apply map_upd_out).
    destruct (list_eq_dec Nat.eq_dec (a ++ b) []) as [Z0|Z0].
    - exists (g1 ++ g2). split; [rewrite Et, map_app, concat_app, E1, E2; apply app_eq_nil in Z0; destruct Z0 as [-> ->]; rewrite app_nil_r; reflexivity|].
      split; [now apply NoDup_remove_1 in NG|]. intros g. rewrite in_mid. split.
      + intros G. assert (g <> p) by (intros ->; rewrite in_app_iff in G; tauto). split; [tauto|]. apply Oth; [rewrite in_mid; tauto|assumption].
      + intros [[->|G] Y]; [congruence|assumption].
    - exists (g1 ++ p :: g2). split; [rewrite Et, groups_split, E1, E2, Chp, <- !app_assoc; reflexivity|]. split; [assumption|].
      intros g. split; [|tauto]. intros G. split; [assumption|]. destruct (Nat.eq_dec g p) as [->|X]; [congruence|]. now apply Oth. }
  destruct G' as (gs' & En2 & NG' & Gin).
  assert (Hnch : forall x y, In x (nodes t) -> In y (ch' x) -> In y (ch x)).
  { intros x y X Y. destruct (Nat.eq_dec x p) as [->|E]; [|now rewrite Cho in Y]. rewrite Chp in Y. rewrite Ec. apply in_mid. now right. }
  exists a, b, gs'. split; [assumption|]. split; [assumption|]. split; [|split; [assumption|split; [reflexivity|split; [reflexivity|split; [|assumption]]]]].
  2: { intros x. destruct (Nat.eq_dec x p) as [->|X]; [now rewrite Ep|now rewrite Eo]. }
  assert (AncM : forall x l, In l (nodes t) -> ancestor t x l -> ancestor t' x l) by (intros x l Hl; apply (ancestor_mono I); auto).
  fold ch'. constructor.
  - exact En2.
  - rewrite Et. now apply NoDup_remove_1 in ND.
  - exact NG'.
  - intros g G. apply Gin in G. destruct G as [G1 G2]. split; [|assumption]. apply Nin. destruct (i_gs_in _ _ _ _ _ _ _ I g G1) as [X Y]. split; [assumption|]. intros ->. contradiction.
  - intros g G1 G2. apply Nin in G1. apply Gin. split; [|assumption]. apply (i_gs_all _ _ _ _ _ _ _ I); [tauto|].
    destruct (Nat.eq_dec g p) as [->|X]; [assumption|]. now rewrite Cho in G2.
  - rewrite Par. apply (i_root _ _ _ _ _ _ _ I).
  - intros x X. apply Nin in X. destruct (Nat.eq_dec x p) as [->|Y]; [rewrite Ep, Chp; tauto|]. rewrite Eo, Cho by assumption. now apply (i_ch _ _ _ _ _ _ _ I).
  - intros x y X Y. apply Nin in X. rewrite Par. apply (i_par _ _ _ _ _ _ _ I); [tauto|]. now apply Hnch.
  - apply (i_items _ _ _ _ _ _ _ I).
  - apply (i_ind _ _ _ _ _ _ _ I).
  - apply (i_ls _ _ _ _ _ _ _ I).
  - intros g G. destruct (i_ls_in _ _ _ _ _ _ _ I g G) as (X & Y & W). split; [apply Nin; split; [assumption|intros ->; contradiction]|]. split; [|assumption].
    rewrite Cho; [assumption|]. intros ->. contradiction.
  - intros g G. apply Nin in G. now apply (i_ls_all _ _ _ _ _ _ _ I).
  - intros x X C. apply Nin in X. rewrite Cnt. destruct (Fst x) as [-> ->]. destruct (Nat.eq_dec x p) as [->|Y]; [|rewrite Cho in C by assumption; now apply (i_leaf _ _ _ _ _ _ _ I)].
    rewrite Chp in C. apply app_eq_nil in C. destruct C as [Ea Eb]. destruct (i_int _ _ _ _ _ _ _ I p Hp Cn) as [T1 T2]. rewrite Ec, Ea, Eb in T2. cbn in T2. rewrite Zc in T2.
    destruct (i_zero _ _ _ _ _ _ _ I p Hp ltac:(lia)) as [-> ->]. rewrite T1. repeat split. cbn. lia.
  - intros x X C. apply Nin in X. destruct X as [X _]. rewrite Cnt, (map_ext _ _ Cnt). destruct (Nat.eq_dec x p) as [->|Y].
    + destruct (i_int _ _ _ _ _ _ _ I p Hp Cn) as [T1 T2]. split; [assumption|]. rewrite Chp, T2, Ec, !map_app, !list_sum_app. cbn [map list_sum fold_right]. rewrite Zc. reflexivity.
    + rewrite Cho in * by assumption. now apply (i_int _ _ _ _ _ _ _ I).
  - intros x X Z0. apply Nin in X. rewrite Cnt in Z0. destruct (Fst x) as [-> ->]. now apply (i_zero _ _ _ _ _ _ _ I).
  - intros x X Z0. apply Nin in X. rewrite Cnt in Z0. destruct (Fst x) as [-> _]. destruct (i_head _ _ _ _ _ _ _ I x (proj1 X) Z0) as (l & H1 & H2 & H3 & H4).
    exists l. split; [apply Nin; split; [assumption|intros ->; contradiction]|]. split; [assumption|]. split; [assumption|now apply AncM].
Qed.
End Erase.
