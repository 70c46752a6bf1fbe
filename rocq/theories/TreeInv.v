From Coq Require Import List Arith Bool Lia Permutation.
From Verif Require Import TreeModel TreeSpec TreeProofs.
Import ListNotations.

Section Inv.
Context {D L : Type}.
Implicit Types t : tree D L.
Definition items_in t (k : nat) : nat := n_items (node_at t k).
Record inv t (r : nat) (ch its : nat -> list nat) (gs ls : list nat) (dep : nat -> nat) : Prop := {
  i_nodes : nodes t = r :: concat (map ch gs);
  i_nd : NoDup (nodes t);
  i_gs : NoDup gs;
  i_gs_in : forall g, In g gs -> In g (nodes t) /\ ch g <> [];
  i_gs_all : forall g, In g (nodes t) -> ch g <> [] -> In g gs;
  i_root : parent_of t r = None;
  i_ch : forall p, In p (nodes t) -> child_first (node_at t p) = hd_error (ch p) /\ child_last (node_at t p) = last_error (ch p) /\ n_children (node_at t p) = length (ch p);
  i_par : forall p c, In p (nodes t) -> In c (ch p) -> parent_of t c = Some p /\ dep c = S (dep p);
  i_items : items t = concat (map its ls);
  i_ind : NoDup (items t);
  i_ls : NoDup ls;
  i_ls_in : forall g, In g ls -> In g (nodes t) /\ ch g = [] /\ its g <> [];
  i_ls_all : forall g, In g (nodes t) -> its g <> [] -> In g ls;
  i_leaf : forall p, In p (nodes t) -> ch p = [] -> items_first (node_at t p) = hd_error (its p) /\ items_last (node_at t p) = last_error (its p) /\ items_in t p = length (its p);
  i_int : forall p, In p (nodes t) -> ch p <> [] -> its p = [] /\ items_in t p = list_sum (map (items_in t) (ch p));
  i_zero : forall p, In p (nodes t) -> items_in t p = 0 -> items_first (node_at t p) = None /\ items_last (node_at t p) = None;
  i_head : forall p, In p (nodes t) -> 0 < items_in t p -> exists l, In l (nodes t) /\ its l <> [] /\ items_first (node_at t p) = hd_error (its l) /\ ancestor t p l }.

Section Facts.
Context {t : tree D L} {r : nat} {ch its : nat -> list nat} {gs ls : list nat} {dep : nat -> nat} (I : inv t r ch its gs ls dep).
Lemma child_in p c : In p (nodes t) -> In c (ch p) -> In c (nodes t) /\ In c (concat (map ch gs)).
Proof.
  intros H C. assert (G : In p gs) by (apply (i_gs_all _ _ _ _ _ _ _ I); [assumption|intros E; now rewrite E in C]).
  assert (K : In c (concat (map ch gs))) by (apply in_groups; eauto).
  split; [|assumption]. rewrite (i_nodes _ _ _ _ _ _ _ I). now right.
Qed.
Lemma root_in : In r (nodes t).
Proof. rewrite (i_nodes _ _ _ _ _ _ _ I). now left. Qed.
Lemma root_notin : ~ In r (concat (map ch gs)).
Proof. pose proof (i_nd _ _ _ _ _ _ _ I) as N. rewrite (i_nodes _ _ _ _ _ _ _ I) in N. now inversion N. Qed.
Lemma parent_spec k : In k (nodes t) -> (k = r /\ parent_of t k = None) \/ exists p, parent_of t k = Some p /\ In p (nodes t) /\ In k (ch p) /\ dep k = S (dep p).
Proof.
  intros H. rewrite (i_nodes _ _ _ _ _ _ _ I) in H. destruct H as [<-|H]; [left; split; [reflexivity|apply (i_root _ _ _ _ _ _ _ I)]|].
  right. apply in_groups in H. destruct H as (p & G & C). destruct (i_gs_in _ _ _ _ _ _ _ I p G) as [P _].
  destruct (i_par _ _ _ _ _ _ _ I p k P C) as [E F]. eauto.
Qed.
Lemma chain k : In k (nodes t) -> exists l, NoDup l /\ incl l (nodes t) /\ length l = S (dep k - dep r) /\ dep r <= dep k /\ forall y, In y l -> dep y <= dep k.
Proof.
  remember (dep k) as d eqn:E. revert k E. induction d as [|d IH]; intros k E H.
  - destruct (parent_spec k H) as [[-> _]|(p & _ & _ & _ & F)]; [|lia].
    exists [r]. split; [repeat constructor; tauto|]. split; [intros y [<-|[]]; exact H|]. split; [cbn [length]; lia|]. split; [lia|]. intros y [<-|[]]. lia.
  - destruct (parent_spec k H) as [[-> _]|(p & P & Hp & C & F)].
    + exists [r]. split; [repeat constructor; tauto|]. split; [intros y [<-|[]]; exact H|]. split; [cbn [length]; lia|]. split; [lia|]. intros y [<-|[]]. lia.
    + destruct (IH p ltac:(lia) Hp) as (l & N & S1 & Len & B & M). exists (k :: l). split; [|split; [|split; [|split]]].
      * constructor; [|assumption]. intros Y. specialize (M _ Y). lia.
      * intros y [<-|Y]; [assumption|now apply S1].
      * cbn [length]. lia.
      * lia.
      * intros y [<-|Y]; [lia|]. specialize (M _ Y). lia.
Qed.
Lemma depth_bound k : In k (nodes t) -> dep r <= dep k /\ dep k - dep r < length (nodes t).
Proof.
  intros H. destruct (chain k H) as (l & N & S1 & Len & B & _). split; [assumption|].
  pose proof (NoDup_incl_length N S1). lia.
Qed.
(** The group of a node with children in the list. *)
Lemma group p : In p (nodes t) -> ch p <> [] -> exists g1 g2, gs = g1 ++ p :: g2 /\ nodes t = (r :: concat (map ch g1)) ++ ch p ++ concat (map ch g2).
Proof.
  intros H C. destruct (in_split _ _ (i_gs_all _ _ _ _ _ _ _ I p H C)) as (g1 & g2 & E). exists g1, g2. split; [assumption|].
  rewrite (i_nodes _ _ _ _ _ _ _ I), E, groups_split. reflexivity.
Qed.
Lemma igroup p : In p (nodes t) -> its p <> [] -> exists l1 l2, ls = l1 ++ p :: l2 /\ items t = concat (map its l1) ++ its p ++ concat (map its l2).
Proof.
  intros H C. destruct (in_split _ _ (i_ls_all _ _ _ _ _ _ _ I p H C)) as (l1 & l2 & E). exists l1, l2. split; [assumption|].
  rewrite (i_items _ _ _ _ _ _ _ I), E, groups_split. reflexivity.
Qed.
Lemma last_next a s b : s <> [] -> NoDup (a ++ s ++ b) -> next (a ++ s ++ b) (last_error s) = Some (hd_error b).
Proof.
  intros C N. destruct (last_cases s) as [[-> _]|(u & x & -> & E)]; [congruence|]. rewrite E. cbn [next].
  replace (a ++ (u ++ [x]) ++ b) with ((a ++ u) ++ x :: b) in * by (now rewrite <- !app_assoc). now apply after_nd.
Qed.
Lemma end_ok p g1 g2 : In p (nodes t) -> ch p <> [] -> nodes t = (r :: concat (map ch g1)) ++ ch p ++ concat (map ch g2) ->
  end_ t p = Some (hd_error (concat (map ch g2))) /\ next (nodes t) (child_last (node_at t p)) = Some (hd_error (concat (map ch g2))).
Proof.
  intros H C E. destruct (i_ch _ _ _ _ _ _ _ I p H) as (_ & L1 & N). pose proof (i_nd _ _ _ _ _ _ _ I) as ND. rewrite E in ND.
  assert (X : next (nodes t) (child_last (node_at t p)) = Some (hd_error (concat (map ch g2)))).
  { rewrite L1, E. now apply last_next. }
  split; [|assumption]. unfold end_. rewrite N. destruct (ch p) as [|c cs]; [congruence|]. exact X.
Qed.
Lemma end_leaf p : In p (nodes t) -> ch p = [] -> end_ t p = Some None.
Proof. intros H C. destruct (i_ch _ _ _ _ _ _ _ I p H) as (_ & L1 & N). unfold end_. rewrite N, L1, C. reflexivity. Qed.
Lemma children_ok p : In p (nodes t) -> children t p = Some (ch p).
Proof.
  intros H. unfold children, begin. destruct (i_ch _ _ _ _ _ _ _ I p H) as (F & _ & _). rewrite F.
  destruct (list_eq_dec Nat.eq_dec (ch p) []) as [C|C].
  - rewrite end_leaf, C by assumption. reflexivity.
  - destruct (group p H C) as (g1 & g2 & _ & E). destruct (end_ok p g1 g2 H C E) as [-> _].
    rewrite <- (hd_app _ (concat (map ch g2)) C). pose proof (i_nd _ _ _ _ _ _ _ I) as ND. rewrite E in *.
    apply walk_ok; [assumption|]. rewrite !app_length. lia.
Qed.
Lemma items_end_ok p l1 l2 : In p (nodes t) -> its p <> [] -> items t = concat (map its l1) ++ its p ++ concat (map its l2) ->
  items_end t p = Some (hd_error (concat (map its l2))) /\ next (items t) (items_last (node_at t p)) = Some (hd_error (concat (map its l2))).
Proof.
  intros H C E. destruct (i_ls_in _ _ _ _ _ _ _ I p (i_ls_all _ _ _ _ _ _ _ I p H C)) as (_ & Lf & _).
  destruct (i_leaf _ _ _ _ _ _ _ I p H Lf) as (_ & L1 & N). pose proof (i_ind _ _ _ _ _ _ _ I) as ND. rewrite E in ND.
  assert (X : next (items t) (items_last (node_at t p)) = Some (hd_error (concat (map its l2)))).
  { rewrite L1, E. now apply last_next. }
  split; [|assumption]. unfold items_end. unfold items_in in N. rewrite N. destruct (its p) as [|c cs]; [congruence|]. exact X.
Qed.
Lemma items_of_ok p : In p (nodes t) -> ch p = [] -> items_of t p = Some (its p).
Proof.
  intros H Lf. unfold items_of, items_begin. destruct (i_leaf _ _ _ _ _ _ _ I p H Lf) as (F & L1 & N). rewrite F.
  destruct (list_eq_dec Nat.eq_dec (its p) []) as [C|C].
  - unfold items_end. unfold items_in in N. rewrite N, L1, C. reflexivity.
  - destruct (igroup p H C) as (l1 & l2 & _ & E). destruct (items_end_ok p l1 l2 H C E) as [-> _].
    rewrite <- (hd_app _ (concat (map its l2)) C). pose proof (i_ind _ _ _ _ _ _ _ I) as ND. rewrite E in *.
    apply walk_ok; [assumption|]. rewrite !app_length. lia.
Qed.
(** ** Searching to the right *)
Lemma populated_ok a s b fuel : nodes t = a ++ s ++ b -> length s < fuel ->
  populated t fuel (hd_error (s ++ b)) (hd_error b) = Some (match find (fun c => 0 <? n_children (node_at t c)) s with Some c => child_first (node_at t c) | None => None end).
Proof.
  intros E. pose proof (i_nd _ _ _ _ _ _ _ I) as ND. revert a fuel E. induction s as [|x s IH]; intros a fuel E F; (destruct fuel as [|fuel]; [cbn in F; lia|]); cbn [populated app hd_error find].
  - now rewrite ref_eqb_refl.
  - rewrite E in ND. rewrite ref_eqb_neq.
    + destruct (0 <? n_children (node_at t x)) eqn:P; [reflexivity|]. rewrite E. cbn [app]. rewrite after_nd by assumption.
      rewrite <- E in ND. apply (IH (a ++ [x])); [rewrite E, <- app_assoc; reflexivity|cbn in F; lia].
    + intros X. destruct (nodup_parts _ _ ND) as (_ & N' & _). inversion N' as [|? ? N _]; subst. apply N. rewrite in_app_iff. right. now apply hd_in.
Qed.
Lemma holding_ok a s b fuel : nodes t = a ++ s ++ b -> length s < fuel ->
  holding t fuel (hd_error (s ++ b)) (hd_error b) = Some (match find (fun c => 0 <? n_items (node_at t c)) s with Some c => items_first (node_at t c) | None => None end).
Proof.
  intros E. pose proof (i_nd _ _ _ _ _ _ _ I) as ND. revert a fuel E. induction s as [|x s IH]; intros a fuel E F; (destruct fuel as [|fuel]; [cbn in F; lia|]); cbn [holding app hd_error find].
  - now rewrite ref_eqb_refl.
  - rewrite E in ND. rewrite ref_eqb_neq.
    + destruct (0 <? n_items (node_at t x)) eqn:P; [reflexivity|]. rewrite E. cbn [app]. rewrite after_nd by assumption.
      rewrite <- E in ND. apply (IH (a ++ [x])); [rewrite E, <- app_assoc; reflexivity|cbn in F; lia].
    + intros X. destruct (nodup_parts _ _ ND) as (_ & N' & _). inversion N' as [|? ? N _]; subst. apply N. rewrite in_app_iff. right. now apply hd_in.
Qed.
Lemma sibling_split p k : In p (nodes t) -> In k (ch p) -> exists a s b, nodes t = a ++ (k :: s) ++ b /\ incl (k :: s) (ch p) /\ end_ t p = Some (hd_error b) /\ next (nodes t) (child_last (node_at t p)) = Some (hd_error b).
Proof.
  intros H C. assert (N : ch p <> []) by (intros E; now rewrite E in C).
  destruct (group p H N) as (g1 & g2 & _ & E). destruct (end_ok p g1 g2 H N E) as [E1 E2].
  destruct (in_split _ _ C) as (u & s & Eu). exists ((r :: concat (map ch g1)) ++ u), s, (concat (map ch g2)).
  split; [rewrite E, Eu, <- !app_assoc; reflexivity|]. split; [|split; assumption].
  intros x X. rewrite Eu, in_app_iff. now right.
Qed.
(** The place that node_successor finds is the start of a group, or the end. *)
Definition group_start (pos : ref) : Prop := exists g1 g2, gs = g1 ++ g2 /\ pos = hd_error (concat (map ch g2)).
Lemma start_end : group_start None.
Proof. exists gs, []. split; [now rewrite app_nil_r|reflexivity]. Qed.
Lemma start_of c : In c (nodes t) -> ch c <> [] -> group_start (hd_error (ch c)).
Proof. intros H C. destruct (group c H C) as (g1 & g2 & E & _). exists g1, (c :: g2). split; [assumption|]. symmetry. now apply concat_nil_hd. Qed.
Lemma successor_loop_ok fuel k : In k (nodes t) -> dep k - dep r < fuel -> exists pos, successor_loop t fuel (parent_of t k) k = Some pos /\ group_start pos.
Proof.
  revert k. induction fuel as [|fuel IH]; intros k H F; [lia|]. cbn [successor_loop].
  destruct (parent_spec k H) as [[-> P]|(p & P & Hp & C & Dp)]; rewrite P.
  - exists None. split; [reflexivity|apply start_end].
  - destruct (sibling_split p k Hp C) as (a & s & b & E & Inc & E1 & _). rewrite E1.
    change (Some k) with (hd_error ((k :: s) ++ b)). rewrite (populated_ok a (k :: s) b).
    2: assumption. 2: { rewrite E, !app_length. lia. }
    destruct (find _ (k :: s)) as [c|] eqn:Fd.
    + apply find_some in Fd. destruct Fd as [Ic Pc]. destruct (child_in p c Hp (Inc c Ic)) as [Hc _].
      destruct (i_ch _ _ _ _ _ _ _ I c Hc) as (Fc & _ & Nc). apply Nat.ltb_lt in Pc. rewrite Nc in Pc.
      assert (Cc : ch c <> []) by (intros Z; rewrite Z in Pc; cbn in Pc; lia).
      rewrite Fc. destruct (ch c) as [|c0 cs] eqn:Ec; [congruence|]. cbn [hd_error]. exists (Some c0). split; [reflexivity|].
      change (Some c0) with (hd_error (c0 :: cs)). rewrite <- Ec. apply start_of; [assumption|congruence].
    + apply IH; [assumption|]. pose proof (depth_bound p Hp). lia.
Qed.
Lemma node_successor_ok k : In k (nodes t) -> exists pos, node_successor t k = Some pos /\ group_start pos.
Proof. intros H. apply successor_loop_ok; [assumption|]. pose proof (depth_bound k H). lia. Qed.
(** A node with a parent and children is its own successor. *)
Lemma node_successor_self k p : In k (nodes t) -> parent_of t k = Some p -> ch k <> [] -> node_successor t k = Some (hd_error (ch k)).
Proof.
  intros H P C. unfold node_successor. cbn [successor_loop]. unfold parent_of in P. rewrite P.
  destruct (parent_spec k H) as [[-> P']|(p' & P' & Hp & Ck & _)]; [unfold parent_of in *; congruence|].
  assert (p' = p) by (unfold parent_of in *; congruence). subst p'.
  destruct (sibling_split p k Hp Ck) as (a & s & b & E & Inc & E1 & _). rewrite E1.
  change (Some k) with (hd_error ((k :: s) ++ b)). rewrite (populated_ok a (k :: s) b).
  2: assumption. 2: { rewrite E, !app_length. lia. }
  cbn [find]. destruct (i_ch _ _ _ _ _ _ _ I k H) as (Fc & _ & Nc). rewrite Nc. destruct (ch k) as [|c cs]; [congruence|].
  cbn. rewrite Fc. reflexivity.
Qed.
Lemma node_successor_root : node_successor t r = Some None.
Proof. unfold node_successor. cbn [successor_loop]. fold (parent_of t r). now rewrite (i_root _ _ _ _ _ _ _ I). Qed.
Definition item_start (pos : ref) : Prop := exists l1 l2, ls = l1 ++ l2 /\ pos = hd_error (concat (map its l2)).
Lemma istart_end : item_start None.
Proof. exists ls, []. split; [now rewrite app_nil_r|reflexivity]. Qed.
Lemma istart_of c : In c (nodes t) -> its c <> [] -> item_start (hd_error (its c)).
Proof. intros H C. destruct (igroup c H C) as (g1 & g2 & E & _). exists g1, (c :: g2). split; [assumption|]. symmetry. now apply concat_nil_hd. Qed.
Lemma item_successor_ok k : In k (nodes t) -> exists pos, item_successor t k = Some pos /\ item_start pos.
Proof.
  intros H0. unfold item_successor. fold (parent_of t k).
  assert (F0 : dep k - dep r < S (length (nodes t))) by (pose proof (depth_bound k H0); lia).
  revert F0. generalize (S (length (nodes t))) at 1 2 as fuel. intros fuel. revert k H0.
  induction fuel as [|fuel IH]; intros k H F; [lia|]. cbn [item_successor_loop].
  destruct (parent_spec k H) as [[-> P]|(p & P & Hp & C & Dp)]; rewrite P.
  - exists None. split; [reflexivity|apply istart_end].
  - destruct (sibling_split p k Hp C) as (a & s & b & E & Inc & _ & E1). rewrite E1.
    destruct (i_ch _ _ _ _ _ _ _ I p Hp) as (_ & _ & Np).
    destruct (Nat.eqb_spec (n_children (node_at t p)) 0) as [Z|_]; [rewrite Np in Z; destruct (ch p); [contradiction|discriminate]|].
    change (Some k) with (hd_error ((k :: s) ++ b)). rewrite (holding_ok a (k :: s) b).
    2: assumption. 2: { rewrite E, !app_length. lia. }
    destruct (find _ (k :: s)) as [c|] eqn:Fd.
    + apply find_some in Fd. destruct Fd as [Ic Pc]. destruct (child_in p c Hp (Inc c Ic)) as [Hc _].
      apply Nat.ltb_lt in Pc. destruct (i_head _ _ _ _ _ _ _ I c Hc Pc) as (l & Hl & Nl & El & _). rewrite El.
      destruct (its l) as [|c0 cs] eqn:Ec; [congruence|]. cbn [hd_error]. exists (Some c0). split; [reflexivity|].
      change (Some c0) with (hd_error (c0 :: cs)). rewrite <- Ec. apply istart_of; [assumption|congruence].
    + apply IH; [assumption|]. pose proof (depth_bound p Hp). lia.
Qed.
(** ** Ancestors *)
Lemma ancestor_in x k : In k (nodes t) -> ancestor t x k -> In x (nodes t) /\ dep x <= dep k.
Proof.
  intros H A. induction A as [|k p P A IH]; [split; [assumption|lia]|].
  destruct (parent_spec k H) as [[_ P']|(p' & P' & Hp & _ & Dp)]; [congruence|]. assert (p' = p) by congruence. subst p'.
  destruct (IH Hp). split; [assumption|lia].
Qed.
Lemma ancestor_same x y k : In k (nodes t) -> ancestor t x k -> ancestor t y k -> dep x = dep y -> x = y.
Proof.
  intros H A. induction A as [|k p P A IH]; intros B E.
  - inversion B as [|? p P A']; subst; [reflexivity|].
    destruct (parent_spec x H) as [[_ P']|(p' & P' & Hp & _ & Dp)]; [congruence|]. assert (p' = p) by congruence. subst p'.
    destruct (ancestor_in y p Hp A'). lia.
  - destruct (parent_spec k H) as [[_ P']|(p' & P' & Hp & _ & Dp)]; [congruence|]. assert (p' = p) by congruence. subst p'.
    inversion B as [|? p2 P2 B']; subst.
    + destruct (ancestor_in x p Hp A). lia.
    + assert (p2 = p) by congruence. subst p2. now apply IH.
Qed.
Lemma ancestor_child x k : In k (nodes t) -> ancestor t x k -> x <> k -> exists c, In c (ch x) /\ ancestor t c k.
Proof.
  intros H A. induction A as [|k p P A IH]; intros N; [congruence|].
  destruct (parent_spec k H) as [[_ P']|(p' & P' & Hp & C & Dp)]; [congruence|]. assert (p' = p) by congruence. subst p'.
  destruct (Nat.eq_dec x p) as [->|M].
  - exists k. split; [assumption|constructor].
  - destruct (IH Hp M) as (c & Ic & Ac). exists c. split; [assumption|]. now apply (ancestor_up t c k p).
Qed.
Lemma ancestor_trans x y z : ancestor t x y -> ancestor t y z -> ancestor t x z.
Proof. intros A B. induction B as [|z p P B IH]; [assumption|]. now apply (ancestor_up t x z p). Qed.
Lemma ancestor_dec x k : In k (nodes t) -> ancestor t x k \/ ~ ancestor t x k.
Proof.
  remember (dep k) as d eqn:E. revert k E. induction d as [|d IH]; intros k E H.
  - destruct (parent_spec k H) as [[_ P']|(p' & P' & Hp & _ & Dp)]; [|lia].
    destruct (Nat.eq_dec x k) as [->|N]; [left; constructor|]. right. intros A. inversion A; congruence.
  - destruct (Nat.eq_dec x k) as [->|N]; [left; constructor|].
    destruct (parent_spec k H) as [[_ P']|(p' & P' & Hp & _ & Dp)].
    + right. intros A. inversion A; congruence.
    + destruct (IH p' ltac:(lia) Hp) as [A|A]; [left; now apply (ancestor_up t x k p')|].
      right. intros B. inversion B as [|? p2 P2 B']; subst; [congruence|]. assert (p2 = p') by congruence. now subst p2.
Qed.
Lemma ancestor_mono t' x k : (forall y, In y (nodes t) -> parent_of t' y = parent_of t y) -> In k (nodes t) -> ancestor t x k -> ancestor t' x k.
Proof.
  intros S1 H A. induction A as [|k p P A IH]; [constructor|].
  destruct (parent_spec k H) as [[_ P']|(p' & P' & Hp & C & Dp)]; [congruence|]. assert (p' = p) by congruence. subst p'.
  apply (ancestor_up t' x k p); [now rewrite S1|auto].
Qed.
Lemma count_zero p k : In k (nodes t) -> ancestor t p k -> items_in t k <= items_in t p.
Proof.
  intros H A. induction A as [|k q P A IH]; [lia|].
  destruct (parent_spec k H) as [[_ P']|(p' & P' & Hp & C & Dp)]; [congruence|]. assert (p' = q) by congruence. subst p'.
  specialize (IH Hp). assert (Cq : ch q <> []) by (intros Z; now rewrite Z in C).
  destruct (i_int _ _ _ _ _ _ _ I q Hp Cq) as [_ S1].
  assert (M : items_in t k <= list_sum (map (items_in t) (ch q))).
  { destruct (in_split _ _ C) as (u & v & ->). rewrite map_app, list_sum_app. cbn. lia. }
  lia.
Qed.
End Facts.

Lemma inv_new d v : inv (@new_tree D L d v) 0 (fun _ => []) (fun _ => []) [] [] (fun _ => 0).
Proof.
  constructor; try reflexivity; cbn; try (repeat constructor; fail); try (intros; tauto).
  all: try (repeat constructor; cbn; tauto); try (intros; now repeat split).
Qed.
End Inv.
