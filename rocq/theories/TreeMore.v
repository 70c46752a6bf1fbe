From Coq Require Import List Arith Bool Lia Permutation.
From Verif Require Import TreeModel TreeSpec TreeProofs TreeInv TreeOps TreeSplit TreeErase TreeFacts.
Import ListNotations.

Section More.
Context {D L : Type}.
Implicit Types t : tree D L.
Lemma append_reachable t p d t' new : reachable t -> In p (nodes t) -> append_child t p d = Some (t', new) -> reachable t'.
Proof.
  intros R Hp E. unfold append_child in E. destruct (end_ t p) as [e|] eqn:He; [|discriminate]. destruct (children_fact t p R Hp) as (cs & Hc & _).
  apply (made_child t p cs [] e d t' new); try assumption. now rewrite app_nil_r.
Qed.
Lemma append_item_reachable t k v t' new : reachable t -> In k (nodes t) -> append_item t k v = Some (t', new) -> reachable t'.
Proof.
  intros R Hk E. unfold append_item in E. destruct (items_end t k) as [e|] eqn:He; [|discriminate]. destruct (Nat.eq_dec (node_count t k) 0) as [Z|Z].
  - destruct (items_fact t k R Hk) as [F _]. destruct (F Z) as (xs & Hi & _). apply (made_item t k xs [] e v t' new); try assumption. now rewrite app_nil_r.
  - unfold insert_item in E. unfold node_count in Z. destruct (Nat.ltb_spec 0 (n_children (node_at t k))); [|lia]. now injection E as <- _.
Qed.
Lemma step_reachable t o t' : reachable t -> step t o = Some t' -> reachable t'.
Proof.
  intros R E. destruct o as [p d|k v]; cbn [step] in E; unfold listed in E.
  - destruct (existsb (Nat.eqb p) (nodes t)) eqn:X; [|discriminate]. apply existsb_exists in X. destruct X as (y & Y & Q). apply Nat.eqb_eq in Q. subst y.
    destruct (append_child t p d) as [[t2 [n|]]|] eqn:A; try discriminate. injection E as <-. exact (append_reachable t p d t2 (Some n) R Y A).
  - destruct (existsb (Nat.eqb k) (nodes t)) eqn:X; [|discriminate]. apply existsb_exists in X. destruct X as (y & Y & Q). apply Nat.eqb_eq in Q. subst y.
    destruct (append_item t k v) as [[t2 [n|]]|] eqn:A; try discriminate. injection E as <-. exact (append_item_reachable t k v t2 (Some n) R Y A).
Qed.
Lemma run_reachable os t t' : reachable t -> run t os = Some t' -> reachable t'.
Proof.
  revert t. induction os as [|o os IH]; intros t R E; cbn in E; [now injection E as <-|]. destruct (step t o) as [t2|] eqn:S; [|discriminate].
  apply (IH t2); [|assumption]. exact (step_reachable t o t2 R S).
Qed.
Lemma append_child_fact t p d cs : reachable t -> In p (nodes t) -> children t p = Some cs -> exists t' new, append_child t p d = Some (t', Some new) /\ ~ In new (nodes t) /\ children t' p = Some (cs ++ [new]) /\ data (node_at t' new) = d.
Proof.
  intros R Hp Hc. unfold append_child. pose proof Hc as Hc'. unfold children in Hc. destruct (end_ t p) as [e|] eqn:He; [|discriminate].
  rewrite <- (app_nil_r cs) in Hc'. destruct (insert_child_fact t p cs [] e d R Hp Hc' He) as (t' & new & Run & NO & _ & C & _ & _ & _ & Dd & _). now exists t', new.
Qed.
Lemma append_item_fact t k v xs : reachable t -> In k (nodes t) -> node_count t k = 0 -> items_of t k = Some xs -> exists t' new, append_item t k v = Some (t', Some new) /\ ~ In new (items t) /\ items_of t' k = Some (xs ++ [new]) /\ item_at t' new = v.
Proof.
  intros R Hk C Hi. unfold append_item. pose proof Hi as Hi'. unfold items_of in Hi. destruct (items_end t k) as [e|] eqn:He; [|discriminate].
  rewrite <- (app_nil_r xs) in Hi'. destruct (insert_item_fact t k xs [] e v R Hk C Hi' He) as (t' & new & Run & NO & _ & I2 & V & _). now exists t', new.
Qed.
Lemma insert_item_refused t k pos v : 0 < node_count t k -> insert_item t k pos v = Some (t, None).
Proof. intros H. unfold insert_item. unfold node_count in H. destruct (Nat.ltb_spec 0 (n_children (node_at t k))); [reflexivity|lia]. Qed.
Lemma split_refused t k less d : root t = Some k \/ 0 < node_count t k \/ item_count t k < 2 -> split t k less d = Some (t, None).
Proof.
  intros H. unfold split. replace (_ || _ || _) with true; [reflexivity|]. symmetry. rewrite !orb_true_iff. unfold root, node_count, item_count in H.
  destruct H as [->|[H|H]]; [left; left; apply ref_eqb_refl|left; right; now apply Nat.ltb_lt|right; now apply Nat.ltb_lt].
Qed.
Lemma erase_refused t k c : parent_of t c <> Some k -> erase t k c = Some (t, false).
Proof. intros H. unfold erase. unfold parent_of in H. now rewrite (ref_eqb_neq _ _ H). Qed.
(** ** Searching *)
Lemma scan_walk l i fuel : forall j stop xs, walk l fuel j stop = Some xs -> scan_items l fuel j stop i = Some (if in_dec Nat.eq_dec i xs then true else false).
Proof.
  induction fuel as [|fuel IH]; intros j stop xs E; cbn in E |- *; [discriminate|]. destruct (ref_eqb j stop); [now injection E as <-|].
  destruct j as [x|]; [|discriminate]. destruct (after l x) as [j|] eqn:A; [|discriminate]. destruct (walk l fuel j stop) as [r|] eqn:W; [|discriminate]. injection E as <-.
  destruct (ref_eqb_spec (Some x) (Some i)) as [X|X].
  - injection X as ->. destruct (in_dec Nat.eq_dec i (i :: r)) as [|N]; [reflexivity|]. destruct N. now left.
  - cbn [next]. rewrite A, (IH _ _ _ W). destruct (in_dec Nat.eq_dec i r) as [Y|Y], (in_dec Nat.eq_dec i (x :: r)) as [Z|Z]; try reflexivity; exfalso.
    + apply Z. now right.
    + destruct Z as [->|Z]; [now apply X|contradiction].
Qed.
Section Inv.
Context {t : tree D L} {r : nat} {ch its : nat -> list nat} {gs ls : list nat} {dep : nat -> nat} (I : inv t r ch its gs ls dep).
Lemma find_suffix i k suf : In k suf -> In i (its k) -> forall pre fuel, nodes t = pre ++ suf -> length suf < fuel -> find_loop t fuel (hd_error suf) None i = Some (Some k).
Proof.
  intros Hk Hi. assert (Uq : forall x, In x (nodes t) -> In k (nodes t) -> In i (its x) -> x = k).
  { intros x X K Y. pose proof (i_ind _ _ _ _ _ _ _ I) as ND. rewrite (i_items _ _ _ _ _ _ _ I) in ND.
    apply (group_unique its ls x k i ND); try assumption; try apply (i_ls _ _ _ _ _ _ _ I); apply (i_ls_all _ _ _ _ _ _ _ I); try assumption; intros Z; [now rewrite Z in Y|now rewrite Z in Hi]. }
  induction suf as [|x suf IH]; intros pre fuel E F; [destruct Hk|]. destruct fuel as [|fuel]; [cbn in F; lia|]. cbn [find_loop hd_error ref_eqb].
  assert (X : In x (nodes t)) by (rewrite E, in_app_iff; right; now left).
  assert (K : In k (nodes t)) by (rewrite E, in_app_iff; now right).
  destruct (i_ch _ _ _ _ _ _ _ I x X) as (_ & _ & N). rewrite N.
  assert (Sc : (if (length (ch x) =? 0) && (0 <? n_items (node_at t x)) then match next (items t) (items_last (node_at t x)) with Some e => scan_items (items t) (S (length (items t))) (items_first (node_at t x)) e i | None => None end else Some false)
    = Some (if in_dec Nat.eq_dec i (its x) then true else false)).
  { destruct (list_eq_dec Nat.eq_dec (ch x) []) as [C|C].
    - rewrite C. cbn [length Nat.eqb andb]. pose proof (items_of_ok I x X C) as W. destruct (i_leaf _ _ _ _ _ _ _ I x X C) as (_ & _ & Ni). unfold items_in in Ni.
      destruct (Nat.ltb_spec 0 (n_items (node_at t x))) as [P|P].
      + unfold items_of, items_end, items_begin in W. apply Nat.ltb_lt in P. rewrite P in W.
        destruct (next (items t) (items_last (node_at t x))) as [e|]; [|discriminate]. now apply scan_walk.
      + assert (its x = []) as -> by (apply length_zero_iff_nil; lia). reflexivity.
    - destruct (i_int _ _ _ _ _ _ _ I x X C) as [-> _]. destruct (ch x); [congruence|]. reflexivity. }
  cbv zeta. rewrite Sc. destruct (in_dec Nat.eq_dec i (its x)) as [Y|Y]; [now rewrite (Uq x X K Y)|].
  pose proof (i_nd _ _ _ _ _ _ _ I) as ND. rewrite E in ND |- *. rewrite after_nd by assumption. rewrite <- E in ND.
  assert (Hk' : In k suf) by (destruct Hk as [->|Hk]; [contradiction|assumption]).
  apply (IH Hk' (pre ++ [x])); [now rewrite <- app_assoc|cbn in F; lia].
Qed.
Lemma find_root i k : In k (nodes t) -> In i (its k) -> find_parent t r i = Some (inl k).
Proof.
  intros Hk Hi. unfold find_parent. rewrite (node_successor_root I).
  assert (Some r = hd_error (nodes t)) as -> by (rewrite (i_nodes _ _ _ _ _ _ _ I); reflexivity).
  rewrite (find_suffix i k (nodes t) Hk Hi [] _ eq_refl); [reflexivity|lia].
Qed.
Lemma flat_nodes : (forall c, In c (ch r) -> ch c = []) -> nodes t = r :: ch r.
Proof.
  intros F. rewrite (i_nodes _ _ _ _ _ _ _ I). f_equal.
  assert (Only : forall g, In g gs -> g = r).
  { intros g G. destruct (i_gs_in _ _ _ _ _ _ _ I g G) as [Hg C]. remember (dep g) as d eqn:E. revert g G Hg C E. induction d as [d IH] using lt_wf_ind. intros g G Hg C E.
    destruct (parent_spec I g Hg) as [[-> _]|(p & P & Hp & Cp & Dp)]; [reflexivity|]. exfalso. apply C. apply F.
    assert (p = r) as <-; [|assumption]. apply (IH (dep p)); try lia; try assumption; try reflexivity; [apply (i_gs_all _ _ _ _ _ _ _ I); [assumption|]|]; intros Z; rewrite Z in Cp; destruct Cp. }
  pose proof (i_gs _ _ _ _ _ _ _ I) as NG. destruct gs as [|g g'] eqn:Eg.
  - destruct (list_eq_dec Nat.eq_dec (ch r) []) as [->|C]; [reflexivity|]. destruct (i_gs_all _ _ _ _ _ _ _ I r (root_in I) C).
  - destruct g' as [|h g'].
    + cbn. rewrite app_nil_r. f_equal. apply Only. now left.
    + exfalso. inversion NG as [|? ? N _]. apply N. rewrite (Only g), <- (Only h); [now left|right; now left|now left].
Qed.
Section Flat.
Context (F : forall c, In c (ch r) -> ch c = []) (bound test : nat -> bool).
Lemma flat_end : end_ t r = Some None.
Proof.
  destruct (list_eq_dec Nat.eq_dec (ch r) []) as [C|C]; [apply (end_leaf I r (root_in I) C)|].
  destruct (end_ok I r [] [] (root_in I) C) as [E _]; [cbn; rewrite app_nil_r; now apply flat_nodes|]. exact E.
Qed.
Lemma flat_next pre x suf : ch r = pre ++ x :: suf -> next_candidate t bound r x = Some (hd_error suf).
Proof.
  intros E. assert (Hx : In x (ch r)) by (rewrite E, in_app_iff; right; now left). destruct (child_in I r x (root_in I) Hx) as [X _].
  destruct (i_ch _ _ _ _ _ _ _ I x X) as (_ & _ & N). rewrite (F x Hx) in N. unfold next_candidate. rewrite N. cbn [length Nat.ltb Nat.leb andb].
  assert (Nx : x <> r) by (intros ->; apply (root_notin I); now apply (child_in I r r (root_in I))). rewrite (proj2 (Nat.eqb_neq x r) Nx).
  destruct (i_par _ _ _ _ _ _ _ I r x (root_in I) Hx) as [P _]. unfold parent_of in P. cbn [ascend]. rewrite P, Nat.eqb_refl. cbn [negb]. rewrite andb_false_r.
  rewrite flat_nodes, E by exact F. pose proof (i_nd _ _ _ _ _ _ _ I) as ND. rewrite flat_nodes, E in ND by exact F. exact (after_nd (r :: pre) x suf ND).
Qed.
Lemma flat_find suf : forall pre fuel, ch r = pre ++ suf -> length suf < fuel ->
  (filter test suf = [] /\ find_result t bound test fuel r (hd_error suf) = Some None) \/
  exists a x b, suf = a ++ x :: b /\ filter test suf = x :: filter test b /\ find_result t bound test fuel r (hd_error suf) = Some (Some x).
Proof.
  induction suf as [|x suf IH]; intros pre fuel E L1; (destruct fuel as [|fuel]; [cbn in L1; lia|]); cbn [find_result hd_error filter]; rewrite flat_end; cbn [ref_eqb].
  - now left.
  - destruct (test x) eqn:T; [right; exists [], x, suf; now repeat split|]. rewrite (flat_next pre x suf E).
    destruct (IH (pre ++ [x]) fuel) as [[A B]|(a & y & b & A & B & C)]; [now rewrite <- app_assoc|cbn in L1; lia|now left|].
    right. exists (x :: a), y, b. split; [now rewrite A|]. now split.
Qed.
Lemma flat_query fuel : forall pre suf, ch r = pre ++ suf -> length suf < fuel -> query_from t bound test fuel r (hd_error suf) = Some (filter test suf).
Proof.
  induction fuel as [|fuel IH]; intros pre suf E L1; [lia|]. cbn [query_from]. rewrite flat_end.
  assert (Ln : length suf < S (length (nodes t))) by (rewrite flat_nodes, E by exact F; cbn; rewrite app_length; lia).
  destruct (flat_find suf pre (S (length (nodes t))) E Ln) as [[A B]|(a & x & b & A & B & C)].
  - rewrite B, A. reflexivity.
  - rewrite C. cbn [ref_eqb]. assert (E2 : ch r = (pre ++ a) ++ x :: b) by (rewrite E, A, app_assoc; reflexivity). rewrite (flat_next (pre ++ a) x b E2).
    rewrite (IH ((pre ++ a) ++ [x]) b); [now rewrite B|now rewrite <- app_assoc|]. rewrite A, app_length in L1. cbn in L1. lia.
Qed.
Lemma flat_root_next : next_candidate t bound r r = Some (if bound r then hd_error (ch r) else None).
Proof.
  unfold next_candidate, begin. destruct (i_ch _ _ _ _ _ _ _ I r (root_in I)) as (Cf & _ & N). rewrite N, Cf, Nat.eqb_refl, flat_end.
  destruct (ch r); cbn; destruct (bound r); reflexivity.
Qed.
Lemma none_query fuel : 0 < fuel -> query_from t bound test fuel r None = Some [].
Proof. intros H. destruct fuel; [lia|]. cbn [query_from find_result]. rewrite flat_end. reflexivity. Qed.
Lemma query_S fuel item : query_from t bound test (S fuel) r item = match find_result t bound test (S (length (nodes t))) r item with
  | Some None => Some []
  | Some (Some k) => match next_candidate t bound r k with Some i => match query_from t bound test fuel r i with Some rest => Some (k :: rest) | None => None end | None => None end
  | None => None end.
Proof. cbn [query_from]. rewrite flat_end. destruct (find_result _ _ _ _ _ _) as [[k|]|]; reflexivity. Qed.
Lemma find_S fuel k : find_result t bound test (S fuel) r (Some k) = if test k then Some (Some k) else match next_candidate t bound r k with Some i => find_result t bound test fuel r i | None => None end.
Proof. cbn [find_result]. rewrite flat_end. reflexivity. Qed.
Lemma query_flat : query t bound test r = Some (filter test (r :: if bound r then ch r else [])).
Proof.
  unfold query. assert (Ln : length (nodes t) = S (length (ch r))) by (now rewrite flat_nodes).
  assert (Go : forall fuel, length (ch r) < fuel -> query_from t bound test fuel r (if bound r then hd_error (ch r) else None) = Some (filter test (if bound r then ch r else []))).
  { intros fuel H. destruct (bound r); [apply (flat_query fuel []); [reflexivity|assumption]|apply none_query; lia]. }
  rewrite query_S, find_S. assert (Lm : length (nodes t) = S (length (ch r))) by exact Ln. cbn [filter]. destruct (test r) eqn:T.
  - cbn [ref_eqb]. rewrite flat_root_next, Go by lia. reflexivity.
  - rewrite flat_root_next, Lm.
    assert (Fi : exists res, find_result t bound test (S (length (ch r))) r (if bound r then hd_error (ch r) else None) = Some res /\
       match res with None => filter test (if bound r then ch r else []) = [] | Some x => exists a b, (if bound r then ch r else []) = a ++ x :: b /\ ch r = a ++ x :: b /\ filter test (if bound r then ch r else []) = x :: filter test b end).
    { destruct (bound r).
      - destruct (flat_find (ch r) [] (S (length (ch r))) eq_refl) as [[A B]|(a & x & b & A & B & C)]; [lia|now exists None|]. exists (Some x). split; [assumption|]. now exists a, b.
      - exists None. split; [cbn [find_result]; rewrite flat_end; reflexivity|reflexivity]. }
    destruct Fi as (res & E & Q). cbv iota.
    match goal with |- context [find_result ?a ?b ?c ?d ?e ?f] => replace (find_result a b c d e f) with (Some res) by (symmetry; exact E) end. destruct res as [x|]; [|now rewrite Q].
    destruct Q as (a & b & _ & Ec & Ef). cbn [ref_eqb]. rewrite (flat_next a x b Ec). rewrite (flat_query (S (length (ch r))) (a ++ [x]) b); [now rewrite Ef|now rewrite <- app_assoc|].
    rewrite Ec, app_length. cbn. lia.
Qed.
End Flat.
Lemma erase_range_end l : erase_range l None = Some [].
Proof. induction l as [|y l IH]; [reflexivity|]. cbn. exact IH. Qed.
Lemma erase_from_start y l : erase_from (y :: l) (Some y) None = Some [].
Proof. cbn [erase_from]. rewrite ref_eqb_refl. apply erase_range_end. Qed.
Lemma erase_none l x : In x l -> erase_from l (Some x) (Some x) = Some l.
Proof.
  induction l as [|y l IH]; intros H; [destruct H|]. cbn [erase_from]. destruct (ref_eqb_spec (Some y) (Some x)) as [E|E].
  - injection E as ->. cbn [erase_range]. now rewrite ref_eqb_refl.
  - rewrite IH; [reflexivity|]. destruct H as [->|H]; [congruence|assumption].
Qed.
Lemma flatten_root_ok : (forall c, In c (ch r) -> ch c = []) -> exists t', flatten t r = Some t' /\ nodes t' = [r] /\ node_count t' r = 0 /\ item_count t' r = item_count t r /\ items t' = items t /\ item_at t' = item_at t.
Proof.
  intros F. destruct (i_ch _ _ _ _ _ _ _ I r (root_in I)) as (Cf & _ & N). pose proof (flat_nodes F) as En. pose proof (i_nd _ _ _ _ _ _ _ I) as ND. unfold flatten. rewrite N. destruct (ch r) as [|c0 cs] eqn:E.
  - cbn [length Nat.eqb]. exists t. now repeat split.
  - cbn [length Nat.eqb]. rewrite (node_successor_root I), Cf. cbn [hd_error]. rewrite En in *. cbn [erase_from].
    destruct (ref_eqb_spec (Some r) (Some c0)) as [X|X].
    { injection X as ->. inversion ND as [|? ? N1 _]. exfalso. apply N1. now left. }
    rewrite ref_eqb_refl, erase_range_end. eexists. split; [reflexivity|]. split; [reflexivity|].
    unfold node_count, item_count. cbn [node_at set_node set_nodes]. rewrite upd_same. now repeat split.
Qed.
Lemma flatten_other_ok k : In k (nodes t) -> k <> r -> ch k <> [] -> exists t', flatten t k = Some t' /\ nodes t' = nodes t /\ node_count t' k = 0 /\ forall c, In c (ch k) -> parent_of t' c = Some k.
Proof.
  intros H Nr C. destruct (i_ch _ _ _ _ _ _ _ I k H) as (Cf & _ & N). destruct (parent_spec I k H) as [[-> _]|(p & P & _)]; [congruence|].
  unfold flatten. rewrite N. pose proof (node_successor_self I k p H P C) as S1. destruct (ch k) as [|c0 cs] eqn:E; [congruence|]. cbn [length Nat.eqb]. rewrite S1, Cf. cbn [hd_error].
  rewrite erase_none; [|apply (child_in I k c0 H); rewrite E; now left].
  eexists. split; [reflexivity|]. split; [reflexivity|]. unfold node_count, parent_of. cbn [node_at set_node set_nodes]. rewrite upd_same. split; [reflexivity|].
  intros c X. rewrite <- E in X. destruct (i_par _ _ _ _ _ _ _ I k c H X) as [Pc Dc]. destruct (Nat.eq_dec c k) as [->|Z]; [lia|]. now rewrite upd_other.
Qed.
End Inv.
Lemma find_fact t x k xs : reachable t -> In k (nodes t) -> node_count t k = 0 -> items_of t k = Some xs -> In x xs -> forall r, root t = Some r -> find_parent t r x = Some (inl k).
Proof.
  intros R H C Hi X r0 Hr. destruct (reachable_valid t R) as (r & ch & its & gs & ls & dep & I). unfold root in Hr. rewrite (hd_root _ _ _ _ _ _ _ I) in Hr. injection Hr as <-.
  apply (leaf_count _ _ _ _ _ _ _ _ I H) in C. rewrite (items_of_ok I k H C) in Hi. injection Hi as <-. now apply (find_root I).
Qed.
Lemma flat_guard t r cs : reachable t -> root t = Some r -> children t r = Some cs -> (forall c, In c cs -> node_count t c = 0) ->
  exists ch its gs ls dep, inv t r ch its gs ls dep /\ ch r = cs /\ forall c, In c (ch r) -> ch c = [].
Proof.
  intros R Hr Hc F. destruct (reachable_valid t R) as (r0 & ch & its & gs & ls & dep & I). unfold root in Hr. rewrite (hd_root _ _ _ _ _ _ _ I) in Hr. injection Hr as ->.
  rewrite (children_ok I r (root_in I)) in Hc. injection Hc as Hc. exists ch, its, gs, ls, dep. split; [assumption|]. split; [assumption|].
  intros c X. apply (leaf_count _ _ _ _ _ _ _ _ I); [now apply (child_in I r c (root_in I))|]. apply F. now rewrite <- Hc.
Qed.
Lemma query_fact t r cs bound test : reachable t -> root t = Some r -> children t r = Some cs -> (forall c, In c cs -> node_count t c = 0) -> query t bound test r = Some (filter test (r :: if bound r then cs else [])).
Proof. intros R Hr Hc F. destruct (flat_guard t r cs R Hr Hc F) as (ch & its & gs & ls & dep & I & <- & F'). exact (query_flat I F' bound test). Qed.
Lemma flatten_fact t r cs : reachable t -> root t = Some r -> children t r = Some cs -> (forall c, In c cs -> node_count t c = 0) ->
  exists t', flatten t r = Some t' /\ nodes t' = [r] /\ node_count t' r = 0 /\ item_count t' r = item_count t r /\ items t' = items t /\ item_at t' = item_at t.
Proof. intros R Hr Hc F. destruct (flat_guard t r cs R Hr Hc F) as (ch & its & gs & ls & dep & I & _ & F'). exact (flatten_root_ok I F'). Qed.
Lemma flatten_other t k cs : reachable t -> In k (nodes t) -> root t <> Some k -> children t k = Some cs -> cs <> [] -> exists t', flatten t k = Some t' /\ nodes t' = nodes t /\ node_count t' k = 0 /\ forall c, In c cs -> parent_of t' c = Some k.
Proof.
  intros R H Nr Hc C. destruct (reachable_valid t R) as (r & ch & its & gs & ls & dep & I). unfold root in Nr. rewrite (hd_root _ _ _ _ _ _ _ I) in Nr.
  rewrite (children_ok I k H) in Hc. injection Hc as <-. apply (flatten_other_ok I k H); congruence.
Qed.
Lemma flatten_items t k t' : flatten t k = Some t' -> item_count t' k = item_count t k.
Proof.
  unfold flatten. destruct (n_children (node_at t k) =? 0); [now intros [= <-]|]. destruct (node_successor t k); [|discriminate]. destruct (erase_from _ _ _); [|discriminate]. intros [= <-].
  unfold item_count. cbn [node_at set_node set_nodes]. now rewrite upd_same.
Qed.
Lemma clear_stuck t k : 0 < item_count t k -> clear t k = None.
Proof.
  intros H. unfold clear. destruct (flatten t k) as [t'|] eqn:F; [|reflexivity]. apply flatten_items in F. unfold item_count in *. destruct (Nat.ltb_spec 0 (n_items (node_at t' k))); [reflexivity|lia].
Qed.
Lemma range_count d v vals : length (items (tree_of_items d v vals : tree D L)) = length vals /\ item_count (tree_of_items d v vals) 0 = 1.
Proof. split; [cbn; apply seq_length|reflexivity]. Qed.
End More.
(** ** Trees made by programs *)
Lemma made os (P : tree nat nat -> Prop) : match run (new_tree 0 0) os with Some t => P t | None => False end -> exists t, run (new_tree 0 0) os = Some t /\ reachable t /\ P t.
Proof. destruct (run (new_tree 0 0) os) as [t|] eqn:E; [|intros []]. intros H. exists t. split; [reflexivity|]. split; [|assumption]. exact (run_reachable os _ t (made_empty 0 0) E). Qed.
Lemma two_levels_ok : exists t, run (new_tree 0 0) two_levels = Some t /\ reachable t /\ (nodes t = [0; 1; 2; 3; 4] /\ map (children t) (nodes t) = [Some [1; 2]; Some [3; 4]; Some []; Some []; Some []] /\
  map (item_count t) (nodes t) = [4; 3; 1; 2; 1] /\ map (items_of t) [2; 3; 4] = [Some [3]; Some [1; 4]; Some [2]] /\ values t [3; 1; 4; 2] = [5; 1; 7; 2]).
Proof. apply made. vm_compute. repeat split. Qed.
Lemma items_broken : exists t, run (new_tree 0 0) two_levels = Some t /\ reachable t /\ (item_count t 1 = 3 /\ items_of t 1 = Some [] /\ depth_first_items t 3 1 = [1; 4; 2] /\
  item_count t 0 = 4 /\ items_of t 0 = Some [1; 4; 3] /\ items t = [2; 1; 4; 3] /\ depth_first_items t 3 0 = [1; 4; 2; 3]).
Proof. apply made. vm_compute. repeat split. Qed.
Lemma find_broken : exists t, run (new_tree 0 0) two_levels = Some t /\ reachable t /\ (parent_of t 3 = Some 1 /\ items_of t 3 = Some [1; 4] /\ find_parent t 1 1 = Some (inr None)).
Proof. apply made. vm_compute. repeat split. Qed.
Lemma order_broken : exists t, run (new_tree 0 0) a_chain = Some t /\ reachable t /\ (map (children t) [0; 1; 2; 3] = [Some [1]; Some [2]; Some [3]; Some []] /\ documented_order t 4 0 = [1; 2; 3] /\ nodes t = [0; 1; 3; 2]).
Proof. apply made. vm_compute. repeat split. Qed.
Lemma query_broken : exists t, run (new_tree 0 0) two_levels = Some t /\ reachable t /\ (nodes t = [0; 1; 2; 3; 4] /\ query t (fun _ => true) (fun _ => true) 0 = Some [0; 1]).
Proof. apply made. vm_compute. repeat split. Qed.
Lemma equal_broken : exists t s, run (new_tree 0 0) left_last = Some t /\ run (new_tree 0 0) left_first = Some s /\ reachable t /\ reachable s /\ root t = Some 0 /\ root s = Some 0 /\
  shape_of t 5 0 = Shape 0 [] [Shape 10 [] [Shape 11 [] [Shape 15 [] []]; Shape 12 [] [Shape 13 [] [Shape 14 [] []]]]] /\ shape_of s 5 0 = shape_of t 5 0 /\ tree_eqb Nat.eqb Nat.eqb t s = false.
Proof.
  destruct (run (new_tree 0 0) left_last) as [t|] eqn:E; [|exfalso; vm_compute in E; discriminate]. destruct (run (new_tree 0 0) left_first) as [s|] eqn:F; [|exfalso; vm_compute in F; discriminate].
  exists t, s. split; [reflexivity|]. split; [reflexivity|]. split; [exact (run_reachable _ _ t (made_empty 0 0) E)|]. split; [exact (run_reachable _ _ s (made_empty 0 0) F)|].
  vm_compute in E, F. injection E as <-. injection F as <-. vm_compute. repeat split.
Qed.
Lemma split_broken : exists t, run (new_tree 0 0) sorted_leaf = Some t /\ reachable t /\ (exists xs t' lo u w, items_of t 1 = Some xs /\ values t xs = [1; 2; 5; 6] /\ split t 1 (fun v => v <? 3) 20 = Some (t', Some lo) /\
  items_of t' lo = Some u /\ items_of t' 1 = Some w /\ values t' u = [2; 1] /\ values t' w = [5; 6]).
Proof. apply made. vm_compute. do 5 eexists. repeat split. Qed.
(** Trees that are walked the same are compared equal to themselves. *)
Lemma nodes_eqb_refl {D L} (deq : D -> D -> bool) (t : tree D L) a : (forall d, deq d d = true) -> nodes_eqb deq t t a a = true.
Proof. intros R. induction a as [|x a IH]; [reflexivity|]. cbn. now rewrite !Nat.eqb_refl, R, IH. Qed.
Lemma vals_eqb_refl {L} (leq : L -> L -> bool) a : (forall d, leq d d = true) -> vals_eqb leq a a = true.
Proof. intros R. induction a as [|x a IH]; [reflexivity|]. cbn. now rewrite R, IH. Qed.
(** Equality compares the nodes and the items in the order they are kept in. *)
Lemma nodes_eqb_iff {D L} (deq : D -> D -> bool) (t s : tree D L) : (forall d e, deq d e = true <-> d = e) -> forall a b,
  nodes_eqb deq t s a b = true <-> map (fun k => (item_count t k, node_count t k, data (node_at t k))) a = map (fun k => (item_count s k, node_count s k, data (node_at s k))) b.
Proof.
  intros R. induction a as [|x a IH]; intros [|y b]; cbn [nodes_eqb map]; try easy. rewrite !andb_true_iff, !Nat.eqb_eq, R, IH. unfold item_count, node_count.
  split; [intros (((-> & ->) & ->) & ->); reflexivity|]. intros H. injection H as -> -> -> ->. auto.
Qed.
Lemma vals_eqb_iff {L} (leq : L -> L -> bool) : (forall d e, leq d e = true <-> d = e) -> forall a b, vals_eqb leq a b = true <-> a = b.
Proof. intros R. induction a as [|x a IH]; intros [|y b]; cbn [vals_eqb]; try easy. rewrite andb_true_iff, R, IH. split; [intros (-> & ->); reflexivity|]. intros H. injection H as -> ->. auto. Qed.
Lemma tree_eqb_iff {D L} (deq : D -> D -> bool) (leq : L -> L -> bool) (t s : tree D L) : (forall d e, deq d e = true <-> d = e) -> (forall d e, leq d e = true <-> d = e) ->
  nodes t <> [] -> tree_eqb deq leq t s = true <->
  map (fun k => (item_count t k, node_count t k, data (node_at t k))) (nodes t) = map (fun k => (item_count s k, node_count s k, data (node_at s k))) (nodes s) /\
  values t (items t) = values s (items s).
Proof.
  intros Rd Rl Nt. unfold tree_eqb, values. pose proof (nodes_eqb_iff deq t s Rd (nodes t) (nodes s)) as Q.
  destruct (nodes t) as [|x a]; [easy|]. destruct (nodes s) as [|y b]; [split; [easy|]; now intros (? & _)|]. cbn [hd_error].
  rewrite !andb_true_iff, (vals_eqb_iff leq Rl), Q, Nat.eqb_eq. split; [tauto|]. intros (H1 & H2). split; [|exact H1]. split; [|exact H2].
  cbn [map] in H1. injection H1 as H1. exact H1.
Qed.
Lemma equal_differs : exists t s, run (new_tree 0 0) long_left = Some t /\ run (new_tree 0 0) long_right = Some s /\ reachable t /\ reachable s /\ root t = Some 0 /\ root s = Some 0 /\
  shape_of t 5 0 = Shape 0 [] [Shape 10 [] [Shape 10 [] [Shape 10 [] []]]; Shape 10 [] [Shape 10 [] [Shape 10 [] []]]] /\
  shape_of s 5 0 = Shape 0 [] [Shape 10 [] [Shape 10 [] []]; Shape 10 [] [Shape 10 [] [Shape 10 [] [Shape 10 [] []]]]] /\ tree_eqb Nat.eqb Nat.eqb t s = true.
Proof.
  destruct (run (new_tree 0 0) long_left) as [t|] eqn:E; [|exfalso; vm_compute in E; discriminate]. destruct (run (new_tree 0 0) long_right) as [s|] eqn:F; [|exfalso; vm_compute in F; discriminate].
  exists t, s. split; [reflexivity|]. split; [reflexivity|]. split; [exact (run_reachable _ _ t (made_empty 0 0) E)|]. split; [exact (run_reachable _ _ s (made_empty 0 0) F)|].
  vm_compute in E, F. injection E as <-. injection F as <-. vm_compute. repeat split.
Qed.
