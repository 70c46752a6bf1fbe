From Coq Require Import Reals ZArith List Bool Permutation Lia Lra.
From Verif Require Import LatticeModel LatticeSpec.
Import ListNotations.

Lemma bin_eqb_spec a : forall b, reflect (a = b) (bin_eqb a b).
Proof.
  induction a as [|x a IH]; intros [|y b]; cbn; try (constructor; congruence). destruct (Z.eqb_spec x y) as [->|E]; cbn; [|constructor; congruence].
  destruct (IH b) as [->|E]; constructor; congruence.
Qed.
Lemma bin_eqb_refl a : bin_eqb a a = true.
Proof. destruct (bin_eqb_spec a a); congruence. Qed.
(** ** The cells of a block *)
Inductive chain (lo hi : bin) : list bin -> Prop :=
| chain_last c : next_cell c lo hi = None -> chain lo hi [c]
| chain_step c d l : next_cell c lo hi = Some d -> chain lo hi (d :: l) -> chain lo hi (c :: d :: l).
Definition row (l h : Z) (tl : bin) : list bin := map (fun k => (l + Z.of_nat k)%Z :: tl) (seq 0 (Z.to_nat (Z.max 1 (h - l)))).
Fixpoint box (lo hi : bin) : list bin := match lo, hi with l :: lo, h :: hi => flat_map (row l h) (box lo hi) | _, _ => [[]] end.
Lemma row_chain lo hi l h tl rest : (next_cell tl lo hi = None /\ rest = []) \/ (exists d r, next_cell tl lo hi = Some d /\ rest = (l :: d) :: r /\ chain (l :: lo) (h :: hi) rest) ->
  forall k j, (S j + k = Z.to_nat (Z.max 1 (h - l)))%nat -> chain (l :: lo) (h :: hi) (map (fun k => (l + Z.of_nat k)%Z :: tl) (seq j (S k)) ++ rest).
Proof.
  intros H k. induction k as [|k IH]; intros j E.
  - cbn [seq map app]. destruct H as [[N ->]|(d & r & N & -> & C)].
    + constructor. cbn [next_cell]. rewrite N. destruct (Z.leb_spec h (l + Z.of_nat j + 1)); [reflexivity|lia].
    + constructor; [|assumption]. cbn [next_cell]. rewrite N. destruct (Z.leb_spec h (l + Z.of_nat j + 1)); [reflexivity|lia].
  - specialize (IH (S j)). change (seq j (S (S k))) with (j :: seq (S j) (S k)). cbn [map app]. remember (S k) as k' eqn:Ek. destruct (seq (S j) k') as [|j' s] eqn:Es; [subst k'; discriminate|].
    assert (j' = S j) by (subst k'; cbn in Es; congruence). subst j'. cbn [map app] in *. constructor; [|apply IH; lia].
    cbn [next_cell]. destruct (Z.leb_spec h (l + Z.of_nat j + 1)); [lia|]. f_equal. f_equal. lia.
Qed.
Lemma row_head l h tl : exists r, row l h tl = (l :: tl) :: r.
Proof.
  unfold row. destruct (Z.to_nat (Z.max 1 (h - l))) as [|n] eqn:E; [lia|]. cbn [seq map]. exists (map (fun k => (l + Z.of_nat k)%Z :: tl) (seq 1 n)). do 2 f_equal. lia.
Qed.
Lemma box_chain lo : forall hi, length lo = length hi -> chain lo hi (box lo hi).
Proof.
  induction lo as [|l lo IH]; intros [|h hi] E; try discriminate; cbn [box]; [now constructor|]. injection E as E. specialize (IH hi E).
  assert (En : exists k, (1 + k = Z.to_nat (Z.max 1 (h - l)))%nat) by (exists (Z.to_nat (Z.max 1 (h - l)) - 1)%nat; lia). destruct En as (k & En).
  induction IH as [c N|c d s N C IHC]; cbn [flat_map].
  - unfold row. rewrite <- En. apply (row_chain lo hi l h c []); [now left|assumption].
  - unfold row at 1. rewrite <- En. apply (row_chain lo hi l h c); [|assumption]. right. destruct (row_head l h d) as (r & Er). cbn [flat_map] in IHC.
    exists d, (r ++ flat_map (row l h) s). split; [assumption|]. rewrite Er in *. now split.
Qed.
Lemma box_head lo : forall hi, length lo = length hi -> exists r, box lo hi = lo :: r.
Proof.
  induction lo as [|l lo IH]; intros [|h hi] E; try discriminate; cbn [box]; [now exists []|]. injection E as E. destruct (IH hi E) as (r & ->). cbn [flat_map]. destruct (row_head l h lo) as (q & ->). cbn. eauto.
Qed.
Lemma flat_map_length_const {A B} (f : A -> list B) n l : (forall x, length (f x) = n) -> length (flat_map f l) = (n * length l)%nat.
Proof. intros H. induction l as [|x l IH]; cbn; [lia|]. rewrite app_length, H, IH. lia. Qed.
Lemma box_length lo : forall hi, length (box lo hi) = volume lo hi.
Proof.
  induction lo as [|l lo IH]; intros [|h hi]; cbn [box volume]; try reflexivity. rewrite (flat_map_length_const _ (Z.to_nat (Z.max 1 (h - l)))), IH; [reflexivity|].
  intros x. unfold row. now rewrite map_length, seq_length.
Qed.
Lemma in_row l h tl b : In b (row l h tl) <-> exists x, b = x :: tl /\ (l <= x /\ (x < h \/ x = l))%Z.
Proof.
  unfold row. rewrite in_map_iff. split.
  - intros (k & <- & K). apply in_seq in K. eexists. split; [reflexivity|]. lia.
  - intros (x & -> & X). exists (Z.to_nat (x - l)). split; [f_equal; lia|]. apply in_seq. lia.
Qed.
Lemma in_box lo : forall hi b, length lo = length hi -> (In b (box lo hi) <-> in_block lo hi b).
Proof.
  unfold in_block. induction lo as [|l lo IH]; intros [|h hi] b E; try discriminate; cbn [box].
  - split; [intros [<-|[]]; cbn; repeat split; lia|]. intros (H & _). destruct b; [now left|discriminate].
  - injection E as E. rewrite in_flat_map. split.
    + intros (tl & T & R). apply in_row in R. destruct R as (x & -> & X). apply IH in T; [|assumption]. destruct T as (T1 & T2 & T3). cbn [length]. split; [congruence|]. split; [congruence|].
      intros [|i] Hi; cbn [nth]; [lia|]. apply T3. lia.
    + intros (H1 & H2 & H3). destruct b as [|x b]; [discriminate|]. cbn [length] in *. exists b. split.
      * apply IH; [assumption|]. split; [congruence|]. split; [congruence|]. intros i Hi. apply (H3 (S i)). lia.
      * apply in_row. exists x. split; [reflexivity|]. apply (H3 0%nat). lia.
Qed.
Lemma nodup_app {A} (a b : list A) : NoDup a -> NoDup b -> (forall x, In x a -> ~ In x b) -> NoDup (a ++ b).
Proof.
  intros Na Nb D. induction Na as [|x a X Na IH]; [assumption|]. cbn. constructor.
  - rewrite in_app_iff. intros [Y|Y]; [contradiction|]. apply (D x); [now left|assumption].
  - apply IH. intros y Y. apply D. now right.
Qed.
Lemma row_nodup l h tl : NoDup (row l h tl).
Proof. unfold row. apply FinFun.Injective_map_NoDup; [|apply seq_NoDup]. intros x y E. injection E. lia. Qed.
Lemma box_nodup lo : forall hi, NoDup (box lo hi).
Proof.
  induction lo as [|l lo IH]; intros [|h hi]; cbn [box]; try (constructor; [easy|constructor]). specialize (IH hi).
  induction IH as [|t s T N IHs]; cbn [flat_map]; [constructor|]. apply nodup_app; [apply row_nodup|assumption|].
  intros b B C. apply in_row in B. destruct B as (x & -> & _). apply in_flat_map in C. destruct C as (t' & T' & C). apply in_row in C. destruct C as (y & [= _ ->] & _). contradiction.
Qed.
(** ** Walking the entries *)
Section Walk.
Context {V : Type}.
Implicit Types m : cells V.
Definition content m (c : bin) : cells V := filter (fun e => bin_eqb (fst e) c) m.
Lemma content_none m c : Forall (fun e => fst e <> c) m -> content m c = [].
Proof. induction 1 as [|e m E _ IH]; [reflexivity|]. cbn. destruct (bin_eqb_spec (fst e) c); [contradiction|exact IH]. Qed.
Lemma content_all m c : Forall (fun e => fst e = c) m -> content m c = m.
Proof. induction 1 as [|e m E _ IH]; [reflexivity|]. cbn. rewrite E, bin_eqb_refl. f_equal. exact IH. Qed.
Lemma content_app m n c : content (m ++ n) c = content m c ++ content n c.
Proof. apply filter_app. Qed.
Lemma grouped_tail e m : grouped (e :: m) -> grouped m.
Proof. intros G a x b y c E F. apply (G (e :: a) x b y c); [now rewrite E|assumption]. Qed.
Lemma prefix m c : exists g tail, m = g ++ tail /\ Forall (fun e => fst e = c) g /\ match tail with [] => True | x :: _ => fst x <> c end.
Proof.
  induction m as [|e m IH]; [now exists [], []|]. destruct (bin_eqb_spec (fst e) c) as [E|E].
  - destruct IH as (g & tail & -> & G & T). exists (e :: g), tail. split; [reflexivity|]. split; [now constructor|assumption].
  - exists [], (e :: m). now repeat split.
Qed.
(** find_cell is at the entries of the cell, followed by others. *)
Lemma find_ok m c : grouped m -> match find_cell m c with
  | None => content m c = []
  | Some i => exists tail, i = content m c ++ tail /\ content m c <> [] /\ match tail with [] => True | x :: _ => fst x <> c end end.
Proof.
  induction m as [|e m IH]; intros G; [reflexivity|]. cbn [find_cell content filter]. destruct (bin_eqb_spec (fst e) c) as [E|E].
  - destruct (prefix m c) as (g & tail & -> & P & T). exists tail.
    assert (N : Forall (fun x => fst x <> c) tail).
    { destruct tail as [|x tail]; [constructor|]. apply Forall_forall. intros y Y. intros F. apply in_split in Y. destruct Y as (u & w & Y).
      assert (Q : Forall (fun z => fst z = fst e) (g ++ u)) by (apply (G [] e (g ++ u) y w); [cbn [app]; rewrite Y, <- app_assoc; reflexivity|congruence]).
      apply Forall_app in Q. destruct Q as [_ Q]. destruct u as [|x' u]; cbn in Y; [injection Y as -> _; congruence|]. injection Y as -> _. inversion Q. congruence. }
    change (filter (fun e => bin_eqb (fst e) c) (g ++ tail)) with (content (g ++ tail) c). rewrite content_app, (content_all g c P), (content_none tail c N), app_nil_r.
    split; [reflexivity|]. split; [discriminate|assumption].
  - apply IH. now apply grouped_tail in G.
Qed.
Definition at_cell m (i : option (cells V)) (rest : list bin) : Prop :=
  match i with
  | None => flat_map (content m) rest = []
  | Some l => exists a c r g tail, rest = a ++ c :: r /\ flat_map (content m) a = [] /\ l = g ++ tail /\ g = content m c /\ g <> [] /\ match tail with [] => True | x :: _ => fst x <> c end
  end.
Lemma goto_ok m lo hi : grouped m -> forall rest c fuel, chain lo hi (c :: rest) -> (length rest < fuel)%nat -> exists i, goto_next m fuel c lo hi = Some i /\ at_cell m i rest.
Proof.
  intros G. induction rest as [|d rest IH]; intros c fuel C F; (destruct fuel as [|fuel]; [cbn in F; lia|]); cbn [goto_next].
  - inversion C as [? N|]; subst. rewrite N. exists None. split; reflexivity.
  - inversion C as [|? ? ? N C']; subst. rewrite N. pose proof (find_ok m d G) as Fd. destruct (find_cell m d) as [i|].
    + destruct Fd as (tail & E & Ne & T). exists (Some i). split; [reflexivity|]. exists [], d, rest, (content m d), tail. repeat split; assumption.
    + destruct (IH d fuel C') as (i & E & A); [cbn in F; lia|]. exists i. split; [assumption|]. destruct i as [l|]; cbn [at_cell] in *.
      * destruct A as (a & c' & r & g & tail & -> & A & Q). exists (d :: a), c', r, g, tail. split; [reflexivity|]. split; [cbn [flat_map]; now rewrite Fd, A|assumption].
      * cbn [flat_map]. now rewrite Fd, A.
Qed.
Lemma chain_skip lo hi a : forall c r, chain lo hi (a ++ c :: r) -> chain lo hi (c :: r).
Proof. induction a as [|x a IH]; intros c r C; [assumption|]. cbn in C. inversion C as [? ? E|? ? ? ? C' E]; subst; [destruct a; discriminate|]. apply IH. now rewrite H0 in C'. Qed.
Lemma incr_last m fuel lo hi e tail c : fst e = c -> match tail with [] => True | x :: _ => fst x <> c end -> increment m fuel lo hi (Some (e :: tail)) = goto_next m fuel c lo hi.
Proof. intros <- T. cbn [increment]. destruct tail as [|x tail]; [reflexivity|]. destruct (bin_eqb_spec (fst x) (fst e)); [contradiction|reflexivity]. Qed.
Lemma visit_ok m lo hi fuel : grouped m -> forall steps rest i, at_cell m i rest -> (forall a c r, rest = a ++ c :: r -> chain lo hi (c :: r)) -> (length rest <= fuel)%nat -> (length (flat_map (content m) rest) < steps)%nat ->
  visit m fuel lo hi steps i = Some (map snd (flat_map (content m) rest)).
Proof.
  intros G. 
  assert (Cell : forall steps g c r tail, Forall (fun e => fst e = c) g -> g <> [] -> match tail with [] => True | x :: _ => fst x <> c end -> chain lo hi (c :: r) -> (length r < fuel)%nat -> (length (g ++ flat_map (content m) r) < steps)%nat ->
    visit m fuel lo hi steps (Some (g ++ tail)) = Some (map snd (g ++ flat_map (content m) r))).
  { induction steps as [|steps IH]; intros g c r tail P Ne T C F S; [lia|]. destruct g as [|e g]; [congruence|]. cbn [app visit increment].
    pose proof (Forall_inv P) as Pe. pose proof (Forall_inv_tail P) as Pg. cbn beta in Pe.
    destruct g as [|e2 g].
    - cbn [app]. pose proof (incr_last m fuel lo hi e tail c Pe T) as J. cbn [increment] in J.
      rewrite J. destruct (goto_ok m lo hi G r c fuel C F) as (i & -> & A). cbn [at_cell] in A.
      assert (Fin : visit m fuel lo hi steps i = Some (map snd (flat_map (content m) r))).
      { destruct i as [l|].
        - destruct A as (a & c' & r' & g' & tail' & Er & Ea & -> & Eg & Ne' & T'). rewrite Er, flat_map_app, Ea. cbn [flat_map app]. rewrite <- Eg.
          assert (Sl : (length (g' ++ flat_map (content m) r') < steps)%nat).
          { cbn [app length] in S. rewrite Er, flat_map_app, Ea in S. cbn [flat_map app] in S. rewrite <- Eg in S. apply PeanoNat.Nat.succ_lt_mono in S. exact S. }
          apply (IH g' c' r' tail'); try assumption.
          + rewrite Eg. apply Forall_forall. intros x X. apply filter_In in X. destruct X as [_ X]. destruct (bin_eqb_spec (fst x) c'); congruence.
          + rewrite Er in C. apply (chain_skip lo hi (c :: a)). exact C.
          + rewrite Er, app_length in F. cbn in F. lia.
        - rewrite A. destruct steps; [cbn in S; lia|]. reflexivity. }
      rewrite Fin. reflexivity.
    - cbn [app]. rewrite (Forall_inv Pg), Pe, bin_eqb_refl.
      assert (Q : visit m fuel lo hi steps (Some ((e2 :: g) ++ tail)) = Some (map snd ((e2 :: g) ++ flat_map (content m) r))).
      { apply (IH (e2 :: g) c r tail); try assumption; [discriminate|]. apply PeanoNat.Nat.succ_lt_mono in S. exact S. }
      match goal with |- context [visit m fuel lo hi steps ?i] => replace (visit m fuel lo hi steps i) with (Some (map snd ((e2 :: g) ++ flat_map (content m) r))) by (symmetry; exact Q) end. reflexivity. }
  intros steps rest i A C F S. destruct i as [l|]; cbn [at_cell] in A.
  - destruct A as (a & c & r & g & tail & Er & Ea & -> & Eg & Ne & T). rewrite Er, flat_map_app, Ea in *. cbn [flat_map app] in *. rewrite <- Eg in *.
    apply (Cell steps g c r tail); try assumption.
    + rewrite Eg. apply Forall_forall. intros x X. apply filter_In in X. destruct X as [_ X]. destruct (bin_eqb_spec (fst x) c); congruence.
    + exact (C a c r eq_refl).
    + rewrite app_length in F. cbn in F. lia.
  - rewrite A in *. destruct steps; [cbn in S; lia|]. reflexivity.
Qed.
Lemma perm_filter_or (p q : entry V -> bool) m : (forall e, In e m -> p e = true -> q e = false) -> Permutation (filter p m ++ filter q m) (filter (fun e => p e || q e) m).
Proof.
  induction m as [|e m IH]; intros D; [constructor|]. cbn [filter]. specialize (IH (fun x X => D x (or_intror X))). pose proof (D e (or_introl eq_refl)) as De.
  destruct (p e); cbn [orb app]; [rewrite De by reflexivity; now constructor|]. destruct (q e); [|assumption]. apply Permutation_sym, Permutation_cons_app, Permutation_sym, IH.
Qed.
Definition within (L : list bin) (e : entry V) : bool := existsb (bin_eqb (fst e)) L.
Lemma contents_perm m L : NoDup L -> Permutation (flat_map (content m) L) (filter (within L) m).
Proof.
  induction 1 as [|c L N _ IH]; cbn [flat_map].
  - assert (filter (within []) m = []) as ->; [|constructor]. induction m; [reflexivity|assumption].
  - eapply Permutation_trans; [apply Permutation_app_head, IH|]. unfold content.
    eapply Permutation_trans; [apply perm_filter_or|].
    + intros e _ E. destruct (bin_eqb_spec (fst e) c) as [X|]; [|discriminate]. apply not_true_is_false. intros W. unfold within in W. apply existsb_exists in W. destruct W as (d & D & W).
      destruct (bin_eqb_spec (fst e) d); [|discriminate]. congruence.
    + apply Permutation_refl'. apply filter_ext. intros e. reflexivity.
Qed.
Lemma filter_split (p : entry V -> bool) m : Permutation (filter p m ++ filter (fun e => negb (p e)) m) m.
Proof.
  eapply Permutation_trans; [apply perm_filter_or|]; [intros e _ ->; reflexivity|]. apply Permutation_refl'.
  induction m as [|e m IH]; [reflexivity|]. cbn [filter]. rewrite orb_negb_r. now f_equal.
Qed.
Lemma filter_len {A} (p : A -> bool) l : (length (filter p l) <= length l)%nat.
Proof. induction l as [|x l IH]; cbn; [lia|]. destruct (p x); cbn; lia. Qed.
Lemma region_ok m fuel lo hi : grouped m -> length lo = length hi -> (volume lo hi <= fuel)%nat -> region_items m fuel lo hi = Some (map snd (flat_map (content m) (box lo hi))).
Proof.
  intros G E F. destruct (box_head lo hi E) as (r & Eb). pose proof (box_chain lo hi E) as C. pose proof (box_length lo hi) as Ln. rewrite Eb in *. cbn [length] in Ln.
  assert (S : (length (flat_map (content m) (lo :: r)) < S (length m))%nat).
  { pose proof (contents_perm m (lo :: r)) as P. rewrite <- Eb in *. specialize (P (box_nodup lo hi)). apply Permutation_length in P. rewrite P. pose proof (filter_len (within (box lo hi)) m). lia. }
  assert (Ch : forall a c s, lo :: r = a ++ c :: s -> chain lo hi (c :: s)) by (intros a c s Q; apply (chain_skip lo hi a c s); exact (eq_ind _ (chain lo hi) C _ Q)).
  unfold region_items, start. pose proof (find_ok m lo G) as Fl. destruct (find_cell m lo) as [i|].
  - apply visit_ok; try assumption; [|cbn [length]; lia]. destruct Fl as (tail & -> & Ne & T). exists [], lo, r, (content m lo), tail. now repeat split.
  - destruct (goto_ok m lo hi G r lo fuel C) as (i & -> & A); [lia|]. cbn [flat_map] in *. rewrite Fl in *. cbn [app] in *. apply visit_ok; try assumption; [|lia].
    intros a c s Q. apply (Ch (lo :: a)). cbn. now rewrite Q.
Qed.
(** ** What a lattice holds *)
Definition as_entry (cs : R) (x : item V) : entry V := entry_of cs (fst x) (snd x).
Lemma as_snd cs x : snd (as_entry cs x) = x.
Proof. now destruct x. Qed.
Lemma grouped_remove a e b : grouped (a ++ e :: b : cells V) -> grouped (a ++ b).
Proof.
  intros G u x v y w E F. apply app_eq_app in E. destruct E as (l & [[-> E]|[-> ->]]).
  - destruct l as [|x' l]; cbn [app] in E.
    + subst b. apply (G (u ++ [e]) x v y w); [rewrite app_nil_r, <- app_assoc; reflexivity|assumption].
    + injection E as <- E. apply app_eq_app in E. destruct E as (l2 & [[-> ->]|[-> E]]).
      * assert (Q : Forall (fun z => fst z = fst x) (l ++ e :: l2)) by (apply (G u x (l ++ e :: l2) y w); [rewrite <- !app_assoc; reflexivity|assumption]).
        apply Forall_app in Q. destruct Q as [Q1 Q2]. apply Forall_app. split; [assumption|]. now inversion Q2.
      * destruct l2 as [|y' l2]; cbn [app] in E.
        -- subst b. assert (Q : Forall (fun z => fst z = fst x) (v ++ [e])) by (apply (G u x (v ++ [e]) y w); [rewrite app_nil_r, <- !app_assoc; reflexivity|assumption]). now apply Forall_app in Q.
        -- injection E as <- ->. apply (G u x v y (l2 ++ e :: b)); [|assumption]. rewrite <- !app_assoc. cbn. now rewrite <- app_assoc.
  - apply (G (a ++ e :: l) x v y w); [now rewrite <- app_assoc|assumption].
Qed.
Lemma holds_ok cs m xs : holds cs m xs -> grouped m /\ Permutation m (map (as_entry cs) xs).
Proof.
  induction 1 as [|m xs p v m' H [G P] G' P'|m xs a e b H [G P] -> ys Y|m xs m' ys H [G P] G' P' Y].
  - split; [|constructor]. intros [|z a] e b e' c E; discriminate.
  - split; [assumption|]. eapply Permutation_trans; [exact P'|]. cbn [map]. constructor. exact P.
  - split; [now apply grouped_remove in G|].
    assert (Ee : e = as_entry cs (snd e)).
    { assert (I : In e (map (as_entry cs) xs)) by (apply (Permutation_in _ P), in_app_iff; right; now left). apply in_map_iff in I. destruct I as (x & <- & _). now rewrite as_snd. }
    apply (Permutation_cons_inv (a := e)). eapply Permutation_trans; [apply Permutation_middle|]. eapply Permutation_trans; [exact P|].
    rewrite Ee at 1. change (as_entry cs (snd e) :: map (as_entry cs) ys) with (map (as_entry cs) (snd e :: ys)). apply Permutation_map, Permutation_sym, Y.
  - split; [assumption|]. eapply Permutation_trans; [exact P'|]. eapply Permutation_trans; [exact P|]. apply Permutation_map, Permutation_sym, Y.
Qed.
Lemma holds_size cs m xs : holds cs m xs -> size m = length xs.
Proof. intros H. apply holds_ok in H. destruct H as [_ P]. apply Permutation_length in P. now rewrite map_length in P. Qed.
Lemma query_ok cs m xs fuel p r : holds cs m xs ->
  let lo := bin_lo cs (map (fun x => x - r)%R p) in let hi := bin_hi cs (map (fun x => x + r)%R p) in
  (volume lo hi <= fuel)%nat -> exists res rest, query_near cs m fuel p r = Some res /\ Permutation (res ++ rest) xs /\
    Forall (fun x => in_block lo hi (bin_of cs (fst x))) res /\ Forall (fun x => ~ in_block lo hi (bin_of cs (fst x))) rest.
Proof.
  intros H lo hi F. apply holds_ok in H. destruct H as [G P]. assert (E : length lo = length hi) by (unfold lo, hi, bin_lo, bin_hi; now rewrite !map_length).
  exists (map snd (flat_map (content m) (box lo hi))), (map snd (filter (fun e => negb (within (box lo hi) e)) m)).
  split; [apply region_ok; assumption|].
  assert (Key : forall e, In e m -> fst e = bin_of cs (fst (snd e))).
  { intros e X. apply (Permutation_in _ P) in X. apply in_map_iff in X. destruct X as (x & <- & _). reflexivity. }
  split; [|split].
  - rewrite <- map_app. eapply Permutation_trans; [apply Permutation_map|].
    + eapply Permutation_trans; [apply Permutation_app_tail, contents_perm, box_nodup|]. eapply Permutation_trans; [apply filter_split|exact P].
    + rewrite map_map. rewrite (map_ext _ (fun x => x)); [rewrite map_id; apply Permutation_refl|]. intros x. apply as_snd.
  - apply Forall_forall. intros x X. apply in_map_iff in X. destruct X as (e & <- & X). apply in_flat_map in X. destruct X as (c & C & X). apply filter_In in X. destruct X as [X Q].
    rewrite <- (Key e X). destruct (bin_eqb_spec (fst e) c) as [->|]; [|discriminate]. now apply in_box.
  - apply Forall_forall. intros x X. apply in_map_iff in X. destruct X as (e & <- & X). apply filter_In in X. destruct X as [X Q]. rewrite <- (Key e X). intros B. apply in_box in B; [|assumption].
    assert (W : within (box lo hi) e = true) by (apply existsb_exists; exists (fst e); split; [assumption|apply bin_eqb_refl]). rewrite W in Q. discriminate.
Qed.
End Walk.
(** ** Coordinates *)
Open Scope R_scope.
Lemma floor_spec x : IZR (floorZ x) <= x < IZR (floorZ x) + 1.
Proof. unfold floorZ. destruct (base_Int_part x). lra. Qed.
Lemma ceil_spec x : IZR (ceilZ x) - 1 < x <= IZR (ceilZ x).
Proof. unfold ceilZ. rewrite opp_IZR. destruct (base_Int_part (- x)). lra. Qed.
Lemma floor_int k : floorZ (IZR k) = k.
Proof. destruct (floor_spec (IZR k)) as [A B]. apply le_IZR in A. rewrite <- plus_IZR in B. apply lt_IZR in B. lia. Qed.
Lemma ceil_int k : ceilZ (IZR k) = k.
Proof. destruct (ceil_spec (IZR k)) as [A B]. apply le_IZR in B. rewrite <- minus_IZR in A. apply lt_IZR in A. lia. Qed.
Lemma bin_nth (f : R -> Z) (q : point) i : (i < length q)%nat -> nth i (map f q) 0%Z = f (nth i q 0).
Proof. intros H. rewrite (nth_indep _ 0%Z (f 0)) by (now rewrite map_length). apply map_nth. Qed.
Lemma shift_nth (f : R -> R) (q : point) i : (i < length q)%nat -> nth i (map f q) 0 = f (nth i q 0).
Proof. intros H. rewrite (nth_indep _ 0 (f 0)) by (now rewrite map_length). apply map_nth. Qed.
Lemma div_lt a b c : 0 < c -> a < b -> a / c < b / c.
Proof. intros. apply Rmult_lt_compat_r; [now apply Rinv_0_lt_compat|assumption]. Qed.
Lemma div_le a b c : 0 < c -> a <= b -> a / c <= b / c.
Proof. intros. apply Rmult_le_compat_r; [left; now apply Rinv_0_lt_compat|assumption]. Qed.
Lemma mul_div a c : 0 < c -> a / c * c = a.
Proof. intros. field. lra. Qed.
Lemma bin_of_ok cs p i : 0 < cs -> (i < length p)%nat -> IZR (nth i (bin_of cs p) 0%Z) * cs <= coord p i < (IZR (nth i (bin_of cs p) 0%Z) + 1) * cs.
Proof.
  intros C H. unfold bin_of, coord. rewrite bin_nth by assumption. destruct (floor_spec (nth i p 0 / cs)) as [A B].
  rewrite <- (mul_div (nth i p 0) cs C) at 2 3. split; [apply Rmult_le_compat_r; lra|apply Rmult_lt_compat_r; lra].
Qed.
Section Block.
Context (cs : R) (C : 0 < cs) (p x : point) (r : R).
Let lo := bin_lo cs (map (fun c => c - r)%R p).
Let hi := bin_hi cs (map (fun c => c + r)%R p).
Lemma block_nth i : (i < length p)%nat -> length x = length p ->
  nth i lo 0%Z = floorZ ((coord p i - r) / cs) /\ nth i hi 0%Z = ceilZ ((coord p i + r) / cs) /\ nth i (bin_of cs x) 0%Z = floorZ (coord x i / cs).
Proof.
  intros H E. unfold lo, hi, bin_lo, bin_hi, bin_of, coord. rewrite !bin_nth by (rewrite ?map_length; lia). rewrite !shift_nth by assumption. now repeat split.
Qed.
Lemma block_lengths : length x = length p -> length lo = length (bin_of cs x) /\ length hi = length (bin_of cs x).
Proof. intros E. unfold lo, hi, bin_lo, bin_hi, bin_of. now rewrite !map_length. Qed.
Lemma near_in : length x = length p -> (forall i, (i < length p)%nat -> coord p i - r <= coord x i /\ (coord x i < coord p i + r \/ coord x i = coord p i - r)) -> in_block lo hi (bin_of cs x).
Proof.
  intros E H. destruct (block_lengths E) as [L1 L2]. split; [assumption|]. split; [assumption|]. intros i Hi. unfold bin_of in Hi. rewrite map_length, E in Hi.
  destruct (block_nth i Hi E) as (-> & -> & ->). destruct (H i Hi) as [A B].
  destruct (floor_spec ((coord p i - r) / cs)) as [F1 F2]. destruct (floor_spec (coord x i / cs)) as [X1 X2]. destruct (ceil_spec ((coord p i + r) / cs)) as [G1 G2].
  assert (Lo : (floorZ ((coord p i - r) / cs) <= floorZ (coord x i / cs))%Z).
  { pose proof (div_le _ _ cs C A). apply Z.lt_succ_r, lt_IZR. rewrite succ_IZR. lra. }
  split; [assumption|]. destruct B as [B|B]; [left|right; now rewrite B]. pose proof (div_lt _ _ cs C B). apply lt_IZR. lra.
Qed.
Lemma in_near i : 0 <= r -> length x = length p -> in_block lo hi (bin_of cs x) -> (i < length p)%nat -> coord p i - r - cs < coord x i < coord p i + r + cs.
Proof.
  intros Hr E (_ & _ & H) Hi. specialize (H i). unfold bin_of in H at 1. rewrite map_length, E in H. specialize (H Hi).
  destruct (block_nth i Hi E) as (E1 & E2 & E3). rewrite E1, E2, E3 in H. destruct H as [A B].
  destruct (floor_spec ((coord p i - r) / cs)) as [F1 F2]. destruct (floor_spec (coord x i / cs)) as [X1 X2]. destruct (ceil_spec ((coord p i + r) / cs)) as [G1 G2].
  apply IZR_le in A. rewrite <- (mul_div (coord x i) cs C).
  assert (P1 : coord p i - r - cs = ((coord p i - r) / cs - 1) * cs) by (field; lra). assert (P2 : coord p i + r + cs = ((coord p i + r) / cs + 1) * cs) by (field; lra).
  rewrite P1, P2. split; apply Rmult_lt_compat_r; try assumption; [lra|]. destruct B as [B|B].
  - apply Zlt_le_succ, IZR_le in B. rewrite succ_IZR in B. lra.
  - rewrite <- B in F1. pose proof (div_le (coord p i - r) (coord p i + r) cs C). lra.
Qed.
Lemma edge_out i k : 0 < r -> length x = length p -> (i < length p)%nat -> coord x i = coord p i + r -> coord p i + r = IZR k * cs -> ~ in_block lo hi (bin_of cs x).
Proof.
  intros Hr E Hi Hx Hk (_ & _ & H). specialize (H i). unfold bin_of in H at 1. rewrite map_length, E in H. specialize (H Hi).
  destruct (block_nth i Hi E) as (E1 & E2 & E3). rewrite E1, E2, E3, Hx, Hk in H.
  replace (IZR k * cs / cs) with (IZR k) in H by (field; lra).
  destruct (floor_spec ((coord p i - r) / cs)) as [F1 F2]. rewrite floor_int, ceil_int in H.
  assert ((coord p i - r) / cs < IZR k) by (replace (IZR k) with ((coord p i + r) / cs) by (rewrite Hk; field; lra); apply div_lt; lra).
  destruct H as [_ [B|B]]; [lia|]. rewrite <- B in F1. lra.
Qed.
End Block.
Section Found.
Context {V : Type} (cs : R) (m : cells V) (xs : list (item V)) (fuel : nat) (p : point) (r : R).
Context (C : 0 < cs) (H : holds cs m xs) (F : (volume (bin_lo cs (map (fun c => c - r)%R p)) (bin_hi cs (map (fun c => c + r)%R p)) <= fuel)%nat).
Lemma near_found : 0 <= r -> Forall (fun x => length (fst x) = length p) xs ->
  exists res rest, query_near cs m fuel p r = Some res /\ Permutation (res ++ rest) xs /\
    (forall x i, In x res -> (i < length p)%nat -> coord p i - r - cs < coord (fst x) i < coord p i + r + cs) /\
    (forall x, In x rest -> exists i, (i < length p)%nat /\ ~ (coord p i - r <= coord (fst x) i /\ (coord (fst x) i < coord p i + r \/ coord (fst x) i = coord p i - r))).
Proof.
  intros Hr Ln. destruct (query_ok cs m xs fuel p r H F) as (res & rest & Q & P & A & B). exists res, rest. split; [assumption|]. split; [assumption|].
  assert (L2 : forall x, In x (res ++ rest) -> length (fst x) = length p) by (intros x X; apply (Permutation_in _ P) in X; rewrite Forall_forall in Ln; now apply Ln). split.
  - intros x i X Hi. rewrite Forall_forall in A. apply (in_near cs C p (fst x) r i Hr); [apply L2; apply in_app_iff; now left|now apply A|assumption].
  - intros x X. rewrite Forall_forall in B. specialize (B x X).
    assert (Dec : forall n, (n <= length p)%nat -> (forall i, (i < n)%nat -> coord p i - r <= coord (fst x) i /\ (coord (fst x) i < coord p i + r \/ coord (fst x) i = coord p i - r)) \/
      exists i, (i < n)%nat /\ ~ (coord p i - r <= coord (fst x) i /\ (coord (fst x) i < coord p i + r \/ coord (fst x) i = coord p i - r))).
    { induction n as [|n IH]; intros Hn; [left; intros; lia|]. destruct IH as [IH|(i & Hi & Ni)]; [lia| |right; exists i; split; [lia|assumption]].
      destruct (Rle_dec (coord p n - r) (coord (fst x) n)) as [A1|A1]; [|right; exists n; split; [lia|tauto]].
      destruct (Rlt_dec (coord (fst x) n) (coord p n + r)) as [A2|A2].
      - left. intros i Hi. destruct (PeanoNat.Nat.eq_dec i n) as [->|]; [tauto|apply IH; lia].
      - destruct (Req_dec (coord (fst x) n) (coord p n - r)) as [A3|A3]; [|right; exists n; split; [lia|tauto]].
        left. intros i Hi. destruct (PeanoNat.Nat.eq_dec i n) as [->|]; [tauto|apply IH; lia]. }
    destruct (Dec (length p) (le_n _)) as [D|D]; [|assumption]. exfalso. apply B. apply near_in; [assumption| |assumption]. apply L2, in_app_iff. now right.
Qed.
Lemma edge_missed x i k res : 0 < r -> (i < length p)%nat -> length (fst x) = length p -> coord (fst x) i = coord p i + r -> coord p i + r = IZR k * cs -> query_near cs m fuel p r = Some res -> ~ In x res.
Proof.
  intros Hr Hi E Hx Hk Q X. destruct (query_ok cs m xs fuel p r H F) as (res' & rest & Q' & _ & A & _). rewrite Q in Q'. injection Q' as <-. rewrite Forall_forall in A.
  exact (edge_out cs C p (fst x) r i k Hr E Hi Hx Hk (A x X)).
Qed.
End Found.
Lemma grouped_one {V} (e : entry V) : grouped [e].
Proof. intros [|a0 [|a1 a]] x b y c E; cbn in E; try discriminate. injection E as _ E. destruct b; discriminate. Qed.
Lemma holds_two : holds 1 [entry_of 1 [0; 0] 7%nat; entry_of 1 [1; 0] 8%nat] [([0; 0], 7%nat); ([1; 0], 8%nat)].
Proof.
  apply (holds_insert 1 [entry_of 1 [1; 0] 8%nat]); [apply (holds_insert 1 []); [constructor|apply grouped_one|apply Permutation_refl]| |apply Permutation_refl].
  intros [|a0 [|a1 [|a2 a]]] x b y c E; cbn in E; try discriminate.
  - injection E as _ E. destruct b as [|b0 [|b1 b]]; try discriminate. constructor.
  - injection E as _ _ E. destruct b; discriminate.
Qed.
