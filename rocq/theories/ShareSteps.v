From Coq Require Import ZArith List Bool Lia PeanoNat ZifyBool ZifyNat.
From Verif Require Import Mem DequeModel DequeProofs2 UniqueModel UniqueProofs ShareModel ShareSpec ShareProofs.
Import ListNotations.
Open Scope Z_scope.
Open Scope res_scope.

Section P.
Context {A : Type}.
Variable dflt : A.
Notation uheap := (@uheap A).

Definition rel (w : sworld A) (s : sstate A) : Prop :=
  w_env w = st_env s /\ inv (w_heap w) (w_uses w) (st_env s) (st_array s) (st_next s).
Lemma kind_eqb_eq a b : kind_eqb a b = true -> a = b.
Proof. destruct a as [|m| |[m|]|], b as [|k| |[k|]|]; try discriminate; intros H; auto; cbn in H; apply Z.eqb_eq in H; congruence. Qed.
(** The array an object gives access to is there. *)
Lemma contents_there w s v l : rel w s -> contents s v = Some l -> match v_ptr v with None => l = [] | Some b => arr (w_heap w) b = Some l end.
Proof.
  intros (E & I) H. unfold contents in H. destruct (v_ptr v) as [b|]; [|congruence]. rewrite (i_arr _ _ _ _ _ I). destruct (owned (st_env s) b); [exact H|discriminate].
Qed.
Lemma size_there w s x v l : rel w s -> var (st_env s) x = Some v -> contents s v = Some l -> (exists N, v_kind v = KLocal N) \/ v_kind v = KUnique -> v_size v = Z.of_nat (length l).
Proof.
  intros (E & I) Hx H Hk. pose proof (i_len _ _ _ _ _ I x v Hx) as L. unfold sized in L. unfold contents in H.
  destruct Hk as [(N & Q)|Q]; rewrite Q in L.
  - destruct L as (-> & b & Hb & L). rewrite Hb in H. destruct (owned (st_env s) b); [|discriminate]. injection H as <-. now symmetry.
  - destruct (v_ptr v) as [b|]; [|injection H as <-; exact L]. destruct (owned (st_env s) b); [|discriminate]. injection H as <-. now symmetry.
Qed.
(** The same array is not copied onto itself. *)
Lemma copy_into w s x y a v l : rel w s -> var (st_env s) x = Some a -> var (st_env s) y = Some v -> x <> y -> v_kind a = v_kind v ->
  (exists N, v_kind v = KLocal N) \/ v_kind v = KUnique -> contents s v = Some l -> v_size a = v_size v ->
  exists h, h_copy (w_heap w) (v_ptr v) (v_ptr a) 0 (Z.to_nat (v_size v)) = Ok h /\ rel (mkW h (w_uses w) (w_env w)) (overwrite s a l).
Proof.
  intros Rl Hx Hy xy Hk Hv Hc Hs. pose proof (contents_there w s v l Rl Hc) as Ht. pose proof (size_there w s y v l Rl Hy Hc Hv) as Sz. pose proof Rl as (E & I).
  rewrite Sz, Nat2Z.id. pose proof (i_len _ _ _ _ _ I x a Hx) as La. unfold sized in La.
  assert (Wa : forall b, v_ptr a = Some b -> owns a b = true /\ shares a b = false).
  { intros b Hb. unfold shares, owns. rewrite Hk, Hb. destruct Hv as [(N & ->)| ->]; split; auto using Nat.eqb_refl. }
  assert (Wv : forall b, v_ptr v = Some b -> owns v b = true). { intros b Hb. unfold owns. rewrite Hb. destruct Hv as [(N & ->)| ->]; auto using Nat.eqb_refl. }
  assert (La' : match v_ptr a with None => l = [] | Some b => length l = length (st_array s b) end).
  { rewrite Hk in La. destruct Hv as [(N & Q)|Q]; rewrite Q in La.
    - destruct La as (H1 & b & -> & H2). lia.
    - destruct (v_ptr a) as [b|]; [lia|]. destruct l; [reflexivity|]. cbn [length] in Sz. lia. }
  unfold overwrite. destruct (v_ptr a) as [b|] eqn:Pa.
  - destruct (Wa b eq_refl) as (W1 & W2). pose proof (var_owned _ x a b (i_keys _ _ _ _ _ I) Hx W1) as Ob.
    destruct (v_ptr v) as [c|] eqn:Pv.
    + assert (cb : c <> b). { intros ->. apply xy. exact (i_excl _ _ _ _ _ I x y a v b Hx Hy W1 (Wv b eq_refl) W2). }
      destruct (h_copy_ok l (w_heap w) c b [] (st_array s b) cb Ht) as (h & Eh & Ah & Nh & Oh); [cbn [app]; rewrite (i_arr _ _ _ _ _ I), Ob; reflexivity|now symmetry|].
      cbn [length app] in *. change (Z.of_nat 0) with 0 in Eh. exists h. split; [exact Eh|]. split; [exact E|].
      exact (store_ok (w_heap w) (w_uses w) (st_env s) (st_array s) (st_next s) b l h I Ob La' Ah Nh Oh).
    + subst l. cbn [length h_copy]. eexists. split; [reflexivity|]. split; [exact E|]. cbn [w_heap w_uses st_env st_array st_next].
      apply (inv_ext _ _ _ _ _ _ _ _ I); auto. intros c _. unfold set_array. destruct (Nat.eqb c b) eqn:F; [|reflexivity]. apply Nat.eqb_eq in F. subst.
      cbn in La'. destruct (st_array s b); [reflexivity|discriminate].
  - subst l. cbn [length h_copy]. eexists. split; [reflexivity|]. exact Rl.
Qed.
Lemma made w s x k l h u sz : rel w s -> var (st_env s) x = None ->
  (forall c, k <> KWrapped c) -> (forall N, k = KLocal N -> sz = N) -> sz = Z.of_nat (length l) ->
  arr h (st_next s) = Some l -> nxt h = S (st_next s) -> (forall c, c <> st_next s -> arr h c = arr (w_heap w) c) -> (forall b, u b = first_use k (w_uses w) (st_next s) b) ->
  rel (mkW h u (bindv (w_env w) x (mkV k (Some (st_next s)) sz))) (make s x k l).
Proof.
  intros (E & I) Hx Hw Hl -> Ha Hn Ho Hu. split; cbn [w_env w_heap w_uses make st_env st_array st_next]; [now rewrite E|].
  apply (make_ok (w_heap w) (w_uses w) (st_env s) (st_array s) (st_next s) x k l h u _ I); auto.
Qed.
Lemma renamed w s x v u : rel w s -> var (st_env s) x = None ->
  (v_kind v = KShared /\ (forall b, u b = acquire (w_uses w) (v_ptr v) b) /\ (exists y, var (st_env s) y = Some v) \/
   (exists c, v_kind v = KWrapped c) /\ (forall b, u b = w_uses w b) /\ (forall b, v_ptr v = Some b -> (b < st_next s)%nat)) ->
  rel (mkW (w_heap w) u (bindv (w_env w) x v)) (rename s x v).
Proof. intros (E & I) Hx C. split; [cbn; now rewrite E|]. exact (alias_ok _ _ _ _ _ x v u I Hx C). Qed.
(** An object is replaced: it ends and another takes its name. *)
Definition ended (s : sstate A) (x : nat) : sstate A := mkS (unbind (st_env s) x) (st_array s) (st_next s).
Lemma finished w s x v : rel w s -> var (st_env s) x = Some v ->
  exists h u, finish (w_heap w) (w_uses w) v = Ok (h, u) /\ rel (mkW h u (unbind (w_env w) x)) (ended s x).
Proof.
  intros (E & I) Hx. destruct (finish_ok _ _ _ _ _ x v I Hx) as (h & u & F & I'). exists h, u. split; [exact F|]. split; [cbn; now rewrite E|exact I'].
Qed.
Lemma var_ended s x y : var (st_env (ended s x)) y = if Nat.eqb y x then None else var (st_env s) y.
Proof. apply var_unbind. Qed.
Lemma contents_ended s x y v : keys (st_env s) -> var (st_env s) y = Some v -> x <> y -> (exists N, v_kind v = KLocal N) \/ v_kind v = KUnique \/ v_kind v = KShared -> contents (ended s x) v = contents s v.
Proof.
  intros K Hy xy Hv. unfold contents, ended. cbn [st_env st_array]. destruct (v_ptr v) as [b|] eqn:Pv; [|reflexivity].
  assert (W : owns v b = true) by (unfold owns; rewrite Pv; destruct Hv as [(N & ->)|[->| ->]]; apply Nat.eqb_refl).
  rewrite (var_owned _ y v b K Hy W), (var_owned (unbind (st_env s) x) y v b); auto using keys_unbind. rewrite var_unbind. replace (Nat.eqb y x) with false by lia. exact Hy.
Qed.
Lemma replaced_wrapped w s x c p sz a : rel w s -> var (st_env s) x = Some a -> (exists c', v_kind a = KWrapped c') -> (forall b, p = Some b -> (b < st_next s)%nat) ->
  rel (mkW (w_heap w) (w_uses w) (bindv (w_env w) x (mkV (KWrapped c) p sz))) (rename s x (mkV (KWrapped c) p sz)).
Proof.
  intros Rl Hx (c' & Ka) Hp. destruct (finished w s x a Rl Hx) as (h & u & F & R'). unfold finish in F. rewrite Ka in F. injection F as <- <-.
  assert (N : var (st_env (ended s x)) x = None) by (rewrite var_ended, Nat.eqb_refl; reflexivity).
  pose proof (renamed _ _ x (mkV (KWrapped c) p sz) (w_uses w) R' N) as Q. cbn [w_heap w_uses w_env v_kind v_ptr] in Q.
  unfold rename, ended in Q. cbn [st_env st_array st_next] in Q. rewrite !bindv_unbind in Q. apply Q. right. split; [now exists c|]. auto.
Qed.

Theorem step_ok w s o s' r : rel w s -> t_step dflt s o = Some (s', r) -> exists w', s_step dflt w o = Ok (w', r) /\ rel w' s'.
Proof.
  intros Rl H. pose proof Rl as (E & I). pose proof (i_keys _ _ _ _ _ I) as K. pose proof (i_next _ _ _ _ _ I) as Nx.
  destruct o as [k x n|k x n src|uniq x N n src|x fixed n y|x fixed n|x y|x y|x y|x y|x|x i|x i a|x]; cbn [t_step] in H; unfold s_step, s_fresh, s_lookup; rewrite E;
    (destruct (var (st_env s) x) as [a0|] eqn:Hx; try discriminate H; []); cbn [bind].
  - (* New *)
    assert (G : forall m, 0 <= m -> (forall c, k <> KWrapped c) -> (forall N, k = KLocal N -> m = N) -> forall u, (forall b, u b = first_use k (w_uses w) (st_next s) b) ->
      exists h, h_new dflt (w_heap w) m = Ok (st_next s, h) /\ rel (mkW h u (bindv (w_env w) x (mkV k (Some (st_next s)) m))) (make s x k (repeat dflt (Z.to_nat m)))).
    { intros m Hm Hk Hl u Hu. destruct (new_filled dflt _ _ _ _ _ m [] I Hm) as (h & h' & E1 & E2 & A1 & N1 & O1); [cbn; lia|].
      injection E2 as <-. cbn [app length] in A1. rewrite Nat.sub_0_r in A1. exists h. split; [exact E1|].
      apply made; auto. rewrite repeat_length. lia. }
    destruct k as [|N| |c|]; try discriminate H.
    + destruct (0 <=? n) eqn:Hn; [|discriminate]. injection H as <- <-. destruct (G n) with (u := first_use KShared (w_uses w) (st_next s)) as (h & -> & R'); try easy; [lia|]. cbn [bind]. rewrite <- E. eauto.
    + destruct (0 <=? N) eqn:Hn; [|discriminate]. injection H as <- <-. destruct (G N) with (u := w_uses w) as (h & -> & R'); try easy; [lia|congruence|]. cbn [bind]. rewrite <- E. eauto.
    + destruct (0 <=? n) eqn:Hn; [|discriminate]. injection H as <- <-. destruct (G n) with (u := first_use KUnique (w_uses w) (st_next s)) as (h & -> & R'); try easy; [lia|]. cbn [bind]. rewrite <- E. eauto.
    + destruct (0 <=? n) eqn:Hn; [|discriminate]. injection H as <- <-. destruct (G n) with (u := first_use KCaller (w_uses w) (st_next s)) as (h & -> & R'); try easy; [lia|]. cbn [bind]. rewrite <- E. eauto.
  - (* NewFrom *)
    assert (G : forall l, prefix n src = Some l -> (forall c, k <> KWrapped c) -> (forall N, k <> KLocal N) ->
      exists w', (let* (b, h) := h_new dflt (w_heap w) n in let* l := read_source n src in let* h := h_fill h (Some b) 0 l in
          Ok (mkW h (first_use k (w_uses w) b) (bindv (st_env s) x (mkV k (Some b) n)), @OutUnit A)) = Ok (w', OutUnit) /\ rel w' (make s x k l)).
    { intros l Hl Hw Hk. unfold prefix in Hl. unfold read_source. destruct ((0 <=? n) && (n <=? Z.of_nat (length src))) eqn:C; [|discriminate]. injection Hl as <-.
      assert (Ln : Z.of_nat (length (firstn (Z.to_nat n) src)) = n) by (rewrite firstn_length; lia).
      destruct (new_filled dflt _ _ _ _ _ n (firstn (Z.to_nat n) src) I) as (h & h' & -> & E2 & A1 & N1 & O1); [lia|lia|]. cbn [bind]. rewrite E2. cbn [bind].
      replace (Z.to_nat n - length (firstn (Z.to_nat n) src))%nat with O in A1 by lia. cbn [repeat] in A1. rewrite app_nil_r in A1. rewrite <- E.
      eexists. split; [reflexivity|]. apply made; auto. intros N HN. now destruct (Hk N). }
    destruct k as [|N| |c|]; try discriminate H; destruct (prefix n src) as [l|]; try discriminate H; injection H as <- <-; apply (G l); easy.
  - (* LocalFrom *)
    destruct (prefix (if uniq then n else N) src) as [l|] eqn:Hl; [|discriminate]. destruct (Z.of_nat (length l) <=? N) eqn:C; [|discriminate]. injection H as <- <-.
    destruct (new_filled dflt _ _ _ _ _ N l I) as (h & h' & -> & E2 & A1 & N1 & O1); [lia|lia|]. cbn [bind].
    unfold prefix in Hl. unfold read_source. destruct (_ && _); [|discriminate]. injection Hl as Hl. rewrite Hl. cbn [bind]. rewrite E2. cbn [bind]. rewrite <- E.
    eexists. split; [reflexivity|]. apply made; auto; try easy; [congruence|]. rewrite app_length, repeat_length. lia.
  - (* Wrap *)
    destruct (var (st_env s) y) as [v|] eqn:Hy; [|discriminate]. injection H as <- <-. cbn [bind]. rewrite <- E. eexists. split; [reflexivity|].
    apply renamed; auto. right. split; [now eexists|]. split; [auto|]. cbn [v_ptr]. intros b Hb. exact (i_ptr _ _ _ _ _ I y v b Hy Hb).
  - (* WrapNull *)
    injection H as <- <-. rewrite <- E. eexists. split; [reflexivity|]. apply renamed; auto. right. split; [now eexists|]. split; [auto|]. discriminate.
  - (* Copy *)
    destruct (var (st_env s) y) as [v|] eqn:Hy; [|discriminate]. cbn [bind]. rewrite <- E.
    assert (G : (exists N, v_kind v = KLocal N) \/ v_kind v = KUnique -> forall l, contents s v = Some l ->
      exists w', (let* (b, h) := clone dflt (w_heap w) (v_ptr v) (v_size v) in Ok (mkW h (w_uses w) (bindv (w_env w) x (mkV (v_kind v) (Some b) (v_size v))), @OutUnit A)) = Ok (w', OutUnit) /\ rel w' (make s x (v_kind v) l)).
    { intros Hv l Hl. pose proof (size_there w s y v l Rl Hy Hl Hv) as Sz. pose proof (i_len _ _ _ _ _ I y v Hy) as Ln. unfold sized in Ln.
      destruct (clone_ok dflt _ _ _ _ _ (v_ptr v) l I (contents_there w s v l Rl Hl)) as (h & E1 & A1 & N1 & O1). rewrite Sz, E1. cbn [bind].
      eexists. split; [reflexivity|]. apply made; auto; destruct Hv as [(N & Q)|Q]; rewrite Q in *; try easy. intros N' HN. injection HN as <-. lia. }
    destruct (v_kind v) eqn:Kv; try discriminate H.
    + injection H as <- <-. eexists. split; [reflexivity|]. apply renamed; auto. left. split; [exact Kv|]. split; [auto|]. now exists y.
    + destruct (contents s v) as [l|] eqn:Hc; [|discriminate]. injection H as <- <-. apply G; eauto.
    + destruct (contents s v) as [l|] eqn:Hc; [|discriminate]. injection H as <- <-. apply G; eauto.
    + injection H as <- <-. eexists. split; [reflexivity|]. apply renamed; auto. right. split; [eauto|]. split; [auto|]. intros b Hb. exact (i_ptr _ _ _ _ _ I y v b Hy Hb).
  - (* Move *)
    destruct (var (st_env s) y) as [v|] eqn:Hy; [|discriminate]. cbn [bind]. rewrite <- E.
    destruct (v_kind v) eqn:Kv; try discriminate H.
    + injection H as <- <-. eexists. split; [reflexivity|]. unfold null_shared. rewrite Kv. split; [cbn; now rewrite E|]. cbn [rename st_env st_array st_next w_heap w_uses].
      apply (move_ok _ _ _ _ _ x y v KShared (v_size v) I); auto.
    + destruct (contents s v) as [l|] eqn:Hc; [|discriminate]. injection H as <- <-.
      pose proof (size_there w s y v l Rl Hy Hc (or_introl (ex_intro _ N Kv))) as Sz. pose proof (i_len _ _ _ _ _ I y v Hy) as Ln. unfold sized in Ln. rewrite Kv in Ln.
      destruct (clone_ok dflt _ _ _ _ _ (v_ptr v) l I (contents_there w s v l Rl Hc)) as (h & E1 & A1 & N1 & O1). rewrite Sz, E1. cbn [bind].
      eexists. split; [reflexivity|]. apply made; auto; try easy. intros N' HN. injection HN as <-. lia.
    + injection H as <- <-. eexists. split; [reflexivity|]. split; [cbn; now rewrite E|]. cbn [rename st_env st_array st_next w_heap w_uses].
      apply (move_ok _ _ _ _ _ x y v KUnique 0 I); auto.
    + injection H as <- <-. eexists. split; [reflexivity|]. apply renamed; auto. right. split; [eauto|]. split; [auto|]. intros b Hb. exact (i_ptr _ _ _ _ _ I y v b Hy Hb).
  - (* Assign *)
    destruct (var (st_env s) y) as [v|] eqn:Hy; [|discriminate]. cbn [bind]. rewrite <- E.
    destruct (kind_eqb (v_kind a0) (v_kind v)) eqn:Q; cbn [negb] in *; [|discriminate]. apply kind_eqb_eq in Q.
    destruct (v_kind v) eqn:Kv; try discriminate H.
    + (* shared *)
      injection H as <- <-.
      destruct (Nat.eq_dec x y) as [->|xy].
      * rewrite Hx in Hy. injection Hy as ->. unfold acquire, drop.
        assert (Eq : forall u, (forall b, u b = w_uses w b) -> rel (mkW (w_heap w) u (bindv (w_env w) y v)) (rename s y v)).
        { intros u Hu. split; [cbn; now rewrite E|]. cbn [rename st_env st_array st_next w_heap w_uses].
          assert (Vr : forall z, var (bindv (st_env s) y v) z = var (st_env s) z). { intros z. rewrite var_bindv. destruct (Nat.eqb z y) eqn:F; [|reflexivity]. apply Nat.eqb_eq in F. now subst. }
          destruct I as [K' N' R' U' P' X' L']. constructor; auto; try (intros; rewrite ?Vr in *; eauto; fail).
          - now apply keys_bindv.
          - intros b. now rewrite owned_bindv, <- (owned_split _ y v b K Hx).
          - intros b. now rewrite scount_bindv, <- (scount_split _ y v b K Hx), Hu. }
        destruct (v_ptr v) as [b|] eqn:Pv; [|eexists; split; [reflexivity|]; apply Eq; auto].
        unfold set_uses at 1. rewrite Nat.eqb_refl.
        pose proof (i_uses _ _ _ _ _ I b) as Ub. rewrite (scount_split _ y v b K Hx) in Ub. unfold shares, owns in Ub. rewrite Kv, Pv, Nat.eqb_refl in Ub. cbn [b2n Nat.add] in Ub.
        rewrite Ub. cbn [bind]. eexists. split; [reflexivity|]. apply Eq. intros c. unfold set_uses. destruct (Nat.eqb c b) eqn:F; [|reflexivity]. apply Nat.eqb_eq in F. now subst.
      * (* ends, then takes the name *)
        destruct (finished w s x a0 Rl Hx) as (h & u & F & R'). unfold finish in F. rewrite Q in F.
        assert (Vy : var (st_env (ended s x)) y = Some v) by (rewrite var_ended; replace (Nat.eqb y x) with false by lia; exact Hy).
        assert (Vx : var (st_env (ended s x)) x = None) by (rewrite var_ended, Nat.eqb_refl; reflexivity).
        assert (G : forall u', (forall b, u' b = acquire u (v_ptr v) b) -> rel (mkW h u' (bindv (w_env w) x v)) (rename s x v)).
        { intros u' Hu'. pose proof (renamed _ _ x v u' R' Vx) as Z. cbn [w_heap w_uses w_env] in Z. unfold rename, ended in Z. cbn [st_env st_array st_next] in Z. rewrite !bindv_unbind in Z.
          apply Z. left. split; [exact Kv|]. split; [exact Hu'|]. now exists y. }
        destruct (v_ptr a0) as [b|] eqn:Pa; [|cbn [drop] in *; injection F as <- <-; cbn [bind]; eexists; split; [reflexivity|]; now apply G].
        destruct (v_ptr v) as [c|] eqn:Pv; [|cbn [acquire]; rewrite F; cbn [bind]; eexists; split; [reflexivity|]; now apply G].
        unfold drop in *. cbn [acquire] in *. destruct (Nat.eq_dec c b) as [->|cb].
        -- (* the same array already *)
           unfold set_uses at 1. rewrite Nat.eqb_refl.
           assert (Ub : (2 <= w_uses w b)%nat).
           { rewrite (i_uses _ _ _ _ _ I b), (scount_split _ x a0 b K Hx), (scount_split (unbind (st_env s) x) y v b (keys_unbind _ _ K) Vy).
             unfold shares, owns. rewrite Q, Kv, Pa, Pv, Nat.eqb_refl. cbn [b2n]. lia. }
           destruct (w_uses w b) as [|[|k]] eqn:Eu; [lia|lia|]. injection F as <- <-. cbn [bind]. eexists. split; [reflexivity|]. apply G.
           intros c. unfold set_uses. rewrite Nat.eqb_refl. now destruct (Nat.eqb c b).
        -- unfold set_uses at 1. replace (Nat.eqb b c) with false by lia. destruct (w_uses w b) as [|[|k]] eqn:Eu; [discriminate F| |].
           ++ unfold h_del in *. destruct (arr (w_heap w) b); [|discriminate F]. cbn [bind] in *. injection F as <- <-. eexists. split; [reflexivity|]. apply G.
              intros d. unfold set_uses. destruct (Nat.eqb d b) eqn:F1, (Nat.eqb d c) eqn:F2; try lia. replace (Nat.eqb c b) with false by lia. reflexivity.
           ++ injection F as <- <-. cbn [bind]. eexists. split; [reflexivity|]. apply G.
              intros d. unfold set_uses. destruct (Nat.eqb d b) eqn:F1, (Nat.eqb d c) eqn:F2; try lia. replace (Nat.eqb c b) with false by lia. reflexivity.
    + (* local *)
      destruct (contents s v) as [l|] eqn:Hc; [|discriminate]. injection H as <- <-.
      destruct (Nat.eqb x y) eqn:xy.
      * apply Nat.eqb_eq in xy. subst y. rewrite Hx in Hy. injection Hy as ->. eexists. split; [reflexivity|]. unfold overwrite, contents in *. destruct (v_ptr v) as [b|] eqn:Pv; [|exact Rl].
        destruct (owned (st_env s) b); [|discriminate]. injection Hc as <-. split; [exact E|]. cbn [st_env st_array st_next]. apply (inv_ext _ _ _ _ _ _ _ _ I); auto.
        intros c _. unfold set_array. destruct (Nat.eqb c b) eqn:F; [|reflexivity]. apply Nat.eqb_eq in F. now subst.
      * pose proof (i_len _ _ _ _ _ I x a0 Hx) as L1. pose proof (i_len _ _ _ _ _ I y v Hy) as L2. unfold sized in L1, L2. rewrite Q in L1. rewrite Kv in L2.
        destruct (copy_into w s x y a0 v l Rl Hx Hy) as (h & -> & R'); auto; [lia|congruence|eauto|lia|]. cbn [bind]. eauto.
    + (* unique *)
      destruct (Nat.eqb x y) eqn:xy; [injection H as <- <-; eauto|]. destruct (contents s v) as [l|] eqn:Hc; [|discriminate].
      destruct (v_size a0 =? v_size v) eqn:Sz; injection H as <- <-; cbn [negb].
      * destruct (copy_into w s x y a0 v l Rl Hx Hy) as (h & -> & R'); auto; [lia|congruence|lia|]. cbn [bind]. eauto.
      * destruct (finished w s x a0 Rl Hx) as (h & u & F & R'). unfold finish in F. rewrite Q in F. destruct (u_release (w_heap w) (v_ptr a0)) as [h1|] eqn:Er; [|discriminate F].
        cbn [bind] in *. injection F as <- <-.
        assert (Hc' : contents (ended s x) v = Some l) by (rewrite (contents_ended s x y v K Hy); auto; lia).
        rewrite (size_there w s y v l Rl Hy Hc (or_intror Kv)).
        destruct (clone_ok dflt _ _ _ _ _ (v_ptr v) l (proj2 R') (contents_there _ _ v l R' Hc')) as (h & E1 & A1 & N1 & O1). cbn [w_heap] in E1. rewrite E1. cbn [bind].
        eexists. split; [reflexivity|]. assert (Vx : var (st_env (ended s x)) x = None) by (rewrite var_ended, Nat.eqb_refl; reflexivity).
        pose proof (made _ _ x KUnique l h (w_uses w) _ R' Vx ltac:(easy) ltac:(easy) eq_refl A1 N1 O1 ltac:(easy)) as Z.
        unfold make, ended in Z. cbn [st_env st_array st_next w_env] in Z. rewrite !bindv_unbind in Z. exact Z.
    + (* wrapped *)
      injection H as <- <-. destruct v as [vk vp vs]. cbn in Kv. subst vk. eexists. split; [reflexivity|].
      apply (replaced_wrapped w s x _ _ _ a0); eauto. intros b Hb. exact (i_ptr _ _ _ _ _ I y _ b Hy Hb).
  - (* MoveAssign *)
    destruct (var (st_env s) y) as [v|] eqn:Hy; [|discriminate]. cbn [bind]. rewrite <- E.
    destruct (kind_eqb (v_kind a0) (v_kind v)) eqn:Q; cbn [negb] in *; [|discriminate]. apply kind_eqb_eq in Q.
    destruct (v_kind v) eqn:Kv; try discriminate H.
    + destruct (Nat.eqb x y) eqn:xy; [injection H as <- <-; eauto|]. injection H as <- <-.
      destruct (finished w s x a0 Rl Hx) as (h & u & F & R'). unfold finish in F. rewrite Q in F. rewrite F. cbn [bind]. eexists. split; [reflexivity|].
      unfold null_shared. rewrite Kv. destruct R' as (E' & I'). split; [cbn; now rewrite E|]. cbn [rename ended st_env st_array st_next w_heap w_uses] in *.
      rewrite <- (bindv_bindv_unbind _ x y) by lia. apply move_ok; auto; rewrite var_unbind; [now rewrite Nat.eqb_refl|]. replace (Nat.eqb y x) with false by lia. exact Hy.
    + destruct (contents s v) as [l|] eqn:Hc; [|discriminate]. injection H as <- <-.
      destruct (Nat.eqb x y) eqn:xy.
      * apply Nat.eqb_eq in xy. subst y. rewrite Hx in Hy. injection Hy as ->. eexists. split; [reflexivity|]. unfold overwrite, contents in *. destruct (v_ptr v) as [b|] eqn:Pv; [|exact Rl].
        destruct (owned (st_env s) b); [|discriminate]. injection Hc as <-. split; [exact E|]. cbn [st_env st_array st_next]. apply (inv_ext _ _ _ _ _ _ _ _ I); auto.
        intros c _. unfold set_array. destruct (Nat.eqb c b) eqn:F; [|reflexivity]. apply Nat.eqb_eq in F. now subst.
      * pose proof (i_len _ _ _ _ _ I x a0 Hx) as L1. pose proof (i_len _ _ _ _ _ I y v Hy) as L2. unfold sized in L1, L2. rewrite Q in L1. rewrite Kv in L2.
        destruct (copy_into w s x y a0 v l Rl Hx Hy) as (h & -> & R'); auto; [lia|congruence|eauto|lia|]. cbn [bind]. eauto.
    + destruct (finished w s x a0 Rl Hx) as (h & u & F & R'). unfold finish in F. rewrite Q in F. destruct (u_release (w_heap w) (v_ptr a0)) as [h1|] eqn:Er; [|discriminate F].
      cbn [bind] in *. injection F as <- <-. destruct R' as (E' & I'). cbn [ended st_env st_array st_next w_heap w_uses] in *.
      destruct (Nat.eqb x y) eqn:xy; injection H as <- <-; eexists; (split; [reflexivity|]); (split; [cbn; now rewrite E|]); cbn [rename st_env st_array st_next w_heap w_uses].
      * rewrite <- (bindv_unbind (st_env s) x). assert (Vn : var (unbind (st_env s) x) x = None) by (rewrite var_unbind, Nat.eqb_refl; reflexivity).
        destruct I' as [K' N' R' U' P' X' L']. set (z := mkV KUnique None 0). constructor; auto.
        -- now apply keys_bindv.
        -- intros b. rewrite owned_bindv, unbind_twice. apply R'.
        -- intros b. rewrite scount_bindv, unbind_twice. apply U'.
        -- intros a t b. rewrite var_bindv. destruct (Nat.eqb a x); [intros H1 H2; injection H1 as <-; discriminate|apply P'].
        -- intros a t c d b. rewrite !var_bindv. destruct (Nat.eqb a x); [intros H1 _ H2; injection H1 as <-; discriminate|]. destruct (Nat.eqb t x); [intros _ H1 _ H2; injection H1 as <-; discriminate|]. apply X'.
        -- intros a t. rewrite var_bindv. destruct (Nat.eqb a x); [intros H1; injection H1 as <-; reflexivity|apply L'].
      * rewrite <- (bindv_bindv_unbind _ x y) by lia. apply move_ok; auto; rewrite var_unbind; [now rewrite Nat.eqb_refl|]. replace (Nat.eqb y x) with false by lia. exact Hy.
    + injection H as <- <-. destruct v as [vk vp vs]. cbn in Kv. subst vk. eexists. split; [reflexivity|].
      apply (replaced_wrapped w s x _ _ _ a0); eauto. intros b Hb. exact (i_ptr _ _ _ _ _ I y _ b Hy Hb).
  - (* Destroy *)
    injection H as <- <-. destruct (finished w s x a0 Rl Hx) as (h & u & -> & R'). cbn [bind]. rewrite E in R'. eexists. split; [reflexivity|exact R'].
  - (* Get *)
    destruct (contents s a0) as [l|] eqn:Hc; [|discriminate]. pose proof (contents_there w s a0 l Rl Hc) as Ht. unfold h_get.
    destruct (i <? 0) eqn:Hi; [discriminate|]. destruct (v_ptr a0) as [b|]; [|subst l; destruct (Z.to_nat i); discriminate H].
    rewrite Ht. destruct (nth_error l (Z.to_nat i)); [|discriminate]. injection H as <- <-. cbn [bind]. eauto.
  - (* Set *)
    destruct (contents s a0) as [l|] eqn:Hc; [|discriminate]. pose proof (contents_there w s a0 l Rl Hc) as Ht.
    destruct ((0 <=? i) && (i <? Z.of_nat (length l))) eqn:Hi; [|discriminate]. injection H as <- <-. unfold h_set, overwrite, contents in *. destruct (v_ptr a0) as [b|]; [|subst l; cbn in Hi; lia].
    rewrite Ht, Hi. cbn [bind]. eexists. split; [reflexivity|]. split; [rewrite <- E; reflexivity|]. cbn [w_heap w_uses st_env st_array st_next].
    destruct (owned (st_env s) b) eqn:O; [|discriminate]. injection Hc as <-.
    apply (store_ok (w_heap w) (w_uses w) (st_env s) (st_array s) (st_next s) b _ _ I O).
    + unfold replace_at. rewrite <- list_set_eq by lia. apply list_set_length.
    + cbn [h_upd arr]. rewrite upd_same. unfold replace_at. rewrite <- list_set_eq by lia. reflexivity.
    + reflexivity.
    + intros c cb. cbn [h_upd arr]. now rewrite upd_other.
  - (* Size *)
    injection H as <- <-. eauto.
Qed.
End P.
