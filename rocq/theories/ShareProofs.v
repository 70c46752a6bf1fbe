From Coq Require Import ZArith List Bool Lia PeanoNat ZifyBool ZifyNat.
From Verif Require Import Mem DequeModel DequeProofs2 UniqueModel UniqueProofs ShareModel ShareSpec.
Import ListNotations.
Open Scope Z_scope.
Open Scope res_scope.

(** ** Environments *)
Lemma unbind_none e x : var e x = None -> unbind e x = e.
Proof.
  unfold var, unbind. induction e as [|[y v] e IH]; [reflexivity|]. cbn [find filter fst]. destruct (Nat.eqb y x) eqn:E; [discriminate|].
  cbn [negb]. intros H. now rewrite IH.
Qed.
Lemma var_cons y v e x : var ((y, v) :: e) x = if Nat.eqb y x then Some v else var e x.
Proof. unfold var. cbn [find fst snd]. now destruct (Nat.eqb y x). Qed.
Lemma var_unbind e x y : var (unbind e x) y = if Nat.eqb y x then None else var e y.
Proof.
  induction e as [|[z v] e IH]; [cbn; now destruct (Nat.eqb y x)|]. cbn [unbind filter fst]. fold (unbind e x).
  destruct (Nat.eqb z x) eqn:E; cbn [negb].
  - rewrite IH, var_cons. destruct (Nat.eqb y x) eqn:F; [reflexivity|]. replace (Nat.eqb z y) with false by lia. reflexivity.
  - rewrite !var_cons, IH. destruct (Nat.eqb z y) eqn:G; [|reflexivity]. replace (Nat.eqb y x) with false by lia. reflexivity.
Qed.
Lemma var_bindv e x v y : var (bindv e x v) y = if Nat.eqb y x then Some v else var e y.
Proof.
  unfold bindv. rewrite var_cons, var_unbind, (Nat.eqb_sym x y). now destruct (Nat.eqb y x).
Qed.
Lemma unbind_twice e x : unbind (unbind e x) x = unbind e x.
Proof. apply unbind_none. rewrite var_unbind, Nat.eqb_refl. reflexivity. Qed.
Lemma unbind_swap e x y : unbind (unbind e x) y = unbind (unbind e y) x.
Proof.
  induction e as [|[z v] e IH]; [reflexivity|]. cbn [unbind filter fst].
  destruct (Nat.eqb z x) eqn:E, (Nat.eqb z y) eqn:F; cbn [negb filter fst]; rewrite ?E, ?F; cbn [negb]; fold (unbind e x) (unbind e y);
    fold (unbind (unbind e x) y) (unbind (unbind e y) x); now rewrite ?IH.
Qed.
Lemma bindv_unbind e x v : bindv (unbind e x) x v = bindv e x v.
Proof. unfold bindv. now rewrite unbind_twice. Qed.
Lemma unbind_bindv e x y v : x <> y -> unbind (bindv e y v) x = bindv (unbind e x) y v.
Proof. intros H. unfold bindv. cbn [unbind filter fst]. replace (Nat.eqb y x) with false by lia. cbn [negb]. fold (unbind (unbind e y) x). now rewrite unbind_swap. Qed.
Lemma bindv_bindv_unbind e x y v a : x <> y -> bindv (bindv (unbind e x) y a) x v = bindv (bindv e y a) x v.
Proof. intros H. unfold bindv at 1 3. f_equal. rewrite !unbind_bindv by exact H. now rewrite unbind_twice. Qed.

Definition keys (e : senv) : Prop := NoDup (map fst e).
Lemma keys_unbind e x : keys e -> keys (unbind e x).
Proof.
  unfold keys. induction e as [|[y v] e IH]; [easy|]. intros H. inversion H as [|? ? Hy He]; subst. cbn [unbind filter fst]. fold (unbind e x).
  destruct (Nat.eqb y x); cbn [negb]; [now apply IH|]. cbn [map fst]. constructor; [|now apply IH].
  intros I. apply Hy. apply in_map_iff in I as ([z u] & <- & I). apply filter_In in I as (I & _). apply in_map_iff. now exists (z, u).
Qed.
Lemma keys_bindv e x v : keys e -> keys (bindv e x v).
Proof.
  intros H. unfold keys, bindv. cbn [map fst]. constructor; [|now apply keys_unbind].
  intros I. apply in_map_iff in I as ([z u] & E & I). cbn in E. subst. apply filter_In in I as (_ & I). cbn in I. lia.
Qed.
Lemma env_split e x v : keys e -> var e x = Some v -> exists e1 e2, e = e1 ++ (x, v) :: e2 /\ unbind e x = e1 ++ e2.
Proof.
  unfold keys. induction e as [|[y u] e IH]; [discriminate|]. intros K. inversion K as [|? ? Hy He]; subst. rewrite var_cons. cbn [unbind filter fst]. fold (unbind e x).
  destruct (Nat.eqb y x) eqn:E; intros H; cbn [negb].
  - apply Nat.eqb_eq in E. subst. injection H as ->. exists [], e. split; [reflexivity|]. cbn [app]. apply unbind_none.
    unfold var. destruct (find _ e) as [[z u]|] eqn:F; [|reflexivity]. apply find_some in F as (F & G). cbn in G. exfalso. apply Hy.
    apply in_map_iff. exists (z, u). split; [cbn; lia|exact F].
  - destruct (IH He H) as (e1 & e2 & -> & ->). exists ((y, u) :: e1), e2. split; reflexivity.
Qed.

(** Owners. *)
Definition shares (v : sval) (b : nat) : bool := match v_kind v with KShared => owns v b | _ => false end.
Definition scount (e : senv) (b : nat) : nat := length (filter (fun p => shares (snd p) b) e).
Definition b2n (c : bool) : nat := if c then 1%nat else O.
Lemma owned_bindv e x v b : owned (bindv e x v) b = owns v b || owned (unbind e x) b.
Proof. reflexivity. Qed.
Lemma scount_bindv e x v b : scount (bindv e x v) b = (b2n (shares v b) + scount (unbind e x) b)%nat.
Proof. unfold scount, bindv. cbn [filter snd]. now destruct (shares v b). Qed.
Lemma owned_split e x v b : keys e -> var e x = Some v -> owned e b = owns v b || owned (unbind e x) b.
Proof.
  intros K H. destruct (env_split e x v K H) as (e1 & e2 & -> & ->). unfold owned. rewrite !existsb_app. cbn [existsb snd].
  now rewrite !orb_assoc, (orb_comm (existsb _ e1)).
Qed.
Lemma scount_split e x v b : keys e -> var e x = Some v -> scount e b = (b2n (shares v b) + scount (unbind e x) b)%nat.
Proof.
  intros K H. destruct (env_split e x v K H) as (e1 & e2 & -> & ->). unfold scount. rewrite !filter_app, !app_length. cbn [filter snd].
  destruct (shares v b); cbn [length b2n]; lia.
Qed.
Lemma owned_var e b : keys e -> owned e b = true -> exists x v, var e x = Some v /\ owns v b = true.
Proof.
  unfold owned. intros K H. apply existsb_exists in H as ([x v] & I & O). exists x, v. split; [|exact O]. unfold keys in K.
  induction e as [|[y u] e IH]; [easy|]. rewrite var_cons. inversion K as [|? ? Hy He]; subst. destruct I as [E|I].
  - injection E as -> ->. now rewrite Nat.eqb_refl.
  - destruct (Nat.eqb y x) eqn:F; [|now apply IH]. exfalso. apply Hy, in_map_iff. exists (x, v). split; [cbn; lia|exact I].
Qed.
Lemma var_owned e x v b : keys e -> var e x = Some v -> owns v b = true -> owned e b = true.
Proof. intros K H O. rewrite (owned_split e x v b K H), O. reflexivity. Qed.
Lemma owns_ptr v b : owns v b = true -> v_ptr v = Some b.
Proof. unfold owns. destruct (v_kind v), (v_ptr v) as [c|]; try discriminate; intros H; f_equal; lia. Qed.
Lemma shares_owns v b : shares v b = true -> owns v b = true.
Proof. unfold shares. now destruct (v_kind v). Qed.

Section P.
Context {A : Type}.
Variable dflt : A.
Notation uheap := (@uheap A).

Definition sized (f : nat -> list A) (v : sval) : Prop :=
  match v_kind v with
  | KLocal N => v_size v = N /\ exists b, v_ptr v = Some b /\ Z.of_nat (length (f b)) = N
  | KUnique => match v_ptr v with None => v_size v = 0 | Some b => Z.of_nat (length (f b)) = v_size v end
  | _ => True
  end.
Record inv (h : uheap) (u : nat -> nat) (e : senv) (f : nat -> list A) (n : nat) : Prop := {
  i_keys : keys e;
  i_next : nxt h = n;
  i_arr : forall b, arr h b = if owned e b then Some (f b) else None;
  i_uses : forall b, u b = scount e b;
  i_ptr : forall x v b, var e x = Some v -> v_ptr v = Some b -> (b < n)%nat;
  i_excl : forall x y v a b, var e x = Some v -> var e y = Some a -> owns v b = true -> owns a b = true -> shares v b = false -> x = y;
  i_len : forall x v, var e x = Some v -> sized f v }.

Lemma inv_ext h u e f n h' u' f' : inv h u e f n -> nxt h' = nxt h -> (forall b, arr h' b = arr h b) -> (forall b, u' b = u b) ->
  (forall b, owned e b = true -> f' b = f b) -> inv h' u' e f' n.
Proof.
  intros [K N R U P X L] N' R' U' F'. constructor; auto.
  - now rewrite N'.
  - intros b. rewrite R', R. destruct (owned e b) eqn:O; [|reflexivity]. now rewrite F'.
  - intros b. now rewrite U'.
  - intros x v H. specialize (L x v H). unfold sized in *. pose proof (fun b => var_owned e x v b K H) as Ow. unfold owns in Ow.
    destruct (v_kind v); auto; destruct (v_ptr v) as [b|]; auto.
    + destruct L as (S & b' & E & L). split; [exact S|]. injection E as <-. exists b. split; [reflexivity|]. rewrite F'; [exact L|]. apply Ow, Nat.eqb_refl.
    + destruct L as (_ & b' & E & _). discriminate.
    + rewrite F'; [exact L|]. apply Ow, Nat.eqb_refl.
Qed.
Lemma not_owned_fresh h u e f n b : inv h u e f n -> (n <= b)%nat -> owned e b = false.
Proof.
  intros I H. destruct (owned e b) eqn:O; [|reflexivity]. destruct (owned_var e b (i_keys _ _ _ _ _ I) O) as (x & v & E & W).
  pose proof (i_ptr _ _ _ _ _ I x v b E (owns_ptr v b W)). lia.
Qed.
Lemma scount_owned e b : owned e b = false -> scount e b = O.
Proof.
  unfold owned, scount. induction e as [|[x v] e IH]; [reflexivity|]. cbn [existsb filter snd]. intros H. apply orb_false_iff in H as (H & H').
  destruct (shares v b) eqn:S; [|now apply IH]. apply shares_owns in S. congruence.
Qed.
Lemma heap_fresh h u e f n : inv h u e f n -> forall b, (nxt h <= b)%nat -> arr h b = None.
Proof. intros I b H. rewrite (i_arr _ _ _ _ _ I), (not_owned_fresh h u e f n b I); [reflexivity|]. now rewrite <- (i_next _ _ _ _ _ I). Qed.

(** The end of an object. *)
Lemma finish_ok h u e f n x v : inv h u e f n -> var e x = Some v ->
  exists h' u', finish h u v = Ok (h', u') /\ inv h' u' (unbind e x) f n.
Proof.
  intros I Hx. pose proof I as [K N R U P X L].
  assert (Kx : keys (unbind e x)) by now apply keys_unbind.
  assert (Pt : forall y a b, var (unbind e x) y = Some a -> v_ptr a = Some b -> (b < n)%nat).
  { intros y a b. rewrite var_unbind. destruct (Nat.eqb y x); [discriminate|apply P]. }
  assert (Ex : forall y z a c b, var (unbind e x) y = Some a -> var (unbind e x) z = Some c -> owns a b = true -> owns c b = true -> shares a b = false -> y = z).
  { intros y z a c b. rewrite !var_unbind. destruct (Nat.eqb y x), (Nat.eqb z x); try discriminate. apply X. }
  assert (Ln : forall y a, var (unbind e x) y = Some a -> sized f a).
  { intros y a. rewrite var_unbind. destruct (Nat.eqb y x); [discriminate|apply L]. }
  assert (Same : (forall b, owns v b = false) -> inv h u (unbind e x) f n).
  { intros W. constructor; auto; intros b.
    - rewrite R, (owned_split e x v b K Hx), W. reflexivity.
    - rewrite U, (scount_split e x v b K Hx). destruct (shares v b) eqn:S; [|reflexivity]. apply shares_owns in S. rewrite W in S. discriminate. }
  assert (Gone : forall b, v_ptr v = Some b -> owns v b = true -> shares v b = false -> exists h', h_del h b = Ok h' /\ inv h' u (unbind e x) f n).
  { intros b E W S. unfold h_del. rewrite R, (var_owned e x v b K Hx W). eexists. split; [reflexivity|].
    assert (O : owned (unbind e x) b = false).
    { destruct (owned (unbind e x) b) eqn:O; [|reflexivity]. destruct (owned_var _ b Kx O) as (y & a & Hy & Wa). rewrite var_unbind in Hy.
      destruct (Nat.eqb y x) eqn:F; [discriminate|]. pose proof (X x y v a b Hx Hy W Wa S). lia. }
    constructor; auto.
    - intros c. cbn [h_upd arr]. destruct (Nat.eq_dec c b) as [->|Hc]; [rewrite upd_same, O; reflexivity|]. rewrite upd_other, R, (owned_split e x v c K Hx) by exact Hc.
      replace (owns v c) with false; [reflexivity|]. destruct (owns v c) eqn:Wc; [|reflexivity]. apply owns_ptr in Wc. congruence.
    - intros c. rewrite U, (scount_split e x v c K Hx). destruct (shares v c) eqn:Sc; [|reflexivity]. pose proof (owns_ptr v c (shares_owns v c Sc)). congruence. }
  unfold finish. destruct (v_kind v) eqn:Kv.
  - unfold drop. destruct (v_ptr v) as [b|] eqn:E; [|do 2 eexists; split; [reflexivity|]; apply Same; intros b; unfold owns; now rewrite Kv, E].
    assert (W : forall c, owns v c = Nat.eqb b c) by (intros c; unfold owns; now rewrite Kv, E).
    assert (S : forall c, shares v c = Nat.eqb b c) by (intros c; unfold shares; rewrite Kv; apply W).
    pose proof (U b) as Ub. rewrite (scount_split e x v b K Hx), S, Nat.eqb_refl in Ub. cbn [b2n] in Ub. rewrite Ub. cbn [Nat.add].
    destruct (scount (unbind e x) b) as [|k] eqn:C.
    + unfold h_del. rewrite R, (owned_split e x v b K Hx), W, Nat.eqb_refl. cbn [orb bind]. do 2 eexists. split; [reflexivity|].
      assert (O : owned (unbind e x) b = false).
      { destruct (owned (unbind e x) b) eqn:O; [|reflexivity]. destruct (owned_var _ b Kx O) as (y & a & Hy & Wa).
        destruct (shares a b) eqn:Sa.
        - pose proof (scount_split _ y a b Kx Hy) as Q. rewrite Sa in Q. cbn [b2n] in Q. lia.
        - rewrite var_unbind in Hy. destruct (Nat.eqb y x) eqn:F; [discriminate|].
          pose proof (X y x a v b Hy Hx Wa) as Q. rewrite W in Q. specialize (Q (Nat.eqb_refl b) Sa). lia. }
      constructor; auto.
      * intros c. cbn [h_upd arr]. destruct (Nat.eq_dec c b) as [->|Hc]; [rewrite upd_same, O; reflexivity|]. rewrite upd_other, R, (owned_split e x v c K Hx), W by exact Hc.
        replace (Nat.eqb b c) with false by lia. reflexivity.
      * intros c. unfold set_uses. destruct (Nat.eqb c b) eqn:F; [apply Nat.eqb_eq in F; subst; now rewrite C|].
        rewrite U, (scount_split e x v c K Hx), S. replace (Nat.eqb b c) with false by lia. reflexivity.
    + do 2 eexists. split; [reflexivity|]. constructor; auto.
      * intros c. rewrite R, (owned_split e x v c K Hx), W. destruct (Nat.eqb b c) eqn:F; [|reflexivity]. apply Nat.eqb_eq in F. subst c.
        replace (owned (unbind e x) b) with true; [reflexivity|]. destruct (owned (unbind e x) b) eqn:O; [reflexivity|]. apply scount_owned in O. lia.
      * intros c. unfold set_uses. destruct (Nat.eqb c b) eqn:F; [apply Nat.eqb_eq in F; subst; now rewrite C|].
        rewrite U, (scount_split e x v c K Hx), S. replace (Nat.eqb b c) with false by lia. reflexivity.
  - unfold u_release. destruct (v_ptr v) as [b|] eqn:E; [|do 2 eexists; split; [reflexivity|]; apply Same; intros b; unfold owns; now rewrite Kv, E].
    destruct (Gone b eq_refl) as (h' & -> & I'); [unfold owns; rewrite Kv, E; apply Nat.eqb_refl|unfold shares; now rewrite Kv|]. cbn [bind]. eauto.
  - unfold u_release. destruct (v_ptr v) as [b|] eqn:E; [|do 2 eexists; split; [reflexivity|]; apply Same; intros b; unfold owns; now rewrite Kv, E].
    destruct (Gone b eq_refl) as (h' & -> & I'); [unfold owns; rewrite Kv, E; apply Nat.eqb_refl|unfold shares; now rewrite Kv|]. cbn [bind]. eauto.
  - do 2 eexists. split; [reflexivity|]. apply Same. intros b. unfold owns. now rewrite Kv.
  - unfold u_release. destruct (v_ptr v) as [b|] eqn:E; [|do 2 eexists; split; [reflexivity|]; apply Same; intros b; unfold owns; now rewrite Kv, E].
    destruct (Gone b eq_refl) as (h' & -> & I'); [unfold owns; rewrite Kv, E; apply Nat.eqb_refl|unfold shares; now rewrite Kv|]. cbn [bind]. eauto.
Qed.

(** A new object with an array of its own. *)
Lemma make_ok h u e f n x k l h' u' sz : inv h u e f n -> var e x = None ->
  (forall c, k <> KWrapped c) -> (forall N, k = KLocal N -> sz = N /\ Z.of_nat (length l) = N) -> (k = KUnique -> Z.of_nat (length l) = sz) ->
  arr h' n = Some l -> nxt h' = S n -> (forall c, c <> n -> arr h' c = arr h c) -> (forall b, u' b = first_use k u n b) ->
  inv h' u' (bindv e x (mkV k (Some n) sz)) (set_array f n l) (S n).
Proof.
  intros I Hx Hw Hl Hq Ha Hn Ho Hu. pose proof I as [K N R U P X L]. set (v := mkV k (Some n) sz).
  assert (W : forall b, owns v b = Nat.eqb n b). { intros b. unfold owns, v. cbn [v_kind v_ptr]. destruct k; auto. now destruct (Hw fixed). }
  constructor.
  - now apply keys_bindv.
  - exact Hn.
  - intros b. rewrite owned_bindv, (unbind_none e x Hx), W. unfold set_array. destruct (Nat.eqb n b) eqn:E.
    + apply Nat.eqb_eq in E. subst b. rewrite Nat.eqb_refl. exact Ha.
    + rewrite Ho, R by lia. cbn [orb]. replace (Nat.eqb b n) with false by lia. reflexivity.
  - intros b. rewrite scount_bindv, (unbind_none e x Hx), Hu. pose proof (scount_owned e n (not_owned_fresh h u e f n n I (le_n n))) as Z0.
    unfold shares, first_use, set_uses. change (v_kind v) with k.
    destruct k; cbn [b2n Nat.add]; try apply U. rewrite W, (Nat.eqb_sym b n). destruct (Nat.eqb n b) eqn:E; cbn [b2n Nat.add]; [|apply U].
    apply Nat.eqb_eq in E. subst. now rewrite Z0.
  - intros y a b. rewrite var_bindv. destruct (Nat.eqb y x) eqn:E; intros H Q.
    + injection H as <-. injection Q as <-. lia.
    + pose proof (P y a b H Q). lia.
  - intros y z a c b. rewrite !var_bindv. destruct (Nat.eqb y x) eqn:E, (Nat.eqb z x) eqn:F; intros H1 H2 W1 W2 S1; [lia| | |].
    + injection H1 as <-. rewrite W in W1. pose proof (P z c b H2 (owns_ptr c b W2)). lia.
    + injection H2 as <-. rewrite W in W2. pose proof (P y a b H1 (owns_ptr a b W1)). lia.
    + exact (X y z a c b H1 H2 W1 W2 S1).
  - intros y a. rewrite var_bindv. destruct (Nat.eqb y x) eqn:E; intros H.
    + injection H as <-. unfold sized, v, set_array. cbn [v_kind v_ptr v_size]. destruct k; auto.
      * destruct (Hl N0 eq_refl) as (? & ?). split; [auto|]. exists n. rewrite Nat.eqb_refl. auto.
      * rewrite Nat.eqb_refl. auto.
    + specialize (L y a H). unfold sized, set_array in *. destruct (v_kind a); auto.
      * destruct L as (S & b & E' & L). split; [exact S|]. exists b. split; [exact E'|]. pose proof (P y a b H E'). replace (Nat.eqb b n) with false by lia. exact L.
      * destruct (v_ptr a) as [b|] eqn:E'; [|exact L]. pose proof (P y a b H E'). replace (Nat.eqb b n) with false by lia. exact L.
Qed.
Lemma new_filled h u e f n m l : inv h u e f n -> 0 <= m -> Z.of_nat (length l) <= m ->
  exists h' h'', h_new dflt h m = Ok (n, h') /\ h_fill h' (Some n) 0 l = Ok h'' /\ arr h'' n = Some (l ++ repeat dflt (Z.to_nat m - length l)) /\ nxt h'' = S n /\
    (forall c, c <> n -> arr h'' c = arr h c).
Proof.
  intros I Hm Hl. destruct (h_new_ok dflt h m Hm (heap_fresh h u e f n I)) as (h' & E & A1 & N1 & O1 & _). rewrite (i_next _ _ _ _ _ I) in *.
  assert (Fl : forall q (g : uheap) b p r t, arr g b = Some (p ++ r ++ t) -> length r = length q ->
    exists g', h_fill g (Some b) (Z.of_nat (length p)) q = Ok g' /\ arr g' b = Some (p ++ q ++ t) /\ nxt g' = nxt g /\ (forall c, c <> b -> arr g' c = arr g c)).
  { induction q as [|a q IH]; intros g b p r t H Hq; cbn [h_fill].
    - destruct r; [|discriminate]. eauto.
    - destruct r as [|a' r]; [discriminate|]. change ((a' :: r) ++ t) with (a' :: (r ++ t)) in H.
      rewrite (h_set_ok g b _ _ a H) by (rewrite app_length; cbn; lia). cbn [bind]. rewrite list_set_app.
      destruct (IH (h_upd g b (Some (p ++ a :: r ++ t))) b (p ++ [a]) r t) as (g' & E' & B & N' & O').
      { cbn [h_upd arr]. rewrite upd_same, <- app_assoc. reflexivity. } { cbn in Hq. lia. }
      exists g'. replace (Z.of_nat (length p) + 1) with (Z.of_nat (length (p ++ [a]))) by (rewrite app_length; cbn; lia). rewrite E'.
      split; [reflexivity|]. rewrite <- app_assoc in B. split; [exact B|]. split; [exact N'|]. intros c Hc. rewrite O' by auto. cbn [h_upd arr]. now rewrite upd_other. }
  destruct (Fl l h' n [] (repeat dflt (length l)) (repeat dflt (Z.to_nat m - length l))) as (h'' & E2 & A2 & N2 & O2).
  { rewrite A1. cbn [app]. rewrite <- repeat_app. do 2 f_equal. lia. } { apply repeat_length. }
  exists h', h''. split; [exact E|]. split; [exact E2|]. split; [exact A2|]. split; [congruence|]. intros c Hc. rewrite O2, O1 by exact Hc. reflexivity.
Qed.
Lemma clone_ok h u e f n p l : inv h u e f n -> match p with None => l = [] | Some a => arr h a = Some l end ->
  exists h', clone dflt h p (Z.of_nat (length l)) = Ok (n, h') /\ arr h' n = Some l /\ nxt h' = S n /\ (forall c, c <> n -> arr h' c = arr h c).
Proof.
  intros I Hp. destruct (h_new_ok dflt h (Z.of_nat (length l)) ltac:(lia) (heap_fresh h u e f n I)) as (h' & E & A1 & N1 & O1 & F1). rewrite (i_next _ _ _ _ _ I) in *.
  unfold clone. rewrite E. cbn [bind]. rewrite Nat2Z.id in *. destruct p as [a|].
  - assert (Ha : a <> n) by congruence.
    destruct (h_copy_ok l h' a n [] (repeat dflt (length l)) Ha) as (h'' & E2 & A2 & N2 & O2); [cbn [app]; now rewrite O1|exact A1|apply repeat_length|].
    cbn [length] in E2. change (Z.of_nat 0) with 0 in E2. rewrite E2. cbn [bind]. exists h''. split; [reflexivity|]. split; [exact A2|]. split; [congruence|].
    intros c Hc. rewrite O2, O1 by exact Hc. reflexivity.
  - subst l. cbn [length h_copy bind]. eauto.
Qed.

(** Another name for an array. *)
Lemma alias_ok h u e f n x v u' : inv h u e f n -> var e x = None ->
  (v_kind v = KShared /\ (forall b, u' b = acquire u (v_ptr v) b) /\ (exists y, var e y = Some v) \/
   (exists c, v_kind v = KWrapped c) /\ (forall b, u' b = u b) /\ (forall b, v_ptr v = Some b -> (b < n)%nat)) ->
  inv h u' (bindv e x v) f n.
Proof.
  intros I Hx C. pose proof I as [K N R U P X L].
  assert (Hp : forall b, v_ptr v = Some b -> (b < n)%nat). { intros b Hb. destruct C as [(_ & _ & y & Hy)|(_ & _ & H)]; [exact (P y v b Hy Hb)|auto]. }
  assert (Ho : forall b, owns v b = true -> v_kind v = KShared /\ exists y, var e y = Some v).
  { intros b Hb. destruct C as [(Q & _ & H)|((c & Q) & _)]; [auto|]. unfold owns in Hb. rewrite Q in Hb. discriminate. }
  constructor.
  - now apply keys_bindv.
  - exact N.
  - intros b. rewrite owned_bindv, (unbind_none e x Hx), R. destruct (owns v b) eqn:W; [|reflexivity]. destruct (Ho b W) as (_ & y & Hy).
    now rewrite (var_owned e y v b K Hy W).
  - intros b. rewrite scount_bindv, (unbind_none e x Hx). destruct C as [(Q & Hu & _)|((c & Q) & Hu & _)]; rewrite Hu.
    + unfold acquire, shares, owns. rewrite Q. destruct (v_ptr v) as [a|]; [|apply U]. unfold set_uses. rewrite (Nat.eqb_sym b a).
      destruct (Nat.eqb a b) eqn:E; cbn [b2n Nat.add]; [|apply U]. apply Nat.eqb_eq in E. subst. now rewrite U.
    + unfold shares. rewrite Q. apply U.
  - intros y a b. rewrite var_bindv. destruct (Nat.eqb y x); intros H Q; [injection H as <-; auto|exact (P y a b H Q)].
  - assert (Sh : forall b, owns v b = true -> shares v b = true). { intros b Hb. unfold shares. destruct (Ho b Hb) as (-> & _). exact Hb. }
    intros y z a c b. rewrite !var_bindv. destruct (Nat.eqb y x) eqn:E, (Nat.eqb z x) eqn:F; intros H1 H2 W1 W2 S1; [lia| | |].
    + injection H1 as <-. rewrite Sh in S1 by exact W1. discriminate.
    + injection H2 as <-. destruct (Ho b W2) as (_ & t & Ht). pose proof (X y t a v b H1 Ht W1 W2 S1). subst t.
      rewrite H1 in Ht. injection Ht as ->. rewrite Sh in S1 by exact W2. discriminate.
    + exact (X y z a c b H1 H2 W1 W2 S1).
  - intros y a. rewrite var_bindv. destruct (Nat.eqb y x); intros H; [|exact (L y a H)]. injection H as <-.
    unfold sized. destruct C as [(-> & _)|((c & ->) & _)]; exact Logic.I.
Qed.
(** Writing to an array. *)
Lemma store_ok h u e f n b l h' : inv h u e f n -> owned e b = true -> length l = length (f b) ->
  arr h' b = Some l -> nxt h' = nxt h -> (forall c, c <> b -> arr h' c = arr h c) -> inv h' u e (set_array f b l) n.
Proof.
  intros I O Hl Ha Hn Ho. pose proof I as [K N R U P X L]. constructor; auto.
  - congruence.
  - intros c. unfold set_array. destruct (Nat.eqb c b) eqn:E; [apply Nat.eqb_eq in E; subst; now rewrite O|]. rewrite Ho by lia. apply R.
  - intros x v H. specialize (L x v H). unfold sized, set_array in *. destruct (v_kind v); auto.
    + destruct L as (S & c & E & L). split; [exact S|]. exists c. split; [exact E|]. destruct (Nat.eqb c b) eqn:F; [|exact L]. apply Nat.eqb_eq in F. subst. congruence.
    + destruct (v_ptr v) as [c|]; [|exact L]. destruct (Nat.eqb c b) eqn:F; [|exact L]. apply Nat.eqb_eq in F. subst. congruence.
Qed.
(** The array changes hands. *)
Lemma move_ok h u e f n x y v k sz : inv h u e f n -> var e x = None -> var e y = Some v -> v_kind v = k -> (k = KShared \/ k = KUnique /\ sz = 0) ->
  inv h u (bindv (bindv e y (mkV k None sz)) x v) f n.
Proof.
  intros I Hx Hy Kv Hk. pose proof I as [K N R U P X L]. set (z := mkV k None sz).
  assert (xy : x <> y) by congruence.
  assert (E : unbind (bindv e y z) x = bindv e y z) by (apply unbind_none; rewrite var_bindv; replace (Nat.eqb x y) with false by lia; exact Hx).
  assert (Wz : forall b, owns z b = false) by (intros b; unfold owns, z; cbn; now destruct Hk as [->|(-> & _)]).
  assert (Sz : forall b, shares z b = false) by (intros b; unfold shares; rewrite Wz; now destruct (v_kind z)).
  assert (V : forall a, var (bindv (bindv e y z) x v) a = if Nat.eqb a x then Some v else if Nat.eqb a y then Some z else var e a) by (intros a; now rewrite !var_bindv).
  constructor.
  - now do 2 apply keys_bindv.
  - exact N.
  - intros b. rewrite R, (owned_split e y v b K Hy), owned_bindv, E, owned_bindv, Wz. reflexivity.
  - intros b. rewrite U, (scount_split e y v b K Hy), scount_bindv, E, scount_bindv, Sz. reflexivity.
  - intros a w b. rewrite V. destruct (Nat.eqb a x); [intros H Q; injection H as <-; exact (P y v b Hy Q)|].
    destruct (Nat.eqb a y); [intros H Q; injection H as <-; discriminate|apply P].
  - assert (To : forall a w b, var (bindv (bindv e y z) x v) a = Some w -> owns w b = true -> exists a', var e a' = Some w /\ (a' = y <-> a = x) /\ (a' <> y -> a = a')).
    { intros a w b. rewrite V. destruct (Nat.eqb a x) eqn:E1; [intros H W; injection H as <-; exists y; repeat split; auto; try lia; congruence|].
      destruct (Nat.eqb a y) eqn:E2; [intros H W; injection H as <-; rewrite Wz in W; discriminate|]. intros H W. exists a. repeat split; auto; lia. }
    intros a c w t b H1 H2 W1 W2 S1. destruct (To a w b H1 W1) as (a' & Ha & Ha1 & Ha2), (To c t b H2 W2) as (c' & Hc & Hc1 & Hc2).
    pose proof (X a' c' w t b Ha Hc W1 W2 S1) as Eq. subst c'. destruct (Nat.eq_dec a' y) as [->|Q]; [|rewrite Ha2, Hc2; auto].
    destruct Ha1 as (Ha1 & _), Hc1 as (Hc1 & _). rewrite Ha1, Hc1; auto.
  - intros a w. rewrite V. destruct (Nat.eqb a x); [intros H; injection H as <-; exact (L y v Hy)|].
    destruct (Nat.eqb a y); [intros H; injection H as <-|apply L]. unfold sized, z. cbn. destruct Hk as [->|(-> & ->)]; exact Logic.I || reflexivity.
Qed.
End P.
