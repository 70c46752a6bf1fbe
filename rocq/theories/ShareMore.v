From Coq Require Import ZArith List Bool Lia PeanoNat ZifyBool ZifyNat.
From Verif Require Import Mem DequeModel DequeProofs2 UniqueModel UniqueProofs ShareModel ShareSpec ShareProofs ShareSteps.
Import ListNotations.
Open Scope Z_scope.
Open Scope res_scope.

Section P.
Context {A : Type}.
Variable dflt : A.

(** The caller's faults are faults of the program. *)
Lemma fill_too_long q : forall (h : @uheap A) b i l, arr h b = Some l -> 0 <= i -> Z.of_nat (length l) < i + Z.of_nat (length q) -> i <= Z.of_nat (length l) ->
  h_fill h (Some b) i q = Fault OutOfBounds.
Proof.
  induction q as [|a q IH]; intros h b i l Hb Hi Hl Hj; cbn [h_fill length] in *; [lia|].
  destruct (Z.eq_dec i (Z.of_nat (length l))) as [->|Ne].
  - unfold h_set. rewrite Hb. replace (_ && _) with false by lia. reflexivity.
  - replace i with (Z.of_nat (Z.to_nat i)) at 1 by lia. rewrite (h_set_ok h b l _ a Hb) by lia. cbn [bind].
    apply (IH _ b (i + 1) (list_set l (Z.to_nat i) a)); rewrite ?list_set_length; try lia. cbn [h_upd arr]. apply upd_same.
Qed.
Lemma contents_gone (w : sworld A) (s : sstate A) v : rel w s -> contents s v = None -> exists b, v_ptr v = Some b /\ arr (w_heap w) b = None.
Proof.
  intros (E & I) H. unfold contents in H. destruct (v_ptr v) as [b|]; [|discriminate]. exists b. split; [reflexivity|]. rewrite (i_arr _ _ _ _ _ I).
  destruct (owned (st_env s) b); [discriminate|reflexivity].
Qed.
Lemma contents_owner (w : sworld A) (s : sstate A) x v : rel w s -> var (st_env s) x = Some v -> (forall c, v_kind v <> KWrapped c) -> contents s v <> None.
Proof.
  intros (E & I) Hx Hk H. unfold contents in H. destruct (v_ptr v) as [b|] eqn:P; [|discriminate].
  rewrite (var_owned _ x v b (i_keys _ _ _ _ _ I) Hx) in H; [discriminate|]. unfold owns. rewrite P. destruct (v_kind v); try apply Nat.eqb_refl. now destruct (Hk fixed).
Qed.
Lemma step_fault w s o : rel w s -> t_step dflt s o = None -> exists f, s_step dflt w o = Fault f.
Proof.
  intros Rl H. pose proof Rl as (E & I).
  destruct o as [k x n|k x n src|uniq x N n src|x fixed n y|x fixed n|x y|x y|x y|x y|x|x i|x i a|x]; cbn [t_step] in H; unfold s_step, s_fresh, s_lookup; rewrite E;
    (destruct (var (st_env s) x) as [a0|] eqn:Hx; [try (cbn [bind]; eexists; reflexivity)|try (cbn [bind]; eexists; reflexivity)]); try discriminate H; cbn [bind].
  - assert (G : forall m, (0 <=? m) = false -> @h_new A dflt (w_heap w) m = Fault OtherUB) by (intros m Hm; unfold h_new; replace (m <? 0) with true by lia; reflexivity).
    destruct k as [|N| |c|]; try (eexists; reflexivity); (destruct (0 <=? _) eqn:C; [discriminate H|]); rewrite G by exact C; eexists; reflexivity.
  - assert (G : prefix n src = None -> exists f, (let* (b, h) := h_new dflt (w_heap w) n in let* l := read_source n src in let* h := h_fill h (Some b) 0 l in
          Ok (mkW h (first_use k (w_uses w) b) (bindv (st_env s) x (mkV k (Some b) n)), @OutUnit A)) = Fault f).
    { unfold prefix, read_source, h_new. destruct (_ && _); [discriminate|]. intros _. destruct (n <? 0); eexists; reflexivity. }
    destruct k as [|N| |c|]; try (eexists; reflexivity); (destruct (prefix n src); [discriminate H|]); now apply G.
  - unfold prefix in H. unfold read_source. destruct (N <? 0) eqn:HN; [unfold h_new; rewrite HN; eexists; reflexivity|].
    destruct (h_new_ok dflt (w_heap w) N ltac:(lia) (heap_fresh _ _ _ _ _ I)) as (h & -> & A1 & _). cbn [bind].
    set (m := if uniq then n else N) in *. destruct (_ && _) eqn:C; [|eexists; reflexivity]. cbn [bind].
    destruct (Z.of_nat (length (firstn (Z.to_nat m) src)) <=? N) eqn:C2; [discriminate H|].
    rewrite (fill_too_long _ h (nxt (w_heap w)) 0 _ A1); [eexists; reflexivity|lia| |]; rewrite repeat_length; lia.
  - destruct (var (st_env s) y) as [v|]; [discriminate|eexists; reflexivity].
  - destruct (var (st_env s) y) as [v|] eqn:Hy; [|eexists; reflexivity]. cbn [bind]. destruct (v_kind v) eqn:Kv; try discriminate H; try (eexists; reflexivity).
    + destruct (contents s v) eqn:Hc; [discriminate|]. exfalso. apply (contents_owner w s y v Rl Hy); [|exact Hc]. congruence.
    + destruct (contents s v) eqn:Hc; [discriminate|]. exfalso. apply (contents_owner w s y v Rl Hy); [|exact Hc]. congruence.
  - destruct (var (st_env s) y) as [v|] eqn:Hy; [|eexists; reflexivity]. cbn [bind]. destruct (v_kind v) eqn:Kv; try discriminate H; try (eexists; reflexivity).
    destruct (contents s v) eqn:Hc; [discriminate|]. exfalso. apply (contents_owner w s y v Rl Hy); [|exact Hc]. congruence.
  - destruct (var (st_env s) y) as [v|] eqn:Hy; [|eexists; reflexivity]. cbn [bind]. destruct (kind_eqb _ _); [|eexists; reflexivity]. cbn [negb] in *.
    destruct (v_kind v) eqn:Kv; try discriminate H; try (eexists; reflexivity).
    + destruct (contents s v) eqn:Hc; [discriminate|]. exfalso. apply (contents_owner w s y v Rl Hy); [|exact Hc]. congruence.
    + destruct (Nat.eqb x y); [discriminate|]. destruct (contents s v) eqn:Hc; [destruct (v_size a0 =? v_size v); discriminate|].
      exfalso. apply (contents_owner w s y v Rl Hy); [|exact Hc]. congruence.
  - destruct (var (st_env s) y) as [v|] eqn:Hy; [|eexists; reflexivity]. cbn [bind]. destruct (kind_eqb _ _); [|eexists; reflexivity]. cbn [negb] in *.
    destruct (v_kind v) eqn:Kv; try discriminate H; try (eexists; reflexivity).
    + destruct (Nat.eqb x y); discriminate.
    + destruct (contents s v) eqn:Hc; [discriminate|]. exfalso. apply (contents_owner w s y v Rl Hy); [|exact Hc]. congruence.
    + destruct (Nat.eqb x y); discriminate.
  - destruct (contents s a0) as [l|] eqn:Hc.
    + pose proof (contents_there w s a0 l Rl Hc) as Ht. unfold h_get. destruct (v_ptr a0) as [b|]; [|eexists; reflexivity]. rewrite Ht. destruct (i <? 0); [eexists; reflexivity|].
      destruct (nth_error l (Z.to_nat i)); [discriminate|eexists; reflexivity].
    + destruct (contents_gone w s a0 Rl Hc) as (b & -> & Hb). unfold h_get. rewrite Hb. eexists; reflexivity.
  - destruct (contents s a0) as [l|] eqn:Hc.
    + pose proof (contents_there w s a0 l Rl Hc) as Ht. unfold h_set. destruct (v_ptr a0) as [b|]; [|eexists; reflexivity]. rewrite Ht.
      destruct (_ && _); [discriminate|eexists; reflexivity].
    + destruct (contents_gone w s a0 Rl Hc) as (b & -> & Hb). unfold h_set. rewrite Hb. eexists; reflexivity.
Qed.

Lemma rel0 : rel (@sworld0 A) sstate0.
Proof. split; [reflexivity|]. constructor; try easy. constructor. Qed.
Lemma run_rel p : forall w s, rel w s ->
  match t_run dflt s p with
  | Some (s', outs) => exists w', s_run dflt w p = Ok (w', outs) /\ rel w' s'
  | None => exists f, s_run dflt w p = Fault f
  end.
Proof.
  induction p as [|o p IH]; intros w s Rl; cbn [t_run s_run]; [now exists w|].
  destruct (t_step dflt s o) as [[s1 r]|] eqn:T.
  - destruct (step_ok dflt w s o s1 r Rl T) as (w1 & -> & R1). cbn [bind]. specialize (IH w1 s1 R1). destruct (t_run dflt s1 p) as [[s2 rs]|].
    + destruct IH as (w2 & -> & R2). cbn [bind]. eauto.
    + destruct IH as (f & ->). cbn [bind]. eauto.
  - destruct (step_fault w s o Rl T) as (f & ->). cbn [bind]. eauto.
Qed.
Lemma run_refines p :
  match t_run dflt sstate0 p with
  | Some (s, outs) => exists w, s_run dflt sworld0 p = Ok (w, outs) /\ w_env w = st_env s /\ forall b, arr (w_heap w) b = if owned (st_env s) b then Some (st_array s b) else None
  | None => exists f, s_run dflt sworld0 p = Fault f
  end.
Proof.
  pose proof (run_rel p _ _ rel0) as H. destruct (t_run dflt sstate0 p) as [[s outs]|]; [|exact H]. destruct H as (w & -> & E & I).
  exists w. split; [reflexivity|]. split; [exact E|]. exact (i_arr _ _ _ _ _ I).
Qed.

(** Copies. *)
Lemma run_ok p w outs : s_run dflt sworld0 p = Ok (w, outs) -> exists s, t_run dflt sstate0 p = Some (s, outs) /\ rel w s.
Proof.
  intros H. pose proof (run_rel p _ _ rel0) as Q. destruct (t_run dflt sstate0 p) as [[s os]|].
  - destruct Q as (w' & E & R'). rewrite H in E. injection E as <- <-. eauto.
  - destruct Q as (f & E). congruence.
Qed.
Lemma get_size w x : s_step dflt w (Size x) = match var (w_env w) x with Some v => Ok (w, OutInt (v_size v)) | None => Fault NotAlive end.
Proof. unfold s_step, s_lookup. now destruct (var (w_env w) x). Qed.

Lemma nth_replace (l : list A) i a : (i < length l)%nat -> nth_error (replace_at l i a) i = Some a.
Proof.
  intros H. unfold replace_at. rewrite nth_error_app2 by (rewrite firstn_length; lia). rewrite firstn_length, Nat.min_l, Nat.sub_diag by lia. reflexivity.
Qed.
Lemma contents_of_get w s x v i a : rel w s -> var (st_env s) x = Some v -> s_step dflt w (Get x i) = Ok (w, OutVal a) ->
  exists l, contents s v = Some l /\ 0 <= i < Z.of_nat (length l) /\ nth_error l (Z.to_nat i) = Some a.
Proof.
  intros Rl Hx H. destruct (t_step dflt s (Get x i)) as [[s' r]|] eqn:T.
  - destruct (step_ok dflt w s _ s' r Rl T) as (w' & E & _). rewrite H in E. injection E as <- <-. cbn [t_step] in T. rewrite Hx in T.
    destruct (contents s v) as [l|]; [|discriminate]. exists l. split; [reflexivity|]. destruct (i <? 0) eqn:C; [discriminate|].
    destruct (nth_error l (Z.to_nat i)) as [a'|] eqn:N; [|discriminate]. assert (nth_error l (Z.to_nat i) <> None) as Q by congruence. apply nth_error_Some in Q.
    split; [lia|]. congruence.
  - destruct (step_fault w s _ Rl T) as (f & E). congruence.
Qed.
Lemma shared_copy_alias p w outs x y v i a b : s_run dflt sworld0 p = Ok (w, outs) -> var (w_env w) x = None -> var (w_env w) y = Some v -> v_kind v = KShared ->
  s_step dflt w (Get y i) = Ok (w, OutVal a) ->
  (exists w', s_run dflt w [Copy x y; Set_ x i b; Get y i; Destroy y; Get x i] = Ok (w', [OutUnit; OutUnit; OutVal b; OutUnit; OutVal b])) /\
  (exists w', s_run dflt w [Copy x y; Set_ y i b; Get x i; Destroy x; Get y i] = Ok (w', [OutUnit; OutUnit; OutVal b; OutUnit; OutVal b])).
Proof.
  intros Hp Hx Hy Kv Hg. destruct (run_ok p w outs Hp) as (s & Hs & Rl). pose proof Rl as (E & I). rewrite E in Hx, Hy.
  destruct (contents_of_get w s y v i a Rl Hy Hg) as (l & Hc & Hi & Hn). assert (xy : x <> y) by congruence.
  unfold contents in Hc. destruct (v_ptr v) as [c|] eqn:Pv; [|injection Hc as <-; cbn in Hi; lia]. destruct (owned (st_env s) c) eqn:O; [|discriminate]. injection Hc as <-.
  assert (Ow : owns v c = true) by (unfold owns; rewrite Kv, Pv; apply Nat.eqb_refl).
  assert (B : forall z t f n, var (st_env (@mkS A (bindv (st_env s) x v) f n)) z = Some t -> True) by auto. clear B.
  assert (G : forall q t, (q = x /\ t = y \/ q = y /\ t = x) ->
    exists w', s_run dflt w [Copy x y; Set_ q i b; Get t i; Destroy t; Get q i] = Ok (w', [OutUnit; OutUnit; OutVal b; OutUnit; OutVal b])).
  { intros q t C.
    assert (Vq : var (bindv (st_env s) x v) q = Some v). { rewrite var_bindv. destruct C as [(-> & ->)|(-> & ->)]; [now rewrite Nat.eqb_refl|]. replace (Nat.eqb y x) with false by lia. exact Hy. }
    assert (Vt : var (bindv (st_env s) x v) t = Some v). { rewrite var_bindv. destruct C as [(-> & ->)|(-> & ->)]; [|now rewrite Nat.eqb_refl]. replace (Nat.eqb y x) with false by lia. exact Hy. }
    assert (O1 : owned (bindv (st_env s) x v) c = true) by (rewrite owned_bindv, Ow; reflexivity).
    assert (Kb : keys (bindv (st_env s) x v)) by exact (keys_bindv _ _ _ (i_keys _ _ _ _ _ I)).
    assert (Vq2 : var (unbind (bindv (st_env s) x v) t) q = Some v). { rewrite var_unbind. replace (Nat.eqb q t) with false by (destruct C as [(-> & ->)|(-> & ->)]; lia). exact Vq. }
    assert (O2 : owned (unbind (bindv (st_env s) x v) t) c = true) by exact (var_owned _ q v c (keys_unbind _ _ Kb) Vq2 Ow).
    set (l' := replace_at (st_array s c) (Z.to_nat i) b).
    assert (Nl : nth_error l' (Z.to_nat i) = Some b) by (apply nth_replace; lia).
    pose proof (run_rel [Copy x y; Set_ q i b; Get t i; Destroy t; Get q i] w s Rl) as Q.
    cbn [t_run t_step] in Q. rewrite Hx, Hy, Kv in Q. unfold rename in Q. cbn [ st_env st_array st_next] in Q. rewrite Vq in Q. unfold contents in Q. rewrite Pv in Q. cbn [st_env st_array st_next] in Q. rewrite O1 in Q.
    replace ((0 <=? i) && (i <? Z.of_nat (length (st_array s c)))) with true in Q by lia. unfold overwrite in Q. rewrite Pv in Q. cbn [st_env st_array st_next] in Q. rewrite Vt in Q.
    rewrite Pv, O1 in Q. unfold set_array in Q. rewrite Nat.eqb_refl in Q. replace (i <? 0) with false in Q by lia. fold l' in Q. rewrite Nl in Q. cbn [st_env st_array st_next] in Q.
    rewrite Vt in Q. cbn [st_env st_array st_next] in Q. rewrite Vq2, Pv, O2, Nat.eqb_refl, Nl in Q. destruct Q as (w' & Q & _). eauto. }
  split; apply G; auto.
Qed.
Lemma own_copy_apart p w outs x y v i a b : s_run dflt sworld0 p = Ok (w, outs) -> var (w_env w) x = None -> var (w_env w) y = Some v ->
  (exists N, v_kind v = KLocal N) \/ v_kind v = KUnique -> s_step dflt w (Get y i) = Ok (w, OutVal a) ->
  (exists w', s_run dflt w [Copy x y; Set_ x i b; Get y i; Get x i] = Ok (w', [OutUnit; OutUnit; OutVal a; OutVal b])) /\
  (exists w', s_run dflt w [Copy x y; Set_ y i b; Get x i; Get y i] = Ok (w', [OutUnit; OutUnit; OutVal a; OutVal b])).
Proof.
  intros Hp Hx Hy Kv Hg. destruct (run_ok p w outs Hp) as (s & Hs & Rl). pose proof Rl as (E & I). rewrite E in Hx, Hy.
  destruct (contents_of_get w s y v i a Rl Hy Hg) as (l & Hc & Hi & Hn). assert (xy : x <> y) by congruence. pose proof Hc as Hc0.
  unfold contents in Hc. destruct (v_ptr v) as [c|] eqn:Pv; [|injection Hc as <-; cbn in Hi; lia]. destruct (owned (st_env s) c) eqn:O; [|discriminate]. injection Hc as El.
  assert (cn : (c < st_next s)%nat) by exact (i_ptr _ _ _ _ _ I y v c Hy Pv).
  set (nv := mkV (v_kind v) (Some (st_next s)) (Z.of_nat (length l))). set (e := bindv (st_env s) x nv).
  assert (St : t_step dflt s (Copy x y) = Some (make s x (v_kind v) l, OutUnit)).
  { cbn [t_step]. rewrite Hx, Hy, Hc0. now destruct Kv as [(N & ->)| ->]. }
  assert (Vx : var e x = Some nv) by (unfold e; rewrite var_bindv, Nat.eqb_refl; reflexivity).
  assert (Vy : var e y = Some v) by (unfold e; rewrite var_bindv; replace (Nat.eqb y x) with false by lia; exact Hy).
  assert (On : owned e (st_next s) = true). { unfold e. rewrite owned_bindv. unfold owns, nv. cbn [v_kind v_ptr]. rewrite Nat.eqb_refl. now destruct Kv as [(N & ->)| ->]. }
  assert (Oc : owned e c = true). { unfold e. rewrite owned_bindv, (unbind_none _ x Hx), O. apply orb_true_r. }
  assert (Nl : nth_error (replace_at l (Z.to_nat i) b) (Z.to_nat i) = Some b) by (apply nth_replace; lia).
  assert (Ci : ((0 <=? i) && (i <? Z.of_nat (length l))) = true) by lia. assert (Cj : (i <? 0) = false) by lia.
  assert (Ca : Nat.eqb c (st_next s) = false) by lia. assert (Cb : Nat.eqb (st_next s) c = false) by lia.
  split.
  - pose proof (run_rel [Copy x y; Set_ x i b; Get y i; Get x i] w s Rl) as Q. cbn [t_run] in Q. rewrite St in Q.
    unfold make in Q. fold nv e in Q. cbn [t_step st_env st_array st_next] in Q. rewrite Vx in Q. unfold contents, set_array in Q. cbn [st_env st_array st_next nv v_ptr] in Q.
    rewrite On, Nat.eqb_refl, Ci in Q. unfold overwrite, set_array in Q. cbn [st_env st_array st_next nv v_ptr] in Q. rewrite Vy, Pv, Oc, Ca, El, Cj, Hn in Q.
    cbn [st_env st_array st_next] in Q. rewrite Vx in Q. cbn [nv v_ptr] in Q. rewrite On, Nat.eqb_refl, Nl in Q. destruct Q as (w' & Q & _). eauto.
  - pose proof (run_rel [Copy x y; Set_ y i b; Get x i; Get y i] w s Rl) as Q. cbn [t_run] in Q. rewrite St in Q.
    unfold make in Q. fold nv e in Q. cbn [t_step st_env st_array st_next] in Q. rewrite Vy in Q. unfold contents, set_array in Q. cbn [st_env st_array st_next nv v_ptr] in Q.
    rewrite Pv, Oc, Ca, El, Ci in Q. unfold overwrite, set_array in Q. rewrite Pv in Q. cbn [st_env st_array st_next nv v_ptr] in Q. rewrite Vx in Q. cbn [nv v_ptr] in Q.
    rewrite On, Cb, Nat.eqb_refl, Cj, Hn in Q. cbn [st_env st_array st_next] in Q. rewrite Vy, Pv, Oc, Nat.eqb_refl, Nl in Q. destruct Q as (w' & Q & _). eauto.
Qed.

(** Surprises. *)
Lemma fixed_source_short N n src : 0 <= n -> n < N -> Z.of_nat (length src) = n -> s_run dflt sworld0 [LocalFrom false 0 N n src] = Fault OutOfBounds.
Proof.
  intros Hn HN Hs. cbn [s_run s_step]. unfold s_fresh, h_new, read_source. cbn [sworld0 w_env w_heap var find bind]. replace (N <? 0) with false by lia. cbn [bind].
  replace (_ && _) with false by lia. reflexivity.
Qed.
Lemma fixed_source_long N n src : 0 <= N -> N < n -> n <= Z.of_nat (length src) -> s_run dflt sworld0 [LocalFrom true 0 N n src] = Fault OutOfBounds.
Proof.
  intros Hn HN Hs. cbn [s_run s_step]. unfold s_fresh, h_new, read_source. cbn [sworld0 w_env w_heap var find bind]. replace (N <? 0) with false by lia. cbn [bind].
  replace (_ && _) with true by lia. cbn [bind].
  rewrite (fill_too_long _ _ O 0 (repeat dflt (Z.to_nat N))); [reflexivity|cbn [nxt]; apply upd_same|lia| |]; rewrite repeat_length, ?firstn_length; lia.
Qed.
Lemma moved_sized n i : 0 <= n ->
  (exists w, s_run dflt sworld0 [New KShared 0 n; Move 1 0; Size 0] = Ok (w, [OutUnit; OutUnit; OutInt n])) /\
  s_run dflt sworld0 [New KShared 0 n; Move 1 0; Get 0 i] = Fault NullDeref.
Proof.
  intros Hn. cbn [s_run s_step]. unfold s_fresh, h_new. cbn [sworld0 w_env w_heap var find bind]. replace (n <? 0) with false by lia. split; [eexists|]; reflexivity.
Qed.
Lemma wrapped_null N n i :
  (exists w, s_run dflt sworld0 [WrapNull 0 (Some N) n; Size 0] = Ok (w, [OutUnit; OutInt N])) /\
  (exists w, s_run dflt sworld0 [WrapNull 0 None n; Size 0] = Ok (w, [OutUnit; OutInt 0])) /\
  (forall fixed, s_run dflt sworld0 [WrapNull 0 fixed n; Get 0 i] = Fault NullDeref).
Proof. repeat split; try (eexists; reflexivity). Qed.
End P.
