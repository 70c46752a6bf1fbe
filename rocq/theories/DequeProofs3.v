(** Consequences of the refinement, phrased for single properties, and the refuting programs. *)
From Coq Require Import ZArith List Bool Lia PeanoNat ZifyBool ZifyNat.
From Verif Require Import Mem MemLemmas DequeModel DequeSpec DequeProofs DequeProofs2.
Import ListNotations.
Open Scope Z_scope.
Open Scope res_scope.

Section P.
Context {A : Type}.
Variable eqb : A -> A -> bool.
Variable N : Z.
Hypothesis HN : 0 <= N.

Lemma run_refines p s outs :
  spec_run eqb N senv0 p = Some (s, outs) ->
  exists w, run eqb N world0 p = Ok (w, outs) /\
    ((forall x, s x = None) -> forall b, blk (wmem w) b = None).
Proof.
  intros H. destruct (run_ok eqb N HN p world0 senv0 s outs (winv0 N) H) as (w & E & W).
  exists w. split; [exact E|]. intros Hn b.
  destruct (blk (wmem w) b) eqn:Eb; [|reflexivity]. exfalso.
  destruct (w_leak _ _ _ _ W b) as (x & Hx); [congruence|].
  pose proof (w_rel _ _ _ _ W x) as V. rewrite Hn in V. apply vrel_none in V.
  rewrite V in Hx. exact Hx.
Qed.

Lemma spec_run_app p q : forall s,
  spec_run eqb N s (p ++ q) =
  match spec_run eqb N s p with
  | None => None
  | Some (s1, r1) => match spec_run eqb N s1 q with
                     | None => None | Some (s2, r2) => Some (s2, r1 ++ r2) end
  end.
Proof.
  induction p as [|o p IH]; intros s; cbn [spec_run app].
  - destruct (spec_run eqb N s q) as [[? ?]|]; reflexivity.
  - destruct (spec_step eqb N s o) as [[s1 r]|]; [|reflexivity]. rewrite IH.
    destruct (spec_run eqb N s1 p) as [[s2 r2]|]; [|reflexivity].
    destruct (spec_run eqb N s2 q) as [[s3 r3]|]; reflexivity.
Qed.

Lemma run_app p q : forall w,
  run eqb N w (p ++ q) =
  (let* (w1, r1) := run eqb N w p in let* (w2, r2) := run eqb N w1 q in Ok (w2, r1 ++ r2)).
Proof.
  induction p as [|o p IH]; intros w; cbn [run app].
  - cbn [bind]. destruct (run eqb N w q) as [[? ?]|]; reflexivity.
  - destruct (step eqb N w o) as [[w1 r]|]; [|reflexivity]. cbn [bind]. rewrite IH.
    destruct (run eqb N w1 p) as [[w2 r2]|]; [|reflexivity]. cbn [bind].
    destruct (run eqb N w2 q) as [[w3 r3]|]; reflexivity.
Qed.

Lemma spec_step_untouched s o s' r x :
  spec_step eqb N s o = Some (s', r) -> touches o x = false -> s' x = s x.
Proof.
  intros H T.
  destruct o; cbn [spec_step touches] in *;
  repeat match type of H with
  | context [match ?t with _ => _ end] =>
      match t with context [match _ with _ => _ end] => fail 1 | _ => destruct t end;
      try discriminate H
  end; injection H as <- <-; unfold upd;
  try (apply orb_false_iff in T; let T1 := fresh in let T2 := fresh in destruct T as [T1 T2]; rewrite T1, T2);
  try rewrite T; reflexivity.
Qed.

Lemma spec_run_untouched q : forall s s' rs x,
  spec_run eqb N s q = Some (s', rs) -> forallb (fun o => negb (touches o x)) q = true -> s' x = s x.
Proof.
  induction q as [|o q IH]; intros s s' rs x H T; cbn in *.
  - now injection H as <- <-.
  - destruct (spec_step eqb N s o) as [[s1 r]|] eqn:E; [|discriminate].
    destruct (spec_run eqb N s1 q) as [[s2 r2]|] eqn:E2; [|discriminate]. injection H as <- <-.
    apply andb_true_iff in T. destruct T as [T1 T2]. rewrite (IH _ _ _ _ E2 T2).
    eapply spec_step_untouched; [exact E|]. now destruct (touches o x).
Qed.

Lemma index_wraps p s outs x l c i :
  spec_run eqb N senv0 p = Some (s, outs) -> s x = Some (l, c) -> l <> [] ->
  exists w v, run eqb N world0 (p ++ [OGet x i]) = Ok (w, outs ++ [OutVal v]) /\
    nth_error l (Z.to_nat (i mod Z.of_nat (length l))) = Some v.
Proof.
  intros H Hx Hl.
  assert (Hn : (Z.to_nat (i mod Z.of_nat (length l)) < length l)%nat).
  { assert (0 < Z.of_nat (length l)) by (destruct l; [congruence|cbn [length]; lia]).
    pose proof (Z.mod_pos_bound i _ H0). lia. }
  destruct (nth_error l (Z.to_nat (i mod Z.of_nat (length l)))) as [v|] eqn:Ev.
  2: { apply nth_error_None in Ev. lia. }
  destruct (run_refines (p ++ [OGet x i]) s (outs ++ [OutVal v])) as (w & E & _).
  { rewrite spec_run_app, H. cbn [spec_run spec_step]. rewrite Hx.
    assert (Ea : at_wrapped l i = Some v) by (destruct l; [congruence|exact Ev]).
    rewrite Ea. reflexivity. }
  eauto.
Qed.

Lemma index_empty p s outs x c i :
  spec_run eqb N senv0 p = Some (s, outs) -> s x = Some ([], c) ->
  run eqb N world0 (p ++ [OGet x i]) = Fault DivByZero.
Proof.
  intros H Hx. rewrite run_app.
  destruct (run_ok eqb N HN p world0 senv0 s outs (winv0 N) H) as (w & E & W).
  rewrite E. cbn [bind]. cbn [run step]. unfold lookup.
  pose proof (w_rel _ _ _ _ W x) as V. rewrite Hx in V.
  destruct (vrel_some _ _ _ _ _ V) as (d & Ed & R & _). rewrite Ed. cbn [bind].
  unfold get, index_slot. rewrite (r_size _ _ _ _ R). reflexivity.
Qed.

Lemma copy_isolated p x y q s outs l c s' outs' i :
  spec_run eqb N senv0 p = Some (s, outs) -> s x = None -> s y = Some (l, c) ->
  (c <= N \/ N < Z.of_nat (length l)) ->
  spec_run eqb N (upd s x (Some (l, c))) q = Some (s', outs') ->
  forallb (fun o => negb (touches o x)) q = true ->
  l <> [] ->
  exists w v, run eqb N world0 (p ++ [OCopyNew x y] ++ q ++ [OSize x; OGet x i])
    = Ok (w, outs ++ [OutUnit] ++ outs' ++ [OutInt (Z.of_nat (length l)); OutVal v]) /\
    nth_error l (Z.to_nat (i mod Z.of_nat (length l))) = Some v.
Proof.
  intros H Hx Hy Hg Hq Ht Hl.
  assert (Hs' : s' x = Some (l, c)).
  { rewrite (spec_run_untouched _ _ _ _ _ Hq Ht). unfold upd. now rewrite Nat.eqb_refl. }
  assert (Hpre : spec_run eqb N senv0 (p ++ [OCopyNew x y] ++ q ++ [OSize x]) =
     Some (s', outs ++ [OutUnit] ++ outs' ++ [OutInt (Z.of_nat (length l))])).
  { rewrite spec_run_app, H. rewrite spec_run_app. cbn [spec_run spec_step]. rewrite Hx, Hy.
    replace ((c <=? N) || (N <? len l)) with true by (unfold len; lia).
    rewrite spec_run_app, Hq. cbn [spec_run spec_step]. rewrite Hs'. reflexivity. }
  destruct (index_wraps _ _ _ x l c i Hpre Hs' Hl) as (w & v & E & Hv).
  exists w, v. split; [|exact Hv].
  replace (p ++ [OCopyNew x y] ++ q ++ [OSize x; OGet x i])
    with ((p ++ [OCopyNew x y] ++ q ++ [OSize x]) ++ [OGet x i]).
  2: { rewrite <- !app_assoc. reflexivity. }
  rewrite E. rewrite <- !app_assoc. reflexivity.
Qed.

Lemma copy_assign_isolated p x y q s outs lx cx l c s' outs' i :
  spec_run eqb N senv0 p = Some (s, outs) -> s x = Some (lx, cx) -> s y = Some (l, c) ->
  spec_run eqb N (upd s x (Some (l, grow cx (len l)))) q = Some (s', outs') ->
  forallb (fun o => negb (touches o x)) q = true ->
  l <> [] ->
  exists w v, run eqb N world0 (p ++ [OCopyAssign x y] ++ q ++ [OSize x; OGet x i])
    = Ok (w, outs ++ [OutUnit] ++ outs' ++ [OutInt (Z.of_nat (length l)); OutVal v]) /\
    nth_error l (Z.to_nat (i mod Z.of_nat (length l))) = Some v.
Proof.
  intros H Hx Hy Hq Ht Hl.
  assert (Hs' : s' x = Some (l, grow cx (len l))).
  { rewrite (spec_run_untouched _ _ _ _ _ Hq Ht). unfold upd. now rewrite Nat.eqb_refl. }
  assert (Hpre : spec_run eqb N senv0 (p ++ [OCopyAssign x y] ++ q ++ [OSize x]) =
     Some (s', outs ++ [OutUnit] ++ outs' ++ [OutInt (Z.of_nat (length l))])).
  { rewrite spec_run_app, H. rewrite spec_run_app. cbn [spec_run spec_step]. rewrite Hx, Hy.
    rewrite spec_run_app, Hq. cbn [spec_run spec_step]. rewrite Hs'. reflexivity. }
  destruct (index_wraps _ _ _ x l _ i Hpre Hs' Hl) as (w & v & E & Hv).
  exists w, v. split; [|exact Hv].
  replace (p ++ [OCopyAssign x y] ++ q ++ [OSize x; OGet x i])
    with ((p ++ [OCopyAssign x y] ++ q ++ [OSize x]) ++ [OGet x i]).
  2: { rewrite <- !app_assoc. reflexivity. }
  rewrite E. rewrite <- !app_assoc. reflexivity.
Qed.

(** Both forms of move between distinct deques. *)
Lemma move_transfers p x y s outs l c i :
  spec_run eqb N senv0 p = Some (s, outs) -> x <> y -> s y = Some (l, c) -> l <> [] ->
  exists w v,
    run eqb N world0 (p ++ [match s x with None => OMoveNew x y | Some _ => OMoveAssign x y end;
                            OSize x; OSize y; OGet x i])
    = Ok (w, outs ++ [OutUnit; OutInt (Z.of_nat (length l)); OutInt 0; OutVal v]) /\
    nth_error l (Z.to_nat (i mod Z.of_nat (length l))) = Some v.
Proof.
  intros H Hxy Hy Hl.
  assert (Hpre : exists s' c', s' x = Some (l, c') /\ spec_run eqb N senv0
      (p ++ [match s x with None => OMoveNew x y | Some _ => OMoveAssign x y end; OSize x; OSize y]) =
     Some (s', outs ++ [OutUnit; OutInt (Z.of_nat (length l)); OutInt 0])).
  { rewrite spec_run_app, H.
    assert (Hyx : (y =? x)%nat = false) by (apply Nat.eqb_neq; auto).
    assert (Hxy' : (x =? y)%nat = false) by (apply Nat.eqb_neq; auto).
    destruct (s x) as [[lx cx]|] eqn:Ex.
    - eexists (upd (upd s y (Some ([], N))) x (Some (l, if N <? c then c else cx))), _.
      split; [apply upd_same|]. cbn [spec_run spec_step]. rewrite ?Hxy', Ex, Hy.
      rewrite upd_same, upd_other, upd_same by auto. reflexivity.
    - eexists (upd (upd s y (Some ([], N))) x (Some (l, c))), _.
      split; [apply upd_same|]. cbn [spec_run spec_step]. rewrite ?Hxy', Ex, Hy.
      rewrite upd_same, upd_other, upd_same by auto. reflexivity. }
  destruct Hpre as (s' & c' & Hs' & Hpre).
  destruct (index_wraps _ _ _ x l _ i Hpre Hs' Hl) as (w & v & E & Hv).
  exists w, v. split; [|exact Hv].
  rewrite <- !app_assoc in E. exact E.
Qed.

Lemma push_own_room p s outs x l c i :
  spec_run eqb N senv0 p = Some (s, outs) -> s x = Some (l, c) -> l <> [] ->
  Z.of_nat (length l) < c ->
  exists w v, run eqb N world0 (p ++ [OPushBackRef x i; OSize x; OBack x])
    = Ok (w, outs ++ [OutUnit; OutInt (Z.of_nat (length l) + 1); OutVal v]) /\
    nth_error l (Z.to_nat (i mod Z.of_nat (length l))) = Some v.
Proof.
  intros H Hx Hl Hc.
  assert (Hn : (Z.to_nat (i mod Z.of_nat (length l)) < length l)%nat).
  { assert (H0 : 0 < Z.of_nat (length l)) by (destruct l; [congruence|cbn [length]; lia]).
    pose proof (Z.mod_pos_bound i _ H0). lia. }
  destruct (nth_error l (Z.to_nat (i mod Z.of_nat (length l)))) as [v|] eqn:Ev.
  2: { apply nth_error_None in Ev. lia. }
  assert (Ea : at_wrapped l i = Some v) by (destruct l; [congruence|exact Ev]).
  destruct (run_refines (p ++ [OPushBackRef x i; OSize x; OBack x])
    (upd s x (Some (l ++ [v], c))) (outs ++ [OutUnit; OutInt (Z.of_nat (length l) + 1); OutVal v]))
    as (w & E & _).
  { rewrite spec_run_app, H. cbn [spec_run spec_step]. rewrite Hx.
    replace (len l <? c) with true by (unfold len; lia). rewrite Ea.
    rewrite !upd_same. rewrite last_opt_app.
    rewrite len_app. reflexivity. }
  eauto.
Qed.

End P.

(** ** Refuting programs (element type [Z], inline size 2 or as stated) *)

Definition grown_then_shrunk : list (op Z) :=
  [ONew 0%nat; OPushBack 0%nat 1; OPushBack 0%nat 2; OPushBack 0%nat 3; OPopBack 0%nat].

Lemma copy_bad_free :
  spec_run Z.eqb 2 senv0 grown_then_shrunk <> None /\
  run Z.eqb 2 world0 (grown_then_shrunk ++ [OCopyNew 1%nat 0%nat; ODestroy 1%nat]) = Fault BadFree.
Proof. split; vm_compute; congruence. Qed.

Lemma copy_push_oob :
  run Z.eqb 2 world0 (grown_then_shrunk ++ [OCopyNew 1%nat 0%nat; OPushBack 1%nat 7])
    = Fault OutOfBounds.
Proof. vm_compute; congruence. Qed.

Lemma self_move_inline :
  run Z.eqb 2 world0 [ONew 0%nat; OPushBack 0%nat 1; OMoveAssign 0%nat 0%nat] = Fault DeadRead.
Proof. vm_compute; congruence. Qed.

Lemma self_move_heap :
  exists w, run Z.eqb 0 world0 [ONewSeq 0%nat [1; 2]; OMoveAssign 0%nat 0%nat; OSize 0%nat]
    = Ok (w, [OutUnit; OutUnit; OutInt 0]).
Proof. eexists. vm_compute. reflexivity. Qed.

Lemma push_own_element :
  run Z.eqb 2 world0 [ONewSeq 0%nat [1; 2]; OPushBackRef 0%nat 0] = Fault DeadRead.
Proof. vm_compute; congruence. Qed.

Lemma copy_ctor_broken :
  exists p s outs,
    spec_run Z.eqb 2 senv0 p = Some (s, outs) /\ s 0%nat = Some ([1; 2], 4) /\
    run Z.eqb 2 world0 (p ++ [OCopyNew 1%nat 0%nat; ODestroy 1%nat]) = Fault BadFree /\
    run Z.eqb 2 world0 (p ++ [OCopyNew 1%nat 0%nat; OPushBack 1%nat 7]) = Fault OutOfBounds.
Proof.
  exists grown_then_shrunk. eexists _, _. split; [reflexivity|]. split; [reflexivity|].
  split; vm_compute; congruence.
Qed.

Lemma push_own_broken :
  exists l : list Z, l <> [] /\
    run Z.eqb 2 world0 [ONewSeq 0%nat l; OPushBackRef 0%nat 0] = Fault DeadRead.
Proof. exists [1; 2]. split; [congruence|]. apply push_own_element. Qed.
