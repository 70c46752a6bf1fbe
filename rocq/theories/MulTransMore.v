(** Transposes between matrices of different types over the same storage. *)
From Coq Require Import Arith Lia List Bool Sorted.
From Verif Require Import Fld FldLemmas LinSpec PermModel MulModel MulSpec MulProofs PluModel.
Import ListNotations.
Open Scope nat_scope.

Section T.
Variable K : field.
Implicit Types (mem cur : nat -> K) (d m : view).
Lemma write_same d f l mem : (forall cur rc, (forall x, cur x = mem x) -> In rc l -> f cur (fst rc) (snd rc) = mem (vaddr d (fst rc) (snd rc))) ->
  forall cur, (forall x, cur x = mem x) -> forall x, write_cells d f l cur x = mem x.
Proof.
  induction l as [|[r c] l IH]; intros H cur C x; [apply C|]. rewrite write_cons. apply IH.
  - intros cur' rc C' I. apply H; [exact C'|now right].
  - intros y. unfold vset, upd. destruct (Nat.eqb_spec y (vaddr d r c)) as [->|]; [|apply C]. exact (H cur (r, c) C (or_introl eq_refl)).
Qed.
Lemma transpose_layouts mem d m : vbase d = vbase m -> vrows d = vcols m -> vcols d = vrows m -> vrow_major d = negb (vrow_major m) ->
  (forall r c, r < vrows d -> c < vcols d -> vget (transpose_any mem d m) d r c = vget mem m c r) /\ (forall x, transpose_any mem d m x = mem x).
Proof.
  intros B R C L. assert (A : forall r c, vaddr m c r = vaddr d r c). { intros r c. unfold vaddr. rewrite B, L, R, C. destruct (vrow_major m); reflexivity. }
  assert (S : forall x, transpose_any mem d m x = mem x).
  { intros x. unfold transpose_any. assert (W : forall x, write_cells d (fun _ r c => vget mem m c r) (by_rows (vrows d) (vcols d)) mem x = mem x).
    { apply write_same; [|reflexivity]. intros cur rc _ _. unfold vget. now rewrite A. }
    destruct (aliases d m); (apply write_same; [intros cur rc E _; unfold vget; now rewrite A, E|]); [exact W|reflexivity]. }
  split; [|exact S]. intros r c _ _. unfold vget. rewrite S, A. reflexivity.
Qed.
Lemma cols_sorted rows : forall cols s, StronglySorted (fun a b : nat * nat => snd a <= snd b) (map (fun cr => (snd cr, fst cr)) (list_prod (seq s cols) (seq 0 rows))).
Proof.
  induction cols as [|cols IH]; intros s; [constructor|]. cbn [seq list_prod]. rewrite map_app, map_map. cbn [fst snd].
  assert (Hf : Forall (fun b : nat * nat => s <= snd b) (map (fun cr => (snd cr, fst cr)) (list_prod (seq (S s) cols) (seq 0 rows)))).
  { apply Forall_forall. intros b I. apply in_map_iff in I as ([x y] & <- & I). apply in_prod_iff in I. rewrite !in_seq in I. cbn. lia. }
  specialize (IH (S s)). set (t := map _ (list_prod _ _)) in *. clearbody t. induction (seq 0 rows) as [|y l IHl]; cbn [map app]; [exact IH|]. constructor; [exact IHl|].
  apply Forall_app. split; [apply Forall_forall; intros b I; apply in_map_iff in I as (z & <- & _); cbn; lia|exact Hf].
Qed.
Lemma mirror (M : nat -> nat -> K) d n : vrows d = n -> vcols d = n -> forall l, StronglySorted (fun a b : nat * nat => snd a <= snd b) l -> (forall rc, In rc l -> fst rc < n /\ snd rc < n) ->
  forall cur, (forall r c, r <= c -> c < n -> vget cur d r c = M c r) -> (forall r c, c < r -> r < n -> ~ In (r, c) l -> vget cur d r c = M r c) ->
  forall r c, r < n -> c < n -> vget (write_cells d (fun mem r c => vget mem d c r) l cur) d r c = M (Nat.max r c) (Nat.min r c).
Proof.
  intros Rn Cn. induction l as [|[a b] l IH]; intros SS In_ cur U Lo r c Hr Hc.
  - cbn. destruct (le_lt_dec r c) as [L|L].
    + rewrite Nat.max_r, Nat.min_l by lia. now apply U.
    + rewrite Nat.max_l, Nat.min_r by lia. apply Lo; [lia|lia|intros []].
  - rewrite write_cons. inversion SS as [|? ? SS' F]; subst. rewrite Forall_forall in F. assert (AB := In_ (a, b) (or_introl eq_refl)). cbn [fst snd] in AB.
    assert (Set_ : forall x r c, r < vrows d -> c < vrows d -> vget (vset cur d a b x) d r c = if (r =? a) && (c =? b) then x else vget cur d r c).
    { intros x r' c' R' C'. unfold vget, vset, upd. destruct (Nat.eqb_spec (vaddr d r' c') (vaddr d a b)) as [E|E].
      - apply vaddr_inj in E; try lia. destruct E as [-> ->]. now rewrite !Nat.eqb_refl.
      - destruct (Nat.eqb_spec r' a) as [->|]; [|reflexivity]. destruct (Nat.eqb_spec c' b) as [->|]; [contradiction|reflexivity]. }
    apply IH; auto; [intros rc I; apply In_; now right| |].
    + intros r' c' R' C'. rewrite Set_ by lia. destruct (Nat.eqb_spec r' a) as [->|]; [|now apply U]. destruct (Nat.eqb_spec c' b) as [->|]; [|now apply U]. cbn [andb].
      destruct (Nat.eq_dec a b) as [->|NE]; [now apply U|]. apply Lo; [lia|lia|]. intros [E|I]; [injection E; lia|]. apply F in I. cbn in I. lia.
    + intros r' c' R' C' NI. rewrite Set_ by lia. destruct (Nat.eqb_spec r' a) as [->|], (Nat.eqb_spec c' b) as [->|]; cbn [andb]; try (apply Lo; [lia|lia|intros [E|I]; [injection E; lia|contradiction]]).
      apply U; lia.
Qed.
(** Transposing a square matrix into its own storage through a second matrix type mirrors the lower triangle. *)
Lemma transpose_mirror mem m : vrows m = vcols m ->
  (forall r c, r < vrows m -> c < vrows m -> vget (transpose_any mem m m) m r c = vget mem m (Nat.max r c) (Nat.min r c)) /\ (forall x, ~ inside m x -> transpose_any mem m m x = mem x).
Proof.
  intros SQ. unfold transpose_any. replace (aliases m m) with true by (symmetry; apply aliases_within; split; lia). split.
  - intros r c Hr Hc. apply (mirror (vget mem m) m (vrows m)); auto; try (symmetry; exact SQ).
    + rewrite <- SQ. apply cols_sorted.
    + intros rc I. apply by_cols_ok in I. lia.
    + intros r' c' R' C'. apply (write_value K m (fun _ r c => vget mem m c r) _ mem mem r' c'); [intros ? ? ? ? ? ? ?; reflexivity|apply by_rows_ok|lia|lia|reflexivity|left; apply by_rows_in; lia].
    + intros r' c' R' C' NI. exfalso. apply NI, by_cols_in. lia.
  - intros x X. rewrite write_outside by (try apply by_cols_ok; exact X). apply write_outside; [apply by_rows_ok|exact X].
Qed.
End T.
