From Coq Require Import ZArith List Bool Lia ZifyBool ZifyNat Sorting.Sorted.
From Verif Require Import Mem GridModel GridSpec.
Import ListNotations.
Open Scope Z_scope.

(** Position [n] of the box, in loop order; the last coordinate is unbounded above. *)
Fixpoint unrank (lo ds : list Z) (n : Z) : list Z :=
  match lo, ds with
  | [l], _ :: _ => [l + n]
  | l :: lo', d :: ds' => (l + n mod d) :: unrank lo' ds' (n / d)
  | _, _ => []
  end.

Definition vol (ds : list Z) : Z := fold_right (fun d v => Z.max d 0 * v) 1 ds.

(** Non-empty boxes of dimension at least one, by structure. *)
Inductive good : list Z -> list Z -> Prop :=
| good1 l h : l <= h -> good [l] [h]
| goodS l lo h hi : l <= h -> good lo hi -> good (l :: lo) (h :: hi).

Lemma good_len lo hi : good lo hi -> length lo = length hi.
Proof. induction 1; cbn; auto. Qed.
Lemma good_nonempty lo hi : nonempty_box lo hi -> lo <> [] -> good lo hi.
Proof.
  intros H. induction H as [|l h lo hi Hlh H IH]; intros N; [easy|].
  destruct H; [now constructor|]. apply goodS; auto. apply IH. discriminate.
Qed.
Lemma good_box lo hi : good lo hi -> nonempty_box lo hi /\ lo <> [].
Proof. induction 1; (split; [|discriminate]); repeat constructor; auto; apply IHgood. Qed.

Lemma vol_pos lo hi : good lo hi -> 1 <= vol (dims lo hi).
Proof. induction 1; cbn [dims vol fold_right]; [lia|]. unfold vol in IHgood. nia. Qed.

Lemma vol_cons d ds : vol (d :: ds) = Z.max d 0 * vol ds. Proof. reflexivity. Qed.

Lemma unrank_cons l lo d ds n : lo <> [] -> unrank (l :: lo) (d :: ds) n = (l + n mod d) :: unrank lo ds (n / d).
Proof. destruct lo; [easy|reflexivity]. Qed.
Lemma good_ne lo hi : good lo hi -> lo <> [] /\ hi <> [].
Proof. destruct 1; split; discriminate. Qed.

Lemma unrank_ne lo hi n : good lo hi -> unrank lo (dims lo hi) n <> [].
Proof. destruct 1; cbn [dims]; [discriminate|]. rewrite unrank_cons; [discriminate|]. now apply good_ne in H0. Qed.

Lemma inc_unrank lo hi : good lo hi -> forall n, 0 <= n < vol (dims lo hi) ->
  inc lo hi (unrank lo (dims lo hi) n) = unrank lo (dims lo hi) (n + 1).
Proof.
  induction 1 as [l h Hlh|l lo h hi Hlh G IH]; intros n Hn.
  - cbn [dims unrank inc] in *. rewrite vol_cons in Hn. unfold vol in Hn. cbn [fold_right] in Hn.
    destruct (l + n + 1 >? h); f_equal; lia.
  - cbn [dims] in *. rewrite vol_cons in Hn. destruct (good_ne _ _ G) as [N1 N2].
    rewrite !unrank_cons by auto. set (d := h - l + 1) in *.
    assert (Hd : 1 <= d) by lia. replace (Z.max d 0) with d in Hn by lia.
    pose proof (Z.div_mod n d ltac:(lia)) as D. pose proof (Z.mod_pos_bound n d ltac:(lia)) as M.
    cbn [inc]. cbv zeta.
    destruct (l + n mod d + 1 >? h) eqn:E.
    + assert (Em : n mod d = d - 1) by lia.
      assert (E1 : (n + 1) / d = n / d + 1) by (symmetry; apply Z.div_unique with 0; lia).
      assert (E2 : (n + 1) mod d = 0) by (symmetry; apply Z.mod_unique with (n / d + 1); lia).
      rewrite E1, E2. pose proof (unrank_ne lo hi (n / d) G) as N3.
      rewrite IH by (split; [apply Z.div_pos; lia|apply Z.div_lt_upper_bound; lia]).
      destruct (unrank lo (dims lo hi) (n / d)); [easy|]. f_equal. lia.
    + assert (E1 : (n + 1) / d = n / d) by (symmetry; apply Z.div_unique with (n mod d + 1); lia).
      assert (E2 : (n + 1) mod d = n mod d + 1) by (symmetry; apply Z.mod_unique with (n / d); lia).
      rewrite E1, E2. f_equal. lia.
Qed.

Lemma unrank_0 lo hi : good lo hi -> unrank lo (dims lo hi) 0 = lo.
Proof.
  induction 1 as [l h Hlh|l lo h hi Hlh G IH]; cbn [dims].
  - cbn. f_equal. lia.
  - rewrite unrank_cons by now apply good_ne in G. rewrite Z.mod_0_l, Z.div_0_l by lia. rewrite IH. f_equal. lia.
Qed.

Lemma unrank_vol lo hi : good lo hi -> unrank lo (dims lo hi) (vol (dims lo hi)) = end_pt lo hi.
Proof.
  induction 1 as [l h Hlh|l lo h hi Hlh G IH]; cbn [dims].
  - cbn [unrank end_pt vol fold_right]. f_equal. lia.
  - destruct (good_ne _ _ G) as [N1 _]. rewrite unrank_cons by auto. rewrite vol_cons. replace (Z.max (h - l + 1) 0) with (h - l + 1) by lia.
    rewrite (Z.mul_comm (h - l + 1)), Z.mod_mul, Z.div_mul by lia. rewrite IH.
    destruct lo; [easy|]. cbn [end_pt]. f_equal. lia.
Qed.

Lemma dist_unrank lo hi : good lo hi -> forall n v, 0 <= n ->
  dist (dims lo hi) lo (unrank lo (dims lo hi) n) v = v * n.
Proof.
  induction 1 as [l h Hlh|l lo h hi Hlh G IH]; intros n v Hn; cbn [dims].
  - cbn. nia.
  - rewrite unrank_cons by now apply good_ne in G. cbn [dist].
    rewrite IH by (apply Z.div_pos; lia).
    replace (Z.max (h - l + 1) 0) with (h - l + 1) by lia.
    pose proof (Z.div_mod n (h - l + 1) ltac:(lia)). nia.
Qed.

Lemma unrank_inj lo hi n m : good lo hi -> 0 <= n -> 0 <= m ->
  unrank lo (dims lo hi) n = unrank lo (dims lo hi) m -> n = m.
Proof.
  intros G Hn Hm E. pose proof (dist_unrank lo hi G n 1 Hn) as A. pose proof (dist_unrank lo hi G m 1 Hm) as B.
  rewrite E in A. lia.
Qed.

Lemma unrank_in lo hi : good lo hi -> forall n, 0 <= n < vol (dims lo hi) -> in_box lo hi (unrank lo (dims lo hi) n).
Proof.
  induction 1 as [l h Hlh|l lo h hi Hlh G IH]; intros n Hn; cbn [dims] in *.
  - rewrite vol_cons in Hn. cbn in *. constructor; [lia|constructor].
  - rewrite vol_cons in Hn. rewrite unrank_cons by now apply good_ne in G.
    replace (Z.max (h - l + 1) 0) with (h - l + 1) in Hn by lia.
    pose proof (Z.mod_pos_bound n (h - l + 1) ltac:(lia)).
    constructor; [lia|]. apply IH. split; [apply Z.div_pos; lia|apply Z.div_lt_upper_bound; lia].
Qed.

Lemma in_unrank lo hi p : good lo hi -> in_box lo hi p ->
  exists n, 0 <= n < vol (dims lo hi) /\ p = unrank lo (dims lo hi) n.
Proof.
  intros G B. revert G. induction B as [|l lo h hi p pt Hp B IH]; intros G; [inversion G|].
  cbn [dims]. rewrite vol_cons. inversion G; subst.
  - inversion B; subst. exists (p - l). cbn. split; [lia|]. f_equal. lia.
  - destruct (IH H4) as (n & Hn & ->). exists (n * (h - l + 1) + (p - l)).
    replace (Z.max (h - l + 1) 0) with (h - l + 1) by lia. split; [nia|].
    rewrite unrank_cons by now apply good_ne in H4.
    replace ((n * (h - l + 1) + (p - l)) / (h - l + 1)) with n by (apply Z.div_unique with (p - l); lia).
    replace ((n * (h - l + 1) + (p - l)) mod (h - l + 1)) with (p - l) by (apply Z.mod_unique with n; lia).
    f_equal. lia.
Qed.

Lemma unrank_before lo hi : good lo hi -> forall n m, 0 <= n < m ->
  before (unrank lo (dims lo hi) n) (unrank lo (dims lo hi) m).
Proof.
  induction 1 as [l h Hlh|l lo h hi Hlh G IH]; intros n m Hn; cbn [dims].
  - cbn. right. split; [auto|lia].
  - rewrite !unrank_cons by now apply good_ne in G. cbn [before].
    set (d := h - l + 1). assert (1 <= d) by lia.
    pose proof (Z.div_mod n d ltac:(lia)). pose proof (Z.div_mod m d ltac:(lia)).
    pose proof (Z.mod_pos_bound n d ltac:(lia)). pose proof (Z.mod_pos_bound m d ltac:(lia)).
    assert (0 <= n / d) by (apply Z.div_pos; lia). assert (n / d <= m / d) by (apply Z.div_le_mono; lia).
    destruct (Z.eq_dec (n / d) (m / d)) as [E|E].
    + right. rewrite E. split; [auto|]. rewrite E in *. lia.
    + left. apply IH. lia.
Qed.

(** The distance is the difference of the positions. *)
Lemma dist_diff lo hi : good lo hi -> forall p q r v, length p = length lo -> length q = length lo -> length r = length lo ->
  dist (dims lo hi) p q v = dist (dims lo hi) r q v - dist (dims lo hi) r p v.
Proof.
  induction 1 as [l h Hlh|l lo h hi Hlh G IH]; intros p q r v Hp Hq Hr;
    destruct p as [|p p'], q as [|q q'], r as [|r r']; try discriminate; cbn [dims dist].
  - lia.
  - cbn in Hp, Hq, Hr. rewrite (IH p' q' r') by lia. nia.
Qed.

Lemma unrank_len lo hi : good lo hi -> forall n, length (unrank lo (dims lo hi) n) = length lo.
Proof.
  induction 1 as [l h Hlh|l lo h hi Hlh G IH]; intros n; cbn [dims]; [reflexivity|].
  rewrite unrank_cons by now apply good_ne in G. cbn [length]. now rewrite IH.
Qed.

Lemma dist_unrank2 lo hi n m : good lo hi -> 0 <= n -> 0 <= m ->
  dist (dims lo hi) (unrank lo (dims lo hi) n) (unrank lo (dims lo hi) m) 1 = m - n.
Proof.
  intros G Hn Hm. rewrite (dist_diff lo hi G _ _ lo) by (auto using unrank_len).
  rewrite !dist_unrank by auto. lia.
Qed.

(** ** Decrement *)
Lemma in_box_len lo hi p : in_box lo hi p -> length p = length lo /\ length hi = length lo.
Proof. induction 1; cbn; lia. Qed.

Lemma dec_inc lo hi p : good lo hi -> in_box lo hi p ->
  (dec lo hi (inc lo hi p) = p <-> (length lo = 1%nat \/ hd 0 p < hd 0 hi)).
Proof.
  intros G B. destruct G as [l h Hlh|l lo h hi Hlh G].
  - inversion B as [|? ? ? ? p0 pt Hp B']; subst. inversion B'; subst. cbn [inc].
    split; [intros; now left|]. intros _. destruct (p0 + 1 >? h); cbn [dec]; destruct (p0 + 1 - 1 <? l); f_equal; lia.
  - inversion B as [|? ? ? ? p0 pt Hp B']; subst. cbn [inc hd length]. cbv zeta.
    destruct (good_ne _ _ G) as [N1 _]. destruct (in_box_len _ _ _ B') as [L1 L2].
    assert (Npt : pt <> []) by (intros ->; destruct lo; [easy|discriminate]).
    assert (Nl : length lo <> 0%nat) by (destruct lo; [easy|discriminate]).
    destruct (p0 + 1 >? h) eqn:E.
    + assert (p0 = h) by lia. subst p0. split; [|lia].
      destruct pt as [|p1 pt]; [easy|]. cbn [dec]. cbv zeta. replace (l - 1 <? l) with true by lia.
      destruct (inc lo hi (p1 :: pt)); intros X; injection X; intros; lia.
    + split; [right; lia|]. intros _. cbn [dec]. cbv zeta. replace (p0 + 1 - 1 <? l) with false by lia.
      f_equal. lia.
Qed.

(** ** Advance *)
Definition zeros {A} (l : list A) : list Z := map (fun _ => 0) l.

Lemma vol_app a b : vol (a ++ b) = vol a * vol b.
Proof. induction a as [|d a IH]; [cbn [app]; change (vol []) with 1; lia|]. cbn [app]. rewrite !vol_cons, IH. ring. Qed.
Lemma vol_pos1 ds : Forall (fun d => 1 <= d) ds -> 1 <= vol ds.
Proof. induction 1; [cbn; lia|]. rewrite vol_cons. nia. Qed.

Lemma unrank_snoc lo ds l d n : length lo = length ds -> Forall (fun d => 1 <= d) ds -> 0 <= n ->
  unrank (lo ++ [l]) (ds ++ [d]) n = unrank lo ds (n mod vol ds) ++ [l + n / vol ds].
Proof.
  intros L F. revert lo n L. induction F as [|d1 ds Hd F IH]; intros lo n L Hn.
  - destruct lo; [|discriminate]. cbn [app unrank vol fold_right]. now rewrite Z.div_1_r.
  - destruct lo as [|l1 lo]; [discriminate|]. injection L as L. cbn [app].
    rewrite unrank_cons by now destruct lo. rewrite IH by (auto; apply Z.div_pos; lia).
    rewrite vol_cons. replace (Z.max d1 0) with d1 by lia. pose proof (vol_pos1 _ F) as V.
    rewrite Z.div_div by lia. rewrite Z.rem_mul_r by lia.
    destruct lo as [|l2 lo].
    + destruct ds; [|discriminate]. cbn [unrank app vol fold_right]. rewrite Z.mod_1_r, Z.mul_1_r.
      rewrite Z.mul_0_r, Z.add_0_r. reflexivity.
    + rewrite unrank_cons by discriminate. pose proof (Z.mod_pos_bound n d1 ltac:(lia)).
      pose proof (Z.mod_pos_bound (n / d1) (vol ds) ltac:(lia)).
      replace ((n mod d1 + d1 * ((n / d1) mod vol ds)) mod d1) with (n mod d1)
        by (apply Z.mod_unique with ((n / d1) mod vol ds); lia).
      replace ((n mod d1 + d1 * ((n / d1) mod vol ds)) / d1) with ((n / d1) mod vol ds)
        by (apply Z.div_unique with (n mod d1); lia).
      reflexivity.
Qed.

Lemma zeros_app {A} (a b : list A) : zeros (a ++ b) = zeros a ++ zeros b.
Proof. apply map_app. Qed.
Lemma zeros_len {A} (a : list A) : length (zeros a) = length a.
Proof. apply map_length. Qed.

Lemma adv_unrank ds : Forall (fun d => 1 <= d) ds -> forall n, 0 <= n ->
  adv (rev ds) (vol ds) n = Ok (rev (unrank (zeros ds) ds n)).
Proof.
  induction ds as [|d ds IH] using rev_ind; intros F n Hn; [reflexivity|].
  apply Forall_app in F as [F Fd]. inversion Fd as [|? ? Hd _]; subst.
  rewrite rev_app_distr, vol_app. cbn [rev app adv]. pose proof (vol_pos1 _ F) as V.
  replace (vol [d]) with d by (cbn; lia). replace (d =? 0) with false by lia.
  rewrite Z.quot_mul by lia. replace (vol ds =? 0) with false by lia.
  rewrite Z.rem_mod_nonneg, Z.quot_div_nonneg by lia.
  rewrite IH by (auto; apply Z.mod_pos_bound; lia). cbn [bind].
  rewrite zeros_app. cbn [zeros map].
  rewrite unrank_snoc by (auto using zeros_len). rewrite rev_app_distr. reflexivity.
Qed.

Lemma good_dims lo hi : good lo hi -> Forall (fun d => 1 <= d) (dims lo hi).
Proof. induction 1; cbn [dims]; constructor; auto; lia. Qed.
Lemma dims_len lo : forall hi, length lo = length hi -> length (dims lo hi) = length lo.
Proof. induction lo; intros [|h hi] L; try discriminate; cbn in *; auto. Qed.

Lemma unrank_zeros lo hi n : good lo hi ->
  vadd lo (unrank (zeros (dims lo hi)) (dims lo hi) n) = unrank lo (dims lo hi) n.
Proof.
  intros G. revert n. induction G as [l h Hlh|l lo h hi Hlh G IH]; intros n; cbn [dims zeros map].
  - reflexivity.
  - destruct (good_ne _ _ G) as [N1 N2].
    rewrite !unrank_cons; [|auto|destruct lo, hi; try easy; discriminate]. cbn [vadd]. unfold zeros in IH. rewrite IH. reflexivity.
Qed.

(** ** Axis order *)
Lemma along_along o p : along o (along o p) = p.
Proof. destruct o; [reflexivity|apply rev_involutive]. Qed.
Lemma along_len o p : length (along o p) = length p.
Proof. destruct o; [reflexivity|apply rev_length]. Qed.

Lemma dims_app a : forall b a' b', length a = length b -> dims (a ++ a') (b ++ b') = dims a b ++ dims a' b'.
Proof. induction a; intros [|h b] a' b' L; try discriminate; cbn in *; [auto|]. f_equal. auto. Qed.
Lemma dims_rev a : forall b, length a = length b -> dims (rev a) (rev b) = rev (dims a b).
Proof.
  induction a; intros [|h b] L; try discriminate; [reflexivity|]. cbn [rev dims].
  rewrite dims_app by (rewrite !rev_length; auto). rewrite IHa by auto. reflexivity.
Qed.
Lemma dims_along o a b : length a = length b -> dims (along o a) (along o b) = along o (dims a b).
Proof. destruct o; [reflexivity|apply dims_rev]. Qed.
Lemma vol_rev a : vol (rev a) = vol a.
Proof. induction a; [reflexivity|]. cbn [rev]. rewrite vol_app, IHa, vol_cons. rewrite vol_cons. replace (vol []) with 1 by reflexivity. ring. Qed.
Lemma vol_along o a : vol (along o a) = vol a.
Proof. destruct o; [reflexivity|apply vol_rev]. Qed.

Lemma vadd_app a : forall b a' b', length a = length b -> vadd (a ++ a') (b ++ b') = vadd a b ++ vadd a' b'.
Proof. induction a; intros [|h b] a' b' L; try discriminate; cbn in *; [auto|]. f_equal. auto. Qed.
Lemma vadd_rev a : forall b, length a = length b -> vadd (rev a) (rev b) = rev (vadd a b).
Proof.
  induction a; intros [|h b] L; try discriminate; [reflexivity|]. cbn [rev vadd].
  rewrite vadd_app by (rewrite !rev_length; auto). rewrite IHa by auto. reflexivity.
Qed.
Lemma vadd_along o a b : length a = length b -> vadd (along o a) (along o b) = along o (vadd a b).
Proof. destruct o; [reflexivity|apply vadd_rev]. Qed.

Lemma in_box_app a b p a' b' p' : in_box a b p -> in_box a' b' p' -> in_box (a ++ a') (b ++ b') (p ++ p').
Proof. induction 1; cbn; auto. constructor; auto. Qed.
Lemma in_box_rev a b p : in_box a b p -> in_box (rev a) (rev b) (rev p).
Proof. induction 1; cbn; [constructor|]. apply in_box_app; auto. constructor; auto. constructor. Qed.
Lemma in_box_along o a b p : in_box a b p <-> in_box (along o a) (along o b) (along o p).
Proof.
  destruct o; [reflexivity|]. cbn. split; [apply in_box_rev|]. intros H. apply in_box_rev in H.
  now rewrite !rev_involutive in H.
Qed.
Lemma nonempty_along o a b : nonempty_box a b -> nonempty_box (along o a) (along o b).
Proof.
  destruct o; [auto|]. unfold nonempty_box. cbn. induction 1; cbn; [constructor|].
  apply Forall2_app; auto.
Qed.

(** ** The iterator *)
Definition zseq (n : Z) (k : nat) : list Z := map (fun i => n + Z.of_nat i) (seq 0 k).
Lemma zseq_S n k : zseq n (S k) = n :: zseq (n + 1) k.
Proof.
  unfold zseq. cbn [seq map]. f_equal; [lia|]. rewrite <- seq_shift, map_map. apply map_ext. intros. lia.
Qed.

Lemma Forall2_len a b : nonempty_box a b -> length a = length b.
Proof. induction 1; cbn; auto. Qed.

Section It.
Variables (o : bool) (lo hi : list Z).
Hypothesis NB : nonempty_box lo hi.
Hypothesis NE : lo <> [].

Let lo' := along o lo.
Let hi' := along o hi.
Let ds' := dims lo' hi'.

Lemma it_good : good lo' hi'.
Proof.
  apply good_nonempty; [now apply nonempty_along|]. unfold lo'. intros E. apply NE.
  apply (f_equal (@length Z)) in E. rewrite along_len in E. now destruct lo.
Qed.
Lemma it_len : length lo = length hi.
Proof. exact (Forall2_len _ _ NB). Qed.
Lemma it_vol : volume lo hi = vol ds'.
Proof. unfold ds', lo', hi'. rewrite dims_along by exact it_len. now rewrite vol_along. Qed.

(** The iterator at position [n]. *)
Definition at_pos (n : Z) : grid_it := mkG o lo hi (along o (unrank lo' ds' n)).

Lemma at_begin p : g_begin (mkG o lo hi p) = at_pos 0.
Proof.
  unfold at_pos, ds'. rewrite unrank_0 by exact it_good. unfold lo'. now rewrite along_along.
Qed.
Lemma at_end p : g_end (mkG o lo hi p) = at_pos (vol ds').
Proof. unfold at_pos, ds'. rewrite unrank_vol by exact it_good. reflexivity. Qed.
Lemma at_inc n : 0 <= n < vol ds' -> g_inc (at_pos n) = at_pos (n + 1).
Proof.
  intros Hn. unfold g_inc, at_pos, g_with. cbn [g_order g_lo g_hi g_pt]. rewrite along_along.
  f_equal. f_equal. apply inc_unrank; [exact it_good|exact Hn].
Qed.
Lemma at_inj n m : 0 <= n -> 0 <= m -> g_pt (at_pos n) = g_pt (at_pos m) -> n = m.
Proof.
  intros Hn Hm E. cbn in E. apply (f_equal (along o)) in E. rewrite !along_along in E.
  exact (unrank_inj _ _ _ _ it_good Hn Hm E).
Qed.
Lemma at_iter k : forall n, 0 <= n -> n + Z.of_nat k <= vol ds' -> Nat.iter k g_inc (at_pos n) = at_pos (n + Z.of_nat k).
Proof.
  induction k; intros n Hn Hk; [cbn; f_equal; lia|].
  change (Nat.iter (S k) g_inc (at_pos n)) with (g_inc (Nat.iter k g_inc (at_pos n))). rewrite IHk by lia. rewrite at_inc by lia. f_equal. lia.
Qed.
Lemma at_in n : 0 <= n < vol ds' -> in_box lo hi (g_pt (at_pos n)).
Proof.
  intros Hn. apply (in_box_along o). cbn [at_pos g_pt]. rewrite along_along. now apply unrank_in; [exact it_good|].
Qed.
Lemma in_at p : in_box lo hi p -> exists n, 0 <= n < vol ds' /\ mkG o lo hi p = at_pos n.
Proof.
  intros H. apply (in_box_along o) in H. destruct (in_unrank _ _ _ it_good H) as (n & Hn & E).
  exists n. split; [exact Hn|]. unfold at_pos. f_equal. fold ds' in E. rewrite <- E. now rewrite along_along.
Qed.

Lemma at_walk k : forall n fuel, 0 <= n -> n + Z.of_nat k = vol ds' -> (k <= fuel)%nat ->
  g_walk fuel (at_pos n) = Some (map (fun m => g_pt (at_pos m)) (zseq n k)).
Proof.
  induction k; intros n fuel Hn Hk Hf.
  - assert (n = vol ds') by lia. subst n.
    assert (E : g_equal (at_pos (vol ds')) (g_end (at_pos (vol ds'))) = true).
    { unfold at_pos at 2. rewrite at_end. unfold g_equal. destruct list_eq_dec; congruence. }
    destruct fuel; cbn [g_walk]; rewrite E; reflexivity.
  - assert (E : g_equal (at_pos n) (g_end (at_pos n)) = false).
    { unfold at_pos at 2. rewrite at_end. unfold g_equal. destruct list_eq_dec as [X|]; [|auto].
      apply at_inj in X; lia. }
    destruct fuel; [lia|]. cbn [g_walk]. rewrite E. rewrite at_inc by lia.
    rewrite (IHk (n + 1) fuel) by lia. rewrite zseq_S. reflexivity.
Qed.

Lemma In_zseq m n k : In m (zseq n k) <-> n <= m < n + Z.of_nat k.
Proof.
  unfold zseq. rewrite in_map_iff. split.
  - intros (i & <- & Hi). apply in_seq in Hi. lia.
  - intros H. exists (Z.to_nat (m - n)). split; [lia|]. apply in_seq. lia.
Qed.

Lemma zseq_sorted n k : StronglySorted Z.lt (zseq n k).
Proof.
  revert n. induction k; intros n; [constructor|]. rewrite zseq_S. constructor; [auto|].
  apply Forall_forall. intros x Hx. apply In_zseq in Hx. lia.
Qed.

Lemma grid_walk_ok :
  exists l, (forall fuel p, (length l <= fuel)%nat -> g_walk fuel (g_begin (mkG o lo hi p)) = Some l) /\
    Z.of_nat (length l) = volume lo hi /\
    NoDup l /\ (forall p, In p l <-> in_box lo hi p) /\
    StronglySorted (fun p q => before (along o p) (along o q)) l.
Proof.
  pose proof (vol_pos _ _ it_good) as V. fold ds' in V.
  exists (map (fun m => g_pt (at_pos m)) (zseq 0 (Z.to_nat (vol ds')))).
  assert (L : length (map (fun m => g_pt (at_pos m)) (zseq 0 (Z.to_nat (vol ds')))) = Z.to_nat (vol ds')).
  { rewrite map_length. unfold zseq. now rewrite map_length, seq_length. }
  split; [|split; [|split; [|split]]].
  - intros fuel p Hf. rewrite L in Hf. rewrite at_begin. apply at_walk; lia.
  - rewrite L, it_vol. lia.
  - assert (H : forall l, StronglySorted Z.lt l -> (forall m, In m l -> 0 <= m) -> NoDup (map (fun m => g_pt (at_pos m)) l)).
    { clear L. induction 1 as [|a l SS IH Fa]; intros H; [constructor|]. cbn [map]. constructor.
      - rewrite in_map_iff. intros (b & E & Hb). rewrite Forall_forall in Fa. pose proof (Fa _ Hb).
        apply at_inj in E; [lia| |]; apply H; cbn; auto.
      - apply IH. intros m Hm. apply H. now right. }
    apply H; [apply zseq_sorted|]. intros m Hm. apply In_zseq in Hm. lia.
  - intros p. rewrite in_map_iff. split.
    + intros (m & <- & Hm). apply In_zseq in Hm. apply at_in. lia.
    + intros H. destruct (in_at p H) as (n & Hn & E). exists n. split; [now rewrite <- E|]. apply In_zseq. lia.
  - assert (H : forall l, StronglySorted Z.lt l -> (forall m, In m l -> 0 <= m) ->
        StronglySorted (fun p q => before (along o p) (along o q)) (map (fun m => g_pt (at_pos m)) l)).
    { clear L. induction 1 as [|a l SS IH Fa]; intros H; [constructor|]. cbn [map]. constructor.
      - apply IH. intros m Hm. apply H. now right.
      - apply Forall_forall. intros q Hq. apply in_map_iff in Hq as (b & <- & Hb).
        rewrite Forall_forall in Fa. pose proof (Fa _ Hb). cbn [at_pos g_pt]. rewrite !along_along.
        apply unrank_before; [exact it_good|]. split; [apply H; now left|auto]. }
    apply H; [apply zseq_sorted|]. intros m Hm. apply In_zseq in Hm. lia.
Qed.

(** Every position: a point of the region, or the end. *)
Definition it_pos (g : grid_it) : Prop :=
  g = g_end (mkG o lo hi lo) \/ exists p, in_box lo hi p /\ g = mkG o lo hi p.
Lemma pos_at g : it_pos g -> exists n, 0 <= n <= vol ds' /\ g = at_pos n.
Proof.
  pose proof (vol_pos _ _ it_good) as V. fold ds' in V.
  intros [->|(p & Hp & ->)]; [exists (vol ds'); rewrite at_end; split; [lia|auto]|].
  destruct (in_at p Hp) as (n & Hn & E). exists n. split; [lia|auto].
Qed.
Lemma at_dist n m : 0 <= n -> 0 <= m -> g_dist (at_pos n) (at_pos m) = m - n.
Proof.
  intros Hn Hm. unfold g_dist. cbn [at_pos g_order g_lo g_hi g_pt]. rewrite !along_along.
  rewrite <- dims_along by exact it_len. apply dist_unrank2; [exact it_good| |]; auto.
Qed.
Lemma grid_dist_sub g g' : it_pos g -> it_pos g' ->
  g_dist g' g = - g_dist g g' /\
  (0 <= g_dist g g' -> Nat.iter (Z.to_nat (g_dist g g')) g_inc g = g').
Proof.
  intros H H'. destruct (pos_at g H) as (n & Hn & ->). destruct (pos_at g' H') as (m & Hm & ->).
  rewrite !at_dist by lia. split; [lia|]. intros Hd. rewrite at_iter by lia. f_equal. lia.
Qed.

Lemma grid_dec_ok p : in_box lo hi p ->
  (g_dec (g_inc (mkG o lo hi p)) = mkG o lo hi p <-> (length lo = 1%nat \/ hd 0 (along o p) < hd 0 (along o hi))).
Proof.
  intros H. pose proof (dec_inc lo' hi' (along o p) it_good (proj1 (in_box_along o _ _ _) H)) as D.
  unfold lo' at 3 in D. rewrite along_len in D. fold hi'. rewrite <- D.
  unfold g_dec, g_inc, g_with. cbn [g_order g_lo g_hi g_pt]. rewrite along_along. fold lo' hi'. split.
  - intros E. injection E as E. rewrite <- E at 2. now rewrite along_along.
  - intros E. rewrite E. now rewrite along_along.
Qed.

Lemma grid_advance_ok p n : 0 <= n <= volume lo hi ->
  exists q, g_advance (mkG o lo hi p) n = Ok (mkG o lo hi q) /\ length q = length lo /\
    vadd lo q = g_pt (Nat.iter (Z.to_nat n) g_inc (g_begin (mkG o lo hi p))).
Proof.
  rewrite it_vol. intros Hn. rewrite at_begin. rewrite at_iter by lia. replace (0 + Z.of_nat (Z.to_nat n)) with n by lia.
  unfold g_advance. cbn [g_order g_lo g_hi g_pt]. rewrite <- dims_along by exact it_len. fold lo' hi' ds'.
  rewrite it_vol. rewrite adv_unrank; [|exact (good_dims _ _ it_good)|lia]. cbn [bind].
  assert (H : forall z d k, length z = length d -> length (unrank z d k) = length z).
  { induction z as [|a z IH]; intros [|b d] k L; try discriminate; [reflexivity|].
    destruct z; [reflexivity|]. rewrite unrank_cons by discriminate. cbn [length]. rewrite IH; auto. }
  assert (Ld : length ds' = length lo') by (apply dims_len; exact (good_len _ _ it_good)).
  eexists. split; [reflexivity|]. split.
  { rewrite along_len, rev_involutive, H by (rewrite zeros_len; auto). rewrite zeros_len, Ld. unfold lo'. apply along_len. }
  rewrite rev_involutive. cbn [at_pos g_pt].
  unfold ds' at 3. rewrite <- (unrank_zeros lo' hi' n it_good). fold ds'.
  rewrite <- vadd_along. { unfold lo'. now rewrite along_along. }
  rewrite H by (rewrite zeros_len; auto). now rewrite zeros_len.
Qed.

Lemma grid_advance_origin p n : Forall (eq 0) lo -> 0 <= n <= volume lo hi ->
  g_advance (mkG o lo hi p) n = Ok (Nat.iter (Z.to_nat n) g_inc (g_begin (mkG o lo hi p))).
Proof.
  intros F Hn. destruct (grid_advance_ok p n Hn) as (q & E & L & V). rewrite E. f_equal.
  rewrite it_vol in Hn. rewrite at_begin in *. rewrite at_iter in * by lia. cbn [at_pos g_pt] in V.
  unfold at_pos. f_equal. rewrite <- V. clear - F L. revert q L. induction F; intros [|b q] L; try discriminate; [auto|].
  subst. cbn. f_equal. apply IHF. auto.
Qed.
Lemma grid_advance_bad p : ~ Forall (eq 0) p -> g_advance (mkG o lo hi p) 0 <> Ok (mkG o lo hi p).
Proof.
  intros NF E. pose proof (vol_pos _ _ it_good) as V. fold ds' in V.
  destruct (grid_advance_ok p 0) as (q & E1 & L & Q); [rewrite it_vol; lia|].
  rewrite E in E1. injection E1 as <-. apply NF. cbn [Z.to_nat Nat.iter nat_rect g_begin g_with g_pt g_lo] in Q.
  change (vadd lo p = lo) in Q. clear - L Q. revert p L Q. generalize lo. induction lo0 as [|a l IH]; intros [|b p] L Q; try discriminate; constructor.
  - injection Q. intros. lia.
  - injection Q as Q1 Q2. now apply IH; auto.
Qed.
End It.

Lemma grid_advance_ignores g p q n : g_advance (g_with g p) n = g_advance (g_with g q) n.
Proof. reflexivity. Qed.

(** ** Empty regions *)
Lemma end_pt_lo lo : forall hi, length lo = length hi -> lo <> [] -> last lo 0 <> last hi 0 + 1 -> end_pt lo hi <> lo.
Proof.
  induction lo as [|l lo IH]; intros [|h hi] L N Hl; try discriminate; [easy|].
  destruct lo as [|l2 lo].
  - destruct hi; [|discriminate]. cbn in *. intros E. injection E. lia.
  - destruct hi as [|h2 hi]; [discriminate|]. intros E.
    assert (E1 : end_pt (l2 :: lo) (h2 :: hi) = l2 :: lo) by (injection E; auto).
    revert E1. apply IH; [auto|discriminate|exact Hl].
Qed.

Lemma in_box_nonempty lo hi p : in_box lo hi p -> nonempty_box lo hi.
Proof. induction 1; constructor; auto. lia. Qed.

Lemma grid_empty_walk o lo hi p0 : length lo = length hi -> lo <> [] -> ~ nonempty_box lo hi ->
  last (along o lo) 0 <> last (along o hi) 0 + 1 ->
  (forall p, ~ in_box lo hi p) /\
  forall fuel, g_walk fuel (g_begin (mkG o lo hi p0)) <> Some [].
Proof.
  intros L N E Hl. split; [intros p H; apply E; exact (in_box_nonempty _ _ _ H)|].
  intros fuel.
  assert (X : g_equal (g_begin (mkG o lo hi p0)) (g_end (g_begin (mkG o lo hi p0))) = false).
  { unfold g_equal. destruct list_eq_dec as [X|]; [|auto]. exfalso.
    unfold g_begin, g_end, g_with in X. cbn [g_order g_lo g_hi g_pt] in X.
    apply (f_equal (along o)) in X. rewrite along_along in X. symmetry in X. revert X.
    apply end_pt_lo; auto; [now rewrite !along_len|]. intros X. apply N. apply (f_equal (@length Z)) in X.
    rewrite along_len in X. now destruct lo. }
  destruct fuel; cbn [g_walk]; rewrite X; [discriminate|]. destruct g_walk; discriminate.
Qed.

(** ** One dimension *)
Lemma g1_walk_from k : forall fuel lo hi p, p + Z.of_nat k = hi + 1 -> (k <= fuel)%nat ->
  g1_walk fuel (mkG1 lo hi p) = Some (zseq p k).
Proof.
  induction k; intros fuel lo hi p H Hf.
  - destruct fuel; cbn [g1_walk g1_end g1_pt g1_lo g1_hi]; replace (p =? hi + 1) with true by lia; reflexivity.
  - destruct fuel; [lia|]. cbn [g1_walk]. cbn [g1_end g1_pt g1_hi]. replace (p =? hi + 1) with false by lia.
    unfold g1_inc at 1. cbn [g1_pt g1_lo g1_hi]. rewrite IHk by lia. now rewrite zseq_S.
Qed.
Lemma g1_walk_ok lo hi : lo <= hi -> exists l, (forall fuel, (length l <= fuel)%nat -> g1_walk fuel (g1_new lo hi) = Some l) /\
  StronglySorted Z.lt l /\ forall x, In x l <-> lo <= x <= hi.
Proof.
  intros H. exists (zseq lo (Z.to_nat (hi + 1 - lo))). split; [|split].
  - intros fuel Hf. unfold zseq in Hf. rewrite map_length, seq_length in Hf. apply g1_walk_from; lia.
  - apply zseq_sorted.
  - intros x. rewrite In_zseq. lia.
Qed.
Lemma g1_corners_bad lo hi : lo <= hi -> exists l, (forall fuel, (length l <= fuel)%nat -> g1_walk fuel (g1_new_corners lo hi) = Some l) /\
  In hi l /\ In (hi + 1) l.
Proof.
  intros H. exists (zseq lo (Z.to_nat (hi + 2 - lo))). split; [|split].
  - intros fuel Hf. unfold zseq in Hf. rewrite map_length, seq_length in Hf. apply g1_walk_from; lia.
  - apply In_zseq. lia.
  - apply In_zseq. lia.
Qed.

Lemma g1_arith g n : g1_dec (g1_inc g) = g /\ g1_inc (g1_dec g) = g /\
  g1_dist g (g1_advance g n) = n /\
  (0 <= n -> g1_advance g n = Nat.iter (Z.to_nat n) g1_inc g).
Proof.
  destruct g as [lo hi p]. unfold g1_dec, g1_inc, g1_dist, g1_advance. cbn [g1_lo g1_hi g1_pt].
  split; [f_equal; lia|]. split; [f_equal; lia|]. split; [lia|]. intros H.
  fold g1_inc. assert (E : forall k, Nat.iter k g1_inc (mkG1 lo hi p) = mkG1 lo hi (p + Z.of_nat k)).
  { induction k; [cbn; f_equal; lia|].
    change (Nat.iter (S k) g1_inc (mkG1 lo hi p)) with (g1_inc (Nat.iter k g1_inc (mkG1 lo hi p))).
    rewrite IHk. unfold g1_inc. cbn [g1_lo g1_hi g1_pt]. f_equal. lia. }
  rewrite E. f_equal. lia.
Qed.
