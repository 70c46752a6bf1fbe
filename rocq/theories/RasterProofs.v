From Coq Require Import ZArith List Bool Lia ZifyBool ZifyNat.
From Verif Require Import Mem GridModel GridSpec GridProofs RasterModel RasterSpec.
Import ListNotations.
Open Scope Z_scope.

(** ** Edges *)
Lemma int32_id x : - 2 ^ 31 <= x < 2 ^ 31 -> int32 x = x.
Proof. unfold int32. intros H. change (2 ^ 31) with 2147483648 in *. change (2 ^ 32) with 4294967296. lia. Qed.
Lemma int32_even x : Z.even (int32 x) = Z.even x.
Proof.
  unfold int32. set (m := 2 ^ 31). replace (2 ^ 32) with (2 * m) by reflexivity.
  rewrite Z.mod_eq by (unfold m; lia). rewrite !Z.even_sub, Z.even_add, !Z.even_mul. cbn [Z.even orb].
  unfold m. cbn. destruct (Z.even x); reflexivity.
Qed.
Lemma land1 x : (Z.land x 1 =? 0) = Z.even x.
Proof.
  replace (Z.land x 1) with (x mod 2). 2: { change 1 with (Z.ones 1). rewrite Z.land_ones by lia. reflexivity. }
  rewrite Zmod_even. destruct (Z.even x); reflexivity.
Qed.

Definition mirror_f (max c : Z) : Z :=
  if Z.even (Z.abs c / (max - 1)) then Z.abs c mod (max - 1) else max - 1 - Z.abs c mod (max - 1).

Lemma mirror_eq c max : 2 <= max <= 2 ^ 31 -> edge_coord EMirror c max = Ok (mirror_f max c).
Proof.
  intros H. unfold edge_coord. replace (max - 1 =? 0) with false by lia.
  rewrite Z.rem_mod_nonneg, Z.quot_div_nonneg by lia.
  rewrite land1, int32_even. pose proof (Z.mod_pos_bound (Z.abs c) (max - 1) ltac:(lia)).
  rewrite (int32_id (_ mod _)) by lia. unfold mirror_f. reflexivity.
Qed.

Lemma mirror_in max c : 2 <= max -> 0 <= mirror_f max c < max.
Proof. intros H. unfold mirror_f. pose proof (Z.mod_pos_bound (Z.abs c) (max - 1) ltac:(lia)). destruct Z.even; lia. Qed.

Lemma mirror_ok max : 2 <= max -> is_mirror (mirror_f max) max.
Proof.
  intros H.
  assert (I : forall c, 0 <= c < max -> mirror_f max c = c).
  { intros c Hc. unfold mirror_f. rewrite Z.abs_eq by lia. destruct (Z.eq_dec c (max - 1)) as [->|N].
    - rewrite Z.div_same, Z.mod_same by lia. cbn. lia.
    - rewrite Z.div_small, Z.mod_small by lia. reflexivity. }
  assert (E : forall c, mirror_f max (- c) = mirror_f max c) by (intros c; unfold mirror_f; now rewrite Z.abs_opp).
  assert (P : forall d, 0 <= d -> mirror_f max (d + 2 * (max - 1)) = mirror_f max d).
  { intros d Hd. unfold mirror_f. rewrite !Z.abs_eq by lia. rewrite Z.div_add, Z.mod_add by lia.
    rewrite Z.even_add. cbn [Z.even Z.even]. change (Z.even 2) with true. destruct (Z.even (d / (max - 1))); reflexivity. }
  assert (R : forall c, 0 <= c -> mirror_f max (max - 1 + c) = mirror_f max (max - 1 - c)).
  { intros c Hc. destruct (Z_le_gt_dec c (max - 1)) as [L|G].
    - rewrite (I (max - 1 - c)) by lia. unfold mirror_f. rewrite Z.abs_eq by lia.
      destruct (Z.eq_dec c (max - 1)) as [->|N].
      + replace (max - 1 + (max - 1)) with (2 * (max - 1)) by lia. rewrite Z.div_mul, Z.mod_mul by lia. cbn. lia.
      + replace ((max - 1 + c) / (max - 1)) with 1 by (apply Z.div_unique with c; lia).
        replace ((max - 1 + c) mod (max - 1)) with c by (apply Z.mod_unique with 1; lia). reflexivity.
    - rewrite <- (E (max - 1 - c)). replace (max - 1 + c) with (- (max - 1 - c) + 2 * (max - 1)) by lia. apply P. lia. }
  split; [exact I|]. split; [exact E|]. intros c. destruct (Z_le_gt_dec 0 c) as [L|G]; [auto|].
  specialize (R (- c)). replace (max - 1 + - c) with (max - 1 - c) in R by lia. replace (max - 1 - - c) with (max - 1 + c) in R by lia.
  symmetry. apply R. lia.
Qed.

Lemma periodic_eq c max : 0 < max -> edge_coord EPeriodic c max = Ok (c mod max).
Proof.
  intros H. unfold edge_coord. replace (max =? 0) with false by lia. f_equal.
  pose proof (Z.rem_bound_abs c max ltac:(lia)).
  rewrite Z.rem_mod_nonneg by lia.
  pose proof (Z.quot_rem c max ltac:(lia)) as Q.
  replace (Z.rem c max + max) with (c + (1 - Z.quot c max) * max) by lia.
  apply Z.mod_add. lia.
Qed.

Lemma edges_ok e max : edge_ok e max ->
  exists f, (forall c, edge_coord e c max = Ok (f c)) /\ (forall c, 0 <= f c < max) /\
    match e with
    | EClamp => is_clamp f max | EPeriodic => is_periodic f max | EMirror => is_mirror f max | EConstant => True
    end.
Proof.
  destruct e; cbn [edge_ok]; intros H; [| | |easy].
  - exists (fun c => Z.max (Z.min c (max - 1)) 0). split; [reflexivity|]. unfold is_clamp. repeat split; intros; lia.
  - exists (fun c => c mod max). split; [intros; now apply periodic_eq|]. split; [intros; apply Z.mod_pos_bound; lia|].
    split; intros; [apply Z.mod_small; lia|]. replace (c + max) with (c + 1 * max) by lia. apply Z.mod_add. lia.
  - exists (mirror_f max). split; [intros; now apply mirror_eq|]. split; [intros; apply mirror_in; lia|apply mirror_ok; lia].
Qed.

(** The properties determine the extension. *)
Lemma mirror_unique f g max : 2 <= max -> is_mirror f max -> is_mirror g max -> forall c, f c = g c.
Proof.
  intros H (F1 & F2 & F3) (G1 & G2 & G3).
  assert (P : forall n c, Z.abs c <= Z.of_nat n -> f c = g c).
  { induction n; intros c Hc.
    - assert (c = 0) by lia. subst. rewrite F1, G1 by lia. reflexivity.
    - assert (Q : forall d, 0 <= d <= Z.of_nat (S n) -> f d = g d).
      { intros d Hd. destruct (Z_lt_ge_dec d max) as [L|L]; [rewrite F1, G1 by lia; reflexivity|].
        replace d with (max - 1 + (d - (max - 1))) by lia. rewrite F3, G3.
        apply IHn. lia. }
      destruct (Z_le_gt_dec 0 c) as [L|L]; [apply Q; lia|].
      rewrite <- F2, <- G2. apply Q. lia. }
  intros c. apply (P (Z.to_nat (Z.abs c))). lia.
Qed.

(** ** Flat index *)
Fixpoint rank (ext c : list Z) : Z :=
  match ext, c with e :: ext', x :: c' => x + e * rank ext' c' | _, _ => 0 end.

Lemma flat_const ext : forall c dim idx, flat_index EConstant ext c dim idx = Ok (idx + dim * rank ext c).
Proof.
  induction ext as [|e ext IH]; intros [|x c] dim idx; cbn [flat_index rank]; try (f_equal; lia).
  cbn [edge_coord bind]. rewrite IH. f_equal. ring.
Qed.

Lemma prod_cons e ext : array_product (e :: ext) = e * array_product ext.
Proof.
  assert (P : forall l a b, fold_left Z.mul l (a * b) = a * fold_left Z.mul l b).
  { induction l; intros; cbn; [auto|]. rewrite <- Z.mul_assoc. apply IHl. }
  unfold array_product. cbn [fold_left]. rewrite Z.mul_1_l. rewrite <- (Z.mul_1_r e) at 1. apply P.
Qed.
Lemma prod_nil : array_product [] = 1. Proof. reflexivity. Qed.
Lemma prod_pos ext : Forall (fun e => 0 < e) ext -> 0 < array_product ext.
Proof. induction 1; [rewrite prod_nil; lia|]. rewrite prod_cons. nia. Qed.

Lemma rank_range ext c : in_grid ext c -> 0 <= rank ext c < array_product ext.
Proof.
  induction 1 as [|e x ext c Hx H IH]; cbn [rank]; [rewrite prod_nil; lia|]. rewrite prod_cons. nia.
Qed.
Lemma rank_inj ext c : in_grid ext c -> forall c', in_grid ext c' -> rank ext c = rank ext c' -> c = c'.
Proof.
  induction 1 as [|e x ext c Hx H IH]; intros c' H' E; inversion H' as [|? x' ? c2 Hx' H2]; subst; [auto|].
  cbn [rank] in E. assert (E2 : rank ext c = rank ext c2) by nia. rewrite E2 in E. f_equal; [lia|auto].
Qed.
Lemma rank_surj ext : Forall (fun e => 0 < e) ext -> forall k, 0 <= k < array_product ext -> exists c, in_grid ext c /\ rank ext c = k.
Proof.
  induction 1 as [|e ext He H IH]; intros k Hk.
  - exists []. rewrite prod_nil in Hk. split; [constructor|cbn; lia].
  - rewrite prod_cons in Hk. pose proof (Z.div_mod k e ltac:(lia)). pose proof (Z.mod_pos_bound k e ltac:(lia)).
    destruct (IH (k / e)) as (c & Hc & E); [split; [apply Z.div_pos; lia|apply Z.div_lt_upper_bound; lia]|].
    exists (k mod e :: c). split; [constructor; auto|]. cbn [rank]. rewrite E. lia.
Qed.

Lemma flat_edges e ext c : Forall (edge_ok e) ext -> length c = length ext ->
  exists c', Forall2 (fun m xy => edge_coord e (fst xy) m = Ok (snd xy)) ext (combine c c') /\ in_grid ext c' /\
    forall dim idx, flat_index e ext c dim idx = flat_index EConstant ext c' dim idx.
Proof.
  intros F. revert c. induction F as [|m ext Hm F IH]; intros [|x c] L; try discriminate.
  - exists []. repeat split; constructor.
  - destruct (edges_ok e m Hm) as (f & Ef & Rf & _). destruct (IH c) as (c' & A & B & C); [now injection L|].
    exists (f x :: c'). split; [cbn [combine]; constructor; [apply Ef|exact A]|]. split; [constructor; auto|].
    intros dim idx. cbn [flat_index]. rewrite Ef. cbn [bind edge_coord]. apply C.
Qed.

(** An in-range point is its own image under every edge behaviour. *)
Lemma edge_inside e m x : edge_ok e m -> 0 <= x < m -> edge_coord e x m = Ok x.
Proof.
  intros He Hx. destruct (edges_ok e m He) as (f & Ef & _ & S). rewrite Ef. f_equal.
  destruct e; [apply S|apply S|apply S|easy]; lia.
Qed.
Lemma flat_inside e ext c : Forall (edge_ok e) ext -> in_grid ext c ->
  forall dim idx, flat_index e ext c dim idx = flat_index EConstant ext c dim idx.
Proof.
  intros F H. revert F. induction H as [|m x ext c Hx H IH]; intros F dim idx; [reflexivity|].
  inversion F; subst. cbn [flat_index]. rewrite edge_inside by auto. cbn [bind edge_coord]. auto.
Qed.

Lemma contains_iff ext : forall c, length c = length ext -> (contains ext c = true <-> in_grid ext c).
Proof.
  induction ext as [|e ext IH]; intros [|x c] L; try discriminate; cbn [contains].
  - split; [constructor|auto].
  - destruct ((x <? 0) || (e <=? x)) eqn:E.
    + split; [discriminate|]. intros H. inversion H; subst. lia.
    + rewrite IH by (now injection L). split; intros H; [constructor; auto; lia|now inversion H].
Qed.

Lemma in_grid_len ext c : in_grid ext c -> length c = length ext.
Proof. induction 1; cbn; auto. Qed.

(** ** Data *)
Section Data.
Variable O : Type.
Variable zero : O.

Lemma nth_error_firstn (l : list O) : forall n i, nth_error (firstn n l) i = if (i <? n)%nat then nth_error l i else None.
Proof.
  induction l as [|a l IH]; intros n i.
  - rewrite firstn_nil. destruct i, (_ <? n)%nat; reflexivity.
  - destruct n, i; try reflexivity. cbn [firstn nth_error]. rewrite IH. destruct (i <? n)%nat eqn:E, (S i <? S n)%nat eqn:E2; auto; lia.
Qed.
Lemma nth_error_skipn (l : list O) : forall n i, nth_error (skipn n l) i = nth_error l (n + i).
Proof. induction l; intros [|n] i; cbn; auto. now destruct i. Qed.
Lemma list_ext (l l' : list O) : (forall i, nth_error l i = nth_error l' i) -> l = l'.
Proof.
  revert l'. induction l as [|a l IH]; intros [|b l'] H; auto.
  - specialize (H 0%nat). discriminate.
  - specialize (H 0%nat). discriminate.
  - f_equal; [specialize (H 0%nat); now injection H|]. apply IH. intros i. apply (H (S i)).
Qed.

Lemma nth_write (d v : list O) o i : (o + length v <= length d)%nat ->
  nth_error (firstn o d ++ v ++ skipn (o + length v) d) i =
  if (i <? o)%nat then nth_error d i else if (i <? o + length v)%nat then nth_error v (i - o) else nth_error d i.
Proof.
  intros H. assert (L : length (firstn o d) = o) by (rewrite firstn_length; lia).
  destruct (i <? o)%nat eqn:E1.
  - rewrite nth_error_app1 by lia. rewrite nth_error_firstn, E1. reflexivity.
  - rewrite nth_error_app2, L by lia. destruct (i <? o + length v)%nat eqn:E2.
    + now rewrite nth_error_app1 by lia.
    + rewrite nth_error_app2 by lia. rewrite nth_error_skipn. f_equal. lia.
Qed.

Lemma read_write (d d' v : list O) o : write d o v = Ok d' ->
  length d' = length d /\ read d' o (length v) = Ok v /\
  forall o' n, o' + Z.of_nat n <= o \/ o + Z.of_nat (length v) <= o' -> read d' o' n = read d o' n.
Proof.
  unfold write. destruct ((0 <=? o) && _) eqn:E; [|discriminate]. intros X. injection X as <-.
  assert (Ho : (Z.to_nat o + length v <= length d)%nat) by lia.
  assert (L : length (firstn (Z.to_nat o) d ++ v ++ skipn (Z.to_nat o + length v) d) = length d)
    by (rewrite !app_length, firstn_length, skipn_length; lia).
  split; [exact L|]. unfold read. rewrite L. split.
  - rewrite E. f_equal. apply list_ext. intros i. rewrite nth_error_firstn, nth_error_skipn, nth_write by auto.
    destruct (i <? length v)%nat eqn:E1.
    + replace (Z.to_nat o + i <? Z.to_nat o)%nat with false by lia.
      replace (Z.to_nat o + i <? Z.to_nat o + length v)%nat with true by lia. f_equal. lia.
    + symmetry. apply nth_error_None. lia.
  - intros o' n Hd. destruct ((0 <=? o') && (o' + Z.of_nat n <=? Z.of_nat (length d))) eqn:E1; [|auto].
    f_equal. apply list_ext. intros i. rewrite !nth_error_firstn, !nth_error_skipn, nth_write by auto.
    destruct (i <? n)%nat eqn:E2; [|auto].
    destruct (Z.to_nat o' + i <? Z.to_nat o)%nat eqn:E3; [auto|].
    destruct (Z.to_nat o' + i <? Z.to_nat o + length v)%nat eqn:E4; [|auto]. lia.
Qed.

Lemma sample_const_ok (r : raster O) c : raster_ok r -> in_grid (r_extent r) c ->
  exists v, r_sample EConstant r c = Ok v /\ length v = r_chan r /\
    forall e, Forall (edge_ok e) (r_extent r) -> r_sample e r c = Ok v.
Proof.
  intros [HE HL] H. assert (LC : length c = length (r_extent r)) by exact (in_grid_len _ _ H).
  cbn [r_sample]. rewrite (proj2 (contains_iff _ _ LC) H).
  unfold r_index. rewrite flat_const. cbn [bind]. pose proof (rank_range _ _ H) as R.
  unfold read at 1. destruct ((0 <=? _) && _) eqn:E.
  2: { exfalso. apply Bool.andb_false_iff in E. nia. }
  eexists. split; [reflexivity|]. split; [rewrite firstn_length, skipn_length; lia|].
  intros e F. assert (X : r_sample e r c = (let* k := r_index e r c in read (r_data r) k (r_chan r))).
  { destruct e; try reflexivity. cbn [r_sample]. now rewrite (proj2 (contains_iff _ _ LC) H). }
  rewrite X. unfold r_index. rewrite flat_inside by auto. rewrite flat_const. cbn [bind]. unfold read. now rewrite E.
Qed.

(** Sampling anywhere is sampling at the image of the point under the edge behaviour. *)
Lemma sample_edge_ok (r : raster O) e c : raster_ok r -> Forall (edge_ok e) (r_extent r) -> length c = length (r_extent r) ->
  exists c' v, in_grid (r_extent r) c' /\
    Forall2 (fun m xy => edge_coord e (fst xy) m = Ok (snd xy)) (r_extent r) (combine c c') /\
    r_sample e r c = Ok v /\ r_sample EConstant r c' = Ok v.
Proof.
  intros OK F L. destruct (flat_edges e _ c F L) as (c' & A & B & C).
  destruct (sample_const_ok r c' OK B) as (v & S & _ & _).
  exists c', v. split; [auto|]. split; [auto|]. split; [|auto].
  assert (LC : length c' = length (r_extent r)) by exact (in_grid_len _ _ B).
  cbn [r_sample] in S. rewrite (proj2 (contains_iff _ _ LC) B) in S.
  assert (X : r_sample e r c = (let* k := r_index e r c in read (r_data r) k (r_chan r))).
  { destruct e; try reflexivity. destruct (r_extent r) eqn:Er; [|inversion F; easy].
    cbn [r_sample]. rewrite Er. reflexivity. }
  rewrite X. unfold r_index in *. rewrite C. exact S.
Qed.

Lemma set_ok (r : raster O) c v : raster_ok r -> in_grid (r_extent r) c -> length v = r_chan r ->
  exists r', r_set r c v = Ok r' /\ raster_ok r' /\ r_extent r' = r_extent r /\ r_chan r' = r_chan r /\ r_abyss r' = r_abyss r /\
    r_sample EConstant r' c = Ok v /\
    (forall c', in_grid (r_extent r) c' -> c' <> c -> r_sample EConstant r' c' = r_sample EConstant r c').
Proof.
  intros OK H Lv. destruct OK as [HE HL].
  assert (LC : forall c, in_grid (r_extent r) c -> length c = length (r_extent r)) by exact (in_grid_len (r_extent r)).
  unfold r_set. rewrite (proj2 (contains_iff _ _ (LC _ H)) H). unfold r_index. rewrite flat_const. cbn [bind].
  pose proof (rank_range _ _ H) as R.
  assert (W : exists d', write (r_data r) ((0 + 1 * rank (r_extent r) c) * Z.of_nat (r_chan r)) v = Ok d').
  { unfold write. destruct ((0 <=? _) && _) eqn:E; [eauto|]. exfalso. apply Bool.andb_false_iff in E. rewrite Lv in E. nia. }
  destruct W as (d' & W). rewrite W. cbn [bind]. destruct (read_write _ _ _ _ W) as (L' & RW & RO).
  eexists. split; [reflexivity|]. cbn [r_extent r_chan r_abyss r_data].
  split; [split; cbn [r_extent r_data r_chan]; [auto|now rewrite L']|]. do 3 (split; [reflexivity|]). split.
  - cbn [r_sample r_extent]. rewrite (proj2 (contains_iff _ _ (LC _ H)) H). unfold r_index. cbn [r_extent r_chan r_data].
    rewrite flat_const. cbn [bind]. rewrite <- Lv in *. exact RW.
  - intros c' H' Ne. cbn [r_sample r_extent]. rewrite (proj2 (contains_iff _ _ (LC _ H')) H'). unfold r_index. cbn [r_extent r_chan r_data].
    rewrite flat_const. cbn [bind]. apply RO. rewrite Lv.
    assert (rank (r_extent r) c <> rank (r_extent r) c') by (intros E; apply Ne; symmetry; exact (rank_inj _ _ H _ H' E)).
    nia.
Qed.

Lemma set_outside (r : raster O) c v : length c = length (r_extent r) -> ~ in_grid (r_extent r) c -> r_set r c v = Ok r.
Proof.
  intros L H. unfold r_set. destruct contains eqn:E; [|auto]. apply contains_iff in E; tauto.
Qed.

Lemma const_outside (r : raster O) c : length c = length (r_extent r) -> ~ in_grid (r_extent r) c ->
  r_sample EConstant r c = match r_abyss r with Some v => Ok v | None => Fault DeadRead end.
Proof.
  intros L H. cbn [r_sample]. destruct contains eqn:E; [|auto]. apply contains_iff in E; tauto.
Qed.

Lemma all_zero (l : list O) : (forall x, In x l -> x = zero) -> l = repeat zero (length l).
Proof. induction l; intros H; [reflexivity|]. cbn. f_equal; [apply H; now left|]. apply IHl. intros x Hx. apply H. now right. Qed.

Lemma new_ok dims n : Forall (fun e => 0 < e) dims -> raster_ok (r_new zero dims n) /\
  forall c, in_grid dims c -> r_sample EConstant (r_new zero dims n) c = Ok (repeat zero n).
Proof.
  intros F. pose proof (prod_pos _ F) as P.
  assert (OK : raster_ok (r_new zero dims n)).
  { split; [exact F|]. cbn [r_new r_data r_extent r_chan]. rewrite repeat_length. nia. }
  split; [exact OK|]. intros c H. destruct (sample_const_ok _ c OK H) as (v & E & L & _). rewrite E. f_equal.
  cbn [r_new r_chan] in L. rewrite <- L. clear L.
  cbn [r_sample r_new r_extent] in E.
  assert (LC : length c = length dims) by exact (in_grid_len _ _ H).
  rewrite (proj2 (contains_iff _ _ LC) H) in E. unfold r_index in E. cbn [r_extent r_new] in E. rewrite flat_const in E. cbn [bind] in E.
  unfold read in E. destruct (_ && _); [|discriminate]. injection E as <-.
  apply all_zero. intros x Hx. cbn [r_new r_data] in Hx.
  assert (Hx2 : In x (repeat zero (Z.to_nat (array_product dims * Z.of_nat n)))).
  { rewrite <- (firstn_skipn (Z.to_nat ((0 + 1 * rank dims c) * Z.of_nat n))).
    apply in_or_app. right. rewrite <- (firstn_skipn n). apply in_or_app. now left. }
  exact (repeat_spec _ _ _ Hx2).
Qed.

Lemma rank_number ext : forall c, rank ext c = cell_number ext c.
Proof. induction ext as [|e ext IH]; intros [|x c]; cbn [rank cell_number]; rewrite ?IH; reflexivity. Qed.
Lemma nth_firstn (l : list O) : forall n k, (k < n)%nat -> nth_error (firstn n l) k = nth_error l k.
Proof. induction l as [|x l IH]; intros [|n] [|k] H; cbn; try lia; try reflexivity. apply IH. lia. Qed.
Lemma nth_skipn (l : list O) : forall n k, nth_error (skipn n l) k = nth_error l (n + k).
Proof. induction l as [|x l IH]; intros [|n] k; cbn; try reflexivity; [now destruct k|apply IH]. Qed.
Lemma of_data_ok dims n src : Forall (fun e => 0 < e) dims -> array_product dims * Z.of_nat n <= Z.of_nat (length src) -> raster_ok (r_of_data zero dims n src) /\
  forall c, in_grid dims c -> exists v, r_sample EConstant (r_of_data zero dims n src) c = Ok v /\ length v = n /\
    forall k, (k < n)%nat -> nth_error v k = nth_error src (Z.to_nat (cell_number dims c) * n + k).
Proof.
  intros F LS. pose proof (prod_pos _ F) as P.
  assert (OK : raster_ok (r_of_data zero dims n src)).
  { split; [exact F|]. cbn [r_of_data r_data r_extent r_chan]. rewrite firstn_length, Nat.min_l; nia. }
  split; [exact OK|]. intros c H. destruct (sample_const_ok _ c OK H) as (v & E & L & _). exists v. split; [exact E|]. cbn [r_of_data r_chan] in L. split; [exact L|].
  cbn [r_sample r_of_data r_extent] in E.
  assert (LC : length c = length dims) by exact (in_grid_len _ _ H).
  rewrite (proj2 (contains_iff _ _ LC) H) in E. unfold r_index in E. cbn [r_extent r_of_data] in E. rewrite flat_const in E. cbn [bind r_of_data r_chan r_data] in E.
  unfold read in E. destruct (_ && _); [|discriminate]. injection E as <-.
  pose proof (rank_range _ _ H) as R. rewrite rank_number in *. intros k K.
  assert (M : Z.to_nat ((0 + 1 * cell_number dims c) * Z.of_nat n) = (Z.to_nat (cell_number dims c) * n)%nat) by (rewrite Z.add_0_l, Z.mul_1_l, Z2Nat.inj_mul, Nat2Z.id by lia; reflexivity).
  rewrite nth_firstn by exact K. match goal with |- nth_error (skipn ?m _) _ = _ => replace m with (Z.to_nat (cell_number dims c) * n)%nat by (symmetry; exact M) end. rewrite nth_skipn. apply nth_firstn.
  rewrite Z2Nat.inj_mul, Nat2Z.id by lia. assert (D : (S (Z.to_nat (cell_number dims c)) <= Z.to_nat (array_product dims))%nat) by lia. nia.
Qed.

Lemma gather_ok (r : raster O) e pts : raster_ok r -> Forall (edge_ok e) (r_extent r) ->
  Forall (fun p => length p = length (r_extent r)) pts ->
  exists vs, r_gather e r pts = Ok vs /\ Forall2 (fun p v => r_sample e r p = Ok v) pts vs.
Proof.
  intros OK F. induction 1 as [|p pts Hp H IH].
  - exists []. split; [reflexivity|constructor].
  - destruct (sample_edge_ok r e p OK F Hp) as (c' & v & _ & _ & S & _). destruct IH as (vs & E & G).
    exists (v :: vs). cbn [r_gather]. rewrite S. cbn [bind]. rewrite E. cbn [bind]. split; [auto|constructor; auto].
Qed.

Lemma copy_ok (r : raster O) e lo hi : raster_ok r -> Forall (edge_ok e) (r_extent r) ->
  nonempty_box lo hi -> lo <> [] -> length lo = length (r_extent r) ->
  exists vs pts, (forall fuel, (length pts <= fuel)%nat -> r_copy fuel e r lo hi = Some (Ok vs)) /\
    Forall2 (fun p v => r_sample e r p = Ok v) pts vs /\
    Z.of_nat (length vs) = volume lo hi /\ NoDup pts /\ (forall p, In p pts <-> in_box lo hi p) /\
    Sorted.StronglySorted before pts.
Proof.
  intros OK F NB NE L. destruct (grid_walk_ok true lo hi NB NE) as (pts & W & V & ND & I & S).
  destruct (gather_ok r e pts OK F) as (vs & G & FF).
  { apply Forall_forall. intros p Hp. apply I in Hp. apply in_box_len in Hp. lia. }
  exists vs, pts. split; [|split; [auto|split; [|auto]]].
  - intros fuel Hf. unfold r_copy. unfold g_new. rewrite (W fuel lo Hf). now rewrite G.
  - rewrite <- V. f_equal. symmetry. clear - FF. induction FF; cbn; auto.
Qed.
End Data.

Lemma raster_bij_range ext c : in_grid ext c -> 0 <= 0 + 1 * rank ext c < array_product ext.
Proof. intros H. pose proof (rank_range _ _ H). lia. Qed.
Lemma raster_bij_inj ext c c' : in_grid ext c -> in_grid ext c' -> 0 + 1 * rank ext c = 0 + 1 * rank ext c' -> c = c'.
Proof. intros H H' E. apply (rank_inj _ _ H _ H'). lia. Qed.
Lemma raster_bij_surj ext : Forall (fun e => 0 < e) ext ->
  forall k, 0 <= k < array_product ext -> exists c, in_grid ext c /\ 0 + 1 * rank ext c = k.
Proof. intros F k Hk. destruct (rank_surj ext F k Hk) as (c & A & B). exists c. split; [auto|lia]. Qed.
