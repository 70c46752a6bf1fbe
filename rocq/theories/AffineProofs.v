(** Lemmas for affine transforms. *)
From Coq Require Import Arith Lia List Bool Field Ring Reals Lra.
From Verif Require Import Fld FldLemmas RFld LinSpec PermModel PluModel PluProofs DetInvModel InvRawProofs MulModel MulProofs Vec3Model Vec2Model QuatModel GeoSpec QuatProofs Vec3Proofs AffineModel AffineSpec.
Import ListNotations.
Open Scope nat_scope.

Section P.
Variable K : field.
Add Field KF : (fth K).
Local Open Scope fld_scope.
Implicit Types xf x : xform K.
Implicit Types m : mtx K.
Implicit Types p q v tx sx : nat -> K.

Lemma hom_maps N m p i : sum (S N) (fun c => m i c * hom N p c) = maps N m p i.
Proof.
  cbn [sum]. unfold maps. f_equal.
  - apply sum_ext. intros c Hc. unfold hom. now rewrite (proj2 (Nat.ltb_lt _ _) Hc).
  - unfold hom. rewrite Nat.ltb_irrefl. ring.
Qed.
Lemma apply_maps N xf p i : (i <= N)%nat -> xf_apply N xf p i = maps N (xmat xf) p i.
Proof. intros H. unfold xf_apply. rewrite mul_mtx_vec_ok by lia. apply hom_maps. Qed.
Lemma apply_inverse_maps N xf p i : (i <= N)%nat -> xf_apply_inverse N xf p i = maps N (xinv xf) p i.
Proof. intros H. unfold xf_apply_inverse. rewrite mul_mtx_vec_ok by lia. apply hom_maps. Qed.
Lemma maps_ext N m p q i : agree N p q -> maps N m p i = maps N m q i.
Proof. intros H. unfold maps. f_equal. apply sum_ext. intros c Hc. now rewrite H. Qed.
Lemma maps_row N m m' p i : (forall c, (c <= N)%nat -> m i c = m' i c) -> maps N m p i = maps N m' p i.
Proof. intros H. unfold maps. f_equal; [|now apply H]. apply sum_ext. intros c Hc. now rewrite H by lia. Qed.
Lemma delta_sum N p i : (i < N)%nat -> sum N (fun c => delta i c * p c) = p i.
Proof. apply sum_delta. Qed.
Lemma maps_delta N p i : (i < N)%nat -> maps N delta p i = p i.
Proof. intros H. unfold maps. rewrite sum_delta by exact H. unfold delta. destruct (Nat.eqb_spec i N); [lia|]. ring. Qed.
Lemma maps_last N m p : affine_row N m -> maps N m p N = 1.
Proof.
  intros H. unfold maps. rewrite H by lia. rewrite (sum_zero K N).
  - unfold delta. rewrite Nat.eqb_refl. ring.
  - intros c Hc. rewrite H by lia. unfold delta. destruct (Nat.eqb_spec N c); [lia|]. ring.
Qed.
Lemma maps_mmul N m m' p i : affine_row N m' -> maps N (mmul (S N) m m') p i = maps N m (maps N m' p) i.
Proof.
  intros H. rewrite <- !hom_maps.
  transitivity (sum (S N) (fun k => m i k * sum (S N) (fun c => m' k c * hom N p c))).
  - unfold mmul. transitivity (sum (S N) (fun c => sum (S N) (fun k => m i k * (m' k c * hom N p c)))).
    + apply sum_ext. intros c _. rewrite <- sum_scale_r. apply sum_ext. intros k _. ring.
    + rewrite sum_swap. apply sum_ext. intros k _. apply sum_scale.
  - apply sum_ext. intros k Hk. f_equal. rewrite hom_maps. unfold hom. destruct (Nat.ltb_spec k N); [reflexivity|].
    assert (k = N) by lia. subst k. now apply maps_last.
Qed.
Lemma mmul_range n m1 m1' m2 m2' r c : (forall k, (k < n)%nat -> m1 r k = m1' r k) -> (forall k, (k < n)%nat -> m2 k c = m2' k c) -> mmul n m1 m2 r c = mmul n m1' m2' r c.
Proof. intros A B. unfold mmul. apply sum_ext. intros k Hk. now rewrite A, B. Qed.
Lemma hmul_ok N m m' r c : (r <= N)%nat -> (c <= N)%nat -> hmul N m m' r c = mmul (S N) m m' r c.
Proof. intros. unfold hmul. apply mul_dense_ok; lia. Qed.
Lemma affine_hmul N m m' : affine_row N m -> affine_row N m' -> affine_row N (hmul N m m').
Proof.
  intros A B c Hc. rewrite hmul_ok by lia. unfold mmul. rewrite (sum_ext K (S N) _ (fun k => delta N k * m' k c)).
  - rewrite sum_delta by lia. now apply B.
  - intros k Hk. now rewrite A by lia.
Qed.
Lemma maps_hmul N m m' p i : (i <= N)%nat -> affine_row N m' -> maps N (hmul N m m') p i = maps N m (maps N m' p) i.
Proof. intros Hi H. rewrite <- maps_mmul by exact H. apply maps_row. intros c Hc. apply hmul_ok; lia. Qed.

Lemma inverse_sym n m m' : inverse_of n m m' -> inverse_of n m' m.
Proof. intros H r c Hr Hc. destruct (H r c Hr Hc). split; assumption. Qed.
Lemma mmul_delta_l n m r c : (r < n)%nat -> mmul n delta m r c = m r c.
Proof. intros. unfold mmul. now apply (sum_delta K n r (fun k => m k c)). Qed.
Lemma mmul_delta_r n m r c : (c < n)%nat -> mmul n m delta r c = m r c.
Proof. intros. unfold mmul. now apply (sum_delta_r K n c (fun k => m r k)). Qed.
(** (A B)(B' A') = I when B B' = I and A A' = I. *)
Lemma product_inverse N (A A' B B' : mtx K) :
  (forall r c, (r <= N)%nat -> (c <= N)%nat -> mmul (S N) A A' r c = delta r c) ->
  (forall r c, (r <= N)%nat -> (c <= N)%nat -> mmul (S N) B B' r c = delta r c) ->
  forall r c, (r <= N)%nat -> (c <= N)%nat -> mmul (S N) (hmul N A B) (hmul N B' A') r c = delta r c.
Proof.
  intros HA HB r c Hr Hc.
  rewrite (mmul_range (S N) _ (mmul (S N) A B) _ (mmul (S N) B' A')) by (intros; apply hmul_ok; lia).
  rewrite mmul_assoc. transitivity (mmul (S N) A A' r c); [|now apply HA]. apply mmul_range; [reflexivity|]. intros k Hk.
  rewrite <- mmul_assoc. transitivity (mmul (S N) delta A' k c); [|apply mmul_delta_l; lia].
  apply mmul_range; [|reflexivity]. intros l Hl. apply HB; lia.
Qed.
Lemma inverse_hmul N (A A' B B' : mtx K) : inverse_of (S N) A A' -> inverse_of (S N) B B' -> inverse_of (S N) (hmul N A B) (hmul N B' A').
Proof.
  intros HA HB r c Hr Hc. split.
  - apply product_inverse; try lia; intros; [apply HA|apply HB]; lia.
  - apply product_inverse; try lia; intros; [apply HB|apply HA]; lia.
Qed.

Lemma sound_then N (a b : xform K) : sound N a -> sound N b -> sound N (xf_then N a b).
Proof.
  intros (A1 & A2 & A3) (B1 & B2 & B3). unfold sound, xf_then. cbn [xmat xinv].
  split; [now apply affine_hmul|]. split; [now apply affine_hmul|]. now apply inverse_hmul.
Qed.
Lemma sound_inverse N (a : xform K) : sound N a -> sound N (xf_inverse a).
Proof. intros (A1 & A2 & A3). split; [exact A2|]. split; [exact A1|]. now apply inverse_sym. Qed.
Lemma then_inverse_is N (a b : xform K) : xf_then_inverse N a b = xf_then N a (xf_inverse b).
Proof. reflexivity. Qed.
Lemma sound_identity N : sound N (@xf_identity K).
Proof.
  split; [now intros c _|]. split; [now intros c _|]. intros r c Hr Hc. cbn [xmat xinv xf_identity].
  split; now apply mmul_delta_l.
Qed.

(** *** Soundness from the pointwise round trip *)
Lemma mat_of_maps N m m' : affine_row N m -> affine_row N m' -> (forall p, agree N (maps N m (maps N m' p)) p) ->
  forall r c, (r <= N)%nat -> (c <= N)%nat -> mmul (S N) m m' r c = delta r c.
Proof.
  intros A A' H r c Hr Hc.
  assert (G : forall p i, (i < N)%nat -> maps N (mmul (S N) m m') p i = p i) by (intros p i Hi; rewrite maps_mmul by exact A'; now apply H).
  destruct (Nat.eq_dec r N) as [->|Hr'].
  { rewrite (mmul_range (S N) m delta m' m'); [rewrite mmul_delta_l by lia; now apply A'| |reflexivity]. intros k Hk. apply A. lia. }
  assert (Hr2 : (r < N)%nat) by lia. set (Q := mmul (S N) m m') in *.
  assert (T : Q r N = 0).
  { pose proof (G (fun _ => 0) r Hr2) as E. unfold maps in E. rewrite (sum_zero K N) in E by (intros; ring). rewrite <- E. ring. }
  destruct (Nat.eq_dec c N) as [->|Hc'].
  - rewrite T. unfold delta. destruct (Nat.eqb_spec r N); [lia|reflexivity].
  - pose proof (G (fun i => delta i c) r Hr2) as E. unfold maps in E. rewrite T, (sum_delta_r K N c (fun k => Q r k)) in E by lia. rewrite <- E. ring.
Qed.
Lemma sound_of_maps N xf : affine_row N (xmat xf) -> affine_row N (xinv xf) ->
  (forall p, agree N (maps N (xmat xf) (maps N (xinv xf) p)) p) -> (forall p, agree N (maps N (xinv xf) (maps N (xmat xf) p)) p) -> sound N xf.
Proof.
  intros A B H H'. split; [exact A|]. split; [exact B|]. intros r c Hr Hc. split; apply mat_of_maps; trivial; lia.
Qed.
Lemma maps_inverse N m m' : affine_row N m' -> (forall r c, (r <= N)%nat -> (c <= N)%nat -> mmul (S N) m m' r c = delta r c) ->
  forall p, agree N (maps N m (maps N m' p)) p.
Proof.
  intros A H p i Hi. rewrite <- maps_mmul by exact A. rewrite (maps_row N _ delta) by (intros; apply H; lia). now apply maps_delta.
Qed.
Lemma sound_round_trips N xf : sound N xf -> round_trips N xf.
Proof.
  intros (A & B & H) p. split; intros i Hi.
  - rewrite apply_inverse_maps by lia. rewrite (maps_ext N _ _ (maps N (xmat xf) p)) by (intros j Hj; apply apply_maps; lia).
    apply maps_inverse; trivial. intros; apply H; lia.
  - rewrite apply_maps by lia. rewrite (maps_ext N _ _ (maps N (xinv xf) p)) by (intros j Hj; apply apply_inverse_maps; lia).
    apply maps_inverse; trivial. intros; apply H; lia.
Qed.

(** *** Composition *)
Lemma apply_then N (a b : xform K) p : affine_row N (xmat a) -> agree N (xf_apply N (xf_then N a b) p) (xf_apply N b (xf_apply N a p)).
Proof.
  intros A i Hi. rewrite !apply_maps by lia. cbn [xf_then xmat]. rewrite maps_hmul by (trivial; lia).
  apply maps_ext. intros j Hj. symmetry. apply apply_maps. lia.
Qed.
Lemma apply_of_inverse N (a : xform K) p : xf_apply N (xf_inverse a) p = xf_apply_inverse N a p.
Proof. reflexivity. Qed.

(** *** Vectors and normals *)
Lemma apply_vector_is N xf v i : xf_apply_vector N xf v i = sum N (fun c => xmat xf i c * v c).
Proof. unfold xf_apply_vector. rewrite accum_sum. ring. Qed.
Lemma apply_inverse_vector_is N xf v i : xf_apply_inverse_vector N xf v i = sum N (fun c => xinv xf i c * v c).
Proof. unfold xf_apply_inverse_vector. rewrite accum_sum. ring. Qed.
Lemma vector_difference N xf p v : agree N (xf_apply N xf (fun i => p i + v i)) (fun i => xf_apply N xf p i + xf_apply_vector N xf v i).
Proof.
  intros i Hi. rewrite !apply_maps, apply_vector_is by lia. unfold maps. 
  rewrite (sum_ext K N _ (fun c => xmat xf i c * p c + xmat xf i c * v c)) by (intros; ring). rewrite sum_add. ring.
Qed.
Lemma block_inverse N m m' : affine_row N m' -> (forall r c, (r <= N)%nat -> (c <= N)%nat -> mmul (S N) m m' r c = delta r c) ->
  forall r c, (r < N)%nat -> (c < N)%nat -> sum N (fun k => m r k * m' k c) = delta r c.
Proof.
  intros A H r c Hr Hc. rewrite <- H by lia. unfold mmul. cbn [sum]. rewrite A by lia. unfold delta. destruct (Nat.eqb_spec N c); [lia|]. ring.
Qed.
Lemma normal_inner N (m m' : mtx K) (n v : nat -> K) :
  (forall r c, (r < N)%nat -> (c < N)%nat -> sum N (fun k => m' r k * m k c) = delta r c) ->
  inner N (fun r => sum N (fun c => m' c r * n c)) (fun r => sum N (fun c => m r c * v c)) = inner N n v.
Proof.
  intros H. unfold inner.
  transitivity (sum N (fun r => sum N (fun c => sum N (fun d => n c * (m' c r * m r d * v d))))).
  { apply sum_ext. intros r _. rewrite <- sum_scale_r. apply sum_ext. intros c _.
    rewrite <- sum_scale. apply sum_ext. intros d _. ring. }
  rewrite sum_swap. apply sum_ext. intros c Hc. rewrite sum_swap.
  transitivity (sum N (fun d => n c * (delta c d * v d))).
  - apply sum_ext. intros d Hd. rewrite <- (H c d Hc Hd), <- sum_scale_r, <- sum_scale. apply sum_ext. intros; ring.
  - rewrite sum_scale, sum_delta by exact Hc. reflexivity.
Qed.
Lemma apply_normal_inner N xf (n v : nat -> K) : sound N xf -> inner N (xf_apply_normal N xf n) (xf_apply_vector N xf v) = inner N n v.
Proof.
  intros (A & B & H). etransitivity; [|apply (normal_inner N (xmat xf) (xinv xf))].
  - unfold inner. apply sum_ext. intros i _. rewrite apply_vector_is. unfold xf_apply_normal. rewrite accum_sum. ring.
  - apply block_inverse; trivial. intros; apply H; lia.
Qed.
Lemma apply_inverse_normal_is N xf n : xf_apply_inverse_normal N xf n = xf_apply_normal N (xf_inverse xf) n.
Proof. reflexivity. Qed.
Lemma apply_inverse_vector_inv N xf v : xf_apply_inverse_vector N xf v = xf_apply_vector N (xf_inverse xf) v.
Proof. reflexivity. Qed.
Lemma vector_round_trip N xf v : sound N xf -> agree N (xf_apply_inverse_vector N xf (xf_apply_vector N xf v)) v.
Proof.
  intros (A & B & H) i Hi. rewrite apply_inverse_vector_is.
  transitivity (sum N (fun c => delta i c * v c)); [|now apply sum_delta].
  transitivity (sum N (fun c => sum N (fun d => xinv xf i d * xmat xf d c) * v c)).
  - rewrite (sum_ext K N _ (fun d => sum N (fun c => xinv xf i d * xmat xf d c * v c))).
    + rewrite sum_swap. apply sum_ext. intros c _. apply sum_scale_r.
    + intros d _. rewrite apply_vector_is, <- sum_scale. apply sum_ext. intros; ring.
  - apply sum_ext. intros c Hc. rewrite (block_inverse N (xinv xf) (xmat xf)); trivial. intros; apply H; lia.
Qed.

(** *** Translation, scale, general matrices *)
Lemma upd2_if m (r c : nat) (y : K) (r' c' : nat) : upd2 m r c y r' c' = (if (r' =? r)%nat && (c' =? c)%nat then y else m r' c').
Proof. reflexivity. Qed.
Lemma translation_mats N tx : forall k r c, 
  let x := fold_left (fun (x : xform K) i => mkXf (upd2 (xmat x) i N (tx i)) (upd2 (xinv x) i N (- tx i))) (seq 0 k) xf_identity in
  xmat x r c = (if (c =? N)%nat && (r <? k)%nat then tx r else delta r c) /\
  xinv x r c = (if (c =? N)%nat && (r <? k)%nat then - tx r else delta r c).
Proof.
  induction k as [|k IH]; intros r c; cbn zeta in *.
  { cbn. now rewrite andb_false_r. }
  rewrite seq_S, fold_left_app. cbn [fold_left Nat.add xmat xinv]. rewrite !upd2_if. 
  destruct (IH r c) as [E1 E2]. rewrite E1, E2. clear E1 E2 IH.
  destruct (Nat.eqb_spec c N) as [->|Hc].
  - destruct (Nat.eqb_spec r k) as [->|Hr]; cbn [andb].
    + rewrite (proj2 (Nat.ltb_lt k (S k))) by lia. split; reflexivity.
    + replace (r <? S k)%nat with (r <? k)%nat; [split; reflexivity|]. apply eq_true_iff_eq. rewrite !Nat.ltb_lt. lia.
  - rewrite !andb_false_r. cbn [andb]. split; reflexivity.
Qed.
Lemma translation_mat N tx r c : xmat (xf_translation N tx) r c = (if (c =? N)%nat && (r <? N)%nat then tx r else delta r c).
Proof. apply (proj1 (translation_mats N tx N r c)). Qed.
Lemma translation_inv N tx r c : xinv (xf_translation N tx) r c = (if (c =? N)%nat && (r <? N)%nat then - tx r else delta r c).
Proof. apply (proj2 (translation_mats N tx N r c)). Qed.
Lemma maps_shift N tx p i (m : mtx K) : (i < N)%nat -> (forall c, m i c = if (c =? N)%nat && (i <? N)%nat then tx i else delta i c) -> maps N m p i = p i + tx i.
Proof.
  intros Hi E. unfold maps. rewrite (sum_ext K N _ (fun c => delta i c * p c)).
  - rewrite sum_delta, E, Nat.eqb_refl, (proj2 (Nat.ltb_lt _ _) Hi) by exact Hi. reflexivity.
  - intros c Hc. rewrite E. destruct (Nat.eqb_spec c N); [lia|reflexivity].
Qed.
Lemma translation_maps N tx p i : (i < N)%nat -> maps N (xmat (xf_translation N tx)) p i = p i + tx i.
Proof. intros Hi. apply maps_shift; [exact Hi|]. intros; apply translation_mat. Qed.
Lemma translation_inv_maps N tx p i : (i < N)%nat -> maps N (xinv (xf_translation N tx)) p i = p i - tx i.
Proof. intros Hi. rewrite (maps_shift N (fun i => - tx i)); [ring|exact Hi|]. intros; apply translation_inv. Qed.
Lemma sound_translation N tx : sound N (xf_translation N tx).
Proof.
  apply sound_of_maps.
  - intros c Hc. rewrite translation_mat, Nat.ltb_irrefl, andb_false_r. reflexivity.
  - intros c Hc. rewrite translation_inv, Nat.ltb_irrefl, andb_false_r. reflexivity.
  - intros p i Hi. rewrite translation_maps, translation_inv_maps by exact Hi. ring.
  - intros p i Hi. rewrite translation_inv_maps, translation_maps by exact Hi. ring.
Qed.
Lemma scale_mats (sx : nat -> K) : forall k r c, 
  let x := fold_left (fun (x : xform K) i => mkXf (upd2 (xmat x) i i (sx i)) (upd2 (xinv x) i i (1 / sx i))) (seq 0 k) xf_identity in
  xmat x r c = (if (c =? r)%nat && (r <? k)%nat then sx r else delta r c) /\
  xinv x r c = (if (c =? r)%nat && (r <? k)%nat then 1 / sx r else delta r c).
Proof.
  induction k as [|k IH]; intros r c; cbn zeta in *.
  { cbn. now rewrite andb_false_r. }
  rewrite seq_S, fold_left_app. cbn [fold_left Nat.add xmat xinv]. rewrite !upd2_if. 
  destruct (IH r c) as [E1 E2]. rewrite E1, E2. clear E1 E2 IH.
  destruct (Nat.eqb_spec r k) as [->|Hr]; cbn [andb].
  - rewrite (proj2 (Nat.ltb_lt k (S k))) by lia. rewrite Nat.ltb_irrefl, !andb_false_r, !andb_true_r. destruct (c =? k)%nat; split; reflexivity.
  - replace (r <? S k)%nat with (r <? k)%nat; [split; reflexivity|]. apply eq_true_iff_eq. rewrite !Nat.ltb_lt. lia.
Qed.
Lemma maps_scale N sx p i (m : mtx K) : (i < N)%nat -> (forall c, m i c = if (c =? i)%nat && (i <? N)%nat then sx i else delta i c) -> maps N m p i = sx i * p i.
Proof.
  intros Hi E. unfold maps. rewrite (sum_single K N i) by (trivial; intros c Hc Hn; rewrite E; unfold delta; destruct (Nat.eqb_spec c i), (Nat.eqb_spec i c); try lia; cbn; ring).
  rewrite !E, Nat.eqb_refl, (proj2 (Nat.ltb_lt _ _) Hi). cbn [andb]. destruct (Nat.eqb_spec N i); [lia|]. unfold delta. destruct (Nat.eqb_spec i N); [lia|]. cbn. ring.
Qed.
Lemma scale_maps N sx p i : (i < N)%nat -> maps N (xmat (xf_scale N sx)) p i = sx i * p i.
Proof. intros Hi. apply maps_scale; [exact Hi|]. intros. apply (proj1 (scale_mats sx N i c)). Qed.
Lemma scale_inv_maps N sx p i : (i < N)%nat -> maps N (xinv (xf_scale N sx)) p i = 1 / sx i * p i.
Proof. intros Hi. apply (maps_scale N (fun i => 1 / sx i)); [exact Hi|]. intros. apply (proj2 (scale_mats sx N i c)). Qed.
Lemma sound_scale N sx : (forall i, (i < N)%nat -> sx i <> 0) -> sound N (xf_scale N sx).
Proof.
  intros H. apply sound_of_maps.
  - intros c Hc. unfold xf_scale. rewrite (proj1 (scale_mats sx N N c)), Nat.ltb_irrefl, andb_false_r. reflexivity.
  - intros c Hc. unfold xf_scale. rewrite (proj2 (scale_mats sx N N c)), Nat.ltb_irrefl, andb_false_r. reflexivity.
  - intros p i Hi. rewrite scale_maps, scale_inv_maps by exact Hi. field. now apply H.
  - intros p i Hi. rewrite scale_inv_maps, scale_maps by exact Hi. field. now apply H.
Qed.

Section Gen.
Variables (A B : mtx K) (N : nat).
Definition put_row (n : nat) (x : xform K) (r : nat) : xform K :=
  fold_left (fun (x : xform K) c => mkXf (upd2 (xmat x) r c (A r c)) (upd2 (xinv x) r c (B r c))) (seq 0 n) x.
Lemma put_row_spec n x r r' c' :
  xmat (put_row n x r) r' c' = (if (r' =? r)%nat && (c' <? n)%nat then A r' c' else xmat x r' c') /\
  xinv (put_row n x r) r' c' = (if (r' =? r)%nat && (c' <? n)%nat then B r' c' else xinv x r' c').
Proof.
  unfold put_row. induction n as [|n IH]; [cbn; rewrite andb_false_r; split; reflexivity|].
  rewrite seq_S, fold_left_app. cbn [fold_left Nat.add xmat xinv]. rewrite !upd2_if. destruct IH as [E1 E2]. rewrite E1, E2. clear E1 E2.
  destruct (Nat.eqb_spec r' r) as [->|Hr]; cbn [andb]; [|split; reflexivity].
  destruct (Nat.eqb_spec c' n) as [->|Hc].
  - rewrite (proj2 (Nat.ltb_lt n (S n))) by lia. split; reflexivity.
  - replace (c' <? S n)%nat with (c' <? n)%nat; [split; reflexivity|]. apply eq_true_iff_eq. rewrite !Nat.ltb_lt. lia.
Qed.
Definition put_block (n k : nat) (x : xform K) : xform K := fold_left (put_row n) (seq 0 k) x.
Lemma put_block_spec n k x r c :
  xmat (put_block n k x) r c = (if (r <? k)%nat && (c <? n)%nat then A r c else xmat x r c) /\
  xinv (put_block n k x) r c = (if (r <? k)%nat && (c <? n)%nat then B r c else xinv x r c).
Proof.
  unfold put_block. induction k as [|k IH]; [cbn; split; reflexivity|].
  rewrite seq_S, fold_left_app. cbn [fold_left Nat.add].
  destruct (put_row_spec n (fold_left (put_row n) (seq 0 k) x) k r c) as [E1 E2]. destruct IH as [F1 F2]. rewrite E1, E2, F1, F2.
  destruct (Nat.eqb_spec r k) as [->|Hr]; cbn [andb].
  - rewrite Nat.ltb_irrefl, (proj2 (Nat.ltb_lt k (S k))) by lia. cbn. destruct (c <? n)%nat; split; reflexivity.
  - replace (r <? S k)%nat with (r <? k)%nat; [split; reflexivity|]. apply eq_true_iff_eq. rewrite !Nat.ltb_lt. lia.
Qed.
Definition in_block (x : xform K) : Prop := forall r c,
  xmat x r c = (if (r <? N)%nat && (c <? N)%nat then A r c else delta r c) /\
  xinv x r c = (if (r <? N)%nat && (c <? N)%nat then B r c else delta r c).
Lemma block_maps x p i : in_block x -> (i < N)%nat -> maps N (xmat x) p i = sum N (fun c => A i c * p c).
Proof.
  intros H Hi. unfold maps. rewrite (sum_ext K N _ (fun c => A i c * p c)).
  - rewrite (proj1 (H i N)), Nat.ltb_irrefl, andb_false_r. unfold delta. destruct (Nat.eqb_spec i N); [lia|]. ring.
  - intros c Hc. now rewrite (proj1 (H i c)), (proj2 (Nat.ltb_lt _ _) Hi), (proj2 (Nat.ltb_lt _ _) Hc).
Qed.
Lemma block_inv_maps x p i : in_block x -> (i < N)%nat -> maps N (xinv x) p i = sum N (fun c => B i c * p c).
Proof.
  intros H Hi. unfold maps. rewrite (sum_ext K N _ (fun c => B i c * p c)).
  - rewrite (proj2 (H i N)), Nat.ltb_irrefl, andb_false_r. unfold delta. destruct (Nat.eqb_spec i N); [lia|]. ring.
  - intros c Hc. now rewrite (proj2 (H i c)), (proj2 (Nat.ltb_lt _ _) Hi), (proj2 (Nat.ltb_lt _ _) Hc).
Qed.
Lemma block_affine x : in_block x -> affine_row N (xmat x) /\ affine_row N (xinv x).
Proof. intros H. split; intros c Hc; destruct (H N c) as [E1 E2]; rewrite Nat.ltb_irrefl in E1, E2; assumption. Qed.
Lemma sum_sum_delta (P Q : mtx K) (p : nat -> K) i : (forall r c, (r < N)%nat -> (c < N)%nat -> mmul N P Q r c = delta r c) -> (i < N)%nat ->
  sum N (fun c => P i c * sum N (fun d => Q c d * p d)) = p i.
Proof.
  intros H Hi. transitivity (sum N (fun d => mmul N P Q i d * p d)).
  - rewrite (sum_ext K N _ (fun c => sum N (fun d => P i c * Q c d * p d))).
    + rewrite sum_swap. apply sum_ext. intros d _. unfold mmul. now rewrite sum_scale_r.
    + intros c _. rewrite <- sum_scale. apply sum_ext. intros; ring.
  - rewrite (sum_ext K N _ (fun d => delta i d * p d)) by (intros; now rewrite H). now apply sum_delta.
Qed.
Lemma sound_block x : in_block x -> inverse_of N A B -> sound N x.
Proof.
  intros H I. destruct (block_affine x H) as [U V]. apply sound_of_maps; trivial.
  - intros p i Hi. rewrite block_maps by trivial. rewrite (sum_ext K N _ (fun c => A i c * sum N (fun d => B c d * p d))).
    + apply sum_sum_delta; trivial. intros; now apply I.
    + intros c Hc. now rewrite block_inv_maps.
  - intros p i Hi. rewrite block_inv_maps by trivial. rewrite (sum_ext K N _ (fun c => B i c * sum N (fun d => A c d * p d))).
    + apply sum_sum_delta; trivial. intros; now apply I.
    + intros c Hc. now rewrite block_maps.
Qed.
End Gen.

Section Transf.
Variable bigger : K -> K -> bool.
Hypothesis sane : sane_order bigger.
Definition given_inverse (N : nat) (lm : bool) (m : nat -> K) : mtx K :=
  stored true N (snd (inv_raw bigger true lm N (fun k => delta (k / N)%nat (k mod N)%nat) m)).
Lemma transformation_block N lm (m : nat -> K) : in_block (stored lm N m) (given_inverse N lm m) N (xf_transformation bigger N lm m).
Proof.
  intros r c. change (xf_transformation bigger N lm m) with (put_block (stored lm N m) (given_inverse N lm m) N N xf_identity).
  apply put_block_spec.
Qed.
Lemma transformation_sound N lm (m : nat -> K) : ~ singular N (stored lm N m) -> sound N (xf_transformation bigger N lm m).
Proof.
  intros H. apply (sound_block _ _ _ _ (transformation_block N lm m)).
  exact (proj2 (proj2 (inv_raw_ok K bigger sane true lm N _ m) H)).
Qed.
Lemma transformation_maps N lm (m p : nat -> K) : agree N (xf_apply N (xf_transformation bigger N lm m) p) (fun i => sum N (fun c => stored lm N m i c * p c)).
Proof. intros i Hi. rewrite apply_maps by lia. now apply (block_maps _ _ N _ p i (transformation_block N lm m)). Qed.
Lemma transformation_singular N lm (m : nat -> K) : singular N (stored lm N m) -> ~ round_trips N (xf_transformation bigger N lm m).
Proof.
  intros (w & (i & Hi & Hw) & Z) RT. apply Hw.
  rewrite <- (proj1 (RT w) i Hi). rewrite <- (proj1 (RT (fun _ => 0)) i Hi).
  rewrite !apply_inverse_maps by lia. apply maps_ext. intros j Hj.
  rewrite !(transformation_maps N lm m _ j Hj). rewrite Z by exact Hj. symmetry. apply sum_zero. intros; ring.
Qed.
Lemma transformation_singular_inv N lm (m : nat -> K) : (N = 2 \/ N = 3 \/ N = 4)%nat -> singular N (stored lm N m) ->
  forall r c, (r <= N)%nat -> (c <= N)%nat -> xinv (xf_transformation bigger N lm m) r c = delta r c.
Proof.
  intros HN S r c Hr Hc. destruct (transformation_block N lm m r c) as [_ ->].
  destruct (Nat.ltb_spec r N) as [Lr|]; [|reflexivity]. destruct (Nat.ltb_spec c N) as [Lc|]; [|reflexivity]. cbn [andb].
  unfold given_inverse. destruct (inv_raw_small K bigger true lm N (fun k => delta (k / N)%nat (k mod N)%nat) m HN) as [[_ I]|(_ & _ & U)].
  - exfalso. destruct S as (w & (i & Hi & Hw) & Z). apply Hw.
    rewrite <- (sum_sum_delta N _ (stored lm N m) w i (fun r c Hr Hc => proj2 (I r c Hr Hc)) Hi). apply sum_zero. intros d Hd. rewrite Z by exact Hd. ring.
  - unfold stored at 1. rewrite U. now destruct (cell_div N r c Lc) as [-> ->].
Qed.
End Transf.

(** *** Resizing *)
Section Resize.
Variables (N M : nat) (xf : xform K).
Let k := Nat.min M N.
Definition resize_row (x : xform K) (i : nat) : xform K :=
  let x1 := put_row (xmat xf) (xinv xf) k x i in mkXf (upd2 (xmat x1) i M (xmat xf i N)) (xinv x1).
Lemma resize_rows j r c : (j <= k)%nat ->
  xmat (fold_left resize_row (seq 0 j) xf_identity) r c =
    (if (r <? j)%nat && (c =? M)%nat then xmat xf r N else if (r <? j)%nat && (c <? k)%nat then xmat xf r c else delta r c) /\
  xinv (fold_left resize_row (seq 0 j) xf_identity) r c = (if (r <? j)%nat && (c <? k)%nat then xinv xf r c else delta r c).
Proof.
  induction j as [|j IH]; intros Hj; [cbn; split; reflexivity|]. specialize (IH ltac:(lia)). destruct IH as [E1 E2].
  rewrite seq_S, fold_left_app. cbn [fold_left Nat.add]. unfold resize_row at 1 3. cbn [xmat xinv]. rewrite upd2_if.
  set (x0 := fold_left resize_row (seq 0 j) xf_identity) in *.
  destruct (put_row_spec (xmat xf) (xinv xf) k x0 j r c) as [F1 F2]. rewrite F1, F2, E1, E2.
  destruct (Nat.eqb_spec r j) as [->|Hr]; cbn [andb].
  - rewrite Nat.ltb_irrefl, (proj2 (Nat.ltb_lt j (S j))) by lia. cbn [andb]. destruct (c =? M)%nat, (c <? k)%nat; split; reflexivity.
  - replace (r <? S j)%nat with (r <? j)%nat; [split; reflexivity|]. apply eq_true_iff_eq. rewrite !Nat.ltb_lt. lia.
Qed.
Lemma resized_spec r c :
  xmat (xf_resized N M xf) r c = (if (r =? M)%nat && (c =? M)%nat then xmat xf N N else
     if (r <? k)%nat && (c =? M)%nat then xmat xf r N else if (r <? k)%nat && (c <? k)%nat then xmat xf r c else delta r c) /\
  xinv (xf_resized N M xf) r c = (if (r <? k)%nat && (c <? k)%nat then xinv xf r c else delta r c).
Proof.
  change (xf_resized N M xf) with (let copied := fold_left resize_row (seq 0 k) xf_identity in mkXf (upd2 (xmat copied) M M (xmat xf N N)) (xinv copied)).
  cbn zeta. cbn [xmat xinv]. rewrite upd2_if. destruct (resize_rows k r c (le_n _)) as [-> ->]. split; reflexivity.
Qed.
End Resize.
Lemma resized_apply N M xf p : affine_row N (xmat xf) -> (N <= M)%nat ->
  agree M (xf_apply M (xf_resized N M xf) p) (fun i => if (i <? N)%nat then xf_apply N xf p i else p i).
Proof.
  intros A L i Hi. rewrite apply_maps by lia. unfold maps. rewrite (proj1 (resized_spec N M xf i M)).
  destruct (Nat.eqb_spec i M); [lia|]. cbn [andb]. rewrite Nat.eqb_refl, Nat.min_r by lia. rewrite andb_true_r.
  destruct (Nat.ltb_spec i N) as [Li|Li].
  - rewrite apply_maps by lia. unfold maps. f_equal.
    rewrite (sum_trunc K M N); [|exact L|].
    2:{ intros c Hc. rewrite (proj1 (resized_spec N M xf i c)). rewrite Nat.min_r by lia. destruct (Nat.eqb_spec i M); [lia|]. destruct (Nat.eqb_spec c M); [lia|].
      destruct (Nat.ltb_spec c N); [lia|]. rewrite !andb_false_r. unfold delta. destruct (Nat.eqb_spec i c); [lia|]. cbn. ring. }
    apply sum_ext. intros c Hc. f_equal. rewrite (proj1 (resized_spec N M xf i c)). rewrite Nat.min_r by lia.
    destruct (Nat.eqb_spec i M); [lia|]. destruct (Nat.eqb_spec c M); [lia|]. rewrite (proj2 (Nat.ltb_lt _ _) Hc), (proj2 (Nat.ltb_lt _ _) Li). reflexivity.
  - cbn [andb]. destruct (Nat.ltb_spec M N); [lia|]. unfold delta at 1. destruct (Nat.eqb_spec i M); [lia|].
    rewrite (sum_ext K M _ (fun c => delta i c * p c)).
    + rewrite sum_delta by lia. ring.
    + intros c Hc. rewrite (proj1 (resized_spec N M xf i c)). rewrite Nat.min_r by lia. destruct (Nat.eqb_spec i M); [lia|]. destruct (Nat.ltb_spec i N); [lia|]. reflexivity.
Qed.
Lemma resized_apply_inverse N M xf p : (N <= M)%nat ->
  agree M (xf_apply_inverse M (xf_resized N M xf) p) (fun i => if (i <? N)%nat then xf_apply_inverse_vector N xf p i else p i).
Proof.
  intros L i Hi. rewrite apply_inverse_maps by lia. unfold maps. rewrite (proj2 (resized_spec N M xf i M)). rewrite Nat.min_r by lia.
  destruct (Nat.ltb_spec M N); [lia|]. rewrite andb_false_r. unfold delta at 1. destruct (Nat.eqb_spec i M); [lia|].
  destruct (Nat.ltb_spec i N) as [Li|Li].
  - rewrite apply_inverse_vector_is.
    rewrite (sum_trunc K M N); [|exact L|].
    2:{ intros c Hc. rewrite (proj2 (resized_spec N M xf i c)). rewrite Nat.min_r by lia.
      destruct (Nat.ltb_spec c N); [lia|]. rewrite !andb_false_r. unfold delta. destruct (Nat.eqb_spec i c); [lia|]. cbn. ring. }
    rewrite (sum_ext K N _ (fun c => xinv xf i c * p c)); [ring|]. intros c Hc. f_equal. rewrite (proj2 (resized_spec N M xf i c)). rewrite Nat.min_r by lia.
    now rewrite (proj2 (Nat.ltb_lt _ _) Hc), (proj2 (Nat.ltb_lt _ _) Li).
  - rewrite (sum_ext K M _ (fun c => delta i c * p c)).
    + rewrite sum_delta by lia. ring.
    + intros c Hc. rewrite (proj2 (resized_spec N M xf i c)). rewrite Nat.min_r by lia. destruct (Nat.ltb_spec i N); [lia|]. reflexivity.
Qed.
(** Growing a transform keeps the inverse exactly when there is no translation. *)
Lemma resized_round_trips N M xf : sound N xf -> (N <= M)%nat ->
  (round_trips M (xf_resized N M xf) <-> forall i, (i < N)%nat -> xmat xf i N = 0).
Proof.
  intros S L. pose proof S as (A & B & I). split.
  - intros RT i Hi. pose proof (proj2 (RT (fun _ => 0)) i ltac:(lia)) as E. cbn beta in E.
    rewrite (resized_apply N M xf _ A L i) in E by lia. rewrite (proj2 (Nat.ltb_lt _ _) Hi) in E.
    rewrite apply_maps in E by lia. unfold maps in E. rewrite (sum_zero K N) in E; [rewrite <- E; ring|].
    intros c Hc. rewrite (resized_apply_inverse N M xf (fun _ => 0) L c) by lia. rewrite (proj2 (Nat.ltb_lt _ _) Hc), apply_inverse_vector_is.
    rewrite (sum_zero K N); [ring|]. intros; ring.
  - intros T.
    assert (AV : forall p i, (i < N)%nat -> xf_apply N xf p i = xf_apply_vector N xf p i).
    { intros p i Hi. rewrite apply_maps, apply_vector_is by lia. unfold maps. rewrite T by exact Hi. ring. }
    intros p. split; intros i Hi.
    + rewrite (resized_apply_inverse N M xf _ L i Hi). destruct (Nat.ltb_spec i N) as [Li|Li].
      * rewrite apply_inverse_vector_is. rewrite (sum_ext K N _ (fun c => xinv xf i c * xf_apply_vector N xf p c)).
        -- rewrite <- apply_inverse_vector_is. now apply vector_round_trip.
        -- intros c Hc. rewrite (resized_apply N M xf p A L c) by lia. now rewrite (proj2 (Nat.ltb_lt _ _) Hc), AV.
      * rewrite (resized_apply N M xf p A L i Hi). destruct (Nat.ltb_spec i N); [lia|reflexivity].
    + rewrite (resized_apply N M xf _ A L i Hi). destruct (Nat.ltb_spec i N) as [Li|Li].
      * rewrite AV, apply_vector_is by exact Li. rewrite (sum_ext K N _ (fun c => xmat xf i c * xf_apply_inverse_vector N xf p c)).
        -- pose proof (vector_round_trip N (xf_inverse xf) p (sound_inverse N xf S) i Li) as V. rewrite apply_inverse_vector_is in V. exact V.
        -- intros c Hc. rewrite (resized_apply_inverse N M xf p L c) by lia. now rewrite (proj2 (Nat.ltb_lt _ _) Hc).
      * rewrite (resized_apply_inverse N M xf p L i Hi). destruct (Nat.ltb_spec i N); [lia|reflexivity].
Qed.
(** Dividing a transform by itself in place. *)
Lemma div_self N xf : sound N xf ->
  (forall r c, (r <= N)%nat -> (c <= N)%nat -> xmat (xf_div_assign true N xf xf) r c = delta r c /\ xinv (xf_div_assign true N xf xf) r c = xinv xf r c).
Proof.
  intros (A & B & I) r c Hr Hc.
  assert (E : forall r c, (r <= N)%nat -> (c <= N)%nat -> hmul N (xinv xf) (xmat xf) r c = delta r c) by (intros; rewrite hmul_ok by lia; apply I; lia).
  unfold xf_div_assign. cbn [xmat xinv]. split; [now apply E|]. rewrite hmul_ok by lia.
  rewrite (mmul_range (S N) _ (xinv xf) _ delta); [apply mmul_delta_r; lia|reflexivity|]. intros j Hj. apply E; lia.
Qed.
End P.
