From Coq Require Import List Reals Arith Lra Lia Bool FunctionalExtensionality.
From Verif Require Import Fld RFld LinSpec FldLemmas PerlinSpec PerlinProofs VecNModel VecNSpec VecNProofs RayModel RayXfProofs Ord RectModel RectSpec RectProofs RectArithModel RectArithProofs
  DetInvModel InvRawProofs MulProofs AffineModel AffineSpec AffineProofs ShapeSpec ShapeProofs SphereProofs OrientedSpec OrientedModel.
Import ListNotations.
Open Scope R_scope.
Notation vinner := VecNSpec.inner.

Lemma sum_rsum N (f : nat -> R_field) : sum N f = rsum N f.
Proof. induction N as [|N IH]; [reflexivity|]. cbn [sum rsum]. unR. now rewrite IH. Qed.
Lemma maps_is N (m : mtx R_field) (q : vec) i : maps N m q i = rsum N (fun c => m i c * q c) + m i N.
Proof. unfold maps. rewrite sum_rsum. reflexivity. Qed.
Lemma inner_is N (a b : vec) : AffineSpec.inner (K := R_field) N a b = vinner N a b.
Proof. unfold AffineSpec.inner. rewrite sum_rsum. reflexivity. Qed.
Lemma apply_is N (xf : xformR) (q : vec) i : (i < N)%nat -> xf_apply N xf q i = rsum N (fun c => xmat xf i c * q c) + xmat xf i N.
Proof. intros L. rewrite apply_maps by lia. apply maps_is. Qed.

Section Image.
Variables (N : nat) (xf : xformR).
Hypothesis S : sound N xf.
Variable X : region.
Hypothesis RX : respects N X.
Notation IM := (image N (xmat xf) X).

Lemma image_apply q : X q -> IM (xf_apply N xf q).
Proof. intros H. exists q. split; [exact H|]. intros i L. now apply apply_is. Qed.
Lemma image_iff p : IM p <-> X (xf_apply_inverse N xf p).
Proof.
  destruct (sound_round_trips R_field N xf S p) as [_ B]. split.
  - intros (q & Q & E). destruct (sound_round_trips R_field N xf S q) as [A _]. apply (RX q); [|exact Q].
    intros i L. transitivity (xf_apply_inverse N xf (xf_apply N xf q) i); [symmetry; now apply A|].
    rewrite !apply_inverse_maps by lia. apply (maps_ext R_field). intros j J. rewrite E by exact J. now apply apply_is.
  - intros Q. exists (xf_apply_inverse N xf p). split; [exact Q|]. intros i L.
    rewrite <- apply_is by exact L. symmetry. now apply B.
Qed.
Lemma image_respects : respects N IM.
Proof. intros p q E (x & Q & H). exists x. split; [exact Q|]. intros i L. rewrite <- (E i L). now apply H. Qed.

(** Inner product with a transformed point: that of the point with the transformed normal, up to a constant. *)
Lemma rsum_swap n m (f : nat -> nat -> R) : rsum n (fun i => rsum m (fun j => f i j)) = rsum m (fun j => rsum n (fun i => f i j)).
Proof.
  induction n as [|n IH]; cbn [rsum].
  - symmetry. apply rsum_zero.
  - rewrite IH. symmetry. apply rsum_plus.
Qed.
Lemma inner_pulled (q p d : vec) : (forall i, (i < N)%nat -> p i = rsum N (fun c => xmat xf i c * q c) + xmat xf i N) ->
  vinner N p d = vinner N q (xf_apply_inverse_normal N xf d) + rsum N (fun i => xmat xf i N * d i).
Proof.
  intros E. unfold VecNSpec.inner.
  rewrite (rsum_ext N (fun i => p i * d i) (fun i => rsum N (fun c => d i * (xmat xf i c * q c)) + xmat xf i N * d i)).
  2:{ intros i L. rewrite E by exact L. rewrite rsum_scal. ring. }
  rewrite rsum_plus. f_equal. rewrite rsum_swap. apply rsum_ext. intros c L.
  unfold xf_apply_inverse_normal. rewrite accum_sum, sum_rsum. unR. rewrite Rplus_0_l. rewrite <- rsum_scal. apply rsum_ext. intros i I. unR. ring.
Qed.
Lemma normal_nonzero (d : vec) : ~ all_zero N d -> ~ all_zero N (xf_apply_inverse_normal N xf d).
Proof.
  intros Z H. apply Z. intros i L.
  pose proof (apply_normal_inner R_field N (xf_inverse xf) d (axis i) (sound_inverse R_field N xf S)) as B.
  rewrite <- apply_inverse_normal_is in B. rewrite !inner_is in B. rewrite inner_axis in B by exact L. rewrite <- B.
  unfold VecNSpec.inner. rewrite (rsum_ext N _ (fun _ => 0)); [apply rsum_zero|]. intros j J. rewrite H by exact J. ring.
Qed.
Lemma normal_unit i c : (i < N)%nat -> xf_apply_inverse_normal N xf (axis i) c = xmat xf i c.
Proof.
  intros L. unfold xf_apply_inverse_normal. rewrite accum_sum, sum_rsum. transitivity (vinner N (fun j => xmat xf j c) (axis i)).
  - unfold VecNSpec.inner. unR. rewrite Rplus_0_l. reflexivity.
  - exact (inner_axis N i (fun j => xmat xf j c) L).
Qed.
Lemma row_nonzero i : (i < N)%nat -> ~ all_zero N (xmat xf i).
Proof.
  intros L H. apply (normal_nonzero (axis i)).
  - intros Z. specialize (Z i L). unfold axis in Z. rewrite Nat.eqb_refl in Z. lra.
  - intros c J. rewrite normal_unit by exact L. now apply H.
Qed.

Lemma support_pulled s d : is_support N X (xf_apply_inverse_normal N xf d) s -> is_support N IM d (xf_apply N xf s).
Proof.
  intros [I M]. split; [now apply image_apply|]. intros p (q & Q & E).
  rewrite (inner_pulled q p d E), (inner_pulled s (xf_apply N xf s) d) by (intros i L; now apply apply_is).
  specialize (M q Q). lra.
Qed.
Lemma contains_ok s_contains p : (forall q, s_contains q = true <-> X q) -> (oriented_contains N s_contains xf p = true <-> IM p).
Proof. intros H. unfold oriented_contains. rewrite H. symmetry. apply image_iff. Qed.
Lemma support_ok s_support d : (forall d', ~ all_zero N d' -> is_support N X d' (s_support d')) -> ~ all_zero N d ->
  is_support N IM d (oriented_support N s_support xf d).
Proof. intros H Z. apply support_pulled, H. now apply normal_nonzero. Qed.
Lemma support_ext (Y : region) d d' p : same N d d' -> is_support N Y d p -> is_support N Y d' p.
Proof.
  intros E [I M]. split; [exact I|]. intros q Q. specialize (M q Q).
  now rewrite <- (inner_ext N q q d d' (same_refl N q) E), <- (inner_ext N p p d d' (same_refl N p) E).
Qed.
Lemma normal_neg i : (i < N)%nat -> same N (vec_neg (xmat xf i)) (xf_apply_inverse_normal N xf (vec_neg (axis i))).
Proof.
  intros L c J. unfold xf_apply_inverse_normal. rewrite accum_sum, sum_rsum. transitivity (- vinner N (fun j => xmat xf j c) (axis i)).
  - rewrite inner_axis by exact L. reflexivity.
  - unfold VecNSpec.inner, vec_neg. unR. replace (- rsum N (fun i0 => xmat xf i0 c * axis i i0)) with (-1 * rsum N (fun i0 => xmat xf i0 c * axis i i0)) by ring.
    rewrite <- rsum_scal. rewrite Rplus_0_l. apply rsum_ext. intros j Lj. ring.
Qed.
Lemma bounds_ok s_support : (forall d', ~ all_zero N d' -> is_support N X d' (s_support d')) -> tight_box N IM (oriented_bounds N s_support xf).
Proof.
  intros H.
  assert (forall i, (i < N)%nat -> is_support N IM (axis i) (xf_apply N xf (s_support (xmat xf i)))) as U.
  { intros i L. apply support_pulled. apply (support_ext X (xmat xf i)); [intros c _; symmetry; now apply normal_unit|]. apply H. now apply row_nonzero. }
  assert (forall i, (i < N)%nat -> is_support N IM (vec_neg (axis i)) (xf_apply N xf (s_support (vec_neg (xmat xf i))))) as D.
  { intros i L. apply support_pulled. apply (support_ext X (vec_neg (xmat xf i))); [now apply normal_neg|]. apply H. intros Z.
    apply (row_nonzero i L). intros c J. specialize (Z c J). unfold vec_neg in Z. unR. lra. }
  split.
  - intros p P i L. unfold oriented_bounds. cbn [lo hi]. destruct (U i L) as [_ UM]. destruct (D i L) as [_ DM].
    specialize (UM p P). specialize (DM p P). rewrite !inner_axis in UM by exact L.
    assert (forall a, vinner N a (vec_neg (axis i)) = - a i) as NA.
    { intros a. transitivity (- vinner N a (axis i)); [|now rewrite inner_axis]. apply inner_opp_r. }
    rewrite !NA in DM. lra.
  - intros i L. unfold oriented_bounds. cbn [lo hi]. split.
    + exists (xf_apply N xf (s_support (vec_neg (xmat xf i)))). split; [apply (D i L)|reflexivity].
    + exists (xf_apply N xf (s_support (xmat xf i))). split; [apply (U i L)|reflexivity].
Qed.
Lemma ray_ok s_ray r : (forall o d, ray_in X o d (s_ray (mkRay o d))) -> ray_in IM (origin r) (direction r) (oriented_ray N s_ray xf r).
Proof.
  intros H t. unfold oriented_ray, ray_unxf. eapply iff_trans; [exact (H _ _ t)|]. rewrite image_iff.
  assert (forall i, (i < N)%nat -> xf_apply_inverse N xf (fun i => origin r i + t * direction r i) i = xf_apply_inverse N xf (origin r) i + t * xf_apply_inverse_vector N xf (direction r) i) as E.
  { intros i L. pose proof (transformed_point N (xf_inverse xf) r t i L) as T. unfold at_multiple, xf_ray in T. cbn [origin direction] in T. unfold vec_add at 2 in T. unfold vec_scale at 2 in T.
    rewrite (Rmult_comm t). etransitivity; [|exact T]. apply (apply_ext N (xf_inverse xf)); [|exact L]. intros j _. unfold vec_add, vec_scale. unR. ring. }
  split; apply RX; intros i L; [symmetry|]; apply E; exact L.
Qed.
End Image.

(** Boxes *)
Lemma bits_exist N (f : nat -> bool) : exists c, (c < 2 ^ N)%nat /\ forall j, (j < N)%nat -> Nat.testbit c j = f j.
Proof.
  revert f. induction N as [|N IH]; intros f.
  - exists 0%nat. split; [cbn; lia|]. intros j L. lia.
  - destruct (IH (fun j => f (S j))) as (c & L & B). exists (2 * c + Nat.b2n (f 0%nat))%nat. split.
    + rewrite Nat.pow_succ_r'. destruct (f 0%nat); cbn [Nat.b2n]; lia.
    + intros [|j] J.
      * destruct (f 0%nat); cbn [Nat.b2n]; [apply Nat.testbit_odd_0|rewrite Nat.add_0_r; apply Nat.testbit_even_0].
      * rewrite <- B by lia. destruct (f 0%nat); cbn [Nat.b2n]; [apply Nat.testbit_odd_succ; lia|rewrite Nat.add_0_r; apply Nat.testbit_even_succ; lia].
Qed.
Section Box.
Variables (N : nat) (xf : xformR) (b : @rect R_ord).
Hypothesis NE : nonempty N b.
Notation BX := (in_box N b).
Lemma box_order i : (i < N)%nat -> (lo b i : R) <= hi b i.
Proof. exact (proj1 (nonempty_R N b) NE i). Qed.
Lemma in_box_respects : respects N BX.
Proof. intros p q E P i L. rewrite <- (E i L). now apply P. Qed.
Lemma corner_in c : BX (box_corner b c).
Proof. intros i L. unfold box_corner. pose proof (box_order i L). destruct (Nat.testbit c i); lra. Qed.
(** The corner the support function picks. *)
Lemma corner_support (d : vec) : is_support N BX d (fun i => if Rlt_dec (d i) 0 then lo b i else hi b i).
Proof.
  split.
  - intros i L. pose proof (box_order i L). destruct (Rlt_dec (d i) 0); split; try apply Rle_refl; assumption.
  - intros q Q. apply rsum_le. intros i L. destruct (Q i L) as [Q1 Q2]. destruct (Rlt_dec (d i) 0) as [D|D].
    + pose proof (Rmult_le_pos (q i - lo b i) (- d i) ltac:(lra) ltac:(lra)) as W. cbn in W. lra.
    + pose proof (Rmult_le_pos (hi b i - q i) (d i) ltac:(lra) ltac:(lra)) as W. cbn in W. lra.
Qed.
Lemma corner_zero i : (i < N)%nat -> xf_apply N xf (box_corner b 0) i = xf_apply N xf (lo b) i.
Proof. intros L. apply (apply_ext N xf); [|exact L]. intros j _. unfold box_corner. now rewrite Nat.bits_0. Qed.
Notation step := (fun (r : @rect R_ord) i => let p : vec := xf_apply N xf (box_corner b i) in mkRect (vmin (lo r) (p : @point R_ord)) (vmax (hi r) (p : @point R_ord))).
Lemma omin_le (x y : R) : (@omin R_ord x y : R) <= x /\ (@omin R_ord x y : R) <= y /\ ((@omin R_ord x y : R) = x \/ (@omin R_ord x y : R) = y).
Proof. unfold omin. cbn. unfold Rltb. destruct (Rlt_dec y x); repeat split; auto; lra. Qed.
Lemma omax_ge (x y : R) : x <= (@omax R_ord x y : R) /\ y <= (@omax R_ord x y : R) /\ ((@omax R_ord x y : R) = x \/ (@omax R_ord x y : R) = y).
Proof. unfold omax. cbn. unfold Rltb. destruct (Rlt_dec x y); repeat split; auto; lra. Qed.
Lemma bounds_fold k i : (i < N)%nat ->
  let r := fold_left step (seq 1 k) (mkRect (xf_apply N xf (lo b) : @point R_ord) (xf_apply N xf (lo b))) in
  (forall c, (c <= k)%nat -> (lo r i : R) <= xf_apply N xf (box_corner b c) i <= hi r i) /\
  (exists c, (lo r i : R) = xf_apply N xf (box_corner b c) i) /\ (exists c, (hi r i : R) = xf_apply N xf (box_corner b c) i).
Proof.
  intros L. induction k as [|k IH].
  - cbn [seq fold_left lo hi]. cbv zeta. split; [|split; exists 0%nat; symmetry; now apply corner_zero].
    intros c C. assert (c = 0%nat) as -> by lia. rewrite corner_zero by exact L. split; apply Rle_refl.
  - cbv zeta. rewrite seq_S, fold_left_app. cbv zeta in IH. set (r := fold_left step (seq 1 k) _) in *. cbn [fold_left lo hi]. unfold vmin, vmax.
    destruct IH as (A & (c1 & B1) & (c2 & B2)).
    set (v := xf_apply N xf (box_corner b (1 + k)) i).
    destruct (omin_le (lo r i) v) as (M1 & M2 & M3). destruct (omax_ge (hi r i) v) as (X1 & X2 & X3). split; [|split].
    + intros c C. destruct (Nat.eq_dec c (1 + k)) as [->|D]; [fold v; split; [exact M2|exact X2]|].
      destruct (A c ltac:(lia)) as [A1 A2]. split; [exact (Rle_trans _ _ _ M1 A1)|exact (Rle_trans _ _ _ A2 X1)].
    + destruct M3 as [M3|M3]; [exists c1; now rewrite <- B1|exists (1 + k)%nat; exact M3].
    + destruct X3 as [X3|X3]; [exists c2; now rewrite <- B2|exists (1 + k)%nat; exact X3].
Qed.
Hypothesis S : sound N xf.
Lemma obox_bounds_ok : tight_box N (image N (xmat xf) BX) (obox_bounds N b xf).
Proof.
  pose proof (fun i L => bounds_fold (2 ^ N - 1) i L) as F. fold (obox_bounds N b xf) in F. cbv zeta in F. split.
  - intros p P i L. destruct (F i L) as (A & _ & _).
    assert (forall d : vec, exists c, (c < 2 ^ N)%nat /\ vinner N p d <= vinner N (xf_apply N xf (box_corner b c)) d) as G.
    { intros d. destruct (bits_exist N (fun j => if Rlt_dec (xf_apply_inverse_normal N xf d j) 0 then false else true)) as (c & C & B).
      exists c. split; [exact C|]. pose proof (corner_support (xf_apply_inverse_normal N xf d)) as CS.
      destruct (support_pulled N xf BX _ d CS) as [_ M]. specialize (M p P).
      rewrite (inner_ext N (xf_apply N xf (box_corner b c)) (xf_apply N xf (fun i0 => if Rlt_dec (xf_apply_inverse_normal N xf d i0) 0 then lo b i0 else hi b i0)) d d); [exact M| |apply same_refl].
      apply (apply_ext N xf). intros j J. unfold box_corner. rewrite B by exact J. now destruct (Rlt_dec _ 0). }
    destruct (G (axis i)) as (c & C & U). destruct (G (vec_neg (axis i))) as (c' & C' & D).
    rewrite !inner_axis in U by exact L.
    assert (forall a, vinner N a (vec_neg (axis i)) = - a i) as NA.
    { intros a. transitivity (- vinner N a (axis i)); [apply inner_opp_r|now rewrite inner_axis]. }
    rewrite !NA in D. destruct (A c ltac:(lia)) as [_ A1]. destruct (A c' ltac:(lia)) as [A2 _]. split; [eapply Rle_trans; [exact A2|lra]|eapply Rle_trans; [exact U|exact A1]].
  - intros i L. destruct (F i L) as (_ & (c1 & B1) & (c2 & B2)). split.
    + exists (xf_apply N xf (box_corner b c1)). split; [apply image_apply, corner_in|now symmetry].
    + exists (xf_apply N xf (box_corner b c2)). split; [apply image_apply, corner_in|now symmetry].
Qed.
Lemma obox_support_ok d : is_support N (image N (xmat xf) BX) d (obox_support N b xf d).
Proof. apply (support_pulled N xf BX), corner_support. Qed.
Lemma obox_contains_ok p : obox_contains N b xf p = true <-> image N (xmat xf) BX p.
Proof.
  apply (contains_ok N xf S BX in_box_respects (contains_pt (K := R_ord) N b)). intros q. rewrite (contains_iff (K := R_ord)). exact (inside_R N q b).
Qed.
Lemma obox_ray_ok r : ray_in (image N (xmat xf) BX) (origin r) (direction r) (obox_ray N b xf r).
Proof.
  apply (ray_ok N xf S BX in_box_respects (fun r => ray_intersect N b (origin r) (direction r))). intros o d t. cbn [origin direction].
  eapply iff_trans; [|exact (inside_R N (fun i => o i + t * d i) b)]. eapply iff_trans; [|exact (ray_intersect_ok N b o d t NE)].
  apply interval_has.
Qed.
End Box.

(** Sequences of transforms *)
Lemma image_then N (a c : xformR) X p : sound N a -> sound N c -> respects N X ->
  (image N (xmat (xf_then N a c)) X p <-> image N (xmat c) (image N (xmat a) X) p).
Proof.
  intros A C RX. assert (forall q, agree N (xf_apply N (xf_then N a c) q) (xf_apply N c (xf_apply N a q))) as T by (intros q; apply (apply_then R_field N a c q); apply A).
  split.
  - intros (q & Q & E). exists (xf_apply N a q). split; [now apply image_apply|]. intros i L. rewrite E by exact L.
    rewrite <- apply_is by exact L. rewrite <- apply_is by exact L. now apply T.
  - intros (r & (q & Q & E) & F). exists q. split; [exact Q|]. intros i L. rewrite F by exact L. rewrite <- !apply_is by exact L.
    transitivity (xf_apply N c (xf_apply N a q) i); [|symmetry; now apply T]. apply (apply_ext N c); [|exact L].
    intros j J. rewrite apply_is by exact J. now apply E.
Qed.
Lemma image_inverse N (c : xformR) X p : sound N c -> respects N X -> (image N (xmat (xf_inverse c)) X p <-> X (xf_apply N c p)).
Proof. intros C RX. apply (image_iff N (xf_inverse c) (sound_inverse R_field N c C) X RX p). Qed.
Lemma image_mono N m (X Y : region) p : (forall q, X q -> Y q) -> image N m X p -> image N m Y p.
Proof. intros H (q & Q & E). exists q. auto. Qed.

Lemma volume_zero N bigger (b : @rect R_ord) (t : nat -> R) : sane_order bigger -> (2 <= N)%nat -> (forall i, (i < N)%nat -> (lo b i : R) < hi b i) ->
  obox_volume N b (xf_translation (K := R_field) N t) bigger = 0.
Proof.
  intros O L P. unfold obox_volume.
  set (d := fun i => if (i <? N)%nat then (hi b i : R) - lo b i else 1).
  match goal with |- det_destructive _ ?f _ = _ => assert (f = diag_buffer R_field d N) as -> end.
  - apply functional_extensionality. intros k. unfold diag_buffer, diag. rewrite translation_mat.
    assert ((k mod N < N)%nat) as K by (apply Nat.mod_upper_bound; lia).
    replace (k mod N =? N)%nat with false by (symmetry; apply Nat.eqb_neq; lia). cbn [andb]. unfold delta.
    destruct (Nat.eqb_spec (k / N) (k mod N)) as [E|E].
    + rewrite E. unfold d. replace (k mod N <? N)%nat with true by (symmetry; now apply Nat.ltb_lt). unR. ring.
    + unR. ring.
  - rewrite det_destructive_eq. apply (detNxN_diag R_field bigger O d N L). intros k K. unfold d. apply Nat.ltb_lt in K. rewrite K. apply Nat.ltb_lt in K. specialize (P k K).
    change (((hi b k : R) - lo b k) <> 0). cbn in *. lra.
Qed.
