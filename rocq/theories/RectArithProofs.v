From Coq Require Import ZArith Reals Lra Lia List Bool Arith ZifyBool.
From Verif Require Import Mem Ord RectModel RectSpec RectProofs RectArithModel.
Import ListNotations.
Open Scope R_scope.

Notation rpt := (@point R_ord).
Notation rrect := (@rect R_ord).

Lemma Romin (x y : R) : (@omin R_ord x y = x /\ x <= y) \/ (@omin R_ord x y = y /\ y <= x).
Proof. unfold omin. cbn. unfold Rltb. destruct (Rlt_dec y x); [right|left]; split; auto; lra. Qed.
Lemma Romax (x y : R) : (@omax R_ord x y = x /\ y <= x) \/ (@omax R_ord x y = y /\ x <= y).
Proof. unfold omax. cbn. unfold Rltb. destruct (Rlt_dec x y); [right|left]; split; auto; lra. Qed.

Lemma inside_R N (p : rpt) (r : rrect) : inside N p r <-> forall i, (i < N)%nat -> (lo r i : R) <= p i <= hi r i.
Proof. unfold inside. setoid_rewrite R_le. reflexivity. Qed.
Lemma nonempty_R N (r : rrect) : nonempty N r <-> forall i, (i < N)%nat -> (lo r i : R) <= hi r i.
Proof. rewrite nonempty_iff. setoid_rewrite R_le. reflexivity. Qed.

(** ** Translation, scaling, dilation, Minkowski sum *)
Lemma add_spec N (r : rrect) (d p : rpt) : inside N ((fun i => p i + d i) : rpt) (r_add r d) <-> inside N p r.
Proof. rewrite !inside_R. cbn [r_add lo hi]. split; intros H i Hi; specialize (H i Hi); lra. Qed.
Lemma sub_spec N (r : rrect) (d p : rpt) : inside N ((fun i => p i - d i) : rpt) (r_sub r d) <-> inside N p r.
Proof. rewrite !inside_R. cbn [r_sub lo hi]. split; intros H i Hi; specialize (H i Hi); lra. Qed.

Lemma scale_axis (l h a p : R) : l <= h ->
  (@omin R_ord (l * a) (h * a) <= p <= @omax R_ord (l * a) (h * a) <-> exists q, l <= q <= h /\ p = q * a).
Proof.
  intros L. destruct (Romin (l * a) (h * a)) as [[-> A]|[-> A]], (Romax (l * a) (h * a)) as [[-> B]|[-> B]].
  - split; [intros H; exists l|intros (q & H & ->)]; [lra|]. assert (l * a = h * a) by lra. destruct (Req_dec a 0); [subst; lra|].
    assert (l = h) by nra. assert (q = l) by lra. subst. lra.
  - destruct (Req_dec a 0) as [->|Na]; [split; [intros H; exists l; lra|intros (q & H & ->); lra]|].
    split; [intros H; exists (p / a)|intros (q & H & ->)].
    + assert (E : p = p / a * a) by (field; auto). split; [|auto]. rewrite E in H. set (x := p / a) in *. clearbody x. nra.
    + nra.
  - destruct (Req_dec a 0) as [->|Na]; [split; [intros H; exists l; lra|intros (q & H & ->); lra]|].
    split; [intros H; exists (p / a)|intros (q & H & ->)].
    + assert (E : p = p / a * a) by (field; auto). split; [|auto]. rewrite E in H. set (x := p / a) in *. clearbody x. nra.
    + nra.
  - split; [intros H; exists h|intros (q & H & ->)]; [lra|]. assert (l * a = h * a) by lra. destruct (Req_dec a 0); [subst; lra|].
    assert (l = h) by nra. assert (q = l) by lra. subst. lra.
Qed.

(** Choosing a witness on each axis. *)
Lemma choose_axes N (P : nat -> R -> Prop) : (forall i, (i < N)%nat -> exists x, P i x) -> exists f : nat -> R, forall i, (i < N)%nat -> P i (f i).
Proof.
  induction N as [|N IH]; intros H; [exists (fun _ => 0); intros; lia|].
  destruct IH as (f & F); [intros; apply H; lia|]. destruct (H N) as (x & X); [lia|].
  exists (fun i => if Nat.eqb i N then x else f i). intros i Hi. destruct (Nat.eqb i N) eqn:E.
  - apply Nat.eqb_eq in E. now subst.
  - apply Nat.eqb_neq in E. apply F. lia.
Qed.

Lemma scale_spec N (r : rrect) (a : rpt) (p : rpt) : nonempty N r ->
  (inside N p (r_scale r a) <-> exists q : rpt, inside N q r /\ forall i, (i < N)%nat -> (p i : R) = q i * a i).
Proof.
  rewrite nonempty_R. intros L. rewrite inside_R. cbn [r_scale lo hi]. unfold vmin, vmax. split.
  - intros H. destruct (choose_axes N (fun i x => (lo r i : R) <= x <= hi r i /\ (p i : R) = x * a i)) as (f & F).
    { intros i Hi. apply (scale_axis _ _ _ _ (L i Hi)). auto. }
    exists f. rewrite inside_R. split; intros i Hi; apply F; auto.
  - intros (q & Q & E) i Hi. rewrite inside_R in Q. apply scale_axis; [auto|]. exists (q i). auto.
Qed.
Lemma unscale_scale (r : rrect) (a : rpt) i : (a i : R) <> 0 ->
  lo (r_unscale r a) i = lo (r_scale r (fun i => / a i : R_ord)) i /\ hi (r_unscale r a) i = hi (r_scale r (fun i => / a i : R_ord)) i.
Proof. intros. split; reflexivity. Qed.
Lemma scale_empty N (r : rrect) (a : rpt) : nonempty N (r_scale r a).
Proof.
  apply nonempty_R. intros i Hi. cbn [r_scale lo hi]. unfold vmin, vmax.
  destruct (Romin (lo r i * a i) (hi r i * a i)) as [[-> A]|[-> A]], (Romax (lo r i * a i) (hi r i * a i)) as [[-> B]|[-> B]]; lra.
Qed.

Lemma minkowski_spec N (a b : rrect) (p : rpt) : nonempty N a -> nonempty N b ->
  (inside N p (r_minkowski a b) <-> exists q s : rpt, inside N q a /\ inside N s b /\ forall i, (i < N)%nat -> (p i : R) = q i + s i).
Proof.
  rewrite !nonempty_R. intros La Lb. rewrite inside_R. cbn [r_minkowski lo hi]. split.
  - intros H. destruct (choose_axes N (fun i x => (lo a i : R) <= x <= hi a i /\ (lo b i : R) <= p i - x <= hi b i)) as (f & F).
    { intros i Hi. specialize (H i Hi). specialize (La i Hi). specialize (Lb i Hi).
      destruct (Rle_dec (p i - lo b i) (hi a i)).
      - exists (p i - lo b i). lra.
      - exists (hi a i). lra. }
    exists f, (fun i => p i - f i : R_ord). rewrite !inside_R. split; [intros; now apply F|]. split; [intros; now apply F|]. intros. lra.
  - intros (q & s & Q & S & E) i Hi. rewrite inside_R in Q, S. rewrite E by auto. specialize (Q i Hi). specialize (S i Hi). lra.
Qed.
Lemma dilated_spec N (r : rrect) (c p : rpt) : nonempty N r -> (forall i, (i < N)%nat -> 0 <= (c i : R)) ->
  (inside N p (r_dilated r c) <-> exists q : rpt, inside N q r /\ forall i, (i < N)%nat -> Rabs (p i - q i) <= c i).
Proof.
  rewrite !nonempty_R. intros L C. rewrite inside_R. cbn [r_dilated lo hi]. split.
  - intros H. destruct (choose_axes N (fun i x => (lo r i : R) <= x <= hi r i /\ Rabs (p i - x) <= c i)) as (f & F).
    { intros i Hi. specialize (H i Hi). specialize (L i Hi). specialize (C i Hi).
      destruct (Rlt_dec (p i) (lo r i)); [exists (lo r i); split; [lra|apply Rabs_le; lra]|].
      destruct (Rlt_dec (hi r i) (p i)); [exists (hi r i); split; [lra|apply Rabs_le; lra]|].
      exists (p i). split; [lra|]. rewrite Rminus_diag_eq, Rabs_R0; lra. }
    exists f. rewrite inside_R. split; intros; now apply F.
  - intros (q & Q & E) i Hi. rewrite inside_R in Q. specialize (Q i Hi). specialize (E i Hi).
    pose proof (Rabs_def2 (p i - q i) (c i + 1)). revert E. unfold Rabs. destruct Rcase_abs; lra.
Qed.

(** ** remap, unmap *)
Lemma remap_unmap (r : rrect) (p : rpt) i : (lo r i : R) <> hi r i -> (r_remap r (r_unmap r p) i : R) = p i.
Proof. intros H. unfold r_remap, r_unmap. field. lra. Qed.
Lemma unmap_remap (r : rrect) (p : rpt) i : (lo r i : R) <> hi r i -> (r_unmap r (r_remap r p) i : R) = p i.
Proof. intros H. unfold r_remap, r_unmap. field. lra. Qed.
Lemma unmap_unit N (r : rrect) (p : rpt) : (forall i, (i < N)%nat -> (lo r i : R) < hi r i) ->
  (inside N p r <-> forall i, (i < N)%nat -> 0 <= r_unmap r p i <= 1).
Proof.
  intros H. rewrite inside_R. unfold r_unmap. split; intros I i Hi; specialize (H i Hi); specialize (I i Hi).
  - set (w := hi r i - lo r i). assert (W : 0 < w) by (unfold w; lra). split.
    + apply Rmult_le_pos; [lra|]. left. now apply Rinv_0_lt_compat.
    + apply Rmult_le_reg_r with w; [auto|]. unfold Rdiv. rewrite Rmult_assoc, Rinv_l by lra. unfold w. lra.
  - set (w := hi r i - lo r i) in *. assert (W : 0 < w) by (unfold w; lra). set (x := (p i - lo r i) / w) in *.
    assert (E : p i - lo r i = x * w) by (unfold x; field; lra). unfold w in *. clearbody x. nra.
Qed.

(** ** Distances *)
Lemma div_back (x y : R) : y <> 0 -> x = y * (x / y).
Proof. intros. field. auto. Qed.
Lemma sq_nonneg (x : R) : 0 <= x * x.
Proof. exact (Rle_0_sqr x). Qed.
Lemma sq_zero (x y : R) : (x - y) * (x - y) <= 0 -> x = y.
Proof. intros H. pose proof (sq_nonneg (x - y)). assert (E : x - y = 0) by (apply Rsqr_eq_0; unfold Rsqr; lra). lra. Qed.
Lemma sq_pos (x y : R) : x <> y -> 0 < (x - y) * (x - y).
Proof. intros H. apply Rsqr_pos_lt. lra. Qed.
Section Dist.
Variable N : nat.
Lemma sum_axes_le f g : (forall i, (i < N)%nat -> f i <= g i) -> sum_axes N f <= sum_axes N g.
Proof.
  unfold sum_axes. intros H. assert (H' : forall i, In i (seq 0 N) -> f i <= g i) by (intros i Hi; apply in_seq in Hi; apply H; lia).
  revert H'. clear H. induction (seq 0 N) as [|a l IH]; intros H; cbn; [lra|]. pose proof (H a (or_introl eq_refl)).
  assert (fold_right Rplus 0 (map f l) <= fold_right Rplus 0 (map g l)) by (apply IH; intros; apply H; now right). lra.
Qed.
Lemma sum_axes_ge0 f k : (k < N)%nat -> (forall i, (i < N)%nat -> 0 <= f i) -> f k <= sum_axes N f.
Proof.
  unfold sum_axes. intros Hk H. assert (H' : forall i, In i (seq 0 N) -> 0 <= f i) by (intros i Hi; apply in_seq in Hi; apply H; lia).
  assert (K : In k (seq 0 N)) by (apply in_seq; lia). revert H' K. clear. induction (seq 0 N) as [|a l IH]; intros H K; [easy|].
  cbn. assert (P : 0 <= fold_right Rplus 0 (map f l)).
  { assert (HH : forall i, In i l -> 0 <= f i) by (intros; apply H; now right). revert HH. clear. induction l; intros; cbn; [lra|].
    pose proof (HH a (or_introl eq_refl)). assert (0 <= fold_right Rplus 0 (map f l)) by (apply IHl; intros; apply HH; now right). lra. }
  destruct K as [->|K]; [lra|]. pose proof (H a (or_introl eq_refl)). pose proof (IH (fun i Hi => H i (or_intror Hi)) K). lra.
Qed.
Lemma dist2_pos p q : 0 <= dist2 N p q.
Proof.
  unfold dist2, sum_axes. induction (seq 0 N) as [|a l IH]; cbn; [lra|].
  pose proof (Rle_0_sqr (p a - q a)) as S. unfold Rsqr in S. cbn in IH. apply Rplus_le_le_0_compat; auto.
Qed.

Lemma near_sq (x c q : R) : (x <= c /\ (c <= q \/ c = x)) \/ (c <= x /\ (q <= c \/ c = x)) -> (x - c) * (x - c) <= (x - q) * (x - q).
Proof.
  intros [[A [B|B]]|[A [B|B]]]; try (subst; pose proof (Rle_0_sqr (x - q)) as S; unfold Rsqr in S; lra).
  - pose proof (Rmult_le_pos (q - c) (c - x)). pose proof (Rle_0_sqr (q - c)) as S. unfold Rsqr in S. nra.
  - pose proof (Rmult_le_pos (c - q) (x - c)). pose proof (Rle_0_sqr (q - c)) as S. unfold Rsqr in S. nra.
Qed.
(** The clipped point is the nearest of the Rect. *)
Lemma clip_nearest (r : rrect) (p q : rpt) : inside N q r -> dist2 N p (clip r p) <= dist2 N p q.
Proof.
  intros H. pose proof (clip_between N r p q H) as B. apply sum_axes_le. intros i Hi. specialize (B i Hi).
  rewrite !R_le in B. exact (near_sq _ _ _ B).
Qed.
Lemma dist2_spec (r : rrect) (p : rpt) : nonempty N r ->
  (exists q, inside N q r /\ dist2 N p q = r_dist2 N r p) /\ (forall q, inside N q r -> r_dist2 N r p <= dist2 N p q) /\
  (r_dist2 N r p = 0 <-> inside N p r).
Proof.
  intros NE. split; [|split].
  - exists (clip r p). split; [now apply clip_inside|reflexivity].
  - intros q H. now apply clip_nearest.
  - split; intros H.
    + rewrite inside_R. intros i Hi. pose proof (clip_inside N r p NE) as C. rewrite inside_R in C. specialize (C i Hi).
      assert (Z : (p i - clip r p i) * (p i - clip r p i) <= 0).
      { rewrite <- H. unfold r_dist2, dist2. apply (sum_axes_ge0 (fun i => (p i - clip r p i) * (p i - clip r p i)) i Hi).
        intros j Hj. apply sq_nonneg. }
      apply sq_zero in Z. rewrite Z. exact C.
    + apply Rle_antisym; [|apply dist2_pos]. unfold r_dist2, dist2.
      replace 0 with (sum_axes N (fun _ => 0)). 2: { unfold sum_axes. induction (seq 0 N); cbn; lra. }
      apply sum_axes_le. intros i Hi. rewrite (clip_id N r p H i Hi). replace (p i - p i) with 0 by (symmetry; apply Rminus_diag_eq; reflexivity). lra.
Qed.

(** project() picks a corner. *)
Lemma project_corner (r : rrect) (p : rpt) i : r_project r p i = lo r i \/ r_project r p i = hi r i.
Proof. unfold r_project. destruct Rltb; auto. Qed.
Lemma project_bad (r : rrect) (p : rpt) k : (k < N)%nat -> (lo r k : R) < p k < hi r k ->
  0 < dist2 N (r_project r p) p.
Proof.
  intros Hk H. assert (E : r_project r p k <> p k) by (destruct (project_corner r p k) as [->| ->]; lra).
  apply Rlt_le_trans with ((r_project r p k - p k) * (r_project r p k - p k)).
  - now apply sq_pos.
  - apply (sum_axes_ge0 (fun i => (r_project r p i - p i) * (r_project r p i - p i)) k Hk). intros; apply sq_nonneg.
Qed.
Lemma sdf_bad (r : rrect) (p : rpt) k : (k < N)%nat -> (lo r k : R) < p k < hi r k -> inside N p r -> r_sdf N r p < 0.
Proof.
  intros Hk H I. unfold r_sdf. rewrite (proj2 (contains_iff N r p) I). unfold dist.
  pose proof (sqrt_lt_R0 _ (project_bad r p k Hk H)). lra.
Qed.
End Dist.

Lemma dist2_1 (p q : rpt) : dist2 1 p q = (p 0%nat - q 0%nat) * (p 0%nat - q 0%nat).
Proof. unfold dist2, sum_axes. cbn. lra. Qed.

(** In one dimension project() is right. *)
Lemma project_1d (r : rrect) (p : rpt) q : q = lo r 0%nat \/ q = hi r 0%nat ->
  Rabs (p 0%nat - r_project r p 0%nat) <= Rabs (p 0%nat - q).
Proof. unfold r_project, Rltb. destruct Rlt_dec; intros [->| ->]; lra. Qed.

(** ** Integer measures live in another file; ray intersection *)
Lemma ext_le_fin (x y : R) : @le ext_ord (Fin x) (Fin y) <-> x <= y.
Proof. exact (R_le x y). Qed.

Definition iv_has (iv : interval) (s : R) : Prop := @inside ext_ord 1 (fun _ => Fin s) iv.

Lemma iv_has_alt iv s : iv_has iv s <-> @le ext_ord (lo iv 0%nat) (Fin s) /\ @le ext_ord (Fin s) (hi iv 0%nat).
Proof. unfold iv_has, inside. split; [intros H; apply H; auto|]. intros H i Hi. assert (i = 0%nat) by lia. now subst. Qed.

Lemma iv_inter a b s : iv_has (inter a b) s <-> iv_has a s /\ iv_has b s.
Proof. exact (inter_iff 1 a b (fun _ => Fin s : ext_ord)). Qed.
Lemma iv_span a b s : iv_has (spanning_corners (fun _ => Fin a : ext_ord) (fun _ => Fin b)) s <-> Rmin a b <= s <= Rmax a b.
Proof.
  rewrite iv_has_alt. cbn [spanning_corners lo hi]. unfold vmin, vmax.
  assert (M : @omin ext_ord (Fin a) (Fin b) = Fin (Rmin a b)).
  { unfold omin. cbn. unfold Rltb, Rmin. destruct (Rlt_dec b a), (Rle_dec a b); f_equal; lra. }
  assert (M2 : @omax ext_ord (Fin a) (Fin b) = Fin (Rmax a b)).
  { unfold omax. cbn. unfold Rltb, Rmax. destruct (Rlt_dec a b), (Rle_dec a b); f_equal; lra. }
  rewrite M, M2. rewrite !ext_le_fin. reflexivity.
Qed.

Lemma slab l h o d s : l <= h -> d <> 0 -> (Rmin ((h - o) / d) ((l - o) / d) <= s <= Rmax ((h - o) / d) ((l - o) / d) <-> l <= o + s * d <= h).
Proof.
  intros L D. set (x := (h - o) / d). set (y := (l - o) / d).
  assert (X : h = o + x * d) by (unfold x; field; auto). assert (Y : l = o + y * d) by (unfold y; field; auto).
  clearbody x y. subst h l. unfold Rmin, Rmax. destruct (Rlt_dec 0 d) as [P|P].
  - assert (y <= x) by nra. destruct (Rle_dec x y); split; intros; nra.
  - assert (d < 0) by lra. assert (x <= y) by nra. destruct (Rle_dec x y); split; intros; nra.
Qed.

Lemma ray_axes_spec (r : rrect) o d axes : (forall i, In i axes -> (lo r i : R) <= hi r i) -> forall iv s,
  iv_has (ray_axes r o d axes iv) s <-> iv_has iv s /\ forall i, In i axes -> (lo r i : R) <= o i + s * d i <= hi r i.
Proof.
  induction axes as [|i axes IH]; intros L iv s; cbn [ray_axes].
  - split; [intros H; split; [auto|easy]|tauto].
  - assert (Li : (lo r i : R) <= hi r i) by (apply L; now left).
    assert (L' : forall i, In i axes -> (lo r i : R) <= hi r i) by (intros; apply L; now right).
    destruct (Req_EM_T (d i) 0) as [E|E].
    + unfold Rltb. destruct (Rlt_dec (o i) (lo r i)) as [A|A]; [|destruct (Rlt_dec (hi r i) (o i)) as [B|B]]; cbn [orb].
      * split.
        -- intros H. rewrite iv_has_alt in H. destruct H as [H _]. discriminate H.
        -- intros [_ H]. specialize (H i (or_introl eq_refl)). rewrite E in H. lra.
      * split.
        -- intros H. rewrite iv_has_alt in H. destruct H as [H _]. discriminate H.
        -- intros [_ H]. specialize (H i (or_introl eq_refl)). rewrite E in H. lra.
      * rewrite IH by auto. split; intros [P Q]; (split; [auto|]); intros j Hj.
        -- destruct Hj as [<-|Hj]; [rewrite E; lra|auto].
        -- apply Q. now right.
    + rewrite IH by auto. rewrite iv_inter.
      rewrite iv_span, slab by auto. split.
      * intros [[P Q] S]. split; [auto|]. intros j [<-|Hj]; auto.
      * intros [P Q]. split; [split; [auto|apply Q; now left]|]. intros j Hj. apply Q. now right.
Qed.

Lemma ray_intersect_ok N (r : rrect) (o d : nat -> R) s : nonempty N r ->
  (iv_has (ray_intersect N r o d) s <-> inside N (fun i => o i + s * d i : R_ord) r).
Proof.
  rewrite nonempty_R. intros L. unfold ray_intersect. rewrite ray_axes_spec by (intros i Hi; apply in_seq in Hi; apply L; lia).
  rewrite inside_R. split.
  - intros [_ H] i Hi. apply H. apply in_seq. lia.
  - intros H. split; [apply iv_has_alt; split; reflexivity|]. intros i Hi. apply in_seq in Hi. apply H. lia.
Qed.
Lemma ray_intersect_bad (r : rrect) (o d : nat -> R) : (d 0%nat) <> 0 -> exists s, iv_has (ray_intersect 1 r o d) s.
Proof.
  intros D. unfold ray_intersect. cbn [seq ray_axes]. destruct (Req_EM_T (d 0%nat) 0); [easy|].
  exists ((hi r 0%nat - o 0%nat) / d 0%nat). rewrite iv_inter. split; [intros i Hi; split; reflexivity|].
  apply iv_span. split; [apply Rmin_l|apply Rmax_l].
Qed.

(** ** Real measures *)
Lemma from_center_R (c d : rpt) i : 0 <= (d i : R) ->
  (r_center (r_from_center c d) i : R) = c i /\ (r_dims (r_from_center c d) i : R) = d i.
Proof.
  intros H. unfold r_center, r_dims, r_from_center. cbn [spanning_corners lo hi]. unfold vmin, vmax.
  destruct (Romin (c i - d i / 2) (c i + (d i - 0) / 2)) as [[-> A]|[-> A]], (Romax (c i - d i / 2) (c i + (d i - 0) / 2)) as [[-> B]|[-> B]]; split; lra.
Qed.
Lemma from_center_R_abs (c d : rpt) i :
  (r_center (r_from_center c d) i : R) = c i /\ (r_dims (r_from_center c d) i : R) = Rabs (d i).
Proof.
  unfold r_center, r_dims, r_from_center. cbn [spanning_corners lo hi]. unfold vmin, vmax, Rabs.
  destruct (Rcase_abs (d i)), (Romin (c i - d i / 2) (c i + (d i - 0) / 2)) as [[-> A]|[-> A]], (Romax (c i - d i / 2) (c i + (d i - 0) / 2)) as [[-> B]|[-> B]]; split; lra.
Qed.
Lemma from_corner_R (c d : rpt) N : inside N c (r_from_corner c d) /\ forall i, (r_dims (r_from_corner c d) i : R) = Rabs (d i).
Proof.
  split.
  - refine (proj1 ((spanning_spec N c (fun i => c i + d i - 0 : R_ord)))).
  - intros i. unfold r_dims, r_from_corner. cbn [spanning_corners lo hi]. unfold vmin, vmax, Rabs.
    destruct (Rcase_abs (d i)), (Romin (c i) (c i + d i - 0)) as [[-> A]|[-> A]], (Romax (c i) (c i + d i - 0)) as [[-> B]|[-> B]]; lra.
Qed.
Lemma set_dims_R (r : rrect) (d : rpt) i : (r_dims (r_set_dims r d) i : R) = Rabs (d i) /\ (r_center (r_set_dims r d) i : R) = r_center r i.
Proof. unfold r_dims, r_set_dims, r_center. cbn [lo hi]. split; unfold r_dims; lra. Qed.

(** ** fitted_to *)
Lemma fit_ratio_ge N (a b : rrect) i : (i < N)%nat -> (r_dims a i : R) <> 0 -> Rabs (r_dims b i / r_dims a i) <= r_fit_ratio N a b.
Proof.
  intros Hi Nz. unfold r_fit_ratio. assert (K : In i (seq 0 N)) by (apply in_seq; lia). clear Hi. revert K.
  assert (Mono : forall l m, m <= fold_left (fun m i => @omax R_ord m (Rabs (if Req_EM_T (r_dims a i) 0 then 0 else r_dims b i / r_dims a i))) l m).
  { induction l as [|x l IH]; intros m; cbn [fold_left]; [lra|]. eapply Rle_trans; [|apply IH].
    apply R_le. apply omax_l. }
  cbv zeta. set (f := fun (m : R) i => @omax R_ord m (Rabs (if Req_EM_T (r_dims a i) 0 then 0 else r_dims b i / r_dims a i))) in *.
  change (In i (seq 0 N) -> Rabs (r_dims b i / r_dims a i) <= fold_left f (seq 0 N) 0). generalize 0.
  induction (seq 0 N) as [|x l IH]; intros m K; [easy|]. cbn [fold_left]. destruct K as [->|K].
  - eapply Rle_trans; [|apply Mono]. unfold f. destruct (Req_EM_T (r_dims a i) 0); [easy|]. apply R_le. apply omax_r.
  - apply IH. auto.
Qed.
Lemma fit_ratio_attained N (a b : rrect) : r_fit_ratio N a b = 0 \/
  exists i, (i < N)%nat /\ (r_dims a i : R) <> 0 /\ r_fit_ratio N a b = Rabs (r_dims b i / r_dims a i).
Proof.
  unfold r_fit_ratio. cbv zeta.
  assert (G : forall l m, (m = 0 \/ exists i, (i < N)%nat /\ (r_dims a i : R) <> 0 /\ m = Rabs (r_dims b i / r_dims a i)) ->
     (forall i, In i l -> (i < N)%nat) ->
     let v := fold_left (fun m i => @omax R_ord m (Rabs (if Req_EM_T (r_dims a i) 0 then 0 else r_dims b i / r_dims a i))) l m in
     v = 0 \/ exists i, (i < N)%nat /\ (r_dims a i : R) <> 0 /\ v = Rabs (r_dims b i / r_dims a i)).
  { induction l as [|x l IH]; intros m Hm Hl; cbn [fold_left]; [exact Hm|]. apply IH; [|intros; apply Hl; now right].
    destruct (Romax m (Rabs (if Req_EM_T (r_dims a x) 0 then 0 else r_dims b x / r_dims a x))) as [[E _]|[E _]]; rewrite E; [auto|].
    destruct (Req_EM_T (r_dims a x) 0); [left; apply Rabs_R0|]. right. exists x. split; [apply Hl; now left|auto]. }
  apply G; [now left|]. intros i Hi. apply in_seq in Hi. lia.
Qed.

Lemma fitted_contains N (a b : rrect) : (forall i, (i < N)%nat -> 0 < (r_dims a i : R)) -> nonempty N b ->
  subset N b (r_fitted_to N a b).
Proof.
  intros Da NB p Hp. rewrite inside_R in *. rewrite nonempty_R in NB. intros i Hi. specialize (Hp i Hi). specialize (NB i Hi). specialize (Da i Hi).
  pose proof (fit_ratio_ge N a b i Hi ltac:(lra)) as Q. set (m := r_fit_ratio N a b) in *.
  assert (Db : r_dims b i <= r_dims a i * m).
  { assert (0 <= r_dims b i / r_dims a i). { apply Rmult_le_pos; [unfold r_dims; lra|left; now apply Rinv_0_lt_compat]. }
    rewrite Rabs_right in Q by lra. assert (E : (r_dims b i : R) = r_dims a i * (r_dims b i / r_dims a i)) by (apply div_back; lra).
    rewrite E. apply Rmult_le_compat_l; lra. }
  cbn [r_fitted_to r_from_center spanning_corners lo hi]. fold m. unfold vmin, vmax, r_center. clearbody m.
  unfold r_dims in *. set (w := (hi a i - lo a i + 0) * m) in *. clearbody w.
  destruct (Romin ((hi b i + lo b i + 0) / 2 - w / 2) ((hi b i + lo b i + 0) / 2 + (w - 0) / 2)) as [[-> A]|[-> A]],
    (Romax ((hi b i + lo b i + 0) / 2 - w / 2) ((hi b i + lo b i + 0) / 2 + (w - 0) / 2)) as [[-> B]|[-> B]]; lra.
Qed.
Lemma fitted_aspect N (a b : rrect) i : 0 <= (r_dims a i : R) -> (r_dims (r_fitted_to N a b) i : R) = r_dims a i * r_fit_ratio N a b.
Proof.
  intros H. assert (P : 0 <= r_fit_ratio N a b).
  { destruct (fit_ratio_attained N a b) as [->|(j & _ & _ & ->)]; [lra|apply Rabs_pos]. }
  unfold r_fitted_to. apply from_center_R. apply Rmult_le_pos; auto.
Qed.
(** ... and minimal: along some axis it is exactly as long as [b] (or degenerate). *)
Lemma fitted_minimal N (a b : rrect) : (forall i, (i < N)%nat -> 0 < (r_dims a i : R)) -> nonempty N b -> (0 < N)%nat ->
  exists i, (i < N)%nat /\ (r_dims (r_fitted_to N a b) i : R) = r_dims b i.
Proof.
  intros Da NB HN. destruct (fit_ratio_attained N a b) as [E|(j & Hj & Nz & E)].
  - exists 0%nat. split; [auto|]. rewrite fitted_aspect by (left; auto). rewrite E.
    pose proof (fit_ratio_ge N a b 0%nat HN) as Q. specialize (Da 0%nat HN). rewrite E in Q.
    assert (Z : r_dims b 0%nat / r_dims a 0%nat = 0).
    { specialize (Q ltac:(lra)). pose proof (Rabs_pos (r_dims b 0%nat / r_dims a 0%nat)). 
      destruct (Req_dec (r_dims b 0%nat / r_dims a 0%nat) 0); [auto|]. apply Rabs_pos_lt in H0. lra. }
    assert (E2 : (r_dims b 0%nat : R) = r_dims a 0%nat * (r_dims b 0%nat / r_dims a 0%nat)) by (apply div_back; lra). rewrite Z in E2. lra.
  - exists j. split; [auto|]. specialize (Da j Hj). rewrite fitted_aspect by (left; auto). rewrite E.
    rewrite nonempty_R in NB. specialize (NB j Hj). rewrite Rabs_right. { symmetry. apply div_back. lra. }
    apply Rle_ge. apply Rmult_le_pos; [unfold r_dims; lra|left; now apply Rinv_0_lt_compat].
Qed.

(** ** Support *)
Lemma support_dot N (r : rrect) (d p : rpt) : nonempty N r -> inside N p r ->
  inside N (convex_support r (fun i => Rltb (d i) 0)) r /\
  sum_axes N (fun i => d i * p i) <= sum_axes N (fun i => d i * convex_support r (fun i => Rltb (d i) 0) i).
Proof.
  intros NE H. destruct (convex_support_spec N r (fun i => Rltb (d i) 0) NE) as [A B]. split; [exact A|].
  apply sum_axes_le. intros i Hi. specialize (B p H i Hi). cbn beta in B. unfold Rltb in B at 1. destruct (Rlt_dec (d i) 0).
  - rewrite R_le in B. assert (L : d i <= 0) by lra. exact (Rmult_le_compat_neg_l _ _ _ L B).
  - rewrite R_le in B. apply Rmult_le_compat_l; [lra|exact B].
Qed.

Lemma project_surface N (r : rrect) (p : rpt) : inside N p r -> (exists k, (k < N)%nat /\ (lo r k : R) < p k < hi r k) ->
  0 < dist2 N (r_project r p) p /\ r_sdf N r p < 0.
Proof. intros I (k & Hk & H). split; [now apply (project_bad N r p k)|now apply (sdf_bad N r p k)]. Qed.

Lemma sdf_nearest_corner N (r : rrect) (p : rpt) : let sign := if contains_pt N r p then -1 else 1 in
  (exists c : rpt, (forall i, c i = lo r i \/ c i = hi r i) /\ r_sdf N r p = sign * dist N c p) /\
  (forall c : rpt, (forall i, (i < N)%nat -> c i = lo r i \/ c i = hi r i) -> sign * r_sdf N r p <= dist N c p).
Proof.
  intros sign. assert (S2 : sign * sign = 1) by (unfold sign; destruct contains_pt; ring). split.
  - exists (r_project r p). split; [intros i; apply project_corner|reflexivity].
  - intros c C. unfold r_sdf. fold sign. rewrite <- Rmult_assoc, S2, Rmult_1_l. unfold dist. apply sqrt_le_1_alt. unfold dist2. apply sum_axes_le. intros i I.
    assert (A : Rabs (r_project r p i - p i) <= Rabs (c i - p i)).
    { rewrite (Rabs_minus_sym (r_project r p i)), (Rabs_minus_sym (c i)). unfold r_project, Rltb. destruct (C i I) as [-> | ->]; destruct Rlt_dec; lra. }
    assert (Q : forall x, x * x = Rabs x * Rabs x) by (intros x; rewrite <- Rabs_mult, Rabs_pos_eq; [reflexivity|apply Rle_0_sqr]).
    rewrite (Q (r_project r p i - p i)), (Q (c i - p i)). apply Rmult_le_compat; try apply Rabs_pos; exact A.
Qed.
Lemma sdf_interval (r : rrect) (p : rpt) : (lo r 0%nat : R) <= hi r 0%nat -> r_sdf 1 r p = Rmax (lo r 0%nat - p 0%nat) (p 0%nat - hi r 0%nat).
Proof.
  intros L. unfold r_sdf. unfold dist. rewrite dist2_1.
  assert (Q : forall x, sqrt (x * x) = Rabs x) by (intros x; apply sqrt_Rsqr_abs). rewrite Q.
  destruct (contains_pt 1 r p) eqn:E.
  - apply contains_iff in E. rewrite inside_R in E. specialize (E 0%nat ltac:(lia)). unfold r_project, Rltb. rewrite !(Rabs_pos_eq (p 0%nat - lo r 0%nat)) by lra. rewrite !(Rabs_left1 (p 0%nat - hi r 0%nat)) by lra.
    destruct Rlt_dec; [rewrite Rabs_left1 by lra; rewrite Rmax_left by lra|rewrite Rabs_pos_eq by lra; rewrite Rmax_right by lra]; ring.
  - assert (O : ~ inside 1 p r) by (rewrite <- contains_iff; congruence). rewrite inside_R in O.
    assert (O' : p 0%nat < lo r 0%nat \/ (hi r 0%nat : R) < p 0%nat). { destruct (Rlt_dec (p 0%nat) (lo r 0%nat)); [now left|]. destruct (Rlt_dec (hi r 0%nat) (p 0%nat)); [now right|]. exfalso. apply O. intros i I. replace i with 0%nat by lia. lra. }
    unfold r_project, Rltb. destruct O' as [O'|O'].
    + rewrite !(Rabs_left1 (p 0%nat - lo r 0%nat)), !(Rabs_left1 (p 0%nat - hi r 0%nat)) by lra. destruct Rlt_dec; (rewrite Rabs_pos_eq by lra; rewrite Rmax_left by lra); lra.
    + rewrite !(Rabs_pos_eq (p 0%nat - lo r 0%nat)), !(Rabs_pos_eq (p 0%nat - hi r 0%nat)) by lra. destruct Rlt_dec; (rewrite Rabs_left1 by lra; rewrite Rmax_right by lra); lra.
Qed.

Lemma ray_miss_witness : exists (r : rrect) (o d : nat -> R), ~ nonempty 1 r /\ exists s, iv_has (ray_intersect 1 r o d) s.
Proof.
  exists (mkRect (fun _ => 1 : R_ord) (fun _ => 0)), (fun _ => 0), (fun _ => 1). split.
  - rewrite nonempty_R. cbn. intros H. specialize (H 0%nat ltac:(lia)). lra.
  - apply ray_intersect_bad. lra.
Qed.

Lemma remap_ok N (r : rrect) : (forall i, (i < N)%nat -> (lo r i : R) <> hi r i) ->
  (forall p i, (i < N)%nat -> (r_remap r (r_unmap r p) i : R) = p i) /\ (forall p i, (i < N)%nat -> (r_unmap r (r_remap r p) i : R) = p i).
Proof. intros H. split; intros p i Hi; [apply remap_unmap|apply unmap_remap]; now apply H. Qed.
Lemma remap_unit N (r : rrect) : (forall i, (i < N)%nat -> (lo r i : R) < hi r i) -> forall p : rpt,
  (inside N (r_remap r p) r <-> forall i, (i < N)%nat -> 0 <= (p i : R) <= 1).
Proof.
  intros H p. rewrite (unmap_unit N r _ H). split; intros G i Hi; specialize (G i Hi); specialize (H i Hi).
  - rewrite unmap_remap in G by lra. exact G.
  - rewrite unmap_remap by lra. exact G.
Qed.
