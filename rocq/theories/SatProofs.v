From Coq Require Import List Reals Arith Lra Lia Bool.
From Verif Require Import Fld RFld LinSpec FldLemmas PerlinSpec PerlinProofs VecNModel VecNSpec VecNProofs Ord RectModel RectSpec RectProofs RectArithProofs MulProofs AffineModel AffineSpec AffineProofs ShapeSpec ShapeProofs
  OrientedSpec OrientedModel OrientedProofs GjkSpec SatModel SatSpec.
From Verif Require RayXfProofs.
Import ListNotations.
Open Scope R_scope.

(** ** Sums of segments *)
Definition width (N K : nat) (g : nat -> vec) (v : vec) : R := rsum K (fun k => Rabs (vinner N (g k) v)).
Lemma width_scale N K g v a : 0 <= a -> width N K g (fun i => a * v i) = a * width N K g v.
Proof.
  intros P. unfold width. rewrite <- rsum_scal. apply rsum_ext. intros k L. rewrite inner_sym, inner_mul_l, inner_sym, Rabs_mult, (Rabs_right a) by lra. reflexivity.
Qed.
Lemma width_add N K g u v : width N K g (fun i => u i + v i) <= width N K g u + width N K g v.
Proof.
  unfold width. rewrite <- rsum_plus. apply rsum_le. intros k L. rewrite inner_sym, inner_add_l, !(inner_sym N _ (g k)). apply Rabs_triang.
Qed.
Lemma zonotope N : forall K g c, (forall v, vinner N c v <= width N K g v) -> exists t, (forall k, (k < K)%nat -> -1 <= t k <= 1) /\ same N c (fun i => rsum K (fun k => t k * g k i)).
Proof.
  induction K as [|K IH]; intros g c H.
  - exists (fun _ => 0). split; [intros k L; lia|]. specialize (H c). unfold width in H. cbn [rsum] in H. pose proof (VecNProofs.inner_nonneg N c). assert (vinner N c c = 0) as Z by lra. apply inner_zero in Z. exact Z.
  - assert (forall v, width N (S K) g v = width N K g v + Rabs (vinner N (g K) v)) as Ws by (intros v; unfold width; cbn [rsum]; ring).
    set (E := fun x => x = -1 \/ exists v, vinner N (g K) v = 1 /\ x = vinner N c v - width N K g v).
    destruct (completeness E) as (t & Ub & Lub).
    + exists 1. intros x [->|(v & V & ->)]; [lra|]. specialize (H v). rewrite Ws, V, Rabs_R1 in H. lra.
    + exists (-1). now left.
    + assert (-1 <= t) as T1 by (apply Ub; now left).
      assert (t <= 1) as T2. { apply Lub. intros x [->|(v & V & ->)]; [lra|]. specialize (H v). rewrite Ws, V, Rabs_R1 in H. lra. }
      assert (forall v, vinner N (g K) v = -1 -> t <= width N K g v - vinner N c v) as Tn.
      { intros v V. apply Lub. intros x [->|(u & U & ->)].
        - specialize (H v). rewrite Ws, V, Rabs_left in H by lra. lra.
        - specialize (H (fun i => u i + v i)). rewrite Ws in H. pose proof (width_add N K g u v) as W. assert (forall a, vinner N a (fun i => u i + v i) = vinner N a u + vinner N a v) as Ad by (intros a; rewrite inner_sym, inner_add_l, !(inner_sym N _ a); ring).
          rewrite !Ad, U, V in H. replace (1 + -1) with 0 in H by ring. rewrite Rabs_R0 in H. lra. }
      destruct (IH g (fun i => c i + - t * g K i)) as (s & Sb & Se).
      * intros v. rewrite inner_add_mul. set (s := vinner N (g K) v). assert (forall a w, vinner N w (fun i => a * v i) = a * vinner N w v) as Sc by (intros a w; rewrite inner_sym, inner_mul_l, inner_sym; reflexivity).
        destruct (Rtotal_order s 0) as [L|[Z|G]].
        -- specialize (Tn (fun i => / (- s) * v i)). rewrite !Sc in Tn. fold s in Tn. assert (0 < / - s) as Pi by (apply Rinv_0_lt_compat; lra). rewrite width_scale in Tn by lra.
           specialize (Tn ltac:(field; lra)). apply (Rmult_le_compat_l (- s)) in Tn; [|lra]. replace (- s * (/ - s * width N K g v - / - s * vinner N c v)) with (width N K g v - vinner N c v) in Tn by (field; lra). lra.
        -- specialize (H v). rewrite Ws in H. fold s in H. rewrite Z, Rabs_R0 in H. rewrite Z. lra.
        -- assert (/ s * vinner N c v - / s * width N K g v <= t) as Tp.
           { apply Ub. right. exists (fun i => / s * v i). rewrite !Sc. fold s. split; [field; lra|]. rewrite width_scale; [reflexivity|]. left. apply Rinv_0_lt_compat. lra. }
           apply (Rmult_le_compat_l s) in Tp; [|lra]. replace (s * (/ s * vinner N c v - / s * width N K g v)) with (vinner N c v - width N K g v) in Tp by (field; lra). lra.
      * exists (fun k => if (k =? K)%nat then t else s k). split.
        -- intros k L. destruct (Nat.eqb_spec k K); [lra|]. apply Sb. lia.
        -- intros i L. specialize (Se i L). cbv beta in Se. cbn [rsum]. rewrite Nat.eqb_refl. rewrite (rsum_ext K _ (fun k => s k * g k i)); [lra|]. intros k Lk. destruct (Nat.eqb_spec k K); [lia|reflexivity].
Qed.
(** ** From any separating direction to one that is perpendicular to given directions *)
Lemma least (P : nat -> Prop) (dec : forall k, {P k} + {~ P k}) (f : nat -> R) : forall K, (exists k, (k < K)%nat /\ P k) -> exists k, (k < K)%nat /\ P k /\ forall j, (j < K)%nat -> P j -> f k <= f j.
Proof.
  induction K as [|K IH]; intros (k & L & H); [lia|]. assert (forall j, (j < S K)%nat -> (j < K)%nat \/ j = K) as Cs by (intros; lia).
  destruct (dec K) as [PK|PK].
  - assert ((exists k, (k < K)%nat /\ P k) \/ forall j, (j < K)%nat -> ~ P j) as [E|E].
    { clear -dec. induction K as [|K [E|E]]; [right; intros; lia|left; destruct E as (k & L & H); exists k; split; [lia|exact H]|]. destruct (dec K) as [H|H]; [left; exists K; split; [lia|exact H]|]. right. intros j L. assert (j < K \/ j = K)%nat as [L'| ->] by lia; auto. }
    + destruct (IH E) as (m & Lm & Pm & M). destruct (Rle_lt_dec (f m) (f K)) as [F|F].
      * exists m. split; [lia|]. split; [exact Pm|]. intros j L' Pj. destruct (Cs j L') as [J| ->]; [now apply M|exact F].
      * exists K. split; [lia|]. split; [exact PK|]. intros j L' Pj. destruct (Cs j L') as [J| ->]; [specialize (M j J Pj); lra|lra].
    + exists K. split; [lia|]. split; [exact PK|]. intros j L' Pj. destruct (Cs j L') as [J| ->]; [destruct (E j J Pj)|lra].
  - assert (exists k, (k < K)%nat /\ P k) as E by (exists k; destruct (Cs k L) as [J| ->]; [now split|contradiction]). destruct (IH E) as (m & Lm & Pm & M). exists m. split; [lia|]. split; [exact Pm|].
    intros j L' Pj. destruct (Cs j L') as [J| ->]; [now apply M|contradiction].
Qed.
Lemma bounded_dec (P : nat -> Prop) (dec : forall k, {P k} + {~ P k}) K : (exists k, (k < K)%nat /\ P k) \/ forall j, (j < K)%nat -> ~ P j.
Proof.
  induction K as [|K [E|E]]; [right; intros; lia|left; destruct E as (k & L & H); exists k; split; [lia|exact H]|]. destruct (dec K) as [H|H]; [left; exists K; split; [lia|exact H]|].
  right. intros j L. assert (j < K \/ j = K)%nat as [L'| ->] by lia; auto.
Qed.
Section Rays.
Variables (N K : nat) (u : nat -> vec) (h : nat -> R) (c : vec).
Definition gain (v : vec) : R := vinner N c v - rsum K (fun k => h k * Rabs (vinner N (u k) v)).
Definition sg (x : R) : R := if Rlt_dec x 0 then -1 else 1.
Lemma abs_sg x : Rabs x = sg x * x.
Proof. unfold sg. destruct (Rlt_dec x 0); [rewrite Rabs_left by lra|rewrite Rabs_right by lra]; ring. Qed.
Lemma half_step v w : (forall k, (k < K)%nat -> vinner N (u k) v = 0 -> vinner N (u k) w = 0) -> (exists k, (k < K)%nat /\ vinner N (u k) v * vinner N (u k) w < 0) ->
  0 <= vinner N c w - rsum K (fun k => h k * (sg (vinner N (u k) v) * vinner N (u k) w)) -> 0 < gain v ->
  exists v', 0 < gain v' /\ (forall k, (k < K)%nat -> vinner N (u k) v = 0 -> vinner N (u k) v' = 0) /\ exists k, (k < K)%nat /\ vinner N (u k) v <> 0 /\ vinner N (u k) v' = 0.
Proof.
  intros T E D G. set (a := fun k => vinner N (u k) v) in *. set (b := fun k => vinner N (u k) w) in *.
  destruct (least (fun k => a k * b k < 0) (fun k => Rlt_dec _ _) (fun k => - a k / b k) K E) as (m & Lm & Pm & M). cbv beta in Pm, M.
  assert (b m <> 0) as Bm by (intros Z; rewrite Z in Pm; lra). assert (a m <> 0) as Am by (intros Z; rewrite Z in Pm; lra). set (s := - a m / b m) in *. assert (s * b m = - a m) as Sm by (unfold s; field; exact Bm).
  assert (0 < s) as Ps. { assert (0 < - (a m * b m)) as Pn by lra. pose proof (Rlt_0_sqr (b m) Bm) as Sq. unfold Rsqr in Sq. replace s with (- (a m * b m) / (b m * b m)) by (unfold s; field; exact Bm). now apply Rdiv_lt_0_compat. }
  assert (forall x, vinner N x (fun i => v i + s * w i) = vinner N x v + s * vinner N x w) as Lin by (intros x; rewrite inner_sym, inner_add_mul, !(inner_sym N _ x); reflexivity).
  exists (fun i => v i + s * w i). split; [|split].
  - assert (forall k, (k < K)%nat -> Rabs (vinner N (u k) (fun i => v i + s * w i)) = sg (a k) * (a k + s * b k)) as Ab.
    { intros k L. rewrite Lin. fold (a k) (b k). destruct (Req_dec (a k) 0) as [Z|Z]; [unfold b; rewrite (T k L Z), Z, Rmult_0_r, Rplus_0_r, Rabs_R0; ring|]. unfold sg.
      destruct (Rlt_dec (a k) 0) as [Ln|Ln].
      - rewrite Rabs_left1; [ring|]. destruct (Rle_lt_dec (b k) 0) as [Bk|Bk]; [pose proof (Rmult_le_pos s (- b k) ltac:(lra) ltac:(lra)); lra|].
        assert (a k * b k < 0) as Pk by (pose proof (Rmult_lt_0_compat (- a k) (b k) ltac:(lra) Bk); lra). specialize (M k L Pk). apply (Rmult_le_compat_r (b k)) in M; [|lra]. replace (- a k / b k * b k) with (- a k) in M by (field; lra). lra.
      - rewrite Rabs_right; [ring|]. destruct (Rle_lt_dec 0 (b k)) as [Bk|Bk]; [pose proof (Rmult_le_pos s (b k) ltac:(lra) ltac:(lra)); lra|].
        assert (a k * b k < 0) as Pk by (pose proof (Rmult_lt_0_compat (a k) (- b k) ltac:(lra) ltac:(lra)); lra). specialize (M k L Pk). apply (Rmult_le_compat_r (- b k)) in M; [|lra]. replace (- a k / b k * - b k) with (a k) in M by (field; lra). lra. }
    unfold gain. rewrite Lin, (rsum_ext K _ (fun k => h k * Rabs (a k) + s * (h k * (sg (a k) * b k)))).
    + rewrite rsum_plus, rsum_scal. unfold gain in G. fold a in G. change (fun k => h k * Rabs (a k)) with (fun k => h k * Rabs (vinner N (u k) v)). pose proof (Rmult_le_pos s _ ltac:(lra) D) as Q. unfold b, a in Q |- *. lra.
    + intros k L. rewrite (Ab k L), abs_sg. ring.
  - intros k L Z. rewrite Lin, Z, (T k L Z). ring.
  - exists m. split; [exact Lm|]. split; [exact Am|]. rewrite Lin. fold (a m) (b m). lra.
Qed.
Lemma full_step v w : (forall k, (k < K)%nat -> vinner N (u k) v = 0 -> vinner N (u k) w = 0) -> (exists k, (k < K)%nat /\ vinner N (u k) v * vinner N (u k) w < 0) -> (exists k, (k < K)%nat /\ 0 < vinner N (u k) v * vinner N (u k) w) ->
  0 < gain v -> exists v', 0 < gain v' /\ (forall k, (k < K)%nat -> vinner N (u k) v = 0 -> vinner N (u k) v' = 0) /\ exists k, (k < K)%nat /\ vinner N (u k) v <> 0 /\ vinner N (u k) v' = 0.
Proof.
  intros T E1 E2 G. set (D := vinner N c w - rsum K (fun k => h k * (sg (vinner N (u k) v) * vinner N (u k) w))). destruct (Rle_lt_dec 0 D) as [P|P]; [exact (half_step v w T E1 P G)|].
  assert (forall x, vinner N x (fun i => - w i) = - vinner N x w) as Op by (intros x; apply inner_opp_r).
  apply (half_step v (fun i => - w i)); [| | |exact G].
  - intros k L Z. rewrite Op, (T k L Z). ring.
  - destruct E2 as (k & L & H). exists k. split; [exact L|]. rewrite Op. lra.
  - rewrite Op, (rsum_ext K _ (fun k => -1 * (h k * (sg (vinner N (u k) v) * vinner N (u k) w)))); [rewrite rsum_scal; unfold D in P; lra|]. intros k L. rewrite Op. ring.
Qed.
(** The first [N] directions are the axes. *)
Hypotheses (NK : (N <= K)%nat) (Ue : forall k, (k < N)%nat -> u k = axis k).
Lemma balanced_step v w : (forall k, (k < K)%nat -> vinner N (u k) v = 0 -> vinner N (u k) w = 0) -> ~ all_zero N w -> rsum N (fun i => sg (v i) * w i) = 0 ->
  0 < gain v -> exists v', 0 < gain v' /\ (forall k, (k < K)%nat -> vinner N (u k) v = 0 -> vinner N (u k) v' = 0) /\ exists k, (k < K)%nat /\ vinner N (u k) v <> 0 /\ vinner N (u k) v' = 0.
Proof.
  intros T Z B. assert (forall k x, (k < N)%nat -> vinner N (u k) x = x k) as Ux by (intros k x L; rewrite (Ue k L), inner_sym; now apply inner_axis).
  assert (forall i, (i < N)%nat -> v i = 0 -> w i = 0) as Tw by (intros i L Zi; rewrite <- (Ux i w L); apply T; [lia|now rewrite (Ux i v L)]).
  assert (forall i, sg (v i) * w i < 0 -> (i < N)%nat -> v i * w i < 0) as Sn.
  { intros i H L. assert (v i <> 0) as Nz by (intros Q; rewrite (Tw i L Q) in H; lra). unfold sg in H. destruct (Rlt_dec (v i) 0); [pose proof (Rmult_lt_0_compat (- v i) (w i) ltac:(lra) ltac:(lra))|pose proof (Rmult_lt_0_compat (v i) (- w i) ltac:(lra) ltac:(lra))]; lra. }
  assert (forall i, 0 < sg (v i) * w i -> (i < N)%nat -> 0 < v i * w i) as Sp.
  { intros i H L. assert (v i <> 0) as Nz by (intros Q; rewrite (Tw i L Q) in H; lra). unfold sg in H. destruct (Rlt_dec (v i) 0); [pose proof (Rmult_lt_0_compat (- v i) (- w i) ltac:(lra) ltac:(lra))|pose proof (Rmult_lt_0_compat (v i) (w i) ltac:(lra) ltac:(lra))]; lra. }
  assert (forall f : nat -> R, rsum N f = 0 -> ~ all_zero N f -> exists i, (i < N)%nat /\ f i < 0) as Neg.
  { intros f S Nz. destruct (bounded_dec (fun i => f i < 0) (fun i => Rlt_dec _ _) N) as [E|E]; [exact E|exfalso]. apply Nz. intros i L. apply Rle_antisym; [|apply Rnot_lt_le; now apply E].
    apply Rnot_lt_le. intros C. assert (rsum N (fun j => if (j =? i)%nat then f i else 0) <= rsum N f) as Q by (apply rsum_le; intros j J; destruct (Nat.eqb_spec j i) as [->|]; [lra|apply Rnot_lt_le; now apply E]).
    rewrite (rsum_one N i (fun _ => f i) L) in Q. lra. }
  apply (full_step v w); [exact T| |].
  - destruct (Neg _ B) as (i & L & H). { intros A. apply Z. intros i L. specialize (A i L). cbv beta in A. unfold sg in A. destruct (Rlt_dec (v i) 0); lra. }
    exists i. split; [lia|]. rewrite !(Ux i) by exact L. now apply Sn.
  - destruct (Neg (fun i => - 1 * (sg (v i) * w i))) as (i & L & H). { rewrite rsum_scal, B. ring. } { intros A. apply Z. intros i L. specialize (A i L). cbv beta in A. unfold sg in A. destruct (Rlt_dec (v i) 0); lra. }
    exists i. split; [lia|]. rewrite !(Ux i) by exact L. apply Sp; [lra|exact L].
Qed.
End Rays.
(** ** Two and three dimensions *)
Lemma inner2 a b : vinner 2 a b = a 0%nat * b 0%nat + a 1%nat * b 1%nat.
Proof. unfold VecNSpec.inner. cbn. ring. Qed.
Lemma inner3 a b : vinner 3 a b = a 0%nat * b 0%nat + a 1%nat * b 1%nat + a 2%nat * b 2%nat.
Proof. unfold VecNSpec.inner. cbn. ring. Qed.
Lemma zero2 a : all_zero 2 a <-> a 0%nat = 0 /\ a 1%nat = 0.
Proof. split; [intros H; split; apply H; lia|]. intros (A & B) i L. assert (i = 0 \/ i = 1)%nat as [->| ->] by lia; assumption. Qed.
Lemma zero3 a : all_zero 3 a <-> a 0%nat = 0 /\ a 1%nat = 0 /\ a 2%nat = 0.
Proof. split; [intros H; repeat split; apply H; lia|]. intros (A & B & C) i L. assert (i = 0 \/ i = 1 \/ i = 2)%nat as [->|[->| ->]] by lia; assumption. Qed.
Lemma zero_dec N a : {all_zero N a} + {~ all_zero N a}.
Proof. destruct (is_zero N a) eqn:E; [left; now apply is_zero_spec|right; intros Z; apply is_zero_spec in Z; congruence]. Qed.
Lemma inner_zero_l N a x : all_zero N a -> vinner N a x = 0.
Proof. intros Z. unfold VecNSpec.inner. rewrite (rsum_ext _ _ (fun _ => 0)); [apply rsum_zero|]. intros i L. rewrite (Z i L). ring. Qed.
Lemma gain_nonzero N K u h c v : 0 < gain N K u h c v -> ~ all_zero N v.
Proof.
  intros G Z. unfold gain in G. rewrite inner_sym, (inner_zero_l N v c Z), (rsum_ext K _ (fun _ => 0)), rsum_zero in G; [lra|]. intros k L. rewrite inner_sym, (inner_zero_l N v _ Z), Rabs_R0. ring.
Qed.
Lemma sg_one x : sg x * sg x = 1.
Proof. unfold sg. destruct (Rlt_dec x 0); ring. Qed.
Lemma sg_pos x : 0 <= sg x * x.
Proof. rewrite <- abs_sg. apply Rabs_pos. Qed.
Lemma sg_zero x : sg x * x = 0 -> x = 0.
Proof. rewrite <- abs_sg. intros H. destruct (Req_dec x 0) as [|Z]; [assumption|]. now apply Rabs_no_R0 in Z. Qed.
Section Low.
Variables (K : nat) (u : nat -> vec) (h : nat -> R) (c : vec).
Lemma rays2 v : (2 <= K)%nat -> (forall k, (k < 2)%nat -> u k = axis k) -> 0 < gain 2 K u h c v ->
  exists v', 0 < gain 2 K u h c v' /\ exists k, (k < K)%nat /\ ~ all_zero 2 (u k) /\ vinner 2 (u k) v' = 0.
Proof.
  intros LK Ue G. assert (forall k, {~ all_zero 2 (u k) /\ vinner 2 (u k) v = 0} + {~ (~ all_zero 2 (u k) /\ vinner 2 (u k) v = 0)}) as Dc.
  { intros k. destruct (zero_dec 2 (u k)); [right; tauto|]. destruct (Req_EM_T (vinner 2 (u k) v) 0); [left|right]; tauto. }
  destruct (bounded_dec _ Dc K) as [E|E]; [exists v; split; [exact G|exact E]|].
  destruct (balanced_step 2 K u h c LK Ue v (fun i => if (i =? 0)%nat then - sg (v 1%nat) else sg (v 0%nat))) as (v' & G' & T & k & L & Nz & Z); [| | |exact G|].
  - intros k L Z. apply inner_zero_l. destruct (zero_dec 2 (u k)); [assumption|]. destruct (E k L). now split.
  - intros Z. apply zero2 in Z as [_ Z]. cbn in Z. pose proof (sg_one (v 0%nat)) as S. rewrite Z in S. lra.
  - cbn. ring.
  - exists v'. split; [exact G'|]. exists k. split; [exact L|]. split; [|exact Z]. intros Q. apply Nz. now apply inner_zero_l.
Qed.
Lemma rays3 v : (3 <= K)%nat -> (forall k, (k < 3)%nat -> u k = axis k) -> 0 < gain 3 K u h c v ->
  exists v', 0 < gain 3 K u h c v' /\ exists a b, (a < K)%nat /\ (b < K)%nat /\ ~ all_zero 3 (cross_vec (u a) (u b)) /\ vinner 3 (u a) v' = 0 /\ vinner 3 (u b) v' = 0.
Proof.
  intros LK Ue G0.
  assert (exists v, 0 < gain 3 K u h c v /\ exists a, (a < K)%nat /\ ~ all_zero 3 (u a) /\ vinner 3 (u a) v = 0) as (v1 & G & a & La & Na & Ta).
  { assert (forall k, {~ all_zero 3 (u k) /\ vinner 3 (u k) v = 0} + {~ (~ all_zero 3 (u k) /\ vinner 3 (u k) v = 0)}) as Dc.
    { intros k. destruct (zero_dec 3 (u k)); [right; tauto|]. destruct (Req_EM_T (vinner 3 (u k) v) 0); [left|right]; tauto. }
    destruct (bounded_dec _ Dc K) as [E|E]; [exists v; split; [exact G0|exact E]|].
    destruct (balanced_step 3 K u h c LK Ue v (fun i => match i with O => - sg (v 1%nat) | S O => sg (v 0%nat) | _ => 0 end)) as (v' & G' & T & k & L & Nz & Z); [| | |exact G0|].
    - intros k L Z. apply inner_zero_l. destruct (zero_dec 3 (u k)); [assumption|]. destruct (E k L). now split.
    - intros Z. apply zero3 in Z as (_ & Z & _). pose proof (sg_one (v 0%nat)) as S. rewrite Z in S. lra.
    - cbn. ring.
    - exists v'. split; [exact G'|]. exists k. split; [exact L|]. split; [|exact Z]. intros Q. apply Nz. now apply inner_zero_l. }
  clear v G0. rename v1 into v.
  assert (forall k, {~ all_zero 3 (cross_vec (u a) (u k)) /\ vinner 3 (u k) v = 0} + {~ (~ all_zero 3 (cross_vec (u a) (u k)) /\ vinner 3 (u k) v = 0)}) as Dc.
  { intros k. destruct (zero_dec 3 (cross_vec (u a) (u k))); [right; tauto|]. destruct (Req_EM_T (vinner 3 (u k) v) 0); [left|right]; tauto. }
  destruct (bounded_dec _ Dc K) as [(b & Lb & Nb & Tb)|E]; [exists v; split; [exact G|]; exists a, b; repeat split; assumption|].
  destruct (balanced_step 3 K u h c LK Ue v (cross_vec (fun i => sg (v i)) (u a))) as (v' & G' & T & k & L & Nz & Z); [| | |exact G|].
  - intros k L Z. destruct (zero_dec 3 (cross_vec (u a) (u k))) as [Zc|Zc]; [|destruct (E k L); now split]. apply zero3 in Zc as (C0 & C1 & C2). unfold cross_vec in C0, C1, C2. rewrite inner3. unfold cross_vec.
    transitivity (sg (v 0%nat) * (u a 1%nat * u k 2%nat - u a 2%nat * u k 1%nat) + sg (v 1%nat) * (u a 2%nat * u k 0%nat - u a 0%nat * u k 2%nat) + sg (v 2%nat) * (u a 0%nat * u k 1%nat - u a 1%nat * u k 0%nat)); [ring|]. rewrite C0, C1, C2. ring.
  - intros Z. apply zero3 in Z as (C0 & C1 & C2). unfold cross_vec in C0, C1, C2. cbv beta in C0, C1, C2. rewrite inner3 in Ta. pose proof (sg_one (v 0%nat)) as S0. set (x0 := u a 0%nat) in *. set (x1 := u a 1%nat) in *. set (x2 := u a 2%nat) in *.
    assert (x1 = sg (v 0%nat) * x0 * sg (v 1%nat)) as X1. { transitivity (sg (v 0%nat) * sg (v 0%nat) * x1); [rewrite S0; ring|]. transitivity (sg (v 0%nat) * (sg (v 0%nat) * x1)); [ring|]. replace (sg (v 0%nat) * x1) with (sg (v 1%nat) * x0) by lra. ring. }
    assert (x2 = sg (v 0%nat) * x0 * sg (v 2%nat)) as X2. { transitivity (sg (v 0%nat) * sg (v 0%nat) * x2); [rewrite S0; ring|]. transitivity (sg (v 0%nat) * (sg (v 0%nat) * x2)); [ring|]. replace (sg (v 0%nat) * x2) with (sg (v 2%nat) * x0) by lra. ring. }
    assert (x0 = sg (v 0%nat) * x0 * sg (v 0%nat)) as X0. { transitivity (sg (v 0%nat) * sg (v 0%nat) * x0); [rewrite S0|]; ring. }
    set (m := sg (v 0%nat) * x0) in *. assert (m * (sg (v 0%nat) * v 0%nat + sg (v 1%nat) * v 1%nat + sg (v 2%nat) * v 2%nat) = 0) as M. { rewrite <- Ta, X0, X1, X2. ring. }
    apply Rmult_integral in M as [M|M].
    + apply Na. apply zero3. fold x0 x1 x2. rewrite X0, X1, X2, M. repeat split; ring.
    + pose proof (sg_pos (v 0%nat)). pose proof (sg_pos (v 1%nat)). pose proof (sg_pos (v 2%nat)). apply (gain_nonzero 3 K u h c v G). apply zero3. repeat split; apply sg_zero; lra.
  - cbn. unfold cross_vec. ring.
  - exists v'. split; [exact G'|]. exists a, k. split; [exact La|]. split; [exact L|]. split; [|split; [now apply T|exact Z]].
    intros Q. apply zero3 in Q as (C0 & C1 & C2). unfold cross_vec in C0, C1, C2. rewrite inner3 in Ta. apply Nz.
    assert (vinner 3 (u a) (u a) * vinner 3 (u k) v = 0) as W.
    { rewrite !inner3. set (x0 := u a 0%nat) in *. set (x1 := u a 1%nat) in *. set (x2 := u a 2%nat) in *. set (y0 := u k 0%nat) in *. set (y1 := u k 1%nat) in *. set (y2 := u k 2%nat) in *.
      transitivity ((x0 * y0 + x1 * y1 + x2 * y2) * (x0 * v 0%nat + x1 * v 1%nat + x2 * v 2%nat) + (x1 * y2 - x2 * y1) * (x1 * v 2%nat - x2 * v 1%nat) + (x2 * y0 - x0 * y2) * (x2 * v 0%nat - x0 * v 2%nat) + (x0 * y1 - x1 * y0) * (x0 * v 1%nat - x1 * v 0%nat)); [ring|].
      rewrite C0, C1, C2, Ta. ring. }
    apply Rmult_integral in W as [W|W]; [|exact W]. apply inner_zero in W. contradiction.
Qed.
End Low.
Lemma cross_parallel a b v : ~ all_zero 3 (cross_vec a b) -> vinner 3 a v = 0 -> vinner 3 b v = 0 -> exists l, same 3 v (fun i => l * cross_vec a b i).
Proof.
  intros Nz A B. set (n := cross_vec a b) in *. assert (vinner 3 n n <> 0) as Z by (intros Q; apply inner_zero in Q; contradiction). exists (vinner 3 n v / vinner 3 n n).
  rewrite inner3 in A, B. assert (v 1%nat * n 2%nat - v 2%nat * n 1%nat = 0 /\ v 2%nat * n 0%nat - v 0%nat * n 2%nat = 0 /\ v 0%nat * n 1%nat - v 1%nat * n 0%nat = 0) as (C0 & C1 & C2).
  { unfold n, cross_vec. repeat split.
    - transitivity (a 0%nat * (b 0%nat * v 0%nat + b 1%nat * v 1%nat + b 2%nat * v 2%nat) - b 0%nat * (a 0%nat * v 0%nat + a 1%nat * v 1%nat + a 2%nat * v 2%nat)); [ring|rewrite A, B; ring].
    - transitivity (a 1%nat * (b 0%nat * v 0%nat + b 1%nat * v 1%nat + b 2%nat * v 2%nat) - b 1%nat * (a 0%nat * v 0%nat + a 1%nat * v 1%nat + a 2%nat * v 2%nat)); [ring|rewrite A, B; ring].
    - transitivity (a 2%nat * (b 0%nat * v 0%nat + b 1%nat * v 1%nat + b 2%nat * v 2%nat) - b 2%nat * (a 0%nat * v 0%nat + a 1%nat * v 1%nat + a 2%nat * v 2%nat)); [ring|rewrite A, B; ring]. }
  intros i L. apply (Rmult_eq_reg_r (vinner 3 n n)); [|exact Z]. replace (vinner 3 n v / vinner 3 n n * n i * vinner 3 n n) with (vinner 3 n v * n i) by (field; exact Z). rewrite !inner3. clearbody n. clear Z.
  assert (i = 0 \/ i = 1 \/ i = 2)%nat as [->|[->| ->]] by lia.
  - transitivity ((n 0%nat * v 0%nat + n 1%nat * v 1%nat + n 2%nat * v 2%nat) * n 0%nat + n 1%nat * (v 0%nat * n 1%nat - v 1%nat * n 0%nat) - n 2%nat * (v 2%nat * n 0%nat - v 0%nat * n 2%nat)); [ring|rewrite C1, C2; ring].
  - transitivity ((n 0%nat * v 0%nat + n 1%nat * v 1%nat + n 2%nat * v 2%nat) * n 1%nat + n 2%nat * (v 1%nat * n 2%nat - v 2%nat * n 1%nat) - n 0%nat * (v 0%nat * n 1%nat - v 1%nat * n 0%nat)); [ring|rewrite C0, C2; ring].
  - transitivity ((n 0%nat * v 0%nat + n 1%nat * v 1%nat + n 2%nat * v 2%nat) * n 2%nat + n 0%nat * (v 2%nat * n 0%nat - v 0%nat * n 2%nat) - n 1%nat * (v 1%nat * n 2%nat - v 2%nat * n 1%nat)); [ring|rewrite C0, C1; ring].
Qed.
(** ** Ranges of corners *)
Lemma range_ok n f : (1 <= n)%nat -> (forall c, (c < n)%nat -> fst (corner_range n f) <= f c <= snd (corner_range n f)) /\
  (exists c, (c < n)%nat /\ fst (corner_range n f) = f c) /\ exists c, (c < n)%nat /\ snd (corner_range n f) = f c.
Proof.
  intros L. unfold corner_range, loop1. set (step := fun (s : R * R) (i : nat) => _). assert (forall k, (forall c, (c <= k)%nat -> fst (fold_left step (seq 1 k) (f 0%nat, f 0%nat)) <= f c <= snd (fold_left step (seq 1 k) (f 0%nat, f 0%nat))) /\
    (exists c, (c <= k)%nat /\ fst (fold_left step (seq 1 k) (f 0%nat, f 0%nat)) = f c) /\ exists c, (c <= k)%nat /\ snd (fold_left step (seq 1 k) (f 0%nat, f 0%nat)) = f c) as H.
  { induction k as [|k IH].
    - cbn. split; [intros c C; assert (c = 0)%nat as -> by lia; lra|]. split; exists 0%nat; split; auto.
    - rewrite seq_S, fold_left_app. set (r := fold_left step (seq 1 k) _) in *. cbn [fold_left]. unfold step. cbn [fst snd]. destruct IH as (A & (c1 & L1 & E1) & (c2 & L2 & E2)). unfold std_min, std_max. split; [|split].
      + intros c C. destruct (Nat.eq_dec c (1 + k)) as [->|D]; [destruct (Rlt_dec _ (fst r)), (Rlt_dec (snd r) _); lra|]. specialize (A c ltac:(lia)). destruct (Rlt_dec _ (fst r)), (Rlt_dec (snd r) _); lra.
      + destruct (Rlt_dec _ (fst r)); [exists (1 + k)%nat; split; [lia|reflexivity]|exists c1; split; [lia|exact E1]].
      + destruct (Rlt_dec (snd r) _); [exists (1 + k)%nat; split; [lia|reflexivity]|exists c2; split; [lia|exact E2]]. }
  destruct (H (n - 1)%nat) as (A & (c1 & L1 & E1) & (c2 & L2 & E2)). split; [intros c C; apply A; lia|]. split; [exists c1|exists c2]; split; auto; lia.
Qed.
Lemma range_same n f g : (1 <= n)%nat -> (forall c, (c < n)%nat -> exists c', (c' < n)%nat /\ f c = g c') -> (forall c, (c < n)%nat -> exists c', (c' < n)%nat /\ g c = f c') -> corner_range n f = corner_range n g.
Proof.
  intros L F G. destruct (range_ok n f L) as (A & (a1 & A1 & A2) & (a3 & A3 & A4)). destruct (range_ok n g L) as (B & (b1 & B1 & B2) & (b3 & B3 & B4)).
  rewrite (surjective_pairing (corner_range n f)), (surjective_pairing (corner_range n g)).
  destruct (F a1 A1) as (x1 & X1 & E1). destruct (F a3 A3) as (x3 & X3 & E3). destruct (G b1 B1) as (y1 & Y1 & D1). destruct (G b3 B3) as (y3 & Y3 & D3).
  pose proof (B x1 X1). pose proof (B x3 X3). pose proof (A y1 Y1). pose proof (A y3 Y3). f_equal; apply Rle_antisym; lra.
Qed.
Lemma pow2_pos N : (1 <= 2 ^ N)%nat.
Proof. pose proof (Nat.pow_nonzero 2 N ltac:(lia)). lia. Qed.
Definition mid (b : @rect R_ord) : vec := fun i => ((lo b i : R) + hi b i) / 2.
Definition half (b : @rect R_ord) : vec := fun i => ((hi b i : R) - lo b i) / 2.
(** Corners along a direction [d], of any box. *)
Lemma corner_reach N b d c : vinner N (mid b) d - rsum N (fun i => Rabs (half b i) * Rabs (d i)) <= vinner N (box_corner b c) d <= vinner N (mid b) d + rsum N (fun i => Rabs (half b i) * Rabs (d i)).
Proof.
  assert (forall i, - (Rabs (half b i) * Rabs (d i)) <= box_corner b c i * d i - mid b i * d i <= Rabs (half b i) * Rabs (d i)) as P.
  { intros i. rewrite <- Rabs_mult. replace (box_corner b c i * d i - mid b i * d i) with ((if Nat.testbit c i then 1 else -1) * (half b i * d i)) by (unfold box_corner, mid, half; destruct (Nat.testbit c i); cbn; field).
    pose proof (Rle_abs (half b i * d i)). pose proof (Rle_abs (- (half b i * d i))) as O. rewrite Rabs_Ropp in O. destruct (Nat.testbit c i); lra. }
  unfold VecNSpec.inner. split.
  - apply (Rplus_le_reg_r (rsum N (fun i => Rabs (half b i) * Rabs (d i)))). rewrite <- rsum_plus. unfold Rminus. rewrite Rplus_assoc, Rplus_opp_l, Rplus_0_r. apply rsum_le. intros i L. specialize (P i). lra.
  - rewrite <- rsum_plus. apply rsum_le. intros i L. specialize (P i). lra.
Qed.
Lemma corner_attain N b d : (exists c, (c < 2 ^ N)%nat /\ vinner N (box_corner b c) d = vinner N (mid b) d + rsum N (fun i => Rabs (half b i) * Rabs (d i))) /\
  exists c, (c < 2 ^ N)%nat /\ vinner N (box_corner b c) d = vinner N (mid b) d - rsum N (fun i => Rabs (half b i) * Rabs (d i)).
Proof.
  split.
  - destruct (bits_exist N (fun i => if Rle_dec 0 (half b i * d i) then true else false)) as (c & L & B). exists c. split; [exact L|]. unfold VecNSpec.inner. rewrite <- rsum_plus. apply rsum_ext. intros i I.
    rewrite <- Rabs_mult. unfold box_corner. rewrite (B i I). destruct (Rle_dec 0 (half b i * d i)) as [P|P]; [rewrite Rabs_right by lra|rewrite Rabs_left by lra]; unfold mid, half; cbn; field.
  - destruct (bits_exist N (fun i => if Rle_dec 0 (half b i * d i) then false else true)) as (c & L & B). exists c. split; [exact L|]. unfold VecNSpec.inner. unfold Rminus. replace (- rsum N (fun i => Rabs (half b i) * Rabs (d i))) with (rsum N (fun i => -1 * (Rabs (half b i) * Rabs (d i)))) by (rewrite rsum_scal; ring).
    rewrite <- rsum_plus. apply rsum_ext. intros i I.
    rewrite <- Rabs_mult. unfold box_corner. rewrite (B i I). destruct (Rle_dec 0 (half b i * d i)) as [P|P]; [rewrite Rabs_right by lra|rewrite Rabs_left by lra]; unfold mid, half; cbn; field.
Qed.
Lemma range_is n f l g : (1 <= n)%nat -> (forall c, (c < n)%nat -> l <= f c <= g) -> (exists c, (c < n)%nat /\ f c = g) -> (exists c, (c < n)%nat /\ f c = l) -> corner_range n f = (l, g).
Proof.
  intros L H (c1 & L1 & E1) (c2 & L2 & E2). destruct (range_ok n f L) as (A & (a1 & A1 & A2) & (a3 & A3 & A4)). rewrite (surjective_pairing (corner_range n f)).
  pose proof (H a1 A1). pose proof (H a3 A3). pose proof (A c1 L1). pose proof (A c2 L2). f_equal; apply Rle_antisym; lra.
Qed.
Lemma dot_sym N v x : dot N v x = vinner N x v.
Proof. rewrite VecNProofs.dot_is. apply inner_sym. Qed.
Definition spread (N : nat) (b : @rect R_ord) (d : vec) : R := rsum N (fun i => Rabs (half b i) * Rabs (d i)).
Lemma box_range N b v : corner_range (2 ^ N) (fun c => dot N v (box_corner b c)) = (vinner N (mid b) v - spread N b v, vinner N (mid b) v + spread N b v).
Proof.
  pose proof (corner_attain N b v) as ((c1 & L1 & E1) & (c2 & L2 & E2)).
  apply range_is; [apply pow2_pos| |exists c1; split; [exact L1|]|exists c2; split; [exact L2|]]; [intros c L; rewrite dot_sym; apply corner_reach| |]; rewrite dot_sym; assumption.
Qed.
(** The same for moved corners. *)
Definition moved_mid (N : nat) (b : @rect R_ord) (xf : xformR) : vec := xf_apply N xf (mid b).
Lemma moved_inner N (xf : xformR) q v : vinner N (xf_apply N xf q) v = vinner N q (xf_apply_inverse_normal N xf v) + rsum N (fun i => xmat xf i N * v i).
Proof. apply inner_pulled. intros i L. now apply apply_is. Qed.
Lemma moved_range N b (xf : xformR) v : corner_range (2 ^ N) (fun c => dot N v (xf_apply N xf (box_corner b c))) =
  (vinner N (moved_mid N b xf) v - spread N b (xf_apply_inverse_normal N xf v), vinner N (moved_mid N b xf) v + spread N b (xf_apply_inverse_normal N xf v)).
Proof.
  set (d := xf_apply_inverse_normal N xf v). pose proof (corner_attain N b d) as ((c1 & L1 & E1) & (c2 & L2 & E2)). unfold moved_mid, spread. rewrite moved_inner. fold d.
  apply range_is; [apply pow2_pos| |exists c1; split; [exact L1|]|exists c2; split; [exact L2|]]; [intros c L; pose proof (corner_reach N b d c)| |]; rewrite dot_sym, moved_inner; fold d; lra.
Qed.
Lemma moved_coordinate N b (xf : xformR) i : (i < N)%nat -> corner_range (2 ^ N) (fun c => xf_apply N xf (box_corner b c) i) =
  (vinner N (moved_mid N b xf) (axis i) - spread N b (xf_apply_inverse_normal N xf (axis i)), vinner N (moved_mid N b xf) (axis i) + spread N b (xf_apply_inverse_normal N xf (axis i))).
Proof.
  intros L. rewrite <- moved_range. apply range_same; [apply pow2_pos| |]; intros c C; exists c; (split; [exact C|]); rewrite dot_sym, inner_axis by exact L; reflexivity.
Qed.
(** Regions and their ranges. *)
Lemma box_within N b v y : in_box N b y -> vinner N (mid b) v - spread N b v <= vinner N y v <= vinner N (mid b) v + spread N b v.
Proof.
  intros H. assert (forall i, (i < N)%nat -> - (Rabs (half b i) * Rabs (v i)) <= y i * v i - mid b i * v i <= Rabs (half b i) * Rabs (v i)) as P.
  { intros i L. specialize (H i L). rewrite <- Rmult_minus_distr_r. assert (Rabs ((y i - mid b i) * v i) <= Rabs (half b i) * Rabs (v i)) as Q.
    { rewrite Rabs_mult. apply Rmult_le_compat_r; [apply Rabs_pos|]. unfold mid, half. cbn in *. rewrite (Rabs_right ((hi b i - lo b i) / 2)) by lra. apply Rabs_le. lra. }
    pose proof (Rle_abs ((y i - mid b i) * v i)). pose proof (Rle_abs (- ((y i - mid b i) * v i))) as O. rewrite Rabs_Ropp in O. lra. }
  unfold spread, VecNSpec.inner. split.
  - apply (Rplus_le_reg_r (rsum N (fun i => Rabs (half b i) * Rabs (v i)))). rewrite <- rsum_plus. unfold Rminus. rewrite Rplus_assoc, Rplus_opp_l, Rplus_0_r. apply rsum_le. intros i L. specialize (P i L). lra.
  - rewrite <- rsum_plus. apply rsum_le. intros i L. specialize (P i L). lra.
Qed.
Lemma moved_within N b (xf : xformR) v x : image N (xmat xf) (in_box N b) x ->
  vinner N (moved_mid N b xf) v - spread N b (xf_apply_inverse_normal N xf v) <= vinner N x v <= vinner N (moved_mid N b xf) v + spread N b (xf_apply_inverse_normal N xf v).
Proof.
  intros (q & Q & E). rewrite (inner_pulled N xf q x v E). unfold moved_mid. rewrite moved_inner. pose proof (box_within N b (xf_apply_inverse_normal N xf v) q Q). lra.
Qed.
(** ** The test *)
Section Test.
Variables (N : nat) (b0 b1 : @rect R_ord) (xf : xformR).
Notation A := (image N (xmat xf) (in_box N b0)).
Notation B := (in_box N b1).
Notation pull v := (xf_apply_inverse_normal N xf v).
Definition low_gap (v : vec) : R := (vinner N (mid b1) v - spread N b1 v) - (vinner N (moved_mid N b0 xf) v + spread N b0 (pull v)).
Definition high_gap (v : vec) : R := (vinner N (moved_mid N b0 xf) v - spread N b0 (pull v)) - (vinner N (mid b1) v + spread N b1 v).
Lemma spread_axis i : (i < N)%nat -> spread N b1 (axis i) = Rabs (half b1 i).
Proof.
  intros L. unfold spread. rewrite (rsum_ext N _ (fun k => if (k =? i)%nat then Rabs (half b1 k) else 0)); [now apply (rsum_one N i (fun k => Rabs (half b1 k)))|]. intros k Lk. unfold axis. destruct (k =? i)%nat; [rewrite Rabs_R1|rewrite Rabs_R0]; ring.
Qed.
Lemma zero_vec_spec v : vec_eq N v (fun _ => 0) = true <-> all_zero N v.
Proof. rewrite vec_eq_spec. reflexivity. Qed.
(** What the answer means, for any box [b0] and a box [b1] that is not empty. *)
Lemma test_true : nonempty N b1 -> (obox_intersects N b0 xf b1 = true <->
  (forall i, (i < N)%nat -> low_gap (axis i) <= 0 /\ high_gap (axis i) <= 0) /\
  (forall i, (i < sat_axes N)%nat -> ~ all_zero N (sat_axis N xf i) -> low_gap (sat_axis N xf i) < 0 /\ high_gap (sat_axis N xf i) < 0)).
Proof.
  intros NE. assert (forall i, (i < N)%nat -> vinner N (mid b1) (axis i) - spread N b1 (axis i) = lo b1 i /\ vinner N (mid b1) (axis i) + spread N b1 (axis i) = hi b1 i) as Ends.
  { intros i L. rewrite inner_axis, (spread_axis i L) by exact L. pose proof (proj1 (nonempty_R N b1) NE i L) as O. unfold mid, half. cbn in *. rewrite Rabs_right by lra. split; field. }
  unfold obox_intersects. cbv zeta. rewrite andb_true_iff, !forallb_forall. split; intros (H1 & H2); split.
  - intros i L. specialize (H1 i ltac:(apply in_seq; lia)). rewrite moved_coordinate in H1 by exact L. cbn [fst snd] in H1. unfold low_gap, high_gap. destruct (Ends i L) as [-> ->]. destruct (Rlt_dec _ _) as [|C1]; [discriminate|]. destruct (Rlt_dec _ _) as [|C2] in H1; [discriminate|]. cbn in *. lra.
  - intros i L Z. specialize (H2 i ltac:(apply in_seq; lia)). destruct (vec_eq N (sat_axis N xf i) _) eqn:V; [apply zero_vec_spec in V; contradiction|]. rewrite moved_range, box_range in H2. unfold ranges_intersect in H2. cbn [fst snd] in H2.
    destruct (Rle_dec _ _) as [|C1]; [discriminate|]. destruct (Rle_dec _ _) as [|C2] in H2; [discriminate|]. unfold low_gap, high_gap. lra.
  - intros i I. apply in_seq in I. specialize (H1 i ltac:(lia)). rewrite moved_coordinate by lia. cbn [fst snd]. unfold low_gap, high_gap in H1. destruct (Ends i ltac:(lia)) as [Q1 Q2]. rewrite Q1, Q2 in H1. cbn in *. destruct (Rlt_dec _ _) as [C|_]; [lra|]. destruct (Rlt_dec _ _) as [C|_]; [lra|reflexivity].
  - intros i I. apply in_seq in I. destruct (vec_eq N (sat_axis N xf i) _) eqn:V; [reflexivity|]. specialize (H2 i ltac:(lia)). rewrite moved_range, box_range. unfold ranges_intersect. cbn [fst snd].
    assert (~ all_zero N (sat_axis N xf i)) as Z by (intros Z; apply zero_vec_spec in Z; congruence). specialize (H2 Z). unfold low_gap, high_gap in H2. destruct (Rle_dec _ _) as [C|_]; [lra|]. destruct (Rle_dec _ _) as [C|_]; [lra|reflexivity].
Qed.
Lemma gap_divides v : ~ all_zero N v -> 0 <= low_gap v \/ 0 <= high_gap v -> divided N A B.
Proof.
  intros Z [G|G].
  - exists v. split; [exact Z|]. intros x y Ax By. pose proof (moved_within N b0 xf v x Ax). pose proof (box_within N b1 v y By). unfold low_gap in G. lra.
  - exists (fun i => - v i). split; [intros Q; apply Z; intros i L; specialize (Q i L); cbv beta in Q; lra|]. intros x y Ax By. rewrite !inner_opp_r. pose proof (moved_within N b0 xf v x Ax). pose proof (box_within N b1 v y By). unfold high_gap in G. lra.
Qed.
Lemma axis_nonzero i : (i < N)%nat -> ~ all_zero N (axis i).
Proof. intros L Z. specialize (Z i L). unfold axis in Z. rewrite Nat.eqb_refl in Z. lra. Qed.
(** A negative answer. *)
Lemma test_divides : nonempty N b1 -> obox_intersects N b0 xf b1 = false -> divided N A B.
Proof.
  intros NE E. destruct (bounded_dec (fun i => 0 < low_gap (axis i) \/ 0 < high_gap (axis i))) with (K := N) as [(i & L & H)|H1].
  { intros k. destruct (Rlt_dec 0 (low_gap (axis k))); [left; now left|]. destruct (Rlt_dec 0 (high_gap (axis k))); [left; now right|right; tauto]. }
  { apply (gap_divides (axis i)); [now apply axis_nonzero|]. destruct H; [left|right]; lra. }
  destruct (bounded_dec (fun i => ~ all_zero N (sat_axis N xf i) /\ (0 <= low_gap (sat_axis N xf i) \/ 0 <= high_gap (sat_axis N xf i)))) with (K := sat_axes N) as [(i & L & Z & H)|H2].
  { intros k. destruct (zero_dec N (sat_axis N xf k)); [right; tauto|]. destruct (Rle_dec 0 (low_gap (sat_axis N xf k))); [left; tauto|]. destruct (Rle_dec 0 (high_gap (sat_axis N xf k))); [left; tauto|right; tauto]. }
  { exact (gap_divides _ Z H). }
  exfalso. assert (obox_intersects N b0 xf b1 = true); [|congruence]. apply (test_true NE). split.
  - intros i L. specialize (H1 i L). split; apply Rnot_lt_le; tauto.
  - intros i L Z. specialize (H2 i L). split; apply Rnot_le_lt; tauto.
Qed.
(** Directions: the axes and the columns. *)
Definition dirs (k : nat) : vec := if (k <? N)%nat then axis k else fun i => xmat xf i (k - N)%nat.
Definition sizes (k : nat) : R := if (k <? N)%nat then half b1 k else half b0 (k - N)%nat.
Definition apart_by : vec := fun i => mid b1 i - moved_mid N b0 xf i.
Lemma pull_is v k : (k < N)%nat -> pull v k = vinner N (fun i => xmat xf i k) v.
Proof. intros L. unfold xf_apply_inverse_normal. rewrite accum_sum, sum_rsum. unR. rewrite Rplus_0_l. reflexivity. Qed.
Hypotheses (N0 : nonempty N b0) (N1 : nonempty N b1).
Lemma half_pos b i : nonempty N b -> (i < N)%nat -> 0 <= half b i.
Proof. intros NE L. pose proof (proj1 (nonempty_R N b) NE i L) as O. unfold half. cbn in *. lra. Qed.
Lemma sizes_pos k : (k < 2 * N)%nat -> 0 <= sizes k.
Proof. intros L. unfold sizes. destruct (Nat.ltb_spec k N); apply half_pos; try assumption; lia. Qed.
Lemma rsum_two (f : nat -> R) : rsum (2 * N) f = rsum N f + rsum N (fun k => f (N + k)%nat).
Proof. replace (2 * N)%nat with (N + N)%nat by lia. apply rsum_split. Qed.
Lemma gain_is v : gain N (2 * N) dirs sizes apart_by v = low_gap v.
Proof.
  unfold gain, low_gap, apart_by, spread. rewrite inner_sub_l, rsum_two.
  rewrite (rsum_ext N (fun k => sizes k * Rabs (vinner N (dirs k) v)) (fun i => Rabs (half b1 i) * Rabs (v i))), (rsum_ext N (fun k => sizes (N + k)%nat * Rabs (vinner N (dirs (N + k)) v)) (fun i => Rabs (half b0 i) * Rabs (pull v i))); [ring| |].
  - intros k L. unfold sizes, dirs. destruct (Nat.ltb_spec (N + k) N); [lia|]. replace (N + k - N)%nat with k by lia. rewrite (pull_is v k L), (Rabs_right (half b0 k)); [reflexivity|]. apply Rle_ge, half_pos; assumption.
  - intros k L. unfold sizes, dirs. destruct (Nat.ltb_spec k N); [|lia]. rewrite inner_sym, inner_axis, (Rabs_right (half b1 k)) by exact L || (apply Rle_ge, half_pos; assumption). reflexivity.
Qed.
Lemma low_gap_scale v l : low_gap (fun i => l * v i) = if Rle_dec 0 l then l * low_gap v else - l * high_gap v.
Proof.
  assert (forall b (d : vec), spread N b (fun i => l * d i) = Rabs l * spread N b d) as Sp by (intros b d; unfold spread; rewrite <- rsum_scal; apply rsum_ext; intros i L; rewrite (Rabs_mult l); ring).
  assert (forall x, vinner N x (fun i => l * v i) = l * vinner N x v) as Sc by (intros x; rewrite inner_sym, inner_mul_l, inner_sym; reflexivity).
  assert (spread N b0 (pull (fun i => l * v i)) = Rabs l * spread N b0 (pull v)) as Sq.
  { rewrite <- Sp. unfold spread. apply rsum_ext. intros i L. rewrite !(pull_is _ i L), Sc. reflexivity. }
  unfold low_gap, high_gap. rewrite Sq, Sp, !Sc. destruct (Rle_dec 0 l); [rewrite (Rabs_right l) by lra|rewrite (Rabs_left l) by lra]; ring.
Qed.
(** Sets that are apart have a direction with a gap. *)
Lemma apart_gain : apart N A B -> exists v, 0 < gain N (2 * N) dirs sizes apart_by v.
Proof.
  intros Ap. apply Classical_Prop.NNPP. intros Nex. assert (forall v, gain N (2 * N) dirs sizes apart_by v <= 0) as G by (intros v; apply Rnot_lt_le; intros C; apply Nex; now exists v). clear Nex.
  destruct (zonotope N (2 * N) (fun k i => sizes k * dirs k i) apart_by) as (t & Tb & Te).
  { intros v. specialize (G v). unfold gain in G. unfold width. rewrite (rsum_ext _ _ (fun k => sizes k * Rabs (vinner N (dirs k) v))); [lra|]. intros k L. rewrite inner_mul_l, Rabs_mult, (Rabs_right (sizes k)); [reflexivity|]. apply Rle_ge. now apply sizes_pos. }
  set (q := fun k => mid b0 k + t (N + k)%nat * half b0 k). set (y := fun k => mid b1 k - t k * half b1 k).
  assert (forall (b : @rect R_ord) s k, nonempty N b -> (k < N)%nat -> -1 <= s <= 1 -> (lo b k : R) <= mid b k + s * half b k <= hi b k) as In.
  { intros b s k NE L S. pose proof (half_pos b k NE L) as P. pose proof (Rmult_le_pos (1 - s) _ ltac:(lra) P). pose proof (Rmult_le_pos (1 + s) _ ltac:(lra) P). unfold mid, half in *. cbn in *. lra. }
  apply (Ap (xf_apply N xf q) y).
  - apply image_apply. intros k L. apply In; [exact N0|exact L|]. apply Tb. lia.
  - intros k L. unfold y. replace (mid b1 k - t k * half b1 k) with (mid b1 k + (- t k) * half b1 k) by ring. apply In; [exact N1|exact L|]. specialize (Tb k ltac:(lia)). lra.
  - intros i L. specialize (Te i L). cbv beta in Te. rewrite rsum_two in Te. unfold apart_by in Te.
    rewrite (rsum_ext N (fun k => t k * (sizes k * dirs k i)) (fun k => if (k =? i)%nat then t k * half b1 k else 0)), (rsum_one N i (fun k => t k * half b1 k) L) in Te.
    2:{ intros k Lk. unfold sizes, dirs. destruct (Nat.ltb_spec k N); [|lia]. unfold axis. rewrite Nat.eqb_sym. destruct (k =? i)%nat; ring. }
    rewrite (rsum_ext N (fun k => t (N + k)%nat * (sizes (N + k)%nat * dirs (N + k)%nat i)) (fun k => xmat xf i k * (t (N + k)%nat * half b0 k))) in Te.
    2:{ intros k Lk. unfold sizes, dirs. destruct (Nat.ltb_spec (N + k) N); [lia|]. replace (N + k - N)%nat with k by lia. ring. }
    unfold moved_mid in Te. rewrite apply_is in Te |- * by exact L. unfold q, y. rewrite (rsum_ext N (fun c => xmat xf i c * (mid b0 c + t (N + c)%nat * half b0 c)) (fun c => xmat xf i c * mid b0 c + xmat xf i c * (t (N + c)%nat * half b0 c))) by (intros k Lk; unR; ring).
    rewrite rsum_plus. unR. lra.
Qed.
(** A direction with a gap that the test looks at. *)
Lemma test_gap v l : (exists i, (i < N)%nat /\ same N v (fun c => l * axis i c)) \/ (exists i, (i < sat_axes N)%nat /\ same N v (fun c => l * sat_axis N xf i c)) ->
  obox_intersects N b0 xf b1 = true -> low_gap v <= 0.
Proof.
  intros Cs E. apply (test_true N1) in E as [H1 H2]. assert (forall w, same N v w -> low_gap v = low_gap w) as Ext.
  { intros w W. unfold low_gap. rewrite (inner_ext N (mid b1) (mid b1) v w (same_refl N _) W), (inner_ext N (moved_mid N b0 xf) (moved_mid N b0 xf) v w (same_refl N _) W).
    assert (spread N b1 v = spread N b1 w) as -> by (apply rsum_ext; intros i L; now rewrite (W i L)).
    assert (spread N b0 (pull v) = spread N b0 (pull w)) as ->; [|reflexivity]. apply rsum_ext. intros i L. rewrite !(pull_is _ i L). now rewrite (inner_ext N (fun k => xmat xf k i) (fun k => xmat xf k i) v w (same_refl N _) W). }
  destruct Cs as [(i & L & V)|(i & L & V)].
  - rewrite (Ext _ V), (low_gap_scale (axis i) l). destruct (H1 i L) as [P Q]. destruct (Rle_dec 0 l); [pose proof (Rmult_le_pos l (- low_gap (axis i)) ltac:(lra) ltac:(lra))|pose proof (Rmult_le_pos (- l) (- high_gap (axis i)) ltac:(lra) ltac:(lra))]; lra.
  - destruct (zero_dec N (sat_axis N xf i)) as [Z|Z].
    + assert (all_zero N v) as Zv by (intros c Lc; rewrite (V c Lc), (Z c Lc); ring). rewrite <- gain_is. apply Rnot_lt_le. intros C. now apply gain_nonzero in C.
    + rewrite (Ext _ V), (low_gap_scale (sat_axis N xf i) l). destruct (H2 i L Z) as [P Q]. destruct (Rle_dec 0 l); [pose proof (Rmult_le_pos l (- low_gap (sat_axis N xf i)) ltac:(lra) ltac:(lra))|pose proof (Rmult_le_pos (- l) (- high_gap (sat_axis N xf i)) ltac:(lra) ltac:(lra))]; lra.
Qed.
Hypothesis S : sound N xf.
Lemma expand v i : (i < N)%nat -> v i = rsum N (fun l => vinner N (fun j => xmat xf j l) v * xinv xf l i).
Proof.
  intros L. destruct S as (_ & Ai & Iv). transitivity (rsum N (fun l => rsum N (fun j => v j * (xmat xf j l * xinv xf l i)))).
  2:{ apply rsum_ext. intros l Ll. unfold VecNSpec.inner. rewrite (Rmult_comm (rsum _ _)), <- rsum_scal. apply rsum_ext. intros j Lj. unR. ring. }
  rewrite rsum_swap. rewrite (rsum_ext N _ (fun j => if (j =? i)%nat then v j else 0)); [symmetry; now apply (rsum_one N i v)|].
  intros j Lj. rewrite rsum_scal. destruct (Iv j i ltac:(lia) ltac:(lia)) as [M _]. unfold mmul in M. rewrite sum_rsum in M. cbn [rsum] in M. rewrite (Ai i ltac:(lia)) in M. unfold delta in M. destruct (Nat.eqb_spec N i) as [|_]; [lia|]. 
  assert (rsum N (fun l => (xmat xf j l : R) * xinv xf l i) + xmat xf j N * 0 = if (j =? i)%nat then 1 else 0) as M' by (destruct (j =? i)%nat; exact M).
  rewrite Rmult_0_r, Rplus_0_r in M'. rewrite M'. destruct (j =? i)%nat; ring.
Qed.
End Test.
(** ** Completeness *)
Lemma sat_normal N (xf : xformR) i c : (N = 2 \/ N = 3)%nat -> (i < N)%nat -> sat_axis N xf i c = xinv xf i c.
Proof.
  intros LN L. unfold sat_axis. replace ((N =? 2)%nat || (i <? 3)%nat) with true.
  2:{ destruct LN as [->| ->]; [reflexivity|]. destruct (Nat.ltb_spec i 3); [reflexivity|lia]. }
  unfold xf_apply_normal. rewrite accum_sum, sum_rsum. unR. rewrite Rplus_0_l. rewrite (rsum_ext N _ (fun k => if (k =? i)%nat then xinv xf k c else 0)); [exact (rsum_one N i (fun k => xinv xf k c) L)|].
  intros k Lk. unfold one_at. destruct (k =? i)%nat; ring.
Qed.
Section Complete.
Variables (b0 b1 : @rect R_ord) (xf : xformR).
Lemma complete2 : nonempty 2 b0 -> nonempty 2 b1 -> sound 2 xf -> apart 2 (image 2 (xmat xf) (in_box 2 b0)) (in_box 2 b1) -> obox_intersects 2 b0 xf b1 = false.
Proof.
  intros N0 N1 S Ap. destruct (obox_intersects 2 b0 xf b1) eqn:E; [exfalso|reflexivity]. destruct (apart_gain 2 b0 b1 xf N0 N1 Ap) as (v0 & G0).
  destruct (rays2 (2 * 2) (dirs 2 xf) (sizes 2 b0 b1) (apart_by 2 b0 b1 xf) v0 ltac:(lia)) as (v & G & k & Lk & _ & T); [|exact G0|].
  { intros k L. unfold dirs. destruct (Nat.ltb_spec k 2); [reflexivity|lia]. }
  rewrite (gain_is 2 b0 b1 xf N0 N1) in G. pose proof (fun l => test_gap 2 b0 b1 xf N0 N1 v l) as Tg.
  assert (forall l, ~ ((exists i, (i < 2)%nat /\ same 2 v (fun c => l * axis i c)) \/ (exists i, (i < sat_axes 2)%nat /\ same 2 v (fun c => l * sat_axis 2 xf i c)))) as No by (intros l C; specialize (Tg l C E); lra). clear Tg.
  assert (forall i, (i < 2)%nat -> v i = vinner 2 (fun j => xmat xf j 0%nat) v * xinv xf 0%nat i + vinner 2 (fun j => xmat xf j 1%nat) v * xinv xf 1%nat i) as Ex.
  { intros i L. rewrite (expand 2 xf S v i L). cbn [rsum]. ring. }
  assert (k = 0 \/ k = 1 \/ k = 2 \/ k = 3)%nat as [->|[->|[->| ->]]] by lia; unfold dirs in T; cbn [Nat.ltb Nat.leb Nat.sub] in T.
  - rewrite inner_sym, inner_axis in T by lia. apply (No (v 1%nat)). left. exists 1%nat. split; [lia|]. intros i L. unfold axis. assert (i = 0 \/ i = 1)%nat as [->| ->] by lia; cbn; lra.
  - rewrite inner_sym, inner_axis in T by lia. apply (No (v 0%nat)). left. exists 0%nat. split; [lia|]. intros i L. unfold axis. assert (i = 0 \/ i = 1)%nat as [->| ->] by lia; cbn; lra.
  - eapply No. right. exists 1%nat. split; [cbn; lia|]. intros i L. rewrite (Ex i L), T, Rmult_0_l, Rplus_0_l, sat_normal by lia. reflexivity.
  - eapply No. right. exists 0%nat. split; [cbn; lia|]. intros i L. rewrite (Ex i L), T, Rmult_0_l, Rplus_0_r, sat_normal by lia. reflexivity.
Qed.
Lemma third a b : (a < 3)%nat -> (b < 3)%nat -> a <> b -> exists k, (k < 3)%nat /\ forall i, (i < 3)%nat -> i = a \/ i = b \/ i = k.
Proof. intros A B D. exists (3 - a - b)%nat. split; [lia|]. intros i L. lia. Qed.
Lemma cross_self N a : all_zero N (cross_vec a a).
Proof. intros i _. unfold cross_vec. destruct i as [|[|]]; ring. Qed.
Lemma complete3 : nonempty 3 b0 -> nonempty 3 b1 -> sound 3 xf -> apart 3 (image 3 (xmat xf) (in_box 3 b0)) (in_box 3 b1) -> obox_intersects 3 b0 xf b1 = false.
Proof.
  intros N0 N1 S Ap. destruct (obox_intersects 3 b0 xf b1) eqn:E; [exfalso|reflexivity]. destruct (apart_gain 3 b0 b1 xf N0 N1 Ap) as (v0 & G0).
  destruct (rays3 (2 * 3) (dirs 3 xf) (sizes 3 b0 b1) (apart_by 3 b0 b1 xf) v0 ltac:(lia)) as (v & G & a & b & La & Lb & Nz & Ta & Tb); [|exact G0|].
  { intros k L. unfold dirs. destruct (Nat.ltb_spec k 3); [reflexivity|lia]. }
  rewrite (gain_is 3 b0 b1 xf N0 N1) in G. pose proof (fun l => test_gap 3 b0 b1 xf N0 N1 v l) as Tg.
  assert (forall l, ~ ((exists i, (i < 3)%nat /\ same 3 v (fun c => l * axis i c)) \/ (exists i, (i < sat_axes 3)%nat /\ same 3 v (fun c => l * sat_axis 3 xf i c)))) as No by (intros l C; specialize (Tg l C E); lra). clear Tg.
  assert (forall p q, (p < 3)%nat -> (3 <= q < 6)%nat -> forall l, ~ same 3 v (fun c => l * cross_vec (axis p) (fun i => xmat xf i (q - 3)%nat) c)) as Mixed.
  { intros p q Lp Lq l V. apply (No l). right. exists (3 * (p + 1) + (q - 3))%nat. split; [change (sat_axes 3) with 12%nat; lia|]. intros i L. rewrite (V i L). f_equal. unfold sat_axis.
    destruct (Nat.ltb_spec (3 * (p + 1) + (q - 3)) 3); [lia|]. cbn [Nat.eqb orb]. rewrite <- (Nat.div_unique (3 * (p + 1) + (q - 3)) 3 (p + 1) (q - 3)), <- (Nat.mod_unique (3 * (p + 1) + (q - 3)) 3 (p + 1) (q - 3)) by lia. replace (p + 1 - 1)%nat with p by lia. reflexivity. }
  unfold dirs in Ta, Tb, Nz. destruct (Nat.ltb_spec a 3) as [A|A], (Nat.ltb_spec b 3) as [B|B].
  - rewrite inner_sym, inner_axis in Ta by exact A. rewrite inner_sym, inner_axis in Tb by exact B. destruct (Nat.eq_dec a b) as [->|D]; [apply Nz, cross_self|]. destruct (third a b A B D) as (k & Lk & Hk).
    apply (No (v k)). left. exists k. split; [exact Lk|]. intros i L. unfold axis. destruct (Nat.eqb_spec i k) as [->|]; [ring|]. destruct (Hk i L) as [->|[->| ->]]; [lra|lra|contradiction].
  - destruct (cross_parallel _ _ v Nz Ta Tb) as (l & V). exact (Mixed a b A ltac:(lia) l V).
  - destruct (cross_parallel _ _ v Nz Ta Tb) as (l & V). apply (Mixed b a B ltac:(lia) (- l)). intros i L. rewrite (V i L). unfold cross_vec. destruct i as [|[|]]; ring.
  - destruct (Nat.eq_dec a b) as [->|D]; [apply Nz, cross_self|]. destruct (third (a - 3) (b - 3) ltac:(lia) ltac:(lia) ltac:(lia)) as (k & Lk & Hk).
    apply (No (vinner 3 (fun j => xmat xf j k) v)). right. exists k. split; [change (sat_axes 3) with 12%nat; lia|]. intros i L. rewrite (expand 3 xf S v i L), sat_normal by lia.
    rewrite (rsum_ext 3 _ (fun l => if (l =? k)%nat then vinner 3 (fun j => xmat xf j l) v * xinv xf l i else 0)); [exact (rsum_one 3 k (fun l => vinner 3 (fun j => xmat xf j l) v * xinv xf l i) Lk)|].
    intros l Ll. destruct (Nat.eqb_spec l k) as [->|]; [reflexivity|]. destruct (Hk l Ll) as [->|[->| ->]]; [rewrite Ta; ring|rewrite Tb; ring|contradiction].
Qed.
End Complete.
Lemma divided_overlap N A B : divided N A B -> ~ overlap N A B.
Proof.
  intros (v & Z & H) (c & r & P & O). assert (0 < VecNSpec.length N v) as Pl. { apply Rnot_le_lt. intros C. pose proof (length_nonneg N v). apply Z. apply inner_zero. rewrite <- length_sq. replace (VecNSpec.length N v) with 0 by lra. ring. }
  set (s := r / VecNSpec.length N v). assert (0 < s) as Ps by now apply Rdiv_lt_0_compat. assert (ball N c r (fun i => c i + s * v i)) as B1.
  { unfold ball. apply (proj2 (le_sq _ r (distance_nonneg _ _ _) (Rlt_le _ _ P))). rewrite distance_sq, (inner_ext N _ (fun i => s * v i) _ (fun i => s * v i)) by (intros i _; ring). rewrite inner_mul_l, inner_sym, inner_mul_l, <- length_sq. right. unfold s. field. lra. }
  assert (ball N c r c) as B2. { unfold ball. apply (proj2 (le_sq _ r (distance_nonneg _ _ _) (Rlt_le _ _ P))). rewrite distance_sq, (inner_ext N _ (fun _ => 0) _ (fun _ => 0)) by (intros i _; ring). rewrite inner_zero_l by (intros i _; reflexivity). pose proof (Rmult_lt_0_compat r r P P). lra. }
  specialize (H _ _ (proj1 (O _ B1)) (proj2 (O _ B2))). rewrite inner_add_mul in H. rewrite <- length_sq in H. pose proof (Rmult_lt_0_compat s _ Ps (Rmult_lt_0_compat _ _ Pl Pl)). lra.
Qed.
(** ** Two moved boxes *)
Section Both.
Variables (N : nat) (b0 b1 : @rect R_ord) (xf0 xf1 : xformR).
Hypotheses (S0 : sound N xf0) (S1 : sound N xf1).
Notation A := (image N (xmat xf0) (in_box N b0)).
Notation B := (image N (xmat xf1) (in_box N b1)).
Notation B' := (image N (xmat (xf_div N xf1 xf0)) (in_box N b1)).
Lemma div_sound : sound N (xf_div N xf1 xf0).
Proof. exact (sound_then R_field N xf1 (xf_inverse xf0) S1 (sound_inverse R_field N xf0 S0)). Qed.
Lemma in_frame p : B' p <-> B (xf_apply N xf0 p).
Proof.
  eapply iff_trans; [exact (image_then N xf1 (xf_inverse xf0) (in_box N b1) p S1 (sound_inverse R_field N xf0 S0) (in_box_respects N b1))|].
  apply image_inverse; [exact S0|]. apply image_respects.
Qed.
Lemma frame_apart : apart N A B -> apart N B' (in_box N b0).
Proof.
  intros Ap x y Bx Ay E. apply (Ap (xf_apply N xf0 y) (xf_apply N xf0 x)); [now apply image_apply|now apply in_frame|]. apply (RayXfProofs.apply_ext N xf0). intros i L. symmetry. now apply E.
Qed.
Lemma frame_divided : divided N B' (in_box N b0) -> divided N B A.
Proof.
  intros (v & Z & H). pose proof (sound_inverse R_field N xf0 S0) as Si. exists (xf_apply_inverse_normal N (xf_inverse xf0) v). split; [now apply normal_nonzero|].
  intros x y Bx Ay. pose proof (fun p => moved_inner N (xf_inverse xf0) p v) as M. change (xf_apply N (xf_inverse xf0)) with (xf_apply_inverse N xf0) in M. 
  assert (vinner N (xf_apply_inverse N xf0 x) v <= vinner N (xf_apply_inverse N xf0 y) v) as G; [|rewrite !M in G; lra].
  apply H.
  - apply in_frame. apply (image_respects N xf1 (in_box N b1) x); [|exact Bx]. intros i L. symmetry. exact (proj2 (sound_round_trips R_field N xf0 S0 x) i L).
  - now apply (image_iff N xf0 S0 (in_box N b0) (in_box_respects N b0)).
Qed.
End Both.
Lemma divided_sym N A B : divided N A B -> divided N B A.
Proof.
  intros (v & Z & H). exists (fun i => - v i). split; [intros Q; apply Z; intros i L; specialize (Q i L); cbv beta in Q; lra|]. intros x y Bx Ay. rewrite !inner_opp_r. specialize (H y x Ay Bx). lra.
Qed.
(** ** Touching boxes *)
Lemma gap_attained N b0 b1 (xf : xformR) v : nonempty N b0 -> nonempty N b1 -> (forall x y, image N (xmat xf) (in_box N b0) x -> in_box N b1 y -> vinner N x v <= vinner N y v) -> 0 <= low_gap N b0 b1 xf v.
Proof.
  intros N0 N1 H. destruct (corner_attain N b0 (xf_apply_inverse_normal N xf v)) as ((c & _ & Ec) & _). destruct (corner_attain N b1 v) as (_ & (c' & _ & Ec')).
  specialize (H (xf_apply N xf (box_corner b0 c)) (box_corner b1 c') (image_apply N xf _ _ (corner_in N b0 N0 c)) (corner_in N b1 N1 c')). unfold low_gap, moved_mid, spread. rewrite moved_inner in H |- *. lra.
Qed.
Lemma face_touch N b0 b1 (xf : xformR) i : (N = 2 \/ N = 3)%nat -> sound N xf -> nonempty N b0 -> nonempty N b1 -> (i < N)%nat ->
  (forall x y, image N (xmat xf) (in_box N b0) x -> in_box N b1 y -> vinner N x (xinv xf i) <= vinner N y (xinv xf i)) -> obox_intersects N b0 xf b1 = false.
Proof.
  intros LN S N0 N1 L H. destruct (obox_intersects N b0 xf b1) eqn:E; [exfalso|reflexivity]. apply (test_true N b0 b1 xf N1) in E as [_ E].
  assert (same N (sat_axis N xf i) (xinv xf i)) as Sa by (intros c Lc; now apply sat_normal).
  destruct (E i) as [G _]; [unfold sat_axes; destruct LN as [->| ->]; cbn; lia| |].
  - intros Z. apply (row_nonzero N (xf_inverse xf) (sound_inverse R_field N xf S) i L). intros c Lc. cbn [xf_inverse xmat]. rewrite <- (Sa c Lc). now apply Z.
  - pose proof (gap_attained N b0 b1 xf (sat_axis N xf i) N0 N1) as Q. apply Rlt_not_le in G. apply G, Q. intros x y Ax By. rewrite (inner_ext N x x _ _ (same_refl N x) Sa), (inner_ext N y y _ _ (same_refl N y) Sa). now apply H.
Qed.
Lemma identity_image N X p : respects N X -> (image N (xmat (@xf_identity R_field)) X p <-> X p).
Proof.
  intros RX. assert (forall q i, (i < N)%nat -> rsum N (fun c => xmat (@xf_identity R_field) i c * q c) + xmat (@xf_identity R_field) i N = q i) as Id.
  { intros q i L. cbn [xf_identity xmat]. unfold delta. destruct (Nat.eqb_spec i N) as [|_]; [lia|]. unR. rewrite (rsum_ext N _ (fun c => if (c =? i)%nat then q c else 0)), (rsum_one N i q L); [ring|]. intros c Lc. rewrite Nat.eqb_sym. destruct (c =? i)%nat; unR; ring. }
  split.
  - intros (q & Q & E). apply (RX q); [|exact Q]. intros i L. rewrite (E i L). symmetry. now apply Id.
  - intros P. exists p. split; [exact P|]. intros i L. symmetry. now apply Id.
Qed.
Lemma touching N (b0 b1 : @rect R_ord) i : (N = 2 \/ N = 3)%nat -> nonempty N b0 -> nonempty N b1 -> (forall j, (j < N)%nat -> (lo b0 j : R) <= hi b1 j /\ (lo b1 j : R) <= hi b0 j) -> (i < N)%nat -> (hi b0 i : R) = lo b1 i ->
  ~ apart N (in_box N b0) (in_box N b1) /\ obox_intersects N b0 (@xf_identity R_field) b1 = false.
Proof.
  intros LN N0 N1 Ov L E. split.
  - intros Ap. set (p := fun j => Rmax (lo b0 j) (lo b1 j)). apply (Ap p p); [| |apply same_refl]; intros j J; destruct (Ov j J) as [O1 O2]; pose proof (proj1 (nonempty_R N b0) N0 j J) as P0; pose proof (proj1 (nonempty_R N b1) N1 j J) as P1; unfold p; cbn in *;
      (split; [apply Rmax_l || apply Rmax_r|apply Rmax_lub; assumption]).
  - apply (face_touch N b0 b1 _ i LN (sound_identity R_field N) N0 N1 L). intros x y Ax By. apply identity_image in Ax; [|apply in_box_respects].
    assert (same N (xinv (@xf_identity R_field) i) (axis i)) as Sa by (intros c Lc; cbn [xf_identity xinv]; unfold delta, axis; rewrite Nat.eqb_sym; destruct (c =? i)%nat; reflexivity).
    rewrite (inner_ext N x x _ _ (same_refl N x) Sa), (inner_ext N y y _ _ (same_refl N y) Sa), !inner_axis by exact L. specialize (Ax i L). specialize (By i L). cbn in *. lra.
Qed.
(** ** Corners that swap sides *)
Lemma flip_corner N b c : exists c', (c' < 2 ^ N)%nat /\ same N (box_corner (mkRect (hi b) (lo b)) c) (box_corner b c').
Proof. destruct (bits_exist N (fun j => negb (Nat.testbit c j))) as (c' & L & B). exists c'. split; [exact L|]. intros i I. unfold box_corner. cbn [lo hi]. rewrite (B i I). now destruct (Nat.testbit c i). Qed.
Lemma flip_same N b c : exists c', (c' < 2 ^ N)%nat /\ same N (box_corner b c) (box_corner (mkRect (hi b) (lo b)) c').
Proof. destruct (bits_exist N (fun j => negb (Nat.testbit c j))) as (c' & L & B). exists c'. split; [exact L|]. intros i I. unfold box_corner. cbn [lo hi]. rewrite (B i I). now destruct (Nat.testbit c i). Qed.
Lemma forallb_ext_in {X} (f g : X -> bool) l : (forall x, In x l -> f x = g x) -> forallb f l = forallb g l.
Proof. induction l as [|a l IH]; intros H; [reflexivity|]. cbn. rewrite (H a (or_introl eq_refl)), IH; [reflexivity|]. intros x I. apply H. now right. Qed.
Lemma flipped N b0 (xf : xformR) b1 : obox_intersects N (mkRect (hi b0) (lo b0)) xf b1 = obox_intersects N b0 xf b1.
Proof.
  assert (forall f : vec -> R, (forall p q, same N p q -> f p = f q) -> corner_range (2 ^ N) (fun c => f (xf_apply N xf (box_corner (mkRect (hi b0) (lo b0)) c))) = corner_range (2 ^ N) (fun c => f (xf_apply N xf (box_corner b0 c)))) as R.
  { intros f F. apply range_same; [apply pow2_pos| |]; intros c _; [destruct (flip_corner N b0 c) as (c' & L & Sc)|destruct (flip_same N b0 c) as (c' & L & Sc)]; exists c'; (split; [exact L|]); apply F, (RayXfProofs.apply_ext N xf); exact Sc. }
  unfold obox_intersects. cbv zeta. f_equal.
  - apply forallb_ext_in. intros i I. apply in_seq in I. rewrite (R (fun p => p i)); [reflexivity|]. intros p q E. apply E. lia.
  - apply forallb_ext_in. intros i I. destruct (vec_eq N _ _); [reflexivity|]. rewrite (R (fun p => dot N (sat_axis N xf i) p)); [reflexivity|]. intros p q E. rewrite !VecNProofs.dot_is. exact (inner_ext N _ _ p q (same_refl N _) E).
Qed.
(** ** A box on its corner *)
Lemma turned_sound : sound 2 turned.
Proof.
  assert (forall i, (i < 3)%nat -> i = 0 \/ i = 1 \/ i = 2)%nat as Cs by (intros; lia). split; [|split].
  - intros c L. destruct (Cs c ltac:(lia)) as [->|[->| ->]]; reflexivity.
  - intros c L. destruct (Cs c ltac:(lia)) as [->|[->| ->]]; reflexivity.
  - intros r c Lr Lc. unfold mmul. rewrite !sum_rsum. cbn [rsum]. destruct (Cs r ltac:(lia)) as [->|[->| ->]]; destruct (Cs c ltac:(lia)) as [->|[->| ->]]; unfold turned, mat3, delta; cbn; split; lra.
Qed.
Lemma turned_gaps v : low_gap 2 unit_box left_box turned v = (- v 0%nat / 2 - (/ 2 * Rabs (v 0%nat) + Rabs (v 1%nat))) - (v 0%nat + (/ 2 * Rabs (v 0%nat + v 1%nat) + / 2 * Rabs (v 0%nat - v 1%nat))) /\
  high_gap 2 unit_box left_box turned v = (v 0%nat - (/ 2 * Rabs (v 0%nat + v 1%nat) + / 2 * Rabs (v 0%nat - v 1%nat))) - (- v 0%nat / 2 + (/ 2 * Rabs (v 0%nat) + Rabs (v 1%nat))).
Proof.
  assert (vinner 2 (mid left_box) v = - v 0%nat / 2) as E1 by (rewrite inner2; unfold mid, left_box; cbn; field).
  assert (vinner 2 (moved_mid 2 unit_box turned) v = v 0%nat) as E2. { rewrite inner2. unfold moved_mid. rewrite !apply_is by lia. unfold mid, unit_box, turned, mat3. cbn. field. }
  assert (spread 2 left_box v = / 2 * Rabs (v 0%nat) + Rabs (v 1%nat)) as E3. { unfold spread. cbn [rsum]. unfold half, left_box. cbn. rewrite (Rabs_right ((0 - -1) / 2)), (Rabs_right ((1 - -1) / 2)) by lra. field. }
  assert (spread 2 unit_box (xf_apply_inverse_normal 2 turned v) = / 2 * Rabs (v 0%nat + v 1%nat) + / 2 * Rabs (v 0%nat - v 1%nat)) as E4.
  { unfold spread. cbn [rsum]. rewrite !pull_is, !inner2 by lia. unfold half, unit_box, turned, mat3. cbn. rewrite (Rabs_right ((1 - 0) / 2)) by lra. replace (1 * v 0%nat + -1 * v 1%nat) with (v 0%nat - v 1%nat) by ring. replace (1 * v 0%nat + 1 * v 1%nat) with (v 0%nat + v 1%nat) by ring. field. }
  unfold low_gap, high_gap. rewrite E1, E2, E3, E4. split; ring.
Qed.
Lemma box_nonempty N (b : @rect R_ord) : (forall i, (i < N)%nat -> (lo b i : R) <= hi b i) -> nonempty N b.
Proof. apply nonempty_R. Qed.
Lemma left_nonempty : nonempty 2 left_box.
Proof. apply box_nonempty. intros i L. unfold left_box. cbn. destruct (i =? 0)%nat; lra. Qed.
Lemma unit_nonempty N : nonempty N unit_box.
Proof. apply box_nonempty. intros i L. cbn. lra. Qed.
Lemma turned_true : obox_intersects 2 unit_box turned left_box = true.
Proof.
  apply (test_true 2 unit_box left_box turned left_nonempty). split.
  - intros i L. destruct (turned_gaps (axis i)) as [-> ->]. assert (i = 0 \/ i = 1)%nat as [->| ->] by lia; unfold axis; cbn [Nat.eqb].
    + rewrite !Rplus_0_r, !Rminus_0_r, Rabs_R1, Rabs_R0. lra.
    + replace (0 - 1) with (- (1)) by ring. rewrite !Rplus_0_l, Rabs_Ropp, Rabs_R1, Rabs_R0. lra.
  - intros i L _. destruct (turned_gaps (sat_axis 2 turned i)) as [-> ->]. rewrite !sat_normal by (auto; cbn in L; lia). change (sat_axes 2) with 2%nat in L. assert (i = 0 \/ i = 1)%nat as [->| ->] by lia; unfold turned, mat3; cbn.
    + rewrite (Rabs_right (/ 2 + / 2)), (Rabs_right (/ 2)) by lra. replace (/ 2 - / 2) with 0 by ring. rewrite Rabs_R0. lra.
    + rewrite (Rabs_left (- / 2)), (Rabs_right (/ 2)) by lra. replace (/ 2 + - / 2) with 0 by ring. replace (/ 2 - - / 2) with 1 by field. rewrite Rabs_R0, Rabs_R1. lra.
Qed.
(** The same boxes, the straight one moved by the identity. *)
Lemma turned_false : oboxes_intersect 2 unit_box turned left_box (@xf_identity R_field) = false.
Proof.
  unfold oboxes_intersect, unorient_again. cbv zeta. cbn [fst snd]. pose proof (div_sound 2 turned (@xf_identity R_field) turned_sound (sound_identity R_field 2)) as S.
  apply (face_touch 2 left_box unit_box _ 0 ltac:(auto) S left_nonempty (unit_nonempty 2) ltac:(lia)). intros x y Bx Ay.
  apply (in_frame 2 left_box turned (@xf_identity R_field) turned_sound (sound_identity R_field 2)) in Bx. apply identity_image in Bx; [|apply in_box_respects].
  specialize (Bx 0%nat ltac:(lia)). rewrite apply_is in Bx by lia. unfold turned, mat3 in Bx. cbn in Bx. rewrite !inner2.
  assert (forall c, (c < 2)%nat -> (xinv (xf_div 2 (@xf_identity R_field) turned) 0%nat c : R) = 1) as Ix.
  { intros c L. assert (c = 0 \/ c = 1)%nat as [->| ->] by lia; cbn; unfold mat3; cbn; ring. }
  rewrite !Ix by lia. pose proof (Ay 0%nat ltac:(lia)) as A0. pose proof (Ay 1%nat ltac:(lia)) as A1. cbn in A0, A1. lra.
Qed.
Lemma turned_touch : ~ apart 2 (image 2 (xmat turned) (in_box 2 unit_box)) (in_box 2 left_box).
Proof.
  intros Ap. apply (Ap (xf_apply 2 turned (fun _ => 0)) (fun _ => 0)).
  - apply image_apply. intros i _. cbn. lra.
  - intros i L. unfold left_box. cbn. destruct (i =? 0)%nat; lra.
  - intros i L. rewrite apply_is by exact L. assert (i = 0 \/ i = 1)%nat as [->| ->] by lia; unfold turned, mat3; cbn; ring.
Qed.
