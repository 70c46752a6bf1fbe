From Coq Require Import Reals Lra Lia Arith List Bool.
From Verif Require Import Fld RFld RLinSpec PermModel OrthoModel CholProofs.
Import ListNotations.
Open Scope R_scope.
Local Notation rsum := (@sum R_field).
Ltac rr := unR; ring.

Lemma vdot_eq N u v : vdot N u v = rdot N u v.
Proof.
  unfold vdot, rdot. induction N; [reflexivity|]. rewrite seq_S, fold_left_app, IHN, rsum_S. cbn. ring.
Qed.
Lemma rdot_sym N u v : rdot N u v = rdot N v u.
Proof. apply rsum_ext. intros. ring. Qed.
Lemma rdot_ext N u u' v v' : (forall k, (k < N)%nat -> u k = u' k) -> (forall k, (k < N)%nat -> v k = v' k) -> rdot N u v = rdot N u' v'.
Proof. intros H H'. apply rsum_ext. intros. now rewrite H, H'. Qed.
Lemma rdot_add N u v w : rdot N (fun k => u k + v k) w = rdot N u w + rdot N v w.
Proof. unfold rdot. rewrite <- rsum_add. apply rsum_ext. intros. ring. Qed.
Lemma rdot_scale N a u w : rdot N (fun k => a * u k) w = a * rdot N u w.
Proof. unfold rdot. rewrite <- rsum_scale. apply rsum_ext. intros. ring. Qed.
Lemma rdot_axpy N x c a w : rdot N (fun k => x k - c * a k) w = rdot N x w - c * rdot N a w.
Proof.
  rewrite (rdot_ext N _ (fun k => x k + (- c) * a k) w w); [|intros; ring|reflexivity]. rewrite rdot_add, rdot_scale. ring.
Qed.
Lemma rdot_zero N u v : (forall k, (k < N)%nat -> v k = 0) -> rdot N u v = 0.
Proof. intros H. apply rsum_zero. intros i Hi. rewrite H by assumption. ring. Qed.
Lemma rdot_self N v : (forall k, (k < N)%nat -> v k = 0) \/ 0 < rdot N v v.
Proof. exact (rsum_sq N v). Qed.
Lemma rdot_nonneg N v : 0 <= rdot N v v.
Proof. destruct (rdot_self N v) as [H|H]; [rewrite (rdot_zero N v v H); lra|lra]. Qed.
Lemma rdot_self_zero N v : rdot N v v = 0 -> forall k, (k < N)%nat -> v k = 0.
Proof. intros E. destruct (rdot_self N v) as [H|H]; [assumption|lra]. Qed.
Lemma rdot_comb N p (t : nat -> R) V w : rdot N (fun k => rsum p (fun j => t j * V j k)) w = rsum p (fun j => t j * rdot N (V j) w).
Proof.
  unfold rdot. transitivity (rsum N (fun i => rsum p (fun j => t j * (V j i * w i)))).
  - apply rsum_ext. intros i _. rewrite (Rmult_comm _ (w i)), <- rsum_scale. apply rsum_ext. intros. ring.
  - rewrite rsum_swap. apply rsum_ext. intros. apply rsum_scale.
Qed.
(** Everything orthogonal to the generators is orthogonal to the span. *)
Lemma span_orthogonal N p V x y : in_span N p V y -> (forall j, (j < p)%nat -> rdot N x (V j) = 0) -> rdot N x y = 0.
Proof.
  intros [t Ht] H. rewrite rdot_sym, (rdot_ext N y (fun k => rsum p (fun j => t j * V j k)) x x) by (intros; auto).
  rewrite rdot_comb. apply rsum_zero. intros j Hj. rewrite rdot_sym, H by assumption. ring.
Qed.

(** * Projection *)
Lemma project_on_spec N x a : exists c, (forall k, project_on N x a k = c * a k) /\ rdot N (fun k => x k - c * a k) a = 0.
Proof.
  unfold project_on. rewrite !vdot_eq. destruct (Req_EM_T (rdot N a a) 0) as [E|E].
  - exists 1. split; [intros; ring|]. apply rdot_zero. exact (rdot_self_zero N a E).
  - exists (rdot N x a / rdot N a a). split; [intros; field; exact E|]. rewrite rdot_axpy. field. exact E.
Qed.

(** * Elementary row operations and spans *)
Lemma rsum_pick p i (x : R) : (i < p)%nat -> rsum p (fun l => if (l =? i)%nat then x else 0) = x.
Proof.
  induction p; intros H; [lia|]. rewrite rsum_S. destruct (Nat.eqb_spec p i) as [->|].
  - rewrite rsum_zero; [rr|]. intros l Hl. destruct (Nat.eqb_spec l i); [lia|reflexivity].
  - rewrite IHp by lia. rr.
Qed.
Definition retarget (i j : nat) (c : R) (t : nat -> R) : nat -> R := fun l => if (l =? j)%nat then t l - c * t i else t l.
(** B' is B with c times vector j taken from vector i. *)
Definition axpy_of N i j c (B B' : nat -> nat -> R) : Prop :=
  forall l k, (k < N)%nat -> B' l k = if (l =? i)%nat then B i k - c * B j k else B l k.
Lemma axpy_comb N p i j c B B' t k : axpy_of N i j c B B' -> (i < p)%nat -> (j < p)%nat -> (k < N)%nat ->
  rsum p (fun l => t l * B' l k) = rsum p (fun l => retarget i j c t l * B l k).
Proof.
  intros H Hi Hj Hk.
  transitivity (rsum p (fun l => t l * B l k) + - (t i * c * B j k)).
  - rewrite <- (rsum_pick p i (- (t i * c * B j k)) Hi), <- rsum_add. apply rsum_ext. intros l _. rewrite (H l k Hk).
    destruct (Nat.eqb_spec l i) as [->|]; ring.
  - rewrite <- (rsum_pick p j (- (t i * c * B j k)) Hj), <- rsum_add. apply rsum_ext. intros l _. unfold retarget.
    destruct (Nat.eqb_spec l j) as [->|]; ring.
Qed.
Lemma axpy_back N i j c B B' : i <> j -> axpy_of N i j c B B' -> axpy_of N i j (- c) B' B.
Proof.
  intros D H l k Hk. rewrite !(H _ k Hk), Nat.eqb_refl. destruct (Nat.eqb_spec j i); [congruence|].
  destruct (Nat.eqb_spec l i) as [->|]; [ring|reflexivity].
Qed.
Lemma span_ext N p B B' x : (forall l k, (l < p)%nat -> (k < N)%nat -> B' l k = B l k) -> in_span N p B x -> in_span N p B' x.
Proof. intros H [t Ht]. exists t. intros k Hk. rewrite (Ht k Hk). apply rsum_ext. intros l Hl. now rewrite H. Qed.
Lemma axpy_span1 N p i j c B B' x : (j < i)%nat -> axpy_of N i j c B B' -> in_span N p B' x -> in_span N p B x.
Proof.
  intros L H. destruct (le_lt_dec p i) as [P|P].
  - apply span_ext. intros l k Hl Hk. rewrite (H l k Hk). destruct (Nat.eqb_spec l i); [lia|reflexivity].
  - intros [t Ht]. exists (retarget i j c t). intros k Hk. rewrite (Ht k Hk). apply (axpy_comb N); auto; lia.
Qed.
Lemma axpy_span N p i j c B B' x : (j < i)%nat -> axpy_of N i j c B B' -> (in_span N p B' x <-> in_span N p B x).
Proof.
  intros L H. split; [exact (axpy_span1 N p i j c B B' x L H)|]. apply (axpy_span1 N p i j (- c)); [assumption|].
  apply axpy_back; [lia|assumption].
Qed.
Lemma axpy_indep N p i j c B B' : (j < i)%nat -> axpy_of N i j c B B' -> independent N p B -> independent N p B'.
Proof.
  intros L H I. destruct (le_lt_dec p i) as [P|P].
  - intros t Ht. apply I. intros k Hk. rewrite <- (Ht k Hk). apply rsum_ext. intros l Hl. rewrite (H l k Hk). destruct (Nat.eqb_spec l i); [lia|reflexivity].
  - intros t Ht. assert (forall l, (l < p)%nat -> retarget i j c t l = 0) as Z.
    { apply I. intros k Hk. rewrite <- (axpy_comb N p i j c B B' t k H) by lia. exact (Ht k Hk). }
    assert (t i = 0) as Ti by (specialize (Z i P); unfold retarget in Z; destruct (Nat.eqb_spec i j); [lia|exact Z]).
    intros l Hl. specialize (Z l Hl). unfold retarget in Z. destruct (Nat.eqb_spec l j); [|exact Z]. rewrite Ti in Z. lra.
Qed.

(** * Gram-Schmidt *)
Definition pairwise N n (B : nat -> nat -> R) := forall i j, (i < n)%nat -> (j < n)%nat -> i <> j -> rdot N (B i) (B j) = 0.
Lemma step_axpy N i B j : exists c, axpy_of N i j c B (ortho_step N i B j) /\ rdot N (fun k => B i k - c * B j k) (B j) = 0.
Proof.
  destruct (project_on_spec N (B i) (B j)) as (c & E & Z). exists c. split; [|exact Z].
  intros l k Hk. unfold ortho_step, upd. destruct (Nat.eqb_spec l i); [now rewrite E|reflexivity].
Qed.
Section GS.
Variables (N : nat) (V : nat -> nat -> R).
Definition rel (B : nat -> nat -> R) : Prop :=
  (forall p x, in_span N p B x <-> in_span N p V x) /\ (forall p, independent N p V -> independent N p B).
Definition gs i j (B : nat -> nat -> R) : Prop :=
  rel B /\ B 0%nat = V 0%nat /\ pairwise N i B /\ (forall a, (a < j)%nat -> rdot N (B i) (B a) = 0).
Lemma gs_step i j B : (j < i)%nat -> gs i j B -> gs i (S j) (ortho_step N i B j).
Proof.
  intros L (R & F & P & Q). destruct (step_axpy N i B j) as (c & A & Z).
  assert (forall l, l <> i -> ortho_step N i B j l = B l) as Keep.
  { intros l D. unfold ortho_step, upd. destruct (Nat.eqb_spec l i); [congruence|reflexivity]. }
  repeat split.
  - intros H. apply R. exact (proj1 (axpy_span N p i j c _ _ x L A) H).
  - intros H. apply R in H. exact (proj2 (axpy_span N p i j c _ _ x L A) H).
  - intros p I. apply (axpy_indep N p i j c B); auto. apply R, I.
  - rewrite Keep by lia. exact F.
  - intros a b Ha Hb D. rewrite !Keep by lia. apply P; lia.
  - intros a Ha. rewrite (Keep a) by lia.
    rewrite (rdot_ext N _ (fun k => B i k - c * B j k) (B a) (B a)); [|intros k Hk; rewrite (A i k Hk), Nat.eqb_refl; reflexivity|reflexivity].
    destruct (Nat.eq_dec a j) as [->|D]; [exact Z|]. rewrite rdot_axpy, Q, (P j a) by lia. ring.
Qed.
Lemma gs_inner i j B : (j <= i)%nat -> gs i 0 B -> gs i j (fold_left (ortho_step N i) (seq 0 j) B).
Proof. induction j; intros L H; [exact H|]. rewrite seq_S, fold_left_app. cbn. apply gs_step; [lia|]. apply IHj; [lia|exact H]. Qed.
Lemma gs_next i B : gs i i B -> gs (S i) 0 B.
Proof.
  intros (R & F & P & Q). split; [exact R|split; [exact F|split; [|intros; lia]]]. intros a b Ha Hb D.
  destruct (Nat.eq_dec a i) as [->|Na]; [apply Q; lia|]. destruct (Nat.eq_dec b i) as [->|Nb]; [rewrite rdot_sym; apply Q; lia|]. apply P; lia.
Qed.
Lemma gs_start : gs 1 0 V.
Proof. split; [split; [tauto|auto]|split; [reflexivity|split; intros; [intros ? ? ? ?; lia|lia]]]. Qed.
Lemma gs_run m : gs (S m) 0 (fold_left (fun B i => fold_left (ortho_step N i) (seq 0 i) B) (seq 1 m) V).
Proof. induction m; [exact gs_start|]. rewrite seq_S, fold_left_app. change (1 + m)%nat with (S m). cbn [fold_left]. apply gs_next, gs_inner; auto. Qed.
Lemma rel_nonzero B n i : rel B -> independent N n V -> (i < n)%nat -> 0 < rdot N (B i) (B i).
Proof.
  intros R I Hi. destruct (rdot_self N (B i)) as [Z|]; [|assumption]. exfalso.
  assert ((fun l => if (l =? i)%nat then 1 else 0) i = 0) as E.
  { apply (proj2 R n I (fun l => if (l =? i)%nat then 1 else 0)); [|assumption]. intros k Hk. apply rsum_zero. intros l _. destruct (Nat.eqb_spec l i) as [->|]; [rewrite Z by assumption|]; ring. }
  cbn in E. rewrite Nat.eqb_refl in E. lra.
Qed.
Lemma orthogonalize_gs n : let B := orthogonalize N n V in rel B /\ B 0%nat = V 0%nat /\ pairwise N n B.
Proof.
  cbn zeta. destruct (gs_run (n - 1)) as (R & F & P & _). split; [exact R|split; [exact F|]].
  intros i j Hi Hj. apply P; lia.
Qed.
End GS.

(** * Two dimensions *)
Lemma rdot2 u v : rdot 2 u v = u 0%nat * v 0%nat + u 1%nat * v 1%nat.
Proof. unfold rdot. rewrite !rsum_S. cbn. ring. Qed.
Lemma ortho2_pairwise n B : (n <= 2)%nat -> pairwise 2 n (orthogonalize2 n B).
Proof.
  intros H i j Hi Hj D. unfold orthogonalize2. destruct (Nat.eqb_spec n 2) as [->|]; [|lia].
  rewrite rdot2. unfold upd, left_perpendicular.
  destruct i as [|[|]], j as [|[|]]; try lia; cbn; ring.
Qed.
Lemma ortho2_span_p p n B x : (n <= 2)%nat -> independent 2 n B -> (p <= n)%nat -> (in_span 2 p (orthogonalize2 n B) x <-> in_span 2 p B x).
Proof.
  intros H I Hp. unfold orthogonalize2. destruct (Nat.eqb_spec n 2) as [->|]; [|reflexivity].
  set (a := B 0%nat 0%nat). set (b := B 0%nat 1%nat). set (c := B 1%nat 0%nat). set (d := B 1%nat 1%nat).
  assert (a * d - b * c <> 0) as Det.
  { intros E.
    assert (forall t0 t1, (forall k, (k < 2)%nat -> t0 * B 0%nat k + t1 * B 1%nat k = 0) -> t0 = 0 /\ t1 = 0) as J.
    { intros t0 t1 Ht. assert (forall j, (j < 2)%nat -> (if (j =? 0)%nat then t0 else t1) = 0) as J'.
      { apply I. intros k Hk. etransitivity; [|exact (Ht k Hk)]. rewrite !rsum_S. cbn. rr. }
      split; [exact (J' 0%nat ltac:(lia))|exact (J' 1%nat ltac:(lia))]. }
    destruct (J d (- b)) as [Jd Jb]; [intros [|[|]] Hk; [fold a c; lra|fold b d; ring|lia]|].
    destruct (J (- c) a) as [Jc Ja]; [intros [|[|]] Hk; [fold a c; ring|fold b d; lra|lia]|].
    assert (a = 0) by lra. assert (b = 0) by lra.
    destruct (J 1 0) as [F _]; [|lra]. intros [|[|]] Hk; [fold a c|fold b d|lia]; lra. }
  assert (a * a + b * b <> 0) as Nz.
  { intros E. pose proof (Rle_0_sqr a). pose proof (Rle_0_sqr b). unfold Rsqr in *. assert (a * a = 0) as A2 by lra. assert (b * b = 0) as B2 by lra.
    apply Rmult_integral in A2. apply Rmult_integral in B2. assert (a = 0) by tauto. assert (b = 0) by tauto. apply Det. rewrite H2, H3. ring. }
  destruct p as [|[|[|]]]; [reflexivity| | |lia].
  - split; apply span_ext; intros [|] k Hl Hk; try lia; reflexivity.
  - split; intros _.
    + exists (fun l => if (l =? 0)%nat then (x 0%nat * d - x 1%nat * c) / (a * d - b * c) else (a * x 1%nat - b * x 0%nat) / (a * d - b * c)).
      intros [|[|]] Hk; [| |lia]; rewrite !rsum_S; cbn; fold a b c d; unR; field; exact Det.
    + exists (fun l => if (l =? 0)%nat then (x 0%nat * a + x 1%nat * b) / (a * a + b * b) else (a * x 1%nat - b * x 0%nat) / (a * a + b * b)).
      intros [|[|]] Hk; [| |lia]; rewrite !rsum_S; cbn; fold a b c d; unR; field; exact Nz.
Qed.
Lemma ortho2_nonzero n B i : (n <= 2)%nat -> independent 2 n B -> (i < n)%nat -> 0 < rdot 2 (orthogonalize2 n B i) (orthogonalize2 n B i).
Proof.
  intros H I Hi.
  assert (0 < rdot 2 (B 0%nat) (B 0%nat)) as Z by (apply (rel_nonzero 2 B B n 0); [split; auto; tauto|assumption|lia]).
  unfold orthogonalize2. destruct (Nat.eqb_spec n 2) as [->|].
  - rewrite rdot2 in *. unfold upd, left_perpendicular. destruct i as [|[|]]; [exact Z| |lia]. cbn. lra.
  - assert (i = 0)%nat as -> by lia. exact Z.
Qed.

(** * Normalisation *)
Definition normalized N n (B : nat -> nat -> R) : nat -> nat -> R := fun i k => if (i <? n)%nat then B i k / mag N (B i) else B i k.
Lemma normalize_run N n B : forall i k, fold_left (fun B i => upd B i (fun k => B i k / mag N (B i))) (seq 0 n) B i k = normalized N n B i k.
Proof.
  assert (forall i, (n <= i)%nat -> fold_left (fun B i => upd B i (fun k => B i k / mag N (B i))) (seq 0 n) B i = B i) as Keep.
  { induction n; intros i Hi; [reflexivity|]. rewrite seq_S, fold_left_app. cbn. unfold upd at 1. destruct (Nat.eqb_spec i n); [lia|]. apply IHn. lia. }
  induction n; intros i k; [reflexivity|]. rewrite seq_S, fold_left_app. cbn. unfold upd at 1.
  assert (forall i, (n <= i)%nat -> fold_left (fun B i => upd B i (fun k => B i k / mag N (B i))) (seq 0 n) B i = B i) as Keep'.
  { clear. induction n; intros i Hi; [reflexivity|]. rewrite seq_S, fold_left_app. cbn. unfold upd at 1. destruct (Nat.eqb_spec i n); [lia|]. apply IHn. lia. }
  destruct (Nat.eqb_spec i n) as [->|D].
  - rewrite Keep' by lia. unfold normalized. destruct (Nat.ltb_spec n (S n)); [reflexivity|lia].
  - rewrite IHn by assumption. unfold normalized. destruct (Nat.ltb_spec i n), (Nat.ltb_spec i (S n)); try lia; reflexivity.
Qed.
Lemma mag_sq N v : mag N v * mag N v = rdot N v v.
Proof. unfold mag. rewrite vdot_eq. apply sqrt_sqrt, rdot_nonneg. Qed.
Lemma mag_pos N v : 0 < rdot N v v -> 0 < mag N v.
Proof. intros H. unfold mag. rewrite vdot_eq. now apply sqrt_lt_R0. Qed.
Lemma scaled_span N p (s : nat -> R) B B' x : (forall i, (i < p)%nat -> s i <> 0) -> (forall i k, (i < p)%nat -> (k < N)%nat -> B' i k = s i * B i k) ->
  (in_span N p B' x <-> in_span N p B x).
Proof.
  intros Z H. split; intros [t Ht].
  - exists (fun i => t i * s i). intros k Hk. rewrite (Ht k Hk). apply rsum_ext. intros i Hi. rewrite H by assumption. ring.
  - exists (fun i => t i / s i). intros k Hk. rewrite (Ht k Hk). apply rsum_ext. intros i Hi. rewrite H by assumption. field. auto.
Qed.
(** What [orthogonalize_any] guarantees, for either overload. *)
Lemma any_pairwise N n V : (n <= N)%nat -> pairwise N n (orthogonalize_any N n V).
Proof.
  intros H. unfold orthogonalize_any. destruct (Nat.eqb_spec N 2) as [->|]; [now apply ortho2_pairwise|]. apply (orthogonalize_gs N V n).
Qed.
Lemma any_span N n V p x : (n <= N)%nat -> independent N n V -> (p <= n)%nat -> (in_span N p (orthogonalize_any N n V) x <-> in_span N p V x).
Proof.
  intros H I Hp. unfold orthogonalize_any. destruct (Nat.eqb_spec N 2) as [->|]; [now apply ortho2_span_p|]. apply (orthogonalize_gs N V n).
Qed.
Lemma any_nonzero N n V i : (n <= N)%nat -> independent N n V -> (i < n)%nat -> 0 < rdot N (orthogonalize_any N n V i) (orthogonalize_any N n V i).
Proof.
  intros H I Hi. unfold orthogonalize_any. destruct (Nat.eqb_spec N 2) as [->|]; [now apply ortho2_nonzero|].
  apply (rel_nonzero N V _ n); auto. apply (orthogonalize_gs N V n).
Qed.
Lemma any_first N n V : orthogonalize_any N n V 0%nat = V 0%nat.
Proof.
  unfold orthogonalize_any, orthogonalize2. destruct (Nat.eqb_spec N 2) as [->|]; [destruct (n =? 2)%nat; reflexivity|]. apply (orthogonalize_gs N V n).
Qed.
Lemma normal_at N n V i k : (i < n)%nat -> orthonormalize N n V i k = / mag N (orthogonalize_any N n V i) * orthogonalize_any N n V i k.
Proof.
  intros H. unfold orthonormalize. rewrite normalize_run. unfold normalized. destruct (Nat.ltb_spec i n); [|lia]. unfold Rdiv. ring.
Qed.
Lemma orthonormal N n V i j : (n <= N)%nat -> independent N n V -> (i < n)%nat -> (j < n)%nat ->
  rdot N (orthonormalize N n V i) (orthonormalize N n V j) = if (i =? j)%nat then 1 else 0.
Proof.
  intros H I Hi Hj.
  rewrite (rdot_ext N _ (fun k => / mag N (orthogonalize_any N n V i) * orthogonalize_any N n V i k) _ (fun k => / mag N (orthogonalize_any N n V j) * orthogonalize_any N n V j k))
    by (intros; now apply normal_at).
  rewrite rdot_scale, rdot_sym, rdot_scale. destruct (Nat.eqb_spec i j) as [->|D].
  - rewrite <- mag_sq. pose proof (mag_pos N _ (any_nonzero N n V j H I Hj)). field. lra.
  - rewrite (any_pairwise N n V H j i) by auto. ring.
Qed.
Lemma orthonormal_span N n V p x : (n <= N)%nat -> independent N n V -> (p <= n)%nat -> (in_span N p (orthonormalize N n V) x <-> in_span N p V x).
Proof.
  intros H I Hp. rewrite <- (any_span N n V p x H I Hp). apply (scaled_span N p (fun i => / mag N (orthogonalize_any N n V i))).
  - intros i Hi. apply Rinv_neq_0_compat. pose proof (mag_pos N _ (any_nonzero N n V i H I ltac:(lia))). lra.
  - intros i k Hi Hk. apply normal_at. lia.
Qed.
Lemma orthonormal_first N n V k : (0 < n)%nat -> orthonormalize N n V 0%nat k = V 0%nat k / mag N (V 0%nat).
Proof. intros H. rewrite normal_at, any_first by assumption. unfold Rdiv. ring. Qed.

(** * Projection to a subspace *)
Lemma projection_run N n B x : exists t : nat -> R, forall m, (m <= n)%nat ->
  (forall k, fold_left (fun out i => fun k => out k + project_on N x (B i) k) (seq 0 m) (fun _ => 0) k = rsum m (fun j => t j * B j k)) /\
  (forall j, (j < m)%nat -> rdot N (fun k => x k - t j * B j k) (B j) = 0).
Proof.
  assert (exists t : nat -> R, forall j, (j < n)%nat -> (forall k, project_on N x (B j) k = t j * B j k) /\ rdot N (fun k => x k - t j * B j k) (B j) = 0) as [t Ht].
  { induction n as [|n [t Ht]]; [exists (fun _ => 0); intros; lia|]. destruct (project_on_spec N x (B n)) as (c & E & Z).
    exists (upd t n c). intros j Hj. unfold upd. destruct (Nat.eqb_spec j n) as [->|]; [split; assumption|]. apply Ht. lia. }
  exists t. intros m. induction m; intros Hm; [split; [reflexivity|lia]|]. destruct IHm as [E Z]; [lia|]. split.
  - intros k. rewrite seq_S, fold_left_app. cbn. rewrite E. rewrite (proj1 (Ht m ltac:(lia))). reflexivity.
  - intros j Hj. apply Ht. lia.
Qed.
Lemma projection_spec N n B x : pairwise N n B -> let y := project_to_orthogonal_subspace N n B x in
  in_span N n B y /\ forall j, (j < n)%nat -> rdot N (fun k => x k - y k) (B j) = 0.
Proof.
  intros P. cbn zeta. destruct (projection_run N n B x) as (t & Ht). destruct (Ht n (le_n n)) as [E Z]. unfold project_to_orthogonal_subspace.
  split; [exists t; intros k _; apply E|]. intros j Hj.
  rewrite (rdot_ext N _ (fun k => x k - 1 * rsum n (fun j => t j * B j k)) (B j) (B j)); [|intros; rewrite E; ring|reflexivity].
  rewrite rdot_axpy, rdot_comb. specialize (Z j Hj). rewrite rdot_axpy in Z.
  rewrite (rsum_ext n (fun l => t l * rdot N (B l) (B j)) (fun l => if (l =? j)%nat then t j * rdot N (B j) (B j) else 0)).
  - rewrite rsum_pick by assumption. lra.
  - intros l Hl. destruct (Nat.eqb_spec l j) as [->|D]; [reflexivity|]. rewrite P by assumption. ring.
Qed.
(** The foot of a perpendicular is the nearest point. *)
Lemma span_sub N p V x y : in_span N p V x -> in_span N p V y -> in_span N p V (fun k => x k - y k).
Proof.
  intros [s Hs] [t Ht]. exists (fun j => s j + -1 * t j). intros k Hk. rewrite (Hs k Hk), (Ht k Hk).
  transitivity (rsum p (fun j => s j * V j k) + -1 * rsum p (fun j => t j * V j k)); [ring|]. rewrite <- rsum_scale, <- rsum_add. apply rsum_ext. intros. ring.
Qed.
Lemma foot_nearest N p V x y z : in_span N p V y -> (forall j, (j < p)%nat -> rdot N (fun k => x k - y k) (V j) = 0) -> in_span N p V z ->
  rdot N (fun k => x k - y k) (fun k => x k - y k) <= rdot N (fun k => x k - z k) (fun k => x k - z k).
Proof.
  intros Sy O Sz. set (u := fun k => x k - y k). set (w := fun k => y k - z k).
  assert (rdot N u w = 0) as E by (apply (span_orthogonal N p V); [now apply span_sub|exact O]).
  rewrite (rdot_ext N (fun k => x k - z k) (fun k => u k + w k) (fun k => x k - z k) (fun k => u k + w k)) by (intros; unfold u, w; ring).
  assert (rdot N (fun k => u k + w k) (fun k => u k + w k) = rdot N u u + 2 * rdot N u w + rdot N w w) as ->.
  { rewrite rdot_add, (rdot_sym N u (fun k => u k + w k)), (rdot_sym N w (fun k => u k + w k)), !rdot_add, (rdot_sym N w u). ring. }
  rewrite E. pose proof (rdot_nonneg N w). lra.
Qed.
Lemma subspace_spec N n V x : (n <= N)%nat -> independent N n V -> let y := project_to_subspace N n V x in
  in_span N n V y /\ forall j, (j < n)%nat -> rdot N (fun k => x k - y k) (V j) = 0.
Proof.
  intros H I. cbn zeta. unfold project_to_subspace.
  destruct (projection_spec N n (orthonormalize N n V) x) as [S O].
  { intros i j Hi Hj D. rewrite orthonormal by assumption. destruct (Nat.eqb_spec i j); [contradiction|reflexivity]. }
  split; [now apply (orthonormal_span N n V n _ H I (le_n n))|]. intros j Hj. apply (span_orthogonal N n (orthonormalize N n V)); [|exact O].
  apply (orthonormal_span N n V n _ H I (le_n n)). exists (fun l => if (l =? j)%nat then 1 else 0). intros k Hk.
  rewrite (rsum_ext n _ (fun l => if (l =? j)%nat then V j k else 0)); [now rewrite rsum_pick|]. intros l _. destruct (Nat.eqb_spec l j) as [->|]; ring.
Qed.
