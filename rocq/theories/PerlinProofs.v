(** Lemmas for Perlin noise. *)
From Coq Require Import Reals ZArith Lra Lia List Bool Arith.
From Verif Require Import PerlinModel PerlinSpec.
Import ListNotations.
Open Scope R_scope.

(** ** Sums *)
Lemma rsum_ext n f g : (forall i, (i < n)%nat -> f i = g i) -> rsum n f = rsum n g.
Proof. induction n as [|n IH]; intros H; cbn; [reflexivity|]. rewrite IH, (H n) by (try (intros; apply H); lia). reflexivity. Qed.
Lemma rprod_ext n f g : (forall i, (i < n)%nat -> f i = g i) -> rprod n f = rprod n g.
Proof. induction n as [|n IH]; intros H; cbn; [reflexivity|]. rewrite IH, (H n) by (try (intros; apply H); lia). reflexivity. Qed.
Lemma rsum_plus n f g : rsum n (fun i => f i + g i) = rsum n f + rsum n g.
Proof. induction n as [|n IH]; cbn; [ring|]. rewrite IH. ring. Qed.
Lemma rsum_scal n c f : rsum n (fun i => c * f i) = c * rsum n f.
Proof. induction n as [|n IH]; cbn; [ring|]. rewrite IH. ring. Qed.
Lemma rsum_zero n : rsum n (fun _ => 0) = 0.
Proof. induction n as [|n IH]; cbn; [reflexivity|]. rewrite IH. ring. Qed.
Lemma rsum_one n m c : (m < n)%nat -> rsum n (fun i => if (i =? m)%nat then c i else 0) = c m.
Proof.
  induction n as [|n IH]; intros H; [lia|]. cbn. destruct (Nat.eqb_spec n m) as [->|N].
  - rewrite (rsum_ext m _ (fun _ => 0)), rsum_zero; [ring|]. intros i L. destruct (Nat.eqb_spec i m); [lia|reflexivity].
  - rewrite IH by lia. ring.
Qed.
Lemma rsum_abs n f : Rabs (rsum n f) <= rsum n (fun i => Rabs (f i)).
Proof. induction n as [|n IH]; cbn; [rewrite Rabs_R0; lra|]. eapply Rle_trans; [apply Rabs_triang|]. lra. Qed.
Lemma rsum_le n f g : (forall i, (i < n)%nat -> f i <= g i) -> rsum n f <= rsum n g.
Proof. induction n as [|n IH]; intros H; cbn; [lra|]. pose proof (H n ltac:(lia)). pose proof (IH (fun i L => H i ltac:(lia))). lra. Qed.
Lemma rsum_split a b f : rsum (a + b) f = rsum a f + rsum b (fun i => f (a + i)%nat).
Proof. induction b as [|b IH]; [rewrite Nat.add_0_r; cbn; ring|]. rewrite Nat.add_succ_r. cbn. rewrite IH. ring. Qed.
Lemma vdot_rsum n a b : vdot n a b = rsum n (fun i => a i * b i).
Proof.
  unfold vdot. induction n as [|n IH]; [reflexivity|]. rewrite seq_S, fold_left_app, IH. reflexivity.
Qed.

(** ** The arrays *)
Section Inplace.
Variable h : R -> R -> R.
Lemma inplace n f k : fold_left (fun f pair => set_at f pair (h (f (pair * 2)%nat) (f (pair * 2 + 1)%nat))) (seq 0 n) f k =
  if (k <? n)%nat then h (f (k * 2)%nat) (f (k * 2 + 1)%nat) else f k.
Proof.
  revert k. induction n as [|n IH]; intros k; [reflexivity|]. rewrite seq_S, fold_left_app. cbn [fold_left Nat.add]. unfold set_at at 1.
  destruct (Nat.eqb_spec k n) as [->|N].
  - rewrite !IH. destruct (Nat.ltb_spec (n * 2) n); [lia|]. destruct (Nat.ltb_spec (n * 2 + 1) n); [lia|]. destruct (Nat.ltb_spec n (S n)); [reflexivity|lia].
  - rewrite IH. destruct (Nat.ltb_spec k n), (Nat.ltb_spec k (S n)); trivial; lia.
Qed.
End Inplace.
Lemma inplace_grad p axis n s k :
  let s' := fold_left (grad_pair p axis) (seq 0 n) s in
  let a := fst s (k * 2)%nat in let b := fst s (k * 2 + 1)%nat in
  fst s' k = (if (k <? n)%nat then mix (fade (p axis)) a b else fst s k) /\
  forall i, snd s' k i = if (k <? n)%nat then (if (i =? axis)%nat then 0 + (b - a) * dfade_dt (p axis) else 0) + (1 - fade (p axis)) * snd s (k * 2)%nat i + fade (p axis) * snd s (k * 2 + 1)%nat i else snd s k i.
Proof.
  cbn zeta. revert k. induction n as [|n IH]; intros k; [split; reflexivity|]. rewrite seq_S, fold_left_app. cbn [fold_left Nat.add].
  set (s' := fold_left (grad_pair p axis) (seq 0 n) s) in *. unfold grad_pair. cbn [fst snd]. unfold set_at.
  destruct (Nat.eqb_spec k n) as [->|N].
  - destruct (IH (n * 2)%nat) as [A1 B1]. destruct (IH (n * 2 + 1)%nat) as [A2 B2]. destruct (Nat.ltb_spec (n * 2) n); [lia|]. destruct (Nat.ltb_spec (n * 2 + 1) n); [lia|].
    destruct (Nat.ltb_spec n (S n)); [|lia]. split; [now rewrite A1, A2|]. intros i. now rewrite A1, A2, B1, B2.
  - destruct (IH k) as [A B]. destruct (Nat.ltb_spec k n), (Nat.ltb_spec k (S n)); try lia; (split; [exact A|exact B]).
Qed.
(** Filling the corners. *)
Lemma fill_corners N (g : nat -> option R) (v : nat -> R) f : (forall c, (c < N)%nat -> g c = Some (v c)) ->
  exists f', fold_left (fun f c => bind f (fun f => bind (g c) (fun x => Some (set_at f c x)))) (seq 0 N) (Some f) = Some f' /\ forall c, (c < N)%nat -> f' c = v c.
Proof.
  induction N as [|n IH]; intros H; [exists f; split; [reflexivity|lia]|]. destruct (IH (fun c L => H c ltac:(lia))) as (f' & E & Q).
  rewrite seq_S, fold_left_app, E. cbn [fold_left bind Nat.add]. rewrite (H n) by lia. cbn [bind]. eexists. split; [reflexivity|]. intros c L. unfold set_at.
  destruct (Nat.eqb_spec c n) as [->|]; [reflexivity|]. apply Q. lia.
Qed.

(** ** Recursive form of the blend *)
Section Cell.
Variables (G : (nat -> Z) -> nat -> R) (N : nat).
Hypothesis G_ext : forall q q', (forall i, (i < N)%nat -> q i = q' i) -> forall j, G q j = G q' j.
Fixpoint V (p : nat -> Z) (x : nat -> R) (m : nat) (q : nat -> Z) : R :=
  match m with
  | O => plane G N q x
  | S m => mix (fade (x m - IZR (p m))) (V p x m (set_at q m (p m))) (V p x m (set_at q m (p m + 1)%Z))
  end.
Fixpoint W (p : nat -> Z) (x : nat -> R) (m : nat) (q : nat -> Z) (j : nat) : R :=
  match m with
  | O => G q j
  | S m => let q0 := set_at q m (p m) in let q1 := set_at q m (p m + 1)%Z in let t := fade (x m - IZR (p m)) in
    (if (j =? m)%nat then 0 + (V p x m q1 - V p x m q0) * dfade_dt (x m - IZR (p m)) else 0) + (1 - t) * W p x m q0 j + t * W p x m q1 j
  end.
Lemma plane_ext q q' x : (forall i, (i < N)%nat -> q i = q' i) -> plane G N q x = plane G N q' x.
Proof. intros H. apply rsum_ext. intros i L. now rewrite (G_ext q q' H), (H i L). Qed.
Lemma V_ext p x m : forall q q', (forall i, (m <= i < N)%nat -> q i = q' i) -> V p x m q = V p x m q'.
Proof.
  induction m as [|m IH]; intros q q' H; cbn [V]; [apply plane_ext; intros; apply H; lia|].
  f_equal; apply IH; intros i L; unfold set_at; (destruct (Nat.eqb_spec i m); [reflexivity|apply H; lia]).
Qed.
Lemma W_ext p x m j : forall q q', (forall i, (m <= i < N)%nat -> q i = q' i) -> W p x m q j = W p x m q' j.
Proof.
  induction m as [|m IH]; intros q q' H; cbn [W]; [apply G_ext; intros; apply H; lia|].
  assert (X : forall v i, (m <= i < N)%nat -> set_at q m v i = set_at q' m v i) by (intros v i L; unfold set_at; destruct (Nat.eqb_spec i m); [reflexivity|apply H; lia]).
  cbn zeta. rewrite (V_ext p x m _ _ (X (p m))), (V_ext p x m _ _ (X (p m + 1)%Z)), (IH _ _ (X (p m))), (IH _ _ (X (p m + 1)%Z)). reflexivity.
Qed.
(** Entry [k] of the array after [m] axes. *)
Definition entry (p : nat -> Z) (m k : nat) : nat -> Z := fun i => if (i <? m)%nat then p i else (p i + corner k (i - m))%Z.
Lemma corner_even k i : corner (k * 2) (S i) = corner k i.
Proof. unfold corner. rewrite Nat.mul_comm. now rewrite Nat.testbit_even_succ by lia. Qed.
Lemma corner_odd k i : corner (k * 2 + 1) (S i) = corner k i.
Proof. unfold corner. rewrite Nat.mul_comm. now rewrite Nat.testbit_odd_succ by lia. Qed.
Lemma corner_even0 k : corner (k * 2) 0 = 0%Z.
Proof. unfold corner. rewrite Nat.mul_comm. now rewrite Nat.testbit_even_0. Qed.
Lemma corner_odd0 k : corner (k * 2 + 1) 0 = 1%Z.
Proof. unfold corner. rewrite Nat.mul_comm. now rewrite Nat.testbit_odd_0. Qed.
Lemma entry_even p m k i : set_at (entry p (S m) k) m (p m) i = entry p m (k * 2) i.
Proof.
  unfold set_at, entry. destruct (Nat.eqb_spec i m) as [->|D].
  - destruct (Nat.ltb_spec m m); [lia|]. rewrite Nat.sub_diag, corner_even0. lia.
  - destruct (Nat.ltb_spec i (S m)), (Nat.ltb_spec i m); try lia. replace (i - m)%nat with (S (i - S m)) by lia. now rewrite corner_even.
Qed.
Lemma entry_odd p m k i : set_at (entry p (S m) k) m (p m + 1)%Z i = entry p m (k * 2 + 1) i.
Proof.
  unfold set_at, entry. destruct (Nat.eqb_spec i m) as [->|D].
  - destruct (Nat.ltb_spec m m); [lia|]. rewrite Nat.sub_diag, corner_odd0. lia.
  - destruct (Nat.ltb_spec i (S m)), (Nat.ltb_spec i m); try lia. replace (i - m)%nat with (S (i - S m)) by lia. now rewrite corner_odd.
Qed.
Lemma entry_N p : forall i, (i < N)%nat -> entry p N 0 i = p i.
Proof. intros i L. unfold entry. destruct (Nat.ltb_spec i N); [reflexivity|lia]. Qed.
Lemma pow_half m : (m < N)%nat -> (2 ^ (N - m) = 2 * 2 ^ (N - m - 1))%nat.
Proof. intros L. replace (N - m)%nat with (S (N - m - 1)) at 1 by lia. reflexivity. Qed.
Lemma eval_loop p x f : (forall c, (c < 2 ^ N)%nat -> f c = plane G N (entry p 0 c) x) ->
  forall m, (m <= N)%nat -> forall k, (k < 2 ^ (N - m))%nat ->
  fold_left (fun f axis => let t := fade (x axis - IZR (p axis)) in
          fold_left (fun f pair => set_at f pair (mix t (f (pair * 2)%nat) (f (pair * 2 + 1)%nat))) (seq 0 (2 ^ (N - axis - 1))) f) (seq 0 m) f k = V p x m (entry p m k).
Proof.
  intros H. induction m as [|m IH]; intros Lm k Lk; [rewrite Nat.sub_0_r in Lk; now apply H|].
  rewrite seq_S, fold_left_app. cbn [fold_left Nat.add]. cbn zeta. rewrite inplace. assert (Ph := pow_half m ltac:(lia)). replace (N - S m)%nat with (N - m - 1)%nat in Lk by lia.
  destruct (Nat.ltb_spec k (2 ^ (N - m - 1))); [|lia]. rewrite !IH by lia. cbn [V]. f_equal; apply V_ext; intros i L; symmetry; [apply entry_even|apply entry_odd].
Qed.
Lemma gradient_loop p x s : (forall c, (c < 2 ^ N)%nat -> fst s c = plane G N (entry p 0 c) x /\ forall j, snd s c j = G (entry p 0 c) j) ->
  forall m, (m <= N)%nat -> forall k, (k < 2 ^ (N - m))%nat ->
  let s' := fold_left (fun s axis => fold_left (grad_pair (fun i => x i - IZR (p i)) axis) (seq 0 (2 ^ (N - axis - 1))) s) (seq 0 m) s in
  fst s' k = V p x m (entry p m k) /\ forall j, snd s' k j = W p x m (entry p m k) j.
Proof.
  intros H. induction m as [|m IH]; intros Lm k Lk; [rewrite Nat.sub_0_r in Lk; now apply H|].
  rewrite seq_S, fold_left_app. cbn [fold_left Nat.add]. cbn zeta in *. assert (Ph := pow_half m ltac:(lia)). replace (N - S m)%nat with (N - m - 1)%nat in Lk by lia.
  set (s' := fold_left _ (seq 0 m) s) in *. destruct (inplace_grad (fun i => x i - IZR (p i)) m (2 ^ (N - m - 1)) s' k) as [A B].
  destruct (Nat.ltb_spec k (2 ^ (N - m - 1))); [|lia]. destruct (IH ltac:(lia) (k * 2)%nat ltac:(lia)) as [A1 B1]. destruct (IH ltac:(lia) (k * 2 + 1)%nat ltac:(lia)) as [A2 B2].
  assert (E0 : forall i, (m <= i < N)%nat -> entry p m (k * 2) i = set_at (entry p (S m) k) m (p m) i) by (intros; symmetry; apply entry_even).
  assert (E1 : forall i, (m <= i < N)%nat -> entry p m (k * 2 + 1) i = set_at (entry p (S m) k) m (p m + 1)%Z i) by (intros; symmetry; apply entry_odd).
  split.
  - rewrite A, A1, A2. cbn [V]. f_equal; apply V_ext; assumption.
  - intros j. rewrite B, A1, A2, B1, B2. cbn [W]. cbn zeta. rewrite (V_ext p x m _ _ E0), (V_ext p x m _ _ E1), (W_ext p x m j _ _ E0), (W_ext p x m j _ _ E1). reflexivity.
Qed.

(** ** Agreement of neighbouring cells *)
Lemma fade0 : fade 0 = 0. Proof. unfold fade. ring. Qed.
Lemma fade1 : fade 1 = 1. Proof. unfold fade. ring. Qed.
Lemma dfade0 : dfade_dt 0 = 0. Proof. unfold dfade_dt. cbn zeta. ring. Qed.
Lemma dfade1 : dfade_dt 1 = 0. Proof. unfold dfade_dt. cbn zeta. ring. Qed.
Lemma cells_near (a b : Z) y : IZR a <= y <= IZR a + 1 -> IZR b <= y <= IZR b + 1 -> a = b \/ (b = a + 1 /\ y = IZR b)%Z \/ (a = b + 1 /\ y = IZR a)%Z.
Proof.
  intros A B. assert (IZR b <= IZR (a + 1)) by (rewrite plus_IZR; lra). assert (IZR a <= IZR (b + 1)) by (rewrite plus_IZR; lra). apply le_IZR in H. apply le_IZR in H0.
  assert (C : (a = b \/ b = a + 1 \/ a = b + 1)%Z) by lia. destruct C as [->|[->| ->]]; [left; reflexivity|right; left|right; right]; (split; [reflexivity|]); rewrite plus_IZR in *; lra.
Qed.
Lemma V_agree1 p p' x m : (forall i, (i < m)%nat -> IZR (p i) <= x i <= IZR (p i) + 1) -> (forall i, (i < m)%nat -> IZR (p' i) <= x i <= IZR (p' i) + 1) ->
  forall q, V p x m q = V p' x m q /\ forall j, W p x m q j = W p' x m q j.
Proof.
  induction m as [|m IH]; intros A B q; [split; reflexivity|].
  specialize (IH (fun i L => A i ltac:(lia)) (fun i L => B i ltac:(lia))). cbn [V W]. cbn zeta.
  destruct (cells_near _ _ _ (A m ltac:(lia)) (B m ltac:(lia))) as [E|[[E X]|[E X]]].
  - rewrite <- E. destruct (IH (set_at q m (p m))) as [V0 W0]. destruct (IH (set_at q m (p m + 1)%Z)) as [V1 W1]. split; [now rewrite V0, V1|]. intros j. now rewrite V0, V1, W0, W1.
  - replace (x m - IZR (p' m)) with 0 by lra. replace (x m - IZR (p m)) with 1 by (rewrite X, E, plus_IZR; lra).
    rewrite fade0, fade1, dfade0, dfade1. rewrite E. destruct (IH (set_at q m (p m + 1)%Z)) as [V1 W1]. unfold mix. split; [rewrite V1; ring|]. intros j. rewrite W1. destruct (j =? m)%nat; ring.
  - replace (x m - IZR (p m)) with 0 by lra. replace (x m - IZR (p' m)) with 1 by (rewrite X, E, plus_IZR; lra).
    rewrite fade0, fade1, dfade0, dfade1. rewrite E. destruct (IH (set_at q m (p' m + 1)%Z)) as [V1 W1]. unfold mix. split; [rewrite V1; ring|]. intros j. rewrite W1. destruct (j =? m)%nat; ring.
Qed.
Lemma V_agree p p' x : in_cell N p x -> in_cell N p' x -> V p x N p = V p' x N p' /\ forall j, W p x N p j = W p' x N p' j.
Proof.
  intros A B. destruct (V_agree1 p p' x N A B p) as [X Y]. split; [rewrite X; apply V_ext; lia|]. intros j. rewrite Y. apply W_ext. lia.
Qed.
Lemma V_p_ext p p' x m : (forall i, (i < m)%nat -> p i = p' i) -> forall q, V p x m q = V p' x m q /\ forall j, W p x m q j = W p' x m q j.
Proof.
  induction m as [|m IH]; intros A q; [split; reflexivity|]. specialize (IH (fun i L => A i ltac:(lia))). cbn [V W]. cbn zeta. rewrite <- (A m) by lia.
  destruct (IH (set_at q m (p m))) as [V0 W0]. destruct (IH (set_at q m (p m + 1)%Z)) as [V1 W1]. split; [now rewrite V0, V1|]. intros j. now rewrite V0, V1, W0, W1.
Qed.
End Cell.
