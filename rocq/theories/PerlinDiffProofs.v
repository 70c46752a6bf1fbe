(** Perlin noise: differentiability. *)
From Coq Require Import Reals ZArith Lra Lia List Bool Arith FunctionalExtensionality.
From Verif Require Import PerlinModel PerlinSpec PerlinProofs.
Import ListNotations.
Open Scope R_scope.

Section Rules.
Variables (N : nat) (x : nat -> R).
Definition small (r : R) (h : nat -> R) : Prop := forall i, (i < N)%nat -> Rabs (h i) <= r.
Definition moved (h : nat -> R) : nat -> R := fun i => x i + h i.
Lemma hg_ext F w w' : (forall i, (i < N)%nat -> w i = w' i) -> has_gradient N F x w -> has_gradient N F x w'.
Proof.
  intros E H eps P. destruct (H eps P) as (d & Pd & Q). exists d. split; [exact Pd|]. intros r h L B. rewrite <- (rsum_ext N (fun i => w i * h i)); [now apply Q|]. intros i Li. now rewrite (E i Li).
Qed.
Lemma hg_fext F F' w : (forall y, F y = F' y) -> has_gradient N F x w -> has_gradient N F' x w.
Proof. intros E H eps P. destruct (H eps P) as (d & Pd & Q). exists d. split; [exact Pd|]. intros r h L B. rewrite <- !E. now apply Q. Qed.
Lemma hg_const c : has_gradient N (fun _ => c) x (fun _ => 0).
Proof.
  intros eps P. exists 1. split; [lra|]. intros r h L B. rewrite (rsum_ext N _ (fun _ => 0)) by (intros; ring). rewrite rsum_zero. replace (c - c - 0) with 0 by ring. rewrite Rabs_R0. nra.
Qed.
Lemma hg_coord m : (m < N)%nat -> has_gradient N (fun y => y m) x (fun i => if (i =? m)%nat then 1 else 0).
Proof.
  intros Lm eps P. exists 1. split; [lra|]. intros r h L B. rewrite (rsum_ext N _ (fun i => if (i =? m)%nat then h i else 0)) by (intros i _; destruct (i =? m)%nat; ring).
  rewrite rsum_one by exact Lm. replace (x m + h m - x m - h m) with 0 by ring. rewrite Rabs_R0. nra.
Qed.
Lemma hg_plus F F' w w' : has_gradient N F x w -> has_gradient N F' x w' -> has_gradient N (fun y => F y + F' y) x (fun i => w i + w' i).
Proof.
  intros H H' eps P. destruct (H (eps / 2) ltac:(lra)) as (d & Pd & Q). destruct (H' (eps / 2) ltac:(lra)) as (d' & Pd' & Q'). exists (Rmin d d'). split; [now apply Rmin_glb_lt|].
  intros r h L B. pose proof (Rmin_l d d'). pose proof (Rmin_r d d'). pose proof (Q r h ltac:(lra) B) as A. pose proof (Q' r h ltac:(lra) B) as A'.
  rewrite (rsum_ext N _ (fun i => w i * h i + w' i * h i)) by (intros; ring). rewrite rsum_plus.
  set (F1 := F (fun i => x i + h i)) in *. set (F1' := F' (fun i => x i + h i)) in *. set (s := rsum N (fun i => w i * h i)) in *. set (s' := rsum N (fun i => w' i * h i)) in *.
  replace (F1 + F1' - (F x + F' x) - (s + s')) with ((F1 - F x - s) + (F1' - F' x - s')) by ring. eapply Rle_trans; [apply Rabs_triang|]. lra.
Qed.
Lemma grow F w : has_gradient N F x w -> exists d, 0 < d /\ forall r h, 0 <= r < d -> small r h -> Rabs (F (moved h) - F x) <= (1 + rsum N (fun i => Rabs (w i))) * r.
Proof.
  intros H. destruct (H 1 ltac:(lra)) as (d & Pd & Q). exists d. split; [exact Pd|]. intros r h L B. pose proof (Q r h L B) as A.
  assert (S : Rabs (rsum N (fun i => w i * h i)) <= rsum N (fun i => Rabs (w i)) * r).
  { eapply Rle_trans; [apply rsum_abs|]. rewrite Rmult_comm, <- rsum_scal. apply rsum_le. intros i Li. rewrite Rabs_mult, Rmult_comm. apply Rmult_le_compat_r; [apply Rabs_pos|]. now apply B. }
  unfold moved. replace (F (fun i => x i + h i) - F x) with ((F (fun i => x i + h i) - F x - rsum N (fun i => w i * h i)) + rsum N (fun i => w i * h i)) by ring.
  eapply Rle_trans; [apply Rabs_triang|]. lra.
Qed.
Lemma hg_mult F F' w w' : has_gradient N F x w -> has_gradient N F' x w' -> has_gradient N (fun y => F y * F' y) x (fun i => F x * w' i + F' x * w i).
Proof.
  intros H H' eps P.
  set (a := Rabs (F x)). set (b := Rabs (F' x)). assert (Pa : 0 <= a) by apply Rabs_pos. assert (Pb : 0 <= b) by apply Rabs_pos.
  destruct (grow F w H) as (d1 & P1 & Q1). destruct (grow F' w' H') as (d2 & P2 & Q2).
  set (A := 1 + rsum N (fun i => Rabs (w i))) in *. set (B := 1 + rsum N (fun i => Rabs (w' i))) in *.
  assert (Ps : forall u, 0 <= rsum N (fun i => Rabs (u i))) by (intros u; rewrite <- (rsum_zero N); apply rsum_le; intros; apply Rabs_pos).
  assert (PA : 1 <= A) by (pose proof (Ps w); unfold A; lra). assert (PB : 1 <= B) by (pose proof (Ps w'); unfold B; lra). assert (PAB : 1 <= A * B) by nra.
  destruct (H (eps / (3 * (1 + b)))) as (d3 & P3 & Q3); [apply Rdiv_lt_0_compat; lra|].
  destruct (H' (eps / (3 * (1 + a)))) as (d4 & P4 & Q4); [apply Rdiv_lt_0_compat; lra|].
  set (d5 := eps / (3 * (A * B))). assert (P5 : 0 < d5) by (apply Rdiv_lt_0_compat; lra).
  exists (Rmin (Rmin d1 d2) (Rmin (Rmin d3 d4) d5)). split; [repeat apply Rmin_glb_lt; assumption|].
  intros r h [L0 L] Bh. apply Rmin_Rgt_l in L. destruct L as [L12 L345]. apply Rmin_Rgt_l in L12. destruct L12 as [L1 L2]. apply Rmin_Rgt_l in L345. destruct L345 as [L34 L5]. apply Rmin_Rgt_l in L34. destruct L34 as [L3 L4].
  specialize (Q1 r h ltac:(lra) Bh). specialize (Q2 r h ltac:(lra) Bh). specialize (Q3 r h ltac:(lra) Bh). specialize (Q4 r h ltac:(lra) Bh). unfold moved in *.
  set (F1 := F (fun i => x i + h i)) in *. set (F1' := F' (fun i => x i + h i)) in *.
  rewrite (rsum_ext N _ (fun i => F x * (w' i * h i) + F' x * (w i * h i))) by (intros; ring). rewrite rsum_plus, !rsum_scal.
  set (s := rsum N (fun i => w i * h i)) in *. set (s' := rsum N (fun i => w' i * h i)) in *.
  replace (F1 * F1' - F x * F' x - (F x * s' + F' x * s)) with (F x * (F1' - F' x - s') + (F' x * (F1 - F x - s) + (F1 - F x) * (F1' - F' x))) by ring.
  eapply Rle_trans; [apply Rabs_triang|]. assert (T := Rabs_triang (F' x * (F1 - F x - s)) ((F1 - F x) * (F1' - F' x))). rewrite !Rabs_mult in T |- *. fold a b in T |- *.
  assert (E4 : a * Rabs (F1' - F' x - s') <= eps / 3 * r).
  { eapply Rle_trans; [apply Rmult_le_compat_l; [exact Pa|exact Q4]|]. replace (a * (eps / (3 * (1 + a)) * r)) with (a / (1 + a) * (eps / 3 * r)) by (field; lra).
    assert (a / (1 + a) <= 1) by (apply (Rmult_le_reg_r (1 + a)); [lra|]; unfold Rdiv; rewrite Rmult_assoc, Rinv_l; lra). assert (0 <= eps / 3 * r) by nra. nra. }
  assert (E3 : b * Rabs (F1 - F x - s) <= eps / 3 * r).
  { eapply Rle_trans; [apply Rmult_le_compat_l; [exact Pb|exact Q3]|]. replace (b * (eps / (3 * (1 + b)) * r)) with (b / (1 + b) * (eps / 3 * r)) by (field; lra).
    assert (b / (1 + b) <= 1) by (apply (Rmult_le_reg_r (1 + b)); [lra|]; unfold Rdiv; rewrite Rmult_assoc, Rinv_l; lra). assert (0 <= eps / 3 * r) by nra. nra. }
  assert (E5 : Rabs (F1 - F x) * Rabs (F1' - F' x) <= eps / 3 * r).
  { eapply Rle_trans; [apply Rmult_le_compat; [apply Rabs_pos|apply Rabs_pos|exact Q1|exact Q2]|]. replace (A * r * (B * r)) with (A * B * r * r) by ring. apply Rmult_le_compat_r; [exact L0|].
    apply Rle_trans with (A * B * d5); [apply Rmult_le_compat_l; lra|]. unfold d5. right. field. split; lra. }
  rewrite (Rabs_mult (F1 - F x)) in T. lra.
Qed.
Lemma hg_fade m (c : R) : (m < N)%nat -> has_gradient N (fun y => fade (y m - c)) x (fun i => if (i =? m)%nat then dfade_dt (x m - c) else 0).
Proof.
  intros L. assert (U := hg_plus _ _ _ _ (hg_coord m L) (hg_const (- c))). set (u := fun y : nat -> R => y m + - c) in U.
  assert (U2 := hg_mult _ _ _ _ U U). assert (U3 := hg_mult _ _ _ _ U2 U).
  assert (I1 := hg_plus _ _ _ _ (hg_mult _ _ _ _ U (hg_const 6)) (hg_const (-15))). assert (I2 := hg_plus _ _ _ _ (hg_mult _ _ _ _ U I1) (hg_const 10)).
  assert (F := hg_mult _ _ _ _ U3 I2). eapply hg_fext; [|eapply hg_ext; [|exact F]].
  - intros y. unfold u, fade. ring.
  - intros i _. unfold u, dfade_dt. cbn beta zeta. destruct (i =? m)%nat; ring.
Qed.
End Rules.

Section Glue.
Variables (G : (nat -> Z) -> nat -> R) (N : nat).
Hypothesis G_ext : forall q q', (forall i, (i < N)%nat -> q i = q' i) -> forall j, G q j = G q' j.
Lemma hg_plane q x : has_gradient N (plane G N q) x (G q).
Proof.
  assert (X : forall n, (n <= N)%nat -> has_gradient N (fun y => rsum n (fun j => (y j - IZR (q j)) * G q j)) x (fun j => if (j <? n)%nat then G q j else 0)).
  { induction n as [|n IH]; intros L.
    - eapply hg_ext; [|apply (hg_const N x 0)]. intros; reflexivity.
    - cbn [rsum]. eapply hg_ext; [|apply (hg_plus _ _ _ _ _ _ (IH ltac:(lia)) (hg_mult _ _ _ _ _ _ (hg_plus _ _ _ _ _ _ (hg_coord N x n ltac:(lia)) (hg_const N x (- IZR (q n)))) (hg_const N x (G q n))))].
      intros j _. cbn beta. destruct (Nat.ltb_spec j n), (Nat.ltb_spec j (S n)), (Nat.eqb_spec j n); try lia; subst; try ring. }
  eapply hg_ext; [|apply (X N ltac:(lia))]. intros j L. cbn beta. destruct (Nat.ltb_spec j N); [reflexivity|lia].
Qed.
Lemma hg_V p x m : (m <= N)%nat -> forall q, has_gradient N (fun y => V G N p y m q) x (W G N p x m q).
Proof.
  induction m as [|m IH]; intros L q; [apply hg_plane|]. specialize (IH ltac:(lia)).
  assert (F := hg_fade N x m (IZR (p m)) ltac:(lia)). assert (A := IH (set_at q m (p m))). assert (B := IH (set_at q m (p m + 1)%Z)).
  assert (F1 := hg_plus _ _ _ _ _ _ (hg_const N x 1) (hg_mult _ _ _ _ _ _ (hg_const N x (-1)) F)).
  assert (R := hg_plus _ _ _ _ _ _ (hg_mult _ _ _ _ _ _ F1 A) (hg_mult _ _ _ _ _ _ F B)).
  eapply hg_fext; [|eapply hg_ext; [|exact R]].
  - intros y. cbn [V]. unfold mix. cbn beta. ring.
  - intros i _. cbn [W]. cbn beta zeta. destruct (i =? m)%nat; ring.
Qed.

(** A scale that works for finitely many neighbouring cells. *)
Definition box (n : nat) (a p : nat -> Z) : Prop := forall i, (i < n)%nat -> p i = a i \/ p i = (a i - 1)%Z.
Lemma uniform (a : nat -> Z) n : forall Q : (nat -> Z) -> R -> Prop,
  (forall p p' d, (forall i, (i < n)%nat -> p i = p' i) -> Q p d -> Q p' d) -> (forall p d d', d' <= d -> Q p d -> Q p d') ->
  (forall p, box n a p -> exists d, 0 < d /\ Q p d) -> exists d, 0 < d /\ forall p, box n a p -> Q p d.
Proof.
  induction n as [|n IH]; intros Q Ext Mono H.
  - destruct (H a ltac:(intros i L; lia)) as (d & P & X). exists d. split; [exact P|]. intros p _. eapply Ext; [|exact X]. lia.
  - destruct (IH (fun p d => Q (set_at p n (a n)) d /\ Q (set_at p n (a n - 1)%Z) d)) as (d & P & X).
    + intros p p' d E [X Y]. split; [eapply Ext; [|exact X]|eapply Ext; [|exact Y]]; intros i L; unfold set_at; (destruct (Nat.eqb_spec i n); [reflexivity|apply E; lia]).
    + intros p d d' L [X Y]. split; eapply Mono; eassumption.
    + intros p B.
      assert (B0 : box (S n) a (set_at p n (a n))) by (intros i L; unfold set_at; destruct (Nat.eqb_spec i n) as [->|]; [left; reflexivity|apply B; lia]).
      assert (B1 : box (S n) a (set_at p n (a n - 1)%Z)) by (intros i L; unfold set_at; destruct (Nat.eqb_spec i n) as [->|]; [right; reflexivity|apply B; lia]).
      destruct (H _ B0) as (d0 & P0 & X0). destruct (H _ B1) as (d1 & P1 & X1). exists (Rmin d0 d1). split; [now apply Rmin_glb_lt|]. split; [apply (Mono _ d0); [apply Rmin_l|exact X0]|apply (Mono _ d1); [apply Rmin_r|exact X1]].
    + exists d. split; [exact P|]. intros p B. destruct (X p ltac:(intros i L; apply B; lia)) as [X0 X1]. destruct (B n ltac:(lia)) as [E|E].
      * eapply Ext; [|exact X0]. intros i L. unfold set_at. destruct (Nat.eqb_spec i n) as [->|]; [now symmetry|reflexivity].
      * eapply Ext; [|exact X1]. intros i L. unfold set_at. destruct (Nat.eqb_spec i n) as [->|]; [now symmetry|reflexivity].
Qed.
Lemma floor_near y : exists d, 0 < d /\ forall k, Rabs k < d -> (Int_part (y + k) = Int_part y \/ Int_part (y + k) = Int_part y - 1)%Z /\ IZR (Int_part (y + k)) <= y <= IZR (Int_part (y + k)) + 1.
Proof.
  pose proof (base_Int_part y) as [L U]. set (a := Int_part y) in *.
  assert (T : forall z n, IZR n <= z < IZR n + 1 -> Int_part z = n) by (intros z n Hz; unfold Int_part; rewrite <- (up_tech z n); [lia|lra|rewrite plus_IZR; lra]).
  destruct (Req_dec y (IZR a)) as [E|NE].
  - exists 1. split; [lra|]. intros k Hk. apply Rabs_def2 in Hk. destruct (Rle_dec 0 k).
    + rewrite (T (y + k) a) by lra. split; [left; reflexivity|lra].
    + assert (IZR (a - 1) = IZR a - 1) by (rewrite minus_IZR; lra). rewrite (T (y + k) (a - 1)%Z) by lra. split; [right; reflexivity|lra].
  - exists (Rmin (y - IZR a) (IZR a + 1 - y)). split; [apply Rmin_glb_lt; lra|]. intros k Hk. pose proof (Rmin_l (y - IZR a) (IZR a + 1 - y)). pose proof (Rmin_r (y - IZR a) (IZR a + 1 - y)).
    assert (H1 : Rabs k < y - IZR a) by lra. assert (H2 : Rabs k < IZR a + 1 - y) by lra. apply Rabs_def2 in H1. apply Rabs_def2 in H2.
    rewrite (T (y + k) a) by lra. split; [left; reflexivity|lra].
Qed.
Lemma floors_near x n : exists d, 0 < d /\ forall h, (forall i, (i < n)%nat -> Rabs (h i) < d) ->
  box n (lattice_floor x) (lattice_floor (fun i => x i + h i)) /\ forall i, (i < n)%nat -> IZR (Int_part (x i + h i)) <= x i <= IZR (Int_part (x i + h i)) + 1.
Proof.
  induction n as [|n (d & P & Q)]; [exists 1; split; [lra|]; intros h _; split; [intros i L; lia|lia]|].
  destruct (floor_near (x n)) as (e & Pe & Qe). exists (Rmin d e). split; [now apply Rmin_glb_lt|]. intros h H.
  destruct (Q h) as [B C]; [intros i L; eapply Rlt_le_trans; [apply H; lia|apply Rmin_l]|]. destruct (Qe (h n)) as [Bn Cn]; [eapply Rlt_le_trans; [apply H; lia|apply Rmin_r]|].
  split; intros i L; (destruct (Nat.eq_dec i n) as [->|D]; [assumption|]); [apply B|apply C]; lia.
Qed.
Lemma floor_in_cell x : in_cell N (lattice_floor x) x.
Proof. intros i _. pose proof (base_Int_part (x i)) as [L U]. unfold lattice_floor. lra. Qed.
Definition cellV (x : nat -> R) : R := V G N (lattice_floor x) x N (lattice_floor x).
Definition cellW (x : nat -> R) : nat -> R := W G N (lattice_floor x) x N (lattice_floor x).
Lemma hg_noise x : has_gradient N cellV x (cellW x).
Proof.
  intros eps P.
  destruct (uniform (lattice_floor x) N (fun p d => in_cell N p x -> forall r h, 0 <= r < d -> small N r h ->
     Rabs (V G N p (fun i => x i + h i) N p - V G N p x N p - rsum N (fun i => cellW x i * h i)) <= eps * r)) as (d & Pd & Q).
  - intros p p' d E H C r h Lr B.
    assert (Ep : forall y, V G N p' y N p' = V G N p y N p).
    { intros y. rewrite (proj1 (V_p_ext G N p' p y N (fun i L => eq_sym (E i L)) p')). apply V_ext; [exact G_ext|lia]. }
    rewrite !Ep. apply H; trivial. intros i L. rewrite (E i L). now apply C.
  - intros p d d' L H C r h Lr B. apply H; trivial. lra.
  - intros p _. destruct (hg_V p x N (le_n N) p eps P) as (d & Pd & Q). exists d. split; [exact Pd|]. intros C r h Lr B.
    rewrite (rsum_ext N _ (fun i => W G N p x N p i * h i)); [now apply Q|]. intros i L. f_equal. symmetry. apply (V_agree G N G_ext); [exact C|apply floor_in_cell].
  - destruct (floors_near x N) as (e & Pe & Qe). exists (Rmin d e). split; [now apply Rmin_glb_lt|]. intros r h Lr B. pose proof (Rmin_l d e). pose proof (Rmin_r d e).
    destruct (Qe h) as [Bx Cx]; [intros i L; eapply Rle_lt_trans; [now apply B|lra]|].
    unfold cellV at 1. replace (cellV x) with (V G N (lattice_floor (fun i => x i + h i)) x N (lattice_floor (fun i => x i + h i))).
    + apply Q; [exact Bx|exact Cx|lra|exact B].
    + apply (V_agree G N G_ext); [exact Cx|apply floor_in_cell].
Qed.

(** ** Closed form *)
Lemma fade_ease t : fade t = ease t.
Proof. unfold fade, ease. ring. Qed.
Lemma bit_low m c : (c < 2 ^ m)%nat -> Nat.testbit c m = false.
Proof. intros L. rewrite Nat.testbit_eqb, Nat.div_small by exact L. reflexivity. Qed.
Lemma bit_top m c : (c < 2 ^ m)%nat -> Nat.testbit (2 ^ m + c) m = true.
Proof.
  intros L. rewrite Nat.testbit_eqb. replace (2 ^ m + c)%nat with (c + 1 * 2 ^ m)%nat by lia. rewrite Nat.div_add by (apply Nat.pow_nonzero; lia). rewrite Nat.div_small by exact L. reflexivity.
Qed.
Lemma bit_rest m c i : (i < m)%nat -> Nat.testbit (2 ^ m + c) i = Nat.testbit c i.
Proof.
  intros L. rewrite !Nat.testbit_eqb. replace (2 ^ m)%nat with (2 * 2 ^ (m - i - 1) * 2 ^ i)%nat.
  - rewrite Nat.add_comm, Nat.div_add by (apply Nat.pow_nonzero; lia). rewrite Nat.add_comm, Nat.mul_comm, Nat.add_comm, Nat.mod_add by lia. reflexivity.
  - rewrite <- Nat.pow_succ_r', <- Nat.pow_add_r. f_equal. lia.
Qed.
Lemma rsum_pow m f : rsum (2 ^ S m) f = rsum (2 ^ m) f + rsum (2 ^ m) (fun c => f (2 ^ m + c)%nat).
Proof. rewrite Nat.pow_succ_r', Nat.mul_comm. replace (2 ^ m * 2)%nat with (2 ^ m + 2 ^ m)%nat by lia. apply rsum_split. Qed.
Definition low (p : nat -> Z) (m c : nat) (q : nat -> Z) : nat -> Z := fun i => if (i <? m)%nat then cell_corner p c i else q i.
Lemma V_closed p x m : (m <= N)%nat -> forall q, V G N p x m q = rsum (2 ^ m) (fun c => weight m p c x * plane G N (low p m c q) x).
Proof.
  induction m as [|m IH]; intros L q; [cbn; rewrite Rplus_0_l; unfold weight; cbn; rewrite Rmult_1_l; reflexivity|].
  cbn [V]. rewrite !IH by lia. rewrite rsum_pow. unfold mix. rewrite <- !rsum_scal. f_equal; apply rsum_ext; intros c Lc; unfold weight; cbn [rprod].
  - rewrite bit_low by exact Lc. rewrite fade_ease.
    rewrite (plane_ext G N G_ext (low p (S m) c q) (low p m c (set_at q m (p m)))); [ring|]. intros i Li. unfold low, set_at, cell_corner.
    destruct (Nat.ltb_spec i (S m)), (Nat.ltb_spec i m), (Nat.eqb_spec i m); try lia; trivial. subst i. rewrite bit_low by exact Lc. lia.
  - rewrite bit_top by exact Lc. rewrite fade_ease.
    rewrite (plane_ext G N G_ext (low p (S m) (2 ^ m + c) q) (low p m c (set_at q m (p m + 1)%Z))).
    + rewrite (rprod_ext m (fun i => if Nat.testbit (2 ^ m + c) i then _ else _) (fun i => if Nat.testbit c i then ease (x i - IZR (p i)) else 1 - ease (x i - IZR (p i)))); [ring|].
      intros i Li. rewrite bit_rest by exact Li. reflexivity.
    + intros i Li. unfold low, set_at, cell_corner. destruct (Nat.ltb_spec i (S m)), (Nat.ltb_spec i m), (Nat.eqb_spec i m); try lia; trivial.
      * rewrite bit_rest by assumption. reflexivity.
      * subst i. rewrite bit_top by exact Lc. lia.
Qed.
Lemma V_blend p x : V G N p x N p = blend G N p x.
Proof.
  rewrite V_closed by lia. apply rsum_ext. intros c _. f_equal. apply (plane_ext G N G_ext). intros i L. unfold low. destruct (Nat.ltb_spec i N); [reflexivity|lia].
Qed.
Lemma cellV_noise x : cellV x = noise G N x.
Proof. apply V_blend. Qed.
End Glue.
