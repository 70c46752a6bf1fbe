(** Perlin noise: the lattice hash, the whole evaluation, and undefined behaviour. *)
From Coq Require Import Reals ZArith Lra Lia List Bool Arith.
From Verif Require Import PerlinModel PerlinSpec PerlinProofs PerlinDiffProofs.
Import ListNotations.
Open Scope R_scope.

Lemma int_part_is z n : IZR n <= z < IZR n + 1 -> Int_part z = n.
Proof. intros Hz. unfold Int_part. rewrite <- (up_tech z n); [lia|lra|rewrite plus_IZR; lra]. Qed.
Lemma int_part_int n : Int_part (IZR n) = n.
Proof. apply int_part_is. lra. Qed.
Lemma int_part_add x n : Int_part (x + IZR n) = (Int_part x + n)%Z.
Proof. apply int_part_is. rewrite plus_IZR. pose proof (base_Int_part x). lra. Qed.
Lemma fold_ext {A B} (f g : A -> B -> A) l : (forall a b, f a b = g a b) -> forall a, fold_left f l a = fold_left g l a.
Proof. intros E. induction l as [|b l IH]; intros a; [reflexivity|]. cbn. rewrite E. apply IH. Qed.

Lemma forallb_same {A} (f g : A -> bool) l : (forall a, f a = g a) -> forallb f l = forallb g l.
Proof. intros E. induction l as [|b l IH]; [reflexivity|]. cbn. now rewrite E, IH. Qed.

(** ** The hash *)
Lemma wrap_mod z : exists w, wrap z = Some w /\ (w mod 2 ^ 64 = z mod 2 ^ 64)%Z.
Proof.
  eexists. split; [reflexivity|]. rewrite Zminus_mod_idemp_l. f_equal. lia.
Qed.
Lemma hash_step_wrap idx k : exists w, hash_step wrap idx k = Some w /\ (w mod 2 ^ 64 = (6364136223846793005 * (k + idx) + 1442695040888963407) mod 2 ^ 64)%Z.
Proof.
  unfold hash_step. destruct (wrap_mod (k + idx)%Z) as (a & -> & A). cbn [bind]. destruct (wrap_mod (6364136223846793005 * a)%Z) as (b & -> & B). cbn [bind].
  destruct (wrap_mod (b + 1442695040888963407)%Z) as (c & -> & C). exists c. split; [reflexivity|].
  rewrite C, <- Zplus_mod_idemp_l, B, Zplus_mod_idemp_l, <- Zplus_mod_idemp_l, <- Zmult_mod_idemp_r, A, Zmult_mod_idemp_r, Zplus_mod_idemp_l. reflexivity.
Qed.
Lemma scramble_wrap N q : exists w, scramble wrap N q = Some w /\ (w mod 2 ^ 64 = lattice_hash N q mod 2 ^ 64)%Z.
Proof.
  induction N as [|n (w & E & M)]; [exists 0%Z; split; reflexivity|]. unfold scramble in *. rewrite seq_S, fold_left_app, E. cbn [fold_left bind Nat.add lattice_hash].
  destruct (hash_step_wrap w (q n)) as (v & -> & Mv). exists v. split; [reflexivity|]. rewrite Mv.
  rewrite <- Zplus_mod_idemp_l, <- Zmult_mod_idemp_r, <- (Zplus_mod_idemp_r w), M, Zplus_mod_idemp_r, Zmult_mod_idemp_r, Zplus_mod_idemp_l. reflexivity.
Qed.
Lemma rem_256 z : Z.rem (Z.rem z 256 + 256) 256 = (z mod 256)%Z.
Proof.
  pose proof (Z.rem_bound_abs z 256 ltac:(lia)) as B. change (Z.abs 256) with 256%Z in B. assert (0 <= Z.rem z 256 + 256)%Z by lia.
  rewrite Z.rem_mod_nonneg by lia. rewrite <- (Z.mul_1_l 256) at 2. rewrite Z.mod_add by lia.
  rewrite (Z.quot_rem' z 256) at 2. rewrite Z.add_comm, Z.mul_comm, Z.mod_add by lia. reflexivity.
Qed.
Lemma mod_64_256 a b : (a mod 2 ^ 64 = b mod 2 ^ 64 -> a mod 256 = b mod 256)%Z.
Proof.
  intros E. assert (D : (256 | 2 ^ 64)%Z) by (exists (2 ^ 56)%Z; reflexivity). rewrite (Znumtheory.Zmod_div_mod 256 (2 ^ 64) a), (Znumtheory.Zmod_div_mod 256 (2 ^ 64) b); trivial; try reflexivity. now rewrite E.
Qed.
Lemma grid_index_wrap N q : grid_index wrap N q = Some (lattice_hash N q mod 256)%Z.
Proof. unfold grid_index. destruct (scramble_wrap N q) as (w & -> & M). cbn. rewrite rem_256. f_equal. now apply mod_64_256. Qed.
Lemma lattice_hash_ext N q q' : (forall i, (i < N)%nat -> q i = q' i) -> lattice_hash N q = lattice_hash N q'.
Proof. induction N as [|n IH]; intros H; [reflexivity|]. cbn [lattice_hash]. rewrite (H n), IH by (try (intros; apply H); lia). reflexivity. Qed.
Lemma lattice_gradient_ext gr N q q' : (forall i, (i < N)%nat -> q i = q' i) -> forall j, lattice_gradient gr N q j = lattice_gradient gr N q' j.
Proof. intros H j. unfold lattice_gradient. now rewrite (lattice_hash_ext N q q' H). Qed.

(** ** Whole evaluation *)
Section Top.
Variables (ar : Z -> option Z) (N : nat) (gr : Z -> nat -> R) (x : nat -> R).
Let G := lattice_gradient gr N.
Let p := lattice_floor x.
Hypothesis Range : in_range N x.
Hypothesis Corners : forall c, (c < 2 ^ N)%nat -> exists q, add_corner ar N p c = Some q /\ (forall i, q i = cell_corner p c i) /\ grid_gradient ar N gr q = Some (G q).
Lemma chk_in z : (- 2 ^ 63 <= z < 2 ^ 63)%Z -> chk z = Some z.
Proof. intros H. unfold chk. destruct (Z.leb_spec (- 2 ^ 63) z); [|lia]. destruct (Z.ltb_spec z (2 ^ 63)); [reflexivity|lia]. Qed.
Lemma to_grid_ok : exists p0, to_grid N (floor_pt x) = Some p0 /\ forall i, p0 i = p i.
Proof.
  unfold to_grid. assert (E : forallb (fun i => match chk (Int_part (floor_pt x i)) with Some _ => true | None => false end) (seq 0 N) = true).
  { apply forallb_forall. intros i Hi. apply in_seq in Hi. unfold floor_pt. rewrite int_part_int, chk_in by (apply Range; lia). reflexivity. }
  rewrite E. eexists. split; [reflexivity|]. intros i. unfold floor_pt. apply int_part_int.
Qed.
Lemma add_corner_ext p0 c : (forall i, p0 i = p i) -> forall q, add_corner ar N p c = Some q -> exists q', add_corner ar N p0 c = Some q' /\ forall i, q' i = q i.
Proof.
  intros E q. unfold add_corner.
  assert (X : forallb (fun i => match ar (p0 i + corner c i)%Z with Some _ => true | None => false end) (seq 0 N) = forallb (fun i => match ar (p i + corner c i)%Z with Some _ => true | None => false end) (seq 0 N))
    by (apply forallb_same; intros i; now rewrite E).
  rewrite X. intros H. destruct (forallb _ (seq 0 N)) in H |- *. 2: discriminate H. injection H as <-. eexists. split; [reflexivity|]. intros i. cbn. now rewrite E.
Qed.
Lemma entry_cell c : (forall i, entry p 0 c i = cell_corner p c i).
Proof. intros i. unfold entry, cell_corner, corner. cbn. rewrite Nat.sub_0_r. reflexivity. Qed.
Lemma corner_cell c i : (p i + corner c i)%Z = cell_corner p c i.
Proof. reflexivity. Qed.
Lemma scramble_ext q q' : (forall i, (i < N)%nat -> q i = q' i) -> scramble ar N q = scramble ar N q'.
Proof.
  intros H. unfold scramble. enough (X : forall l s, (forall i, In i l -> q i = q' i) -> fold_left (fun idx i => bind idx (fun idx => hash_step ar idx (q i))) l s = fold_left (fun idx i => bind idx (fun idx => hash_step ar idx (q' i))) l s).
  { apply X. intros i Hi. apply in_seq in Hi. apply H. lia. }
  induction l as [|i l IH]; intros s Hl; [reflexivity|]. cbn. rewrite (Hl i) by now left. apply IH. intros; apply Hl; now right.
Qed.
Lemma corner_value c p0 : (c < 2 ^ N)%nat -> (forall i, p0 i = p i) ->
  exists q g, add_corner ar N p0 c = Some q /\ grid_gradient ar N gr q = Some g /\ (forall j, g j = G (entry p 0 c) j) /\
    vdot N (fun i => x i - floor_pt x i - IZR (corner c i)) g = plane G N (entry p 0 c) x.
Proof.
  intros L E. destruct (Corners c L) as (q & A & B & C). destruct (add_corner_ext p0 c E q A) as (q' & A' & B').
  assert (C' : grid_gradient ar N gr q' = Some (G q)).
  { unfold grid_gradient, grid_index in *. rewrite (scramble_ext q' q) by (intros; apply B'). exact C. }
  exists q', (G q). split; [exact A'|]. split; [exact C'|].
  assert (X : forall j, G q j = G (entry p 0 c) j) by (apply lattice_gradient_ext; intros i _; rewrite entry_cell; apply B).
  split; [exact X|]. rewrite vdot_rsum. unfold plane. apply rsum_ext. intros i _. rewrite X, entry_cell, <- corner_cell, plus_IZR. unfold floor_pt, p, lattice_floor. ring.
Qed.
Lemma eval_general f : eval ar N gr f x = Some (noise G N x).
Proof.
  unfold eval. destruct to_grid_ok as (p0 & -> & E). cbn [bind].
  set (g := fun c => bind (add_corner ar N p0 c) (fun q => bind (grid_gradient ar N gr q) (fun g => Some (vdot N (fun i => x i - floor_pt x i - IZR (corner c i)) g)))).
  destruct (fill_corners (2 ^ N) g (fun c => plane G N (entry p 0 c) x) f) as (f' & Ef & Q).
  { intros c L. unfold g. destruct (corner_value c p0 L E) as (q & h & -> & Hg & _ & V). cbn [bind]. rewrite Hg. cbn [bind]. now rewrite V. }
  rewrite (fold_ext _ (fun f c => bind f (fun f => bind (g c) (fun x => Some (set_at f c x))))).
  2:{ intros [a|] c; [|reflexivity]. cbn [bind]. unfold g. destruct (add_corner ar N p0 c); [|reflexivity]. cbn [bind]. destruct (grid_gradient ar N gr z); reflexivity. }
  rewrite Ef. cbn [bind]. f_equal. pose proof (eval_loop G N (lattice_gradient_ext gr N) p x f' Q N (le_n N) 0%nat) as X. rewrite Nat.sub_diag in X. specialize (X ltac:(cbn; lia)).
  etransitivity; [exact X|]. rewrite <- (cellV_noise G N (lattice_gradient_ext gr N)). apply V_ext; [apply lattice_gradient_ext|lia].
Qed.
Lemma fill2 n (A : nat -> option (R * (nat -> R))) (v : nat -> R) (g : nat -> nat -> R) s : (forall c, (c < n)%nat -> exists w, A c = Some (v c, w) /\ forall j, w j = g c j) ->
  exists s', fold_left (fun s c => bind s (fun s => bind (A c) (fun y => Some (set_at (fst s) c (fst y), set_at (snd s) c (snd y))))) (seq 0 n) (Some s) = Some s' /\
    forall c, (c < n)%nat -> fst s' c = v c /\ forall j, snd s' c j = g c j.
Proof.
  induction n as [|n IH]; intros H; [exists s; split; [reflexivity|lia]|]. destruct (IH (fun c L => H c ltac:(lia))) as (s' & E & Q).
  rewrite seq_S, fold_left_app, E. cbn [fold_left bind Nat.add]. destruct (H n ltac:(lia)) as (w & -> & Hw). cbn [bind]. eexists. split; [reflexivity|]. intros c L. cbn [fst snd]. unfold set_at.
  destruct (Nat.eqb_spec c n) as [->|]; [split; [reflexivity|exact Hw]|]. apply Q. lia.
Qed.
Lemma gradient_general f df : N <> 1%nat -> exists w, gradient ar N gr f df x = Some (noise G N x, w) /\ has_gradient N (noise G N) x w.
Proof.
  intros N1. unfold gradient. destruct to_grid_ok as (p0 & -> & E). cbn [bind].
  set (A := fun c => bind (add_corner ar N p0 c) (fun q => bind (grid_gradient ar N gr q) (fun g => Some (vdot N (fun i => x i - floor_pt x i - IZR (corner c i)) g, g)))).
  destruct (fill2 (2 ^ N) A (fun c => plane G N (entry p 0 c) x) (fun c => G (entry p 0 c)) (f, df)) as (s' & Ef & Q).
  { intros c L. unfold A. destruct (corner_value c p0 L E) as (q & h & -> & Hg & Hj & V). cbn [bind]. rewrite Hg. cbn [bind]. exists h. rewrite V. split; [reflexivity|exact Hj]. }
  rewrite (fold_ext _ (fun s c => bind s (fun s => bind (A c) (fun y => Some (set_at (fst s) c (fst y), set_at (snd s) c (snd y)))))).
  2:{ intros [a|] c; [|reflexivity]. cbn [bind]. unfold A. destruct (add_corner ar N p0 c); [|reflexivity]. cbn [bind]. destruct (grid_gradient ar N gr z); reflexivity. }
  rewrite Ef. cbn [bind]. destruct (Nat.eqb_spec N 1); [contradiction|].
  pose proof (gradient_loop G N (lattice_gradient_ext gr N) p x s' Q N (le_n N) 0%nat) as X. rewrite Nat.sub_diag in X. specialize (X ltac:(cbn; lia)). cbn zeta in X.
  change (fun i => x i - floor_pt x i) with (fun i => x i - IZR (p i)). set (s := fold_left _ (seq 0 N) s') in *. destruct X as [X Y]. exists (snd s 0%nat). split.
  - do 2 f_equal. rewrite X. rewrite <- (cellV_noise G N (lattice_gradient_ext gr N)). apply V_ext; [apply lattice_gradient_ext|lia].
  - apply (hg_fext N x (cellV G N)); [apply cellV_noise, lattice_gradient_ext|]. eapply hg_ext; [|apply hg_noise, lattice_gradient_ext]. intros j _. rewrite Y. apply W_ext; [apply lattice_gradient_ext|]. intros i L. lia.
Qed.
End Top.
Lemma corners_wrap N gr x c : exists q, add_corner wrap N (lattice_floor x) c = Some q /\ (forall i, q i = cell_corner (lattice_floor x) c i) /\ grid_gradient wrap N gr q = Some (lattice_gradient gr N q).
Proof.
  unfold add_corner. rewrite (proj2 (forallb_forall _ _)) by reflexivity. eexists. split; [reflexivity|]. split; [reflexivity|]. unfold grid_gradient. rewrite grid_index_wrap. reflexivity.
Qed.
(** Strict arithmetic. *)
Lemma chk_some z w : chk z = Some w -> w = z /\ (- 2 ^ 63 <= z < 2 ^ 63)%Z.
Proof. unfold chk. destruct (Z.leb_spec (- 2 ^ 63) z); [|discriminate]. destruct (Z.ltb_spec z (2 ^ 63)); [|discriminate]. cbn. intros E. injection E as <-. split; [reflexivity|lia]. Qed.
Lemma step_chk idx k v : hash_step chk idx k = Some v -> (-1 <= k + idx <= 1 /\ v = 6364136223846793005 * (k + idx) + 1442695040888963407)%Z.
Proof.
  unfold hash_step. destruct (chk (k + idx)) as [s|] eqn:A; [|discriminate]. cbn [bind]. apply chk_some in A. destruct A as [-> _].
  destruct (chk (6364136223846793005 * (k + idx))) as [m|] eqn:B; [|discriminate]. cbn [bind]. apply chk_some in B. destruct B as [-> B]. intros C. apply chk_some in C. destruct C as [-> C]. split; [lia|reflexivity].
Qed.
Lemma fold_none {A B} (f : A -> B -> option A) l : fold_left (fun o b => bind o (fun a => f a b)) l None = None.
Proof. induction l; [reflexivity|exact IHl]. Qed.
Lemma scramble_chk n q v : scramble chk (S n) q = Some v -> (-1 <= q 0%nat <= 1)%Z.
Proof.
  unfold scramble. cbn [seq fold_left bind]. destruct (hash_step chk 0 (q 0%nat)) as [i|] eqn:A; [|rewrite (fold_none (fun idx i => hash_step chk idx (q i))); discriminate].
  intros _. apply step_chk in A. lia.
Qed.
Lemma scramble_chk2 n q v : scramble chk (S (S n)) q = Some v -> (-1 <= q 1%nat + (6364136223846793005 * q 0%nat + 1442695040888963407) <= 1)%Z.
Proof.
  unfold scramble. cbn [seq fold_left bind]. destruct (hash_step chk 0 (q 0%nat)) as [i|] eqn:A; [|cbn [bind]; rewrite (fold_none (fun idx i => hash_step chk idx (q i))); discriminate].
  cbn [bind]. destruct (hash_step chk i (q 1%nat)) as [j|] eqn:B; [|rewrite (fold_none (fun idx i => hash_step chk idx (q i))); discriminate].
  intros _. apply step_chk in A. apply step_chk in B. destruct A as [A ->]. lia.
Qed.
Lemma grid_some N gr q g : grid_gradient chk N gr q = Some g -> exists v, scramble chk N q = Some v.
Proof. unfold grid_gradient, grid_index. destruct (scramble chk N q); [eauto|discriminate]. Qed.
Lemma fold_all {A B C E} (P : C -> option A) (Q : A -> option B) (R : E -> C -> B -> E) l : forall s s',
  fold_left (fun s c => bind s (fun s => bind (P c) (fun q => bind (Q q) (fun g => Some (R s c g))))) l (Some s) = Some s' -> forall c, In c l -> exists q g, P c = Some q /\ Q q = Some g.
Proof.
  induction l as [|c l IH]; intros s s' H d Hd; [destruct Hd|]. cbn [fold_left bind] in H.
  destruct (P c) as [q|] eqn:Ep; [|cbn [bind] in H; rewrite (fold_none (fun s c => bind (P c) (fun q => bind (Q q) (fun g => Some (R s c g))))) in H; discriminate]. cbn [bind] in H.
  destruct (Q q) as [g|] eqn:Eq; [|cbn [bind] in H; rewrite (fold_none (fun s c => bind (P c) (fun q => bind (Q q) (fun g => Some (R s c g))))) in H; discriminate]. cbn [bind] in H.
  destruct Hd as [->|Hd]; [eauto|]. exact (IH _ _ H d Hd).
Qed.
Lemma add_corner_some ar N p0 c q : add_corner ar N p0 c = Some q -> forall i, q i = (p0 i + corner c i)%Z.
Proof. unfold add_corner. destruct (forallb _ _); [|discriminate]. intros E. now injection E as <-. Qed.
Lemma to_grid_some N x p0 : to_grid N (floor_pt x) = Some p0 -> forall i, p0 i = Int_part (x i).
Proof. unfold to_grid. destruct (forallb _ _); [|discriminate]. intros E i. injection E as <-. unfold floor_pt. apply int_part_int. Qed.
Lemma eval_needs N gr f x v : eval chk N gr f x = Some v -> forall c, (c < 2 ^ N)%nat -> exists w, scramble chk N (cell_corner (lattice_floor x) c) = Some w.
Proof.
  unfold eval. destruct (to_grid N (floor_pt x)) as [p0|] eqn:Ep; [|discriminate]. cbn [bind]. intros H c L.
  match type of H with bind ?o _ = _ => destruct o as [f'|] eqn:Ef; [|discriminate] end.
  destruct (fold_all (add_corner chk N p0) (grid_gradient chk N gr) (fun f c g => set_at f c (vdot N (fun i => x i - floor_pt x i - IZR (corner c i)) g)) _ _ _ Ef c) as (q & g & A & B); [apply in_seq; lia|].
  apply grid_some in B. destruct B as [w B]. exists w. rewrite <- B. apply scramble_ext. intros i _. rewrite (add_corner_some _ _ _ _ _ A), (to_grid_some _ _ _ Ep). reflexivity.
Qed.
Lemma strict_2d n gr f x : eval chk (S (S n)) gr f x = None.
Proof.
  destruct (eval chk (S (S n)) gr f x) as [v|] eqn:E; [|reflexivity]. exfalso.
  assert (P : (1 < 2 ^ S (S n))%nat) by (rewrite !Nat.pow_succ_r'; assert (2 ^ n <> 0)%nat by (apply Nat.pow_nonzero; lia); lia).
  destruct (eval_needs _ _ _ _ _ E 0%nat ltac:(lia)) as (w0 & A). destruct (eval_needs _ _ _ _ _ E 1%nat P) as (w1 & B). apply scramble_chk2 in A. apply scramble_chk2 in B.
  unfold cell_corner in *. cbn [Nat.testbit Nat.odd Nat.even negb Nat.div2] in A, B. lia.
Qed.
Lemma strict_1d gr f x : eval chk 1 gr f x = if Z.eqb (Int_part (x 0%nat)) (-1) || Z.eqb (Int_part (x 0%nat)) 0 then Some (noise (lattice_gradient gr 1) 1 x) else None.
Proof.
  set (k := Int_part (x 0%nat)). destruct (Z.eqb_spec k (-1)) as [E|E]; [|destruct (Z.eqb_spec k 0) as [E0|E0]]; cbn [orb].
  - apply eval_general; [intros i L; replace i with 0%nat by lia; fold k; lia|].
    intros c L. unfold add_corner. cbn [seq forallb]. fold k.
    assert (C : c = 0%nat \/ c = 1%nat) by (cbn in L; lia). destruct C as [->| ->]; cbn [corner Nat.testbit]; unfold lattice_floor; fold k; rewrite E; cbn; (eexists; split; [reflexivity|]; split; [reflexivity|]);
      unfold grid_gradient, grid_index, scramble; cbn [seq fold_left bind]; unfold lattice_gradient, lattice_hash; fold k; rewrite E; reflexivity.
  - apply eval_general; [intros i L; replace i with 0%nat by lia; fold k; lia|].
    intros c L. unfold add_corner. cbn [seq forallb]. fold k.
    assert (C : c = 0%nat \/ c = 1%nat) by (cbn in L; lia). destruct C as [->| ->]; cbn [corner Nat.testbit]; unfold lattice_floor; fold k; rewrite E0; cbn; (eexists; split; [reflexivity|]; split; [reflexivity|]);
      unfold grid_gradient, grid_index, scramble; cbn [seq fold_left bind]; unfold lattice_gradient, lattice_hash; fold k; rewrite E0; reflexivity.
  - destruct (eval chk 1 gr f x) as [v|] eqn:Ev; [|reflexivity]. exfalso.
    destruct (eval_needs _ _ _ _ _ Ev 0%nat ltac:(cbn; lia)) as (w0 & A). destruct (eval_needs _ _ _ _ _ Ev 1%nat ltac:(cbn; lia)) as (w1 & B). apply scramble_chk in A. apply scramble_chk in B.
    unfold cell_corner, lattice_floor in *. fold k in A, B. cbn [Nat.testbit Nat.odd Nat.even negb Nat.div2] in A, B. lia.
Qed.
(** ** Periodicity *)
Lemma hash_shift N q d : exists t, (lattice_hash N (fun i => (q i + d i)) = lattice_hash N q + shift_hash N d + 256 * t)%Z.
Proof.
  induction N as [|n (t & E)]; [exists 0%Z; reflexivity|]. cbn [lattice_hash shift_hash]. rewrite E.
  exists (24859907124401535 * (d n + shift_hash n d) + 6364136223846793005 * t)%Z. ring.
Qed.
Lemma shift_same gr N d : (shift_hash N d mod 256 = 0)%Z -> forall q j, lattice_gradient gr N (fun i => (q i + d i)%Z) j = lattice_gradient gr N q j.
Proof.
  intros H q j. unfold lattice_gradient. destruct (hash_shift N q d) as (t & ->). rewrite Z.mul_comm, Z.mod_add by lia. rewrite <- Zplus_mod_idemp_r, H, Z.add_0_r. reflexivity.
Qed.
Lemma noise_shift gr N d x : (shift_hash N d mod 256 = 0)%Z -> noise (lattice_gradient gr N) N (fun i => x i + IZR (d i)) = noise (lattice_gradient gr N) N x.
Proof.
  intros H. unfold noise, blend. apply rsum_ext. intros c _. 
  assert (F : forall i, lattice_floor (fun i => x i + IZR (d i)) i = (lattice_floor x i + d i)%Z) by (intros i; apply int_part_add).
  assert (U : forall i, x i + IZR (d i) - IZR (lattice_floor (fun i => x i + IZR (d i)) i) = x i - IZR (lattice_floor x i)) by (intros i; rewrite F, plus_IZR; ring).
  f_equal.
  - unfold weight. apply rprod_ext. intros i _. now rewrite U.
  - unfold plane. apply rsum_ext. intros i _. f_equal.
    + unfold cell_corner. rewrite !plus_IZR. pose proof (U i). lra.
    + rewrite <- (shift_same gr N d H (cell_corner (lattice_floor x) c)). apply lattice_gradient_ext. intros k _. unfold cell_corner. rewrite F. lia.
Qed.
Lemma noise_lattice gr N (z : nat -> Z) : noise (lattice_gradient gr N) N (fun i => IZR (z i)) = 0.
Proof.
  unfold noise. rewrite <- (V_blend _ _ (lattice_gradient_ext gr N)). set (G := lattice_gradient gr N). set (x := fun i => IZR (z i)). set (p := lattice_floor x).
  assert (E : forall i, IZR (p i) = x i) by (intros i; unfold p, lattice_floor, x; now rewrite int_part_int).
  assert (X : forall m q, (forall i, (m <= i < N)%nat -> IZR (q i) = x i) -> V G N p x m q = 0).
  { induction m as [|m IH]; intros q H; cbn [V].
    - unfold plane. rewrite (rsum_ext N _ (fun _ => 0)); [apply rsum_zero|]. intros i L. rewrite H by lia. ring.
    - rewrite E, Rminus_diag_eq, fade0 by reflexivity. unfold mix. rewrite (IH (set_at q m (p m))); [ring|]. intros i L. unfold set_at. destruct (Nat.eqb_spec i m) as [->|]; [apply E|apply H; lia]. }
  apply X. intros i L. apply E.
Qed.
(** ** Bounds *)
Lemma ease_pos t : 0 <= t -> 0 <= ease t.
Proof. intros H. rewrite <- fade_ease. unfold fade. assert (0 <= t * t * t) by (repeat apply Rmult_le_pos; assumption). assert (0 <= t * (t * 6 - 15) + 10) by (pose proof (Rle_0_sqr (t - 5/4)) as Q; unfold Rsqr in Q; lra). now apply Rmult_le_pos. Qed.
Lemma ease_range t : 0 <= t <= 1 -> 0 <= fade t <= 1.
Proof.
  intros [L H]. rewrite fade_ease. split; [now apply ease_pos|]. assert (P := ease_pos (1 - t) ltac:(lra)). replace (ease (1 - t)) with (1 - ease t) in P by (unfold ease; ring). lra.
Qed.
Lemma V_bound G N p x M m : (m <= N)%nat -> in_cell N p x -> forall q,
  (forall c, (c < 2 ^ m)%nat -> Rabs (plane G N (low p m c q) x) <= M) -> (forall q q', (forall i, (i < N)%nat -> q i = q' i) -> forall j, G q j = G q' j) -> Rabs (V G N p x m q) <= M.
Proof.
  intros Lm C. induction m as [|m IH]; intros q H Ge; cbn [V].
  - specialize (H 0%nat ltac:(cbn; lia)). rewrite (plane_ext G N Ge _ q) in H by (intros; reflexivity). exact H.
  - assert (F := ease_range (x m - IZR (p m))). pose proof (C m ltac:(lia)). specialize (F ltac:(lra)).
    assert (A : Rabs (V G N p x m (set_at q m (p m))) <= M).
    { apply IH; [lia| |exact Ge]. intros c L. assert (Hc := H c ltac:(rewrite Nat.pow_succ_r'; lia)). rewrite (plane_ext G N Ge _ (low p (S m) c q)); [exact Hc|].
      intros i Li. unfold low, set_at, cell_corner. destruct (Nat.ltb_spec i (S m)), (Nat.ltb_spec i m), (Nat.eqb_spec i m); try lia; trivial. subst i. rewrite bit_low by exact L. lia. }
    assert (B : Rabs (V G N p x m (set_at q m (p m + 1)%Z)) <= M).
    { apply IH; [lia| |exact Ge]. intros c L. assert (Hc := H (2 ^ m + c)%nat ltac:(rewrite Nat.pow_succ_r'; lia)). rewrite (plane_ext G N Ge _ (low p (S m) (2 ^ m + c) q)); [exact Hc|].
      intros i Li. unfold low, set_at, cell_corner. destruct (Nat.ltb_spec i (S m)), (Nat.ltb_spec i m), (Nat.eqb_spec i m); try lia; trivial.
      - now rewrite bit_rest by assumption.
      - subst i. rewrite bit_top by exact L. lia. }
    unfold mix. set (t := fade _) in *. set (a := V _ _ _ _ _ _) in *. set (b := V _ _ _ _ _ (set_at q m (p m + 1)%Z)) in *.
    pose proof (Rle_abs a). pose proof (Rle_abs (- a)). pose proof (Rle_abs b). pose proof (Rle_abs (- b)). rewrite Rabs_Ropp in *. apply Rabs_le. split; nra.
Qed.
Lemma noise_bound gr N x M : (forall c, (c < 2 ^ N)%nat -> Rabs (plane (lattice_gradient gr N) N (cell_corner (lattice_floor x) c) x) <= M) -> Rabs (noise (lattice_gradient gr N) N x) <= M.
Proof.
  intros H. unfold noise. rewrite <- (V_blend _ _ (lattice_gradient_ext gr N)). apply V_bound; [lia|apply floor_in_cell| |apply lattice_gradient_ext].
  intros c L. rewrite (plane_ext _ N (lattice_gradient_ext gr N) _ (cell_corner (lattice_floor x) c)); [now apply H|]. intros i Li. unfold low. destruct (Nat.ltb_spec i N); [reflexivity|lia].
Qed.
Lemma hg_directional N F x w v : has_gradient N F x w -> derivable_pt_lim (fun s => F (fun i => x i + s * v i)) 0 (rsum N (fun i => w i * v i)).
Proof.
  intros H eps P. set (M := 1 + rsum N (fun i => Rabs (v i))).
  assert (Ps : forall n (u : nat -> R), 0 <= rsum n (fun i => Rabs (u i))) by (intros n u; rewrite <- (rsum_zero n); apply rsum_le; intros; apply Rabs_pos).
  assert (Pm : 1 <= M) by (pose proof (Ps N v); unfold M; lra).
  assert (B : forall i, (i < N)%nat -> Rabs (v i) <= M).
  { intros i L. unfold M. apply Rle_trans with (rsum N (fun i => Rabs (v i))); [|lra]. clear -Ps L. induction N as [|n IH]; [lia|]. cbn. destruct (Nat.eq_dec i n) as [->|].
    - pose proof (Ps n v). lra.
    - pose proof (IH ltac:(lia)). pose proof (Rabs_pos (v n)). lra. }
  destruct (H (eps / (2 * M))) as (d & Pd & Q); [apply Rdiv_lt_0_compat; lra|]. assert (Pdm : 0 < d / M) by (apply Rdiv_lt_0_compat; lra). exists (mkposreal _ Pdm). intros h Nh Lh. cbn in Lh.
  assert (Ph := Rabs_pos_lt h Nh).
  specialize (Q (M * Rabs h) (fun i => h * v i)). assert (L : 0 <= M * Rabs h < d).
  { split; [nra|]. apply (Rmult_lt_compat_l M) in Lh; [|lra]. replace (M * (d / M)) with d in Lh by (field; lra). exact Lh. }
  specialize (Q L ltac:(intros i Li; cbn beta; rewrite Rabs_mult, Rmult_comm; apply Rmult_le_compat_r; [lra|now apply B])).
  rewrite (rsum_ext N _ (fun i => h * (w i * v i))), rsum_scal in Q by (intros; ring).
  replace (F (fun i => x i + 0 * v i)) with (F x).
  2:{ f_equal. apply FunctionalExtensionality.functional_extensionality. intros i. ring. }
  rewrite Rplus_0_l. set (S := rsum N (fun i => w i * v i)) in *. set (F1 := F (fun i => x i + h * v i)) in *.
  replace ((F1 - F x) / h - S) with ((F1 - F x - h * S) * / h) by (field; exact Nh). rewrite Rabs_mult, Rabs_inv.
  apply Rle_lt_trans with (eps / (2 * M) * (M * Rabs h) * / Rabs h); [apply Rmult_le_compat_r; [left; now apply Rinv_0_lt_compat|exact Q]|].
  replace (eps / (2 * M) * (M * Rabs h) * / Rabs h) with (eps / 2) by (field; lra). lra.
Qed.
Lemma hg_continuous N F x w : has_gradient N F x w -> continuous_at N F x.
Proof.
  intros H eps P. destruct (grow N x F w H) as (d & Pd & Q). set (A := 1 + rsum N (fun i => Rabs (w i))) in *.
  assert (PA : 1 <= A) by (unfold A; assert (0 <= rsum N (fun i => Rabs (w i))) by (rewrite <- (rsum_zero N); apply rsum_le; intros; apply Rabs_pos); lra).
  set (r := Rmin (d / 2) (eps / (2 * A))). assert (Pr : 0 < r) by (apply Rmin_glb_lt; [lra|apply Rdiv_lt_0_compat; lra]).
  exists r. split; [exact Pr|]. intros y B. specialize (Q r (fun i => y i - x i)).
  assert (L : 0 <= r < d) by (pose proof (Rmin_l (d / 2) (eps / (2 * A))); unfold r in *; lra).
  specialize (Q L ltac:(intros i Li; left; now apply B)). unfold moved in Q. replace (F (fun i => x i + (y i - x i))) with (F y) in Q.
  2:{ f_equal. apply FunctionalExtensionality.functional_extensionality. intros i. ring. }
  eapply Rle_lt_trans; [exact Q|]. apply Rle_lt_trans with (A * (eps / (2 * A))); [apply Rmult_le_compat_l; [lra|apply Rmin_r]|]. replace (A * (eps / (2 * A))) with (eps / 2) by (field; lra). lra.
Qed.
