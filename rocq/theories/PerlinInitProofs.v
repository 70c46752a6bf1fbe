From Coq Require Import Reals ZArith Lra Lia List Bool Arith Permutation.
From Verif Require Import VecNModel SamplerModel PerlinModel PerlinInitModel PerlinSpec VecNSpec SamplerSpec VecNProofs SamplerProofs PerlinProofs PerlinDiffProofs PerlinHashProofs.
Import ListNotations.
Open Scope R_scope.

(** The mean square of the distances to the two ends is at most 1/4. *)
Lemma fade_spread x : 0 <= x <= 1 -> 0 <= fade x <= 1 /\ (1 - fade x) * (x * x) + fade x * ((1 - x) * (1 - x)) <= 1 / 4.
Proof.
  intros X. assert (F := ease_range x X). split; [exact F|].
  replace ((1 - fade x) * (x * x) + fade x * ((1 - x) * (1 - x))) with (x * x + fade x * (1 - 2 * x)) by ring.
  assert (D : fade x - x = (x * (1 - x)) * (2 * x - 1) * (1 + 3 * (x * (1 - x)))) by (unfold fade; ring).
  assert (P : 0 <= x * (1 - x)) by (apply Rmult_le_pos; lra).
  assert (S : 0 <= (fade x - x) * (2 * x - 1)).
  { rewrite D. replace (x * (1 - x) * (2 * x - 1) * (1 + 3 * (x * (1 - x))) * (2 * x - 1)) with (x * (1 - x) * (1 + 3 * (x * (1 - x))) * ((2 * x - 1) * (2 * x - 1))) by ring.
    apply Rmult_le_pos; [apply Rmult_le_pos; lra|apply Rle_0_sqr]. }
  assert (Q : 0 <= (x - 1 / 2) * (x - 1 / 2)) by apply Rle_0_sqr. lra.
Qed.
(** The root is concave. *)
Lemma sqrt_mix t a b : 0 <= t <= 1 -> 0 <= a -> 0 <= b -> (1 - t) * sqrt a + t * sqrt b <= sqrt ((1 - t) * a + t * b).
Proof.
  intros T A B. pose proof (sqrt_pos a). pose proof (sqrt_pos b). assert (N0 : 0 <= (1 - t) * sqrt a + t * sqrt b) by (assert (0 <= (1 - t) * sqrt a) by (apply Rmult_le_pos; lra); assert (0 <= t * sqrt b) by (apply Rmult_le_pos; lra); lra).
  rewrite <- (sqrt_Rsqr _ N0). apply sqrt_le_1_alt. unfold Rsqr. pose proof (sqrt_sqrt a A) as PA. pose proof (sqrt_sqrt b B) as PB. set (p := sqrt a) in *. set (q := sqrt b) in *. clearbody p q. subst a b.
  assert (0 <= (t * (1 - t)) * ((p - q) * (p - q))) by (apply Rmult_le_pos; [apply Rmult_le_pos; lra|apply Rle_0_sqr]). lra.
Qed.
Definition upper (N m : nat) (x : nat -> R) (q : nat -> Z) : R := rsum N (fun j => if (j <? m)%nat then 0 else (x j - IZR (q j)) * (x j - IZR (q j))).
Lemma upper_nonneg N m x q : 0 <= upper N m x q.
Proof. unfold upper. apply Rle_trans with (rsum N (fun _ => 0)); [rewrite rsum_zero; lra|]. apply rsum_le. intros i _. destruct (i <? m)%nat; [lra|apply Rle_0_sqr]. Qed.
Lemma upper_step N m x q v : (m < N)%nat -> upper N m x (set_at q m v) = (x m - IZR v) * (x m - IZR v) + upper N (S m) x q.
Proof.
  intros L. unfold upper. rewrite <- (rsum_one N m (fun _ => (x m - IZR v) * (x m - IZR v)) L), <- rsum_plus. apply rsum_ext. intros i I. unfold set_at.
  destruct (Nat.eqb_spec i m) as [E|Ne]; [rewrite E|]; destruct (Nat.ltb_spec i m), (Nat.ltb_spec i (S m)); try lia; try (rewrite E in *); destruct (Nat.ltb_spec m m), (Nat.ltb_spec m (S m)); try lia; lra.
Qed.
Section Range.
Variables (G : (nat -> Z) -> nat -> R) (N : nat).
Hypothesis G_short : forall q, length N (G q) <= 1.
Lemma plane_range q x : Rabs (plane G N q x) <= sqrt (upper N 0 x q).
Proof.
  pose proof (cauchy N (fun j => x j - IZR (q j)) (G q)) as C. change (inner N (fun j => x j - IZR (q j)) (G q)) with (plane G N q x) in C.
  change (sqrt (upper N 0 x q)) with (length N (fun j => x j - IZR (q j))). specialize (G_short q). pose proof (sqrt_pos (inner N (fun j => x j - IZR (q j)) (fun j => x j - IZR (q j)))) as P.
  change (0 <= length N (fun j => x j - IZR (q j))) in P. eapply Rle_trans; [exact C|]. apply Rle_trans with (length N (fun j => x j - IZR (q j)) * 1); [apply Rmult_le_compat_l; assumption|lra].
Qed.
Lemma V_range p x m : (m <= N)%nat -> in_cell N p x -> forall q, Rabs (V G N p x m q) <= sqrt (INR m / 4 + upper N m x q).
Proof.
  intros L C. induction m as [|m IH]; intros q.
  - cbn [V INR]. replace (0 / 4 + upper N 0 x q) with (upper N 0 x q) by field. apply plane_range.
  - cbn [V]. pose proof (C m ltac:(lia)) as X. set (f := x m - IZR (p m)) in *. destruct (fade_spread f ltac:(unfold f; lra)) as (F & S). set (t := fade f) in *.
    assert (A := IH ltac:(lia) (set_at q m (p m))). assert (B := IH ltac:(lia) (set_at q m (p m + 1)%Z)). rewrite upper_step in A, B by lia. rewrite plus_IZR in B. fold f in A.
    replace (x m - (IZR (p m) + 1)) with (- (1 - f)) in B by (unfold f; ring). pose proof (upper_nonneg N (Datatypes.S m) x q) as U. set (r := upper N (Datatypes.S m) x q) in *. pose proof (pos_INR m) as M.
    unfold mix. eapply Rle_trans; [apply Rabs_triang|]. rewrite !Rabs_mult, (Rabs_pos_eq (1 - t)), (Rabs_pos_eq t) by lra.
    apply Rle_trans with ((1 - t) * sqrt (INR m / 4 + (f * f + r)) + t * sqrt (INR m / 4 + (- (1 - f) * - (1 - f) + r))).
    + apply Rplus_le_compat; apply Rmult_le_compat_l; lra.
    + assert (F2 : 0 <= f * f) by apply Rle_0_sqr. assert (G2 : 0 <= - (1 - f) * - (1 - f)) by apply Rle_0_sqr.
      eapply Rle_trans; [apply sqrt_mix; lra|]. apply sqrt_le_1_alt. rewrite S_INR. lra.
Qed.
End Range.
Lemma noise_range N gr x : (forall i, (0 <= i < 256)%Z -> length N (gr i) <= 1) -> Rabs (noise (lattice_gradient gr N) N x) <= sqrt (INR N) / 2.
Proof.
  intros H. unfold noise. rewrite <- (V_blend _ _ (lattice_gradient_ext gr N)).
  assert (S : forall q, length N (lattice_gradient gr N q) <= 1) by (intros q; apply H, Z.mod_pos_bound; lia).
  eapply Rle_trans; [apply (V_range _ N S _ x N (le_n N) (floor_in_cell N x))|].
  assert (Z : upper N N x (lattice_floor x) = 0). { unfold upper. transitivity (rsum N (fun _ => 0)); [|apply rsum_zero]. apply rsum_ext. intros i I. destruct (Nat.ltb_spec i N); [reflexivity|lia]. }
  rewrite Z, Rplus_0_r. unfold Rdiv at 1. rewrite sqrt_mult_alt by apply pos_INR. replace (/ 4) with (/ 2 * / 2) by field. rewrite sqrt_square by lra. lra.
Qed.
Section Init.
Variable u : nat -> R.
Lemma gradients_ok N fuel : forall n k gs k', perlin_gradients u N fuel n k = Some (gs, k') ->
  List.length gs = n /\ Forall (fun g => (N <> 1%nat -> length N g = 1) /\ (N = 1%nat -> unit_numbers u -> -1 <= g 0%nat <= 1)) gs.
Proof.
  induction n as [|n IH]; intros k gs k' H; cbn [perlin_gradients] in H; [injection H as <- _; split; [reflexivity|constructor]|].
  destruct (Nat.eqb_spec N 1) as [E|NE].
  - destruct (perlin_gradients u N fuel n (k + 1)) as [[gs' k'']|] eqn:R; [|discriminate]. injection H as <- _. destruct (IH _ _ _ R) as (L & F). split; [cbn; now rewrite L|]. constructor; [|exact F].
    split; [contradiction|]. intros _ U. unfold rand_in. specialize (U k). lra.
  - destruct (solidball u N fuel k) as [[v k1]|]; [|discriminate]. destruct (unit_vec N v) as [g|] eqn:UV; [|discriminate].
    destruct (perlin_gradients u N fuel n k1) as [[gs' k'']|] eqn:R; [|discriminate]. injection H as <- _. destruct (IH _ _ _ R) as (L & F). split; [cbn; now rewrite L|]. constructor; [|exact F].
    split; [|contradiction]. intros _. exact (proj1 (unit_length N v g UV)).
Qed.
Lemma init_ok N fuel k c o : unit_numbers u -> choices 256 c -> perlin_init u N fuel k c = Some o ->
  List.length (pn_gradients o) = 256%nat /\ (forall g, In g (pn_gradients o) -> length N g <= 1 /\ (N <> 1%nat -> length N g = 1)) /\
  (N <> 1%nat -> exists p, pn_p o = Some p /\ Permutation (seq 0 256) p) /\ (N = 1%nat -> pn_p o = None).
Proof.
  intros U CH H. unfold perlin_init in H. destruct (perlin_gradients u N fuel 256 k) as [[gs k']|] eqn:R; [|discriminate]. destruct (gradients_ok N fuel 256 k gs k' R) as (L & F).
  assert (G : forall g, In g gs -> length N g <= 1 /\ (N <> 1%nat -> length N g = 1)).
  { intros g I. rewrite Forall_forall in F. destruct (F g I) as (A & B). split; [|exact A]. destruct (Nat.eq_dec N 1) as [->|NE]; [|rewrite A by exact NE; lra].
    specialize (B eq_refl U). unfold length, inner. cbn [rsum]. rewrite Rplus_0_l. change (g 0%nat * g 0%nat) with (Rsqr (g 0%nat)). rewrite sqrt_Rsqr_abs. apply Rabs_le. lra. }
  destruct (Nat.eqb_spec N 1) as [E|NE].
  - injection H as <-. cbn [pn_gradients pn_p]. repeat split; try (intros; contradiction); auto; apply G; assumption.
  - destruct (permute c (seq 0 256)) as [p|] eqn:P; [|discriminate]. injection H as <-. cbn [pn_gradients pn_p]. split; [exact L|]. split; [exact G|]. split; [|intros; contradiction].
    intros _. exists p. split; [reflexivity|]. destruct (permute_ok c (seq 0 256)) as (p' & E & PP); [rewrite seq_length; exact CH|]. congruence.
Qed.
Lemma table_short N o i : List.length (pn_gradients o) = 256%nat -> (forall g, In g (pn_gradients o) -> length N g <= 1) -> (0 <= i < 256)%Z -> length N (perlin_table o i) <= 1.
Proof. intros L G I. apply G. unfold perlin_table. apply nth_In. rewrite L. lia. Qed.
Lemma eval_range N fuel k c o f x : unit_numbers u -> choices 256 c -> perlin_init u N fuel k c = Some o -> in_range N x ->
  exists v, perlin_eval N o f x = Some v /\ Rabs v <= sqrt (INR N) / 2.
Proof.
  intros U CH H X. destruct (init_ok N fuel k c o U CH H) as (L & G & _).
  exists (noise (lattice_gradient (perlin_table o) N) N x). split; [exact (eval_general wrap N (perlin_table o) x X (fun c _ => corners_wrap N (perlin_table o) x c) f)|].
  apply noise_range. intros i I. apply table_short; [exact L|intros g IG; apply (G g IG)|exact I].
Qed.
(** In one dimension the table always exists. *)
Lemma gradients_1d fuel : forall n k, perlin_gradients u 1 fuel n k = Some (map (fun i => fun _ : nat => rand_in (-1) 1 (u i)) (seq k n), (k + n)%nat).
Proof.
  induction n as [|n IH]; intros k; cbn [perlin_gradients Nat.eqb seq map]; [now rewrite Nat.add_0_r|]. rewrite IH. rewrite Nat.add_1_r. cbn [seq map]. do 2 f_equal. lia.
Qed.
Lemma init_1d fuel k c : exists o, perlin_init u 1 fuel k c = Some o /\ forall i j, (0 <= i < 256)%Z -> perlin_table o i j = rand_in (-1) 1 (u (k + Z.to_nat i)%nat).
Proof.
  unfold perlin_init. rewrite gradients_1d. cbn [Nat.eqb]. eexists. split; [reflexivity|]. intros i j I. unfold perlin_table. cbn [pn_gradients].
  set (g := fun i => fun _ : nat => rand_in (-1) 1 (u i)). rewrite (nth_indep _ _ (g 0%nat)) by (rewrite map_length, seq_length; lia). rewrite (map_nth g), seq_nth by lia. reflexivity.
Qed.
End Init.
(** The range is attained. *)
Lemma range_attained : exists u c o x, unit_numbers u /\ choices 256 c /\ perlin_init u 1 1 0 c = Some o /\ in_range 1 x /\ forall f, perlin_eval 1 o f x = Some (1 / 2).
Proof.
  set (u := fun k => if (k =? Z.to_nat (lattice_hash 1 (fun _ => 0%Z) mod 256))%nat then 1 else 0). set (x := fun _ : nat => / 2).
  destruct (init_1d u 1 0 (fun _ => 0%nat)) as (o & E & T). exists u, (fun _ => 0%nat), o, x.
  assert (F : Int_part (/ 2) = 0%Z) by (apply int_part_is; lra).
  assert (X : in_range 1 x) by (intros i _; unfold x; rewrite F; lia).
  split; [intros k; unfold u; destruct (_ =? _)%nat; lra|]. split; [intros i I; lia|]. split; [exact E|]. split; [exact X|]. intros f.
  unfold perlin_eval. rewrite (eval_general wrap 1 (perlin_table o) x X (fun c _ => corners_wrap 1 (perlin_table o) x c) f). f_equal.
  unfold noise, blend, weight, plane, lattice_floor, cell_corner, x. rewrite F. cbn [rsum rprod Nat.pow Nat.mul Nat.add]. unfold lattice_gradient.
  rewrite !T by (apply Z.mod_pos_bound; lia). rewrite !Nat.add_0_l. unfold u, rand_in.
  change (Nat.testbit 0 0) with false. change (Nat.testbit 1 0) with true. cbv iota. cbn [lattice_hash].
  match goal with |- context [if (?a =? ?b)%nat then 1 else 0] => change (a =? b)%nat with true end.
  match goal with |- context [if (?a =? ?b)%nat then 1 else 0] => change (a =? b)%nat with false end.
  unfold ease. cbv iota. change (0 + 0)%Z with 0%Z. change (0 + 1)%Z with 1%Z. field.
Qed.
(** An example of the construction in two dimensions. *)
Lemma init_2d : exists o, perlin_init (fun _ => 1 / 4) 2 1 0 (fun _ => 0%nat) = Some o.
Proof.
  set (u := fun _ : nat => 1 / 4).
  assert (M : forall k, length 2 (cube_point u 2 k) = sqrt (1 / 2)). { intros k. unfold length, inner. cbn [rsum]. unfold cube_point, rand_in, u. cbn. f_equal. field. }
  assert (M1 : 0 < sqrt (1 / 2) <= 1). { split; [apply sqrt_lt_R0; lra|]. apply Rle_trans with (sqrt 1); [apply sqrt_le_1_alt; lra|rewrite sqrt_1; lra]. }
  assert (G : forall n k, exists gs k', perlin_gradients u 2 1 n k = Some (gs, k')).
  { induction n as [|n IH]; intros k; cbn [perlin_gradients Nat.eqb]; [eauto|].
    assert (S : solidball u 2 1 k = Some (cube_point u 2 k, (k + 2)%nat)). { apply solidball_iff. exists 0%nat. rewrite Nat.mul_0_l, Nat.add_0_r. rewrite M. repeat split; try lia; lra. }
    rewrite S. destruct (unit_vec 2 (cube_point u 2 k)) eqn:UV; [|exfalso; apply unit_none, length_zero in UV; rewrite M in UV; lra]. destruct (IH (k + 2)%nat) as (gs & k' & ->). eauto. }
  unfold perlin_init. destruct (G 256%nat 0%nat) as (gs & k' & ->). cbn [Nat.eqb].
  destruct (permute_ok (fun _ => 0%nat) (seq 0 256)) as (p & -> & _); [intros i I; rewrite seq_length in *; lia|]. eauto.
Qed.
(** The center of the ball has no direction. *)
Lemma init_center u N fuel k c : N <> 1%nat -> (forall i, u i = 1 / 2) -> perlin_init u N (S fuel) k c = None.
Proof.
  intros NE H. pose proof (sphere_halves u N fuel k H) as S. unfold sample_unit in S. unfold perlin_init.
  assert (G : perlin_gradients u N (Datatypes.S fuel) 256 k = None); [|now rewrite G].
  change 256%nat with (Datatypes.S 255). cbn [perlin_gradients]. destruct (Nat.eqb_spec N 1); [contradiction|].
  destruct (solidball u N (Datatypes.S fuel) k) as [[v k']|]; [|reflexivity]. rewrite S. reflexivity.
Qed.
