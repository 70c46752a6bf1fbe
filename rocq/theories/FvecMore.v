From Coq Require Import Reals ZArith Lia Lra Bool.
From Flocq Require Import Core Relative Plus_error Mult_error BinarySingleNaN.
From Verif Require Import FmaModel FmaSpec FmaProofs FquadModel FquadProofs FquadMore FvecModel FvecSpec FvecProofs.
Open Scope R_scope.

Lemma total_nonneg N f : (forall i, (i < N)%nat -> 0 <= f i) -> 0 <= total N f.
Proof. induction N as [|k IH]; cbn [total]; intros H; [lra|]. pose proof (H k ltac:(lia)). specialize (IH ltac:(intros; apply H; lia)). lra. Qed.
Lemma total_ext N f g : (forall i, (i < N)%nat -> f i = g i) -> total N f = total N g.
Proof. induction N as [|k IH]; cbn [total]; intros H; [reflexivity|]. rewrite IH, H by (intros; try apply H; lia). reflexivity. Qed.
Lemma total_le N f g : (forall i, (i < N)%nat -> f i <= g i) -> total N f <= total N g.
Proof. induction N as [|k IH]; cbn [total]; intros H; [lra|]. pose proof (H k ltac:(lia)). specialize (IH ltac:(intros; apply H; lia)). lra. Qed.
Lemma total_scale N f c : total N (fun i => f i * c) = total N f * c.
Proof. induction N as [|k IH]; cbn [total]; [ring|]. rewrite IH. ring. Qed.
Lemma total_abs N f : Rabs (total N f) <= total N (fun i => Rabs (f i)).
Proof. induction N as [|k IH]; cbn [total]; [rewrite Rabs_R0; lra|]. pose proof (Rabs_triang (total k f) (f k)). lra. Qed.
Lemma total_prefix N k f : (k <= N)%nat -> (forall i, (i < N)%nat -> 0 <= f i) -> total k f <= total N f.
Proof. induction N as [|n IH]; intros K H; [replace k with 0%nat by lia; lra|]. destruct (Nat.eq_dec k (S n)) as [->|D]; [lra|]. cbn [total]. pose proof (H n ltac:(lia)). specialize (IH ltac:(lia) ltac:(intros; apply H; lia)). lra. Qed.
Lemma total_term N k f : (k < N)%nat -> (forall i, (i < N)%nat -> 0 <= f i) -> f k <= total N f.
Proof. intros K H. pose proof (total_prefix N (S k) f ltac:(lia) H) as P. cbn [total] in P. pose proof (total_nonneg k f ltac:(intros; apply H; lia)). lra. Qed.

Section Factor.
Variable prec : Z.
Hypothesis P2 : (2 <= prec)%Z.
Notation u := (bpow radix2 (- prec)).
Notation st := (step prec).
Lemma u_quarter : 0 < u <= / 4. Proof. split; [apply bpow_gt_0|]. change (/ 4) with (bpow radix2 (-2)). apply bpow_le. lia. Qed.
Lemma step_ge : 1 < st. Proof. unfold step. pose proof u_quarter. lra. Qed.
Lemma pow_ge k : 1 <= st ^ k. Proof. apply pow_R1_Rle. left. exact step_ge. Qed.
Lemma factor_refl x : within_factor prec 0 x x. Proof. unfold within_factor. cbn. lra. Qed.
Lemma factor_sym k x y : within_factor prec k x y -> within_factor prec k y x. Proof. unfold within_factor. tauto. Qed.
Lemma factor_trans j k x y z : within_factor prec j x y -> within_factor prec k y z -> within_factor prec (j + k) x z.
Proof.
  intros (A1 & A2) (B1 & B2). pose proof (pow_ge j) as J. pose proof (pow_ge k) as K. unfold within_factor. rewrite pow_add. split.
  - apply Rle_trans with (1 := A1). replace (z * (st ^ j * st ^ k)) with (z * st ^ k * st ^ j) by ring. apply Rmult_le_compat_r; lra.
  - apply Rle_trans with (1 := B2). replace (x * (st ^ j * st ^ k)) with (x * st ^ j * st ^ k) by ring. apply Rmult_le_compat_r; lra.
Qed.
Lemma factor_weak j k x y : (j <= k)%nat -> 0 <= x -> 0 <= y -> within_factor prec j x y -> within_factor prec k x y.
Proof.
  intros L X Y (A1 & A2). assert (P : st ^ j <= st ^ k) by (apply Rle_pow; [left; exact step_ge|exact L]). split; [apply Rle_trans with (1 := A1)|apply Rle_trans with (1 := A2)]; apply Rmult_le_compat_l; assumption.
Qed.
Lemma factor_scale k x y c : 0 <= c -> within_factor prec k x y -> within_factor prec k (x * c) (y * c).
Proof.
  intros C (A1 & A2). split; [replace (y * c * st ^ k) with (y * st ^ k * c) by ring|replace (x * c * st ^ k) with (x * st ^ k * c) by ring]; now apply Rmult_le_compat_r.
Qed.
Lemma factor_add k x y x' y' : within_factor prec k x y -> within_factor prec k x' y' -> within_factor prec k (x + x') (y + y').
Proof. intros (A1 & A2) (B1 & B2). split; lra. Qed.
Lemma factor_total k N f g : (forall i, (i < N)%nat -> within_factor prec k (f i) (g i)) -> within_factor prec k (total N f) (total N g).
Proof. induction N as [|n IH]; cbn [total]; intros H; [unfold within_factor; lra|]. apply factor_add; [apply IH; intros; apply H; lia|apply H; lia]. Qed.
Lemma factor_square k x y : 0 <= x -> 0 <= y -> within_factor prec k x y -> within_factor prec (k + k) (x * x) (y * y).
Proof.
  intros X Y (A1 & A2). pose proof (pow_ge k). unfold within_factor. rewrite pow_add. split.
  - replace (y * y * (st ^ k * st ^ k)) with ((y * st ^ k) * (y * st ^ k)) by ring. apply Rmult_le_compat; assumption.
  - replace (x * x * (st ^ k * st ^ k)) with ((x * st ^ k) * (x * st ^ k)) by ring. apply Rmult_le_compat; assumption.
Qed.
Lemma factor_inv k x y : 0 < x -> 0 < y -> within_factor prec k x y -> within_factor prec k (/ x) (/ y).
Proof.
  intros X Y (A1 & A2). pose proof (pow_ge k) as K. split.
  - apply (Rmult_le_reg_l (x * y)); [now apply Rmult_lt_0_compat|]. replace (x * y * / x) with y by (field; lra). replace (x * y * (/ y * st ^ k)) with (x * st ^ k) by (field; lra). exact A2.
  - apply (Rmult_le_reg_l (x * y)); [now apply Rmult_lt_0_compat|]. replace (x * y * / y) with x by (field; lra). replace (x * y * (/ x * st ^ k)) with (y * st ^ k) by (field; lra). exact A1.
Qed.
Lemma factor_rounding x d : 0 <= x -> Rabs d <= u / (1 + u) -> within_factor prec 1 (x * (1 + d)) x.
Proof.
  intros X D. pose proof u_quarter as U. apply le_abs in D. assert (B : u / (1 + u) <= u). { apply (Rmult_le_reg_r (1 + u)); [lra|]. unfold Rdiv. rewrite Rmult_assoc, Rinv_l by lra. assert (0 <= u * u) by (apply Rmult_le_pos; lra). lra. }
  unfold within_factor, step. rewrite pow_1. split; [apply Rmult_le_compat_l; lra|]. replace x with (x * 1) at 1 by ring. rewrite Rmult_assoc. apply Rmult_le_compat_l; [exact X|].
  apply Rle_trans with ((1 - u / (1 + u)) * (1 + u)); [right; field; lra|]. apply Rmult_le_compat_r; lra.
Qed.
Lemma pow_small N : (Z.of_nat N <= 2 ^ (prec - 1))%Z -> st ^ N <= 2.
Proof.
  intros H. pose proof u_quarter as U. assert (NU : INR N * u <= / 2).
  { rewrite INR_IZR_INZ. apply Rle_trans with (IZR (2 ^ (prec - 1)) * u); [apply Rmult_le_compat_r; [lra|now apply IZR_le]|]. replace (IZR (2 ^ (prec - 1))) with (bpow radix2 (prec - 1)) by (symmetry; apply (IZR_Zpower radix2); lia). rewrite <- bpow_plus. replace (prec - 1 + - prec)%Z with (-1)%Z by ring. cbn. lra. }
  assert (B : forall k, (k <= N)%nat -> (1 - INR k * u) * st ^ k <= 1).
  { induction k as [|k IH]; intros K; [cbn; lra|]. cbn [pow]. rewrite S_INR. specialize (IH ltac:(lia)). pose proof (pow_ge k) as PK. unfold step at 1.
    assert (KU : INR k * u <= / 2). { eapply Rle_trans; [|exact NU]. apply Rmult_le_compat_r; [lra|]. apply le_INR. lia. } assert (K0 : 0 <= INR k * u) by (apply Rmult_le_pos; [apply pos_INR|lra]).
    replace ((1 - (INR k + 1) * u) * ((1 + u) * st ^ k)) with ((1 - INR k * u) * st ^ k - (INR k * u * u + u * u) * st ^ k) by ring.
    assert (0 <= (INR k * u * u + u * u) * st ^ k). { apply Rmult_le_pos; [|lra]. assert (0 <= INR k * u * u) by (apply Rmult_le_pos; lra). assert (0 <= u * u) by (apply Rmult_le_pos; lra). lra. } lra. }
  specialize (B N ltac:(lia)). pose proof (pow_ge N). assert (/ 2 * st ^ N <= (1 - INR N * u) * st ^ N) by (apply Rmult_le_compat_r; lra). lra.
Qed.
End Factor.

Section More.
Variable prec emax : Z.
Context {Hp : Prec_gt_0 prec} {He : Prec_lt_emax prec emax}.
Notation float := (binary_float prec emax).
Notation pw := (bpow radix2).
Notation emin' := (FmaSpec.emin prec emax).
Notation fexp' := (FLT_exp emin' prec).
Notation RNE := (rn fexp' (fun t => negb (Z.even t))).
Notation FT := (generic_format radix2 fexp').
Notation u := (pw (- prec)).
Notation st := (step prec).
Notation low := (pw (emin' + prec - 1)).
Let VT : Valid_exp fexp' := FLT_exp_valid emin' prec.
Lemma u_ro_u : u_ro radix2 prec = u. Proof. unfold u_ro. rewrite bpow_plus. change (pw 1) with 2. lra. Qed.
(** *** Dot products *)
Lemma rn_model x : exists d e, Rabs d <= u /\ Rabs e <= pw (emin' - 1) /\ RNE x = x * (1 + d) + e.
Proof.
  destruct (relative_error_N_FLT'_ex radix2 emin' prec Hp (fun t => negb (Z.even t)) x) as (d & e & D & E & _ & R). exists d, e. rewrite u_ro_u in D. split; [|split; [|exact R]].
  - eapply Rle_trans; [exact D|]. pose proof (bpow_gt_0 radix2 (- prec)) as U. apply (Rmult_le_reg_r (1 + u)); [lra|]. unfold Rdiv. rewrite Rmult_assoc, Rinv_l by lra. assert (0 <= u * u) by (apply Rmult_le_pos; lra). lra.
  - unfold Z.sub. rewrite Z.add_comm, bpow_plus. exact E.
Qed.
Lemma dot_accurate N (v w : nat -> float) : (forall i, (i < N)%nat -> is_finite (v i) = true /\ is_finite (w i) = true) -> is_finite (fl_dot N v w) = true ->
  Rabs (B2R (fl_dot N v w) - exact_dot N v w) <= (st ^ N - 1) * sum_of_sizes N v w + INR N * st ^ N * pw (emin' - 1).
Proof.
  unfold exact_dot, sum_of_sizes. set (h := pw (emin' - 1)). assert (H0 : 0 < h) by apply bpow_gt_0. pose proof (bpow_gt_0 radix2 (- prec)) as U.
  assert (SG : 1 < st) by (unfold step; lra).
  induction N as [|k IH]; intros FN F.
  - cbn [fl_dot total pow INR]. destruct (lit_zero prec emax) as (_ & ->). rewrite Rminus_0_r, Rabs_R0. lra.
  - cbn [fl_dot total pow] in *. unfold fl_multiply_add in *. destruct (FN k ltac:(lia)) as (Fv & Fw). destruct (fma_finite prec emax _ _ _ Fv Fw F) as (Fk & V). specialize (IH ltac:(intros; apply FN; lia) Fk). rewrite V. clear V.
    set (s := B2R (fl_dot k v w)) in *. set (x := B2R (v k) * B2R (w k)). destruct (rn_model (x + s)) as (d & e & D & E & ->). fold h in E. rewrite S_INR.
    set (S := total k (fun i => B2R (v i) * B2R (w i))) in *. set (A := total k (fun i => Rabs (B2R (v i) * B2R (w i)))) in *. assert (PK : 1 <= st ^ k) by (apply pow_R1_Rle; lra). set (p := st ^ k) in *.
    assert (SA : Rabs (S + x) <= A + Rabs x). { eapply Rle_trans; [apply Rabs_triang|]. pose proof (total_abs k (fun i => B2R (v i) * B2R (w i))) as T. cbv beta in T. fold S A in T. lra. }
    replace ((x + s) * (1 + d) + e - (S + x)) with ((s - S) * (1 + d) + (d * (S + x) + e)) by ring.
    assert (B1 : Rabs ((s - S) * (1 + d)) <= ((p - 1) * A + INR k * p * h) * st).
    { rewrite Rabs_mult. apply Rmult_le_compat; try apply Rabs_pos; [exact IH|]. unfold step. eapply Rle_trans; [apply Rabs_triang|]. rewrite Rabs_R1. lra. }
    assert (B2 : Rabs (d * (S + x)) <= u * (A + Rabs x)) by (rewrite Rabs_mult; apply Rmult_le_compat; try apply Rabs_pos; assumption).
    eapply Rle_trans; [apply Rabs_triang|]. pose proof (Rabs_triang (d * (S + x)) e) as B3. assert (X0 : 0 <= Rabs x) by apply Rabs_pos.
    assert (SU : st = 1 + u) by reflexivity.
    assert (G1 : ((p - 1) * A + INR k * p * h) * st + (u * (A + Rabs x) + h) <= (st * p - 1) * (A + Rabs x) + (INR k + 1) * (st * p) * h).
    { assert (M1 : 0 <= (p - 1) * Rabs x) by (apply Rmult_le_pos; lra). assert (M2 : 0 <= (st * p - 1 - u) * Rabs x). { apply Rmult_le_pos; [|exact X0]. rewrite SU. assert (0 <= (1 + u) * (p - 1)) by (apply Rmult_le_pos; lra). lra. }
      assert (M3 : h <= st * p * h). { rewrite <- (Rmult_1_l h) at 1. apply Rmult_le_compat_r; [lra|]. rewrite <- (Rmult_1_l 1). apply Rmult_le_compat; lra. }
      replace ((st * p - 1) * (A + Rabs x) + (INR k + 1) * (st * p) * h) with ((p - 1) * A * st + INR k * p * h * st + ((st - 1) * A + (st * p - 1) * Rabs x + st * p * h)) by ring.
      replace (st - 1) with u by (rewrite SU; ring). lra. }
    lra.
Qed.
(** *** Lengths *)
Hypotheses (P4 : (4 <= prec)%Z) (E8 : (8 <= emax)%Z).
Let P2 : (2 <= prec)%Z. Proof. lia. Qed.
Lemma normal_factor x : 0 <= x -> low <= x \/ FT x -> within_factor prec 1 (RNE x) x /\ 0 <= RNE x.
Proof.
  intros X [L|F].
  - destruct (relative_error_N_FLT'_ex radix2 emin' prec Hp (fun t => negb (Z.even t)) x) as (d & e & D & E & DE & R). rewrite u_ro_u in D.
    assert (exists d', Rabs d' <= u / (1 + u) /\ RNE x = x * (1 + d')) as (d' & D' & R').
    { destruct (Req_dec e 0) as [->|NE]; [exists d; split; [exact D|]; unfold rn; rewrite R; ring|]. assert (d = 0) as -> by (apply Rmult_integral in DE; tauto).
      destruct (relative_error_N_FLX'_ex radix2 prec Hp (fun t => negb (Z.even t)) x) as (d & Dd & Rd). rewrite u_ro_u in Dd. exists d. split; [exact Dd|]. unfold rn. rewrite round_FLT_FLX by (rewrite Rabs_pos_eq by lra; exact L). exact Rd. }
    split; [rewrite R'; now apply factor_rounding|]. rewrite <- (rn_zero emin' prec (fun t => negb (Z.even t))). now apply rn_le.
  - rewrite (rn_id emin' prec _ _ F). split; [|exact X]. apply (factor_weak prec P2 0); auto. apply factor_refl.
Qed.
Lemma squares_nonneg N (v : nat -> float) : forall i, (i < N)%nat -> 0 <= B2R (v i) * B2R (v i). Proof. intros i _. apply Rle_0_sqr. Qed.
Section Safe.
Variable N : nat.
Variable v : nat -> float.
Hypotheses (SAFE : safe_vector N v) (NB : (Z.of_nat N <= 2 ^ (prec - 1))%Z).
Notation sq := (fun i => B2R (v i) * B2R (v i)).
Lemma p_bound k : (k <= N)%nat -> total k sq <= pw emax * / 16.
Proof.
  intros K. eapply Rle_trans; [apply (total_prefix N k sq K (squares_nonneg N v))|]. destruct SAFE as (_ & B). unfold exact_dot in B. eapply Rle_trans; [exact B|]. unfold Z.sub. rewrite bpow_plus. change (pw (- (4))) with (/ 16). lra.
Qed.
Lemma step_two k : (k <= N)%nat -> st ^ k <= 2. Proof. intros K. apply pow_small; [exact P2|lia]. Qed.
Lemma mag2_runs k : (k <= N)%nat -> is_finite (fl_mag2 k v) = true /\ within_factor prec k (B2R (fl_mag2 k v)) (total k sq) /\ 0 <= B2R (fl_mag2 k v).
Proof.
  induction k as [|k IH]; intros K.
  - cbn [fl_mag2 total]. destruct (lit_zero prec emax) as (F & V). rewrite V. split; [exact F|]. split; [apply factor_refl|lra].
  - destruct (IH ltac:(lia)) as (F & W & P). cbn [fl_mag2 total]. cbv zeta. unfold fl_multiply_add. destruct SAFE as (SF & _). destruct (SF k ltac:(lia)) as (Fv & Z). set (s := B2R (fl_mag2 k v)) in *. set (x := B2R (v k)) in *.
    assert (XX : 0 <= x * x) by apply Rle_0_sqr.
    destruct (normal_factor (x * x + s)) as (W1 & P1); [lra| |].
    { destruct Z as [Z|Z]; [right|left; lra]. rewrite Z, Rmult_0_l, Rplus_0_l. apply b2r_format. }
    assert (W2 : within_factor prec k (x * x + s) (total k sq + x * x)). { rewrite Rplus_comm. apply factor_add; [exact W|]. apply (factor_weak prec P2 0); [lia|exact XX|exact XX|apply factor_refl]. }
    pose proof (factor_trans prec P2 _ _ _ _ _ W1 W2) as W3. replace (1 + k)%nat with (S k) in W3 by lia.
    destruct (fma_runs prec emax (v k) (v k) (fl_mag2 k v) Fv Fv F) as (F2 & V2).
    { fold x s. rewrite Rabs_pos_eq by exact P1. destruct W3 as (W3 & _). eapply Rle_lt_trans; [exact W3|]. pose proof (p_bound (S k) ltac:(lia)) as PB. cbn [total] in PB. fold x in PB. pose proof (step_two (S k) ltac:(lia)) as ST. pose proof (pow_ge prec P2 (S k)).
      pose proof (total_nonneg k sq ltac:(intros; apply Rle_0_sqr)). pose proof (bpow_gt_0 radix2 emax).
      assert ((total k sq + x * x) * st ^ S k <= pw emax * / 16 * 2) by (apply Rmult_le_compat; lra). lra. }
    fold x s in V2. rewrite V2. split; [exact F2|]. split; [exact W3|exact P1].
Qed.
Notation P := (total N sq).
Lemma p_zero_or : P = 0 \/ low <= P.
Proof.
  destruct SAFE as (SF & _). assert (forall k, (k <= N)%nat -> total k sq = 0 \/ low <= total k sq) as H; [|now apply H].
  induction k as [|k IH]; intros K; cbn [total]; [now left|]. pose proof (total_nonneg k sq ltac:(intros; apply Rle_0_sqr)) as T. destruct (SF k ltac:(lia)) as (_ & [Z|Z]).
  - destruct (IH ltac:(lia)) as [E|E]; [left; rewrite E, Z; ring|right; rewrite Z; lra].
  - right. lra.
Qed.
Lemma mag_runs : is_finite (fl_mag N v) = true /\ within_factor prec (N + 2) (B2R (fl_mag N v) * B2R (fl_mag N v)) P /\ 0 <= B2R (fl_mag N v).
Proof.
  destruct (mag2_runs N ltac:(lia)) as (F & W & P0). destruct (sqrt_runs prec emax _ F P0) as (F2 & V2). fold (fl_mag N v) in F2, V2. rewrite V2. split; [exact F2|]. set (s := B2R (fl_mag2 N v)) in *.
  assert (S0 : 0 <= sqrt s) by apply sqrt_pos.
  destruct (normal_factor (sqrt s)) as (W1 & P1); [exact S0| |].
  { destruct p_zero_or as [Z|L].
    - right. assert (s = 0) as -> by (destruct W as (W & _); rewrite Z in W; lra). rewrite sqrt_0. apply generic_format_0.
    - left. apply Rle_trans with (pw (emin' + prec - 2 + 3)); [apply bpow_le; lia|]. apply root_low; [unfold FmaSpec.emin; lia|]. destruct W as (_ & W). pose proof (step_two N ltac:(lia)) as ST. pose proof (pow_ge prec P2 N).
      assert (s * st ^ N <= s * 2) by (apply Rmult_le_compat_l; assumption). replace (emin' + prec - 1)%Z with (emin' + prec - 2 + 1)%Z in L by ring. rewrite bpow_plus in L. change (pw 1) with 2 in L. lra. }
  split; [|exact P1]. replace (N + 2)%nat with (2 + N)%nat by lia. apply (factor_trans prec P2 2 N _ s); [|exact W].
  pose proof (factor_square prec P2 1 _ _ P1 S0 W1) as Q. rewrite sqrt_sqrt in Q by exact P0. exact Q.
Qed.
Lemma unit_runs i : P <> 0 -> (i < N)%nat -> is_finite (fl_unit N v i) = true /\ 0 <= B2R (fl_unit N v i) * B2R (v i) /\
  within_factor prec (N + 4) (B2R (fl_unit N v i) * B2R (fl_unit N v i)) (B2R (v i) * B2R (v i) / P).
Proof.
  intros NZ I. destruct mag_runs as (F & W & M0). set (n := B2R (fl_mag N v)) in *. unfold fl_unit. cbv zeta. destruct SAFE as (SF & _). destruct (SF i I) as (Fi & Z). set (x := B2R (v i)) in *.
  assert (PL : low <= P) by (destruct p_zero_or as [?|?]; [now elim NZ|assumption]). assert (L0 : 0 < low) by apply bpow_gt_0.
  assert (NP : 0 < n * n). { destruct W as (_ & W). pose proof (pow_ge prec P2 (N + 2)) as PG. destruct (Req_dec n 0) as [N0|N0]; [rewrite N0 in W; rewrite !Rmult_0_l in W; lra|]. now apply Rlt_0_sqr. }
  assert (N1 : n <> 0) by (intros N0; rewrite N0 in NP; lra). assert (NN : 0 < n) by lra.
  assert (ST : st ^ (N + 2) <= 4). { rewrite pow_add. pose proof (step_two N ltac:(lia)) as A. pose proof (pow_ge prec P2 N). assert (S1 : st <= 5 / 4) by (unfold step; pose proof (u_quarter prec P2); lra). pose proof (step_ge prec P2).
    assert (S2 : st ^ 2 <= 2). { cbn [pow]. rewrite Rmult_1_r. apply Rle_trans with (5 / 4 * (5 / 4)); [apply Rmult_le_compat; lra|lra]. } pose proof (pow_ge prec P2 2). replace 4 with (2 * 2) by ring. apply Rmult_le_compat; lra. }
  pose proof (pow_ge prec P2 (N + 2)) as PG. pose proof (p_bound N ltac:(lia)) as PB. pose proof (bpow_gt_0 radix2 emax) as E0.
  destruct Z as [Z|Z].
  - destruct (div_zero prec emax (v i) (fl_mag N v) Fi N1 Z) as (Fd & Vd). rewrite Vd. split; [exact Fd|]. split; [lra|]. rewrite Z. unfold Rdiv. rewrite !Rmult_0_l. unfold within_factor. lra.
  - set (y := Rabs x / n). assert (Y0 : 0 <= y). { unfold y. apply Rmult_le_pos; [apply Rabs_pos|]. left. now apply Rinv_0_lt_compat. }
    assert (YY : y * y = x * x / (n * n)). { unfold y. replace (Rabs x / n * (Rabs x / n)) with (Rabs x * Rabs x / (n * n)) by (field; lra). rewrite <- Rabs_mult, (Rabs_pos_eq (x * x)) by apply Rle_0_sqr. reflexivity. }
    assert (NU : n * n <= pw emax * / 4). { destruct W as (W & _). eapply Rle_trans; [exact W|]. apply Rle_trans with (pw emax * / 16 * 4); [apply Rmult_le_compat; lra|lra]. }
    assert (YL : low <= y).
    { apply Rsqr_incr_0; [|lra|exact Y0]. unfold Rsqr. rewrite YY. apply (Rmult_le_reg_r (n * n)); [exact NP|]. replace (x * x / (n * n) * (n * n)) with (x * x) by (field; exact N1). eapply Rle_trans; [|exact Z].
      rewrite Rmult_assoc. rewrite <- (Rmult_1_r low) at 3. apply Rmult_le_compat_l; [lra|]. apply Rle_trans with (low * (pw emax * / 4)); [apply Rmult_le_compat_l; lra|]. change (/ 4) with (pw (-2)). rewrite <- !bpow_plus. unfold FmaSpec.emin. right. replace (3 - emax - prec + prec - 1 + (emax + -2))%Z with 0%Z by ring. reflexivity. }
    assert (YU : y <= 2).
    { apply Rsqr_incr_0; [|exact Y0|lra]. unfold Rsqr. rewrite YY. apply (Rmult_le_reg_r (n * n)); [exact NP|]. replace (x * x / (n * n) * (n * n)) with (x * x) by (field; exact N1). destruct W as (_ & W). apply Rle_trans with P; [apply (total_term N i sq I (squares_nonneg N v))|]. eapply Rle_trans; [exact W|]. replace (2 * 2 * (n * n)) with (n * n * 4) by ring. apply Rmult_le_compat_l; lra. }
    destruct (normal_factor y Y0 (or_introl YL)) as (W1 & P1).
    assert (R : exists z, (z = 1 \/ z = -1) /\ x = z * Rabs x /\ RNE (x / n) = z * RNE y).
    { destruct (Rle_lt_dec 0 x) as [X|X].
      - exists 1. rewrite Rabs_pos_eq by exact X. split; [now left|]. split; [ring|]. unfold y. rewrite Rabs_pos_eq by exact X. ring.
      - exists (-1). rewrite Rabs_left by exact X. split; [now right|]. split; [ring|]. unfold y. rewrite Rabs_left by exact X. replace (x / n) with (- (- x / n)) by (field; lra). unfold rn. change (Znearest (fun t => negb (Z.even t))) with ZnearestE. rewrite round_NE_opp. ring. }
    destruct R as (z & Zz & Xz & Rz). assert (ZZ : z * z = 1) by (destruct Zz as [-> | ->]; lra).
    assert (RU : RNE y <= 4). { destruct W1 as (W1 & _). rewrite pow_1 in W1. pose proof (u_quarter prec P2). unfold step in W1. assert (y * (1 + u) <= 2 * 2) by (apply Rmult_le_compat; lra). lra. }
    destruct (div_runs prec emax (v i) (fl_mag N v) Fi N1) as (Fd & Vd).
    { fold n. fold x. rewrite Rz, Rabs_mult, (Rabs_pos_eq (RNE y)) by exact P1. replace (Rabs z) with 1 by (destruct Zz as [-> | ->]; unfold Rabs; destruct Rcase_abs; lra). rewrite Rmult_1_l. eapply Rle_lt_trans; [exact RU|]. change 4 with (pw 2). apply bpow_lt. lia. }
    fold n in Vd. fold x in Vd. rewrite Vd, Rz. split; [exact Fd|]. split.
    + rewrite Xz. replace (z * RNE y * (z * Rabs x)) with (z * z * (RNE y * Rabs x)) by ring. rewrite ZZ, Rmult_1_l. apply Rmult_le_pos; [exact P1|apply Rabs_pos].
    + replace (z * RNE y * (z * RNE y)) with (z * z * (RNE y * RNE y)) by ring. rewrite ZZ, Rmult_1_l. replace (N + 4)%nat with (2 + (N + 2))%nat by lia. apply (factor_trans prec P2 2 (N + 2) _ (y * y)).
      * exact (factor_square prec P2 1 _ _ P1 Y0 W1).
      * rewrite YY. unfold Rdiv. rewrite (Rmult_comm (x * x) (/ (n * n))), (Rmult_comm (x * x) (/ P)). apply factor_scale; [apply Rle_0_sqr|]. apply (factor_inv prec P2); [exact NP|lra|exact W].
Qed.
Lemma unit_length : P <> 0 -> within_factor prec (N + 4) (total N (fun i => B2R (fl_unit N v i) * B2R (fl_unit N v i))) 1.
Proof.
  intros NZ. replace 1 with (total N (fun i => B2R (v i) * B2R (v i) * / P)).
  - apply (factor_total prec). intros i I. apply (unit_runs i NZ I).
  - rewrite total_scale. field. exact NZ.
Qed.
End Safe.
End More.

Section Cross.
Variable prec emax : Z.
Context {Hp : Prec_gt_0 prec} {He : Prec_lt_emax prec emax}.
Notation float := (binary_float prec emax).
Notation emin' := (FmaSpec.emin prec emax).
Notation RNE := (rn (FLT_exp emin' prec) (fun t => negb (Z.even t))).
Lemma diff_zero (a b c d : float) : is_finite a = true -> is_finite b = true -> is_finite c = true -> is_finite d = true -> is_finite (fl_diff_of_products a b c d) = true ->
  not_tiny prec emax (B2R c * B2R d) -> B2R a * B2R b - B2R c * B2R d = 0 -> B2R (fl_diff_of_products a b c d) = 0.
Proof.
  intros Fa Fb Fc Fd F N Z. unfold fl_diff_of_products in *. cbv zeta in *. destruct (plus_finite prec emax _ _ F) as (F1 & F2 & ->).
  assert (Fnc : is_finite (fl_neg prec emax c) = true) by (unfold fl_neg; now rewrite is_finite_Bopp).
  destruct (fma_finite prec emax _ _ _ Fnc Fd F2) as (F3 & ->). destruct (fma_finite prec emax _ _ _ Fa Fb F1) as (_ & ->). unfold fl_neg. rewrite !B2R_Bopp. rewrite (mult_finite prec emax c d Fc Fd F3).
  apply Rle_antisym; [apply (diff_nonpos emin' prec)|apply (diff_nonneg emin' prec)]; auto using b2r_format; lra.
Qed.
Lemma cross_ok (a b : nat -> float) : (3 <= emax)%Z -> safe_products a b -> forall i, (i < 3)%nat ->
  within_ulps (3 / 2) (fl_cross a b i) (exact_cross a b i) /\ (exact_cross a b i = 0 -> B2R (fl_cross a b i) = 0).
Proof.
  intros E3 S. assert (ONE : forall i j k l, (i < 3)%nat -> (j < 3)%nat -> (k < 3)%nat -> (l < 3)%nat ->
    within_ulps (3 / 2) (fl_diff_of_products (a i) (b j) (a k) (b l)) (B2R (a i) * B2R (b j) - B2R (a k) * B2R (b l)) /\
    (B2R (a i) * B2R (b j) - B2R (a k) * B2R (b l) = 0 -> B2R (fl_diff_of_products (a i) (b j) (a k) (b l)) = 0)).
  { intros i j k l I J K L. destruct (S i j I J) as (F1 & F2 & B1 & N1). destruct (S k l K L) as (F3 & F4 & B2 & N2).
    destruct (diff_finite prec emax (a i) (b j) (a k) (b l) E3 F1 F2 F3 F4 B1 B2) as (F & _). split; [now apply diff_accurate|]. now apply diff_zero. }
  intros i I. destruct i as [|[|[|i]]]; [| | |lia]; cbn [fl_cross exact_cross]; apply ONE; lia.
Qed.
(** Zero vectors. *)
Lemma zero_float (x : float) : is_finite x = true -> B2R x = 0 -> exists s, x = B754_zero s.
Proof.
  destruct x as [s|s| |s m e H]; try discriminate; intros _ Z; [now exists s|]. exfalso. cbn [B2R] in Z. apply eq_0_F2R in Z. destruct s; discriminate.
Qed.
Lemma zero_mag2 N (v : nat -> float) : (forall i, (i < N)%nat -> is_finite (v i) = true /\ B2R (v i) = 0) -> exists s, fl_mag2 N v = B754_zero s.
Proof.
  induction N as [|k IH]; intros H; cbn [fl_mag2]; [destruct (lit_zero prec emax) as (F & V); now apply zero_float|]. destruct IH as (s & E); [intros; apply H; lia|]. destruct (H k ltac:(lia)) as (F & V). destruct (zero_float _ F V) as (t & T).
  cbv zeta. unfold fl_multiply_add, fl_fma. rewrite E, T. cbn. eauto.
Qed.
Lemma zero_cosine N (v w : nat -> float) : (1 <= N)%nat -> (3 <= emax)%Z -> (forall i, (i < N)%nat -> is_finite (v i) = true /\ B2R (v i) = 0) -> B2R (fl_cosine N v w) = 1 /\ B2R (fl_cosine N w v) = 1.
Proof.
  intros N1 E3 H. destruct (zero_mag2 N v H) as (s & E).
  assert (U : forall i, (i < N)%nat -> fl_unit N v i = B754_nan). { intros i I. unfold fl_unit, fl_mag. cbv zeta. rewrite E. destruct (H i I) as (F & V). destruct (zero_float _ F V) as (t & T). rewrite T. reflexivity. }
  assert (D : forall k x, (1 <= k)%nat -> (k <= N)%nat -> fl_dot k x (fl_unit N v) = B754_nan).
  { intros k x K1 K2. destruct k as [|k]; [lia|]. cbn [fl_dot]. rewrite (U k) by lia. unfold fl_multiply_add, fl_fma. destruct (x k); reflexivity. }
  destruct (lit_unit prec emax 1 ltac:(auto) E3) as (F1 & V1).
  split; unfold fl_cosine; cbv zeta; [|rewrite dot_symmetric]; rewrite D by lia; unfold fl_min, fl_max; cbn; exact V1.
Qed.
End Cross.

(** ** Doubles *)
Lemma unit_large : let v := vector2 (dbl 1 600) (dbl 0 0) in B2R (v 0%nat) = bpow radix2 600 /\ is_finite (fl_unit 2 v 0%nat) = true /\ B2R (fl_unit 2 v 0%nat) = 0 /\ is_finite (fl_unit 2 v 1%nat) = true /\ B2R (fl_unit 2 v 1%nat) = 0.
Proof.
  intros v. split; [apply (dbl_pow 600); lia|]. assert (E0 : B2SF (fl_unit 2 v 0%nat) = SpecFloat.S754_zero false) by (vm_compute; reflexivity). assert (E1 : B2SF (fl_unit 2 v 1%nat) = SpecFloat.S754_zero false) by (vm_compute; reflexivity).
  rewrite <- !SF2R_B2SF, <- !is_finite_SF_B2SF, E0, E1. repeat split.
Qed.
Lemma unit_small : let v := vector2 (dbl 1 (-600)) (dbl 0 0) in B2R (v 0%nat) = bpow radix2 (-600) /\ is_finite (fl_unit 2 v 0%nat) = false /\ is_nan (fl_unit 2 v 1%nat) = true /\
  (forall i, (i < 2)%nat -> B2R (fl_with_length 2 v (dbl 1 0) i) = 0).
Proof.
  intros v. split; [apply (dbl_pow (-600)); lia|]. split; [vm_compute; reflexivity|]. split; [vm_compute; reflexivity|]. intros i I.
  assert (E : B2SF (fl_with_length 2 v (dbl 1 0) i) = SpecFloat.S754_zero false) by (destruct i as [|[|i]]; [vm_compute; reflexivity|vm_compute; reflexivity|lia]). rewrite <- SF2R_B2SF, E. reflexivity.
Qed.
Lemma example_safe : safe_vector 2 (vector2 (dbl 1 0) (dbl (-2) 0)) /\ exact_dot 2 (vector2 (dbl 1 0) (dbl (-2) 0)) (vector2 (dbl 1 0) (dbl (-2) 0)) = 5.
Proof.
  destruct (dbl_int 1 ltac:(lia)) as (F1 & V1). destruct (dbl_int (-2) ltac:(lia)) as (F2 & V2).
  assert (S : exact_dot 2 (vector2 (dbl 1 0) (dbl (-2) 0)) (vector2 (dbl 1 0) (dbl (-2) 0)) = 5) by (unfold exact_dot; cbn [total vector2]; rewrite V1, V2; ring).
  split; [|exact S]. split.
  - intros i I. destruct i as [|[|i]]; [| |lia]; cbn [vector2]; rewrite ?V1, ?V2; (split; [assumption|]); right; unfold FmaSpec.emin; apply small_enough; lia || lra.
  - rewrite S. apply Rle_trans with (bpow radix2 3); [cbn; lra|]. apply bpow_le. lia.
Qed.
Lemma example_products : let a := fun i => if Nat.eqb i 1 then dbl (-2) 0 else dbl 1 0 in safe_products a a.
Proof.
  intros a i j _ _. destruct (dbl_int 1 ltac:(lia)) as (F1 & V1). destruct (dbl_int (-2) ltac:(lia)) as (F2 & V2).
  assert (A : forall k, is_finite (a k) = true /\ (B2R (a k) = 1 \/ B2R (a k) = -2)) by (intros k; unfold a; destruct (Nat.eqb k 1); auto).
  destruct (A i) as (FI & VI). destruct (A j) as (FJ & VJ). split; [exact FI|]. split; [exact FJ|]. split.
  - apply big_enough. destruct VI as [-> | ->], VJ as [-> | ->]; calc.
  - right. unfold FmaSpec.emin. apply small_enough; [lia|]. destruct VI as [-> | ->], VJ as [-> | ->]; calc.
Qed.
