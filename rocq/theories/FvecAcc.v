From Coq Require Import Reals ZArith Lia Lra Bool.
From Flocq Require Import Core Relative Plus_error Mult_error Operations BinarySingleNaN.
From Verif Require Import FmaModel FmaSpec FmaProofs FquadModel FquadProofs FquadMore FvecModel FvecSpec FvecProofs FvecMore.
Open Scope R_scope.

Lemma mul_bound d x u X : Rabs d <= u -> Rabs x <= X -> Rabs (d * x) <= u * X.
Proof. intros D E. rewrite Rabs_mult. apply Rmult_le_compat; try apply Rabs_pos; assumption. Qed.
Lemma square_le x y : 0 <= y -> x * x <= y * y -> Rabs x <= y.
Proof. intros Y H. apply Rsqr_incr_0; [|apply Rabs_pos|exact Y]. rewrite <- Rsqr_abs. exact H. Qed.
Lemma near_from_squares a x g : 1 <= g -> 0 <= a * x -> a * a <= x * x * g -> x * x <= a * a * g -> Rabs (a - x) <= (g - 1) * Rabs x /\ Rabs a <= g * Rabs x.
Proof.
  intros G S U L. assert (A : forall p q, p * p <= q * q * g -> Rabs p <= g * Rabs q).
  { intros p q H. apply square_le; [apply Rmult_le_pos; [lra|apply Rabs_pos]|]. replace (g * Rabs q * (g * Rabs q)) with (g * (g * (Rabs q * Rabs q))) by ring. rewrite <- Rabs_mult, (Rabs_pos_eq (q * q)) by apply Rle_0_sqr.
    apply Rle_trans with (1 := H). rewrite (Rmult_comm (q * q)). apply Rmult_le_compat_l; [lra|]. rewrite <- (Rmult_1_l (q * q)) at 1. apply Rmult_le_compat_r; [apply Rle_0_sqr|exact G]. }
  pose proof (A a x U) as A1. pose proof (A x a L) as A2. split; [|exact A1].
  assert (D : Rabs (a - x) = Rabs (Rabs a - Rabs x)).
  { destruct (Rle_lt_dec 0 a) as [P|P], (Rle_lt_dec 0 x) as [Q|Q].
    - now rewrite (Rabs_pos_eq a), (Rabs_pos_eq x) by assumption.
    - assert (a = 0) as -> by (destruct (Req_dec a 0); [assumption|]; assert (0 < a * - x) by (apply Rmult_lt_0_compat; lra); lra). rewrite Rabs_R0. unfold Rminus. rewrite !Rplus_0_l, !Rabs_Ropp, Rabs_Rabsolu. reflexivity.
    - assert (x = 0) as -> by (destruct (Req_dec x 0); [assumption|]; assert (0 < - a * x) by (apply Rmult_lt_0_compat; lra); lra). rewrite Rabs_R0, !Rminus_0_r, Rabs_Rabsolu. reflexivity.
    - rewrite (Rabs_left a), (Rabs_left x) by assumption. rewrite <- (Rabs_Ropp (a - x)). f_equal. ring. }
  rewrite D. apply Rabs_le. set (p := Rabs a) in *. set (q := Rabs x) in *. assert (P0 : 0 <= p) by apply Rabs_pos. assert (Q0 : 0 <= q) by apply Rabs_pos. split; [|lra].
  assert (H1 : (2 - g) * q <= p). { apply (Rmult_le_reg_l g); [lra|]. apply Rle_trans with q; [|exact A2]. replace (g * ((2 - g) * q)) with (q - (g - 1) * (g - 1) * q) by ring.
    assert (0 <= (g - 1) * (g - 1) * q) by (apply Rmult_le_pos; [apply Rle_0_sqr|exact Q0]). lra. }
  lra.
Qed.
Lemma total_near N f g k : (forall i, (i < N)%nat -> Rabs (f i - g i) <= k i) -> Rabs (total N f - total N g) <= total N k.
Proof.
  induction N as [|n IH]; cbn [total]; intros H; [rewrite Rminus_0_r, Rabs_R0; lra|]. replace (total n f + f n - (total n g + g n)) with ((total n f - total n g) + (f n - g n)) by ring.
  eapply Rle_trans; [apply Rabs_triang|]. pose proof (IH ltac:(intros; apply H; lia)). pose proof (H n ltac:(lia)). lra.
Qed.

Section Acc.
Variable prec emax : Z.
Context {Hp : Prec_gt_0 prec} {He : Prec_lt_emax prec emax}.
Notation float := (binary_float prec emax).
Notation pw := (bpow radix2).
Notation emin' := (FmaSpec.emin prec emax).
Notation fexp' := (FLT_exp emin' prec).
Notation RNE := (rn fexp' (fun t => negb (Z.even t))).
Notation FT := (generic_format radix2 fexp').
Notation u := (pw (- prec)).
Notation st := (step prec).
Notation low := (pw (emin' + prec - 1)).
Hypotheses (P4 : (4 <= prec)%Z) (E8 : (8 <= emax)%Z).
Let P2 : (2 <= prec)%Z. Proof. lia. Qed.
Let VT : Valid_exp fexp' := FLT_exp_valid emin' prec.
(** *** Differences *)
Lemma rounded_square x y d : RNE (x + y) = (x + y) * (1 + d) -> Rabs d <= u / (1 + u) -> within_factor prec 2 (RNE (x + y) * RNE (x + y)) ((x + y) * (x + y)).
Proof.
  intros -> D. set (s := x + y). replace (s * (1 + d) * (s * (1 + d))) with (Rabs s * (1 + d) * (Rabs s * (1 + d))) by (replace (Rabs s * (1 + d) * (Rabs s * (1 + d))) with (Rabs s * Rabs s * ((1 + d) * (1 + d))) by ring; rewrite <- Rabs_mult, (Rabs_pos_eq (s * s)) by apply Rle_0_sqr; ring).
  replace (s * s) with (Rabs s * Rabs s) by (rewrite <- Rabs_mult; apply Rabs_pos_eq, Rle_0_sqr). pose proof (u_quarter prec P2) as U. assert (D1 : 0 <= 1 + d).
  { apply Rabs_le_inv in D. assert (u / (1 + u) <= 1) by (apply (Rmult_le_reg_r (1 + u)); [lra|]; unfold Rdiv; rewrite Rmult_assoc, Rinv_l by lra; lra). lra. }
  change 2%nat with (1 + 1)%nat. apply (factor_square prec P2); [apply Rmult_le_pos; [apply Rabs_pos|exact D1]|apply Rabs_pos|apply (factor_rounding prec P2); [apply Rabs_pos|exact D]].
Qed.
Lemma diff_square (x y : float) : is_finite x = true -> is_finite y = true -> is_finite (fl_sub prec emax x y) = true ->
  within_factor prec 2 (B2R (fl_sub prec emax x y) * B2R (fl_sub prec emax x y)) ((B2R x - B2R y) * (B2R x - B2R y)).
Proof.
  intros Fx Fy F. rewrite (minus_finite prec emax x y Fx Fy F). change (B2R x - B2R y) with (B2R x + - B2R y).
  destruct (FLT_plus_error_N_ex radix2 emin' prec (fun t => negb (Z.even t)) (B2R x) (- B2R y) (b2r_format prec emax x) (generic_format_opp _ _ _ (b2r_format prec emax y))) as (d & D & R).
  rewrite (u_ro_u prec) in D. now apply rounded_square with (d := d).
Qed.
Lemma dist_accurate N (v w : nat -> float) : (forall i, (i < N)%nat -> is_finite (v i) = true /\ is_finite (w i) = true) -> safe_vector N (fl_vsub prec emax v w) -> (Z.of_nat N <= 2 ^ (prec - 1))%Z ->
  let D := total N (fun i => (B2R (v i) - B2R (w i)) * (B2R (v i) - B2R (w i))) in
  is_finite (fl_dist2 N v w) = true /\ within_factor prec (N + 2) (B2R (fl_dist2 N v w)) D /\
  is_finite (fl_dist N v w) = true /\ 0 <= B2R (fl_dist N v w) /\ within_factor prec (N + 4) (B2R (fl_dist N v w) * B2R (fl_dist N v w)) D.
Proof.
  intros F S NB D. destruct (mag2_runs prec emax P4 N _ S NB N (le_n N)) as (A & B & _). destruct (mag_runs prec emax P4 E8 N _ S NB) as (A2 & B2 & C2).
  assert (Q : within_factor prec 2 (total N (fun i => B2R (fl_vsub prec emax v w i) * B2R (fl_vsub prec emax v w i))) D).
  { apply (factor_total prec). intros i I. destruct (F i I) as (Fv & Fw). apply diff_square; try assumption. apply S. exact I. }
  split; [exact A|]. split; [exact (factor_trans prec P2 _ _ _ _ _ B Q)|]. split; [exact A2|]. split; [exact C2|]. replace (N + 4)%nat with (N + 2 + 2)%nat by lia. exact (factor_trans prec P2 _ _ _ _ _ B2 Q).
Qed.
(** *** with_length *)
Lemma square_rounding x : x = 0 \/ low <= Rabs x -> within_factor prec 2 (RNE x * RNE x) (x * x) /\ 0 <= RNE x * x.
Proof.
  intros [->|L].
  - rewrite (rn_zero emin' prec), !Rmult_0_l. unfold within_factor. lra.
  - destruct (normal_factor prec emax P4 (Rabs x) (Rabs_pos x) (or_introl L)) as (W & P). pose proof (factor_square prec P2 1 _ _ P (Rabs_pos x) W) as Q. replace (Rabs x * Rabs x) with (x * x) in Q by (rewrite <- Rabs_mult; symmetry; apply Rabs_pos_eq, Rle_0_sqr).
    destruct (Rle_lt_dec 0 x) as [X|X].
    + rewrite Rabs_pos_eq in Q, P by exact X. split; [exact Q|now apply Rmult_le_pos].
    + rewrite Rabs_left in Q, P by exact X. assert (R : RNE (- x) = - RNE x) by (unfold rn; change (Znearest (fun t => negb (Z.even t))) with ZnearestE; apply round_NE_opp). rewrite R in Q, P. replace (- RNE x * - RNE x) with (RNE x * RNE x) in Q by ring.
      split; [exact Q|]. replace (RNE x * x) with (- RNE x * - x) by ring. apply Rmult_le_pos; lra.
Qed.
Lemma step4 : st ^ 4 <= 5 / 2.
Proof.
  assert (S1 : st <= 17 / 16). { unfold step. assert (u <= / 16) by (change (/ 16) with (pw (-4)); apply bpow_le; lia). lra. } apply Rle_trans with ((17 / 16) ^ 4); [apply pow_incr; split; [pose proof (step_ge prec P2); lra|exact S1]|]. cbn. lra.
Qed.
Lemma length_runs N (v : nat -> float) (m : float) : safe_vector N v -> (Z.of_nat N <= 2 ^ (prec - 1))%Z -> exact_dot N v v <> 0 -> is_finite m = true ->
  (forall i, (i < N)%nat -> let p := B2R m * B2R (v i) in let q := p * p / exact_dot N v v in
    (p = 0 \/ low <= Rabs p <= pw (emax - 1)) /\ (q = 0 \/ pw (emin' + prec + 1) * pw (emin' + prec + 1) <= q <= pw (emax - 3) * pw (emax - 3))) ->
  forall i, (i < N)%nat -> is_finite (fl_with_length N v m i) = true /\ 0 <= B2R (fl_with_length N v m i) * (B2R m * B2R (v i)) /\
    within_factor prec (N + 6) (B2R (fl_with_length N v m i) * B2R (fl_with_length N v m i)) (B2R m * B2R (v i) * (B2R m * B2R (v i)) / exact_dot N v v).
Proof.
  intros S NB NZ Fm H i I. destruct (mag2_runs prec emax P4 N v S NB N (le_n N)) as (F2 & W2 & P0). destruct (mag_runs prec emax P4 E8 N v S NB) as (Fn & Wn & Pn). fold (exact_dot N v v) in W2, Wn. set (P := exact_dot N v v) in *.
  assert (PP : 0 < P). { assert (0 <= P) by (apply total_nonneg; intros; apply Rle_0_sqr). lra. } unfold fl_with_length. cbv zeta. rewrite (feqb_zero prec emax _ F2).
  rewrite Req_bool_false by (intros Z; destruct W2 as (_ & W2); rewrite Z in W2; lra). fold (fl_mag N v). set (n := B2R (fl_mag N v)) in *.
  assert (NP : 0 < n). { destruct (Req_dec n 0) as [Z|Z]; [destruct Wn as (_ & Wn); rewrite Z in Wn; lra|lra]. }
  destruct S as (SF & _). destruct (SF i I) as (Fi & _). destruct (H i I) as (HP & HQ). clear H. set (p := B2R m * B2R (v i)) in *. set (q := p * p / P) in *.
  assert (PB : Rabs p <= pw (emax - 1)) by (destruct HP as [->|HP]; [rewrite Rabs_R0; apply bpow_ge_0|lra]).
  destruct (mult_runs prec emax m (v i) Fm Fi) as (Fp & Vp). { fold p. apply Rle_lt_trans with (pw (emax - 1)); [|apply bpow_lt; lia]. apply (rn_bound prec emax); [unfold FmaSpec.emin; lia|exact PB]. } fold p in Vp.
  destruct (square_rounding p) as (Wp & Sp); [destruct HP as [?|?]; [now left|right; lra]|]. rewrite <- Vp in Wp, Sp. set (fp := fl_mul prec emax m (v i)) in *. set (p' := B2R fp) in *.
  set (y := p' / n). assert (YY : y * y = p' * p' / (n * n)) by (unfold y; field; lra).
  assert (WY : within_factor prec (N + 4) (y * y) q).
  { rewrite YY. unfold q. replace (N + 4)%nat with (2 + (N + 2))%nat by lia. apply (factor_trans prec P2 2 (N + 2) _ (p * p / (n * n))).
    - unfold Rdiv. apply factor_scale; [left; apply Rinv_0_lt_compat; now apply Rmult_lt_0_compat|exact Wp].
    - unfold Rdiv. rewrite (Rmult_comm (p * p) (/ (n * n))), (Rmult_comm (p * p) (/ P)). apply factor_scale; [apply Rle_0_sqr|]. apply (factor_inv prec P2); [now apply Rmult_lt_0_compat|exact PP|exact Wn]. }
  assert (ST : 1 <= st ^ (N + 4) <= 16). { split; [apply pow_ge; exact P2|]. rewrite pow_add. pose proof (pow_small prec P2 N NB). pose proof step4. pose proof (pow_ge prec P2 N). pose proof (pow_ge prec P2 4). apply Rle_trans with (2 * (5 / 2)); [apply Rmult_le_compat; lra|lra]. }
  assert (YC : (y = 0 \/ low <= Rabs y) /\ Rabs y <= pw (emax - 1)).
  { destruct WY as (W & L). destruct HQ as [Z|(QL & QU)].
    - rewrite Z, Rmult_0_l in W. assert (y = 0) as -> by (destruct (Req_dec y 0) as [E|E]; [exact E|apply Rlt_0_sqr in E; unfold Rsqr in E; lra]). rewrite Rabs_R0. split; [now left|apply bpow_ge_0].
    - split.
      + right. apply Rsqr_incr_0; [|apply bpow_ge_0|apply Rabs_pos]. rewrite <- Rsqr_abs. unfold Rsqr. replace (pw (emin' + prec + 1)) with (4 * low) in QL by (change 4 with (pw 2); rewrite <- bpow_plus; f_equal; lia).
        assert (y * y * st ^ (N + 4) <= y * y * 16) by (apply Rmult_le_compat_l; [apply Rle_0_sqr|lra]). lra.
      + apply square_le; [apply bpow_ge_0|]. replace (pw (emax - 1)) with (4 * pw (emax - 3)) by (change 4 with (pw 2); rewrite <- bpow_plus; f_equal; lia).
        assert (0 <= q) by (eapply Rle_trans; [|exact QL]; apply Rmult_le_pos; apply bpow_ge_0). assert (q * st ^ (N + 4) <= q * 16) by (apply Rmult_le_compat_l; lra). lra. }
  destruct YC as (YC & YB). destruct (square_rounding y YC) as (Wy & Sy).
  assert (NNZ : B2R (fl_mag N v) <> 0) by (apply Rgt_not_eq; exact NP).
  destruct (div_runs prec emax fp (fl_mag N v) Fp NNZ) as (Fd & Vd).
  { fold n p' y. apply Rle_lt_trans with (pw (emax - 1)); [|apply bpow_lt; lia]. apply (rn_bound prec emax); [unfold FmaSpec.emin; lia|exact YB]. }
  fold n p' y in Vd. rewrite Vd. split; [exact Fd|]. split.
  - destruct (Req_dec p' 0) as [Z|Z].
    + assert (p = 0) as ->; [|lra]. destruct Wp as (_ & Wp). rewrite Z in Wp. destruct (Req_dec p 0) as [E|E]; [exact E|]. apply Rlt_0_sqr in E. unfold Rsqr in E. lra.
    + assert (Sy2 : 0 <= RNE y * p'). { replace (RNE y * p') with (RNE y * y * n) by (unfold y; field; lra). apply Rmult_le_pos; lra. }
      assert (ZZ : 0 < p' * p') by (now apply Rlt_0_sqr). apply (Rmult_le_reg_r (p' * p')); [exact ZZ|]. rewrite Rmult_0_l. replace (RNE y * p * (p' * p')) with ((RNE y * p') * (p' * p)) by ring. now apply Rmult_le_pos.
  - replace (N + 6)%nat with (2 + (N + 4))%nat by lia. exact (factor_trans prec P2 _ _ _ _ _ Wy WY).
Qed.
(** *** The cosine *)
Lemma eta_small N : (Z.of_nat N <= 2 ^ (prec - 1))%Z -> INR N * pw (emin' - 1) <= 1.
Proof.
  intros NB. rewrite INR_IZR_INZ. apply Rle_trans with (pw (prec - 1) * pw (emin' - 1)).
  - apply Rmult_le_compat_r; [apply bpow_ge_0|]. replace (pw (prec - 1)) with (IZR (2 ^ (prec - 1))) by (apply (IZR_Zpower radix2); lia). now apply IZR_le.
  - rewrite <- bpow_plus. change 1 with (pw 0). apply bpow_le. unfold FmaSpec.emin. lia.
Qed.
Lemma sizes_prefix k N (v w : nat -> float) : (k <= N)%nat -> sum_of_sizes k v w <= sum_of_sizes N v w.
Proof. intros K. apply (total_prefix N k _ K). intros. apply Rabs_pos. Qed.
Lemma dot_runs N (v w : nat -> float) : (Z.of_nat N <= 2 ^ (prec - 1))%Z -> (forall i, (i < N)%nat -> is_finite (v i) = true /\ is_finite (w i) = true) -> sum_of_sizes N v w <= 25 ->
  forall k, (k <= N)%nat -> is_finite (fl_dot k v w) = true.
Proof.
  intros NB F B. induction k as [|k IH]; intros K; [apply (lit_zero prec emax)|]. specialize (IH ltac:(lia)). pose proof (dot_accurate prec emax k v w ltac:(intros; apply F; lia) IH) as A.
  pose proof (sizes_prefix k N v w ltac:(lia)) as S1. pose proof (sizes_prefix (S k) N v w ltac:(lia)) as S2. unfold sum_of_sizes in S2 at 1. cbn [total] in S2. fold (sum_of_sizes k v w) in S2.
  pose proof (total_abs k (fun i => B2R (v i) * B2R (w i))) as TA. cbv beta in TA. fold (exact_dot k v w) in TA. fold (sum_of_sizes k v w) in TA. assert (S0 : 0 <= sum_of_sizes k v w) by (apply total_nonneg; intros; apply Rabs_pos).
  pose proof (pow_small prec P2 k ltac:(lia)) as PS. pose proof (pow_ge prec P2 k) as PG. pose proof (eta_small k ltac:(lia)) as ES. pose proof (bpow_gt_0 radix2 (emin' - 1)) as H0. pose proof (pos_INR k) as IK.
  assert (T1 : (st ^ k - 1) * sum_of_sizes k v w <= 1 * 25) by (apply Rmult_le_compat; lra).
  assert (T2 : INR k * st ^ k * pw (emin' - 1) <= 2). { replace (INR k * st ^ k * pw (emin' - 1)) with (st ^ k * (INR k * pw (emin' - 1))) by ring. replace 2 with (2 * 1) by ring. apply Rmult_le_compat; try lra. apply Rmult_le_pos; lra. }
  cbn [fl_dot]. unfold fl_multiply_add. destruct (F k ltac:(lia)) as (Fv & Fw). apply (fma_runs prec emax (v k) (w k) (fl_dot k v w) Fv Fw IH).
  apply Rle_lt_trans with (pw 7); [|apply bpow_lt; lia]. apply (rn_bound prec emax); [unfold FmaSpec.emin; lia|]. change (pw 7) with 128. eapply Rle_trans; [apply Rabs_triang|].
  replace (B2R (fl_dot k v w)) with (exact_dot k v w + (B2R (fl_dot k v w) - exact_dot k v w)) by ring. pose proof (Rabs_triang (exact_dot k v w) (B2R (fl_dot k v w) - exact_dot k v w)). pose proof (Rabs_pos (B2R (v k) * B2R (w k))). lra.
Qed.
Lemma clamp_value (c lo hi : float) : is_finite c = true -> is_finite lo = true -> is_finite hi = true -> B2R (fl_min prec emax hi (fl_max prec emax c lo)) = Rmin (B2R hi) (Rmax (B2R c) (B2R lo)).
Proof.
  intros Fc Fl Fh. unfold fl_max, fl_min, fl_ltb. rewrite (Bltb_correct _ _ c lo) by assumption. unfold Rmax. destruct (Rlt_bool_spec (B2R c) (B2R lo)), Rle_dec; try lra.
  - rewrite Bltb_correct by assumption. unfold Rmin. destruct (Rlt_bool_spec (B2R lo) (B2R hi)), Rle_dec; lra.
  - rewrite Bltb_correct by assumption. unfold Rmin. destruct (Rlt_bool_spec (B2R c) (B2R hi)), Rle_dec; lra.
  - rewrite Bltb_correct by assumption. unfold Rmin. destruct (Rlt_bool_spec (B2R c) (B2R hi)), Rle_dec; lra.
Qed.
Lemma scaled_square x P : 0 < P -> x / sqrt P * (x / sqrt P) = x * x / P.
Proof. intros H. pose proof (sqrt_lt_R0 P H) as S. rewrite <- (sqrt_sqrt P) at 3 by lra. field. lra. Qed.
Lemma cosine_accurate N (v w : nat -> float) : safe_vector N v -> safe_vector N w -> exact_dot N v v <> 0 -> exact_dot N w w <> 0 -> (Z.of_nat N <= 2 ^ (prec - 1))%Z ->
  Rabs (B2R (fl_cosine N v w) - exact_dot N v w / (sqrt (exact_dot N v v) * sqrt (exact_dot N w w))) <= st ^ (3 * N + 8) - 1 + INR N * st ^ N * pw (emin' - 1).
Proof.
  intros Sv Sw Zv Zw NB. set (P := exact_dot N v v) in *. set (Q := exact_dot N w w) in *.
  assert (PP : 0 < P) by (assert (0 <= P) by (apply total_nonneg; intros; apply Rle_0_sqr); lra). assert (QQ : 0 < Q) by (assert (0 <= Q) by (apply total_nonneg; intros; apply Rle_0_sqr); lra).
  pose proof (sqrt_lt_R0 P PP) as RP. pose proof (sqrt_lt_R0 Q QQ) as RQ. set (x := fun i => B2R (v i) / sqrt P). set (y := fun i => B2R (w i) / sqrt Q).
  set (g := st ^ (N + 4)). assert (G : 1 <= g <= 5). { split; [apply pow_ge; exact P2|]. unfold g. rewrite pow_add. pose proof (pow_small prec P2 N NB). pose proof step4. pose proof (pow_ge prec P2 N). pose proof (pow_ge prec P2 4). apply Rle_trans with (2 * (5 / 2)); [apply Rmult_le_compat; lra|lra]. }
  assert (ONE : forall (z : nat -> float) i, safe_vector N z -> exact_dot N z z <> 0 -> 0 < exact_dot N z z -> (i < N)%nat -> is_finite (fl_unit N z i) = true /\
    Rabs (B2R (fl_unit N z i) - B2R (z i) / sqrt (exact_dot N z z)) <= (g - 1) * Rabs (B2R (z i) / sqrt (exact_dot N z z)) /\ Rabs (B2R (fl_unit N z i)) <= g * Rabs (B2R (z i) / sqrt (exact_dot N z z))).
  { intros z i Sz Z Zp I. destruct (unit_runs prec emax P4 E8 N z Sz NB i Z I) as (F & S & (U & L)). split; [exact F|]. fold (exact_dot N z z) in U, L. pose proof (sqrt_lt_R0 _ Zp) as RZ. rewrite <- scaled_square in U, L by exact Zp.
    apply near_from_squares; try assumption; [lra|]. replace (B2R (fl_unit N z i) * (B2R (z i) / sqrt (exact_dot N z z))) with (B2R (fl_unit N z i) * B2R (z i) * / sqrt (exact_dot N z z)) by (field; lra). apply Rmult_le_pos; [exact S|left; now apply Rinv_0_lt_compat]. }
  set (a := fl_unit N w). set (b := fl_unit N v). assert (X : exact_dot N v w / (sqrt P * sqrt Q) = total N (fun i => y i * x i)).
  { unfold Rdiv, exact_dot. rewrite <- total_scale. apply total_ext. intros i I. unfold x, y. field. lra. }
  assert (XY : total N (fun i => Rabs (y i * x i)) <= 1).
  { apply Rle_trans with (total N (fun i => B2R (v i) * B2R (v i) * (/ P * / 2)) + total N (fun i => B2R (w i) * B2R (w i) * (/ Q * / 2))).
    - rewrite <- (Rplus_0_r (total N (fun i => Rabs (y i * x i)))). assert (forall n, total n (fun i => Rabs (y i * x i)) <= total n (fun i => B2R (v i) * B2R (v i) * (/ P * / 2)) + total n (fun i => B2R (w i) * B2R (w i) * (/ Q * / 2))) as T; [|pose proof (T N); lra].
      induction n as [|n IH]; cbn [total]; [lra|]. assert (E : Rabs (y n * x n) <= B2R (v n) * B2R (v n) * (/ P * / 2) + B2R (w n) * B2R (w n) * (/ Q * / 2)); [|lra].
      replace (B2R (v n) * B2R (v n) * (/ P * / 2)) with (x n * x n / 2) by (unfold x; rewrite scaled_square by exact PP; field; lra). replace (B2R (w n) * B2R (w n) * (/ Q * / 2)) with (y n * y n / 2) by (unfold y; rewrite scaled_square by exact QQ; field; lra).
      pose proof (Rle_0_sqr (x n - y n)) as S1. pose proof (Rle_0_sqr (x n + y n)) as S2. unfold Rsqr in S1, S2. apply Rabs_le. lra.
    - rewrite !total_scale. fold (exact_dot N v v). fold (exact_dot N w w). fold P Q. right. field. lra. }
  assert (AB : sum_of_sizes N a b <= g * g).
  { apply Rle_trans with (total N (fun i => Rabs (y i * x i) * (g * g))).
    - apply total_le. intros i I. destruct (ONE w i Sw Zw QQ I) as (_ & _ & A1). destruct (ONE v i Sv Zv PP I) as (_ & _ & A2). fold P Q in A1, A2. fold (x i) in A2. fold (y i) in A1. fold a in A1. fold b in A2.
      rewrite (Rabs_mult (y i)). replace (Rabs (y i) * Rabs (x i) * (g * g)) with (g * Rabs (y i) * (g * Rabs (x i))) by ring. now apply mul_bound.
    - rewrite total_scale. rewrite <- (Rmult_1_l (g * g)) at 2. apply Rmult_le_compat_r; [apply Rle_0_sqr|exact XY]. }
  assert (FF : forall i, (i < N)%nat -> is_finite (a i) = true /\ is_finite (b i) = true) by (intros i I; split; apply ONE; assumption).
  assert (AB25 : sum_of_sizes N a b <= 25) by (eapply Rle_trans; [exact AB|]; apply Rle_trans with (5 * 5); [apply Rmult_le_compat; lra|lra]).
  pose proof (dot_runs N a b NB FF AB25 N (le_n N)) as FD. pose proof (dot_accurate prec emax N a b FF FD) as DA.
  assert (NEAR : Rabs (exact_dot N a b - total N (fun i => y i * x i)) <= g * g - 1).
  { eapply Rle_trans; [apply (total_near N _ _ (fun i => Rabs (y i * x i) * (g * g - 1)))|].
    - intros i I. destruct (ONE w i Sw Zw QQ I) as (_ & A1 & A2). destruct (ONE v i Sv Zv PP I) as (_ & B1 & B2). fold P Q in A1, A2, B1, B2. fold (x i) in B1, B2. fold (y i) in A1, A2. fold a in A1, A2. fold b in B1, B2.
      replace (B2R (a i) * B2R (b i) - y i * x i) with ((B2R (a i) - y i) * B2R (b i) + y i * (B2R (b i) - x i)) by ring. eapply Rle_trans; [apply Rabs_triang|].
      pose proof (mul_bound _ _ _ _ A1 B2) as M1. pose proof (mul_bound (y i) _ _ _ (Rle_refl _) B1) as M2. rewrite (Rabs_mult (y i) (x i)). eapply Rle_trans; [apply Rplus_le_compat; [exact M1|exact M2]|]. right. ring.
    - rewrite total_scale. rewrite <- (Rmult_1_l (g * g - 1)) at 2. apply Rmult_le_compat_r; [|exact XY]. assert (1 * 1 <= g * g) by (apply Rmult_le_compat; lra). lra. }
  assert (E3 : (3 <= emax)%Z) by lia. destruct (lit_unit prec emax 1 ltac:(auto) E3) as (F1 & V1). destruct (lit_unit prec emax (-1) ltac:(auto) E3) as (F2 & V2).
  unfold fl_cosine. cbv zeta. fold a b. rewrite (clamp_value _ _ _ FD F2 F1), V1, V2. rewrite X. set (c := B2R (fl_dot N a b)) in *. set (t := total N (fun i => y i * x i)) in *.
  assert (T1 : -1 <= t <= 1) by (apply Rabs_le_inv; eapply Rle_trans; [apply total_abs|exact XY]).
  apply Rle_trans with (Rabs (c - t)); [unfold Rmin, Rmax; repeat destruct Rle_dec; unfold Rabs; repeat destruct Rcase_abs; lra|].
  replace (3 * N + 8)%nat with (N + ((N + 4) + (N + 4)))%nat by lia. rewrite (pow_add st N), (pow_add st (N + 4)). fold g.
  replace (c - t) with ((c - exact_dot N a b) + (exact_dot N a b - t)) by ring. eapply Rle_trans; [apply Rabs_triang|]. pose proof (pow_ge prec P2 N) as PG.
  assert (T3 : (st ^ N - 1) * sum_of_sizes N a b <= (st ^ N - 1) * (g * g)) by (apply Rmult_le_compat_l; [lra|exact AB]). lra.
Qed.
End Acc.

Lemma length_zero prec emax {Hp : Prec_gt_0 prec} {He : Prec_lt_emax prec emax} N (v : nat -> binary_float prec emax) m : (4 <= prec)%Z -> (Z.of_nat N <= 2 ^ (prec - 1))%Z -> safe_vector N v -> exact_dot N v v = 0 ->
  forall i, is_finite (fl_with_length N v m i) = true /\ B2R (fl_with_length N v m i) = 0.
Proof.
  intros P4 NB S Z i. destruct (mag2_runs prec emax P4 N v S NB N (le_n N)) as (F2 & W2 & P0). unfold fl_with_length. cbv zeta. rewrite (feqb_zero prec emax _ F2).
  rewrite Req_bool_true; [apply (lit_zero prec emax)|]. fold (exact_dot N v v) in W2. destruct W2 as (W & _). rewrite Z in W. lra.
Qed.
Lemma scaling_example : let v := vector2 (dbl 1 0) (dbl (-2) 0) in safe_scaling 2 v (dbl 3 0) /\ is_finite (dbl 3 0) = true /\ B2R (dbl 3 0) = 3.
Proof.
  intros v. destruct (dbl_int 1 ltac:(lia)) as (_ & V1). destruct (dbl_int 3 ltac:(lia)) as (_ & V3).
  destruct (dbl_int (-2) ltac:(lia)) as (_ & V2).
  split; [|split; [vm_compute; reflexivity|exact V3]]. intros i I p q. destruct example_safe as (_ & E). fold v in E. unfold q, p. rewrite E, V3. clear p q.
  assert (L : forall k, (k <= 0)%Z -> bpow radix2 k <= 1) by (intros k K; change 1 with (bpow radix2 0); now apply bpow_le).
  assert (U : forall k, (3 <= k)%Z -> 8 <= bpow radix2 k) by (intros k K; change 8 with (bpow radix2 3); now apply bpow_le).
  assert (LL : forall k, (k <= 0)%Z -> bpow radix2 k * bpow radix2 k <= 1) by (intros k K; rewrite <- (Rmult_1_l 1); apply Rmult_le_compat; try apply bpow_ge_0; now apply L).
  assert (UU : forall k, (3 <= k)%Z -> 8 * 8 <= bpow radix2 k * bpow radix2 k) by (intros k K; apply Rmult_le_compat; try lra; now apply U).
  pose proof (L (FmaSpec.emin 53 1024 + 53 - 1)%Z ltac:(unfold FmaSpec.emin; lia)). pose proof (LL (FmaSpec.emin 53 1024 + 53 + 1)%Z ltac:(unfold FmaSpec.emin; lia)). pose proof (U (1024 - 1)%Z ltac:(lia)). pose proof (UU (1024 - 3)%Z ltac:(lia)).
  destruct i as [|[|i]]; [| |lia]; unfold v; cbn [vector2 Nat.eqb]; [change (B2R (vector2 (dbl 1 0) (dbl (-2) 0) 0)) with (B2R (dbl 1 0)); rewrite V1|change (B2R (vector2 (dbl 1 0) (dbl (-2) 0) 1)) with (B2R (dbl (-2) 0)); rewrite V2]; split; right; try (rewrite Rabs_pos_eq by lra); try (rewrite Rabs_left by lra); lra.
Qed.
Lemma dist_example : let v := vector2 (dbl 3 0) (dbl (-2) 0) in let w := vector2 (dbl 2 0) (dbl 0 0) in
  (forall i, (i < 2)%nat -> is_finite (v i) = true /\ is_finite (w i) = true) /\ safe_vector 2 (fl_vsub 53 1024 v w).
Proof.
  intros v w. split; [intros [|[|i]] I; [| |lia]; split; vm_compute; reflexivity|]. destruct example_safe as ((A & B) & _).
  assert (E0 : fl_vsub 53 1024 v w 0%nat = dbl 1 0) by (apply B2SF_inj; vm_compute; reflexivity). assert (E1 : fl_vsub 53 1024 v w 1%nat = dbl (-2) 0) by (apply B2SF_inj; vm_compute; reflexivity).
  split.
  - intros [|[|i]] I; [| |lia]; [rewrite E0; exact (A 0%nat I)|rewrite E1; exact (A 1%nat I)].
  - unfold exact_dot in *. cbn [total] in *. rewrite E0, E1. exact B.
Qed.
