From Coq Require Import Reals ZArith Lia Lra Bool.
From Flocq Require Import Core Relative Plus_error BinarySingleNaN.
From Verif Require Import FmaModel FmaSpec FmaProofs FquadModel FquadSpec FquadProofs FquadMore FvecModel FvecSpec FvecProofs FvecMore FvecAcc FmtxModel FmtxSpec FmtxProofs FmtxMore FboxModel FboxSpec FboxProofs FsphModel FsphProofs FsphMore FsrModel FsrSpec FsrProofs.
Open Scope R_scope.

(** ** Real facts *)
Lemma cauchy N (f g : nat -> R) : let T := total N (fun i => Rabs (f i * g i)) in T * T <= total N (fun i => f i * f i) * total N (fun i => g i * g i).
Proof.
  cbv zeta. induction N as [|n IH]; cbn [total]; [lra|]. set (T := total n _) in *. set (A := total n (fun i => f i * f i)) in *. set (X := total n (fun i => g i * g i)) in *. set (x := f n). set (y := g n).
  assert (T0 : 0 <= T) by (apply total_nonneg; intros; apply Rabs_pos). assert (A0 : 0 <= A) by (apply total_nonneg; intros; apply Rle_0_sqr). assert (X0 : 0 <= X) by (apply total_nonneg; intros; apply Rle_0_sqr).
  set (w := Rabs (x * y)). assert (W0 : 0 <= w) by apply Rabs_pos. assert (WW : w * w = x * x * (y * y)). { unfold w. rewrite <- Rabs_mult, Rabs_pos_eq by apply Rle_0_sqr. ring. }
  assert (P : 0 <= A * (y * y)) by (apply Rmult_le_pos; [exact A0|apply Rle_0_sqr]). assert (Q : 0 <= X * (x * x)) by (apply Rmult_le_pos; [exact X0|apply Rle_0_sqr]).
  assert (K : Rabs (2 * (T * w)) <= A * (y * y) + X * (x * x)).
  { apply square_le; [lra|]. replace (2 * (T * w) * (2 * (T * w))) with (4 * (T * T * (w * w))) by ring. apply Rle_trans with (4 * (A * X * (w * w))).
    - apply Rmult_le_compat_l; [lra|]. apply Rmult_le_compat_r; [apply Rle_0_sqr|exact IH].
    - rewrite WW. pose proof (Rle_0_sqr (A * (y * y) - X * (x * x))) as S. unfold Rsqr in S. lra. }
  rewrite Rabs_pos_eq in K by (apply Rmult_le_pos; [lra|now apply Rmult_le_pos]). replace ((T + w) * (T + w)) with (T * T + 2 * (T * w) + w * w) by ring. rewrite WW. lra.
Qed.
Lemma disc_bound (A X R2 k a t c B S : R) : 0 <= A -> 0 <= X -> 0 <= R2 -> 0 <= k <= 1 -> Rabs (a - A) <= k * A -> Rabs (t - B) <= k * S -> 0 <= S -> S * S = A * X -> Rabs B <= S -> Rabs (c - (X - R2)) <= k * (X + R2) ->
  Rabs ((t * t - a * c) - (B * B - A * (X - R2))) <= 6 * k * (A * (X + R2)).
Proof.
  intros A0 X0 R0 (k0 & k1) Ha Ht S0 SS HB Hc. set (Z := X + R2) in *. assert (Z0 : 0 <= Z) by (unfold Z; lra). assert (AZ : 0 <= A * Z) by (now apply Rmult_le_pos).
  assert (I1 : Rabs (t * t - B * B) <= 3 * k * (A * Z)).
  { replace (t * t - B * B) with ((t - B) * (t - B + 2 * B)) by ring. rewrite Rabs_mult. apply Rle_trans with (k * S * (3 * S)).
    - apply Rmult_le_compat; try apply Rabs_pos; [exact Ht|]. eapply Rle_trans; [apply Rabs_triang|]. rewrite Rabs_mult, (Rabs_pos_eq 2) by lra. assert (k * S <= 1 * S) by (now apply Rmult_le_compat_r). lra.
    - replace (k * S * (3 * S)) with (3 * k * (S * S)) by ring. rewrite SS. apply Rmult_le_compat_l; [lra|]. apply Rmult_le_compat_l; [exact A0|unfold Z; lra]. }
  assert (I2 : Rabs (a * c - A * (X - R2)) <= 3 * k * (A * Z)).
  { replace (a * c - A * (X - R2)) with (a * (c - (X - R2)) + (a - A) * (X - R2)) by ring. eapply Rle_trans; [apply Rabs_triang|]. rewrite !Rabs_mult.
    assert (Aa : Rabs a <= 2 * A). { replace a with (a - A + A) by ring. eapply Rle_trans; [apply Rabs_triang|]. rewrite (Rabs_pos_eq A) by exact A0. assert (k * A <= 1 * A) by (now apply Rmult_le_compat_r). lra. }
    assert (Cc : Rabs (X - R2) <= Z) by (apply Rabs_le; unfold Z; lra).
    apply Rle_trans with (2 * A * (k * Z) + k * A * Z); [|right; ring]. apply Rplus_le_compat; apply Rmult_le_compat; try apply Rabs_pos; assumption. }
  replace (t * t - a * c - (B * B - A * (X - R2))) with ((t * t - B * B) - (a * c - A * (X - R2))) by ring. unfold Rminus at 1. eapply Rle_trans; [apply Rabs_triang|]. rewrite Rabs_Ropp. lra.
Qed.
Lemma binom x n : 0 <= x -> 1 + INR n * x <= (1 + x) ^ n.
Proof.
  intros X. induction n as [|n IH]; [cbn; lra|]. rewrite S_INR. cbn [pow]. apply Rle_trans with ((1 + x) * (1 + INR n * x)).
  - pose proof (Rmult_le_pos x x X X). pose proof (Rmult_le_pos _ _ (pos_INR n) H). replace ((1 + x) * (1 + INR n * x)) with (1 + (INR n + 1) * x + INR n * (x * x)) by ring. lra.
  - apply Rmult_le_compat_l; [lra|exact IH].
Qed.

Section Sr.
Variable prec emax : Z.
Context {Hp : Prec_gt_0 prec} {He : Prec_lt_emax prec emax}.
Notation float := (binary_float prec emax).
Notation vector := (nat -> float).
Notation pw := (bpow radix2).
Notation emin' := (FmaSpec.emin prec emax).
Notation fexp' := (FLT_exp emin' prec).
Notation RNE := (rn fexp' (fun t => negb (Z.even t))).
Notation FT := (generic_format radix2 fexp').
Notation M := (pw emax).
Notation u := (pw (- prec)).
Notation st := (step prec).
Notation low := (pw (emin' + prec - 1)).
Notation sub := (fl_sub prec emax).
Notation mul := (fl_mul prec emax).
Let VT : Valid_exp fexp' := FLT_exp_valid emin' prec.

Lemma factor_abs k x y : 0 <= y -> within_factor prec k x y -> Rabs (x - y) <= (st ^ k - 1) * y.
Proof.
  intros Y (A & B). pose proof (st_pos prec k) as K. apply Rabs_le. split; [|lra]. assert (y * (2 - st ^ k) <= x); [|lra]. apply (Rmult_le_reg_r (st ^ k)); [lra|]. eapply Rle_trans; [|exact B]. rewrite <- (Rmult_1_r y) at 2. rewrite Rmult_assoc. apply Rmult_le_compat_l; [exact Y|].
  pose proof (Rle_0_sqr (st ^ k - 1)). unfold Rsqr in *. lra.
Qed.
(** The dot product with a rounded difference. *)
Lemma dot_zero N (v w : vector) : all_finite N v -> all_finite N w -> (forall i, (i < N)%nat -> B2R (v i) * B2R (w i) = 0) -> is_finite (fl_dot N v w) = true /\ B2R (fl_dot N v w) = 0.
Proof.
  induction N as [|n IH]; intros V W Z; [apply (lit_zero prec emax)|]. destruct IH as (A & B); try (intros i I; (apply V || apply W || apply Z); lia). cbn [fl_dot]. unfold fl_multiply_add.
  destruct (fma_any prec emax (v n) (w n) (fl_dot n v w)) as (C & D); [apply V; lia|apply W; lia|exact A|]. rewrite B, Z, Rplus_0_r, (rne_zero prec emax), (cl_small emax) in D by (lia || (rewrite Rabs_R0; apply m_pos)).
  assert (F : is_finite (fl_fma prec emax (v n) (w n) (fl_dot n v w)) = true) by (apply (place_finite prec emax); [exact C|rewrite D, Rabs_R0; apply m_pos]). rewrite (finite_place prec emax _ F) in D. split; assumption.
Qed.
Lemma low_sum N (v : vector) : safe_vector N v -> (forall i, (i < N)%nat -> B2R (v i) = 0) \/ low <= exact_dot N v v.
Proof.
  intros (H & _). assert (K : forall n, (n <= N)%nat -> (forall i, (i < n)%nat -> B2R (v i) = 0) \/ low <= total n (fun i => B2R (v i) * B2R (v i))); [|exact (K N (le_n N))].
  induction n as [|n IH]; intros L; [left; intros; lia|]. cbn [total]. assert (P : 0 <= total n (fun i => B2R (v i) * B2R (v i))) by (apply total_nonneg; intros; apply Rle_0_sqr). pose proof (Rle_0_sqr (B2R (v n))) as Q. unfold Rsqr in Q.
  destruct (H n ltac:(lia)) as (_ & [Z|Z]); [|right; lra]. destruct (IH ltac:(lia)) as [A|A]; [|right; lra]. left. intros i I. destruct (Nat.eq_dec i n) as [E|Ne]; [now rewrite E|apply A; lia].
Qed.
Lemma ray_dot N (d c o : vector) : (4 <= prec)%Z -> safe_vector N d -> safe_vector N (fl_vsub prec emax c o) -> all_finite N c -> all_finite N o -> is_finite (fl_dot N d (fl_vsub prec emax c o)) = true ->
  let B := total N (fun i => B2R (d i) * (B2R (c i) - B2R (o i))) in let S := sqrt (exact_dot N d d * exact_dist2 N c o) in
  Rabs (B2R (fl_dot N d (fl_vsub prec emax c o)) - B) <= (st ^ (2 * N + 1) - 1) * S /\ Rabs B <= S.
Proof.
  intros P4 Sd Sx C O F B S. set (x := fl_vsub prec emax c o) in *. set (X := fun i => B2R (c i) - B2R (o i)).
  assert (U0 : 0 < u) by apply bpow_gt_0. assert (P2 : (2 <= prec)%Z) by lia.
  assert (A0 : 0 <= exact_dot N d d) by (apply total_nonneg; intros; apply Rle_0_sqr). assert (D0 : 0 <= exact_dist2 N c o) by (apply total_nonneg; intros; apply Rle_0_sqr).
  assert (S0 : 0 <= S) by apply sqrt_pos. assert (SS : S * S = exact_dot N d d * exact_dist2 N c o) by (apply sqrt_sqrt; now apply Rmult_le_pos).
  set (T := total N (fun i => Rabs (B2R (d i) * X i))).
  assert (TS : T <= S). { apply Rle_trans with (Rabs T); [apply Rle_abs|]. apply square_le; [exact S0|]. rewrite SS. apply (cauchy N (fun i => B2R (d i)) X). }
  assert (BT : Rabs B <= T) by apply total_abs. split; [|lra].
  assert (E : forall i, (i < N)%nat -> Rabs (B2R (x i) - X i) <= u * Rabs (X i)).
  { intros i I. unfold x, fl_vsub, X. assert (Fi : is_finite (sub (c i) (o i)) = true) by (apply (proj1 Sx i I)). rewrite (minus_finite prec emax _ _ (C i I) (O i I) Fi).
    destruct (sum_model prec emax (B2R (c i)) (- B2R (o i))) as (e & E1 & E2); [apply b2r_format|apply generic_format_opp, b2r_format|]. change (RNE (B2R (c i) - B2R (o i))) with (RNE (B2R (c i) + - B2R (o i))). rewrite E2. replace ((B2R (c i) + - B2R (o i)) * (1 + e) - (B2R (c i) - B2R (o i))) with (e * (B2R (c i) - B2R (o i))) by ring. rewrite Rabs_mult. apply Rmult_le_compat_r; [apply Rabs_pos|exact E1]. }
  assert (I1 : Rabs (exact_dot N d x - B) <= u * T).
  { unfold exact_dot, B, T. rewrite Rmult_comm, <- total_scale. apply total_near. intros i I. fold (X i). replace (B2R (d i) * B2R (x i) - B2R (d i) * X i) with (B2R (d i) * (B2R (x i) - X i)) by ring. rewrite !Rabs_mult. replace (Rabs (B2R (d i)) * Rabs (X i) * u) with (Rabs (B2R (d i)) * (u * Rabs (X i))) by ring. apply Rmult_le_compat_l; [apply Rabs_pos|now apply E]. }
  assert (I2 : sum_of_sizes N d x <= st * T).
  { unfold sum_of_sizes, T. rewrite (Rmult_comm st), <- total_scale. apply total_le. intros i I. rewrite !Rabs_mult, Rmult_assoc. apply Rmult_le_compat_l; [apply Rabs_pos|]. replace (B2R (x i)) with (B2R (x i) - X i + X i) by ring. eapply Rle_trans; [apply Rabs_triang|]. specialize (E i I). unfold step. lra. }
  pose proof (dot_accurate prec emax N d x (fun i I => Logic.conj (proj1 (proj1 Sd i I)) (proj1 (proj1 Sx i I))) F) as I3.
  pose proof (st_pos prec N) as KN. pose proof (st_pos prec (2 * N + 1)) as K2. assert (S1 : 1 <= st) by (unfold step; lra).
  destruct (low_sum N d Sd) as [Zd|Ld]; [|destruct (low_sum N x Sx) as [Zx|Lx]].
  - destruct (dot_zero N d x) as (_ & V); [intros i I; apply (proj1 Sd i I)|intros i I; apply (proj1 Sx i I)|intros i I; rewrite Zd by exact I; ring|]. assert (B0 : B = 0). { unfold B. rewrite (total_ext N _ (fun _ => 0 * 0)); [rewrite (total_scale N (fun _ => 0) 0); ring|]. intros i I. rewrite Zd by exact I. ring. }
    rewrite V, B0, Rminus_0_r, Rabs_R0. apply Rmult_le_pos; lra.
  - destruct (dot_zero N d x) as (_ & V); [intros i I; apply (proj1 Sd i I)|intros i I; apply (proj1 Sx i I)|intros i I; rewrite Zx by exact I; ring|]. assert (B0 : B = 0).
    { unfold B. rewrite (total_ext N _ (fun _ => 0 * 0)); [rewrite (total_scale N (fun _ => 0) 0); ring|]. intros i I. fold (X i). specialize (E i I). rewrite Zx in E by exact I. rewrite Rminus_0_l, Rabs_Ropp in E. assert (U4 : u <= / 4) by (apply (u_quarter prec P2)). pose proof (Rabs_pos (X i)) as Q.
      assert (Z : Rabs (X i) = 0). { assert (u * Rabs (X i) <= / 4 * Rabs (X i)) by (now apply Rmult_le_compat_r). lra. } assert (Xi : X i = 0) by (destruct (Req_dec (X i) 0) as [G|G]; [exact G|]; apply Rabs_no_R0 in G; contradiction). rewrite Xi. ring. }
    rewrite V, B0, Rminus_0_r, Rabs_R0. apply Rmult_le_pos; lra.
  - assert (L : low <= st * S).
    { apply Rle_trans with (Rabs low); [apply Rle_abs|]. apply square_le; [apply Rmult_le_pos; lra|]. replace (st * S * (st * S)) with (st * st * (S * S)) by ring. rewrite SS. replace (st * st * (exact_dot N d d * exact_dist2 N c o)) with (exact_dot N d d * (exact_dist2 N c o * (st * st))) by ring.
      apply Rmult_le_compat; try apply bpow_ge_0; [exact Ld|]. eapply Rle_trans; [exact Lx|]. unfold exact_dot, exact_dist2. rewrite <- total_scale. apply total_le. intros i I.
      destruct (diff_square prec emax P4 (c i) (o i) (C i I) (O i I) (proj1 (proj1 Sx i I))) as (G & _). eapply Rle_trans; [exact G|]. right. cbn [pow]. ring. }
    assert (H : INR N * st ^ N * pw (emin' - 1) <= (st ^ N - 1) * st ^ N * (st * S)).
    { replace (pw (emin' - 1)) with (u * low) by (rewrite <- bpow_plus; f_equal; ring). replace (INR N * st ^ N * (u * low)) with (INR N * u * st ^ N * low) by ring. apply Rmult_le_compat; [|apply bpow_ge_0| |exact L].
      - apply Rmult_le_pos; [apply Rmult_le_pos; [apply pos_INR|lra]|lra].
      - apply Rmult_le_compat_r; [lra|]. pose proof (binom u N ltac:(lra)) as G. unfold step. lra. }
    replace (B2R (fl_dot N d x) - B) with ((B2R (fl_dot N d x) - exact_dot N d x) + (exact_dot N d x - B)) by ring. eapply Rle_trans; [apply Rabs_triang|].
    assert (J1 : (st ^ N - 1) * sum_of_sizes N d x <= (st ^ N - 1) * (st * S)). { apply Rmult_le_compat_l; [lra|]. eapply Rle_trans; [exact I2|]. apply Rmult_le_compat_l; lra. }
    assert (J2 : u * T <= u * S) by (apply Rmult_le_compat_l; lra). replace (2 * N + 1)%nat with (N + N + 1)%nat by lia. rewrite !pow_add, pow_1. assert (G : u * S = st * S - S) by (unfold step; ring). lra.
Qed.
Lemma ray_dist2_form N (c o d : vector) t : ray_dist2 N c o d t = exact_dist2 N c o - 2 * t * total N (fun i => B2R (d i) * (B2R (c i) - B2R (o i))) + t * t * exact_dot N d d.
Proof. unfold ray_dist2, exact_dist2, exact_dot. induction N as [|n IH]; cbn [total]; [ring|]. rewrite IH. ring. Qed.
Lemma ray_decides N (s : fl_sphere prec emax) (o d : vector) : (8 <= prec)%Z -> (8 <= emax)%Z -> (Z.of_nat (2 * N + 3) <= 2 ^ (prec - 1))%Z ->
  all_finite N (fl_center s) -> all_finite N o -> is_finite (fl_radius s) = true -> safe_vector N d -> safe_vector N (fl_vsub prec emax (fl_center s) o) ->
  let r := B2R (fl_radius s) in r = 0 \/ low <= r * r -> coefficients_ok (fl_ray_a N d) (fl_ray_b N s o d) (fl_ray_c N s o) -> exact_dot N d d <> 0 ->
  let m := 6 * (st ^ (2 * N + 3) - 1) * (exact_dist2 N (fl_center s) o + r * r) in
  ((exists t, ray_dist2 N (fl_center s) o d t + m <= r * r) -> fl_sphere_ray N s o d <> None) /\
  ((forall t, r * r + m < ray_dist2 N (fl_center s) o d t) -> fl_sphere_ray N s o d = None).
Proof.
  intros P8 E8 NB C O R Sd Sx r L OK A1 m. assert (P4 : (4 <= prec)%Z) by lia. assert (P2 : (2 <= prec)%Z) by lia. assert (NB' : (Z.of_nat N <= 2 ^ (prec - 1))%Z) by lia.
  set (A := exact_dot N d d) in *. set (X := exact_dist2 N (fl_center s) o) in *. set (B := total N (fun i => B2R (d i) * (B2R (fl_center s i) - B2R (o i)))).
  assert (A0 : 0 <= A) by (apply total_nonneg; intros; apply Rle_0_sqr). assert (X0 : 0 <= X) by (apply total_nonneg; intros; apply Rle_0_sqr). assert (R0 : 0 <= r * r) by apply Rle_0_sqr.
  set (k := st ^ (2 * N + 3) - 1) in *. assert (k0 : 0 <= k) by (unfold k; pose proof (st_pos prec (2 * N + 3)); lra). assert (k1 : k <= 1) by (unfold k; pose proof (pow_small prec P2 (2 * N + 3) NB); lra).
  assert (KK : forall j, (j <= 2 * N + 3)%nat -> st ^ j - 1 <= k) by (intros j J; unfold k; pose proof (factor_scale_pow prec j (2 * N + 3) J); lra).
  pose proof OK as (Fa & Fb & Fc & _).
  destruct (mag2_runs prec emax P4 N d Sd NB' N (le_n N)) as (_ & Wa & a0). change (fl_mag2 N d) with (fl_ray_a N d) in *. change (total N (fun i => B2R (d i) * B2R (d i))) with A in Wa.
  assert (Ha : Rabs (B2R (fl_ray_a N d) - A) <= k * A). { eapply Rle_trans; [apply (factor_abs N _ _ A0 Wa)|]. apply Rmult_le_compat_r; [exact A0|apply KK; lia]. }
  assert (ap : 0 < B2R (fl_ray_a N d)). { destruct a0 as [G|G]; [exact G|]. exfalso. destruct Wa as (_ & W). rewrite <- G, Rmult_0_l in W. lra. }
  assert (Fb' := Fb). unfold fl_ray_b in Fb'. destruct (mul_parts prec emax _ _ Fb') as (F2 & Ft). destruct (ray_dot N d (fl_center s) o P4 Sd Sx C O Ft) as (Ht & HB). fold A X B in Ht, HB. set (S := sqrt (A * X)) in *.
  assert (S0 : 0 <= S) by apply sqrt_pos. assert (SS : S * S = A * X) by (apply sqrt_sqrt; now apply Rmult_le_pos).
  assert (T : B2R (fl_ray_b N s o d) = - 2 * B2R (fl_dot N d (fl_vsub prec emax (fl_center s) o))).
  { unfold fl_ray_b in *. destruct (lit_runs prec emax (-2) 0) as (_ & V).
    - change (pw 0) with 1. rewrite Rmult_1_r. change (-2) with (- pw 1). apply generic_format_opp. apply (pw_format prec emax). unfold FmaSpec.emin. lia.
    - change (pw 0) with 1. rewrite Rmult_1_r. change (-2) with (- pw 1). rewrite Rabs_Ropp, Rabs_pos_eq by (left; apply bpow_gt_0). apply bpow_lt. lia.
    - rewrite (mult_finite prec emax _ _ F2 Ft Fb), V. change (pw 0) with 1. rewrite Rmult_1_r. set (y := fl_dot N d _). apply (rn_id emin' prec). replace (-2 * B2R y) with (- (pw 1 * B2R y)) by (change (pw 1) with 2; ring). apply generic_format_opp. apply (scale_up prec emax); [lia|apply (b2r_format prec emax)]. }
  set (t := B2R (fl_dot N d _)) in *.
  assert (Ht' : Rabs (t - B) <= k * S). { eapply Rle_trans; [exact Ht|]. apply Rmult_le_compat_r; [exact S0|apply KK; lia]. }
  assert (Hc : Rabs (B2R (fl_ray_c N s o) - (X - r * r)) <= k * (X + r * r)).
  { destruct (dist_accurate prec emax P4 E8 N _ _ (fun i I => Logic.conj (C i I) (O i I)) Sx NB') as (Fm & Wm & _). change (total N _) with X in Wm. change (fl_dist2 N (fl_center s) o) with (fl_mag2 N (fl_vsub prec emax (fl_center s) o)) in *.
    unfold fl_ray_c in *. destruct (sub_parts prec emax _ _ Fc) as (_ & Fr). rewrite (minus_finite prec emax _ _ Fm Fr Fc). set (mm := B2R (fl_mag2 N _)) in *. pose proof (mult_finite prec emax _ _ R R Fr) as Vr. fold r in Vr.
    assert (NF : low <= r * r \/ FT (r * r)) by (destruct L as [Z|Z]; [right; rewrite Z, Rmult_0_l; apply generic_format_0|now left]). destruct (normal_factor prec emax P4 (r * r) R0 NF) as (Wr & _). change (B2R (mul (fl_radius s) (fl_radius s)) = RNE (r * r)) in Vr. rewrite <- Vr in Wr. set (rr := B2R (mul _ _)) in *.
    pose proof (factor_abs _ _ _ X0 Wm) as Em. pose proof (factor_abs _ _ _ R0 Wr) as Er. pose proof (factor_scale_pow prec 1 (N + 2) ltac:(lia)) as G1. rewrite pow_1 in *. set (g := st ^ (N + 2)) in *. pose proof (st_pos prec (N + 2)) as g1. fold g in g1.
    assert (Er' : Rabs (rr - r * r) <= (g - 1) * (r * r)) by (eapply Rle_trans; [exact Er|apply Rmult_le_compat_r; lra]).
    destruct (sum_model prec emax mm (- rr)) as (e & E1 & E2); [apply b2r_format|apply generic_format_opp, b2r_format|]. change (RNE (mm - rr)) with (RNE (mm + - rr)). rewrite E2.
    replace ((mm + - rr) * (1 + e) - (X - r * r)) with (e * (mm - rr) + ((mm - X) - (rr - r * r))) by ring.
    assert (Q : Rabs ((mm - X) - (rr - r * r)) <= (g - 1) * (X + r * r)) by (apply Rabs_le_inv in Em; apply Rabs_le_inv in Er'; apply Rabs_le; split; lra).
    assert (Q2 : Rabs (mm - rr) <= g * (X + r * r)). { replace (mm - rr) with ((mm - X - (rr - r * r)) + (X - r * r)) by ring. eapply Rle_trans; [apply Rabs_triang|]. assert (Rabs (X - r * r) <= X + r * r) by (apply Rabs_le; lra). lra. }
    eapply Rle_trans; [apply Rabs_triang|]. rewrite Rabs_mult. apply Rle_trans with (u * (g * (X + r * r)) + (g - 1) * (X + r * r)).
    - apply Rplus_le_compat; [|exact Q]. apply Rmult_le_compat; try apply Rabs_pos; assumption.
    - replace (u * (g * (X + r * r)) + (g - 1) * (X + r * r)) with ((st * g - 1) * (X + r * r)) by (unfold step; ring). apply Rmult_le_compat_r; [lra|]. replace (st * g) with (st ^ (N + 3)) by (unfold g; rewrite tech_pow_Rmult; f_equal; lia). apply KK. lia. }
  pose proof (disc_bound A X (r * r) k _ t _ B S A0 X0 R0 (Logic.conj k0 k1) Ha Ht' S0 SS HB Hc) as Db. set (a := B2R (fl_ray_a N d)) in *. set (c := B2R (fl_ray_c N s o)) in *.
  assert (Dd : fl_sphere_ray N s o d <> None <-> 0 <= t * t - a * c).
  { destruct (decides prec emax P8 E8 _ _ _ OK) as (_ & Q). fold a c in Q. rewrite T in Q. fold t in Q. assert (NZ : ~ (a = 0 /\ - 2 * t = 0)) by lra. specialize (Q NZ). rewrite (root_disc prec P8 _ _ _ NZ) in Q. replace (- 2 * t * (- 2 * t) - 4 * a * c) with (4 * (t * t - a * c)) in Q by ring.
    unfold fl_sphere_ray. destruct (fl_quadratic_solve _ _ _) as [(x0 & x1)|]; split; intros G; try discriminate; try congruence.
    - assert (0 <= 4 * (t * t - a * c)) by (apply Q; discriminate). lra.
    - exfalso. apply Q; [lra|reflexivity]. }
  apply Rabs_le_inv in Db. assert (MM : 6 * k * (A * (X + r * r)) = A * m) by (unfold m; ring). rewrite MM in Db. split.
  - intros (q & Q). apply Dd. rewrite ray_dist2_form in Q. fold A X B in Q.
    assert (Z : A * (X - r * r + m) <= B * B). { apply Rle_trans with (A * (2 * q * B - q * q * A)); [apply Rmult_le_compat_l; lra|]. pose proof (Rle_0_sqr (B - q * A)) as G. unfold Rsqr in G. lra. } lra.
  - intros Q. specialize (Q (B / A)). rewrite ray_dist2_form in Q. fold A X B in Q. replace (X - 2 * (B / A) * B + B / A * (B / A) * A) with (X - B * B / A) in Q by (field; exact A1).
    assert (Ap : 0 < A) by lra. assert (Z : B * B < A * (X - r * r - m)). { apply (Rmult_lt_compat_l A) in Q; [|exact Ap]. replace (A * (X - B * B / A)) with (A * X - B * B) in Q by (field; exact A1). lra. }
    destruct (fl_sphere_ray N s o d) eqn:Er; [|reflexivity]. exfalso. assert (0 <= t * t - a * c) by (apply Dd; discriminate). lra.
Qed.
End Sr.
