From Coq Require Import Reals ZArith Lia Lra Bool.
From Flocq Require Import Core Relative Plus_error BinarySingleNaN.
From Verif Require Import FmaModel FmaSpec FmaProofs FquadModel FquadSpec FquadProofs FquadMore FvecModel FvecSpec FvecProofs FvecMore FvecAcc FboxModel FboxSpec FboxProofs FinvModel FinvSpec.
Open Scope R_scope.

Section Inv.
Variable prec emax : Z.
Context {Hp : Prec_gt_0 prec} {He : Prec_lt_emax prec emax}.
Notation float := (binary_float prec emax).
Notation matrix := (nat -> nat -> float).
Notation pw := (bpow radix2).
Notation emin' := (FmaSpec.emin prec emax).
Notation fexp' := (FLT_exp emin' prec).
Notation RNE := (rn fexp' (fun t => negb (Z.even t))).
Notation FT := (generic_format radix2 fexp').
Notation M := (pw emax).
Notation u := (pw (- prec)).
Notation low := (pw (emin' + prec - 1)).
Notation div := (fl_div prec emax).
Notation zero := (fl_lit prec emax 0 0).
Let VT : Valid_exp fexp' := FLT_exp_valid emin' prec.

Lemma ulp_relative x : low <= Rabs x -> ulp radix2 fexp' x <= 2 * u * Rabs x.
Proof.
  intros H. assert (NZ : x <> 0). { intros E. rewrite E, Rabs_R0 in H. pose proof (bpow_gt_0 radix2 (emin' + prec - 1)). lra. }
  rewrite ulp_neq_0 by exact NZ. unfold cexp, FLT_exp. assert (G : (emin' + prec - 1 < mag radix2 x)%Z). { apply mag_gt_bpow. exact H. }
  rewrite Z.max_l by lia. pose proof (bpow_mag_le radix2 x NZ) as Q. replace (mag radix2 x - prec)%Z with (1 + - prec + (mag radix2 x - 1))%Z by ring. rewrite bpow_plus, bpow_plus. change (pw 1) with 2. apply Rmult_le_compat_l; [pose proof (bpow_gt_0 radix2 (- prec)); lra|exact Q].
Qed.
(** ** 2 x 2 determinants *)
Lemma det2_runs (a b c d : float) : (3 <= emax)%Z -> safe_det2 a b c d -> let D := exact_det2 (B2R a) (B2R b) (B2R c) (B2R d) in
  is_finite (fl_det2 a b c d) = true /\ Rabs (B2R (fl_det2 a b c d) - D) <= 3 * u * Rabs D.
Proof.
  intros E3 (Fa & Fb & Fc & Fd & B1 & B2 & N & L) D. unfold fl_det2. destruct (diff_finite prec emax a d b c E3 Fa Fd Fb Fc B1 B2) as (F & _). split; [exact F|]. cbv zeta in L. fold D in L. destruct L as [Z|L].
  - rewrite (diff_zero prec emax a d b c Fa Fd Fb Fc F N Z), Z, Rminus_0_r, Rabs_R0. lra.
  - destruct (diff_accurate prec emax a d b c Fa Fd Fb Fc F N) as (_ & A). change (B2R a * B2R d - B2R b * B2R c) with D in A. eapply Rle_trans; [exact A|]. unfold unit_last_place. pose proof (ulp_relative D L). lra.
Qed.
Lemma u_le k : (k <= prec)%Z -> u <= pw (- k). Proof. intros H. apply bpow_le. lia. Qed.
Lemma u16 : (4 <= prec)%Z -> 0 < u <= / 16. Proof. intros H. split; [apply bpow_gt_0|]. change (/ 16) with (pw (- (4))). now apply u_le. Qed.
Lemma eqb_zero' (x : float) : is_finite x = true -> (fl_eqb prec emax x zero = true <-> B2R x = 0).
Proof. intros F. destruct (lit_zero prec emax) as (Fz & Vz). unfold fl_eqb. rewrite Beqb_correct by assumption. rewrite Vz. destruct (Req_bool_spec (B2R x) 0); split; intros; auto; (discriminate || contradiction). Qed.
(** A quotient of values with relative errors s and t. *)
Lemma quotient_error (X Y x y s t : R) : Y <> 0 -> 0 <= s -> 0 <= t < 1 -> Rabs (x - X) <= s * Rabs X -> Rabs (y - Y) <= t * Rabs Y -> y <> 0 /\ Rabs (x / y - X / Y) <= (s + t) / (1 - t) * Rabs (X / Y).
Proof.
  intros NY S T Hx Hy. assert (AY : 0 < Rabs Y) by (now apply Rabs_pos_lt). assert (Ly : (1 - t) * Rabs Y <= Rabs y). { replace Y with (y + - (y - Y)) at 1 by ring. pose proof (Rabs_triang y (- (y - Y))) as Q. rewrite Rabs_Ropp in Q. replace (y + - (y - Y)) with Y in * by ring. lra. }
  assert (P : 0 < (1 - t) * Rabs Y) by (apply Rmult_lt_0_compat; lra). assert (Ny : y <> 0) by (intros E; rewrite E, Rabs_R0 in Ly; lra). split; [exact Ny|].
  replace (x / y - X / Y) with (((x - X) * Y + X * (Y - y)) / (y * Y)) by (field; split; assumption). unfold Rdiv at 1. rewrite Rabs_mult, Rabs_inv, Rabs_mult. unfold Rdiv at 2. rewrite (Rabs_mult X), Rabs_inv.
  assert (Nu : Rabs ((x - X) * Y + X * (Y - y)) <= (s + t) * (Rabs X * Rabs Y)).
  { eapply Rle_trans; [apply Rabs_triang|]. rewrite !Rabs_mult, (Rabs_minus_sym Y y). pose proof (Rabs_pos X) as AX. assert (Rabs (x - X) * Rabs Y <= s * Rabs X * Rabs Y) by (apply Rmult_le_compat_r; lra). assert (Rabs X * Rabs (y - Y) <= Rabs X * (t * Rabs Y)) by (now apply Rmult_le_compat_l). lra. }
  apply Rle_trans with ((s + t) * (Rabs X * Rabs Y) * / ((1 - t) * Rabs Y * Rabs Y)).
  - apply Rmult_le_compat; [apply Rabs_pos|left; apply Rinv_0_lt_compat, Rmult_lt_0_compat; [now apply Rabs_pos_lt|exact AY]|exact Nu|]. apply Rinv_le_contravar; [apply Rmult_lt_0_compat; assumption|]. apply Rmult_le_compat_r; lra.
  - right. field. lra.
Qed.
Lemma rounded_quotient (x y : float) (e k : R) : (4 <= prec)%Z -> is_finite x = true -> is_finite y = true -> B2R y <> 0 -> representable prec emax e -> 0 <= k <= / 4 -> Rabs (B2R x / B2R y - e) <= k * Rabs e ->
  is_finite (div x y) = true /\ Rabs (B2R (div x y) - e) <= (k + u * (1 + k)) * Rabs e.
Proof.
  intros P4 Fx Fy Ny R K H. set (q := B2R x / B2R y) in *. pose proof (u16 P4) as U. pose proof (Rabs_pos e) as Ae.
  assert (Q1 : Rabs q <= (1 + k) * Rabs e). { replace q with (q - e + e) by ring. eapply Rle_trans; [apply Rabs_triang|]. lra. }
  assert (Er : Rabs (RNE q - q) <= u * Rabs q /\ Rabs (RNE q) < M).
  { destruct R as [Z|(R1 & R2)].
    - rewrite Z, Rabs_R0, Rmult_0_r in Q1. pose proof (Rabs_pos q). assert (Zq : q = 0) by (destruct (Req_dec q 0) as [G|G]; [exact G|apply Rabs_pos_lt in G; lra]). rewrite Zq, (rn_zero emin' prec), Rminus_0_r, Rabs_R0. split; [lra|apply bpow_gt_0].
    - assert (Lq : low <= Rabs q). { assert ((1 - k) * Rabs e <= Rabs q). { replace e with (q - (q - e)) at 1 by ring. unfold Rminus at 2. pose proof (Rabs_triang q (- (q - e))) as G. rewrite Rabs_Ropp in G. replace (q + - (q - e)) with e in * by ring. lra. }
        assert (2 * low = pw (emin' + prec)). { change 2 with (pw 1). rewrite <- bpow_plus. f_equal. ring. } assert (/ 2 * Rabs e <= (1 - k) * Rabs e) by (apply Rmult_le_compat_r; lra). lra. }
      pose proof (error_le_half_ulp radix2 fexp' (fun t => negb (Z.even t)) q) as G. change (round radix2 fexp' (Znearest (fun t => negb (Z.even t))) q) with (RNE q) in G. pose proof (ulp_relative q Lq) as G2. split; [lra|].
      assert (Rabs (RNE q) <= (1 + u) * Rabs q). { replace (RNE q) with (RNE q - q + q) by ring. eapply Rle_trans; [apply Rabs_triang|]. lra. }
      assert (M2 : M = 2 * pw (emax - 1)) by (change 2 with (pw 1); rewrite <- bpow_plus; f_equal; ring). pose proof (bpow_gt_0 radix2 (emax - 1)) as MP.
      assert (Rabs q <= 5 / 4 * pw (emax - 1)). { eapply Rle_trans; [exact Q1|]. apply Rle_trans with (5 / 4 * Rabs e); [apply Rmult_le_compat_r; lra|lra]. } assert ((1 + u) * Rabs q <= 17 / 16 * (5 / 4 * pw (emax - 1))) by (apply Rmult_le_compat; try lra; apply Rabs_pos). lra. }
  destruct Er as (E1 & E2). destruct (div_runs prec emax x y Fx Ny E2) as (F & V). split; [exact F|]. rewrite V. fold q. replace (RNE q - e) with ((RNE q - q) + (q - e)) by ring. eapply Rle_trans; [apply Rabs_triang|].
  assert (u * Rabs q <= u * ((1 + k) * Rabs e)) by (apply Rmult_le_compat_l; lra). lra.
Qed.
(** ** 2 x 2 inverses *)
Lemma inv2_error : (4 <= prec)%Z -> 0 <= 3 * u / (1 - 3 * u) <= / 4 /\ 3 * u / (1 - 3 * u) + u * (1 + 3 * u / (1 - 3 * u)) <= 5 * u.
Proof.
  intros P4. pose proof (u16 P4) as U. assert (I : 0 < 1 - 3 * u) by lra. assert (A : 3 * u / (1 - 3 * u) <= / 4) by (apply (Rmult_le_reg_r (1 - 3 * u)); [exact I|]; unfold Rdiv; rewrite Rmult_assoc, Rinv_l by lra; lra).
  split; [split; [apply Rmult_le_pos; [lra|left; now apply Rinv_0_lt_compat]|exact A]|]. apply (Rmult_le_reg_r (1 - 3 * u)); [exact I|]. replace ((3 * u / (1 - 3 * u) + u * (1 + 3 * u / (1 - 3 * u))) * (1 - 3 * u)) with (4 * u) by (field; lra).
  pose proof (Rmult_le_compat_l u _ _ ltac:(lra) (proj2 U)). lra.
Qed.
Lemma inv2_entry (x : float) (det : float) (D e : R) : (4 <= prec)%Z -> is_finite x = true -> is_finite det = true -> D <> 0 -> Rabs (B2R det - D) <= 3 * u * Rabs D -> D * e = B2R x -> representable prec emax e -> relative_to 5 (div x det) e.
Proof.
  intros P4 Fx Fd ND H E R. pose proof (u16 P4) as U. destruct (inv2_error P4) as (K1 & K2). assert (Ee : e = B2R x / D) by (rewrite <- E; field; exact ND).
  destruct (quotient_error (B2R x) D (B2R x) (B2R det) 0 (3 * u) ND ltac:(lra) ltac:(lra)) as (Ny & Q); [rewrite Rminus_eq_0, Rabs_R0; lra|exact H|]. rewrite Rplus_0_l, <- Ee in Q.
  destruct (rounded_quotient x det e _ P4 Fx Fd Ny R K1 Q) as (F & V). split; [exact F|]. eapply Rle_trans; [exact V|]. apply Rmult_le_compat_r; [apply Rabs_pos|exact K2].
Qed.
Lemma inv2_accurate (m : matrix) : (4 <= prec)%Z -> (3 <= emax)%Z -> safe_det2 (m 0%nat 0%nat) (m 0%nat 1%nat) (m 1%nat 0%nat) (m 1%nat 1%nat) ->
  (fl_inv2 m = None <-> exact_det2 (B2R (m 0%nat 0%nat)) (B2R (m 0%nat 1%nat)) (B2R (m 1%nat 0%nat)) (B2R (m 1%nat 1%nat)) = 0) /\
  (forall X, is_inverse 2 (real_matrix m) X -> (forall i j, (i < 2)%nat -> (j < 2)%nat -> representable prec emax (X i j)) ->
    exists n, fl_inv2 m = Some n /\ forall i j, (i < 2)%nat -> (j < 2)%nat -> relative_to 5 (n i j) (X i j)).
Proof.
  intros P4 E3 S. destruct (det2_runs _ _ _ _ E3 S) as (F & A). set (D := exact_det2 _ _ _ _) in *. pose proof (u16 P4) as U. unfold fl_inv2. set (det := fl_det2 _ _ _ _) in *. cbv zeta.
  assert (Z : B2R det = 0 <-> D = 0). { split; intros E; rewrite E in A. - rewrite Rminus_0_l, Rabs_Ropp in A. destruct (Req_dec D 0) as [G|G]; [exact G|]. apply Rabs_pos_lt in G. assert (3 * u * Rabs D <= / 2 * Rabs D) by (apply Rmult_le_compat_r; lra). lra. - rewrite Rminus_0_r, Rabs_R0, Rmult_0_r in A. pose proof (Rabs_pos (B2R det)). destruct (Req_dec (B2R det) 0) as [G|G]; [exact G|]. apply Rabs_pos_lt in G. lra. }
  split.
  - rewrite <- Z, <- (eqb_zero' det F). destruct (fl_eqb prec emax det zero); split; intros G; (reflexivity || discriminate).
  - intros X HX R. destruct S as (Fa & Fb & Fc & Fd & _).
    pose proof (HX 0%nat 0%nat ltac:(lia) ltac:(lia)) as X00. pose proof (HX 0%nat 1%nat ltac:(lia) ltac:(lia)) as X01. pose proof (HX 1%nat 0%nat ltac:(lia) ltac:(lia)) as X10. pose proof (HX 1%nat 1%nat ltac:(lia) ltac:(lia)) as X11.
    cbn [sum_to Nat.eqb] in X00, X01, X10, X11. unfold real_matrix in X00, X01, X10, X11. set (a := B2R (m 0%nat 0%nat)) in *. set (b := B2R (m 0%nat 1%nat)) in *. set (c := B2R (m 1%nat 0%nat)) in *. set (d := B2R (m 1%nat 1%nat)) in *.
    set (x := X 0%nat 0%nat) in *. set (y := X 0%nat 1%nat) in *. set (z := X 1%nat 0%nat) in *. set (w := X 1%nat 1%nat) in *.
    assert (E1 : D * x = d). { unfold D, exact_det2. replace ((a * d - b * c) * x) with (d * (a * x + b * z) - b * (c * x + d * z)) by ring. rewrite X00, X10. ring. }
    assert (E2 : D * y = - b). { unfold D, exact_det2. replace ((a * d - b * c) * y) with (d * (a * y + b * w) - b * (c * y + d * w)) by ring. rewrite X01, X11. ring. }
    assert (E4 : D * z = - c). { unfold D, exact_det2. replace ((a * d - b * c) * z) with (a * (c * x + d * z) - c * (a * x + b * z)) by ring. rewrite X00, X10. ring. }
    assert (E5 : D * w = a). { unfold D, exact_det2. replace ((a * d - b * c) * w) with (a * (c * y + d * w) - c * (a * y + b * w)) by ring. rewrite X01, X11. ring. }
    assert (ND : D <> 0). { intros G. rewrite G in E1, E2, E4, E5. assert (a = 0) by lra. assert (b = 0) by lra. rewrite H, H0 in X00. lra. }
    destruct (fl_eqb prec emax det zero) eqn:Q; [apply (eqb_zero' det F) in Q; apply Z in Q; contradiction|]. eexists. split; [reflexivity|].
    intros [|[|i]] [|[|j]] I J; try lia; apply (inv2_entry _ det D); auto; try (unfold fl_neg; rewrite ?is_finite_Bopp, ?B2R_Bopp; assumption).
Qed.
(** ** 3 x 3 determinants *)
Lemma tiny_product x : not_tiny prec emax x -> x <> 0 -> pw emin' <= 2 * u * (u * Rabs x).
Proof. intros [Z|H] NZ; [contradiction|]. apply Rle_trans with (2 * u * (u * pw (emin' + 2 * prec - 1))). { right. change 2 with (pw 1). rewrite <- !bpow_plus. f_equal. ring. } apply Rmult_le_compat_l; [pose proof (bpow_gt_0 radix2 (- prec)); lra|]. apply Rmult_le_compat_l; [apply bpow_ge_0|exact H]. Qed.
Lemma ulp_any x : ulp radix2 fexp' x <= Rmax (2 * u * Rabs x) (pw emin').
Proof.
  destruct (Rle_dec low (Rabs x)) as [H|H]; [eapply Rle_trans; [now apply ulp_relative|apply Rmax_l]|]. eapply Rle_trans; [|apply Rmax_r]. destruct (Req_dec x 0) as [Z|NZ].
  - rewrite Z. right. apply (ulp_FLT_0 radix2 emin' prec).
  - right. apply (ulp_FLT_small radix2 emin' prec). apply Rlt_le_trans with low; [lra|]. apply bpow_le. lia.
Qed.
Lemma cofac_error (a b c d e f : float) : (4 <= prec)%Z -> is_finite a = true -> is_finite b = true -> is_finite c = true -> is_finite d = true -> is_finite e = true -> is_finite f = true -> is_finite (fl_cofac a b c d e f) = true ->
  not_tiny prec emax (B2R a * B2R b) -> not_tiny prec emax (B2R c * B2R d) -> not_tiny prec emax (B2R e * B2R f) ->
  Rabs (B2R (fl_cofac a b c d e f) - (B2R a * B2R b - B2R c * B2R d + B2R e * B2R f)) <= 6 * u * (Rabs (B2R a * B2R b) + Rabs (B2R c * B2R d) + Rabs (B2R e * B2R f)).
Proof.
  intros P4 Fa Fb Fc Fd Fe Ff F N1 N2 N3. pose proof (u16 P4) as U. unfold fl_cofac, fl_multiply_add in *. destruct (fma_finite prec emax e f _ Fe Ff F) as (Ft & V). rewrite V. pose proof (diff_accurate prec emax a b c d Fa Fb Fc Fd Ft N2) as (_ & A). pose proof (diff_zero prec emax a b c d Fa Fb Fc Fd Ft N2) as Z0.
  set (t := B2R (fl_diff_of_products a b c d)) in *. set (p := B2R a * B2R b) in *. set (q := B2R c * B2R d) in *. set (r := B2R e * B2R f) in *. pose proof (Rabs_pos p) as Pp. pose proof (Rabs_pos q) as Pq. pose proof (Rabs_pos r) as Pr.
  assert (T1 : Rabs (t - (p - q)) <= 3 * u * (Rabs p + Rabs q)).
  { destruct (Req_dec p 0) as [Zp|Np]; [destruct (Req_dec q 0) as [Zq|Nq]|].
    - rewrite Z0 by lra. rewrite Zp, Zq. replace (0 - (0 - 0)) with 0 by ring. rewrite Rabs_R0. lra.
    - eapply Rle_trans; [exact A|]. unfold unit_last_place. pose proof (ulp_any (p - q)) as G. pose proof (tiny_product q N2 Nq) as TQ. assert (G2 : Rmax (2 * u * Rabs (p - q)) (pw emin') <= 2 * u * (Rabs p + Rabs q)).
      { apply Rmax_lub; [apply Rmult_le_compat_l; [lra|]; unfold Rminus; eapply Rle_trans; [apply Rabs_triang|rewrite Rabs_Ropp; lra]|]. eapply Rle_trans; [exact TQ|]. apply Rmult_le_compat_l; [lra|]. assert (u * Rabs q <= 1 * Rabs q) by (apply Rmult_le_compat_r; lra). lra. } lra.
    - eapply Rle_trans; [exact A|]. unfold unit_last_place. pose proof (ulp_any (p - q)) as G. pose proof (tiny_product p N1 Np) as TP. assert (G2 : Rmax (2 * u * Rabs (p - q)) (pw emin') <= 2 * u * (Rabs p + Rabs q)).
      { apply Rmax_lub; [apply Rmult_le_compat_l; [lra|]; unfold Rminus; eapply Rle_trans; [apply Rabs_triang|rewrite Rabs_Ropp; lra]|]. eapply Rle_trans; [exact TP|]. apply Rmult_le_compat_l; [lra|]. assert (u * Rabs p <= 1 * Rabs p) by (apply Rmult_le_compat_r; lra). lra. } lra. }
  set (S := Rabs p + Rabs q + Rabs r) in *. assert (S0 : 0 <= S) by (unfold S; lra).
  assert (At : Rabs (r + t) <= 19 / 16 * S).
  { replace (r + t) with (r + (p - q) + (t - (p - q))) by ring. eapply Rle_trans; [apply Rabs_triang|]. assert (Rabs (r + (p - q)) <= S). { eapply Rle_trans; [apply Rabs_triang|]. unfold Rminus. pose proof (Rabs_triang p (- q)) as G. rewrite Rabs_Ropp in G. unfold S. lra. }
    assert (3 * u * (Rabs p + Rabs q) <= 3 / 16 * S) by (apply Rmult_le_compat; unfold S; lra). lra. }
  assert (T2 : Rabs (RNE (r + t) - (r + t)) <= 2 * u * S).
  { destruct (Req_dec S 0) as [Z|NZ].
    - assert (r + t = 0). { apply Rabs_le_inv in At. rewrite Z in At. lra. } rewrite H, (rn_zero emin' prec), Rminus_0_r, Rabs_R0, Z. lra.
    - pose proof (error_le_half_ulp radix2 fexp' (fun k => negb (Z.even k)) (r + t)) as G. change (round radix2 fexp' (Znearest (fun k => negb (Z.even k))) (r + t)) with (RNE (r + t)) in G. pose proof (ulp_any (r + t)) as G1.
      assert (G2 : Rmax (2 * u * Rabs (r + t)) (pw emin') <= 4 * u * S).
      { apply Rmax_lub; [apply Rle_trans with (2 * u * (19 / 16 * S)); [apply Rmult_le_compat_l; lra|]; pose proof (Rmult_le_pos u S ltac:(lra) S0); lra|].
        assert (X : exists x, not_tiny prec emax x /\ x <> 0 /\ Rabs x <= S). { destruct (Req_dec p 0) as [Zp|Np]; [|exists p; repeat split; [exact N1|exact Np|unfold S; lra]]. destruct (Req_dec q 0) as [Zq|Nq]; [|exists q; repeat split; [exact N2|exact Nq|unfold S; lra]]. exists r. repeat split; [exact N3| |unfold S; lra]. intros Zr. apply NZ. unfold S. rewrite Zp, Zq, Zr, Rabs_R0. ring. }
        destruct X as (x & X1 & X2 & X3). eapply Rle_trans; [exact (tiny_product x X1 X2)|]. apply Rle_trans with (2 * u * (1 * S)); [apply Rmult_le_compat_l; [lra|]; apply Rmult_le_compat; (lra || apply Rabs_pos)|]. pose proof (Rmult_le_pos u S ltac:(lra) S0). lra. }
      lra. }
  replace (RNE (r + t) - (p - q + r)) with ((RNE (r + t) - (r + t)) + (t - (p - q))) by ring. eapply Rle_trans; [apply Rabs_triang|]. assert (3 * u * (Rabs p + Rabs q) <= 3 * u * S) by (apply Rmult_le_compat_l; unfold S; lra). pose proof (Rmult_le_pos u S ltac:(lra) S0). lra.
Qed.
End Inv.
