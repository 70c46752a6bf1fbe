From Coq Require Import Reals ZArith Lia Lra Bool.
From Flocq Require Import Core Relative Plus_error Mult_error BinarySingleNaN.
From Verif Require Import FmaModel FmaSpec FmaProofs FquadModel FquadSpec.
Open Scope R_scope.

(** ** The sign of the difference of products *)
Section Sign.
Variable emin prec : Z.
Context {Hp : Prec_gt_0 prec}.
Notation FX := (generic_format radix2 (FLX_exp prec)).
Notation ulpX := (ulp radix2 (FLX_exp prec)).
Notation FT := (generic_format radix2 (FLT_exp emin prec)).
Notation ulpT := (ulp radix2 (FLT_exp emin prec)).
Notation pw := (bpow radix2).
Notation RN := (rn (FLT_exp emin prec)).
Let VT : Valid_exp (FLT_exp emin prec) := FLT_exp_valid emin prec.
Let VX : Valid_exp (FLX_exp prec) := FLX_exp_valid prec.
Lemma rn_le choice x y : x <= y -> RN choice x <= RN choice y. Proof. intros H. unfold rn. apply round_le; auto with typeclass_instances. Qed.
Lemma rn_id choice x : FT x -> RN choice x = x. Proof. intros H. unfold rn. apply round_generic; auto with typeclass_instances. Qed.
Lemma rn_zero choice : RN choice 0 = 0. Proof. unfold rn. apply round_0. auto with typeclass_instances. Qed.
Lemma sum_sign choice x y : FT x -> FT y -> x + y < 0 -> RN choice (x + y) < 0.
Proof.
  intros Fx Fy S. destruct (FLT_plus_error_N_ex radix2 emin prec choice x y Fx Fy) as (eps & E & R). unfold rn. rewrite R.
  assert (U : 0 <= u_ro radix2 prec) by (apply u_ro_pos).
  assert (E1 : u_ro radix2 prec / (1 + u_ro radix2 prec) < 1). { apply (Rmult_lt_reg_r (1 + u_ro radix2 prec)); [lra|]. unfold Rdiv. rewrite Rmult_assoc, Rinv_l by lra. lra. }
  assert (E2 : - 1 < eps) by (revert E; unfold Rabs; destruct Rcase_abs; lra).
  assert (0 < - (x + y) * (1 + eps)) by (apply Rmult_lt_0_compat; lra). lra.
Qed.
Section Diff.
Variable choice : Z -> bool.
Variables a b c d : R.
Hypotheses (Fa : FT a) (Fb : FT b) (Fc : FT c) (Fd : FT d).
Let w := RN choice (c * d).
Let result := RN choice (RN choice (a * b + - w) + RN choice (- c * d + w)).
Lemma diff_form : (c * d = 0 \/ pw (emin + 2 * prec - 1) <= Rabs (c * d)) -> FT (c * d - w) /\ result = RN choice (RN choice (a * b - w) - (c * d - w)).
Proof.
  intros N. destruct (product_error emin prec choice c d Fc Fd N) as (Fw & Fe & E1 & E2). fold w in Fw, Fe, E1, E2.
  split; [replace (c * d - w) with (- (w - c * d)) by ring; now apply generic_format_opp|].
  unfold result. replace (- c * d + w) with (w - c * d) by ring. rewrite (rn_id choice (w - c * d)) by exact Fe. f_equal. replace (a * b + - w) with (a * b - w) by ring. ring.
Qed.
Lemma diff_nonneg : (c * d = 0 \/ pw (emin + 2 * prec - 1) <= Rabs (c * d)) -> 0 <= a * b - c * d -> 0 <= result.
Proof.
  intros N D. destruct (diff_form N) as (Fe & ->). rewrite <- (rn_zero choice). apply rn_le.
  pose proof (rn_le choice (c * d - w) (a * b - w) ltac:(lra)) as L. cbv beta in L. rewrite (rn_id choice (c * d - w) Fe) in L. cbv beta. lra.
Qed.
Lemma diff_nonpos : (c * d = 0 \/ pw (emin + 2 * prec - 1) <= Rabs (c * d)) -> a * b - c * d <= 0 -> result <= 0.
Proof.
  intros N D. destruct (diff_form N) as (Fe & ->). rewrite <- (rn_zero choice). apply rn_le.
  pose proof (rn_le choice (a * b - w) (c * d - w) ltac:(lra)) as L. cbv beta in L. rewrite (rn_id choice (c * d - w) Fe) in L. cbv beta. lra.
Qed.
(** Products of numbers, and numbers, are multiples of a power of two. *)
Lemma large_product x y : FT x -> FT y -> pw (emin + 2 * prec - 1) <= Rabs (x * y) -> exists m, x * y = IZR m * pw emin.
Proof.
  intros Fx Fy B. apply (generic_format_FLX_FLT radix2 emin) in Fx. apply (generic_format_FLX_FLT radix2 emin) in Fy.
  destruct (FLX_format_generic _ _ x Fx) as [[mx ex] Ex Bx]. destruct (FLX_format_generic _ _ y Fy) as [[my ey] Ey By]. cbn [Fnum] in Bx, By. unfold F2R in Ex, Ey. cbn [Fnum Fexp] in Ex, Ey.
  assert (XY : x * y = IZR (mx * my) * pw (ex + ey)) by (rewrite Ex, Ey, mult_IZR, bpow_plus; ring).
  assert (L : Rabs (x * y) < pw (2 * prec + (ex + ey))).
  { rewrite XY, Rabs_mult, (Rabs_pos_eq (pw (ex + ey))) by apply bpow_ge_0. rewrite (bpow_plus radix2 (2 * prec)). apply Rmult_lt_compat_r; [apply bpow_gt_0|].
    rewrite <- abs_IZR, <- IZR_Zpower by (pose proof (prec_pos prec); lia). apply IZR_lt. rewrite Z.abs_mul. replace (2 * prec)%Z with (prec + prec)%Z by ring.
    rewrite Zpower_plus by (pose proof (prec_pos prec); lia). apply Z.mul_lt_mono_nonneg; lia. }
  assert (G : (emin + 2 * prec - 1 < 2 * prec + (ex + ey))%Z) by (apply (lt_bpow radix2); lra).
  exists (mx * my * Zpower radix2 (ex + ey - emin))%Z. rewrite XY. apply finer. lia.
Qed.
Lemma number_multiple x : FT x -> exists m, x = IZR m * pw emin.
Proof.
  intros Fx. destruct (FLT_format_generic _ _ _ x Fx) as [[mx ex] Ex Bx Mx]. cbn [Fexp] in Mx. unfold F2R in Ex. cbn [Fnum Fexp] in Ex.
  exists (mx * Zpower radix2 (ex - emin))%Z. rewrite Ex. now apply finer.
Qed.
Lemma small_multiple_format m : Rabs (IZR m * pw emin) < pw (emin + prec) -> FT (IZR m * pw emin).
Proof.
  intros H. apply generic_format_FLT. exists (Float radix2 m emin); [reflexivity| |cbn; lia]. cbn [Fnum].
  rewrite Rabs_mult, (Rabs_pos_eq (pw emin)) in H by apply bpow_ge_0. rewrite Z.add_comm, bpow_plus in H. apply Rmult_lt_reg_r in H; [|apply bpow_gt_0].
  rewrite <- abs_IZR, <- IZR_Zpower in H by (pose proof (prec_pos prec); lia). now apply lt_IZR.
Qed.
Lemma diff_negative : (2 <= prec)%Z -> 0 <= a * b -> (c * d = 0 \/ pw (emin + 2 * prec) <= Rabs (c * d)) -> a * b - c * d < 0 -> result < 0.
Proof.
  intros P2 AB N D. pose proof (prec_pos prec) as PP.
  assert (CD : pw (emin + 2 * prec) <= c * d). { destruct N as [N|N]; [lra|]. rewrite Rabs_pos_eq in N by lra. exact N. }
  assert (N' : c * d = 0 \/ pw (emin + 2 * prec - 1) <= Rabs (c * d)). { right. eapply Rle_trans; [|apply Rle_abs]. eapply Rle_trans; [|exact CD]. apply bpow_le. lia. }
  destruct (Rle_lt_dec (pw (emin + 2 * prec - 1)) (a * b)) as [L|S].
  - destruct (diff_form N') as (Fe & ->). destruct (product_error emin prec choice c d Fc Fd N') as (Fw & _ & E1 & E2). fold w in Fw, E1, E2.
    set (y := a * b - w) in *. set (e := c * d - w) in *. assert (Fy' : FT (RN choice y)) by (apply generic_format_round; auto with typeclass_instances).
    apply (sum_sign choice _ (- e) Fy'); [now apply generic_format_opp|].
    assert (YE : y < e) by (unfold y, e; lra).
    pose proof (rn_le choice y e ltac:(lra)) as LE. cbv beta in LE. rewrite (rn_id choice e Fe) in LE. cbv beta.
    destruct (Req_dec (RN choice y) e) as [Q|Q]; [|cbv beta in Q; lra]. exfalso. cbv beta in Q.
    destruct (Rlt_le_dec (Rabs y) (pw (emin + prec))) as [SM|BG].
    + destruct (large_product a b Fa Fb) as (m1 & M1); [rewrite Rabs_pos_eq by lra; exact L|].
      assert (Fw' : FT w) by (apply generic_format_round; auto with typeclass_instances). destruct (number_multiple w Fw') as (m2 & M2).
      assert (Y : y = IZR (m1 - m2) * pw emin) by (unfold y; rewrite M1, minus_IZR; rewrite M2 at 1; ring).
      assert (Fy : FT y) by (rewrite Y; apply small_multiple_format; rewrite <- Y; exact SM).
      rewrite (rn_id choice y Fy) in Q. lra.
    + assert (NB : pw (emin + prec - 1) <= Rabs y) by (eapply Rle_trans; [|exact BG]; apply bpow_le; lia).
      destruct (Rlt_le_dec (Rabs (a * b - c * d)) (Rabs y / 2)) as [C|C].
      * assert (Fy : FX y).
        { apply (cancels_any prec a b w (w - c * d)); [now apply (generic_format_FLX_FLT radix2 emin)|now apply (generic_format_FLX_FLT radix2 emin)|exact Fw| |exact E2|].
          - replace (w - (w - c * d)) with (c * d) by ring. exact E1.
          - replace (a * b - w + (w - c * d)) with (a * b - c * d) by ring. exact C. }
        apply (generic_format_FLT_FLX radix2 emin prec y NB) in Fy. rewrite (rn_id choice y Fy) in Q. lra.
      * pose proof (rn_err emin prec choice y) as R. rewrite Q in R. pose proof (ulp_FLT_le radix2 emin prec y NB) as U.
        assert (U2 : Rabs y * pw (1 - prec) <= Rabs y * / 2). { apply Rmult_le_compat_l; [apply Rabs_pos|]. change (/ 2) with (pw (- (1))). apply bpow_le. lia. }
        assert (X : Rabs (e - y) = Rabs (a * b - c * d)). { rewrite <- Rabs_Ropp. f_equal. unfold e, y. ring. } rewrite X in R.
        assert (0 < Rabs y) by (eapply Rlt_le_trans; [apply bpow_gt_0|exact BG]). lra.
  - pose proof (diff_ok emin prec choice a b c d Fa Fb Fc Fd N') as K. cbv zeta in K. fold w in K. fold result in K.
    set (x := a * b - c * d) in *. assert (X : x < - pw (emin + 2 * prec - 1)).
    { unfold x. replace (emin + 2 * prec)%Z with (1 + (emin + 2 * prec - 1))%Z in CD by ring. rewrite bpow_plus in CD. change (pw 1) with 2 in CD. lra. }
    assert (XA : Rabs x = - x) by (apply Rabs_left; pose proof (bpow_gt_0 radix2 (emin + 2 * prec - 1)); lra).
    assert (NB : pw (emin + prec - 1) <= Rabs x). { rewrite XA. eapply Rle_trans; [|left; apply Ropp_lt_cancel; rewrite Ropp_involutive; exact X]. apply bpow_le. lia. }
    pose proof (ulp_FLT_le radix2 emin prec x NB) as U. rewrite XA in U.
    assert (U2 : - x * pw (1 - prec) <= - x * / 2). { apply Rmult_le_compat_l; [pose proof (bpow_gt_0 radix2 (emin + 2 * prec - 1)); lra|]. change (/ 2) with (pw (- (1))). apply bpow_le. lia. }
    pose proof (Rle_abs (result - x)). pose proof (bpow_gt_0 radix2 (emin + 2 * prec - 1)). lra.
Qed.
End Diff.
End Sign.

(** ** IEEE numbers *)
Section Ieee.
Variable prec emax : Z.
Context {Hp : Prec_gt_0 prec} {He : Prec_lt_emax prec emax}.
Notation float := (binary_float prec emax).
Notation pw := (bpow radix2).
Notation emin' := (FmaSpec.emin prec emax).
Notation fexp' := (FLT_exp emin' prec).
Notation RNE := (rn fexp' (fun t => negb (Z.even t))).
Notation FT := (generic_format radix2 fexp').
Notation u := (pw (- prec)).
Let VT : Valid_exp fexp' := FLT_exp_valid emin' prec.
Lemma lit_runs m e : FT (IZR m * pw e) -> Rabs (IZR m * pw e) < pw emax -> is_finite (fl_lit prec emax m e) = true /\ B2R (fl_lit prec emax m e) = IZR m * pw e.
Proof.
  intros F B. pose proof (binary_normalize_correct prec emax Hp He mode_NE m e false) as H. cbv zeta in H. fold (fl_lit prec emax m e) in H.
  change (F2R {| Fnum := m; Fexp := e |}) with (IZR m * pw e) in H. change (round radix2 _ (round_mode mode_NE) (IZR m * pw e)) with (RNE (IZR m * pw e)) in H.
  rewrite (rn_id emin' prec _ _ F) in H. rewrite Rlt_bool_true in H by exact B. split; apply H.
Qed.
Lemma pw_format k : (emin' <= k)%Z -> FT (pw k). Proof. intros K. apply generic_format_bpow. unfold FLT_exp. pose proof (prec_pos prec). lia. Qed.
Lemma lit_zero : is_finite (fl_lit prec emax 0 0) = true /\ B2R (fl_lit prec emax 0 0) = 0.
Proof. destruct (lit_runs 0 0) as (F & V); [rewrite Rmult_0_l; apply generic_format_0|rewrite Rmult_0_l, Rabs_R0; apply bpow_gt_0|]. rewrite Rmult_0_l in V. split; assumption. Qed.
Lemma lit_four : (3 <= emax)%Z -> is_finite (fl_lit prec emax 4 0) = true /\ B2R (fl_lit prec emax 4 0) = 4.
Proof.
  intros E. pose proof (prec_pos prec). pose proof (He : (prec < emax)%Z). destruct (lit_runs 4 0) as (F & V); [| |change (pw 0) with 1 in V; rewrite Rmult_1_r in V; split; assumption]; change (pw 0) with 1; rewrite Rmult_1_r; change 4 with (pw 2).
  - apply pw_format. unfold FmaSpec.emin. lia.
  - rewrite Rabs_pos_eq by apply bpow_ge_0. apply bpow_lt. lia.
Qed.
Lemma lit_half : (3 <= emax)%Z -> is_finite (fl_lit prec emax (-1) (-1)) = true /\ B2R (fl_lit prec emax (-1) (-1)) = - / 2.
Proof.
  intros E. pose proof (prec_pos prec). destruct (lit_runs (-1) (-1)) as (F & V); [| |replace (IZR (-1) * pw (-1)) with (- / 2) in V by (change (pw (-1)) with (/ 2); lra); split; assumption]; replace (IZR (-1) * pw (-1)) with (- pw (-1)) by lra.
  - apply generic_format_opp. apply pw_format. unfold FmaSpec.emin. lia.
  - rewrite Rabs_Ropp, Rabs_pos_eq by apply bpow_ge_0. apply bpow_lt. lia.
Qed.
Lemma scale_up x k : (0 <= k)%Z -> FT x -> FT (pw k * x).
Proof.
  intros K F. destruct (FLT_format_generic _ _ _ x F) as [[m e] E B M]. cbn [Fnum Fexp] in B, M. unfold F2R in E. cbn [Fnum Fexp] in E.
  apply generic_format_FLT. exists (Float radix2 m (e + k)); [|exact B|cbn; lia]. unfold F2R. cbn [Fnum Fexp]. rewrite E, bpow_plus. ring.
Qed.
Lemma scale_down x : FT x -> pw (emin' + prec) <= Rabs x -> FT (- / 2 * x).
Proof.
  intros F B. apply (generic_format_FLX_FLT radix2 emin') in F. apply generic_format_FLT_FLX.
  - rewrite Rabs_mult, Rabs_Ropp, (Rabs_pos_eq (/ 2)) by lra. replace (emin' + prec)%Z with (1 + (emin' + prec - 1))%Z in B by ring. rewrite bpow_plus in B. change (pw 1) with 2 in B. lra.
  - destruct (FLX_format_generic _ _ x F) as [[m e] E M]. cbn [Fnum] in M. unfold F2R in E. cbn [Fnum Fexp] in E.
    apply generic_format_FLX. exists (Float radix2 (- m) (e - 1)); [|cbn [Fnum]; rewrite Z.abs_opp; exact M]. unfold F2R. cbn [Fnum Fexp]. rewrite E. unfold Z.sub. rewrite bpow_plus. change (pw (- (1))) with (/ 2). rewrite opp_IZR. lra.
Qed.
Lemma div_runs (x y : float) : is_finite x = true -> B2R y <> 0 -> Rabs (RNE (B2R x / B2R y)) < pw emax ->
  is_finite (fl_div prec emax x y) = true /\ B2R (fl_div prec emax x y) = RNE (B2R x / B2R y).
Proof.
  intros Fx Ny B. pose proof (Bdiv_correct prec emax _ _ mode_NE x y Ny) as H. unfold fl_div. change (round radix2 _ (round_mode mode_NE) (B2R x / B2R y)) with (RNE (B2R x / B2R y)) in H. rewrite Rlt_bool_true in H by exact B.
  destruct H as (H1 & H2 & _). rewrite Fx in H2. split; assumption.
Qed.
Lemma sqrt_runs (x : float) : is_finite x = true -> 0 <= B2R x -> is_finite (fl_sqrt prec emax x) = true /\ B2R (fl_sqrt prec emax x) = RNE (sqrt (B2R x)).
Proof.
  intros Fx P. destruct (Bsqrt_correct prec emax _ _ mode_NE x) as (H1 & H2 & _). unfold fl_sqrt. split; [|exact H1]. rewrite H2.
  destruct x as [s|s| |s m e Hb]; try discriminate; [reflexivity|]. destruct s; [|reflexivity]. exfalso. change (0 <= F2R (Float radix2 (Zneg m) e)) in P.
  assert (F2R (Float radix2 (Zneg m) e) < 0) by (apply F2R_lt_0; reflexivity). lra.
Qed.
Definition sg (x : float) : R := if Bsign x then - 1 else 1.
Lemma sg_sq x : sg x * sg x = 1. Proof. unfold sg. destruct (Bsign x); lra. Qed.
Lemma sg_abs (x : float) : is_finite x = true -> B2R x = sg x * Rabs (B2R x).
Proof.
  destruct x as [s|s| |s m e Hb]; try discriminate; intros _; unfold sg; cbn [Bsign B2R]; [rewrite Rabs_R0; ring|].
  rewrite <- F2R_Zabs. destruct s; [change (IZR (Zneg m) * pw e = - 1 * (IZR (Zpos m) * pw e)); rewrite <- Pos2Z.opp_pos, opp_IZR; ring|change (IZR (Zpos m) * pw e = 1 * (IZR (Zpos m) * pw e)); ring].
Qed.
Lemma copysign_runs (x y : float) : is_finite x = true -> is_finite (fl_copysign prec emax x y) = true /\ B2R (fl_copysign prec emax x y) = sg y * Rabs (B2R x).
Proof.
  intros Fx. unfold fl_copysign. destruct (neg_runs prec emax x) as (F & V). pose proof (sg_abs x Fx) as A. unfold sg in *.
  destruct (Bsign x), (Bsign y); cbn [Bool.eqb]; rewrite ?F, ?V; split; try exact Fx; lra.
Qed.
(** *** The discriminant *)
Definition descr (a b c : float) : float := fl_diff_of_products b b (fl_mul prec emax (fl_lit prec emax 4 0) a) c.
Section Discriminant.
Hypotheses (P8 : (8 <= prec)%Z) (E8 : (8 <= emax)%Z).
Variables a b c : float.
Hypothesis OK : coefficients_ok a b c.
Notation D := (B2R b * B2R b - 4 * B2R a * B2R c).
Lemma four_a : is_finite (fl_mul prec emax (fl_lit prec emax 4 0) a) = true /\ B2R (fl_mul prec emax (fl_lit prec emax 4 0) a) = 4 * B2R a.
Proof.
  destruct OK as (Fa & Fb & Fc & A4 & _). destruct (lit_four ltac:(lia)) as (F4 & V4).
  assert (R4 : RNE (4 * B2R a) = 4 * B2R a). { apply rn_id. change 4 with (pw 2). apply scale_up; [lia|apply b2r_format]. }
  destruct (mult_runs prec emax (fl_lit prec emax 4 0) a F4 Fa) as (F & V); [rewrite V4, R4; exact A4|]. rewrite V4, R4 in V. split; assumption.
Qed.
Lemma descr_finite : is_finite (descr a b c) = true.
Proof.
  destruct OK as (Fa & Fb & Fc & A4 & BB & AC & _). destruct four_a as (F4 & V4). unfold descr. apply diff_finite; auto; [lia|]. rewrite V4. exact AC.
Qed.
Lemma ac_cases : (4 * B2R a * B2R c = 0 \/ pw (emin' + 2 * prec) <= Rabs (4 * B2R a * B2R c)) /\ (4 * B2R a * B2R c = 0 \/ pw (emin' + 2 * prec - 1) <= Rabs (4 * B2R a * B2R c)).
Proof.
  destruct OK as (_ & _ & _ & _ & _ & _ & [N|N]); [split; left; rewrite Rmult_assoc, N; ring|]. split; right; [exact N|]. eapply Rle_trans; [|exact N]. apply bpow_le. lia.
Qed.
Lemma descr_value : let w := RNE (4 * B2R a * B2R c) in B2R (descr a b c) = RNE (RNE (B2R b * B2R b + - w) + RNE (- (4 * B2R a) * B2R c + w)).
Proof.
  intros w. pose proof descr_finite as F. destruct OK as (Fa & Fb & Fc & _). destruct four_a as (F4 & V4). unfold descr, fl_diff_of_products in *. cbv zeta in *.
  set (a4 := fl_mul prec emax (fl_lit prec emax 4 0) a) in *. destruct (plus_finite prec emax _ _ F) as (F1 & F2 & ->).
  assert (Fnc : is_finite (fl_neg prec emax a4) = true) by (unfold fl_neg; now rewrite is_finite_Bopp).
  destruct (fma_finite prec emax _ _ _ Fnc Fc F2) as (F3 & ->). destruct (fma_finite prec emax _ _ _ Fb Fb F1) as (_ & ->). unfold fl_neg. rewrite !B2R_Bopp. rewrite (mult_finite prec emax a4 c F4 Fc F3), V4. reflexivity.
Qed.
Lemma fmt4 : FT (4 * B2R a). Proof. change 4 with (pw 2). apply scale_up; [lia|apply b2r_format]. Qed.
Lemma descr_nonneg : 0 <= D -> 0 <= B2R (descr a b c).
Proof. intros H. rewrite descr_value. apply (diff_nonneg emin' prec); auto using b2r_format, fmt4. apply ac_cases. Qed.
Lemma descr_neg : D < 0 -> B2R (descr a b c) < 0.
Proof. intros H. rewrite descr_value. apply (diff_negative emin' prec); auto using b2r_format, fmt4; [lia|apply Rle_0_sqr|apply ac_cases]. Qed.
Lemma descr_zero : D = 0 -> B2R (descr a b c) = 0.
Proof.
  intros H. apply Rle_antisym; [|apply descr_nonneg; lra]. rewrite descr_value. apply (diff_nonpos emin' prec); auto using b2r_format, fmt4; [apply ac_cases|lra].
Qed.
Lemma u_small : 0 < u <= / 256. Proof. split; [apply bpow_gt_0|]. change (/ 256) with (pw (-8)). apply bpow_le. lia. Qed.
Lemma descr_accurate : pw (emin' + prec - 1) <= D -> exists d, Rabs d <= 3 * u /\ B2R (descr a b c) = D * (1 + d).
Proof.
  intros N. assert (P : 0 < D) by (eapply Rlt_le_trans; [apply bpow_gt_0|exact N]).
  pose proof (diff_ok emin' prec (fun t => negb (Z.even t)) (B2R b) (B2R b) (4 * B2R a) (B2R c) ltac:(apply b2r_format) ltac:(apply b2r_format) fmt4 ltac:(apply b2r_format) ltac:(apply ac_cases)) as K.
  cbv zeta in K. rewrite <- descr_value in K. pose proof (ulp_FLT_le radix2 emin' prec D ltac:(rewrite Rabs_pos_eq by lra; exact N)) as U. rewrite (Rabs_pos_eq D) in U by lra.
  replace (1 - prec)%Z with (- prec + 1)%Z in U by ring. rewrite bpow_plus in U. change (pw 1) with 2 in U.
  exists ((B2R (descr a b c) - D) / D). split; [|field; lra]. unfold Rdiv. rewrite Rabs_mult, Rabs_inv, (Rabs_pos_eq D) by lra. apply (Rmult_le_reg_r D); [exact P|]. rewrite Rmult_assoc, Rinv_l by lra. lra.
Qed.
End Discriminant.
End Ieee.
