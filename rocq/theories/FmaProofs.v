From Coq Require Import Reals ZArith Lia Lra.
From Flocq Require Import Core Mult_error BinarySingleNaN.
From Verif Require Import FmaModel FmaSpec.
Open Scope R_scope.

Definition rn (fexp : Z -> Z) (choice : Z -> bool) (x : R) : R := round radix2 fexp (Znearest choice) x.

Section Flx.
Variable prec : Z.
Context {Hp : Prec_gt_0 prec}.
Notation F := (generic_format radix2 (FLX_exp prec)).
Notation ulp' := (ulp radix2 (FLX_exp prec)).
Notation pw := (bpow radix2).
Variable choice : Z -> bool.
Notation RN := (rn (FLX_exp prec) choice).

Lemma prec_pos : (0 < prec)%Z. Proof. exact Hp. Qed.
Lemma multiple_format m e : Rabs (IZR m * pw e) <= pw (prec + e) -> F (IZR m * pw e).
Proof.
  intros H. rewrite Rabs_mult, (Rabs_pos_eq (pw e)) in H by apply bpow_ge_0. rewrite bpow_plus in H. apply Rmult_le_reg_r in H; [|apply bpow_gt_0].
  rewrite <- abs_IZR in H. rewrite <- IZR_Zpower in H by (pose proof prec_pos; lia). apply le_IZR in H.
  destruct (Z_lt_le_dec (Z.abs m) (Zpower radix2 prec)) as [L|G].
  - apply generic_format_FLX. exists (Float radix2 m e); [reflexivity|exact L].
  - assert (E : Z.abs m = Zpower radix2 prec) by lia.
    assert (B : F (pw (prec + e))). { apply generic_format_bpow. unfold FLX_exp. pose proof prec_pos. lia. }
    destruct (Z_le_gt_dec 0 m) as [S|S].
    + rewrite Z.abs_eq in E by exact S. rewrite E, IZR_Zpower, <- bpow_plus by (pose proof prec_pos; lia). exact B.
    + assert (m = - Zpower radix2 prec)%Z as -> by lia. rewrite opp_IZR, IZR_Zpower by (pose proof prec_pos; lia). rewrite Ropp_mult_distr_l_reverse, <- bpow_plus. now apply generic_format_opp.
Qed.
Lemma finer m q e : (e <= q)%Z -> IZR m * pw q = IZR (m * Zpower radix2 (q - e)) * pw e.
Proof. intros H. rewrite mult_IZR, IZR_Zpower by lia. rewrite Rmult_assoc, <- bpow_plus. do 2 f_equal. lia. Qed.
Lemma small_ulp x e : x <> 0 -> Rabs x < pw e -> ulp' x <= pw (e - prec).
Proof.
  intros N H. rewrite ulp_neq_0 by exact N. apply bpow_le. unfold cexp, FLX_exp. pose proof (mag_le_bpow radix2 x e N H). lia.
Qed.
Lemma ulp_id x : ulp' x <= Rabs x.
Proof.
  eapply Rle_trans; [apply ulp_FLX_le; exact Hp|]. rewrite <- (Rmult_1_r (Rabs x)) at 2. apply Rmult_le_compat_l; [apply Rabs_pos|].
  change 1 with (pw 0). apply bpow_le. pose proof prec_pos. lia.
Qed.

(** The subtraction fma(a, b, -w) is exact if it is going to cancel against the error of w. *)
Lemma cancels a b w e : F a -> F b -> F w -> 0 < w -> Rabs e <= / 2 * ulp' (w - e) -> Rabs e <= / 2 * ulp' w ->
  Rabs (a * b - w + e) < Rabs (a * b - w) / 2 -> F (a * b - w).
Proof.
  intros Fa Fb Fw W E1 E2 H. set (y := a * b - w) in *.
  assert (Y : Rabs y < 2 * Rabs e) by (revert H; unfold Rabs; repeat destruct Rcase_abs; lra).
  destruct (FLX_format_generic _ _ a Fa) as [[ma ea] Ea Ba]. destruct (FLX_format_generic _ _ b Fb) as [[mb eb] Eb Bb]. cbn [Fnum] in Ba, Bb. unfold F2R in Ea, Eb. cbn [Fnum Fexp] in Ea, Eb.
  assert (NW : w <> 0) by lra. pose proof (ulp_neq_0 radix2 (FLX_exp prec) w NW) as UW. set (q := cexp radix2 (FLX_exp prec) w) in *.
  assert (Ew : w = IZR (Ztrunc (scaled_mantissa radix2 (FLX_exp prec) w)) * pw q) by exact Fw. set (mw := Ztrunc _) in Ew.
  assert (AB : a * b = IZR (ma * mb) * pw (ea + eb)) by (rewrite Ea, Eb, mult_IZR, bpow_plus; ring).
  assert (YQ : Rabs y < pw q) by lra.
  set (g := (ea + eb)%Z) in *. destruct (Z_lt_le_dec q g) as [L|G].
  { rewrite (finer (ma * mb) g q) in AB by lia. assert (Y0 : y = IZR (ma * mb * Zpower radix2 (g - q) - mw) * pw q) by (unfold y; rewrite AB, minus_IZR; rewrite Ew at 1; ring).
    assert (Z0 : (ma * mb * Zpower radix2 (g - q) - mw = 0)%Z).
    { set (M := (_ - mw)%Z) in *. rewrite Y0, Rabs_mult, (Rabs_pos_eq (pw q)) in YQ by apply bpow_ge_0. rewrite <- (Rmult_1_l (pw q)) in YQ at 2. apply Rmult_lt_reg_r in YQ; [|apply bpow_gt_0].
      rewrite <- abs_IZR in YQ. apply lt_IZR in YQ. lia. }
    rewrite Y0, Z0, Rmult_0_l. apply generic_format_0. }
  assert (YM : exists M, y = IZR M * pw g).
  { rewrite (finer mw q g) in Ew by lia. exists (ma * mb - mw * Zpower radix2 (q - g))%Z. unfold y. rewrite AB, minus_IZR. rewrite Ew at 1. ring. }
  destruct YM as (M & YM). destruct (Rle_lt_dec (Rabs y) (pw (prec + g))) as [S|B]; [rewrite YM; apply multiple_format; rewrite <- YM; exact S|]. exfalso.
  set (P := pw (2 * prec + g)).
  assert (ABP : Rabs (a * b) < P).
  { rewrite AB, Rabs_mult, (Rabs_pos_eq (pw g)) by apply bpow_ge_0. unfold P. rewrite bpow_plus. apply Rmult_lt_compat_r; [apply bpow_gt_0|].
    rewrite <- abs_IZR, <- IZR_Zpower by (pose proof prec_pos; lia). apply IZR_lt. rewrite Z.abs_mul. replace (2 * prec)%Z with (prec + prec)%Z by ring.
    rewrite Zpower_plus by (pose proof prec_pos; lia). apply Z.mul_lt_mono_nonneg; lia. }
  assert (BIG : forall x, x <> 0 -> pw (prec + g) < ulp' x -> P <= Rabs x).
  { intros x Nx Ux. destruct (Rle_lt_dec P (Rabs x)) as [?|K]; [assumption|]. pose proof (small_ulp x _ Nx K) as K2. replace (2 * prec + g - prec)%Z with (prec + g)%Z in K2 by ring. lra. }
  pose proof (BIG w NW ltac:(lra)) as PW. rewrite Rabs_pos_eq in PW by lra.
  assert (YN : y < 0). { unfold y. pose proof (Rle_abs (a * b)). lra. }
  assert (EP : 0 < e). { revert H. rewrite (Rabs_left y) by exact YN. unfold Rabs. destruct Rcase_abs; lra. }
  rewrite (Rabs_pos_eq e) in * by lra. rewrite (Rabs_left y) in * by exact YN.
  set (bc := w - e) in *. pose proof (ulp_id w) as UI. rewrite Rabs_pos_eq in UI by lra. assert (BC : 0 < bc) by (unfold bc; lra).
  pose proof (BIG bc ltac:(lra) ltac:(lra)) as PB. rewrite Rabs_pos_eq in PB by lra.
  pose proof (ulp_neq_0 radix2 (FLX_exp prec) bc ltac:(lra)) as UB. unfold cexp in UB.
  destruct (mag radix2 bc) as [m Hm]. cbn [mag_val] in UB. specialize (Hm ltac:(lra)). rewrite Rabs_pos_eq in Hm by lra.
  assert (M1 : (2 * prec + g < m)%Z). { apply (lt_bpow radix2). fold P. lra. }
  assert (M2 : P <= pw (m - 1)) by (apply bpow_le; lia).
  assert (FB : F (pw (m - 1))). { apply generic_format_bpow. unfold FLX_exp. pose proof prec_pos. lia. }
  pose proof (succ_le_lt radix2 (FLX_exp prec) _ w FB Fw ltac:(unfold bc in Hm; lra)) as SU.
  rewrite succ_eq_pos in SU by apply bpow_ge_0. rewrite ulp_bpow in SU. replace (m - 1 + 1)%Z with m in SU by ring. rewrite <- UB in SU.
  pose proof (Rle_abs (a * b)). unfold y in Y. lra.
Qed.
Lemma cancels_any a b w e : F a -> F b -> F w -> Rabs e <= / 2 * ulp' (w - e) -> Rabs e <= / 2 * ulp' w -> Rabs (a * b - w + e) < Rabs (a * b - w) / 2 -> F (a * b - w).
Proof.
  intros Fa Fb Fw E1 E2 H. destruct (Rtotal_order w 0) as [N|[->|P]].
  - replace (a * b - w) with (- ((- a) * b - (- w))) by ring. apply generic_format_opp. apply (cancels (- a) b (- w) (- e)); [now apply generic_format_opp|exact Fb|now apply generic_format_opp|lra| | |].
    + rewrite Rabs_Ropp. replace (- w - - e) with (- (w - e)) by ring. now rewrite ulp_opp.
    + rewrite Rabs_Ropp. now rewrite ulp_opp.
    + replace (- a * b - - w + - e) with (- (a * b - w + e)) by ring. replace (- a * b - - w) with (- (a * b - w)) by ring. now rewrite !Rabs_Ropp.
  - rewrite ulp_FLX_0 in E2 by exact Hp. assert (e = 0) as -> by (revert E2; unfold Rabs; destruct Rcase_abs; lra). exfalso. rewrite Rplus_0_r in H. pose proof (Rabs_pos (a * b - 0)). lra.
  - now apply (cancels a b w e).
Qed.
End Flx.

(** ** With gradual underflow *)
Section Flt.
Variable emin prec : Z.
Context {Hp : Prec_gt_0 prec}.
Notation FX := (generic_format radix2 (FLX_exp prec)).
Notation ulpX := (ulp radix2 (FLX_exp prec)).
Notation FT := (generic_format radix2 (FLT_exp emin prec)).
Notation ulpT := (ulp radix2 (FLT_exp emin prec)).
Notation pw := (bpow radix2).
Let VT : Valid_exp (FLT_exp emin prec) := FLT_exp_valid emin prec.
Let VX : Valid_exp (FLX_exp prec) := FLX_exp_valid prec.
Lemma ulp_val x : x <> 0 -> ulpT x = pw (Z.max (mag radix2 x - prec) emin).
Proof. intros N. rewrite ulp_neq_0 by exact N. reflexivity. Qed.
Lemma ulp_least x : pw emin <= ulpT x.
Proof. destruct (Req_dec x 0) as [->|N]; [rewrite ulp_FLT_0 by exact Hp; lra|]. rewrite ulp_val by exact N. apply bpow_le. lia. Qed.
Lemma half_ulp x y : Rabs y / 2 <= Rabs x -> ulpT y <= 2 * ulpT x.
Proof.
  intros H. destruct (Req_dec y 0) as [->|N]; [rewrite ulp_FLT_0 by exact Hp; pose proof (ulp_least x); pose proof (bpow_gt_0 radix2 emin); lra|].
  assert (Y : 0 < Rabs y) by (now apply Rabs_pos_lt). assert (NX : x <> 0) by (intros ->; rewrite Rabs_R0 in H; lra).
  rewrite !ulp_val by assumption. change 2 with (pw 1). rewrite <- bpow_plus. apply bpow_le.
  assert (mag radix2 y <= mag radix2 x + 1)%Z; [|lia].
  apply mag_le_bpow; [exact N|]. rewrite bpow_plus. change (pw 1) with 2. pose proof (bpow_mag_gt radix2 x). lra.
Qed.
Lemma rn_err choice x : Rabs (rn (FLT_exp emin prec) choice x - x) <= / 2 * ulpT x. Proof. now apply error_le_half_ulp. Qed.
(** Adding a perturbation of at most one ulp before rounding. *)
Lemma perturbed_pos choice x s : 0 <= x -> Rabs (s - x) <= ulpT x -> Rabs (rn (FLT_exp emin prec) choice s - x) <= 3 / 2 * ulpT x.
Proof.
  intros X H. pose proof prec_pos prec as PP.
  assert (EM : exists m, (emin + prec <= m)%Z /\ x < pw m /\ ulpT x = pw (m - prec)).
  { destruct (Req_dec x 0) as [->|N].
    - exists (emin + prec)%Z. split; [lia|]. split; [apply bpow_gt_0|]. rewrite ulp_FLT_0 by exact Hp. f_equal. ring.
    - exists (Z.max (mag radix2 x) (emin + prec)). split; [lia|]. split.
      + pose proof (bpow_mag_gt radix2 x) as B1. rewrite Rabs_pos_eq in B1 by lra. eapply Rlt_le_trans; [exact B1|]. apply bpow_le. lia.
      + rewrite ulp_val by exact N. f_equal. lia. }
  destruct EM as (m & Em & Xm & U). assert (UM : ulpT x <= pw m) by (rewrite U; apply bpow_le; lia).
  destruct (Rlt_le_dec (Rabs s) (pw m)) as [L|G].
  - assert (US : ulpT s <= ulpT x).
    { rewrite U. destruct (Req_dec s 0) as [->|N]; [rewrite ulp_FLT_0 by exact Hp; apply bpow_le; lia|]. rewrite ulp_val by exact N. apply bpow_le. pose proof (mag_le_bpow radix2 s m N L). lia. }
    pose proof (rn_err choice s). replace (rn (FLT_exp emin prec) choice s - x) with ((rn (FLT_exp emin prec) choice s - s) + (s - x)) by ring. eapply Rle_trans; [apply Rabs_triang|]. lra.
  - assert (UL : ulpT x < pw m) by (rewrite U; apply bpow_lt; lia).
    assert (S0 : 0 < s) by (revert H G; unfold Rabs; repeat destruct Rcase_abs; lra). rewrite Rabs_pos_eq in G by lra.
    assert (FB : FT (pw m)). { apply generic_format_bpow. unfold FLT_exp. lia. }
    assert (R1 : rn (FLT_exp emin prec) choice s <= pw m).
    { apply round_N_le_midp; [exact VT|exact FB|]. rewrite succ_eq_pos by apply bpow_ge_0. rewrite ulp_bpow. unfold FLT_exp. replace (Z.max (m + 1 - prec) emin)%Z with (1 + (m - prec))%Z by lia. rewrite bpow_plus. change (pw 1) with 2.
      rewrite <- U. pose proof (Rle_abs (s - x)). lra. }
    assert (R2 : pw m <= rn (FLT_exp emin prec) choice s).
    { rewrite <- (round_generic radix2 (FLT_exp emin prec) (Znearest choice) (pw m) FB). unfold rn. apply round_le; [exact VT|auto with typeclass_instances|exact G]. }
    assert (E : rn (FLT_exp emin prec) choice s = pw m) by lra. rewrite E. pose proof (Rle_abs (s - x)). rewrite Rabs_pos_eq by lra. pose proof (ulp_ge_0 radix2 (FLT_exp emin prec) x). lra.
Qed.
Lemma rn_opp choice x : rn (FLT_exp emin prec) choice (- x) = - rn (FLT_exp emin prec) (fun t => negb (choice (- (t + 1)))%Z) x.
Proof. unfold rn. apply round_N_opp. Qed.
Lemma perturbed choice x s : Rabs (s - x) <= ulpT x -> Rabs (rn (FLT_exp emin prec) choice s - x) <= 3 / 2 * ulpT x.
Proof.
  intros H. destruct (Rle_lt_dec 0 x) as [P|N]; [now apply perturbed_pos|].
  replace s with (- - s) by ring. rewrite rn_opp. rewrite <- (ulp_opp _ _ x). replace (- rn _ _ (- s) - x) with (- (rn (FLT_exp emin prec) (fun t => negb (choice (- (t + 1)))%Z) (- s) - - x)) by ring.
  rewrite Rabs_Ropp. apply perturbed_pos; [lra|]. rewrite ulp_opp. replace (- s - - x) with (- (s - x)) by ring. now rewrite Rabs_Ropp.
Qed.
(** The common part of the two functions. *)
Lemma kahan choice a b w p : FX a -> FX b -> FX w -> Rabs (w - p) <= / 2 * ulpX p -> Rabs (w - p) <= / 2 * ulpX w ->
  Rabs (rn (FLT_exp emin prec) choice (rn (FLT_exp emin prec) choice (a * b - w) + (w - p)) - (a * b - p)) <= 3 / 2 * ulpT (a * b - p).
Proof.
  intros Fa Fb Fw E1 E2. set (y := a * b - w). set (x := a * b - p). set (e := w - p) in *. assert (XY : x = y + e) by (unfold x, y, e; ring).
  apply perturbed. replace (rn (FLT_exp emin prec) choice y + e - x) with (rn (FLT_exp emin prec) choice y - y) by (rewrite XY; ring).
  destruct (Rlt_le_dec (Rabs x) (Rabs y / 2)) as [C|C].
  - assert (Fy : FX y). { apply (cancels_any prec a b w e); auto; [replace (w - e) with p by (unfold e; ring); exact E1|]. unfold x, y, e in *. replace (a * b - w + (w - p)) with (a * b - p) by ring. exact C. }
    destruct (Rle_lt_dec (pw (emin + prec - 1)) (Rabs y)) as [L|S].
    + unfold rn. rewrite round_generic; [rewrite Rminus_diag_eq by reflexivity; rewrite Rabs_R0; apply ulp_ge_0|auto with typeclass_instances|now apply generic_format_FLT_FLX].
    + pose proof (rn_err choice y) as R. rewrite ulp_FLT_small in R; [|exact Hp|eapply Rlt_trans; [exact S|apply bpow_lt; lia]]. pose proof (ulp_least x). pose proof (bpow_gt_0 radix2 emin). lra.
  - pose proof (rn_err choice y). pose proof (half_ulp x y C). lra.
Qed.
(** The product and its error, when it is not tiny. *)
Lemma product_error choice c d : FT c -> FT d -> (c * d = 0 \/ pw (emin + 2 * prec - 1) <= Rabs (c * d)) -> let w := rn (FLT_exp emin prec) choice (c * d) in
  FX w /\ FT (w - c * d) /\ Rabs (w - c * d) <= / 2 * ulpX (c * d) /\ Rabs (w - c * d) <= / 2 * ulpX w.
Proof.
  intros Fc Fd N w. pose proof prec_pos prec. assert (Fw : FT w) by (apply generic_format_round; auto with typeclass_instances).
  split; [now apply (generic_format_FLX_FLT radix2 emin)|]. split.
  - apply mult_error_FLT; auto with typeclass_instances. intros Z. destruct N as [N|N]; [now elim Z|exact N].
  - assert (W : w = rn (FLX_exp prec) choice (c * d)).
    { destruct N as [N|N]; [unfold w, rn; rewrite N, !round_0 by (auto with typeclass_instances); reflexivity|]. apply round_FLT_FLX. eapply Rle_trans; [|exact N]. apply bpow_le. lia. }
    rewrite W. split; [now apply error_le_half_ulp|apply error_le_half_ulp_round; [exact VX|apply FLX_exp_monotone]].
Qed.
Lemma diff_ok choice a b c d : FT a -> FT b -> FT c -> FT d -> (c * d = 0 \/ pw (emin + 2 * prec - 1) <= Rabs (c * d)) ->
  let w := rn (FLT_exp emin prec) choice (c * d) in
  Rabs (rn (FLT_exp emin prec) choice (rn (FLT_exp emin prec) choice (a * b + - w) + rn (FLT_exp emin prec) choice (- c * d + w)) - (a * b - c * d)) <= 3 / 2 * ulpT (a * b - c * d).
Proof.
  intros Fa Fb Fc Fd N w. destruct (product_error choice c d Fc Fd N) as (Fw & Fe & E1 & E2). fold w in Fw, Fe, E1, E2.
  replace (rn (FLT_exp emin prec) choice (- c * d + w)) with (w - c * d).
  2: { replace (- c * d + w) with (w - c * d) by ring. symmetry. apply round_generic; auto with typeclass_instances. }
  replace (a * b + - w) with (a * b - w) by ring. apply kahan; auto; now apply (generic_format_FLX_FLT radix2 emin).
Qed.
Lemma sum_ok choice a b c d : FT a -> FT b -> FT c -> FT d -> (c * d = 0 \/ pw (emin + 2 * prec - 1) <= Rabs (c * d)) ->
  let w := rn (FLT_exp emin prec) choice (c * d) in
  Rabs (rn (FLT_exp emin prec) choice (rn (FLT_exp emin prec) choice (a * b + w) + rn (FLT_exp emin prec) choice (c * d + - w)) - (a * b + c * d)) <= 3 / 2 * ulpT (a * b + c * d).
Proof.
  intros Fa Fb Fc Fd N w. destruct (product_error choice c d Fc Fd N) as (Fw & Fe & E1 & E2). fold w in Fw, Fe, E1, E2.
  assert (Fe' : FT (c * d - w)) by (replace (c * d - w) with (- (w - c * d)) by ring; now apply generic_format_opp).
  replace (rn (FLT_exp emin prec) choice (c * d + - w)) with (- w - - (c * d)).
  2: { unfold rn at 1. rewrite round_generic; [ring|auto with typeclass_instances|exact Fe']. }
  replace (a * b + w) with (a * b - - w) by ring. replace (a * b + c * d) with (a * b - - (c * d)) by ring.
  apply kahan; [now apply (generic_format_FLX_FLT radix2 emin)|now apply (generic_format_FLX_FLT radix2 emin)|now apply generic_format_opp| |]; replace (- w - - (c * d)) with (- (w - c * d)) by ring; rewrite Rabs_Ropp, ulp_opp; assumption.
Qed.
End Flt.

(** ** IEEE numbers *)
Section Ieee.
Variable prec emax : Z.
Context {Hp : Prec_gt_0 prec} {He : Prec_lt_emax prec emax}.
Notation float := (binary_float prec emax).
Notation pw := (bpow radix2).
Notation fexp' := (FLT_exp (FmaSpec.emin prec emax) prec).
Notation RNE := (rn fexp' (fun t => negb (Z.even t))).
Lemma b2r_format (x : float) : generic_format radix2 fexp' (B2R x). Proof. exact (generic_format_B2R prec emax x). Qed.
Lemma overflow_infinite (x : float) s : B2SF x = binary_overflow prec emax mode_NE s -> is_finite x = false.
Proof. destruct x; cbn; intros H; (reflexivity || discriminate). Qed.
Lemma mult_finite (x y : float) : is_finite x = true -> is_finite y = true -> is_finite (fl_mul prec emax x y) = true -> B2R (fl_mul prec emax x y) = RNE (B2R x * B2R y).
Proof.
  intros Fx Fy F. pose proof (Bmult_correct prec emax _ _ mode_NE x y) as H. unfold fl_mul in *. destruct Rlt_bool; [exact (proj1 H)|].
  apply overflow_infinite in H. congruence.
Qed.
Lemma fma_finite (x y z : float) : is_finite x = true -> is_finite y = true -> is_finite (fl_fma prec emax x y z) = true ->
  is_finite z = true /\ B2R (fl_fma prec emax x y z) = RNE (B2R x * B2R y + B2R z).
Proof.
  intros Fx Fy F. assert (Fz : is_finite z = true) by (destruct z, x, y; cbn in *; congruence). split; [exact Fz|].
  pose proof (Bfma_correct prec emax _ _ mode_NE x y z Fx Fy Fz) as H. cbv zeta in H. unfold fl_fma in *. destruct Rlt_bool; [exact (proj1 H)|].
  apply overflow_infinite in H. congruence.
Qed.
Lemma plus_finite (x y : float) : is_finite (fl_add prec emax x y) = true -> is_finite x = true /\ is_finite y = true /\ B2R (fl_add prec emax x y) = RNE (B2R x + B2R y).
Proof.
  intros F. assert (Fx : is_finite x = true) by (destruct x as [sx|sx| |sx ? ? ?], y as [sy|sy| |sy ? ? ?]; cbn in *; try congruence; destruct (Bool.eqb sx sy); cbn in *; congruence).
  assert (Fy : is_finite y = true) by (destruct x as [sx|sx| |sx ? ? ?], y as [sy|sy| |sy ? ? ?]; cbn in *; congruence).
  split; [exact Fx|]. split; [exact Fy|]. pose proof (Bplus_correct prec emax _ _ mode_NE x y Fx Fy) as H. unfold fl_add in *. destruct Rlt_bool; [exact (proj1 H)|].
  destruct H as (H & _). apply overflow_infinite in H. congruence.
Qed.
Lemma minus_finite (x y : float) : is_finite x = true -> is_finite y = true -> is_finite (fl_sub prec emax x y) = true -> B2R (fl_sub prec emax x y) = RNE (B2R x - B2R y).
Proof.
  intros Fx Fy F. pose proof (Bminus_correct prec emax _ _ mode_NE x y Fx Fy) as H. unfold fl_sub in *. destruct Rlt_bool; [exact (proj1 H)|].
  destruct H as (H & _). apply overflow_infinite in H. congruence.
Qed.
Lemma diff_accurate (a b c d : float) : is_finite a = true -> is_finite b = true -> is_finite c = true -> is_finite d = true -> is_finite (fl_diff_of_products a b c d) = true ->
  not_tiny prec emax (B2R c * B2R d) -> within_ulps (3 / 2) (fl_diff_of_products a b c d) (B2R a * B2R b - B2R c * B2R d).
Proof.
  intros Fa Fb Fc Fd F N. split; [exact F|]. unfold fl_diff_of_products in *. cbv zeta in *. destruct (plus_finite _ _ F) as (F1 & F2 & ->).
  assert (Fnc : is_finite (fl_neg prec emax c) = true) by (unfold fl_neg; now rewrite is_finite_Bopp).
  destruct (fma_finite _ _ _ Fnc Fd F2) as (F3 & ->). destruct (fma_finite _ _ _ Fa Fb F1) as (_ & ->). unfold fl_neg. rewrite !B2R_Bopp. rewrite (mult_finite c d Fc Fd F3).
  apply diff_ok; auto using b2r_format.
Qed.
Lemma sum_accurate (a b c d : float) : is_finite a = true -> is_finite b = true -> is_finite c = true -> is_finite d = true -> is_finite (fl_sum_of_products a b c d) = true ->
  not_tiny prec emax (B2R c * B2R d) -> within_ulps (3 / 2) (fl_sum_of_products a b c d) (B2R a * B2R b + B2R c * B2R d).
Proof.
  intros Fa Fb Fc Fd F N. split; [exact F|]. unfold fl_sum_of_products in *. cbv zeta in *. destruct (plus_finite _ _ F) as (F1 & F2 & ->).
  destruct (fma_finite _ _ _ Fc Fd F2) as (_ & ->). destruct (fma_finite _ _ _ Fa Fb F1) as (F3 & ->). unfold fl_neg. rewrite !B2R_Bopp. rewrite (mult_finite c d Fc Fd F3).
  apply sum_ok; auto using b2r_format.
Qed.
Lemma multiply_add_accurate (a b c : float) : is_finite a = true -> is_finite b = true -> is_finite (fl_multiply_add a b c) = true ->
  within_ulps (1 / 2) (fl_multiply_add a b c) (B2R a * B2R b + B2R c).
Proof.
  intros Fa Fb F. split; [exact F|]. destruct (fma_finite a b c Fa Fb F) as (_ & E). unfold fl_multiply_add. rewrite E. unfold unit_last_place. replace (1 / 2) with (/ 2) by lra. apply rn_err. exact Hp.
Qed.
End Ieee.

(** ** Results that are finite *)
Section Finite.
Variable prec emax : Z.
Context {Hp : Prec_gt_0 prec} {He : Prec_lt_emax prec emax}.
Notation float := (binary_float prec emax).
Notation pw := (bpow radix2).
Notation fexp' := (FLT_exp (FmaSpec.emin prec emax) prec).
Notation RNE := (rn fexp' (fun t => negb (Z.even t))).
Lemma rn_bound x k : (FmaSpec.emin prec emax <= k)%Z -> Rabs x <= pw k -> Rabs (RNE x) <= pw k.
Proof.
  intros K H. unfold rn. apply abs_round_le_generic; [now apply FLT_exp_valid|auto with typeclass_instances| |exact H].
  apply generic_format_bpow. unfold FLT_exp. pose proof (prec_pos prec). lia.
Qed.
Lemma mult_runs (x y : float) : is_finite x = true -> is_finite y = true -> Rabs (RNE (B2R x * B2R y)) < pw emax ->
  is_finite (fl_mul prec emax x y) = true /\ B2R (fl_mul prec emax x y) = RNE (B2R x * B2R y).
Proof.
  intros Fx Fy B. pose proof (Bmult_correct prec emax _ _ mode_NE x y) as H. unfold fl_mul. change (round radix2 _ (round_mode mode_NE) (B2R x * B2R y)) with (RNE (B2R x * B2R y)) in H. rewrite Rlt_bool_true in H by exact B.
  destruct H as (H1 & H2 & _). rewrite Fx, Fy in H2. split; assumption.
Qed.
Lemma fma_runs (x y z : float) : is_finite x = true -> is_finite y = true -> is_finite z = true -> Rabs (RNE (B2R x * B2R y + B2R z)) < pw emax ->
  is_finite (fl_fma prec emax x y z) = true /\ B2R (fl_fma prec emax x y z) = RNE (B2R x * B2R y + B2R z).
Proof.
  intros Fx Fy Fz B. pose proof (Bfma_correct prec emax _ _ mode_NE x y z Fx Fy Fz) as H. cbv zeta in H. unfold fl_fma. change (round radix2 _ (round_mode mode_NE) (B2R x * B2R y + B2R z)) with (RNE (B2R x * B2R y + B2R z)) in H. rewrite Rlt_bool_true in H by exact B.
  destruct H as (H1 & H2 & _). split; assumption.
Qed.
Lemma plus_runs (x y : float) : is_finite x = true -> is_finite y = true -> Rabs (RNE (B2R x + B2R y)) < pw emax ->
  is_finite (fl_add prec emax x y) = true /\ B2R (fl_add prec emax x y) = RNE (B2R x + B2R y).
Proof.
  intros Fx Fy B. pose proof (Bplus_correct prec emax _ _ mode_NE x y Fx Fy) as H. unfold fl_add. change (round radix2 _ (round_mode mode_NE) (B2R x + B2R y)) with (RNE (B2R x + B2R y)) in H. rewrite Rlt_bool_true in H by exact B.
  destruct H as (H1 & H2 & _). split; assumption.
Qed.
Lemma minus_runs (x y : float) : is_finite x = true -> is_finite y = true -> Rabs (RNE (B2R x - B2R y)) < pw emax ->
  is_finite (fl_sub prec emax x y) = true /\ B2R (fl_sub prec emax x y) = RNE (B2R x - B2R y).
Proof.
  intros Fx Fy B. pose proof (Bminus_correct prec emax _ _ mode_NE x y Fx Fy) as H. unfold fl_sub. change (round radix2 _ (round_mode mode_NE) (B2R x - B2R y)) with (RNE (B2R x - B2R y)) in H. rewrite Rlt_bool_true in H by exact B.
  destruct H as (H1 & H2 & _). split; assumption.
Qed.
Lemma neg_runs (x : float) : is_finite (fl_neg prec emax x) = is_finite x /\ B2R (fl_neg prec emax x) = - B2R x.
Proof. unfold fl_neg. split; [apply is_finite_Bopp|apply B2R_Bopp]. Qed.
Lemma bounds_add x y k : Rabs x <= pw k -> Rabs y <= pw k -> Rabs (x + y) <= pw (k + 1).
Proof. intros A B. rewrite bpow_plus. change (pw 1) with 2. eapply Rle_trans; [apply Rabs_triang|]. lra. Qed.
Lemma diff_finite (a b c d : float) : (3 <= emax)%Z -> is_finite a = true -> is_finite b = true -> is_finite c = true -> is_finite d = true ->
  Rabs (B2R a * B2R b) <= pw (emax - 3) -> Rabs (B2R c * B2R d) <= pw (emax - 3) ->
  is_finite (fl_diff_of_products a b c d) = true /\ is_finite (fl_sum_of_products a b c d) = true.
Proof.
  intros E3 Fa Fb Fc Fd AB CD. pose proof (prec_pos prec) as PP. assert (EM : (FmaSpec.emin prec emax <= emax - 3)%Z) by (unfold FmaSpec.emin; lia).
  assert (UP : forall k, (k < emax)%Z -> forall x, Rabs x <= pw k -> Rabs x < pw emax) by (intros k K x X; eapply Rle_lt_trans; [exact X|now apply bpow_lt]).
  pose proof (rn_bound _ _ EM CD) as W. destruct (mult_runs c d Fc Fd (UP (emax - 3)%Z ltac:(lia) _ W)) as (F1 & V1). rewrite <- V1 in W.
  destruct (neg_runs c) as (F2 & V2). destruct (neg_runs (fl_mul prec emax c d)) as (F3 & V3). rewrite Fc in F2. rewrite F1 in F3.
  assert (W' : Rabs (- B2R (fl_mul prec emax c d)) <= pw (emax - 3)) by (now rewrite Rabs_Ropp).
  assert (CD' : Rabs (- B2R c * B2R d) <= pw (emax - 3)) by (now rewrite Ropp_mult_distr_l_reverse, Rabs_Ropp).
  assert (K2 : (emax - 3 + 1 < emax)%Z) by lia. assert (E2 : (FmaSpec.emin prec emax <= emax - 3 + 1)%Z) by lia.
  assert (LAST : forall x y : float, is_finite x = true -> is_finite y = true -> Rabs (B2R x) <= pw (emax - 3 + 1) -> Rabs (B2R y) <= pw (emax - 3 + 1) -> is_finite (fl_add prec emax x y) = true).
  { intros x y Fx Fy X Y. apply (plus_runs x y Fx Fy). apply (UP (emax - 3 + 1 + 1)%Z ltac:(lia)). apply rn_bound; [lia|]. now apply bounds_add. }
  split; unfold fl_diff_of_products, fl_sum_of_products; cbv zeta.
  - destruct (fma_runs (fl_neg prec emax c) d (fl_mul prec emax c d) F2 Fd F1) as (F4 & V4).
    { rewrite V2. apply (UP _ K2). apply rn_bound; [exact E2|]. now apply bounds_add. }
    destruct (fma_runs a b (fl_neg prec emax (fl_mul prec emax c d)) Fa Fb F3) as (F5 & V5).
    { rewrite V3. apply (UP _ K2). apply rn_bound; [exact E2|]. now apply bounds_add. }
    apply LAST; [exact F5|exact F4|rewrite V5, V3|rewrite V4, V2]; (apply rn_bound; [exact E2|]; now apply bounds_add).
  - destruct (fma_runs c d (fl_neg prec emax (fl_mul prec emax c d)) Fc Fd F3) as (F4 & V4).
    { rewrite V3. apply (UP _ K2). apply rn_bound; [exact E2|]. now apply bounds_add. }
    destruct (fma_runs a b (fl_mul prec emax c d) Fa Fb F1) as (F5 & V5).
    { apply (UP _ K2). apply rn_bound; [exact E2|]. now apply bounds_add. }
    apply LAST; [exact F5|exact F4|rewrite V5|rewrite V4, V3]; (apply rn_bound; [exact E2|]; now apply bounds_add).
Qed.
Lemma rne_exact (x : float) : RNE (B2R x) = B2R x.
Proof. apply round_generic; [auto with typeclass_instances|apply b2r_format]. Qed.
Lemma rne_0 : RNE 0 = 0. Proof. apply round_0. auto with typeclass_instances. Qed.
Lemma rne_1 : RNE 1 = 1. Proof. rewrite <- (Bone_correct prec emax _ _). apply rne_exact. Qed.
Lemma one_small : Rabs 1 < pw emax. Proof. rewrite Rabs_R1. change 1 with (pw 0). apply bpow_lt. pose proof (prec_pos prec). pose proof (He : (prec < emax)%Z). lia. Qed.
Lemma zero_small : Rabs 0 < pw emax. Proof. rewrite Rabs_R0. apply bpow_gt_0. Qed.
Lemma mix_ends (t a b : float) : is_finite t = true -> is_finite a = true -> is_finite b = true ->
  (B2R t = 0 -> is_finite (fl_mix t a b) = true /\ B2R (fl_mix t a b) = B2R a) /\ (B2R t = 1 -> is_finite (fl_mix t a b) = true /\ B2R (fl_mix t a b) = B2R b).
Proof.
  intros Ft Fa Fb. unfold fl_mix, fl_sum_of_products. cbv zeta. set (s := fl_sub prec emax (fl_one prec emax) t).
  assert (F1 : is_finite (fl_one prec emax) = true) by apply is_finite_Bone. assert (V1 : B2R (fl_one prec emax) = 1) by apply Bone_correct.
  split; intros T.
  - destruct (minus_runs (fl_one prec emax) t F1 Ft) as (Fs & Vs); [rewrite V1, T, Rminus_0_r, rne_1; apply one_small|]. fold s in Fs, Vs. rewrite V1, T, Rminus_0_r, rne_1 in Vs.
    destruct (mult_runs t b Ft Fb) as (Fc & Vc); [rewrite T, Rmult_0_l, rne_0; apply zero_small|]. rewrite T, Rmult_0_l, rne_0 in Vc. set (cd := fl_mul prec emax t b) in *.
    destruct (neg_runs cd) as (Fn & Vn). rewrite Fc in Fn. rewrite Vc, Ropp_0 in Vn.
    destruct (fma_runs t b (fl_neg prec emax cd) Ft Fb Fn) as (Fe & Ve); [rewrite T, Vn, Rmult_0_l, Rplus_0_l, rne_0; apply zero_small|]. rewrite T, Vn, Rmult_0_l, Rplus_0_l, rne_0 in Ve.
    destruct (fma_runs s a cd Fs Fa Fc) as (Fx & Vx); [rewrite Vs, Vc, Rmult_1_l, Rplus_0_r, rne_exact; apply abs_B2R_lt_emax|]. rewrite Vs, Vc, Rmult_1_l, Rplus_0_r, rne_exact in Vx.
    destruct (plus_runs _ _ Fx Fe) as (Fr & Vr); [rewrite Vx, Ve, Rplus_0_r, rne_exact; apply abs_B2R_lt_emax|]. rewrite Vx, Ve, Rplus_0_r, rne_exact in Vr. split; assumption.
  - destruct (minus_runs (fl_one prec emax) t F1 Ft) as (Fs & Vs); [rewrite V1, T, Rminus_diag_eq, rne_0 by reflexivity; apply zero_small|]. fold s in Fs, Vs. rewrite V1, T, Rminus_diag_eq, rne_0 in Vs by reflexivity.
    destruct (mult_runs t b Ft Fb) as (Fc & Vc); [rewrite T, Rmult_1_l, rne_exact; apply abs_B2R_lt_emax|]. rewrite T, Rmult_1_l, rne_exact in Vc. set (cd := fl_mul prec emax t b) in *.
    destruct (neg_runs cd) as (Fn & Vn). rewrite Fc in Fn. rewrite Vc in Vn.
    destruct (fma_runs t b (fl_neg prec emax cd) Ft Fb Fn) as (Fe & Ve); [rewrite T, Vn, Rmult_1_l, Rplus_opp_r, rne_0; apply zero_small|]. rewrite T, Vn, Rmult_1_l, Rplus_opp_r, rne_0 in Ve.
    destruct (fma_runs s a cd Fs Fa Fc) as (Fx & Vx); [rewrite Vs, Vc, Rmult_0_l, Rplus_0_l, rne_exact; apply abs_B2R_lt_emax|]. rewrite Vs, Vc, Rmult_0_l, Rplus_0_l, rne_exact in Vx.
    destruct (plus_runs _ _ Fx Fe) as (Fr & Vr); [rewrite Vx, Ve, Rplus_0_r, rne_exact; apply abs_B2R_lt_emax|]. rewrite Vx, Ve, Rplus_0_r, rne_exact in Vr. split; assumption.
Qed.
End Finite.

(** ** Doubles *)
Definition dbl_prec : Prec_gt_0 53 := eq_refl. Definition dbl_emax : Prec_lt_emax 53 1024 := eq_refl.
#[export] Existing Instance dbl_prec. #[export] Existing Instance dbl_emax.
Definition dbl (m e : Z) : binary_float 53 1024 := binary_normalize 53 1024 dbl_prec dbl_emax mode_NE m e false.
Lemma dbl_value (x : binary_float 53 1024) s m e : B2SF x = SpecFloat.S754_finite s m e -> B2R x = IZR (cond_Zopp s (Zpos m)) * bpow radix2 e.
Proof. intros H. rewrite <- SF2R_B2SF, H. reflexivity. Qed.
