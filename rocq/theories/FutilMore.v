From Coq Require Import Reals ZArith Lia Lra Bool.
From Flocq Require Import Core Relative Plus_error Mult_error Operations BinarySingleNaN.
From Verif Require Import FmaModel FmaSpec FmaProofs FquadModel FquadProofs FquadMore FvecModel FvecSpec FvecProofs FvecMore RealUtilSpec RealUtilProofs FutilModel FutilSpec FutilProofs.
Open Scope R_scope.

Lemma to_integer rnd x : round radix2 (FIX_exp 0) rnd x = IZR (rnd x).
Proof. unfold round, scaled_mantissa, cexp, FIX_exp, F2R. cbn. now rewrite !Rmult_1_r. Qed.

Section More.
Variable prec emax : Z.
Context {Hp : Prec_gt_0 prec} {He : Prec_lt_emax prec emax}.
Notation float := (binary_float prec emax).
Notation pw := (bpow radix2).
Notation emin' := (FmaSpec.emin prec emax).
Notation fexp' := (FLT_exp emin' prec).
Notation RNE := (rn fexp' (fun t => negb (Z.even t))).
Notation FT := (generic_format radix2 fexp').
Notation u := (pw (- prec)).
Notation h := (pw (emin' - 1)).
Notation low := (pw (emin' + prec - 1)).
Hypotheses (P8 : (8 <= prec)%Z) (E8 : (8 <= emax)%Z).
Let US : 0 < u <= / 256 := u_small prec P8.
Let LP : (prec < emax)%Z := He.
(** *** Interpolation *)
Lemma low_small : low <= pw (emax - 5). Proof. apply bpow_le. unfold FmaSpec.emin. lia. Qed.
Lemma top_is : pw (emax - 3) = 4 * pw (emax - 5). Proof. change 4 with (pw 2). rewrite <- bpow_plus. f_equal. lia. Qed.
Lemma growth d : (4 * Z.of_nat d <= 2 ^ (prec - 1))%Z -> 1 <= (1 + 4 * u) ^ d <= 2.
Proof.
  intros D. split; [apply pow_R1_Rle; lra|]. eapply Rle_trans; [|apply (pow_small prec ltac:(lia) (4 * d)); lia]. rewrite pow_mult. apply pow_incr. split; [lra|]. unfold step. cbn [pow].
  assert (0 <= u * u) by (apply Rmult_le_pos; lra). assert (0 <= u * u * u) by (apply Rmult_le_pos; lra). assert (0 <= u * u * u * u) by (apply Rmult_le_pos; lra).
  replace ((1 + u) * ((1 + u) * ((1 + u) * ((1 + u) * 1)))) with (1 + 4 * u + 6 * (u * u) + 4 * (u * u * u) + u * u * u * u) by ring. lra.
Qed.
Lemma interp_accurate d M (s : nat -> float) : (4 * Z.of_nat d <= 2 ^ (prec - 1))%Z -> M <= pw (emax - 5) ->
  (forall i, (i < S d)%nat -> is_finite (s i) = true /\ 0 <= B2R (s i) <= 1) ->
  forall p : nat -> float, (forall c, (c < 2 ^ S d)%nat -> is_finite (p c) = true /\ Rabs (B2R (p c)) <= M) ->
  is_finite (fl_interp_linear (S d) s p) = true /\
  Rabs (B2R (fl_interp_linear (S d) s p) - multilinear (S d) (fun i => B2R (s i)) (fun c => B2R (p c))) <= ((1 + 4 * u) ^ S d - 1) * (M + low).
Proof.
  intros D MB. pose proof low_small as LS. pose proof top_is as TI. pose proof (bpow_gt_0 radix2 (emin' + prec - 1)) as L0. pose proof (bpow_gt_0 radix2 (emax - 5)) as T0.
  induction d as [|d IH]; intros S p Hc.
  - destruct (S 0%nat ltac:(lia)) as (Fs & B01). destruct (Hc 0%nat ltac:(cbn; lia)) as (F0 & B0). destruct (Hc 1%nat ltac:(cbn; lia)) as (F1 & B1).
    rewrite multilinear_S, !multilinear_0. cbn [fl_interp_linear Nat.pow Nat.add]. destruct (mix_accurate prec emax P8 E8 (s 0%nat) (p 0%nat) (p 1%nat) M Fs F0 F1 B01 B0 B1 ltac:(lra)) as (F & A).
    split; [exact F|]. replace (((1 + 4 * u) ^ 1 - 1) * (M + low)) with (4 * u * (M + low)) by ring. exact A.
  - change (fl_interp_linear (Datatypes.S (Datatypes.S d)) s p) with (fl_mix (s (Datatypes.S d)) (fl_interp_linear (Datatypes.S d) s p) (fl_interp_linear (Datatypes.S d) s (fun i => p (2 ^ Datatypes.S d + i)%nat))).
    rewrite multilinear_S. specialize (IH ltac:(lia) ltac:(intros; apply S; lia)). assert (E2 : (2 ^ Datatypes.S (Datatypes.S d) = 2 ^ Datatypes.S d + 2 ^ Datatypes.S d)%nat) by (cbn; lia).
    destruct (IH p) as (F0 & A0); [intros; apply Hc; lia|]. destruct (IH (fun i => p (2 ^ Datatypes.S d + i)%nat)) as (F1 & A1); [intros; apply Hc; lia|].
    destruct (S (Datatypes.S d) ltac:(lia)) as (Fs & B01). pose proof (growth (Datatypes.S d) ltac:(lia)) as G. set (g := (1 + 4 * u) ^ Datatypes.S d) in *.
    assert (MP : 0 <= M) by (destruct (Hc 0%nat) as (_ & X); [pose proof (Nat.pow_nonzero 2 (Datatypes.S (Datatypes.S d)) ltac:(lia)); lia|]; eapply Rle_trans; [apply Rabs_pos|exact X]).
    set (E := (g - 1) * (M + low)) in *. assert (E0 : 0 <= E <= M + low) by (unfold E; split; [apply Rmult_le_pos; lra|rewrite <- (Rmult_1_l (M + low)) at 2; apply Rmult_le_compat_r; lra]).
    set (x0 := multilinear (Datatypes.S d) (fun i => B2R (s i)) (fun c => B2R (p c))) in *. set (x1 := multilinear (Datatypes.S d) (fun i => B2R (s i)) (fun c => B2R (p (2 ^ Datatypes.S d + c)%nat))) in *.
    assert (X0 : Rabs x0 <= M) by (apply Rabs_le, multilinear_bounds; [intros; apply S; lia|]; intros c C; apply Rabs_le_inv; apply Hc; lia).
    assert (X1 : Rabs x1 <= M) by (apply Rabs_le, multilinear_bounds; [intros; apply S; lia|]; intros c C; apply Rabs_le_inv; apply Hc; lia).
    set (y0 := fl_interp_linear (Datatypes.S d) s p) in *. set (y1 := fl_interp_linear (Datatypes.S d) s (fun i => p (2 ^ Datatypes.S d + i)%nat)) in *.
    assert (Y0 : Rabs (B2R y0) <= M + E) by (replace (B2R y0) with (x0 + (B2R y0 - x0)) by ring; now apply bound_add).
    assert (Y1 : Rabs (B2R y1) <= M + E) by (replace (B2R y1) with (x1 + (B2R y1 - x1)) by ring; now apply bound_add).
    destruct (mix_accurate prec emax P8 E8 (s (Datatypes.S d)) y0 y1 (M + E) Fs F0 F1 B01 Y0 Y1 ltac:(lra)) as (F & A). split; [exact F|]. set (t := B2R (s (Datatypes.S d))) in *.
    assert (Q : Rabs ((1 - t) * (B2R y0 - x0) + t * (B2R y1 - x1)) <= E).
    { replace E with ((1 - t) * E + t * E) by ring. apply bound_add; (apply bound_mul; [apply Rabs_le; lra|assumption]). }
    replace (B2R (fl_mix (s (Datatypes.S d)) y0 y1) - ((1 - t) * x0 + t * x1)) with ((B2R (fl_mix (s (Datatypes.S d)) y0 y1) - ((1 - t) * B2R y0 + t * B2R y1)) + ((1 - t) * (B2R y0 - x0) + t * (B2R y1 - x1))) by ring.
    eapply Rle_trans; [apply bound_add; [exact A|exact Q]|]. change ((1 + 4 * u) ^ Datatypes.S (Datatypes.S d)) with ((1 + 4 * u) * g). unfold E. right. ring.
Qed.
(** *** Quotients rounded to integers *)
Notation modulus := (@modulus prec emax).
Lemma h_tiny : h <= u * / 128. Proof. change (/ 128) with (pw (-7)). rewrite <- bpow_plus. apply bpow_le. unfold FmaSpec.emin. lia. Qed.
Lemma quotient_runs (a b : float) : is_finite a = true -> modulus b -> Rabs (B2R a / B2R b) <= pw (emax - 6) ->
  is_finite (fl_div prec emax a b) = true /\ Rabs (B2R (fl_div prec emax a b) * B2R b - B2R a) <= u * Rabs (B2R a) + h * B2R b.
Proof.
  intros Fa ((Fb & Bb) & Lb) Q. assert (B0 : 0 < B2R b) by (eapply Rlt_le_trans; [|exact Lb]; apply bpow_gt_0).
  destruct (div_runs prec emax a b Fa ltac:(lra)) as (F & V).
  { apply Rle_lt_trans with (pw (emax - 6)); [|apply bpow_lt; lia]. apply (rn_bound prec emax); [unfold FmaSpec.emin; lia|exact Q]. }
  split; [exact F|]. rewrite V. destruct (rn_model prec emax (B2R a / B2R b)) as (d & e & D & E & ->).
  replace ((B2R a / B2R b * (1 + d) + e) * B2R b - B2R a) with (d * B2R a + e * B2R b) by (field; lra). apply bound_add; [apply bound_mul; [exact D|lra]|]. apply bound_mul; [exact E|]. rewrite Rabs_pos_eq; lra.
Qed.
(** The product of a modulus and an integer. *)
Lemma multiple_runs (b k : float) n A : modulus b -> is_finite k = true -> B2R k = IZR n -> Rabs (B2R b * IZR n) <= A -> A <= pw (emax - 1) ->
  is_finite (fl_mul prec emax b k) = true /\ Rabs (B2R (fl_mul prec emax b k) - B2R b * IZR n) <= u * Rabs (B2R b * IZR n).
Proof.
  intros ((Fb & Bb) & Lb) Fk K BA AT. assert (B0 : 0 < B2R b) by (eapply Rlt_le_trans; [|exact Lb]; apply bpow_gt_0).
  destruct (mult_runs prec emax b k Fb Fk) as (F & V).
  { rewrite K. apply Rle_lt_trans with (pw (emax - 1)); [|apply bpow_lt; lia]. apply (rn_bound prec emax); [unfold FmaSpec.emin; lia|lra]. }
  split; [exact F|]. rewrite V, K. destruct (Z.eq_dec n 0) as [->|N].
  - rewrite Rmult_0_r, (rn_zero emin' prec), Rminus_0_r, Rabs_R0. lra.
  - destruct (normal_rounding prec emax (B2R b * IZR n)) as (e & E & ->).
    + rewrite Rabs_mult, (Rabs_pos_eq (B2R b)) by lra. rewrite <- abs_IZR. apply Rle_trans with (B2R b * 1); [unfold least_normal in Lb; lra|]. apply Rmult_le_compat_l; [lra|]. apply IZR_le. lia.
    + replace (B2R b * IZR n * (1 + e) - B2R b * IZR n) with (e * (B2R b * IZR n)) by ring. apply bound_mul; [exact E|lra].
Qed.
Lemma ceil_runs (a b : float) : is_finite a = true -> modulus b -> Rabs (B2R a / B2R b) <= pw (emax - 6) ->
  is_finite (fl_ceil_div a b) = true /\ exists n, B2R (fl_ceil_div a b) = IZR n /\ B2R a - u * (Rabs (B2R a) + B2R b) <= IZR n * B2R b < B2R a + B2R b + u * (Rabs (B2R a) + B2R b).
Proof.
  intros Fa Mb Q. destruct (quotient_runs a b Fa Mb Q) as (F & E). destruct Mb as ((Fb & Bb) & Lb). assert (B0 : 0 < B2R b) by (eapply Rlt_le_trans; [|exact Lb]; apply bpow_gt_0).
  unfold fl_ceil_div. destruct (Bnearbyint_correct prec emax He mode_UP (fl_div prec emax a b)) as (V & Fc & _). rewrite F in Fc. split; [exact Fc|].
  exists (Zceil (B2R (fl_div prec emax a b))). rewrite V, to_integer. split; [reflexivity|]. set (q := B2R (fl_div prec emax a b)) in *.
  pose proof (Zceil_ub q) as U1. assert (U2 : IZR (Zceil q) < q + 1) by (pose proof (Zceil_lb q); lra).
  assert (HB : h * B2R b <= u * / 128 * B2R b) by (apply Rmult_le_compat_r; [lra|apply h_tiny]). assert (0 < u * B2R b) by (apply Rmult_lt_0_compat; lra). apply Rabs_le_inv in E.
  assert (q * B2R b <= IZR (Zceil q) * B2R b) by (apply Rmult_le_compat_r; lra). assert (IZR (Zceil q) * B2R b < (q + 1) * B2R b) by (apply Rmult_lt_compat_r; lra). lra.
Qed.
Lemma floor_runs (a b : float) : is_finite a = true -> modulus b -> Rabs (B2R a / B2R b) <= pw (emax - 6) ->
  is_finite (fl_floor_div a b) = true /\ exists n, B2R (fl_floor_div a b) = IZR n /\ B2R a - B2R b - u * (Rabs (B2R a) + / 128 * B2R b) < IZR n * B2R b <= B2R a + u * (Rabs (B2R a) + / 128 * B2R b).
Proof.
  intros Fa Mb Q. destruct (quotient_runs a b Fa Mb Q) as (F & E). destruct Mb as ((Fb & Bb) & Lb). assert (B0 : 0 < B2R b) by (eapply Rlt_le_trans; [|exact Lb]; apply bpow_gt_0).
  unfold fl_floor_div. destruct (Bnearbyint_correct prec emax He mode_DN (fl_div prec emax a b)) as (V & Fc & _). rewrite F in Fc. split; [exact Fc|].
  exists (Zfloor (B2R (fl_div prec emax a b))). rewrite V, to_integer. split; [reflexivity|]. set (q := B2R (fl_div prec emax a b)) in *.
  pose proof (Zfloor_lb q) as U1. pose proof (Zfloor_ub q) as U2.
  assert (HB : h * B2R b <= u * / 128 * B2R b) by (apply Rmult_le_compat_r; [lra|apply h_tiny]). assert (0 < u * B2R b) by (apply Rmult_lt_0_compat; lra). apply Rabs_le_inv in E.
  assert (IZR (Zfloor q) * B2R b <= q * B2R b) by (apply Rmult_le_compat_r; lra). assert (q * B2R b < (IZR (Zfloor q) + 1) * B2R b) by (apply Rmult_lt_compat_r; lra). lra.
Qed.
Lemma ceil_floor (a b : float) : is_finite a = true -> modulus b -> Rabs (B2R a / B2R b) <= pw (emax - 6) ->
  let e := u * (Rabs (B2R a) + B2R b) in
  (exists n, is_finite (fl_ceil_div a b) = true /\ B2R (fl_ceil_div a b) = IZR n /\ B2R a - e <= IZR n * B2R b < B2R a + B2R b + e) /\
  (exists n, is_finite (fl_floor_div a b) = true /\ B2R (fl_floor_div a b) = IZR n /\ B2R a - B2R b - e < IZR n * B2R b <= B2R a + e).
Proof.
  intros Fa Mb Q e. destruct (ceil_runs a b Fa Mb Q) as (F & n & V & N). destruct (floor_runs a b Fa Mb Q) as (G & k & W & K). split; [exists n; auto|].
  exists k. split; [exact G|]. split; [exact W|]. destruct Mb as (_ & Lb). assert (B0 : 0 < B2R b) by (eapply Rlt_le_trans; [|exact Lb]; apply bpow_gt_0).
  assert (0 < u * B2R b) by (apply Rmult_lt_0_compat; lra). unfold e. rewrite Rmult_plus_distr_l in *. lra.
Qed.
Lemma room : pw (emax - 1) = 32 * pw (emax - 6). Proof. change 32 with (pw 5). rewrite <- bpow_plus. f_equal. lia. Qed.
Lemma snap_runs (a b : float) : moderate a -> modulus b -> Rabs (B2R a / B2R b) <= pw (emax - 6) ->
  is_finite (fl_snap a b) = true /\ exists n, Rabs (B2R (fl_snap a b) - IZR n * B2R b) <= u * Rabs (IZR n * B2R b) /\
    B2R a - u * (Rabs (B2R a) + B2R b) <= IZR n * B2R b < B2R a + B2R b + u * (Rabs (B2R a) + B2R b).
Proof.
  intros (Fa & Ba) Mb Q. destruct (ceil_runs a b Fa Mb Q) as (F & n & V & N). destruct Mb as ((Fb & Bb) & Lb) eqn:EM. assert (B0 : 0 < B2R b) by (eapply Rlt_le_trans; [|exact Lb]; apply bpow_gt_0).
  assert (Bb' : B2R b <= pw (emax - 6)) by (rewrite <- (Rabs_pos_eq (B2R b)) by lra; exact Bb). pose proof (u_times prec P8 (Rabs (B2R a) + B2R b) ltac:(pose proof (Rabs_pos (B2R a)); lra)) as UT.
  assert (NB : Rabs (B2R b * IZR n) <= pw (emax - 1)). { rewrite room, (Rmult_comm (B2R b)). pose proof (Rabs_le_inv _ _ Ba). apply Rabs_le. lra. }
  destruct (multiple_runs b (fl_ceil_div a b) n _ Mb F V NB (Rle_refl _)) as (Fr & E). rewrite (Rmult_comm (B2R b)) in E. split; [exact Fr|]. exists n. split; assumption.
Qed.
Lemma mod_runs (a b : float) : moderate a -> modulus b -> Rabs (B2R a / B2R b) <= pw (emax - 6) ->
  let e := 4 * u * (Rabs (B2R a) + B2R b) in
  is_finite (fl_positive_mod a b) = true /\ congruent_within (B2R b) e (B2R (fl_positive_mod a b)) (B2R a) /\ - e <= B2R (fl_positive_mod a b) <= B2R b + e.
Proof.
  intros (Fa & Ba) Mb Q e. destruct (floor_runs a b Fa Mb Q) as (F & n & V & N). unfold fl_positive_mod. fold (fl_floor_div a b). pose proof Mb as ((Fb & Bb) & Lb). assert (B0 : 0 < B2R b) by (eapply Rlt_le_trans; [|exact Lb]; apply bpow_gt_0).
  assert (Bb' : B2R b <= pw (emax - 6)) by (rewrite <- (Rabs_pos_eq (B2R b)) by lra; exact Bb). pose proof (Rabs_pos (B2R a)) as PA. pose proof (u_times prec P8 _ PA) as UA. pose proof (u_times prec P8 (B2R b) ltac:(lra)) as UB.
  pose proof (u_times prec P8 _ (proj1 UA)) as UUA. pose proof (u_times prec P8 _ (proj1 UB)) as UUB. pose proof (u_times prec P8 _ (proj1 UUA)) as UUUA. pose proof (u_times prec P8 _ (proj1 UUB)) as UUUB.
  rewrite Rmult_plus_distr_l in N. replace (u * (/ 128 * B2R b)) with (/ 128 * (u * B2R b)) in N by ring.
  pose proof (Rabs_le_inv _ _ Ba) as Ba'. pose proof (Rabs_le_inv _ _ (Rle_refl (Rabs (B2R a)))) as AA.
  assert (NA : Rabs (B2R b * IZR n) <= Rabs (B2R a) + B2R b + u * Rabs (B2R a) + u * B2R b) by (rewrite (Rmult_comm (B2R b)); apply Rabs_le; lra).
  destruct (multiple_runs b (fl_floor_div a b) n _ Mb F V NA) as (Fm & E). { rewrite room. pose proof Ba. lra. }
  set (m := fl_mul prec emax b (fl_floor_div a b)) in *.
  assert (EM : Rabs (B2R m - IZR n * B2R b) <= u * (Rabs (B2R a) + B2R b + u * Rabs (B2R a) + u * B2R b)) by (rewrite (Rmult_comm (IZR n)); eapply Rle_trans; [exact E|]; apply Rmult_le_compat_l; lra).
  rewrite !Rmult_plus_distr_l in EM. assert (AM : Rabs (B2R a - B2R m) <= B2R b * 2 + 3 * (u * Rabs (B2R a))) by (apply Rabs_le_inv in EM; apply Rabs_le; lra).
  assert (RM : RNE (B2R a - B2R m) = RNE (B2R a + - B2R m)) by reflexivity.
  destruct (sum_rounding prec emax P8 (B2R a) (- B2R m) (b2r_format prec emax a) (generic_format_opp _ _ _ (b2r_format prec emax m))) as (d & D & R).
  destruct (minus_runs prec emax a m Fa Fm) as (Fr & Vr).
  { apply Rle_lt_trans with (pw (emax - 1)); [|apply bpow_lt; lia]. apply (rn_bound prec emax); [unfold FmaSpec.emin; lia|]. rewrite room. lra. }
  split; [exact Fr|]. rewrite Vr, RM, R. pose proof (bound_mul _ _ _ _ D AM) as DM. rewrite Rmult_plus_distr_l in DM. replace (u * (B2R b * 2)) with (2 * (u * B2R b)) in DM by ring. replace (u * (3 * (u * Rabs (B2R a)))) with (3 * (u * (u * Rabs (B2R a)))) in DM by ring.
  assert (EE : e = 4 * (u * Rabs (B2R a)) + 4 * (u * B2R b)) by (unfold e; ring). rewrite EE. apply Rabs_le_inv in EM. apply Rabs_le_inv in DM.
  replace ((B2R a + - B2R m) * (1 + d)) with (B2R a - B2R m + d * (B2R a - B2R m)) by ring. split.
  - exists (- n)%Z. rewrite opp_IZR. apply Rabs_le. lra.
  - lra.
Qed.
(** A multiple of the modulus is its own multiple. *)
Lemma rne_integer n : (Z.abs n <= 2 ^ prec)%Z -> RNE (IZR n) = IZR n.
Proof.
  intros N. apply (rn_id emin' prec). apply generic_format_abs_inv. rewrite <- abs_IZR. destruct (Z.eq_dec (Z.abs n) (2 ^ prec)) as [E|E].
  - rewrite E. replace (IZR (2 ^ prec)) with (pw prec) by (symmetry; apply (IZR_Zpower radix2); lia). apply pw_format; [exact Hp|]. unfold FmaSpec.emin. lia.
  - apply generic_format_FLT. exists (Float radix2 (Z.abs n) 0); [unfold F2R; cbn; ring|cbn; change (Z.pow_pos 2) with (Z.pow_pos radix2); rewrite Z.abs_involutive; change (Zpower radix2 prec) with (2 ^ prec)%Z; lia|cbn; unfold FmaSpec.emin; lia].
Qed.
Lemma snap_multiple (a b : float) n : moderate a -> modulus b -> (Z.abs n <= 2 ^ prec)%Z -> B2R a = IZR n * B2R b ->
  is_finite (fl_snap a b) = true /\ B2R (fl_snap a b) = B2R a.
Proof.
  intros (Fa & Ba) ((Fb & Bb) & Lb) N E. assert (B0 : 0 < B2R b) by (eapply Rlt_le_trans; [|exact Lb]; apply bpow_gt_0).
  assert (Q : B2R a / B2R b = IZR n) by (rewrite E; field; lra).
  destruct (div_runs prec emax a b Fa ltac:(lra)) as (Fq & Vq).
  { rewrite Q, rne_integer by exact N. rewrite <- abs_IZR. apply Rle_lt_trans with (pw prec); [|now apply bpow_lt]. rewrite <- (IZR_Zpower radix2) by lia. apply IZR_le. exact N. }
  rewrite Q, rne_integer in Vq by exact N. destruct (Bnearbyint_correct prec emax He mode_UP (fl_div prec emax a b)) as (V & Fc & _). rewrite Fq in Fc. rewrite Vq, to_integer in V. cbn [round_mode] in V. rewrite Zceil_IZR in V.
  unfold fl_snap, fl_ceil_div. assert (P : B2R b * IZR n = B2R a) by (rewrite E; ring). destruct (mult_runs prec emax b _ Fb Fc) as (F & W).
  { rewrite V, P, (rne_exact prec emax a). eapply Rle_lt_trans; [exact Ba|apply bpow_lt; lia]. }
  split; [exact F|]. rewrite W, V, P. apply rne_exact.
Qed.
(** *** Angles *)
Lemma sub_near (x y : float) X : is_finite x = true -> is_finite y = true -> Rabs (B2R x - B2R y) <= X -> X <= pw (emax - 1) ->
  is_finite (fl_sub prec emax x y) = true /\ Rabs (B2R (fl_sub prec emax x y) - (B2R x - B2R y)) <= u * X.
Proof.
  intros Fx Fy B T. destruct (minus_runs prec emax x y Fx Fy) as (F & V).
  { apply Rle_lt_trans with (pw (emax - 1)); [|apply bpow_lt; lia]. apply (rn_bound prec emax); [unfold FmaSpec.emin; lia|lra]. }
  split; [exact F|]. rewrite V. destruct (sum_rounding prec emax P8 (B2R x) (- B2R y) (b2r_format prec emax x) (generic_format_opp _ _ _ (b2r_format prec emax y))) as (d & D & R).
  change (B2R x - B2R y) with (B2R x + - B2R y) in *. rewrite R. replace ((B2R x + - B2R y) * (1 + d) - (B2R x + - B2R y)) with (d * (B2R x + - B2R y)) by ring. now apply bound_mul.
Qed.
Lemma add_near (x y : float) X : is_finite x = true -> is_finite y = true -> Rabs (B2R x + B2R y) <= X -> X <= pw (emax - 1) ->
  is_finite (fl_add prec emax x y) = true /\ Rabs (B2R (fl_add prec emax x y) - (B2R x + B2R y)) <= u * X.
Proof.
  intros Fx Fy B T. destruct (plus_runs prec emax x y Fx Fy) as (F & V).
  { apply Rle_lt_trans with (pw (emax - 1)); [|apply bpow_lt; lia]. apply (rn_bound prec emax); [unfold FmaSpec.emin; lia|lra]. }
  split; [exact F|]. rewrite V. destruct (sum_rounding prec emax P8 (B2R x) (B2R y) (b2r_format prec emax x) (b2r_format prec emax y)) as (d & D & R).
  rewrite R. replace ((B2R x + B2R y) * (1 + d) - (B2R x + B2R y)) with (d * (B2R x + B2R y)) by ring. now apply bound_mul.
Qed.
Lemma smaller (x y : float) : is_finite x = true -> is_finite y = true -> let z := if fl_ltb prec emax (Babs x) (Babs y) then x else y in
  (z = x \/ z = y) /\ Rabs (B2R z) <= Rabs (B2R x) /\ Rabs (B2R z) <= Rabs (B2R y).
Proof.
  intros Fx Fy z. unfold z, fl_ltb. rewrite Bltb_correct by (rewrite is_finite_Babs; assumption). rewrite !B2R_Babs. destruct (Rlt_bool_spec (Rabs (B2R x)) (Rabs (B2R y))); (split; [auto|lra]).
Qed.
Lemma angle_runs (turn r0 r1 : float) : modulus turn -> 1 <= B2R turn -> moderate r0 -> moderate r1 ->
  let e := 16 * u * (Rabs (B2R r0) + Rabs (B2R r1) + B2R turn) in
  is_finite (fl_angle_to turn r0 r1) = true /\ congruent_within (B2R turn) e (B2R (fl_angle_to turn r0 r1)) (B2R r1 - B2R r0) /\ Rabs (B2R (fl_angle_to turn r0 r1)) <= B2R turn / 2 + e.
Proof.
  intros MT T1 M0 M1 e. assert (RT : forall r : float, moderate r -> Rabs (B2R r / B2R turn) <= pw (emax - 6)).
  { intros r (_ & B). eapply Rle_trans; [|exact B]. unfold Rdiv. rewrite Rabs_mult, Rabs_inv, (Rabs_pos_eq (B2R turn)) by lra. rewrite <- (Rmult_1_r (Rabs (B2R r))) at 2. apply Rmult_le_compat_l; [apply Rabs_pos|]. rewrite <- Rinv_1. apply Rinv_le_contravar; lra. }
  destruct (mod_runs r0 turn M0 MT (RT r0 M0)) as (F0 & (k0 & C0) & G0). destruct (mod_runs r1 turn M1 MT (RT r1 M1)) as (F1 & (k1 & C1) & G1). destruct M0 as (_ & B0), M1 as (_ & B1), MT as ((FT & BT) & _).
  rewrite Rabs_pos_eq in BT by lra. unfold fl_angle_to. cbv zeta. set (a0 := fl_positive_mod r0 turn) in *. set (a1 := fl_positive_mod r1 turn) in *. set (T := B2R turn) in *.
  set (R0 := Rabs (B2R r0)) in *. set (R1 := Rabs (B2R r1)) in *. assert (P0 : 0 <= R0) by apply Rabs_pos. assert (P1 : 0 <= R1) by apply Rabs_pos.
  set (E0 := 4 * u * (R0 + T)) in *. set (E1 := 4 * u * (R1 + T)) in *. pose proof (u_times prec P8 (R0 + T) ltac:(lra)) as U0. pose proof (u_times prec P8 (R1 + T) ltac:(lra)) as U1. pose proof (u_times prec P8 T ltac:(lra)) as UT.
  pose proof (u_times prec P8 R0 P0) as UR0. pose proof (u_times prec P8 R1 P1) as UR1.
  assert (E0P : 0 <= E0 <= / 64 * (R0 + T)) by (unfold E0; rewrite Rmult_assoc; lra). assert (E1P : 0 <= E1 <= / 64 * (R1 + T)) by (unfold E1; rewrite Rmult_assoc; lra).
  set (E := E0 + E1). assert (EP : 0 <= E) by (unfold E; lra). pose proof (u_times prec P8 E EP) as UE. pose proof room as RM. pose proof (bpow_gt_0 radix2 (emax - 6)) as TP.
  assert (EB : E <= / 64 * (R0 + R1 + 2 * T)) by (unfold E; lra).
  set (D := B2R a1 - B2R a0). assert (DB : Rabs D <= T + E) by (unfold D, E; apply Rabs_le; lra).
  destruct (sub_near a1 a0 (T + E) F1 F0 DB ltac:(lra)) as (Fa & Ea). fold D in Ea.
  destruct (add_near a0 turn (2 * T + E) F0 FT) as (Fs & Es); [fold T; apply Rabs_le; unfold E; lra|lra|].
  destruct (sub_near a0 turn (T + E) F0 FT) as (Ft & Et); [fold T; apply Rabs_le; unfold E; lra|lra|]. fold T in Es, Et.
  set (s := fl_add prec emax a0 turn) in *. set (t := fl_sub prec emax a0 turn) in *. rewrite Rmult_plus_distr_l in Ea, Es, Et. replace (u * (2 * T)) with (2 * (u * T)) in Es by ring.
  destruct (sub_near a1 s (3 * T + 2 * E) F1 Fs) as (Fb & Eb); [apply Rabs_le; apply Rabs_le_inv in Es, DB; unfold D in DB; lra|lra|].
  destruct (sub_near a1 t (3 * T + 2 * E) F1 Ft) as (Fc & Ec); [apply Rabs_le; apply Rabs_le_inv in Et, DB; unfold D in DB; lra|lra|].
  set (da := fl_sub prec emax a1 a0) in *. set (db := fl_sub prec emax a1 s) in *. set (dc := fl_sub prec emax a1 t) in *.
  rewrite Rmult_plus_distr_l in Eb, Ec. replace (u * (3 * T)) with (3 * (u * T)) in Eb, Ec by ring. replace (u * (2 * E)) with (2 * (u * E)) in Eb, Ec by ring.
  set (w := 5 * (u * T) + 3 * (u * E)). assert (XA : Rabs (B2R da - (D + IZR 0 * T)) <= w) by (unfold w; apply Rabs_le_inv in Ea; apply Rabs_le; lra).
  assert (XB : Rabs (B2R db - (D + IZR (-1) * T)) <= w) by (unfold w; apply Rabs_le_inv in Eb, Es; unfold D; apply Rabs_le; lra).
  assert (XC : Rabs (B2R dc - (D + IZR 1 * T)) <= w) by (unfold w; apply Rabs_le_inv in Ec, Et; unfold D; apply Rabs_le; lra).
  assert (WE : E + w <= e). { unfold w, e. replace (16 * u * (R0 + R1 + T)) with (16 * (u * R0) + 16 * (u * R1) + 16 * (u * T)) by ring. unfold E, E0, E1 in *.
    replace (4 * u * (R0 + T)) with (4 * (u * R0) + 4 * (u * T)) in * by ring. replace (4 * u * (R1 + T)) with (4 * (u * R1) + 4 * (u * T)) in * by ring. lra. }
  destruct (smaller da db Fa Fb) as (S1 & L1 & L2). set (er := if fl_ltb prec emax (Babs da) (Babs db) then da else db) in *. assert (Fe : is_finite er = true) by (destruct S1 as [-> | ->]; assumption).
  destruct (smaller er dc Fe Fc) as (S2 & L3 & L4). set (z := if fl_ltb prec emax (Babs er) (Babs dc) then er else dc) in *.
  assert (Z : exists j, is_finite z = true /\ Rabs (B2R z - (D + IZR j * T)) <= w). { destruct S2 as [-> | ->]; [destruct S1 as [-> | ->]|]; eauto. }
  destruct Z as (j & Fz & XZ). split; [exact Fz|]. split.
  - exists (k1 - k0 + j)%Z. rewrite plus_IZR, minus_IZR. apply Rabs_le_inv in XZ, C0, C1. apply Rabs_le. unfold D, E in *. lra.
  - assert (G : Rabs (B2R z) <= T / 2 + E + w).
    { apply Rabs_le_inv in XA, XB, XC, DB. assert (LA : Rabs (B2R z) <= Rabs (B2R da)) by lra. assert (LB : Rabs (B2R z) <= Rabs (B2R db)) by lra. clear - XA XB XC DB LA LB L4 EP T1.
      destruct (Rle_lt_dec D (- (T / 2))) as [Q|Q]; [apply Rle_trans with (1 := L4); apply Rabs_le; lra|]. destruct (Rle_lt_dec D (T / 2)); [apply Rle_trans with (1 := LA)|apply Rle_trans with (1 := LB)]; apply Rabs_le; lra. }
    lra.
Qed.
End More.

(** ** Doubles *)
Lemma less (x y : binary_float 53 1024) : is_finite x && is_finite y && Bltb x y = true -> is_finite x = true /\ is_finite y = true /\ B2R x < B2R y.
Proof.
  intros H. apply andb_prop in H. destruct H as (H & L). apply andb_prop in H. destruct H as (Fx & Fy). split; [exact Fx|]. split; [exact Fy|]. rewrite Bltb_correct in L by assumption.
  destruct (Rlt_bool_spec (B2R x) (B2R y)); [assumption|discriminate].
Qed.
Lemma dbl_zero : B2R (dbl 0 0) = 0. Proof. apply (dbl_int 0). lia. Qed.
Lemma dbl_one : B2R (dbl 1 0) = 1. Proof. apply (dbl_int 1). lia. Qed.
Ltac by_calculation := apply less; vm_compute; reflexivity.
Lemma mix_same : exists t a : binary_float 53 1024, is_finite t = true /\ is_finite a = true /\ 0 <= B2R t <= 1 /\ is_finite (fl_mix t a a) = true /\ B2R a < B2R (fl_mix t a a).
Proof.
  exists (dbl 4594716283252244 (-56)), (dbl 8852111126566804 (-52)). destruct (less (dbl 0 0) (dbl 4594716283252244 (-56))) as (_ & F1 & L1); [vm_compute; reflexivity|]. destruct (less (dbl 4594716283252244 (-56)) (dbl 1 0)) as (_ & _ & L2); [vm_compute; reflexivity|].
  destruct (less (dbl 8852111126566804 (-52)) (fl_mix (dbl 4594716283252244 (-56)) (dbl 8852111126566804 (-52)) (dbl 8852111126566804 (-52)))) as (F2 & F3 & L3); [vm_compute; reflexivity|].
  rewrite dbl_zero in L1. rewrite dbl_one in L2. repeat split; try assumption; lra.
Qed.
Lemma mix_decreases : exists t t' a b : binary_float 53 1024, is_finite t = true /\ is_finite t' = true /\ is_finite a = true /\ is_finite b = true /\
  0 <= B2R t /\ B2R t < B2R t' /\ B2R t' <= 1 /\ B2R a < B2R b /\ is_finite (fl_mix t a b) = true /\ is_finite (fl_mix t' a b) = true /\ B2R (fl_mix t' a b) < B2R (fl_mix t a b).
Proof.
  set (t := dbl 7375172042553392 (-53)). set (t' := dbl 7375172042553393 (-53)). set (a := dbl 5385695078978880 (-52)). set (b := dbl 5646300605602974 (-52)). exists t, t', a, b.
  destruct (less (dbl 0 0) t) as (_ & _ & L1); [vm_compute; reflexivity|]. destruct (less t t') as (F1 & F2 & L2); [vm_compute; reflexivity|]. destruct (less t' (dbl 1 0)) as (_ & _ & L3); [vm_compute; reflexivity|].
  destruct (less a b) as (F3 & F4 & L4); [vm_compute; reflexivity|]. destruct (less (fl_mix t' a b) (fl_mix t a b)) as (F5 & F6 & L5); [vm_compute; reflexivity|]. rewrite dbl_zero in L1. rewrite dbl_one in L3. repeat split; try assumption; lra.
Qed.
Lemma snap_below : exists a b : binary_float 53 1024, is_finite a = true /\ is_finite b = true /\ 0 < B2R b /\ is_finite (fl_snap a b) = true /\ B2R (fl_snap a b) < B2R a.
Proof.
  set (a := dbl 8055434579935428 (-47)). set (b := dbl 7811330501755566 (-53)). exists a, b. destruct (less (dbl 0 0) b) as (_ & F1 & L1); [vm_compute; reflexivity|].
  destruct (less (fl_snap a b) a) as (F2 & F3 & L3); [vm_compute; reflexivity|]. rewrite dbl_zero in L1. repeat split; assumption.
Qed.
Lemma snap_above : exists a b : binary_float 53 1024, is_finite a = true /\ is_finite b = true /\ 0 < B2R b /\ is_finite (fl_snap a b) = true /\ B2R a + B2R b < B2R (fl_snap a b).
Proof.
  set (a := dbl 4622165630756459 (-49)). set (b := dbl 6573746674853630 (-55)). exists a, b. destruct (less (dbl 0 0) b) as (_ & F1 & L1); [vm_compute; reflexivity|]. rewrite dbl_zero in L1.
  destruct (dbl_runs 4622165630756459 (-49) ltac:(lia) ltac:(lia)) as (FA & VA). destruct (dbl_runs 6573746674853630 (-55) ltac:(lia) ltac:(lia)) as (FB & VB). fold a in FA, VA. fold b in FB, VB.
  assert (VR : B2R (fl_snap a b) = IZR 4724880422551047 * bpow radix2 (-49)) by (apply (dbl_value _ false); vm_compute; reflexivity).
  split; [exact FA|]. split; [exact FB|]. split; [exact L1|]. split; [vm_compute; reflexivity|]. rewrite VA, VB, VR.
  replace (bpow radix2 (-49)) with (IZR 64 * bpow radix2 (-55)) by (change (IZR 64) with (bpow radix2 6); rewrite <- bpow_plus; reflexivity).
  rewrite <- !Rmult_assoc, <- Rmult_plus_distr_r, <- !mult_IZR, <- plus_IZR. apply Rmult_lt_compat_r; [apply bpow_gt_0|]. apply IZR_lt. reflexivity.
Qed.
Lemma angle_far : exists r0 r1 : binary_float 53 1024, is_finite r0 = true /\ is_finite r1 = true /\ is_finite (fl_angle_to dbl_turn r0 r1) = true /\ B2R dbl_turn < B2R (fl_angle_to dbl_turn r0 r1).
Proof.
  exists (dbl 0 0), (dbl 7222176374313239 4). split; [vm_compute; reflexivity|]. split; [vm_compute; reflexivity|]. destruct (less dbl_turn (fl_angle_to dbl_turn (dbl 0 0) (dbl 7222176374313239 4))) as (_ & F & L); [vm_compute; reflexivity|]. split; assumption.
Qed.
Lemma vclamp_nan : exists v lo hi : nat -> binary_float 53 1024, is_finite (lo 0%nat) = true /\ is_finite (hi 0%nat) = true /\ B2R (lo 0%nat) <= B2R (hi 0%nat) /\ is_finite (fl_vclamp v lo hi 0%nat) = false.
Proof.
  exists (fun _ => B754_nan), (fun _ => dbl 0 0), (fun _ => dbl 1 0). split; [vm_compute; reflexivity|]. split; [vm_compute; reflexivity|]. split; [rewrite dbl_zero, dbl_one; lra|vm_compute; reflexivity].
Qed.
(** Examples *)
Lemma dbl_moderate m e : (Z.abs m < 2 ^ 53)%Z -> (-1074 <= e <= 900)%Z -> moderate (dbl m e).
Proof.
  intros M E. destruct (dbl_runs m e M E) as (F & V). split; [exact F|]. rewrite V, Rabs_mult, (Rabs_pos_eq (bpow radix2 e)), <- abs_IZR by apply bpow_ge_0.
  apply Rle_trans with (IZR (2 ^ 53) * bpow radix2 e); [apply Rmult_le_compat_r; [apply bpow_ge_0|apply IZR_le; lia]|]. change (2 ^ 53)%Z with (Zpower radix2 53). rewrite IZR_Zpower, <- bpow_plus by lia. apply bpow_le. lia.
Qed.
Lemma turn_between : 6 < B2R dbl_turn < 7.
Proof.
  destruct (less (dbl 6 0) dbl_turn) as (_ & _ & L1); [vm_compute; reflexivity|]. destruct (less dbl_turn (dbl 7 0)) as (_ & _ & L2); [vm_compute; reflexivity|].
  destruct (dbl_int 6 ltac:(lia)) as (_ & V6). destruct (dbl_int 7 ltac:(lia)) as (_ & V7). rewrite V6 in L1. rewrite V7 in L2. split; assumption.
Qed.
Lemma turn_modulus : modulus dbl_turn.
Proof.
  split; [apply (dbl_moderate 7074237752028440 (-50)); lia|]. unfold least_normal. pose proof turn_between. apply Rle_trans with 1; [|lra]. change 1 with (bpow radix2 0). apply bpow_le. unfold FmaSpec.emin. lia.
Qed.
Lemma one_ge_least : least_normal 53 1024 <= 1. Proof. change 1 with (bpow radix2 0). apply bpow_le. unfold FmaSpec.emin. lia. Qed.
Lemma example_angle : modulus dbl_turn /\ 1 <= B2R dbl_turn /\ moderate (dbl 100 0) /\ moderate (dbl (-3) 0) /\ Rabs (B2R (dbl 100 0) / B2R dbl_turn) <= bpow radix2 (1024 - 6).
Proof.
  pose proof turn_between as T. split; [exact turn_modulus|]. split; [lra|]. split; [apply dbl_moderate; lia|]. split; [apply dbl_moderate; lia|]. destruct (dbl_int 100 ltac:(lia)) as (_ & ->).
  apply Rle_trans with (bpow radix2 7); [|apply bpow_le; lia]. change (bpow radix2 7) with 128. assert (I : 0 < / B2R dbl_turn <= 1) by (split; [apply Rinv_0_lt_compat; lra|rewrite <- Rinv_1; apply Rinv_le_contravar; lra]). unfold Rdiv. apply Rabs_le. lra.
Qed.
Lemma example_multiple : moderate (dbl 12 0) /\ modulus (dbl 3 0) /\ B2R (dbl 12 0) = IZR 4 * B2R (dbl 3 0).
Proof.
  split; [apply dbl_moderate; lia|]. destruct (dbl_int 3 ltac:(lia)) as (_ & V3). destruct (dbl_int 12 ltac:(lia)) as (_ & V12). split; [|rewrite V3, V12; lra]. split; [apply dbl_moderate; lia|]. rewrite V3. pose proof one_ge_least. lra.
Qed.
Lemma example_interp : let s := fun i : nat => match i with O => dbl 1 (-2) | _ => dbl 3 (-2) end in let p := fun c : nat => dbl (Z.of_nat c - 2) 0 in
  (forall i, (i < 2)%nat -> is_finite (s i) = true /\ 0 <= B2R (s i) <= 1) /\ (forall c, (c < 4)%nat -> is_finite (p c) = true /\ Rabs (B2R (p c)) <= 2).
Proof.
  intros s p. split.
  - intros i I. destruct (dbl_runs 1 (-2) ltac:(lia) ltac:(lia)) as (F1 & V1). destruct (dbl_runs 3 (-2) ltac:(lia) ltac:(lia)) as (F3 & V3). change (bpow radix2 (-2)) with (/ 4) in *. unfold s. destruct i; [rewrite V1|rewrite V3]; (split; [assumption|lra]).
  - intros c C. unfold p. destruct (dbl_int (Z.of_nat c - 2) ltac:(lia)) as (F & V). split; [exact F|]. rewrite V, <- abs_IZR. apply IZR_le. lia.
Qed.
