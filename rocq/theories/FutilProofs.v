From Coq Require Import Reals ZArith Lia Lra Bool.
From Flocq Require Import Core Relative Plus_error Mult_error Operations BinarySingleNaN.
From Verif Require Import FmaModel FmaSpec FmaProofs FquadModel FquadProofs FquadMore FvecModel FvecSpec FvecProofs FvecMore RealUtilSpec RealUtilProofs FutilModel FutilSpec.
Open Scope R_scope.

Lemma bound_mul d x u X : Rabs d <= u -> Rabs x <= X -> Rabs (d * x) <= u * X.
Proof. intros D E. rewrite Rabs_mult. apply Rmult_le_compat; try apply Rabs_pos; assumption. Qed.
Lemma bound_add x y X Y : Rabs x <= X -> Rabs y <= Y -> Rabs (x + y) <= X + Y.
Proof. intros. eapply Rle_trans; [apply Rabs_triang|lra]. Qed.
Lemma bound_sub x y X Y : Rabs x <= X -> Rabs y <= Y -> Rabs (x - y) <= X + Y.
Proof. intros. apply bound_add; [assumption|now rewrite Rabs_Ropp]. Qed.

Section Clamp.
Variable prec emax : Z.
Notation float := (binary_float prec emax).
Lemma clamp_ok (v lo hi : float) : is_finite lo = true -> is_finite hi = true -> B2R lo <= B2R hi ->
  is_finite (fl_clamp v lo hi) = true /\ B2R lo <= B2R (fl_clamp v lo hi) <= B2R hi /\
  (is_nan v = true -> B2R (fl_clamp v lo hi) = B2R hi) /\ (is_finite v = true -> B2R (fl_clamp v lo hi) = Rmax (B2R lo) (Rmin (B2R hi) (B2R v))) /\
  (forall s, v = B754_infinity s -> B2R (fl_clamp v lo hi) = if s then B2R lo else B2R hi).
Proof.
  intros Fl Fh L. assert (MH : fl_max prec emax lo hi = hi \/ (fl_max prec emax lo hi = lo /\ B2R hi <= B2R lo)).
  { unfold fl_max, fl_ltb. rewrite Bltb_correct by assumption. destruct (Rlt_bool_spec (B2R lo) (B2R hi)); [now left|right; split; [reflexivity|assumption]]. }
  assert (VH : B2R (fl_max prec emax lo hi) = B2R hi /\ is_finite (fl_max prec emax lo hi) = true) by (destruct MH as [->|(-> & ?)]; split; auto; lra). destruct VH as (VH & FH).
  unfold fl_clamp. destruct v as [s|s| |s m e Hb] eqn:E.
  2: { unfold fl_min. destruct (finite_ltb_inf prec emax hi s Fh) as (-> & _). destruct s.
       - assert (X : fl_max prec emax lo (B754_infinity true) = lo) by (unfold fl_max; destruct (finite_ltb_inf prec emax lo true Fl) as (_ & ->); reflexivity).
         rewrite X. repeat split; try assumption; try lra; try discriminate. intros s Hs. now injection Hs as <-.
       - rewrite VH. repeat split; try assumption; try lra; try discriminate. intros s Hs. now injection Hs as <-. }
  2: { assert (X : fl_min prec emax hi B754_nan = hi) by (unfold fl_min; destruct hi; reflexivity). rewrite X, VH. repeat split; try assumption; try lra; discriminate. }
  all: rewrite <- E; assert (Fv : is_finite v = true) by (rewrite E; reflexivity); assert (Nv : is_nan v = false) by (rewrite E; reflexivity);
    assert (Iv : forall s, v <> B754_infinity s) by (rewrite E; discriminate); clear E;
    assert (Q : is_finite (fl_min prec emax hi v) = true /\ B2R (fl_min prec emax hi v) = Rmin (B2R hi) (B2R v)) by
      (unfold fl_min, fl_ltb; rewrite Bltb_correct by assumption; unfold Rmin; destruct (Rlt_bool_spec (B2R v) (B2R hi)), Rle_dec; split; auto; lra);
    destruct Q as (Fq & Vq); set (q := fl_min prec emax hi v) in *;
    assert (W : is_finite (fl_max prec emax lo q) = true /\ B2R (fl_max prec emax lo q) = Rmax (B2R lo) (B2R q)) by
      (unfold fl_max, fl_ltb; rewrite Bltb_correct by assumption; unfold Rmax; destruct (Rlt_bool_spec (B2R lo) (B2R q)), Rle_dec; split; auto; lra);
    destruct W as (Fw & Vw); rewrite Vw, Vq; split; [exact Fw|]; split; [unfold Rmax, Rmin; repeat destruct Rle_dec; lra|]; split; [congruence|]; split; [reflexivity|intros s0 H0; now elim (Iv s0)].
Qed.
Lemma vclamp_ok (v lo hi : nat -> float) i : is_finite (lo i) = true -> is_finite (hi i) = true -> B2R (lo i) <= B2R (hi i) ->
  (is_nan (v i) = false -> is_finite (fl_vclamp v lo hi i) = true /\ B2R (lo i) <= B2R (fl_vclamp v lo hi i) <= B2R (hi i)) /\
  (is_finite (v i) = true -> B2R (fl_vclamp v lo hi i) = Rmin (Rmax (B2R (v i)) (B2R (lo i))) (B2R (hi i))) /\
  (forall s, v i = B754_infinity s -> B2R (fl_vclamp v lo hi i) = if s then B2R (lo i) else B2R (hi i)) /\
  (is_nan (v i) = true -> is_nan (fl_vclamp v lo hi i) = true).
Proof.
  unfold fl_vclamp. generalize (v i) (lo i) (hi i). clear v lo hi i. intros v lo hi Fl Fh L.
  destruct v as [s|s| |s m e Hb] eqn:E.
  2: { unfold fl_max. destruct (finite_ltb_inf prec emax lo s Fl) as (-> & _). unfold fl_min. destruct s.
       - unfold fl_ltb. rewrite Bltb_correct by assumption. assert (Rlt_bool (B2R hi) (B2R lo) = false) as -> by (apply Rlt_bool_false; lra).
         repeat split; try assumption; try lra; try discriminate. intros s Hs. now injection Hs as <-.
       - destruct (finite_ltb_inf prec emax hi false Fh) as (_ & ->). cbn [negb]. repeat split; try assumption; try lra; try discriminate. intros s Hs. now injection Hs as <-. }
  2: { assert (X : fl_max prec emax B754_nan lo = B754_nan) by reflexivity. assert (Y : fl_min prec emax B754_nan hi = B754_nan) by (unfold fl_min; destruct hi; reflexivity).
       rewrite X, Y. split; [discriminate|]. split; [discriminate|]. split; [discriminate|reflexivity]. }
  all: rewrite <- E; assert (Fv : is_finite v = true) by (rewrite E; reflexivity); assert (Nv : is_nan v = false) by (rewrite E; reflexivity);
    assert (Iv : forall s, v <> B754_infinity s) by (rewrite E; discriminate); clear E;
    assert (Q : is_finite (fl_max prec emax v lo) = true /\ B2R (fl_max prec emax v lo) = Rmax (B2R v) (B2R lo)) by
      (unfold fl_max, fl_ltb; rewrite Bltb_correct by assumption; unfold Rmax; destruct (Rlt_bool_spec (B2R v) (B2R lo)), Rle_dec; split; auto; lra);
    destruct Q as (Fq & Vq); set (q := fl_max prec emax v lo) in *;
    assert (W : is_finite (fl_min prec emax q hi) = true /\ B2R (fl_min prec emax q hi) = Rmin (B2R q) (B2R hi)) by
      (unfold fl_min, fl_ltb; rewrite Bltb_correct by assumption; unfold Rmin; destruct (Rlt_bool_spec (B2R hi) (B2R q)), Rle_dec; split; auto; lra);
    destruct W as (Fw & Vw); rewrite Vw, Vq; split; [intros _; split; [exact Fw|unfold Rmax, Rmin; repeat destruct Rle_dec; lra]|]; split; [reflexivity|]; split; [intros s0 H0; now elim (Iv s0)|congruence].
Qed.
End Clamp.

Section Mix.
Variable prec emax : Z.
Context {Hp : Prec_gt_0 prec} {He : Prec_lt_emax prec emax}.
Notation float := (binary_float prec emax).
Notation pw := (bpow radix2).
Notation emin' := (FmaSpec.emin prec emax).
Notation fexp' := (FLT_exp emin' prec).
Notation RNE := (rn fexp' (fun t => negb (Z.even t))).
Notation FT := (generic_format radix2 fexp').
Notation u := (pw (- prec)).
Notation h := (pw (emin' - 1)).
Notation low := (pw (emin' + prec - 1)).
Hypotheses (P8 : (8 <= prec)%Z) (E8 : (8 <= emax)%Z).
Let US : 0 < u <= / 256 := u_small prec P8.
Lemma h_is : h = u * low. Proof. rewrite <- bpow_plus. f_equal. lia. Qed.
Lemma h_pos : 0 < h. Proof. apply bpow_gt_0. Qed.
Lemma u_times x : 0 <= x -> 0 <= u * x <= / 256 * x.
Proof. intros X. split; [apply Rmult_le_pos; lra|apply Rmult_le_compat_r; lra]. Qed.
(** One minus the parameter. *)
Lemma rest_runs (t : float) : is_finite t = true -> 0 <= B2R t <= 1 -> let r := fl_sub prec emax (fl_one prec emax) t in
  is_finite r = true /\ 0 <= B2R r <= 1 /\ exists e, Rabs e <= u /\ B2R r = (1 - B2R t) * (1 + e).
Proof.
  intros Ft T r. assert (F1 : is_finite (fl_one prec emax) = true) by (apply is_finite_Bone). assert (V1 : B2R (fl_one prec emax) = 1) by apply Bone_correct.
  assert (R0 : 0 <= RNE (1 - B2R t)) by (rewrite <- (rn_zero emin' prec (fun t => negb (Z.even t))); apply (rn_le emin' prec); lra).
  assert (R1 : RNE (1 - B2R t) <= 1) by (rewrite <- (rne_1 prec emax) at 2; apply (rn_le emin' prec); lra).
  destruct (minus_runs prec emax (fl_one prec emax) t F1 Ft) as (Fr & Vr).
  { rewrite V1. eapply Rle_lt_trans; [|apply (one_small prec emax)]. rewrite Rabs_R1. apply Rabs_le. lra. }
  unfold r. rewrite Vr, V1. split; [exact Fr|]. split; [lra|].
  apply (sum_rounding prec emax P8 1 (- B2R t)); [rewrite <- V1; apply b2r_format|apply generic_format_opp, b2r_format].
Qed.
Lemma mix_core M p a t b e0 dw ew d1 e1 d3 e3 d2 : 0 <= t <= 1 -> 0 <= p <= 1 -> Rabs a <= M -> Rabs b <= M -> Rabs e0 <= u -> p = (1 - t) * (1 + e0) ->
  Rabs dw <= u -> Rabs ew <= h -> Rabs d1 <= u -> Rabs e1 <= h -> Rabs d3 <= u -> Rabs e3 <= h -> Rabs d2 <= u ->
  let w := t * b * (1 + dw) + ew in let x := (p * a + w) * (1 + d1) + e1 in let err := (t * b + - w) * (1 + d3) + e3 in
  Rabs ((x + err) * (1 + d2) - ((1 - t) * a + t * b)) <= 4 * u * M + 4 * h.
Proof.
  intros T P A B E0 PE DW EW D1 E1 D3 E3 D2 w x err. pose proof h_pos as HP. assert (M0 : 0 <= M) by (eapply Rle_trans; [apply Rabs_pos|exact A]).
  pose proof (u_times M M0) as UM. pose proof (u_times (u * M) (proj1 UM)) as UUM. pose proof (u_times h ltac:(lra)) as UH. pose proof (u_times (u * h) (proj1 UH)) as UUH.
  pose proof (u_times (u * (u * M)) (proj1 UUM)) as UUUM.
  assert (tb : Rabs (t * b) <= 1 * M) by (apply bound_mul; [apply Rabs_le; lra|exact B]).
  assert (qa : Rabs ((1 - t) * a) <= 1 * M) by (apply bound_mul; [apply Rabs_le; lra|exact A]).
  assert (PT : Rabs p <= 1) by (apply Rabs_le; lra).
  assert (Y0 : Rabs (e0 * ((1 - t) * a)) <= u * (1 * M)) by (now apply bound_mul).
  assert (W1 : Rabs (t * b - w) <= u * (1 * M) + h).
  { replace (t * b - w) with (- (dw * (t * b)) - ew) by (unfold w; ring). apply bound_sub; [rewrite Rabs_Ropp; now apply bound_mul|exact EW]. }
  assert (X0 : Rabs ((1 - t) * a + t * b) <= M).
  { eapply Rle_trans; [apply Rabs_triang|]. rewrite !Rabs_mult, (Rabs_pos_eq t), (Rabs_pos_eq (1 - t)) by lra.
    assert ((1 - t) * Rabs a <= (1 - t) * M) by (apply Rmult_le_compat_l; lra). assert (t * Rabs b <= t * M) by (apply Rmult_le_compat_l; lra). lra. }
  set (X := (1 - t) * a + t * b) in *.
  assert (W2 : Rabs (p * a + w) <= M + u * (1 * M) + (u * (1 * M) + h)).
  { replace (p * a + w) with (X + e0 * ((1 - t) * a) - (t * b - w)) by (unfold X; rewrite PE; ring). apply bound_sub; [|exact W1]. now apply bound_add. }
  pose proof (bound_mul _ _ _ _ D1 W2) as Z1. pose proof (bound_mul _ _ _ _ D3 W1) as Z3.
  set (s := x + err). assert (S : s = X + e0 * ((1 - t) * a) + d1 * (p * a + w) + e1 + d3 * (t * b - w) + e3) by (unfold s, x, err, X; rewrite PE; ring).
  assert (SX : Rabs (s - X) <= u * (1 * M) + u * (M + u * (1 * M) + (u * (1 * M) + h)) + h + u * (u * (1 * M) + h) + h).
  { replace (s - X) with (e0 * ((1 - t) * a) + d1 * (p * a + w) + e1 + d3 * (t * b - w) + e3) by (rewrite S; ring). repeat apply bound_add; assumption. }
  assert (SB : Rabs s <= M + (u * (1 * M) + u * (M + u * (1 * M) + (u * (1 * M) + h)) + h + u * (u * (1 * M) + h) + h)).
  { replace s with (X + (s - X)) by ring. now apply bound_add. }
  pose proof (bound_mul _ _ _ _ D2 SB) as Z2. replace (s * (1 + d2) - X) with ((s - X) + d2 * s) by ring. eapply Rle_trans; [apply bound_add; [exact SX|exact Z2]|].
  rewrite !Rmult_1_l. rewrite ?Rmult_plus_distr_l. lra.
Qed.
Lemma mix_accurate (t a b : float) M : is_finite t = true -> is_finite a = true -> is_finite b = true -> 0 <= B2R t <= 1 -> Rabs (B2R a) <= M -> Rabs (B2R b) <= M -> M <= pw (emax - 3) ->
  is_finite (fl_mix t a b) = true /\ Rabs (B2R (fl_mix t a b) - ((1 - B2R t) * B2R a + B2R t * B2R b)) <= 4 * u * (M + low).
Proof.
  intros Ft Fa Fb T A B MB. destruct (rest_runs t Ft T) as (Fr & R01 & e0 & E0 & VR). unfold fl_mix. set (r := fl_sub prec emax (fl_one prec emax) t) in *.
  assert (F : is_finite (fl_sum_of_products r a t b) = true).
  { apply (diff_finite prec emax r a t b); try assumption; try lia; (eapply Rle_trans; [|exact MB]; rewrite <- (Rmult_1_l M); apply bound_mul; [apply Rabs_le; lra|assumption]). }
  split; [exact F|]. unfold fl_sum_of_products in *. cbv zeta in *. destruct (plus_finite prec emax _ _ F) as (F1 & F2 & ->).
  pose proof (b2r_format prec emax (fl_fma prec emax r a (fl_mul prec emax t b))) as G1. pose proof (b2r_format prec emax (fl_fma prec emax t b (fl_neg prec emax (fl_mul prec emax t b)))) as G2.
  destruct (fma_finite prec emax _ _ _ Ft Fb F2) as (_ & V2). destruct (fma_finite prec emax _ _ _ Fr Fa F1) as (F3 & V1). rewrite V1 in G1 |- *. rewrite V2 in G2 |- *. unfold fl_neg in *. rewrite B2R_Bopp in *.
  rewrite (mult_finite prec emax t b Ft Fb F3) in *.
  destruct (sum_rounding prec emax P8 _ _ G1 G2) as (d2 & D2 & ->).
  destruct (rn_model prec emax (B2R t * B2R b)) as (dw & ew & DW & EW & W). rewrite W in *.
  destruct (rn_model prec emax (B2R r * B2R a + (B2R t * B2R b * (1 + dw) + ew))) as (d1 & e1 & D1 & E1 & ->).
  destruct (rn_model prec emax (B2R t * B2R b + - (B2R t * B2R b * (1 + dw) + ew))) as (d3 & e3 & D3 & E3 & ->).
  replace (4 * u * (M + low)) with (4 * u * M + 4 * h) by (rewrite h_is; ring). now apply mix_core with (e0 := e0).
Qed.
End Mix.
