From Coq Require Import Reals ZArith Lia Lra Bool Machin Ratan.
From Flocq Require Import Core Relative Plus_error Mult_error Operations BinarySingleNaN.
From Verif Require Import FmaModel FmaSpec FmaProofs FquadModel FquadProofs FquadMore FvecModel FvecSpec FvecProofs FvecMore RealUtilModel RealUtilSpec RealUtilProofs FutilModel FutilSpec FutilProofs FutilMore
  FconvModel FconvSpec.
Open Scope R_scope.

Section Cubic.
Variable prec emax : Z.
Context {Hp : Prec_gt_0 prec} {He : Prec_lt_emax prec emax}.
Hypotheses (P8 : (8 <= prec)%Z) (E8 : (8 <= emax)%Z).
Notation float := (binary_float prec emax).
Notation pw := (bpow radix2).
Notation emin' := (FmaSpec.emin prec emax).
Notation fexp' := (FLT_exp emin' prec).
Notation RNE := (rn fexp' (fun t => negb (Z.even t))).
Notation FT := (generic_format radix2 fexp').
Notation u := (pw (- prec)).
Notation h := (pw (emin' - 1)).
Notation low := (least_normal prec emax).

Lemma u_small : 0 < u <= / 256.
Proof. split; [apply bpow_gt_0|]. change (/ 256) with (pw (-8)). apply bpow_le. lia. Qed.
Lemma h_low : h = u * low. Proof. unfold least_normal. rewrite <- bpow_plus. f_equal. lia. Qed.
Lemma low_pos : 0 < low. Proof. apply bpow_gt_0. Qed.

Section Near.
Variable B : R.
Hypotheses (BL : low <= B) (BM : B <= pw (emax - 6)).
Notation t := (u * B).
Lemma t_pos : 0 < t. Proof. pose proof u_small. pose proof low_pos. apply Rmult_lt_0_compat; lra. Qed.
Lemma t_small : t <= B / 256.
Proof. pose proof u_small. pose proof low_pos. replace (B / 256) with (/ 256 * B) by field. apply Rmult_le_compat_r; lra. Qed.
Lemma h_small : h <= t. Proof. rewrite h_low. apply Rmult_le_compat_l; [pose proof u_small; lra|exact BL]. Qed.
Lemma in_range x : Rabs x <= 32 * B -> Rabs (RNE x) < pw emax.
Proof.
  intros H. apply Rle_lt_trans with (pw (emax - 1)); [|apply bpow_lt; lia]. apply (rn_bound prec emax); [unfold FmaSpec.emin; lia|].
  eapply Rle_trans; [exact H|]. replace (emax - 1)%Z with (5 + (emax - 6))%Z by lia. rewrite bpow_plus. change (pw 5) with 32. lra.
Qed.
(** [a] stands for [x]: it differs by E roundings of numbers of size B, and x is at most X times B. *)
Definition near (a : float) (x X E : R) : Prop := is_finite a = true /\ Rabs (B2R a - x) <= E * t /\ Rabs x <= X * B /\ 0 <= E.
Lemma near_size a x X E : near a x X E -> Rabs (B2R a) <= (X + E / 256) * B.
Proof.
  intros (_ & D & S & P). pose proof t_small. assert (E * t <= E * (B / 256)) by (apply Rmult_le_compat_l; lra).
  replace (B2R a) with ((B2R a - x) + x) by ring. eapply Rle_trans; [apply Rabs_triang|]. lra.
Qed.
Lemma near_exact (a : float) X : is_finite a = true -> Rabs (B2R a) <= X * B -> near a (B2R a) X 0.
Proof. intros F S. split; [exact F|]. split; [|split; [exact S|lra]]. replace (B2R a - B2R a) with 0 by ring. rewrite Rabs_R0. lra. Qed.
Lemma near_weak a x x' X X' E E' D : near a x X E -> Rabs (x - x') <= D * t -> Rabs x' <= X' * B -> E + D <= E' -> near a x' X' E'.
Proof.
  intros (F & A & S & P) D' S' L. pose proof t_pos. assert (0 <= D). { apply Rnot_lt_le; intros N. pose proof (Rabs_pos (x - x')). assert (0 < - D * t) by (apply Rmult_lt_0_compat; lra). lra. }
  split; [exact F|]. split; [|split; [exact S'|lra]]. replace (B2R a - x') with ((B2R a - x) + (x - x')) by ring. eapply Rle_trans; [apply Rabs_triang|].
  assert ((E + D) * t <= E' * t) by (apply Rmult_le_compat_r; lra). lra.
Qed.
Lemma round_err z z' d e Z : Rabs d <= u -> Rabs e <= h -> Rabs z <= Z * B -> Rabs (z * (1 + d) + e - z') <= Rabs (z - z') + Z * t + t.
Proof.
  intros D E S. pose proof h_small. pose proof (bound_mul d z u (Z * B) D S). replace (z * (1 + d) + e - z') with ((z - z') + (d * z + e)) by ring.
  eapply Rle_trans; [apply Rabs_triang|]. pose proof (Rabs_triang (d * z) e). replace (Z * t) with (u * (Z * B)) by ring. lra.
Qed.
Lemma add_gen (a b r : float) x y X Y E E' F (sg : R) : (sg = 1 \/ sg = -1) -> near a x X E -> near b y Y E' -> X + Y + (E + E') / 256 <= 32 -> E + E' + X + Y + (E + E') / 256 <= F ->
  (Rabs (RNE (B2R a + sg * B2R b)) < pw emax -> is_finite r = true /\ B2R r = RNE (B2R a + sg * B2R b)) -> near r (x + sg * y) (X + Y) F.
Proof.
  intros SG NA NB L LF RUN. pose proof (near_size _ _ _ _ NA) as SA. pose proof (near_size _ _ _ _ NB) as SB. destruct NA as (FA & DA & XA & PA), NB as (FB & DB & YB & PB).
  assert (ASG : forall v, Rabs (sg * v) = Rabs v). { intros v. destruct SG as [-> | ->]; [now rewrite Rmult_1_l|]. replace (-1 * v) with (- v) by ring. apply Rabs_Ropp. }
  assert (SZ : Rabs (B2R a + sg * B2R b) <= (X + Y + (E + E') / 256) * B). { eapply Rle_trans; [apply Rabs_triang|]. rewrite ASG. lra. }
  pose proof low_pos. pose proof t_pos.
  destruct RUN as (FR & VR). { apply in_range. eapply Rle_trans; [exact SZ|]. apply Rmult_le_compat_r; lra. }
  split; [exact FR|]. split; [|split].
  - assert (FB' : FT (sg * B2R b)). { destruct SG as [-> | ->]; [rewrite Rmult_1_l; apply (b2r_format prec emax)|]. replace (-1 * B2R b) with (- B2R b) by ring. apply generic_format_opp, (b2r_format prec emax). }
    destruct (sum_rounding prec emax P8 (B2R a) (sg * B2R b) (b2r_format prec emax a) FB') as (e & Ee & RE). rewrite VR, RE.
    replace ((B2R a + sg * B2R b) * (1 + e) - (x + sg * y)) with (((B2R a - x) + sg * (B2R b - y)) + e * (B2R a + sg * B2R b)) by ring.
    pose proof (bound_mul e _ u _ Ee SZ). eapply Rle_trans; [apply Rabs_triang|]. pose proof (Rabs_triang (B2R a - x) (sg * (B2R b - y))) as T. rewrite ASG in T.
    assert ((E + E' + X + Y + (E + E') / 256) * t <= F * t) by (apply Rmult_le_compat_r; lra).
    replace (u * ((X + Y + (E + E') / 256) * B)) with ((X + Y + (E + E') / 256) * t) in * by ring. lra.
  - eapply Rle_trans; [apply Rabs_triang|]. rewrite ASG. lra.
  - assert (0 <= X). { apply Rnot_lt_le; intros N. pose proof (Rabs_pos x). assert (0 < - X * B) by (apply Rmult_lt_0_compat; lra). lra. }
    assert (0 <= Y). { apply Rnot_lt_le; intros N. pose proof (Rabs_pos y). assert (0 < - Y * B) by (apply Rmult_lt_0_compat; lra). lra. } lra.
Qed.
Lemma add_near (a b : float) x y X Y E E' F : near a x X E -> near b y Y E' -> X + Y + (E + E') / 256 <= 32 -> E + E' + X + Y + (E + E') / 256 <= F ->
  near (fl_add prec emax a b) (x + y) (X + Y) F.
Proof.
  intros NA NB L LF. replace (x + y) with (x + 1 * y) by ring. apply (add_gen a b _ x y X Y E E' F 1); auto. rewrite Rmult_1_l. intros R. apply plus_runs; [exact (proj1 NA)|exact (proj1 NB)|exact R].
Qed.
Lemma sub_near (a b : float) x y X Y E E' F : near a x X E -> near b y Y E' -> X + Y + (E + E') / 256 <= 32 -> E + E' + X + Y + (E + E') / 256 <= F ->
  near (fl_sub prec emax a b) (x - y) (X + Y) F.
Proof.
  intros NA NB L LF. replace (x - y) with (x + -1 * y) by ring. apply (add_gen a b _ x y X Y E E' F (-1)); auto.
  replace (B2R a + -1 * B2R b) with (B2R a - B2R b) by ring. intros R. apply minus_runs; [exact (proj1 NA)|exact (proj1 NB)|exact R].
Qed.
Lemma mul_near (k a : float) c x X E F : is_finite k = true -> Rabs (B2R k) <= c -> near a x X E -> c * (X + E / 256) <= 32 -> c * E + c * (X + E / 256) + 1 <= F ->
  near (fl_mul prec emax k a) (B2R k * x) (c * X) F.
Proof.
  intros FK C NA L LF. pose proof (near_size _ _ _ _ NA) as SA. destruct NA as (FA & DA & XA & PA). pose proof low_pos. pose proof t_pos.
  assert (SZ : Rabs (B2R k * B2R a) <= (c * (X + E / 256)) * B). { eapply Rle_trans; [apply (bound_mul _ _ _ _ C SA)|]. lra. }
  destruct (mult_runs prec emax k a FK FA) as (FR & VR). { apply in_range. eapply Rle_trans; [exact SZ|]. apply Rmult_le_compat_r; lra. }
  assert (C0 : 0 <= c) by (pose proof (Rabs_pos (B2R k)); lra).
  assert (X0 : 0 <= X). { apply Rnot_lt_le; intros N. pose proof (Rabs_pos x). assert (0 < - X * B) by (apply Rmult_lt_0_compat; lra). lra. }
  split; [exact FR|]. split; [|split].
  - destruct (rn_model prec emax (B2R k * B2R a)) as (d & e & D & Ee & RE). rewrite VR, RE.
    eapply Rle_trans; [apply (round_err _ _ _ _ _ D Ee SZ)|]. replace (B2R k * B2R a - B2R k * x) with (B2R k * (B2R a - x)) by ring. pose proof (bound_mul _ _ _ _ C DA).
    assert ((c * E + c * (X + E / 256) + 1) * t <= F * t) by (apply Rmult_le_compat_r; lra). lra.
  - eapply Rle_trans; [apply (bound_mul _ _ _ _ C XA)|]. lra.
  - assert (0 <= c * E) by (apply Rmult_le_pos; lra). assert (0 <= c * (X + E / 256)) by (apply Rmult_le_pos; lra). lra.
Qed.
End Near.

Lemma small_lit m : (1 <= m <= 5)%Z -> is_finite (fl_lit prec emax m 0) = true /\ B2R (fl_lit prec emax m 0) = IZR m.
Proof.
  intros M. destruct (lit_runs prec emax m 0) as (F & V).
  - apply generic_format_FLT. exists (Defs.Float radix2 m 0); [unfold F2R; cbn; ring| |cbn; unfold FmaSpec.emin; lia].
    cbn. apply Z.lt_le_trans with (2 ^ 8)%Z; [lia|]. apply Z.pow_le_mono_r; lia.
  - change (pw 0) with 1. rewrite Rmult_1_r, Rabs_pos_eq by (apply IZR_le; lia). apply Rlt_le_trans with (pw 8); [change (pw 8) with 256; apply IZR_lt; lia|apply bpow_le; lia].
  - split; [exact F|]. rewrite V. change (pw 0) with 1. ring.
Qed.
Lemma half_lit : is_finite (fl_lit prec emax 1 (-1)) = true /\ B2R (fl_lit prec emax 1 (-1)) = / 2.
Proof.
  destruct (lit_runs prec emax 1 (-1)) as (F & V).
  - rewrite Rmult_1_l. apply generic_format_bpow. unfold FLT_exp, FmaSpec.emin. lia.
  - rewrite Rmult_1_l, Rabs_pos_eq by apply bpow_ge_0. apply bpow_lt. lia.
  - split; [exact F|]. rewrite V. change (pw (-1)) with (/ 2). ring.
Qed.
Lemma h_u : h <= u. Proof. apply bpow_le. unfold FmaSpec.emin. lia. Qed.
Lemma half_s (s : float) : is_finite s = true -> 0 <= B2R s <= 1 ->
  is_finite (fl_mul prec emax (fl_lit prec emax 1 (-1)) s) = true /\ Rabs (B2R (fl_mul prec emax (fl_lit prec emax 1 (-1)) s) - B2R s / 2) <= 2 * u.
Proof.
  intros F S. destruct half_lit as (FH & VH). pose proof u_small. pose proof h_u.
  assert (V : Rabs (/ 2 * B2R s) <= 1 / 2) by (rewrite Rabs_pos_eq; lra).
  destruct (mult_runs prec emax _ s FH F) as (FR & VR).
  { rewrite VH. apply Rle_lt_trans with (pw 0); [apply (rn_bound prec emax); [unfold FmaSpec.emin; lia|change (pw 0) with 1; lra]|apply bpow_lt; lia]. }
  split; [exact FR|]. rewrite VR, VH. destruct (rn_model prec emax (/ 2 * B2R s)) as (d & e & D & E & ->). pose proof (bound_mul _ _ _ _ D V).
  replace (/ 2 * B2R s * (1 + d) + e - B2R s / 2) with (d * (/ 2 * B2R s) + e) by field. eapply Rle_trans; [apply Rabs_triang|]. lra.
Qed.
(** Cubic interpolation of reals does not leave 5/4 of the range. *)
Lemma cubic_size s p0 p1 p2 p3 X : 0 <= s <= 1 -> Rabs p0 <= X -> Rabs p1 <= X -> Rabs p2 <= X -> Rabs p3 <= X -> Rabs (interp_cubic1 s p0 p1 p2 p3) <= 5 / 4 * X.
Proof.
  intros S A0 A1 A2 A3. assert (X0 : 0 <= X) by (pose proof (Rabs_pos p0); lra).
  set (w0 := s * ((1 - s) * (1 - s)) / 2). set (w3 := s * s * (1 - s) / 2). set (w1 := 1 + s * s * (3 * s - 5) / 2). set (w2 := s * (1 + 4 * s - 3 * (s * s)) / 2).
  assert (W0 : 0 <= w0). { unfold w0. assert (0 <= s * ((1 - s) * (1 - s))) by (repeat apply Rmult_le_pos; lra). lra. }
  assert (W3 : 0 <= w3). { unfold w3. assert (0 <= s * s * (1 - s)) by (repeat apply Rmult_le_pos; lra). lra. }
  assert (SS : s * s <= s) by (apply Rle_trans with (s * 1); [apply Rmult_le_compat_l; lra|lra]).
  assert (W1 : 0 <= w1). { replace w1 with ((1 - s) * (1 + s - 3 / 2 * (s * s))) by (unfold w1; field). apply Rmult_le_pos; lra. }
  assert (W2 : 0 <= w2). { unfold w2. assert (0 <= s * (1 + 4 * s - 3 * (s * s))) by (apply Rmult_le_pos; lra). lra. }
  assert (SUM : w0 + w1 + w2 + w3 = 1 + s * (1 - s)) by (unfold w0, w1, w2, w3; field).
  assert (Q : s * (1 - s) <= 1 / 4). { assert (0 <= (s - 1 / 2) * (s - 1 / 2)) by apply Rle_0_sqr. lra. }
  replace (interp_cubic1 s p0 p1 p2 p3) with ((- w0 * p0 + w1 * p1) + (w2 * p2 + - w3 * p3)) by (unfold interp_cubic1, w0, w1, w2, w3; field).
  assert (B0 : Rabs (- w0 * p0) <= w0 * X) by (apply bound_mul; [rewrite Rabs_Ropp, Rabs_pos_eq; lra|exact A0]).
  assert (B1 : Rabs (w1 * p1) <= w1 * X) by (apply bound_mul; [rewrite Rabs_pos_eq; lra|exact A1]).
  assert (B2 : Rabs (w2 * p2) <= w2 * X) by (apply bound_mul; [rewrite Rabs_pos_eq; lra|exact A2]).
  assert (B3 : Rabs (- w3 * p3) <= w3 * X) by (apply bound_mul; [rewrite Rabs_Ropp, Rabs_pos_eq; lra|exact A3]).
  pose proof (bound_add _ _ _ _ (bound_add _ _ _ _ B0 B1) (bound_add _ _ _ _ B2 B3)) as T.
  eapply Rle_trans; [exact T|]. replace (w0 * X + w1 * X + (w2 * X + w3 * X)) with ((w0 + w1 + w2 + w3) * X) by ring. rewrite SUM. apply Rmult_le_compat_r; lra.
Qed.

Lemma inner_near B (s p0 p1 p2 p3 : float) : low <= B -> B <= pw (emax - 6) -> is_finite s = true -> 0 <= B2R s <= 1 ->
  is_finite p0 = true -> is_finite p1 = true -> is_finite p2 = true -> is_finite p3 = true ->
  Rabs (B2R p0) <= B -> Rabs (B2R p1) <= B -> Rabs (B2R p2) <= B -> Rabs (B2R p3) <= B ->
  near B (fl_add prec emax (fl_sub prec emax p2 p0) (fl_mul prec emax s (fl_add prec emax (fl_sub prec emax (fl_add prec emax (fl_sub prec emax (fl_mul prec emax (fl_lit prec emax 2 0) p0) (fl_mul prec emax (fl_lit prec emax 5 0) p1)) (fl_mul prec emax (fl_lit prec emax 4 0) p2)) p3)
    (fl_mul prec emax s (fl_sub prec emax (fl_add prec emax (fl_mul prec emax (fl_lit prec emax 3 0) (fl_sub prec emax p1 p2)) p3) p0)))))
    (B2R p2 - B2R p0 + B2R s * (2 * B2R p0 - 5 * B2R p1 + 4 * B2R p2 - B2R p3 + B2R s * (3 * (B2R p1 - B2R p2) + B2R p3 - B2R p0))) 22 156.
Proof.
  intros BL BM Fs S F0 F1 F2 F3 A0 A1 A2 A3.
  assert (S1 : Rabs (B2R s) <= 1) by (rewrite Rabs_pos_eq; lra).
  assert (N0 : near B p0 (B2R p0) 1 0) by (apply near_exact; [assumption|lra]).
  assert (N1 : near B p1 (B2R p1) 1 0) by (apply near_exact; [assumption|lra]).
  assert (N2 : near B p2 (B2R p2) 1 0) by (apply near_exact; [assumption|lra]).
  assert (N3 : near B p3 (B2R p3) 1 0) by (apply near_exact; [assumption|lra]).
  destruct (small_lit 2 ltac:(lia)) as (L2 & V2). destruct (small_lit 3 ltac:(lia)) as (L3 & V3). destruct (small_lit 4 ltac:(lia)) as (L4 & V4). destruct (small_lit 5 ltac:(lia)) as (L5 & V5).
  assert (LB : forall m x, (1 <= m <= 5)%Z -> x = IZR m -> Rabs x <= IZR m) by (intros m x M ->; rewrite Rabs_pos_eq; [lra|apply IZR_le; lia]).
  pose proof (sub_near B BL BM _ _ _ _ _ _ _ _ 2 N2 N0 ltac:(lra) ltac:(lra)) as Q1.
  pose proof (mul_near B BL BM _ _ 2 _ _ _ 3 L2 (LB 2%Z _ ltac:(lia) V2) N0 ltac:(lra) ltac:(lra)) as Qa.
  pose proof (mul_near B BL BM _ _ 5 _ _ _ 6 L5 (LB 5%Z _ ltac:(lia) V5) N1 ltac:(lra) ltac:(lra)) as Qb.
  pose proof (sub_near B BL BM _ _ _ _ _ _ _ _ 17 Qa Qb ltac:(lra) ltac:(lra)) as Qc.
  pose proof (mul_near B BL BM _ _ 4 _ _ _ 5 L4 (LB 4%Z _ ltac:(lia) V4) N2 ltac:(lra) ltac:(lra)) as Qd.
  pose proof (add_near B BL BM _ _ _ _ _ _ _ _ 34 Qc Qd ltac:(lra) ltac:(lra)) as Qe.
  pose proof (sub_near B BL BM _ _ _ _ _ _ _ _ 47 Qe N3 ltac:(lra) ltac:(lra)) as Qf.
  pose proof (sub_near B BL BM _ _ _ _ _ _ _ _ 2 N1 N2 ltac:(lra) ltac:(lra)) as Qg.
  pose proof (mul_near B BL BM _ _ 3 _ _ _ 14 L3 (LB 3%Z _ ltac:(lia) V3) Qg ltac:(lra) ltac:(lra)) as Qh.
  pose proof (add_near B BL BM _ _ _ _ _ _ _ _ 22 Qh N3 ltac:(lra) ltac:(lra)) as Qi.
  pose proof (sub_near B BL BM _ _ _ _ _ _ _ _ 31 Qi N0 ltac:(lra) ltac:(lra)) as Qj.
  pose proof (mul_near B BL BM s _ 1 _ _ _ 41 Fs S1 Qj ltac:(lra) ltac:(lra)) as Qk.
  pose proof (add_near B BL BM _ _ _ _ _ _ _ _ 109 Qf Qk ltac:(lra) ltac:(lra)) as Ql.
  pose proof (mul_near B BL BM s _ 1 _ _ _ 131 Fs S1 Ql ltac:(lra) ltac:(lra)) as Qm.
  pose proof (add_near B BL BM _ _ _ _ _ _ _ _ 156 Q1 Qm ltac:(lra) ltac:(lra)) as Qn.
  rewrite V2, V3, V4, V5 in Qn. eapply (near_weak B BL); [exact Qn| | |].
  - instantiate (1 := 0). rewrite Rminus_eq_0, Rabs_R0. lra.
  - eapply Rle_trans; [exact (proj1 (proj2 (proj2 Qn)))|]. right. ring.
  - lra.
Qed.
Lemma cubic1_near B (s p0 p1 p2 p3 : float) : low <= B -> B <= pw (emax - 6) -> is_finite s = true -> 0 <= B2R s <= 1 ->
  is_finite p0 = true -> is_finite p1 = true -> is_finite p2 = true -> is_finite p3 = true ->
  Rabs (B2R p0) <= B -> Rabs (B2R p1) <= B -> Rabs (B2R p2) <= B -> Rabs (B2R p3) <= B ->
  is_finite (fl_cubic1 s p0 p1 p2 p3) = true /\
  Rabs (B2R (fl_cubic1 s p0 p1 p2 p3) - interp_cubic1 (B2R s) (B2R p0) (B2R p1) (B2R p2) (B2R p3)) <= 150 * (u * B).
Proof.
  intros BL BM Fs S F0 F1 F2 F3 A0 A1 A2 A3. pose proof (inner_near B s p0 p1 p2 p3 BL BM Fs S F0 F1 F2 F3 A0 A1 A2 A3) as Qn.
  assert (N1 : near B p1 (B2R p1) 1 0) by (apply near_exact; [assumption|lra]).
  destruct (half_s s Fs S) as (FH & DH). pose proof u_small as US. set (k := fl_mul prec emax (fl_lit prec emax 1 (-1)) s) in *.
  assert (KB : Rabs (B2R k) <= 1 / 2 + 2 / 256). { replace (B2R k) with ((B2R k - B2R s / 2) + B2R s / 2) by ring. eapply Rle_trans; [apply Rabs_triang|]. rewrite (Rabs_pos_eq (B2R s / 2)) by lra. lra. }
  pose proof (mul_near B BL BM k _ _ _ _ _ 93 FH KB Qn ltac:(lra) ltac:(lra)) as Qo.
  match type of Qo with near _ _ (_ * ?w) _ _ => set (W := w) in Qo end.
  assert (WB : Rabs W <= 22 * B). { pose proof (proj1 (proj2 (proj2 Qn))) as Y. fold W in Y. eapply Rle_trans; [exact Y|]. right. ring. }
  assert (Qp : near B (fl_mul prec emax k (fl_add prec emax (fl_sub prec emax p2 p0) (fl_mul prec emax s (fl_add prec emax (fl_sub prec emax (fl_add prec emax (fl_sub prec emax (fl_mul prec emax (fl_lit prec emax 2 0) p0) (fl_mul prec emax (fl_lit prec emax 5 0) p1)) (fl_mul prec emax (fl_lit prec emax 4 0) p2)) p3)
        (fl_mul prec emax s (fl_sub prec emax (fl_add prec emax (fl_mul prec emax (fl_lit prec emax 3 0) (fl_sub prec emax p1 p2)) p3) p0)))))) (B2R s / 2 * W) 11 137).
  { eapply (near_weak B BL); [exact Qo| | |].
    - replace (B2R k * W - B2R s / 2 * W) with ((B2R k - B2R s / 2) * W) by ring. eapply Rle_trans; [apply (bound_mul _ _ _ _ DH WB)|]. instantiate (1 := 44). right. ring.
    - eapply Rle_trans; [apply (bound_mul (B2R s / 2) W (1 / 2) (22 * B)); [rewrite Rabs_pos_eq; lra|exact WB]|]. right. field.
    - lra. }
  pose proof (add_near B BL BM _ _ _ _ _ _ _ _ 150 N1 Qp ltac:(lra) ltac:(lra)) as (FF & DD & _).
  split; [exact FF|]. eapply Rle_trans; [|exact DD]. right. f_equal. f_equal. unfold interp_cubic1, W. field.
Qed.

Lemma fl_cubic_SS d s p : fl_interp_cubic (S (S d)) s p =
  fl_cubic1 (s (S d)) (fl_interp_cubic (S d) s p) (fl_interp_cubic (S d) s (fun i => p (2 ^ (2 * S d) + i)%nat))
    (fl_interp_cubic (S d) s (fun i => p (2 * 2 ^ (2 * S d) + i)%nat)) (fl_interp_cubic (S d) s (fun i => p (3 * 2 ^ (2 * S d) + i)%nat)).
Proof. reflexivity. Qed.
Notation q := (cubic_growth prec).
Lemma q_ge : 5 / 4 <= q. Proof. unfold cubic_growth, unit_roundoff. pose proof u_small. lra. Qed.
Lemma q_pow_ge d : (5 / 4) ^ d <= q ^ d. Proof. apply pow_incr. pose proof q_ge. lra. Qed.
Lemma q_pow_1 d : 1 <= q ^ d. Proof. apply pow_R1_Rle. pose proof q_ge. lra. Qed.
Lemma interp_size d (s p : nat -> R) M : (forall i, (i < S d)%nat -> 0 <= s i <= 1) -> (forall c, (c < 4 ^ S d)%nat -> Rabs (p c) <= M) -> Rabs (interp_cubic (S d) s p) <= (5 / 4) ^ S d * M.
Proof.
  revert p. induction d as [|d IH]; intros p HS HP.
  - cbn [interp_cubic]. eapply Rle_trans; [apply (cubic_size _ _ _ _ _ M); [apply HS; lia|apply HP; cbn; lia..]|]. right. ring.
  - rewrite interp_cubic_SS. eapply Rle_trans; [apply (cubic_size _ _ _ _ _ ((5 / 4) ^ S d * M))|right; cbn [pow]; ring].
    + apply HS. lia.
    + apply IH; intros; [apply HS; lia|apply HP]. cbn [Nat.pow] in *. lia.
    + apply IH; intros; [apply HS; lia|apply HP]. rewrite pow24. cbn [Nat.pow] in *. lia.
    + apply IH; intros; [apply HS; lia|apply HP]. rewrite pow24. cbn [Nat.pow] in *. lia.
    + apply IH; intros; [apply HS; lia|apply HP]. rewrite pow24. cbn [Nat.pow] in *. lia.
Qed.
Lemma cubic_linear s a0 a1 a2 a3 b0 b1 b2 b3 : interp_cubic1 s a0 a1 a2 a3 - interp_cubic1 s b0 b1 b2 b3 = interp_cubic1 s (a0 - b0) (a1 - b1) (a2 - b2) (a3 - b3).
Proof. unfold interp_cubic1. ring. Qed.
Lemma cubic_accurate d M (s : nat -> float) : (forall i, (i < S d)%nat -> is_finite (s i) = true /\ 0 <= B2R (s i) <= 1) -> q ^ S d * (M + low) <= pw (emax - 6) -> 0 <= M ->
  forall p, (forall c, (c < 4 ^ S d)%nat -> is_finite (p c) = true /\ Rabs (B2R (p c)) <= M) ->
  is_finite (fl_interp_cubic (S d) s p) = true /\
  Rabs (B2R (fl_interp_cubic (S d) s p) - interp_cubic (S d) (fun i => B2R (s i)) (fun c => B2R (p c))) <= (q ^ S d - (5 / 4) ^ S d) * (M + low).
Proof.
  intros HS L M0. pose proof low_pos as LP. pose proof q_ge as Q1. assert (N0 : 0 <= M + low) by lra. induction d as [|d IH]; intros p HP.
  - cbn [fl_interp_cubic interp_cubic].
    assert (L1 : M + low <= pw (emax - 6)). { eapply Rle_trans; [|exact L]. apply Rle_trans with (1 * (M + low)); [lra|]. apply Rmult_le_compat_r; [lra|]. apply q_pow_1. }
    destruct (HP 0%nat ltac:(cbn; lia)) as (F0 & A0). destruct (HP 1%nat ltac:(cbn; lia)) as (F1 & A1). destruct (HP 2%nat ltac:(cbn; lia)) as (F2 & A2). destruct (HP 3%nat ltac:(cbn; lia)) as (F3 & A3).
    destruct (HS 0%nat ltac:(lia)) as (Fs & Ss).
    destruct (cubic1_near (M + low) (s 0%nat) (p 0%nat) (p 1%nat) (p 2%nat) (p 3%nat)) as (F & A); try assumption; try lra.
    split; [exact F|]. eapply Rle_trans; [exact A|]. right. unfold cubic_growth, unit_roundoff. cbn [pow]. ring.
  - set (N := M + low) in *. pose proof (q_pow_ge (S d)) as QP. set (qd := q ^ S d) in *. set (rd := (5 / 4) ^ S d) in *.
    assert (QS : q ^ S (S d) = q * qd) by reflexivity. assert (RS : (5 / 4) ^ S (S d) = 5 / 4 * rd) by reflexivity. rewrite QS, RS in *.
    assert (QD1 : 1 <= qd) by apply q_pow_1.
    assert (L' : qd * N <= pw (emax - 6)). { eapply Rle_trans; [|exact L]. rewrite Rmult_assoc. apply Rle_trans with (1 * (qd * N)); [lra|]. apply Rmult_le_compat_r; [apply Rmult_le_pos; lra|lra]. }
    specialize (IH (fun i I => HS i ltac:(lia)) L').
    assert (R1 : 1 <= rd) by (apply pow_R1_Rle; lra).
    assert (STEP : forall p' : nat -> float, (forall c, (c < 4 ^ S d)%nat -> is_finite (p' c) = true /\ Rabs (B2R (p' c)) <= M) ->
      is_finite (fl_interp_cubic (S d) s p') = true /\ Rabs (B2R (fl_interp_cubic (S d) s p')) <= qd * N /\
      Rabs (B2R (fl_interp_cubic (S d) s p') - interp_cubic (S d) (fun i => B2R (s i)) (fun c => B2R (p' c))) <= (qd - rd) * N).
    { intros p' HP'. destruct (IH p' HP') as (F & A). split; [exact F|]. split; [|exact A].
      pose proof (interp_size d (fun i => B2R (s i)) (fun c => B2R (p' c)) M (fun i I => proj2 (HS i ltac:(lia))) (fun c I => proj2 (HP' c I))) as Z. fold rd in Z.
      set (x := interp_cubic (S d) _ _) in *. set (y := B2R (fl_interp_cubic (S d) s p')) in *. replace y with ((y - x) + x) by ring. eapply Rle_trans; [apply Rabs_triang|].
      assert (rd * M <= rd * N) by (apply Rmult_le_compat_l; [lra|unfold N; lra]). lra. }
    rewrite fl_cubic_SS, interp_cubic_SS.
    destruct (STEP p) as (F0 & B0 & A0). { intros c I. apply HP. cbn [Nat.pow] in *. lia. }
    destruct (STEP (fun i => p (2 ^ (2 * S d) + i)%nat)) as (F1 & B1 & A1). { intros c I. apply HP. rewrite pow24. cbn [Nat.pow] in *. lia. }
    destruct (STEP (fun i => p (2 * 2 ^ (2 * S d) + i)%nat)) as (F2 & B2 & A2). { intros c I. apply HP. rewrite pow24. cbn [Nat.pow] in *. lia. }
    destruct (STEP (fun i => p (3 * 2 ^ (2 * S d) + i)%nat)) as (F3 & B3 & A3). { intros c I. apply HP. rewrite pow24. cbn [Nat.pow] in *. lia. }
    destruct (HS (S d) ltac:(lia)) as (Fs & Ss).
    destruct (cubic1_near (qd * N) (s (S d)) _ _ _ _ ltac:(apply Rle_trans with (1 * N); [unfold N; lra|apply Rmult_le_compat_r; lra]) L' Fs Ss F0 F1 F2 F3 B0 B1 B2 B3) as (F & A).
    split; [exact F|]. pose proof (cubic_size (B2R (s (S d))) _ _ _ _ _ Ss A0 A1 A2 A3) as C. rewrite <- cubic_linear in C.
    match type of A with Rabs (?a - ?b) <= _ => match type of C with Rabs (_ - ?c) <= _ => replace (a - c) with ((a - b) + (b - c)) by ring end end.
    eapply Rle_trans; [apply Rabs_triang|]. unfold cubic_growth, unit_roundoff. lra.
Qed.
(** At the parameter 0. *)
Lemma cubic_at_0 B (s p0 p1 p2 p3 : float) : low <= B -> B <= pw (emax - 6) -> is_finite s = true -> B2R s = 0 ->
  is_finite p0 = true -> is_finite p1 = true -> is_finite p2 = true -> is_finite p3 = true ->
  Rabs (B2R p0) <= B -> Rabs (B2R p1) <= B -> Rabs (B2R p2) <= B -> Rabs (B2R p3) <= B ->
  is_finite (fl_cubic1 s p0 p1 p2 p3) = true /\ B2R (fl_cubic1 s p0 p1 p2 p3) = B2R p1.
Proof.
  intros BL BM Fs S F0 F1 F2 F3 A0 A1 A2 A3. destruct (inner_near B s p0 p1 p2 p3 BL BM Fs ltac:(lra) F0 F1 F2 F3 A0 A1 A2 A3) as (FW & _ & _).
  assert (Z : forall x y : float, is_finite x = true -> is_finite y = true -> B2R x * B2R y = 0 -> is_finite (fl_mul prec emax x y) = true /\ B2R (fl_mul prec emax x y) = 0).
  { intros x y Fx Fy E. assert (R0 : RNE (B2R x * B2R y) = 0) by (rewrite E; apply rn_zero). destruct (mult_runs prec emax x y Fx Fy) as (F & V); [rewrite R0, Rabs_R0; apply bpow_gt_0|]. split; [exact F|now rewrite V]. }
  destruct half_lit as (FH & VH). destruct (Z _ s FH Fs) as (FK & VK); [rewrite S; ring|].
  destruct (Z _ _ FK FW) as (FP & VP); [rewrite VK; ring|]. unfold fl_cubic1. cbv zeta. set (w := fl_mul prec emax (fl_mul prec emax _ s) _) in *.
  assert (E : B2R p1 + B2R w = B2R p1) by (rewrite VP; ring).
  destruct (plus_runs prec emax p1 w F1 FP) as (F & V).
  - rewrite E, (rne_exact prec emax). apply abs_B2R_lt_emax.
  - split; [exact F|]. rewrite V, E. apply (rne_exact prec emax).
Qed.
Lemma cubic_at_node d M (s : nat -> float) : (forall i, (i < S d)%nat -> is_finite (s i) = true /\ B2R (s i) = 0) -> M + low <= pw (emax - 6) -> 0 <= M ->
  forall p, (forall c, (c < 4 ^ S d)%nat -> is_finite (p c) = true /\ Rabs (B2R (p c)) <= M) ->
  is_finite (fl_interp_cubic (S d) s p) = true /\ B2R (fl_interp_cubic (S d) s p) = B2R (p (inner_node (S d) 0)).
Proof.
  intros HS L M0. pose proof low_pos as LP. 
  assert (IN : forall d, (inner_node d 0 < 4 ^ d)%nat).
  { clear. induction d as [|d IH]; [cbn; lia|]. cbn [inner_node Nat.pow]. rewrite Nat.bits_0. lia. }
  induction d as [|d IH]; intros p HP.
  - cbn [fl_interp_cubic]. 
    destruct (HP 0%nat ltac:(cbn; lia)) as (F0 & A0). destruct (HP 1%nat ltac:(cbn; lia)) as (F1 & A1). destruct (HP 2%nat ltac:(cbn; lia)) as (F2 & A2). destruct (HP 3%nat ltac:(cbn; lia)) as (F3 & A3).
    destruct (HS 0%nat ltac:(lia)) as (Fs & Ss).
    destruct (cubic_at_0 (M + low) (s 0%nat) (p 0%nat) (p 1%nat) (p 2%nat) (p 3%nat)) as (F & A); try assumption; try lra. split; [exact F|]. rewrite A. reflexivity.
  - specialize (IH (fun i I => HS i ltac:(lia))). rewrite fl_cubic_SS.
    assert (STEP : forall k, (k < 4)%nat -> let p' := fun i => p (k * 4 ^ S d + i)%nat in
      is_finite (fl_interp_cubic (S d) s p') = true /\ Rabs (B2R (fl_interp_cubic (S d) s p')) <= M + low /\ B2R (fl_interp_cubic (S d) s p') = B2R (p (k * 4 ^ S d + inner_node (S d) 0)%nat)).
    { intros k K p'. destruct (IH p') as (F & A).
      - intros c I. apply HP. change (4 ^ S (S d))%nat with (4 * 4 ^ S d)%nat. nia.
      - split; [exact F|]. split; [|exact A]. rewrite A. unfold p'. pose proof (IN (S d)). destruct (HP (k * 4 ^ S d + inner_node (S d) 0)%nat) as (_ & B); [change (4 ^ S (S d))%nat with (4 * 4 ^ S d)%nat; nia|]. lra. }
    destruct (STEP 0%nat ltac:(lia)) as (F0 & A0 & _). destruct (STEP 1%nat ltac:(lia)) as (F1 & A1 & V1). destruct (STEP 2%nat ltac:(lia)) as (F2 & A2 & _). destruct (STEP 3%nat ltac:(lia)) as (F3 & A3 & _).
    destruct (HS (S d) ltac:(lia)) as (Fs & Ss). rewrite Nat.mul_1_l in F1, A1, V1. rewrite pow24.
    destruct (cubic_at_0 (M + low) (s (S d)) _ _ _ _ ltac:(lra) L Fs Ss F0 F1 F2 F3 A0 A1 A2 A3) as (F & A). split; [exact F|].
    etransitivity; [exact A|]. rewrite V1. f_equal. f_equal. change (inner_node (S (S d)) 0) with (inner_node (S d) 0 + (if Nat.testbit 0 (S d) then 2 else 1) * 4 ^ S d)%nat. rewrite Nat.bits_0. lia.
Qed.
End Cubic.

(** pi, by Machin's formula. *)
Lemma machin_term n : tg_alt PI_2_3_7_tg n = (-1) ^ n * (2 * ((/3) ^ (2 * n + 1) / IZR (Z.of_nat (2 * n + 1))) + (/7) ^ (2 * n + 1) / IZR (Z.of_nat (2 * n + 1))).
Proof. unfold tg_alt, PI_2_3_7_tg, Ratan_seq. rewrite INR_IZR_INZ. reflexivity. Qed.
Lemma pi_upper : PI <= 3.14159265358979324.
Proof.
  pose proof (proj2 (PI_2_3_7_ineq 9)) as H. cbn [sum_f_R0 Nat.mul Nat.add] in H. rewrite !machin_term in H. cbn [Nat.mul Nat.add Z.of_nat Pos.of_succ_nat Pos.succ] in H.
  apply (Rmult_le_reg_r (/4)); [lra|]. eapply Rle_trans; [exact H|]. lra.
Qed.
Lemma pi_lower : 3.14159265358979323 <= PI.
Proof.
  pose proof (proj1 (PI_2_3_7_ineq 9)) as H. cbn [sum_f_R0 Nat.mul Nat.add] in H. rewrite !machin_term in H. cbn [Nat.mul Nat.add Z.of_nat Pos.of_succ_nat Pos.succ] in H.
  apply (Rmult_le_reg_r (/4)); [lra|]. eapply Rle_trans; [|exact H]. lra.
Qed.

Section Angles.
Notation double := (binary_float 53 1024).
Let Hp : Prec_gt_0 53 := eq_refl. Let He : Prec_lt_emax 53 1024 := eq_refl.
Local Existing Instance Hp. Local Existing Instance He.
Notation pw := (bpow radix2).
Notation u := (pw (-53)).
Notation emin' := (FmaSpec.emin 53 1024).
Notation RNE := (rn (FLT_exp emin' 53) (fun t => negb (Z.even t))).
Notation P := (B2R m_pi).
Lemma u_val : u = / 9007199254740992. Proof. reflexivity. Qed.
Lemma pi_runs : is_finite m_pi = true /\ P = 7074237752028440 / 2251799813685248.
Proof. destruct (dbl_runs 7074237752028440 (-51) ltac:(lia) ltac:(lia)) as (F & V). split; [exact F|]. exact V. Qed.
Lemma c180 : is_finite (dbl_lit 180 0) = true /\ B2R (dbl_lit 180 0) = 180. Proof. exact (dbl_int 180 ltac:(lia)). Qed.
Lemma pi_close : P <= PI <= P * (1 + 2 / 5 * u).
Proof. rewrite (proj2 pi_runs), u_val. pose proof pi_upper. pose proof pi_lower. split; lra. Qed.
Lemma pi_range : 3 < P < 4. Proof. rewrite (proj2 pi_runs). split; lra. Qed.
(** One rounding of a number clear of underflow. *)
Lemma rounds x : pw (-1020) <= Rabs x -> exists d, Rabs d <= u /\ RNE x = x * (1 + d).
Proof.
  intros H. destruct (relative_error_N_FLT_ex radix2 emin' 53 Hp (fun t => negb (Z.even t)) x) as (d & D & E).
  - eapply Rle_trans; [|exact H]. apply bpow_le. unfold FmaSpec.emin. lia.
  - exists d. split; [|exact E]. eapply Rle_trans; [exact D|]. right. rewrite bpow_plus. change (pw 1) with 2. change (- (53))%Z with (-53)%Z. field.
Qed.
(** x * a / b with both operations rounded. *)
Lemma scale_rounds (x a b : double) : is_finite x = true -> is_finite a = true -> 1 <= B2R a <= 256 -> is_finite b = true -> 1 <= B2R b <= 256 -> pw (-1010) <= Rabs (B2R x) <= pw 1010 ->
  exists d d', Rabs d <= u /\ Rabs d' <= u /\ is_finite (fl_div 53 1024 (fl_mul 53 1024 x a) b) = true /\
    B2R (fl_div 53 1024 (fl_mul 53 1024 x a) b) = B2R x * B2R a / B2R b * (1 + d) * (1 + d').
Proof.
  intros Fx Fa A Fb B X. pose proof u_val as U.
  assert (M : pw (-1010) <= Rabs (B2R x * B2R a) <= pw 1018).
  { rewrite Rabs_mult, (Rabs_pos_eq (B2R a)) by lra. pose proof (Rabs_pos (B2R x)). split.
    - apply Rle_trans with (Rabs (B2R x) * 1); [lra|]. apply Rmult_le_compat_l; lra.
    - change (pw 1018) with (pw (1010 + 8)). rewrite bpow_plus. change (pw 8) with 256. apply Rmult_le_compat; lra. }
  destruct (rounds (B2R x * B2R a)) as (d & D & E). { eapply Rle_trans; [|exact (proj1 M)]. apply bpow_le. lia. }
  destruct (mult_runs 53 1024 x a Fx Fa) as (F1 & V1). { apply Rle_lt_trans with (pw 1018); [apply (rn_bound 53 1024); [unfold FmaSpec.emin; lia|exact (proj2 M)]|apply bpow_lt; lia]. }
  rewrite E in V1. set (y := fl_mul 53 1024 x a) in *. apply Rabs_le_inv in D as D'.
  assert (Q : B2R y / B2R b = B2R x * B2R a / B2R b * (1 + d)) by (rewrite V1; field; lra).
  assert (M2 : pw (-1020) <= Rabs (B2R y / B2R b) <= pw 1019).
  { rewrite V1. unfold Rdiv. rewrite !Rabs_mult, <- Rabs_mult. rewrite (Rabs_pos_eq (1 + d)), (Rabs_pos_eq (/ B2R b)) by (try apply Rlt_le, Rinv_0_lt_compat; lra).
    set (z := Rabs (B2R x * B2R a)) in *. assert (Z0 : 0 <= z) by apply Rabs_pos.
    assert (I : / 256 <= / B2R b <= 1). { split; [apply Rinv_le; lra|]. rewrite <- Rinv_1. apply Rinv_le; lra. }
    split.
    - change (pw (-1020)) with (pw (-1010 + -10)). rewrite bpow_plus. change (pw (-10)) with (/ 1024). apply Rle_trans with (z * (/ 2) * (/ 256)).
      + assert (pw (-1010) * / 1024 <= z * / 1024) by (apply Rmult_le_compat_r; lra). lra.
      + apply Rmult_le_compat; [lra|lra| |lra]. apply Rmult_le_compat_l; lra.
    - change (pw 1019) with (pw (1018 + 1)). rewrite bpow_plus. change (pw 1) with 2. apply Rle_trans with (z * (1 + d) * 1).
      + apply Rmult_le_compat_l; [apply Rmult_le_pos; lra|lra].
      + rewrite Rmult_1_r. apply Rmult_le_compat; lra. }
  destruct (rounds (B2R y / B2R b) (proj1 M2)) as (d' & D2 & E2).
  destruct (div_runs 53 1024 y b F1 ltac:(lra)) as (F2 & V2). { apply Rle_lt_trans with (pw 1019); [apply (rn_bound 53 1024); [unfold FmaSpec.emin; lia|exact (proj2 M2)]|apply bpow_lt; lia]. }
  exists d, d'. rewrite E2, Q in V2. auto.
Qed.
Lemma scale_zero (x a b : double) : is_finite x = true -> is_finite a = true -> B2R x = 0 -> B2R b <> 0 ->
  is_finite (fl_div 53 1024 (fl_mul 53 1024 x a) b) = true /\ B2R (fl_div 53 1024 (fl_mul 53 1024 x a) b) = 0.
Proof.
  intros Fx Fa X B. assert (R0 : RNE (B2R x * B2R a) = 0) by (rewrite X, Rmult_0_l; apply rn_zero).
  destruct (mult_runs 53 1024 x a Fx Fa) as (F1 & V1); [rewrite R0, Rabs_R0; apply bpow_gt_0|]. rewrite R0 in V1.
  set (y := fl_mul 53 1024 x a) in *. assert (R1 : RNE (B2R y / B2R b) = 0) by (unfold Rdiv; rewrite V1, Rmult_0_l; apply rn_zero).
  destruct (div_runs 53 1024 y b F1 B) as (F2 & V2); [rewrite R1, Rabs_R0; apply bpow_gt_0|]. rewrite R1 in V2. split; assumption.
Qed.
Lemma rel_bound r z k d : r = z * (1 + d) -> Rabs d <= k -> Rabs (r - z) <= k * Rabs z.
Proof. intros -> D. replace (z * (1 + d) - z) with (d * z) by ring. apply bound_mul; [exact D|lra]. Qed.
Lemma ordinary_range x : ordinary x -> B2R x <> 0 -> pw (-1010) <= Rabs (B2R x) <= pw 1010.
Proof. intros (_ & [H|H]) N; [contradiction|]. destruct H as (A & B). split; [eapply Rle_trans; [|exact A]|eapply Rle_trans; [exact B|]]; apply bpow_le; lia. Qed.
Lemma prod2 d d' : Rabs d <= u -> Rabs d' <= u -> Rabs ((1 + d) * (1 + d') - 1) <= 2 * u + u * u.
Proof.
  intros D D'. replace ((1 + d) * (1 + d') - 1) with ((d + d') + d * d') by ring. pose proof (bound_add _ _ _ _ (bound_add _ _ _ _ D D') (bound_mul _ _ _ _ D D')). lra.
Qed.
Lemma radians_accurate x : ordinary x -> relatively (5 / 2) (fl_radians x) (in_radians (B2R x)).
Proof.
  intros O. destruct pi_runs as (FP & _). destruct c180 as (FC & VC). pose proof pi_range as PR. pose proof pi_close as PC. pose proof u_val as U. destruct (Req_dec (B2R x) 0) as [Z|N].
  - destruct (scale_zero x m_pi (dbl_lit 180 0) (proj1 O) FP Z) as (F & V); [lra|]. split; [exact F|]. change (B2R (fl_radians x)) with (B2R (fl_div 53 1024 (fl_mul 53 1024 x m_pi) (dbl_lit 180 0))). rewrite V. unfold in_radians. rewrite Z. unfold Rdiv. rewrite !Rmult_0_l, Rminus_0_r, Rabs_R0. lra.
  - destruct (scale_rounds x m_pi (dbl_lit 180 0) (proj1 O) FP ltac:(lra) FC ltac:(lra) (ordinary_range x O N)) as (d & d' & D & D' & F & V).
    split; [exact F|]. change (B2R (fl_radians x)) with (B2R (fl_div 53 1024 (fl_mul 53 1024 x m_pi) (dbl_lit 180 0))). rewrite VC in V. assert (PIP : 0 < PI) by lra.
    set (k := P / PI). assert (K : 1 - 2 / 5 * u <= k <= 1).
    { unfold k. assert (PI * / PI = 1) by (apply Rinv_r; lra). assert (0 < / PI) by (apply Rinv_0_lt_compat; lra). split.
      - apply (Rmult_le_reg_r PI); [lra|]. replace (P / PI * PI) with P by (field; lra). assert ((1 - 2 / 5 * u) * PI <= (1 - 2 / 5 * u) * (P * (1 + 2 / 5 * u))) by (apply Rmult_le_compat_l; lra).
        assert (0 <= P * (2 / 5 * u * (2 / 5 * u))) by (apply Rmult_le_pos; [lra|apply Rmult_le_pos; lra]). lra.
      - apply (Rmult_le_reg_r PI); [lra|]. replace (P / PI * PI) with P by (field; lra). lra. }
    apply (rel_bound _ _ _ (k * ((1 + d) * (1 + d')) - 1)).
    + rewrite V. unfold in_radians, k. field. lra.
    + pose proof (prod2 d d' D D') as W. set (w := (1 + d) * (1 + d') - 1) in *. replace ((1 + d) * (1 + d')) with (1 + w) by (unfold w; ring).
      replace (k * (1 + w) - 1) with ((k - 1) + k * w) by ring.
      assert (K1 : Rabs (k - 1) <= 2 / 5 * u) by (apply Rabs_le; lra). assert (K2 : Rabs k <= 1) by (apply Rabs_le; lra).
      eapply Rle_trans; [apply (bound_add _ _ _ _ K1 (bound_mul _ _ _ _ K2 W))|]. rewrite U. lra.
Qed.
Lemma degrees_accurate x : ordinary x -> relatively (5 / 2) (fl_degrees x) (in_degrees (B2R x)).
Proof.
  intros O. destruct pi_runs as (FP & _). destruct c180 as (FC & VC). pose proof pi_range as PR. pose proof pi_close as PC. pose proof u_val as U. destruct (Req_dec (B2R x) 0) as [Z|N].
  - destruct (scale_zero x (dbl_lit 180 0) m_pi (proj1 O) FC Z) as (F & V); [lra|]. split; [exact F|]. change (B2R (fl_degrees x)) with (B2R (fl_div 53 1024 (fl_mul 53 1024 x (dbl_lit 180 0)) m_pi)). rewrite V. unfold in_degrees. rewrite Z. unfold Rdiv. rewrite !Rmult_0_l, Rminus_0_r, Rabs_R0. lra.
  - destruct (scale_rounds x (dbl_lit 180 0) m_pi (proj1 O) FC ltac:(lra) FP ltac:(lra) (ordinary_range x O N)) as (d & d' & D & D' & F & V).
    split; [exact F|]. change (B2R (fl_degrees x)) with (B2R (fl_div 53 1024 (fl_mul 53 1024 x (dbl_lit 180 0)) m_pi)). rewrite VC in V. assert (PIP : 0 < PI) by lra.
    set (k := PI / P). assert (K : 1 <= k <= 1 + 2 / 5 * u).
    { unfold k. split; apply (Rmult_le_reg_r P); try lra; replace (PI / P * P) with PI by (field; lra); lra. }
    apply (rel_bound _ _ _ (k * ((1 + d) * (1 + d')) - 1)).
    + rewrite V. unfold in_degrees, k. field. lra.
    + pose proof (prod2 d d' D D') as W. set (w := (1 + d) * (1 + d') - 1) in *. replace ((1 + d) * (1 + d')) with (1 + w) by (unfold w; ring).
      replace (k * (1 + w) - 1) with ((k - 1) + k * w) by ring.
      assert (K1 : Rabs (k - 1) <= 2 / 5 * u) by (apply Rabs_le; lra). assert (K2 : Rabs k <= 1 + 2 / 5 * u) by (apply Rabs_le; lra).
      eapply Rle_trans; [apply (bound_add _ _ _ _ K1 (bound_mul _ _ _ _ K2 W))|]. rewrite U. lra.
Qed.
(** There and back again. *)
Lemma scale_ordinary (x a b : double) : is_finite x = true -> is_finite a = true -> 1 <= B2R a <= 256 -> is_finite b = true -> 1 <= B2R b <= 256 -> ordinary x -> B2R x <> 0 -> 
  exists d d', Rabs d <= u /\ Rabs d' <= u /\ is_finite (fl_div 53 1024 (fl_mul 53 1024 (fl_div 53 1024 (fl_mul 53 1024 x a) b) b) a) = true /\
    Rabs (B2R (fl_div 53 1024 (fl_mul 53 1024 (fl_div 53 1024 (fl_mul 53 1024 x a) b) b) a) - B2R x) <= 5 * u * Rabs (B2R x).
Proof.
  intros Fx Fa A Fb B O N. pose proof u_val as U. destruct (scale_rounds x a b Fx Fa A Fb B (ordinary_range x O N)) as (d & d' & D & D' & F & V).
  set (y := fl_div 53 1024 (fl_mul 53 1024 x a) b) in *. pose proof (prod2 d d' D D') as W. set (w := (1 + d) * (1 + d') - 1) in *.
  assert (V' : B2R y = B2R x * B2R a / B2R b * (1 + w)) by (rewrite V; unfold w; ring). apply Rabs_le_inv in W as W'.
  assert (Y : pw (-1010) <= Rabs (B2R y) <= pw 1010).
  { destruct O as (_ & [O|O]); [contradiction|]. rewrite V'. unfold Rdiv. rewrite !Rabs_mult, (Rabs_pos_eq (B2R a)), (Rabs_pos_eq (1 + w)), (Rabs_pos_eq (/ B2R b)) by (try apply Rlt_le, Rinv_0_lt_compat; rewrite ?U in *; lra).
    set (z := Rabs (B2R x)) in *. assert (Z0 : 0 <= z) by apply Rabs_pos.
    assert (I : / 256 <= / B2R b <= 1). { split; [apply Rinv_le; lra|]. rewrite <- Rinv_1. apply Rinv_le; lra. }
    assert (W2 : / 2 <= 1 + w <= 2) by (rewrite U in *; lra).
    split.
    - change (pw (-1010)) with (pw (-1000 + -10)). rewrite bpow_plus. change (pw (-10)) with (/ 1024). apply Rle_trans with (z * 1 * / 256 * / 2).
      + assert (pw (-1000) * / 1024 <= z * / 1024) by (apply Rmult_le_compat_r; lra). lra.
      + apply Rmult_le_compat; [lra|lra| |lra]. apply Rmult_le_compat; [lra|lra| |lra]. apply Rmult_le_compat_l; lra.
    - change (pw 1010) with (pw (1000 + 10)). rewrite bpow_plus. change (pw 10) with 1024. apply Rle_trans with (z * 256 * 1 * 2).
      + assert (0 <= z * B2R a) by (apply Rmult_le_pos; lra). apply Rmult_le_compat; [apply Rmult_le_pos; lra|lra| |lra]. apply Rmult_le_compat; [lra|lra| |lra]. apply Rmult_le_compat_l; lra.
      + assert (z * 1024 <= pw 1000 * 1024) by (apply Rmult_le_compat_r; lra). lra. }
  destruct (scale_rounds y b a F Fb B Fa A Y) as (e & e' & E & E' & F2 & V2). exists d, d'. split; [exact D|]. split; [exact D'|]. split; [exact F2|].
  pose proof (prod2 e e' E E') as T. set (t := (1 + e) * (1 + e') - 1) in *.
  apply (rel_bound _ _ _ (w + t + w * t)).
  - rewrite V2, V'. unfold t. field. lra.
  - eapply Rle_trans; [apply (bound_add _ _ _ _ (bound_add _ _ _ _ W T) (bound_mul _ _ _ _ W T))|]. rewrite U. lra.
Qed.
Lemma round_trips x : ordinary x -> relatively 5 (fl_degrees (fl_radians x)) (B2R x) /\ relatively 5 (fl_radians (fl_degrees x)) (B2R x).
Proof.
  intros O. destruct pi_runs as (FP & _). destruct c180 as (FC & VC). pose proof pi_range as PR. destruct (Req_dec (B2R x) 0) as [Z|N].
  - destruct (scale_zero x m_pi (dbl_lit 180 0) (proj1 O) FP Z) as (F & V); [lra|]. destruct (scale_zero x (dbl_lit 180 0) m_pi (proj1 O) FC Z) as (F' & V'); [lra|].
    destruct (scale_zero _ (dbl_lit 180 0) m_pi F FC V) as (G & W); [lra|]. destruct (scale_zero _ m_pi (dbl_lit 180 0) F' FP V') as (G' & W'); [lra|].
    split; (split; [assumption|]); rewrite Z; rewrite Rabs_R0, Rminus_0_r.
    + change (B2R (fl_degrees (fl_radians x))) with (B2R (fl_div 53 1024 (fl_mul 53 1024 (fl_div 53 1024 (fl_mul 53 1024 x m_pi) (dbl_lit 180 0)) (dbl_lit 180 0)) m_pi)). rewrite W, Rabs_R0. lra.
    + change (B2R (fl_radians (fl_degrees x))) with (B2R (fl_div 53 1024 (fl_mul 53 1024 (fl_div 53 1024 (fl_mul 53 1024 x (dbl_lit 180 0)) m_pi) m_pi) (dbl_lit 180 0))). rewrite W', Rabs_R0. lra.
  - destruct (scale_ordinary x m_pi (dbl_lit 180 0) (proj1 O) FP ltac:(lra) FC ltac:(lra) O N) as (_ & _ & _ & _ & F & A).
    destruct (scale_ordinary x (dbl_lit 180 0) m_pi (proj1 O) FC ltac:(lra) FP ltac:(lra) O N) as (_ & _ & _ & _ & F' & A').
    split; split; assumption.
Qed.
(** Order. *)
Lemma scale_monotone (x y a b : double) : is_finite x = true -> is_finite y = true -> is_finite a = true -> 0 < B2R a -> 0 < B2R b -> B2R x <= B2R y ->
  let f := fun x => fl_div 53 1024 (fl_mul 53 1024 x a) b in is_finite (f x) = true -> is_finite (f y) = true -> B2R (f x) <= B2R (f y).
Proof.
  intros Fx Fy Fa A B L f Gx Gy.
  assert (V : forall z, is_finite z = true -> is_finite (f z) = true -> is_finite (fl_mul 53 1024 z a) = true /\ B2R (f z) = RNE (RNE (B2R z * B2R a) / B2R b)).
  { intros z Fz Gz. assert (FM : is_finite (fl_mul 53 1024 z a) = true).
    { pose proof (Bdiv_correct 53 1024 Hp He mode_NE (fl_mul 53 1024 z a) b ltac:(lra)) as H. unfold f, fl_div in Gz. destruct Rlt_bool.
      - destruct H as (_ & H & _). rewrite <- H. exact Gz.
      - apply overflow_infinite in H. congruence. }
    split; [exact FM|]. rewrite <- (mult_finite 53 1024 z a Fz Fa FM).
    pose proof (Bdiv_correct 53 1024 Hp He mode_NE (fl_mul 53 1024 z a) b ltac:(lra)) as H. unfold f, fl_div in Gz. destruct Rlt_bool; [exact (proj1 H)|]. apply overflow_infinite in H. congruence. }
  destruct (V x Fx Gx) as (_ & ->). destruct (V y Fy Gy) as (_ & ->). apply (rn_le emin' 53). unfold Rdiv. apply Rmult_le_compat_r; [apply Rlt_le, Rinv_0_lt_compat; exact B|].
  apply (rn_le emin' 53). apply Rmult_le_compat_r; lra.
Qed.
Lemma angles_monotone x y : is_finite x = true -> is_finite y = true -> B2R x <= B2R y ->
  (is_finite (fl_radians x) = true -> is_finite (fl_radians y) = true -> B2R (fl_radians x) <= B2R (fl_radians y)) /\
  (is_finite (fl_degrees x) = true -> is_finite (fl_degrees y) = true -> B2R (fl_degrees x) <= B2R (fl_degrees y)).
Proof.
  intros Fx Fy L. destruct pi_runs as (FP & _). destruct c180 as (FC & VC). pose proof pi_range as PR. split.
  - apply (scale_monotone x y m_pi (dbl_lit 180 0)); auto; lra.
  - apply (scale_monotone x y (dbl_lit 180 0) m_pi); auto; lra.
Qed.
(** Particular angles. *)
Lemma same (x y : double) : is_finite x && is_finite y && Beqb x y = true -> B2R x = B2R y.
Proof. intros H. apply andb_prop in H as (H & E). apply andb_prop in H as (Fx & Fy). rewrite Beqb_correct in E by assumption. now apply Req_bool_spec_iff || (destruct (Req_bool_spec (B2R x) (B2R y)); [assumption|discriminate]). Qed.
Lemma right_angles k : (-8 <= k <= 8)%Z -> B2R (fl_radians (dbl (90 * k) 0)) = B2R (fl_mul 53 1024 (dbl k (-1)) m_pi) /\ B2R (fl_degrees (fl_mul 53 1024 (dbl k (-1)) m_pi)) = IZR (90 * k).
Proof.
  intros K. assert (C : exists n, (n <= 16)%nat /\ k = (Z.of_nat n - 8)%Z) by (exists (Z.to_nat (k + 8)); lia). destruct C as (n & N & ->).
  assert (T : forall n, (n <= 16)%nat -> let k := (Z.of_nat n - 8)%Z in
    (is_finite (fl_radians (dbl (90 * k) 0)) && is_finite (fl_mul 53 1024 (dbl k (-1)) m_pi) && Beqb (fl_radians (dbl (90 * k) 0)) (fl_mul 53 1024 (dbl k (-1)) m_pi))
     && (is_finite (fl_degrees (fl_mul 53 1024 (dbl k (-1)) m_pi)) && is_finite (dbl (90 * k) 0) && Beqb (fl_degrees (fl_mul 53 1024 (dbl k (-1)) m_pi)) (dbl (90 * k) 0)) = true).
  { clear. intros n N. do 17 (destruct n as [|n]; [vm_compute; reflexivity|]). lia. }
  specialize (T n N). cbv zeta in T. apply andb_prop in T as (T1 & T2). split; [now apply same|]. rewrite (same _ _ T2). apply dbl_int. lia.
Qed.
Lemma trip_fails : exists x : double, ordinary x /\ B2R (fl_degrees (fl_radians x)) < B2R x.
Proof.
  exists (dbl 11 0). split.
  - destruct (dbl_int 11 ltac:(lia)) as (F & V). split; [exact F|]. right. rewrite V, Rabs_pos_eq by lra. split; [apply Rle_trans with (pw 0)|apply Rle_trans with (pw 4)]; try (apply bpow_le; lia); [change (pw 0) with 1|change (pw 4) with 16]; lra.
  - apply (less _ (dbl 11 0)). vm_compute. reflexivity.
Qed.
(** The product overflows, though the angle is in range. *)
Lemma radians_overflow : exists x : double, is_finite x = true /\ Rabs (in_radians (B2R x)) < pw 1020 /\ is_finite (fl_radians x) = false.
Proof.
  exists (@fl_lit 53 1024 Hp He 1 1023). destruct (lit_runs 53 1024 1 1023) as (F & V).
  - rewrite Rmult_1_l. apply generic_format_bpow. unfold FLT_exp, FmaSpec.emin. lia.
  - rewrite Rmult_1_l, Rabs_pos_eq by apply bpow_ge_0. apply bpow_lt. lia.
  - split; [exact F|]. split; [|vm_compute; reflexivity]. unfold in_radians. rewrite V, Rmult_1_l. pose proof pi_upper. pose proof pi_lower.
    rewrite Rabs_pos_eq. 2: { unfold Rdiv. apply Rmult_le_pos; [|lra]. apply Rmult_le_pos; [apply bpow_ge_0|lra]. }
    change (pw 1023) with (pw (1020 + 3)). rewrite bpow_plus. change (pw 3) with 8. pose proof (bpow_gt_0 radix2 1020).
    replace (pw 1020 * 8 * PI / 180) with (pw 1020 * (8 * PI / 180)) by field. apply Rlt_le_trans with (pw 1020 * 1); [apply Rmult_lt_compat_l; lra|lra].
Qed.
(** Values that cubic interpolation does not reproduce. *)
Lemma cubic_end_fails : exists p0 p1 p2 p3 : double, moderate p0 /\ moderate p1 /\ moderate p2 /\ moderate p3 /\ B2R p2 < B2R (fl_cubic1 (dbl 1 0) p0 p1 p2 p3).
Proof.
  exists (dbl 5404319552844595 (-54)), (dbl 3602879701896397 (-53)), (dbl (-8106479329266893) (-53)), (dbl 1 (-1)).
  split; [apply dbl_moderate; lia|]. split; [apply dbl_moderate; lia|]. split; [apply dbl_moderate; lia|]. split; [apply dbl_moderate; lia|].
  apply less. vm_compute. reflexivity.
Qed.
Lemma cubic_constant_fails : exists s c : double, is_finite s = true /\ 0 <= B2R s <= 1 /\ moderate c /\ B2R c < B2R (fl_cubic1 s c c c c).
Proof.
  exists (dbl 3 (-2)), (dbl 3458764513820541 (-60)). destruct (dbl_runs 3 (-2) ltac:(lia) ltac:(lia)) as (F & V). split; [exact F|]. split; [rewrite V; change (pw (-2)) with (/ 4); lra|].
  split; [apply dbl_moderate; lia|]. apply less. vm_compute. reflexivity.
Qed.
End Angles.

Lemma example_ordinary : ordinary (dbl 11 0) /\ ordinary (dbl (-45) (-1)).
Proof.
  destruct (dbl_int 11 ltac:(lia)) as (F & V). destruct (dbl_runs (-45) (-1) ltac:(lia) ltac:(lia)) as (F' & V'). split; (split; [assumption|]; right).
  - rewrite V, Rabs_pos_eq by lra. split; [apply Rle_trans with (bpow radix2 0)|apply Rle_trans with (bpow radix2 4)]; try (apply bpow_le; lia); [change (bpow radix2 0) with 1|change (bpow radix2 4) with 16]; lra.
  - rewrite V'. change (bpow radix2 (-1)) with (/ 2). rewrite Rabs_left1 by lra. split; [apply Rle_trans with (bpow radix2 0)|apply Rle_trans with (bpow radix2 5)]; try (apply bpow_le; lia); [change (bpow radix2 0) with 1|change (bpow radix2 5) with 32]; lra.
Qed.
Lemma example_cubic : let s := fun i : nat => match i with O => dbl 1 (-2) | _ => dbl 3 (-2) end in let p := fun c : nat => dbl (Z.of_nat c - 8) 0 in
  (forall i, (i < 2)%nat -> is_finite (s i) = true /\ 0 <= B2R (s i) <= 1) /\ (forall c, (c < 4 ^ 2)%nat -> is_finite (p c) = true /\ Rabs (B2R (p c)) <= 8) /\
  cubic_growth 53 ^ 2 * (8 + least_normal 53 1024) <= bpow radix2 (1024 - 6).
Proof.
  intros s p. split; [|split].
  - intros i I. destruct (dbl_runs 1 (-2) ltac:(lia) ltac:(lia)) as (F1 & V1). destruct (dbl_runs 3 (-2) ltac:(lia) ltac:(lia)) as (F3 & V3). change (bpow radix2 (-2)) with (/ 4) in *.
    destruct i; cbn [s]; [split; [exact F1|rewrite V1; lra]|split; [exact F3|rewrite V3; lra]].
  - intros c C. cbn in C. destruct (dbl_int (Z.of_nat c - 8) ltac:(lia)) as (F & V). split; [exact F|]. unfold p. rewrite V. rewrite <- abs_IZR. apply IZR_le. lia.
  - assert (Q : 0 < cubic_growth 53 <= 2). { unfold cubic_growth, unit_roundoff. change (bpow radix2 (-(53))) with (/ 9007199254740992). lra. }
    assert (L : 0 < least_normal 53 1024 <= 1). { split; [apply bpow_gt_0|]. change 1 with (bpow radix2 0). apply bpow_le. unfold FmaSpec.emin. lia. }
    apply Rle_trans with (bpow radix2 6); [|apply bpow_le; lia]. change (bpow radix2 6) with 64. cbn [pow].
    apply Rle_trans with (4 * 9); [|lra]. apply Rmult_le_compat; [repeat apply Rmult_le_pos; lra|lra| |lra]. rewrite Rmult_1_r. apply Rle_trans with (2 * 2); [apply Rmult_le_compat; lra|lra].
Qed.
