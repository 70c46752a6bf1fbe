From Coq Require Import Reals ZArith Lia Lra Bool List.
From Flocq Require Import Core Relative Plus_error Mult_error Operations BinarySingleNaN.
From Verif Require Import FmaModel FmaSpec FmaProofs FquadModel FquadProofs FquadMore FvecModel FvecSpec FvecProofs FvecMore FmtxModel FmtxSpec FmtxProofs FmtxMore FboxModel FboxSpec FboxProofs FboxMore.
Import ListNotations.
Open Scope R_scope.

Section Box.
Variable prec emax : Z.
Context {Hp : Prec_gt_0 prec} {He : Prec_lt_emax prec emax}.
Notation float := (binary_float prec emax).
Notation pw := (bpow radix2).
Notation emin' := (FmaSpec.emin prec emax).
Notation fexp' := (FLT_exp emin' prec).
Notation RNE := (rn fexp' (fun t => negb (Z.even t))).
Notation FT := (generic_format radix2 fexp').
Notation M := (pw emax).
Notation u := (pw (- prec)).
Notation st := (step prec).
Notation h := (pw (emin' - 1)).
Notation cl := (FboxProofs.cl emax).
Notation add := (fl_add prec emax).
Notation sub := (fl_sub prec emax).
Notation mul := (fl_mul prec emax).
Notation div := (fl_div prec emax).
Notation zero := (fl_lit prec emax 0 0).
Notation one := (fl_one prec emax).
Hypothesis P3 : (3 <= prec)%Z.
Let P2 : (2 <= prec)%Z. Proof. lia. Qed.

Lemma one_format : FT 1. Proof. pose proof (He : (prec < emax)%Z). change 1 with (pw 0). apply (pw_format prec emax). unfold FmaSpec.emin. lia. Qed.
Lemma one_max : 1 < M. Proof. pose proof (He : (prec < emax)%Z). change 1 with (pw 0). apply bpow_lt. lia. Qed.
Lemma rne_one : RNE 1 = 1. Proof. apply rn_id, one_format. Qed.
(** *** unmap *)
Lemma unmap_value (b : fl_box prec emax) (p : nat -> float) i : is_finite (p i) = true -> is_finite (sub (fl_hi b i) (fl_lo b i)) = true -> is_finite (fl_lo b i) = true -> is_finite (fl_hi b i) = true ->
  B2R (fl_lo b i) <= B2R (p i) <= B2R (fl_hi b i) -> B2R (fl_lo b i) < B2R (fl_hi b i) ->
  let n := RNE (B2R (p i) - B2R (fl_lo b i)) in let d := RNE (B2R (fl_hi b i) - B2R (fl_lo b i)) in 0 <= n <= d /\ 0 < d /\ is_finite (fl_unmap b p i) = true /\ B2R (fl_unmap b p i) = RNE (n / d) /\ 0 <= RNE (n / d) <= 1.
Proof.
  intros Fp F Fl Fh (L1 & L2) L n d. assert (N0 : 0 <= n) by (apply Rle_trans with (RNE 0); [rewrite (rne_zero prec emax); apply Rle_refl|apply (rne_mono prec emax); lra]). assert (ND : n <= d) by (apply (rne_mono prec emax); lra).
  assert (D0 : 0 < d) by (apply (proj1 (diff_sign prec emax P2 _ _ (b2r_format prec emax _) (b2r_format prec emax _))); exact L).
  pose proof (minus_finite prec emax _ _ Fh Fl F) as VD. fold d in VD. assert (DM : d < M) by (rewrite <- VD; apply Rle_lt_trans with (2 := abs_B2R_lt_emax prec emax (sub (fl_hi b i) (fl_lo b i))); apply Rle_abs).
  destruct (minus_runs prec emax (p i) (fl_lo b i) Fp Fl) as (FN & VN). { fold n. rewrite Rabs_pos_eq by exact N0. lra. } fold n in VN.
  assert (Q : 0 <= n / d <= 1). { split; [apply Rmult_le_pos; [exact N0|left; now apply Rinv_0_lt_compat]|]. apply (Rmult_le_reg_r d); [exact D0|]. unfold Rdiv. rewrite Rmult_assoc, Rinv_l by lra. lra. }
  assert (RQ : 0 <= RNE (n / d) <= 1). { split; [apply Rle_trans with (RNE 0); [rewrite (rne_zero prec emax); apply Rle_refl|apply (rne_mono prec emax); lra]|apply Rle_trans with (RNE 1); [apply (rne_mono prec emax); lra|rewrite rne_one; apply Rle_refl]]. }
  pose proof one_max as OM. destruct (div_runs prec emax (sub (p i) (fl_lo b i)) (sub (fl_hi b i) (fl_lo b i)) FN) as (FQ & VQ); [rewrite VD; lra|rewrite VN, VD, Rabs_pos_eq by apply RQ; lra|]. rewrite VN, VD in VQ. repeat split; auto; lra.
Qed.
Lemma unmap_accurate (b : fl_box prec emax) (p : nat -> float) i : is_finite (p i) = true -> is_finite (sub (fl_hi b i) (fl_lo b i)) = true -> is_finite (fl_lo b i) = true -> is_finite (fl_hi b i) = true ->
  B2R (fl_lo b i) <= B2R (p i) <= B2R (fl_hi b i) -> B2R (fl_lo b i) < B2R (fl_hi b i) -> let q := (B2R (p i) - B2R (fl_lo b i)) / (B2R (fl_hi b i) - B2R (fl_lo b i)) in
  Rabs (B2R (fl_unmap b p i) - q) <= 4 * u * q + h.
Proof.
  intros Fp F Fl Fh L12 L q. destruct (unmap_value b p i Fp F Fl Fh L12 L) as (ND & D0 & _ & -> & _).
  destruct (diff_model prec emax (B2R (p i)) (B2R (fl_lo b i)) ltac:(apply b2r_format) ltac:(apply b2r_format)) as (e1 & E1 & V1). destruct (diff_model prec emax (B2R (fl_hi b i)) (B2R (fl_lo b i)) ltac:(apply b2r_format) ltac:(apply b2r_format)) as (e2 & E2 & V2). rewrite V1, V2 in *. clear V1 V2.
  pose proof (u_pos prec) as U. assert (U8 : u <= / 8) by (change (/ 8) with (pw (-3)); apply bpow_le; lia). apply Rabs_le_inv in E1. apply Rabs_le_inv in E2.
  set (x := B2R (p i) - B2R (fl_lo b i)) in *. set (w := B2R (fl_hi b i) - B2R (fl_lo b i)) in *. assert (W : 0 < w) by (unfold w; lra). assert (X : 0 <= x) by (unfold x; lra). assert (Q0 : 0 <= q) by (apply Rmult_le_pos; [exact X|left; now apply Rinv_0_lt_compat]).
  replace (x * (1 + e1) / (w * (1 + e2))) with (q * ((1 + e1) / (1 + e2))) by (unfold q; fold x w; field; lra). destruct (rn_model prec emax (q * ((1 + e1) / (1 + e2)))) as (d & t & Hd & Ht & ->). apply Rabs_le_inv in Hd.
  set (f := (1 + e1) / (1 + e2)) in *. assert (FE : f * (1 + e2) = 1 + e1) by (unfold f; field; lra). assert (F0 : 0 < f) by (apply Rdiv_lt_0_compat; lra).
  assert (GA : Rabs (f * (1 + d) - 1) <= 4 * u).
  { set (g := f * (1 + d)). assert (GE : g * (1 + e2) = (1 + e1) * (1 + d)) by (unfold g; rewrite <- FE; ring). assert (G0 : 0 < g) by (apply Rmult_lt_0_compat; lra).
    assert (UU : 0 <= u * u <= u / 8). { split; [apply Rmult_le_pos; lra|]. unfold Rdiv. apply Rmult_le_compat_l; lra. }
    assert (P1 : (1 - u) * (1 - u) <= (1 + e1) * (1 + d) <= (1 + u) * (1 + u)) by (split; apply Rmult_le_compat; lra).
    apply Rabs_le. split.
    - apply Rnot_lt_le. intros C. assert (g * (1 + e2) < (1 - 4 * u) * (1 + u)). { apply Rle_lt_trans with (g * (1 + u)); [apply Rmult_le_compat_l; lra|apply Rmult_lt_compat_r; lra]. } lra.
    - apply Rnot_lt_le. intros C. assert ((1 + 4 * u) * (1 - u) < g * (1 + e2)). { apply Rlt_le_trans with (g * (1 - u)); [apply Rmult_lt_compat_r; lra|apply Rmult_le_compat_l; lra]. } lra. }
  replace (q * f * (1 + d) + t - q) with (q * (f * (1 + d) - 1) + t) by ring. eapply Rle_trans; [apply Rabs_triang|]. apply Rplus_le_compat; [|exact Ht]. rewrite Rabs_mult, (Rabs_pos_eq q Q0), Rmult_comm. apply Rmult_le_compat_r; [exact Q0|exact GA].
Qed.
Lemma unmap_ends (b : fl_box prec emax) i : is_finite (sub (fl_hi b i) (fl_lo b i)) = true -> is_finite (fl_lo b i) = true -> is_finite (fl_hi b i) = true -> B2R (fl_lo b i) < B2R (fl_hi b i) ->
  B2R (fl_unmap b (fl_lo b) i) = 0 /\ B2R (fl_unmap b (fl_hi b) i) = 1.
Proof.
  intros F Fl Fh L. destruct (unmap_value b (fl_lo b) i Fl F Fl Fh ltac:(lra) L) as (_ & D & _ & -> & _). destruct (unmap_value b (fl_hi b) i Fh F Fl Fh ltac:(lra) L) as (_ & _ & _ & -> & _).
  rewrite (Rminus_diag_eq (B2R (fl_lo b i)) (B2R (fl_lo b i)) eq_refl). rewrite (rne_zero prec emax). unfold Rdiv at 1. rewrite Rmult_0_l, (rne_zero prec emax). split; [reflexivity|]. unfold Rdiv. rewrite Rinv_r by lra. apply rne_one.
Qed.
(** *** remap *)
Lemma finite_zero_mul (x : float) : is_finite x = true -> forall z, is_finite z = true -> B2R z = 0 -> exists s, mul z x = B754_zero s.
Proof. intros F z Fz Vz. destruct (zero_float prec emax z Fz Vz) as (s & ->). now apply zero_mul. Qed.
Lemma remap_ends (b : fl_box prec emax) (s : nat -> float) i : is_finite (fl_lo b i) = true -> is_finite (fl_hi b i) = true -> is_finite (s i) = true ->
  (B2R (s i) = 0 -> same_number (fl_remap b s i) (fl_lo b i)) /\ (B2R (s i) = 1 -> same_number (fl_remap b s i) (fl_hi b i)).
Proof.
  intros Fl Fh Fs. pose proof one_max as OM. assert (FO : is_finite one = true) by apply is_finite_Bone. unfold fl_remap. split; intros V.
  - destruct (finite_zero_mul (fl_hi b i) Fh (s i) Fs V) as (t & ->). destruct (zero_float prec emax (s i) Fs V) as (t' & ->). eapply same_trans; [apply add_zero|]. rewrite <- sub_neg. change (fl_neg prec emax (B754_zero t')) with (@B754_zero prec emax (negb t')).
    assert (E : add one (B754_zero (negb t')) = one). { destruct (add_zero prec emax one (negb t')) as [E|(_ & _ & _ & C)]; [exact E|]. rewrite one_value in C. lra. } rewrite E, one_mul. apply same_refl.
  - destruct (minus_runs prec emax one (s i) FO Fs) as (A & B). { rewrite one_value, V, (Rminus_diag_eq 1 1 eq_refl), (rne_zero prec emax), Rabs_R0. lra. } rewrite one_value, V, (Rminus_diag_eq 1 1 eq_refl), (rne_zero prec emax) in B.
    destruct (finite_zero_mul (fl_lo b i) Fl _ A B) as (t & ->). eapply same_trans; [apply zero_add|]. assert (E : s i = one). { apply B2R_inj; [| |now rewrite one_value]; apply is_finite_strict_B2R; [rewrite V|rewrite one_value]; lra. } rewrite E, one_mul. apply same_refl.
Qed.
Lemma remap_accurate (b : fl_box prec emax) (s : nat -> float) i : is_finite (fl_lo b i) = true -> is_finite (fl_hi b i) = true -> is_finite (s i) = true -> 0 <= B2R (s i) <= 1 -> is_finite (fl_remap b s i) = true ->
  let A := (1 - B2R (s i)) * B2R (fl_lo b i) in let B := B2R (s i) * B2R (fl_hi b i) in Rabs (B2R (fl_remap b s i) - (A + B)) <= (st ^ 3 - 1) * (Rabs A + Rabs B) + 2 * st * h.
Proof.
  intros Fl Fh Fs S F A B. pose proof one_max as OM. assert (FO : is_finite one = true) by apply is_finite_Bone. unfold fl_remap in *. destruct (plus_finite prec emax _ _ F) as (F1 & F2 & V). rewrite V.
  destruct (minus_runs prec emax one (s i) FO Fs) as (F3 & V3). { rewrite one_value. apply Rle_lt_trans with 1; [|exact OM]. apply Rabs_le. split; [apply Rle_trans with (RNE 0); [rewrite (rne_zero prec emax); lra|apply (rne_mono prec emax); lra]|apply Rle_trans with (RNE 1); [apply (rne_mono prec emax); lra|rewrite rne_one; apply Rle_refl]]. }
  rewrite one_value in V3. pose proof (sum_model prec emax (B2R (mul (sub one (s i)) (fl_lo b i))) (B2R (mul (s i) (fl_hi b i))) ltac:(apply b2r_format) ltac:(apply b2r_format)) as (e4 & E4 & ->).
  rewrite (mult_finite prec emax _ _ F3 Fl F1), (mult_finite prec emax _ _ Fs Fh F2), V3. destruct (diff_model prec emax 1 (B2R (s i)) one_format ltac:(apply b2r_format)) as (e1 & E1 & ->).
  destruct (rn_model prec emax ((1 - B2R (s i)) * (1 + e1) * B2R (fl_lo b i))) as (e2 & t2 & E2 & T2 & ->). destruct (rn_model prec emax (B2R (s i) * B2R (fl_hi b i))) as (e3 & t3 & E3 & T3 & ->). fold B.
  replace ((1 - B2R (s i)) * (1 + e1) * B2R (fl_lo b i) * (1 + e2)) with (A * ((1 + e1) * (1 + e2))) by (unfold A; ring).
  pose proof (u_pos prec) as U. pose proof (h_pos prec emax) as H0. assert (FAC : forall e, Rabs e <= u -> Rabs (1 + e) <= st) by (intros e E; eapply Rle_trans; [apply Rabs_triang|]; rewrite Rabs_R1; unfold step; lra).
  assert (ST : 1 <= st) by (unfold step; lra).
  assert (G : forall j k, 1 <= j -> Rabs (k - 1) <= j - 1 -> forall e, Rabs e <= u -> Rabs (k * (1 + e) - 1) <= j * st - 1). { intros j k J K e E. replace (k * (1 + e) - 1) with ((k - 1) * (1 + e) + e) by ring. eapply Rle_trans; [apply Rabs_triang|]. rewrite Rabs_mult. assert (Rabs (k - 1) * Rabs (1 + e) <= (j - 1) * st) by (apply Rmult_le_compat; auto using Rabs_pos). unfold step in *. lra. }
  assert (G0 : Rabs (1 - 1) <= 1 - 1) by (rewrite Rminus_diag_eq, Rabs_R0 by reflexivity; lra).
  pose proof (G 1 1 ltac:(lra) G0 e1 E1) as K1. rewrite !Rmult_1_l in K1. pose proof (G st (1 + e1) ST K1 e2 E2) as K2. assert (S2 : 1 <= st * st) by (rewrite <- (Rmult_1_l 1); apply Rmult_le_compat; lra). pose proof (G (st * st) _ S2 K2 e4 E4) as K3.
  pose proof (G 1 1 ltac:(lra) G0 e3 E3) as L1. rewrite !Rmult_1_l in L1. pose proof (G st (1 + e3) ST L1 e4 E4) as L2.
  replace ((A * ((1 + e1) * (1 + e2)) + t2 + (B * (1 + e3) + t3)) * (1 + e4) - (A + B)) with (A * ((1 + e1) * (1 + e2) * (1 + e4) - 1) + B * ((1 + e3) * (1 + e4) - 1) + (t2 + t3) * (1 + e4)) by ring.
  eapply Rle_trans; [apply Rabs_triang|]. apply Rplus_le_compat.
  - eapply Rle_trans; [apply Rabs_triang|]. rewrite !Rabs_mult. replace (st ^ 3) with (st * st * st) by ring. assert (X : Rabs A * Rabs ((1 + e1) * (1 + e2) * (1 + e4) - 1) <= Rabs A * (st * st * st - 1)) by (apply Rmult_le_compat_l; [apply Rabs_pos|exact K3]).
    assert (Y : Rabs B * Rabs ((1 + e3) * (1 + e4) - 1) <= Rabs B * (st * st * st - 1)). { apply Rmult_le_compat_l; [apply Rabs_pos|]. eapply Rle_trans; [exact L2|]. assert (st * st * 1 <= st * st * st) by (apply Rmult_le_compat_l; lra). lra. } lra.
  - rewrite Rabs_mult. replace (2 * st * h) with (2 * h * st) by ring. apply Rmult_le_compat; auto using Rabs_pos. eapply Rle_trans; [apply Rabs_triang|]. lra.
Qed.
(** *** Rays *)
Lemma inf_div s (y : float) : is_finite y = true -> B2R y <> 0 -> div (B754_infinity s) y = B754_infinity (xorb s (Bsign y)).
Proof. intros F N. destruct y as [t|t| |t m e H']; try discriminate; [cbn in N; lra|reflexivity]. Qed.
Lemma div_sign (x y : float) : is_nan x = false -> is_finite y = true -> B2R y <> 0 -> is_nan (div x y) = false /\ (0 <= place x * B2R y -> 0 <= place (div x y)) /\ (place x * B2R y <= 0 -> place (div x y) <= 0).
Proof.
  intros Nx Fy NZ. destruct (finite_cases prec emax x Nx) as [Fx|Ix].
  - destruct (div_place prec emax x y Fx Fy NZ) as (A & ->). rewrite finite_place by exact Fx. split; [exact A|]. assert (Q : B2R x / B2R y = B2R x * B2R y * (/ B2R y * / B2R y)) by (field; exact NZ). assert (P : 0 <= / B2R y * / B2R y) by apply Rle_0_sqr.
    assert (Z : cl (RNE 0) = 0) by (rewrite (rne_zero prec emax); apply cl_id; rewrite Rabs_R0; left; apply bpow_gt_0).
    split; intros S; [apply Rle_trans with (cl (RNE 0)); [rewrite Z; lra|]|apply Rle_trans with (cl (RNE 0)); [|rewrite Z; lra]]; apply clr_mono; auto; rewrite Q.
    + now apply Rmult_le_pos.
    + rewrite <- (Rmult_0_l (/ B2R y * / B2R y)). now apply Rmult_le_compat_r.
  - assert (E : forall s, x = B754_infinity s -> is_nan (div x y) = false /\ (0 <= place x * B2R y -> 0 <= place (div x y)) /\ (place x * B2R y <= 0 -> place (div x y) <= 0)); [|destruct Ix as [-> | ->]; eauto].
    intros s ->. rewrite (inf_div s y Fy NZ). split; [reflexivity|]. pose proof (m_pos emax) as MP. rewrite (sg_abs prec emax y Fy) at 1 2. pose proof (Rabs_pos_lt _ NZ) as AP. unfold sg. set (a := Rabs (B2R y)) in *. pose proof (Rmult_lt_0_compat _ _ MP AP) as MA. destruct s, (Bsign y); cbn [xorb place]; split; intros L; try lra; exfalso; nra.
Qed.
Lemma eqb_zero (x : float) : is_finite x = true -> fl_eqb prec emax x zero = true <-> B2R x = 0.
Proof.
  intros F. destruct (lit_zero prec emax) as (FZ & VZ). unfold fl_eqb. rewrite Beqb_correct by assumption. rewrite VZ. destruct (Req_bool_spec (B2R x) 0); split; congruence.
Qed.
Lemma ray_inside N (b : fl_box prec emax) (o d : nat -> float) : bounded_box N b -> all_finite N o -> all_finite N d -> in_box N b o ->
  exists l r, fl_box_ray N b o d = Some (l, r) /\ is_nan l = false /\ is_nan r = false /\ place l <= 0 <= place r.
Proof.
  intros (FL & FH) Fo Fd H. pose proof (m_pos emax) as MP. induction N as [|N IH].
  - cbn. do 2 eexists. split; [reflexivity|]. repeat split; cbn; lra.
  - destruct IH as (l & r & E & Nl & Nr & S); try (intros i I; apply FL || apply FH || apply Fo || apply Fd || apply H; lia). cbn [fl_box_ray]. rewrite E. destruct (H N ltac:(lia)) as (NO & L1 & L2). specialize (FL N ltac:(lia)). specialize (FH N ltac:(lia)). specialize (Fo N ltac:(lia)). specialize (Fd N ltac:(lia)).
    destruct (fl_eqb prec emax (d N) zero) eqn:Z.
    + rewrite !ltb_place by auto using finite_not_nan. rewrite !Rlt_bool_false by lra. cbn [orb]. eauto 8.
    + assert (NZ : B2R (d N) <> 0) by (intros C; apply (eqb_zero _ Fd) in C; congruence). rewrite !finite_place in L1, L2 by assumption.
      destruct (sub_place prec emax _ _ FH Fo) as (N1 & V1). destruct (sub_place prec emax _ _ FL Fo) as (N2 & V2).
      assert (Z0 : cl (RNE 0) = 0) by (rewrite (rne_zero prec emax); apply cl_id; rewrite Rabs_R0; left; apply bpow_gt_0).
      assert (S1 : 0 <= place (sub (fl_hi b N) (o N))) by (rewrite V1; apply Rle_trans with (cl (RNE 0)); [rewrite Z0; lra|apply clr_mono; auto; lra]). assert (S2 : place (sub (fl_lo b N) (o N)) <= 0) by (rewrite V2; apply Rle_trans with (cl (RNE 0)); [apply clr_mono; auto; lra|rewrite Z0; lra]).
      destruct (div_sign _ (d N) N1 Fd NZ) as (M1 & P1 & Q1). destruct (div_sign _ (d N) N2 Fd NZ) as (M2 & P2' & Q2). set (c1 := div (sub (fl_hi b N) (o N)) (d N)) in *. set (c2 := div (sub (fl_lo b N) (o N)) (d N)) in *.
      destruct (min_place prec emax c1 c2 M1 M2) as (Nm & Vm). destruct (max_place prec emax c1 c2 M1 M2) as (Nx & Vx). destruct (max_place prec emax l _ Nl Nm) as (Na & Va). destruct (min_place prec emax r _ Nr Nx) as (Nb & Vb).
      do 2 eexists. split; [reflexivity|]. rewrite Va, Vb, Vm, Vx. split; [exact Na|]. split; [exact Nb|].
      assert (X : (0 <= place c1 /\ place c2 <= 0) \/ (0 <= place c2 /\ place c1 <= 0)). { destruct (Rle_lt_dec 0 (B2R (d N))) as [P|P]; [left; split; [apply P1; apply Rmult_le_pos; lra|apply Q2]|right; split; [apply P2'|apply Q1]].
        - rewrite <- (Rmult_0_l (B2R (d N))). apply Rmult_le_compat_r; lra.
        - rewrite Rmult_comm. rewrite <- (Rmult_0_r (B2R (d N))). apply Rmult_le_compat_neg_l; lra.
        - rewrite Rmult_comm. rewrite <- (Rmult_0_r (B2R (d N))). apply Rmult_le_compat_neg_l; lra. }
      split; [apply Rmax_lub|apply Rmin_glb]; try lra.
      * destruct X as [X|X]; [eapply Rle_trans; [apply Rmin_r|]|eapply Rle_trans; [apply Rmin_l|]]; lra.
      * destruct X as [X|X]; [eapply Rle_trans; [|apply Rmax_l]|eapply Rle_trans; [|apply Rmax_r]]; lra.
Qed.
Lemma passes_place (e o d : float) : is_finite e = true -> is_finite o = true -> is_finite d = true -> is_finite (sub e o) = true -> B2R d <> 0 -> is_nan (div (sub e o) d) = false /\ place (div (sub e o) d) = passes e o d.
Proof. intros Fe Fo Fd F NZ. destruct (div_place prec emax (sub e o) d F Fd NZ) as (A & ->). split; [exact A|]. rewrite (minus_finite prec emax e o Fe Fo F). reflexivity. Qed.
Lemma ray_interval N (b : fl_box prec emax) (o d : nat -> float) : bounded_box N b -> all_finite N o -> all_finite N d -> (forall i, (i < N)%nat -> is_finite (sub (fl_lo b i) (o i)) = true /\ is_finite (sub (fl_hi b i) (o i)) = true) ->
  match fl_box_ray N b o d with
  | None => exists i, (i < N)%nat /\ B2R (d i) = 0 /\ ~ (B2R (fl_lo b i) <= B2R (o i) <= B2R (fl_hi b i))
  | Some (l, r) => is_nan l = false /\ is_nan r = false /\ (forall i, (i < N)%nat -> B2R (d i) = 0 -> B2R (fl_lo b i) <= B2R (o i) <= B2R (fl_hi b i)) /\
      forall t, (place l <= t <= place r <-> - M <= t <= M /\ forall i, (i < N)%nat -> B2R (d i) <> 0 -> let near := passes (fl_lo b i) (o i) (d i) in let far := passes (fl_hi b i) (o i) (d i) in Rmin near far <= t <= Rmax near far)
  end.
Proof.
  intros (FL & FH) Fo Fd FD. induction N as [|N IH].
  - cbn. repeat split; try lra; try (intros; lia); destruct H; lra.
  - assert (IH' := IH ltac:(intros i I; apply FL; lia) ltac:(intros i I; apply FH; lia) ltac:(intros i I; apply Fo; lia) ltac:(intros i I; apply Fd; lia) ltac:(intros i I; apply FD; lia)). clear IH. cbn [fl_box_ray]. destruct (fl_box_ray N b o d) as [(l, r)|].
    2:{ destruct IH' as (i & I & R). exists i. split; [lia|exact R]. }
    destruct IH' as (Nl & Nr & Z & T). pose proof (FL N ltac:(lia)) as Fl. pose proof (FH N ltac:(lia)) as Fh. pose proof (Fo N ltac:(lia)) as Fo'. pose proof (Fd N ltac:(lia)) as Fd'. destruct (FD N ltac:(lia)) as (D1 & D2).
    destruct (fl_eqb prec emax (d N) zero) eqn:E.
    + apply (eqb_zero _ Fd') in E. rewrite !ltb_place by auto using finite_not_nan. rewrite !finite_place by assumption. destruct (Rlt_bool_spec (B2R (o N)) (B2R (fl_lo b N))) as [L|L]; cbn [orb]; [exists N; repeat split; [lia|exact E|lra]|].
      destruct (Rlt_bool_spec (B2R (fl_hi b N)) (B2R (o N))) as [R|R]; [exists N; repeat split; [lia|exact E|lra]|]. split; [exact Nl|]. split; [exact Nr|]. split.
      * intros i I D. destruct (Nat.eq_dec i N) as [->|Ne]; [lra|apply Z; [lia|exact D]].
      * intros t. rewrite T. split; intros (A & B); (split; [exact A|]); intros i I NZ; [destruct (Nat.eq_dec i N) as [->|Ne]; [contradiction|apply B; [lia|exact NZ]]|apply B; [lia|exact NZ]].
    + assert (NZ : B2R (d N) <> 0) by (intros C; apply (eqb_zero _ Fd') in C; congruence). destruct (passes_place _ _ _ Fl Fo' Fd' D1 NZ) as (M2 & V2). destruct (passes_place _ _ _ Fh Fo' Fd' D2 NZ) as (M1 & V1).
      set (c1 := div (sub (fl_hi b N) (o N)) (d N)) in *. set (c2 := div (sub (fl_lo b N) (o N)) (d N)) in *.
      destruct (min_place prec emax c1 c2 M1 M2) as (Nm & Vm). destruct (max_place prec emax c1 c2 M1 M2) as (Nx & Vx). destruct (max_place prec emax l _ Nl Nm) as (Na & Va). destruct (min_place prec emax r _ Nr Nx) as (Nb & Vb).
      split; [exact Na|]. split; [exact Nb|]. split; [intros i I D; destruct (Nat.eq_dec i N) as [->|Ne]; [contradiction|apply Z; [lia|exact D]]|]. intros t. cbv zeta in *. rewrite Va, Vb, Vm, Vx, V1, V2. rewrite (Rmin_comm (passes (fl_hi b N) _ _)), (Rmax_comm (passes (fl_hi b N) _ _)).
      set (a := Rmin (passes (fl_lo b N) (o N) (d N)) _). set (z := Rmax (passes (fl_lo b N) (o N) (d N)) _). split.
      * intros (A & B). pose proof (Rmax_l (place l) a). pose proof (Rmax_r (place l) a). pose proof (Rmin_l (place r) z). pose proof (Rmin_r (place r) z). destruct (proj1 (T t) ltac:(lra)) as (C & D). split; [exact C|]. intros i I Q. destruct (Nat.eq_dec i N) as [->|Ne]; [fold a z; lra|apply D; [lia|exact Q]].
      * intros (A & B). assert (Q : place l <= t <= place r) by (apply T; split; [exact A|]; intros i I; apply B; lia). specialize (B N ltac:(lia) NZ). fold a z in B. split; [apply Rmax_lub; lra|apply Rmin_glb; lra].
Qed.
(** *** The default box *)
Lemma default_values i : is_finite (fl_lo (@fl_default_box prec emax Hp He) i) = true /\ is_finite (fl_hi (@fl_default_box prec emax Hp He) i) = true /\ B2R (fl_lo (@fl_default_box prec emax Hp He) i) = M - pw (emax - prec) /\ B2R (fl_hi (@fl_default_box prec emax Hp He) i) = - (M - pw (emax - prec)).
Proof.
  pose proof (He : (prec < emax)%Z). assert (PV : IZR (2 ^ prec) * pw (emax - prec) = M). { replace (IZR (2 ^ prec)) with (pw prec) by (symmetry; apply (IZR_Zpower radix2); lia). rewrite <- bpow_plus. f_equal. ring. }
  pose proof (bpow_gt_0 radix2 (emax - prec)) as EP. assert (LE : pw (emax - prec) <= M) by (apply bpow_le; lia). pose proof (m_pos emax) as MP.
  assert (V1 : IZR (2 ^ prec - 1) * pw (emax - prec) = M - pw (emax - prec)) by (rewrite minus_IZR, <- PV; ring). assert (V2 : IZR (1 - 2 ^ prec) * pw (emax - prec) = - (M - pw (emax - prec))) by (rewrite minus_IZR, <- PV; ring).
  assert (AB : Rabs (M - pw (emax - prec)) < M) by (rewrite Rabs_pos_eq; lra).
  assert (FM : FT (M - pw (emax - prec))). { rewrite <- V1. apply generic_format_FLT. exists (Defs.Float radix2 (2 ^ prec - 1) (emax - prec)); [reflexivity| |cbn [Fexp]; unfold FmaSpec.emin; lia]. cbn [Fnum]. change (Zpower radix2 prec) with (2 ^ prec)%Z. pose proof (Z.pow_pos_nonneg 2 prec ltac:(lia) ltac:(lia)). lia. }
  cbn [fl_default_box fl_lo fl_hi]. destruct (lit_runs prec emax (2 ^ prec - 1) (emax - prec)) as (A & B); [rewrite V1; exact FM|rewrite V1; exact AB|]. destruct (lit_runs prec emax (1 - 2 ^ prec) (emax - prec)) as (C & D); [rewrite V2; now apply generic_format_opp|rewrite V2, Rabs_Ropp; exact AB|]. rewrite B, D, V1, V2. auto.
Qed.
Lemma default_union N (b : fl_box prec emax) i : bounded_box N b -> (i < N)%nat -> same_number (fl_lo (fl_union fl_default_box b) i) (fl_lo b i) /\ same_number (fl_hi (fl_union fl_default_box b) i) (fl_hi b i) /\ same_number (fl_lo (fl_union b fl_default_box) i) (fl_lo b i) /\ same_number (fl_hi (fl_union b fl_default_box) i) (fl_hi b i).
Proof.
  intros (FL & FH) I. destruct (default_values i) as (A & B & C & D). set (dl := fl_lo fl_default_box i) in *. set (dh := fl_hi fl_default_box i) in *. specialize (FL i I). specialize (FH i I).
  assert (R : forall x : float, - (M - pw (emax - prec)) <= B2R x <= M - pw (emax - prec)) by (intros x; apply Rabs_le_inv, abs_B2R_le_emax_minus_prec; exact Hp).
  assert (S : forall x y : float, is_finite x = true -> is_finite y = true -> B2R x = B2R y -> same_number x y). { intros x y Fx Fy E. destruct (Req_dec (B2R x) 0) as [Z|Z]; [right; repeat split; congruence|]. left. apply B2R_inj; auto; apply is_finite_strict_B2R; congruence. }
  cbn [fl_union fl_lo fl_hi]. unfold fl_vmin, fl_vmax. fold dl dh.
  assert (MN : forall x y : float, is_finite x = true -> is_finite y = true -> is_finite (fl_min prec emax x y) = true /\ B2R (fl_min prec emax x y) = Rmin (B2R x) (B2R y) /\ is_finite (fl_max prec emax x y) = true /\ B2R (fl_max prec emax x y) = Rmax (B2R x) (B2R y)).
  { intros x y Fx Fy. destruct (min_place prec emax x y) as (_ & V1); auto using finite_not_nan. destruct (max_place prec emax x y) as (_ & V2); auto using finite_not_nan. assert (F1 : is_finite (fl_min prec emax x y) = true) by (unfold fl_min; destruct (fl_ltb _ _ _ _); assumption). assert (F2 : is_finite (fl_max prec emax x y) = true) by (unfold fl_max; destruct (fl_ltb _ _ _ _); assumption). rewrite !finite_place in V1, V2 by assumption. auto. }
  pose proof (R (fl_lo b i)) as R1. pose proof (R (fl_hi b i)) as R2.
  destruct (MN dl (fl_lo b i) A FL) as (Q1 & Q2 & _). destruct (MN dh (fl_hi b i) B FH) as (_ & _ & Q3 & Q4). destruct (MN (fl_lo b i) dl FL A) as (Q5 & Q6 & _). destruct (MN (fl_hi b i) dh FH B) as (_ & _ & Q7 & Q8).
  repeat split; apply S; auto; [rewrite Q2, C; apply Rmin_right|rewrite Q4, D; apply Rmax_right|rewrite Q6, C; apply Rmin_left|rewrite Q8, D; apply Rmax_left]; lra.
Qed.
Lemma default_empty N : (0 < N)%nat -> fl_is_empty N (@fl_default_box prec emax Hp He) = true.
Proof.
  intros NP. apply empty_spec; [split; intros i I; apply finite_not_nan; apply default_values|]. intros U. specialize (U 0%nat NP). destruct (default_values 0%nat) as (A & B & C & D). rewrite !finite_place in U by assumption. rewrite C, D in U.
  assert (pw (emax - prec) < M) by (apply bpow_lt; lia). lra.
Qed.
End Box.

(** ** Witnesses *)
Definition w_box : fl_box 53 1024 := fl_mkBox (fun _ => dbl 85 (-1)) (fun _ => dbl 85 (-1)).
Definition w_s : binary_float 53 1024 := dbl 5651576002974740 (-56).
Lemma remap_outside : is_finite w_s = true /\ 0 <= B2R w_s <= 1 /\ is_finite (fl_remap w_box (fun _ => w_s) 0%nat) = true /\ B2R (fl_hi w_box 0%nat) < B2R (fl_remap w_box (fun _ => w_s) 0%nat).
Proof.
  destruct (dbl_runs 5651576002974740 (-56) ltac:(lia) ltac:(lia)) as (F & V). fold w_s in F, V. split; [exact F|]. split.
  { rewrite V. assert (Q : 0 < bpow radix2 (-56)) by apply bpow_gt_0. split; [apply Rmult_le_pos; lra|]. apply Rle_trans with (bpow radix2 53 * bpow radix2 (-56)); [apply Rmult_le_compat_r; [lra|]|rewrite <- bpow_plus; change 1 with (bpow radix2 0); apply bpow_le; lia]. change (bpow radix2 53) with 9007199254740992. lra. }
  set (x := fl_remap _ _ _). assert (X : B2SF x = B2SF (dbl 5981343255101441 (-47))) by (vm_compute; reflexivity). apply B2SF_inj in X. rewrite X. destruct (dbl_runs 5981343255101441 (-47) ltac:(lia) ltac:(lia)) as (FX & VX). split; [exact FX|]. cbn [w_box fl_hi]. destruct (dbl_runs 85 (-1) ltac:(lia) ltac:(lia)) as (_ & V8). rewrite VX, V8.
  replace (-1)%Z with (46 + (-47))%Z by reflexivity. rewrite bpow_plus. change (bpow radix2 46) with 70368744177664. pose proof (bpow_gt_0 radix2 (-47)) as Q. rewrite <- Rmult_assoc. apply Rmult_lt_compat_r; [exact Q|]. lra.
Qed.
Lemma box_example : let b := fl_mkBox (fun _ => dbl (-3) 0) (fun i => dbl (Z.of_nat i) 0) in let p := fun _ : nat => dbl (-1) 0 in
  bounded_box 3 b /\ all_finite 3 p /\ in_box 3 b p /\ upright 3 b /\ ~ in_box 3 b (fun _ => dbl 1 0).
Proof.
  intros b p. assert (D : forall m, (Z.abs m < 10)%Z -> is_finite (dbl m 0) = true /\ place (dbl m 0) = IZR m). { intros m A. destruct (dbl_int m ltac:(lia)) as (F & V). rewrite finite_place by exact F. auto. }
  destruct (D (-3)%Z ltac:(lia)) as (F3 & V3), (D (-1)%Z ltac:(lia)) as (F1 & V1), (D 1%Z ltac:(lia)) as (G1 & W1), (D 0%Z ltac:(lia)) as (G0 & W0).
  assert (H : forall i, (i < 3)%nat -> is_finite (fl_hi b i) = true /\ place (fl_hi b i) = IZR (Z.of_nat i)) by (intros i I; apply D; lia). assert (P : forall i, 0 <= IZR (Z.of_nat i)) by (intros i; apply IZR_le; lia).
  split; [split; intros i I; [exact F3|apply H, I]|]. split; [intros i I; exact F1|]. split; [|split].
  - intros i I. destruct (H i I) as (_ & E). split; [apply finite_not_nan, F1|]. cbn [b fl_lo]. unfold p. rewrite E, V3, V1. specialize (P i). lra.
  - intros i I. destruct (H i I) as (_ & E). cbn [b fl_lo]. rewrite E, V3. specialize (P i). lra.
  - intros C. destruct (C 0%nat ltac:(lia)) as (_ & _ & L). cbn [b fl_hi] in L. change (Z.of_nat 0) with 0%Z in L. rewrite W0, W1 in L. lra.
Qed.
Lemma width_example : let b := fl_mkBox (fun _ : nat => dbl (-3) 0) (fun _ => dbl 5 0) in is_finite (fl_add 53 1024 (fl_hi b 0%nat) (fl_lo b 0%nat)) = true /\ is_finite (fl_sub 53 1024 (fl_hi b 0%nat) (fl_lo b 0%nat)) = true /\
  B2R (fl_lo b 0%nat) < B2R (fl_hi b 0%nat) /\ B2R (fl_center b 0%nat) = 1 /\ B2R (fl_dimensions b 0%nat) = 8 /\ B2R (fl_unmap b (fl_center b) 0%nat) = / 2.
Proof.
  intros b. set (x := fl_add _ _ _ _). set (y := fl_sub _ _ _ _). set (c := fl_center b 0%nat). set (w := fl_dimensions b 0%nat). set (q := fl_unmap b _ _).
  assert (X : B2SF x = B2SF (dbl 2 0)) by (vm_compute; reflexivity). assert (Y : B2SF y = B2SF (dbl 8 0)) by (vm_compute; reflexivity). assert (C : B2SF c = B2SF (dbl 1 0)) by (vm_compute; reflexivity). assert (W : B2SF w = B2SF (dbl 8 0)) by (vm_compute; reflexivity). assert (Q : B2SF q = B2SF (dbl 1 (-1))) by (vm_compute; reflexivity).
  apply B2SF_inj in X, Y, C, W, Q. rewrite X, Y, C, W, Q. cbn [b fl_lo fl_hi]. destruct (dbl_int (-3) ltac:(lia)) as (_ & ->), (dbl_int 5 ltac:(lia)) as (_ & ->), (dbl_int 2 ltac:(lia)) as (-> & _), (dbl_int 8 ltac:(lia)) as (-> & ->), (dbl_int 1 ltac:(lia)) as (_ & ->), (dbl_runs 1 (-1) ltac:(lia) ltac:(lia)) as (_ & ->).
  change (bpow radix2 (-1)) with (/ 2). repeat split; lra.
Qed.
Lemma overflow_example : let b := fl_mkBox (fun _ : nat => dbl 4503599627370496 971) (fun _ => dbl 4503599627370496 971) in is_finite (fl_lo b 0%nat) = true /\ is_finite (fl_hi b 0%nat) = true /\ is_finite (fl_add 53 1024 (fl_hi b 0%nat) (fl_lo b 0%nat)) = false.
Proof. intros b. rewrite <- !is_finite_SF_B2SF. repeat split; vm_compute; reflexivity. Qed.
