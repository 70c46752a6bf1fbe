From Coq Require Import Reals ZArith Lia Lra Bool.
From Flocq Require Import Core Relative Plus_error BinarySingleNaN.
From Verif Require Import FmaModel FmaSpec FmaProofs FquadModel FquadProofs FquadMore FvecModel FvecSpec FvecProofs FvecMore FvecAcc FmtxModel FmtxSpec FmtxProofs FmtxMore FboxModel FboxSpec FboxProofs FsphModel FsphProofs FsphMore FsrModel.
Open Scope R_scope.

Section Sr.
Variable prec emax : Z.
Context {Hp : Prec_gt_0 prec} {He : Prec_lt_emax prec emax}.
Notation float := (binary_float prec emax).
Notation vector := (nat -> float).
Notation pw := (bpow radix2).
Notation emin' := (FmaSpec.emin prec emax).
Notation fexp' := (FLT_exp emin' prec).
Notation RNE := (rn fexp' (fun t => negb (Z.even t))).
Notation FT := (generic_format radix2 fexp').
Notation M := (pw emax).
Notation add := (fl_add prec emax).
Notation sub := (fl_sub prec emax).
Notation mul := (fl_mul prec emax).
Notation div := (fl_div prec emax).
Notation fma := (fl_fma prec emax).
Notation neg := (fl_neg prec emax).
Notation zero := (fl_lit prec emax 0 0).
Notation cl := (cl emax).
Notation sg := (FquadProofs.sg prec emax).
Let VT : Valid_exp fexp' := FLT_exp_valid emin' prec.

Lemma fma_any (x y z : float) : is_finite x = true -> is_finite y = true -> is_finite z = true -> is_nan (fma x y z) = false /\ place (fma x y z) = cl (RNE (B2R x * B2R y + B2R z)).
Proof.
  intros Fx Fy Fz. pose proof (Bfma_correct prec emax _ _ mode_NE x y z Fx Fy Fz) as H. cbv zeta in H.
  apply (clamped_result prec emax _ _ (Rlt_bool (B2R x * B2R y + B2R z) 0)); [|destruct (Rlt_bool_spec (B2R x * B2R y + B2R z) 0); intros; (discriminate || lra)|destruct (Rlt_bool_spec (B2R x * B2R y + B2R z) 0); intros; (discriminate || lra)].
  change (round radix2 _ (round_mode mode_NE) (B2R x * B2R y + B2R z)) with (RNE (B2R x * B2R y + B2R z)) in H. destruct (Rlt_bool (Rabs _) _); [|exact H]. split; [exact (proj1 H)|exact (proj1 (proj2 H))].
Qed.
Lemma cl_small r : Rabs r < M -> cl r = r. Proof. intros H. apply cl_id. lra. Qed.
Lemma place_finite (x : float) : is_nan x = false -> Rabs (place x) < M -> is_finite x = true.
Proof. intros N H. pose proof (m_pos emax). destruct x as [s|s| |s m e K]; try discriminate; try reflexivity. cbn in H. destruct s; [rewrite Rabs_Ropp in H|]; rewrite Rabs_pos_eq in H by lra; lra. Qed.
(** What a finite product was made of. *)
Lemma mul_parts (x y : float) : is_finite (mul x y) = true -> is_finite x = true /\ is_finite y = true.
Proof. unfold fl_mul. destruct x as [s|s| |s m e K], y as [t|t| |t k f L]; cbn; intros H; try discriminate; auto. Qed.
Lemma sub_parts (x y : float) : is_finite (sub x y) = true -> is_finite x = true /\ is_finite y = true.
Proof. unfold fl_sub, Bminus. destruct x as [s|s| |s m e K], y as [t|t| |t k f L]; cbn; intros H; try discriminate; auto; destruct s, t; cbn in H; discriminate. Qed.
Lemma finite_bound (x : float) : is_finite x = true -> Rabs (B2R x) < M.
Proof. intros F. pose proof (finite_inside prec emax x F) as H. rewrite (finite_place prec emax x F) in H. apply Rabs_lt. exact H. Qed.
(** The rounding error of a product is computed without overflow. *)
Lemma error_finite (x y : float) : is_finite (mul x y) = true -> let e := fma (neg x) y (mul x y) in is_finite e = true /\ B2R e = RNE (B2R (mul x y) - B2R x * B2R y) /\
  (B2R x * B2R y <= 0 -> B2R (mul x y) <= B2R e) /\ B2R (mul x y) = RNE (B2R x * B2R y).
Proof.
  intros F e. destruct (mul_parts x y F) as (Fx & Fy). destruct (neg_finite prec emax x Fx) as (Fn & Vn). destruct (fma_any (neg x) y (mul x y) Fn Fy F) as (A & B). fold e in A, B.
  destruct (mul_place prec emax x y Fx Fy) as (_ & W). rewrite (finite_place prec emax _ F) in W. pose proof (finite_bound _ F) as Bd.
  assert (V : B2R (mul x y) = RNE (B2R x * B2R y)). { apply (mult_finite prec emax x y Fx Fy F). }
  set (w := B2R (mul x y)) in *. set (t := B2R x * B2R y) in *. rewrite Vn in B. replace (- B2R x * B2R y + w) with (w - t) in B by (unfold t; ring).
  assert (Rw : RNE w = w) by (apply (rn_id emin' prec); apply (b2r_format prec emax)).
  assert (Rn : RNE (- w) = - w) by (rewrite (rne_opp prec emax), Rw; reflexivity).
  assert (Ro : RNE (- t) = - w) by (rewrite (rne_opp prec emax); lra).
  assert (Bw : Rabs (RNE (w - t)) <= Rabs w).
  { destruct (Rle_dec 0 t) as [T|T].
    - assert (W0 : 0 <= w) by (rewrite V; apply Rle_trans with (RNE 0); [right; symmetry; apply (rne_zero prec emax)|apply (rne_mono prec emax); exact T]). rewrite (Rabs_pos_eq w W0). apply Rabs_le. split.
      + rewrite <- Ro. apply (rne_mono prec emax). lra.
      + apply Rle_trans with (RNE w); [apply (rne_mono prec emax); lra|rewrite Rw; apply Rle_refl].
    - assert (W0 : w <= 0) by (rewrite V; apply Rle_trans with (RNE 0); [apply (rne_mono prec emax); lra|right; apply (rne_zero prec emax)]). rewrite (Rabs_left1 w W0). apply Rabs_le. split.
      + rewrite Ropp_involutive. apply Rle_trans with (RNE w); [rewrite Rw; apply Rle_refl|apply (rne_mono prec emax); lra].
      + rewrite <- Ro. apply (rne_mono prec emax). lra. }
  assert (Sm : Rabs (RNE (w - t)) < M) by lra. rewrite cl_small in B by exact Sm.
  assert (Fe : is_finite e = true) by (apply place_finite; [exact A|rewrite B; exact Sm]). rewrite (finite_place prec emax e Fe) in B.
  split; [exact Fe|]. split; [exact B|]. split; [|exact V]. intros T. rewrite B. apply Rle_trans with (RNE w); [rewrite Rw; apply Rle_refl|apply (rne_mono prec emax); lra].
Qed.
Lemma inf_add (y : float) : is_finite y = true -> add (B754_infinity false) y = B754_infinity false.
Proof. destruct y; try discriminate; reflexivity. Qed.
Lemma diff_place (b x c : float) : is_finite b = true -> is_finite (mul x c) = true ->
  let D := fl_diff_of_products b b x c in is_nan D = false /\ (B2R x * B2R c <= 0 -> 0 <= place D).
Proof.
  intros Fb F D. destruct (error_finite x c F) as (Fe & Ve & Le & Vw). set (w := mul x c) in *. set (e := fma (neg x) c w) in *.
  destruct (neg_finite prec emax w F) as (Fn & Vn). destruct (fma_any b b (neg w) Fb Fb Fn) as (A & B). assert (ED : D = add (fma b b (neg w)) e) by reflexivity. clearbody D e. subst D. set (p := fma b b (neg w)) in *. clearbody p.
  assert (Rn : RNE (- B2R w) = - B2R w) by (rewrite <- Vn; apply (rn_id emin' prec); apply (b2r_format prec emax)).
  assert (Lp : - B2R w <= place p). { rewrite B, Vn. apply Rle_trans with (cl (RNE (- B2R w))); [rewrite Rn, cl_small by (rewrite Rabs_Ropp; now apply finite_bound); apply Rle_refl|]. apply (clr_mono prec emax). pose proof (Rle_0_sqr (B2R b)) as Q. unfold Rsqr in Q. lra. }
  split.
  - destruct (finite_cases prec emax p A) as [Fp|[E|E]].
    + apply (add_place prec emax p e Fp Fe).
    + exfalso. subst p. cbn in Lp. pose proof (finite_bound w F) as Q. apply Rabs_lt_inv in Q. lra.
    + subst p. rewrite inf_add by exact Fe. reflexivity.
  - intros T. specialize (Le T). destruct (add_above prec emax p e (neg w) w A) as (_ & K); auto; [now apply finite_not_nan|rewrite (finite_place prec emax _ Fn), Vn; exact Lp|rewrite !finite_place by assumption; exact Le|].
    destruct (add_place prec emax (neg w) w Fn F) as (_ & Z). rewrite Z, Vn in K. replace (- B2R w + B2R w) with 0 in K by ring. rewrite (rne_zero prec emax), cl_small in K by (rewrite Rabs_R0; apply m_pos). exact K.
Qed.
(** Signs of results. *)
Lemma clr_sign x s : s * s = 1 -> s * x <= 0 -> s * cl (RNE x) <= 0.
Proof.
  intros S H. assert (Z : cl (RNE 0) = 0) by (rewrite (rne_zero prec emax); apply cl_small; rewrite Rabs_R0; apply m_pos).
  assert (C : s = 1 \/ s = - 1) by (destruct (Rmult_integral (s - 1) (s + 1)); [lra|left; lra|right; lra]). destruct C as [E|E]; rewrite E in *.
  - rewrite Rmult_1_l in *. apply Rle_trans with (cl (RNE 0)); [apply (clr_mono prec emax); exact H|right; exact Z].
  - assert (0 <= cl (RNE x)); [|lra]. apply Rle_trans with (cl (RNE 0)); [right; symmetry; exact Z|apply (clr_mono prec emax); lra].
Qed.
Lemma sqrt_place (D : float) : is_nan D = false -> 0 <= place D -> is_nan (fl_sqrt prec emax D) = false /\ 0 <= place (fl_sqrt prec emax D).
Proof.
  intros N H. destruct (finite_cases prec emax D N) as [F|[E|E]].
  - rewrite (finite_place prec emax D F) in H. destruct (sqrt_runs prec emax D F H) as (A & B). split; [now apply finite_not_nan|]. rewrite (finite_place prec emax _ A), B. apply Rle_trans with (RNE 0); [right; symmetry; apply (rne_zero prec emax)|apply (rne_mono prec emax), sqrt_pos].
  - subst D. cbn in H. pose proof (m_pos emax). lra.
  - subst D. cbn. pose proof (m_pos emax). split; [reflexivity|lra].
Qed.
Lemma copysign_place (x y : float) : is_nan x = false -> is_nan (fl_copysign prec emax x y) = false /\ 0 <= sg y * place (fl_copysign prec emax x y).
Proof.
  intros N. destruct (finite_cases prec emax x N) as [F|[E|E]].
  - destruct (copysign_runs prec emax x y F) as (A & B). split; [now apply finite_not_nan|]. rewrite (finite_place prec emax _ A), B, <- Rmult_assoc, (sg_sq prec emax y), Rmult_1_l. apply Rabs_pos.
  - subst x. pose proof (m_pos emax). unfold fl_copysign, FquadProofs.sg. destruct (Bsign y); cbn; (split; [reflexivity|lra]).
  - subst x. pose proof (m_pos emax). unfold fl_copysign, FquadProofs.sg. destruct (Bsign y); cbn; (split; [reflexivity|lra]).
Qed.
Lemma inf_add' (b : float) (s : bool) : is_finite b = true -> add b (B754_infinity s) = B754_infinity s.
Proof. destruct b; try discriminate; reflexivity. Qed.
Lemma half_inf (x : float) (t : bool) : is_finite x = true -> B2R x = - / 2 -> mul x (B754_infinity t) = B754_infinity (negb t).
Proof.
  intros F V. destruct x as [s|s| |s m e K]; try discriminate; [cbn in V; lra|]. destruct s; [destruct t; reflexivity|]. exfalso.
  pose proof (F2R_gt_0 radix2 {| Fnum := Zpos m; Fexp := e |} ltac:(reflexivity)) as P. change (B2R (B754_finite false m e K)) with (@F2R radix2 {| Fnum := Zpos m; Fexp := e |}) in V. lra.
Qed.
Lemma q_sign (b t : float) : (3 <= emax)%Z -> is_finite b = true -> is_nan t = false -> 0 <= sg b * place t -> let q := mul (fl_lit prec emax (-1) (-1)) (add b t) in is_nan q = false /\ sg b * place q <= 0.
Proof.
  intros E3 Fb N H q. pose proof (m_pos emax) as MP. destruct (lit_half prec emax E3) as (Fh & Vh). pose proof (sg_sq prec emax b) as SS. pose proof (sg_abs prec emax b Fb) as SA.
  assert (SB : 0 <= sg b * B2R b). { rewrite SA, <- Rmult_assoc, SS, Rmult_1_l. apply Rabs_pos. }
  assert (X : is_nan (add b t) = false /\ 0 <= sg b * place (add b t)).
  { destruct (finite_cases prec emax t N) as [F|[E|E]].
    - destruct (add_place prec emax b t Fb F) as (A & B). split; [exact A|]. rewrite B. rewrite (finite_place prec emax t F) in H. pose proof (clr_sign (B2R b + B2R t) (- sg b)) as K. assert (- sg b * - sg b = 1) by lra. specialize (K ltac:(lra) ltac:(lra)). lra.
    - rewrite E in *. rewrite inf_add' by exact Fb. split; [reflexivity|exact H].
    - rewrite E in *. rewrite inf_add' by exact Fb. split; [reflexivity|exact H]. }
  destruct X as (A & B). unfold q. set (x := add b t) in *. clearbody x. destruct (finite_cases prec emax x A) as [F|[E|E]].
  - destruct (mul_place prec emax (fl_lit prec emax (-1) (-1)) x Fh F) as (C & D). split; [exact C|]. rewrite D, Vh. apply clr_sign; [exact SS|]. rewrite (finite_place prec emax x F) in B. lra.
  - subst x. rewrite half_inf by assumption. cbn [is_nan place negb] in *. split; [reflexivity|lra].
  - subst x. rewrite half_inf by assumption. cbn [is_nan place negb] in *. split; [reflexivity|lra].
Qed.
(** q / a for a positive a, and c / q. *)
Lemma div_pos_sign (q a : float) (s : R) : s * s = 1 -> is_nan q = false -> s * place q <= 0 -> is_finite a = true -> 0 < B2R a -> is_nan (div q a) = false /\ s * place (div q a) <= 0.
Proof.
  intros SS N H Fa A. destruct (finite_cases prec emax q N) as [F|[E|E]].
  - destruct (div_place prec emax q a F Fa ltac:(lra)) as (X & Y). split; [exact X|]. rewrite Y. apply clr_sign; [exact SS|]. rewrite (finite_place prec emax q F) in H. assert (I : 0 < / B2R a) by (now apply Rinv_0_lt_compat). unfold Rdiv. rewrite <- Rmult_assoc.
    replace 0 with (0 * / B2R a) by ring. apply Rmult_le_compat_r; lra.
  - subst q. destruct a as [t|t| |t m e K]; try discriminate; [cbn in A; lra|]. destruct t; [exfalso; pose proof (F2R_lt_0 radix2 {| Fnum := Zneg m; Fexp := e |} ltac:(reflexivity)); cbn in A; lra|]. split; [reflexivity|exact H].
  - subst q. destruct a as [t|t| |t m e K]; try discriminate; [cbn in A; lra|]. destruct t; [exfalso; pose proof (F2R_lt_0 radix2 {| Fnum := Zneg m; Fexp := e |} ltac:(reflexivity)); cbn in A; lra|]. split; [reflexivity|exact H].
Qed.
Lemma div_by_sign (c q : float) (s z : R) : s * s = 1 -> z * z = 1 -> is_finite c = true -> 0 <= z * B2R c -> is_nan q = false -> s * place q <= 0 -> place q <> 0 -> is_nan (div c q) = false /\ (s * z) * place (div c q) <= 0.
Proof.
  intros SS ZZ Fc C N H Q. destruct (finite_cases prec emax q N) as [F|E].
  - rewrite (finite_place prec emax q F) in H, Q. destruct (div_place prec emax c q Fc F Q) as (X & Y). split; [exact X|]. rewrite Y. apply clr_sign; [replace (s * z * (s * z)) with ((s * s) * (z * z)) by ring; rewrite SS, ZZ; ring|].
    replace (s * z * (B2R c / B2R q)) with ((z * B2R c) * (s * B2R q) * / (B2R q * B2R q)) by (field; exact Q).
    assert (I : 0 < / (B2R q * B2R q)). { apply Rinv_0_lt_compat. pose proof (Rsqr_pos_lt (B2R q) Q) as K. exact K. }
    assert (P : z * B2R c * (s * B2R q) <= 0). { replace 0 with (z * B2R c * 0) by ring. apply Rmult_le_compat_l; assumption. }
    replace 0 with (0 * / (B2R q * B2R q)) by ring. apply Rmult_le_compat_r; lra.
  - assert (G : exists t, div c q = B754_zero t). { unfold fl_div. destruct E as [E|E]; subst q; destruct c; try discriminate; eexists; reflexivity. } destruct G as (t & G). rewrite G. split; [reflexivity|]. cbn. lra.
Qed.
Lemma eqb_zero (x : float) : is_nan x = false -> fl_eqb prec emax x zero = true <-> place x = 0.
Proof.
  intros N. destruct (lit_zero prec emax) as (Fz & Vz). pose proof (m_pos emax). unfold fl_eqb. destruct (finite_cases prec emax x N) as [F|[E|E]].
  - rewrite Beqb_correct by assumption. rewrite (finite_place prec emax x F), Vz. destruct (Req_bool_spec (B2R x) 0); split; intros; auto; (discriminate || contradiction).
  - subst x. cbn [place]. split; [|intros; lra]. destruct zero; try discriminate; intros K; discriminate.
  - subst x. cbn [place]. split; [|intros; lra]. destruct zero; try discriminate; intros K; discriminate.
Qed.
(** ** The roots' signs *)
Lemma roots_signs (a b c : float) (z : R) : (3 <= emax)%Z -> is_finite b = true -> 0 < B2R a -> is_finite (mul (mul (fl_lit prec emax 4 0) a) c) = true -> z * z = 1 -> 0 <= z * B2R c ->
  match fl_quadratic_solve a b c with
  | None => 0 < B2R c
  | Some (x0, x1) => is_nan x0 = false /\ is_nan x1 = false /\ sg b * place x0 <= 0 /\ sg b * z * place x1 <= 0
  end.
Proof.
  intros E3 Fb A F ZZ C. destruct (mul_parts _ _ F) as (F4 & Fc). destruct (mul_parts _ _ F4) as (_ & Fa). destruct (lit_four prec emax E3) as (Fl & Vl). destruct (diff_place b (mul (fl_lit prec emax 4 0) a) c Fb F) as (ND & SD).
  assert (A4 : 0 <= B2R (mul (fl_lit prec emax 4 0) a)). { destruct (mul_place prec emax _ _ Fl Fa) as (_ & W). rewrite (finite_place prec emax _ F4) in W. rewrite W, Vl. pose proof (clr_sign (4 * B2R a) (- 1) ltac:(lra) ltac:(lra)). lra. }
  unfold fl_quadratic_solve. set (D := fl_diff_of_products b b (mul (fl_lit prec emax 4 0) a) c) in *. cbv zeta.
  assert (Ea : fl_eqb prec emax a zero = false). { destruct (fl_eqb prec emax a zero) eqn:E; [|reflexivity]. apply (eqb_zero a (finite_not_nan prec emax a Fa)) in E. rewrite (finite_place prec emax a Fa) in E. lra. }
  rewrite Ea. cbn [andb negb]. rewrite orb_false_r. destruct (lit_zero prec emax) as (Fz & Vz).
  destruct (fl_ltb prec emax D zero) eqn:L.
  - rewrite (ltb_place prec emax) in L by (exact ND || reflexivity). rewrite (proj1 (zero_place prec emax)) in L. destruct (Rlt_bool_spec (place D) 0) as [K|K]; [|discriminate].
    apply Rnot_le_lt. intros Q. assert (T : B2R (mul (fl_lit prec emax 4 0) a) * B2R c <= 0). { replace 0 with (B2R (mul (fl_lit prec emax 4 0) a) * 0) by ring. now apply Rmult_le_compat_l. } specialize (SD T). lra.
  - rewrite (ltb_place prec emax) in L by (exact ND || reflexivity). rewrite (proj1 (zero_place prec emax)) in L. destruct (Rlt_bool_spec (place D) 0) as [K|K]; [discriminate|].
    destruct (sqrt_place D ND K) as (NS & _). destruct (copysign_place (fl_sqrt prec emax D) b NS) as (NT & ST). destruct (q_sign b _ E3 Fb NT ST) as (NQ & SQ). cbv zeta in NQ, SQ. set (q := mul _ (add b _)) in *. clearbody q.
    destruct (div_pos_sign q a (sg b) (sg_sq prec emax b) NQ SQ Fa A) as (N0 & S0). split; [exact N0|]. destruct (fl_eqb prec emax q zero) eqn:Eq; cbn [negb].
    + apply (eqb_zero q NQ) in Eq. split; [exact N0|]. split; [exact S0|].
      assert (Fq : is_finite q = true) by (apply place_finite; [exact NQ|rewrite Eq, Rabs_R0; apply m_pos]). rewrite (finite_place prec emax q Fq) in Eq.
      destruct (div_place prec emax q a Fq Fa ltac:(lra)) as (_ & Y). rewrite Y, Eq. replace (0 / B2R a) with 0 by (unfold Rdiv; ring). rewrite (rne_zero prec emax), cl_small by (rewrite Rabs_R0; apply m_pos). lra.
    + assert (Nq : place q <> 0). { intros E. apply (eqb_zero q NQ) in E. congruence. } destruct (div_by_sign c q (sg b) z (sg_sq prec emax b) ZZ Fc C NQ SQ Nq) as (N1 & S1). split; [exact N1|]. split; [exact S0|exact S1].
Qed.
(** ** Rays *)
Lemma pm_cases s : s * s = 1 -> s = 1 \/ s = - 1. Proof. intros S. destruct (Rmult_integral (s - 1) (s + 1)); [lra|left; lra|right; lra]. Qed.
Lemma c_sign N (s : fl_sphere prec emax) (o : vector) : is_finite (fl_ray_c N s o) = true -> (fl_sphere_contains N s o = true <-> B2R (fl_ray_c N s o) <= 0).
Proof.
  intros F. unfold fl_ray_c in *. destruct (sub_parts _ _ F) as (F1 & F2). unfold fl_sphere_contains. rewrite (leb_iff prec emax) by (now apply finite_not_nan). rewrite !finite_place by assumption.
  set (x := fl_mag2 _ _) in *. set (y := mul _ _) in *. clearbody x y. destruct (sub_place prec emax x y F1 F2) as (_ & V). rewrite (finite_place prec emax _ F) in V. rewrite V. split; intros H.
  - pose proof (clr_sign (B2R x - B2R y) 1 ltac:(lra) ltac:(lra)). lra.
  - apply Rnot_lt_le. intros L. assert (P : 0 < B2R x - B2R y) by lra.
    assert (Q : RNE (B2R x - B2R y) <> 0). { unfold Rminus. apply (@round_plus_neq_0 radix2 fexp' VT _ (Znearest (fun t => negb (Z.even t))) _ (B2R x) (- B2R y)); [apply (b2r_format prec emax)|apply generic_format_opp, (b2r_format prec emax)|lra]. }
    assert (G : 0 <= RNE (B2R x - B2R y)) by (apply Rle_trans with (RNE 0); [right; symmetry; apply (rne_zero prec emax)|apply (rne_mono prec emax); lra]).
    assert (K : 0 < cl (RNE (B2R x - B2R y))). { pose proof (m_pos emax). unfold FboxProofs.cl. apply Rlt_le_trans with (Rmin M (RNE (B2R x - B2R y))); [apply Rmin_glb_lt; lra|apply Rmax_r]. } lra.
Qed.
Lemma ray_from_inside N (s : fl_sphere prec emax) (o d : vector) : (3 <= emax)%Z -> is_finite (fl_ray_b N s o d) = true -> is_finite (mul (mul (fl_lit prec emax 4 0) (fl_ray_a N d)) (fl_ray_c N s o)) = true -> 0 < B2R (fl_ray_a N d) ->
  fl_sphere_contains N s o = true -> exists l h, fl_sphere_ray N s o d = Some (l, h) /\ is_nan l = false /\ is_nan h = false /\ place l <= 0 <= place h.
Proof.
  intros E3 Fb F A H. destruct (mul_parts _ _ F) as (_ & Fc). apply (c_sign N s o Fc) in H. pose proof (roots_signs _ _ _ (- 1) E3 Fb A F ltac:(lra) ltac:(lra)) as R. unfold fl_sphere_ray.
  destruct (fl_quadratic_solve _ _ _) as [(x0 & x1)|]; [|lra]. destruct R as (N0 & N1 & S0 & S1). destruct (min_place prec emax x0 x1 N0 N1) as (A1 & A2). destruct (max_place prec emax x0 x1 N0 N1) as (B1 & B2).
  exists (fl_min prec emax x0 x1), (fl_max prec emax x0 x1). split; [reflexivity|]. split; [exact A1|]. split; [exact B1|]. rewrite A2, B2.
  destruct (pm_cases _ (sg_sq prec emax (fl_ray_b N s o d))) as [E|E]; rewrite E in S0, S1.
  - split; [apply Rle_trans with (place x0); [apply Rmin_l|lra]|apply Rle_trans with (place x1); [lra|apply Rmax_r]].
  - split; [apply Rle_trans with (place x1); [apply Rmin_r|lra]|apply Rle_trans with (place x0); [lra|apply Rmax_l]].
Qed.
Lemma ray_from_outside N (s : fl_sphere prec emax) (o d : vector) : (3 <= emax)%Z -> is_finite (fl_ray_b N s o d) = true -> is_finite (mul (mul (fl_lit prec emax 4 0) (fl_ray_a N d)) (fl_ray_c N s o)) = true -> 0 < B2R (fl_ray_a N d) ->
  fl_sphere_contains N s o = false -> let t := fl_dot N d (fl_vsub prec emax (fl_center s) o) in
  match fl_sphere_ray N s o d with
  | None => True
  | Some (l, h) => is_nan l = false /\ is_nan h = false /\ (0 < B2R t -> 0 <= place l) /\ (B2R t < 0 -> place h <= 0)
  end.
Proof.
  intros E3 Fb F A H t. destruct (mul_parts _ _ F) as (_ & Fc). assert (C : 0 < B2R (fl_ray_c N s o)). { apply Rnot_le_lt. intros C. apply (c_sign N s o Fc) in C. congruence. }
  pose proof (roots_signs _ _ _ 1 E3 Fb A F ltac:(lra) ltac:(lra)) as R. unfold fl_sphere_ray. destruct (fl_quadratic_solve _ _ _) as [(x0 & x1)|]; [|exact I]. destruct R as (N0 & N1 & S0 & S1). rewrite Rmult_1_r in S1.
  destruct (min_place prec emax x0 x1 N0 N1) as (A1 & A2). destruct (max_place prec emax x0 x1 N0 N1) as (B1 & B2). split; [exact A1|]. split; [exact B1|]. rewrite A2, B2.
  assert (T : B2R (fl_ray_b N s o d) = RNE (- 2 * B2R t)).
  { unfold fl_ray_b in *. destruct (mul_parts _ _ Fb) as (F2 & Ft). destruct (lit_runs prec emax (-2) 0) as (_ & V).
    - change (pw 0) with 1. rewrite Rmult_1_r. change (-2) with (- pw 1). apply generic_format_opp. apply (pw_format prec emax). unfold FmaSpec.emin. pose proof (prec_pos prec). lia.
    - change (pw 0) with 1. rewrite Rmult_1_r. change (-2) with (- pw 1). rewrite Rabs_Ropp, Rabs_pos_eq by (left; apply bpow_gt_0). apply bpow_lt. lia.
    - rewrite (mult_finite prec emax _ _ F2 Ft Fb), V. change (pw 0) with 1. rewrite Rmult_1_r. reflexivity. }
  set (b := fl_ray_b N s o d) in *. clearbody b.
  assert (D2 : RNE (- 2 * B2R t) = - 2 * B2R t). { apply (rn_id emin' prec). replace (- 2 * B2R t) with (- (pw 1 * B2R t)) by (change (pw 1) with 2; ring). apply generic_format_opp. apply (scale_up prec emax); [lia|apply (b2r_format prec emax)]. }
  pose proof (sg_abs prec emax b Fb) as SA. pose proof (Rabs_pos (B2R b)) as AB.
  destruct (pm_cases _ (sg_sq prec emax b)) as [E|E]; rewrite E in *; split; intros Q; try (exfalso; lra).
  - apply Rmax_lub; lra.
  - apply Rmin_glb; lra.
Qed.
End Sr.
