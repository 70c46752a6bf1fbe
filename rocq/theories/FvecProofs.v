From Coq Require Import Reals ZArith Lia Lra Bool.
From Flocq Require Import Core Relative Plus_error Mult_error Operations BinarySingleNaN.
From Verif Require Import FmaModel FmaSpec FmaProofs FquadModel FquadProofs FquadMore FvecModel FvecSpec.
Open Scope R_scope.

Section Exact.
Variable prec emax : Z.
Context {Hp : Prec_gt_0 prec} {He : Prec_lt_emax prec emax}.
Notation float := (binary_float prec emax).
Lemma szero_comm m (x y z : float) : Bfma_szero prec emax m x y z = Bfma_szero prec emax m y x z.
Proof. unfold Bfma_szero. now rewrite (xorb_comm (Bsign x)). Qed.
Lemma fmult_comm (a b : Defs.float radix2) : Fmult a b = Fmult b a.
Proof. destruct a as [m e], b as [n f]. cbn. now rewrite Z.mul_comm, Z.add_comm. Qed.
Lemma fma_comm (x y z : float) : fl_fma prec emax x y z = fl_fma prec emax y x z.
Proof.
  unfold fl_fma, Bfma. rewrite (szero_comm _ x y).
  destruct x as [sx|sx| |sx mx ex Hx], y as [sy|sy| |sy my ey Hy]; try reflexivity; destruct z as [sz|sz| |sz mz ez Hz]; try reflexivity; cbv zeta; rewrite ?(xorb_comm sx); try reflexivity;
    rewrite (fmult_comm (Float radix2 (cond_Zopp sx (Z.pos mx)) ex)); reflexivity.
Qed.
Lemma dot_symmetric N (v w : nat -> float) : fl_dot N v w = fl_dot N w v.
Proof. induction N as [|k IH]; [reflexivity|]. cbn [fl_dot]. unfold fl_multiply_add. now rewrite IH, fma_comm. Qed.
(** Squares do not depend on signs. *)
Lemma fma_neg (x z : float) : fl_fma prec emax (Bopp x) (Bopp x) z = fl_fma prec emax x x z.
Proof.
  unfold fl_fma, Bfma. assert (S : Bfma_szero prec emax mode_NE (Bopp x) (Bopp x) z = Bfma_szero prec emax mode_NE x x z).
  { unfold Bfma_szero. destruct x as [s|s| |s m e H]; cbn; rewrite ?xorb_nilpotent; reflexivity. }
  rewrite S. destruct x as [s|s| |s m e H]; cbn [Bopp]; rewrite ?xorb_nilpotent; try reflexivity.
  assert (M : Fmult (Float radix2 (cond_Zopp (negb s) (Z.pos m)) e) (Float radix2 (cond_Zopp (negb s) (Z.pos m)) e) = Fmult (Float radix2 (cond_Zopp s (Z.pos m)) e) (Float radix2 (cond_Zopp s (Z.pos m)) e)).
  { cbn. f_equal. destruct s; reflexivity. }
  destruct z as [sz|sz| |sz mz ez Hz]; try reflexivity; cbv zeta; rewrite M; reflexivity.
Qed.
Lemma opposite (x y : float) : is_finite x = true -> is_finite y = true -> B2R x = - B2R y -> x = Bopp y \/ (x = y /\ B2R y = 0).
Proof.
  intros Fx Fy E. destruct (Bool.bool_dec (Bsign x) (Bsign (Bopp y))) as [S|S].
  - left. apply B2R_Bsign_inj; [exact Fx|now rewrite is_finite_Bopp|now rewrite B2R_Bopp|exact S].
  - right. assert (Ny : is_nan y = false) by (destruct y; (reflexivity || discriminate)). rewrite Bsign_Bopp in S by exact Ny.
    assert (SS : Bsign x = Bsign y) by (destruct (Bsign x), (Bsign y); cbn in S; congruence).
    pose proof (sg_abs prec emax x Fx) as A. pose proof (sg_abs prec emax y Fy) as B. unfold sg in *. rewrite SS in A.
    assert (AA : Rabs (B2R x) = Rabs (B2R y)) by (rewrite E; apply Rabs_Ropp). rewrite AA in A.
    assert (Z : B2R y = 0) by lra. split; [|exact Z]. apply B2R_Bsign_inj; auto. lra.
Qed.
Lemma sub_opposite (x y : float) : fl_sub prec emax x y = Bopp (fl_sub prec emax y x) \/ fl_sub prec emax x y = fl_sub prec emax y x.
Proof.
  destruct (is_finite x) eqn:Fx, (is_finite y) eqn:Fy.
  - pose proof (Bminus_correct prec emax _ _ mode_NE x y Fx Fy) as H1. pose proof (Bminus_correct prec emax _ _ mode_NE y x Fy Fx) as H2. unfold fl_sub.
    assert (R : round radix2 (SpecFloat.fexp prec emax) (round_mode mode_NE) (B2R y - B2R x) = - round radix2 (SpecFloat.fexp prec emax) (round_mode mode_NE) (B2R x - B2R y)).
    { replace (B2R y - B2R x) with (- (B2R x - B2R y)) by ring. cbn [round_mode]. apply round_NE_opp. }
    rewrite R, Rabs_Ropp in H2. destruct (Rlt_bool _ _).
    + destruct H1 as (V1 & F1 & _), H2 as (V2 & F2 & _). destruct (opposite (Bminus mode_NE x y) (Bminus mode_NE y x)) as [E|(E & _)]; auto. rewrite V1, V2. ring.
    + destruct H1 as (V1 & S1), H2 as (V2 & S2). left. apply B2SF_inj. rewrite V1. destruct (Bminus mode_NE y x) as [s|s| |s m e H]; cbn in V2; try discriminate. injection V2 as ->. cbn. f_equal.
      rewrite S1, S2, Bool.negb_involutive. reflexivity.
  - destruct x as [sx|sx| |sx mx ex Hx], y as [sy|sy| |sy my ey Hy]; try discriminate; cbn; auto; left; cbn; now rewrite ?Bool.negb_involutive.
  - destruct x as [sx|sx| |sx mx ex Hx], y as [sy|sy| |sy my ey Hy]; try discriminate; cbn; auto; left; cbn; now rewrite ?Bool.negb_involutive.
  - destruct x as [sx|sx| |sx mx ex Hx], y as [sy|sy| |sy my ey Hy]; try discriminate; cbn; auto; destruct sx, sy; cbn; auto.
Qed.
Lemma dist2_symmetric N (v w : nat -> float) : fl_dist2 N v w = fl_dist2 N w v.
Proof.
  unfold fl_dist2. induction N as [|k IH]; [reflexivity|]. cbn [fl_mag2]. unfold fl_multiply_add. rewrite IH. unfold fl_vsub. destruct (sub_opposite (v k) (w k)) as [E|E]; rewrite E; [apply fma_neg|reflexivity].
Qed.
Lemma dist_symmetric N (v w : nat -> float) : fl_dist N v w = fl_dist N w v.
Proof. pose proof (dist2_symmetric N v w) as H. unfold fl_dist2 in H. unfold fl_dist, fl_mag. now rewrite H. Qed.
(** The argument of the arc cosine. *)
Lemma lit_unit m : m = 1%Z \/ m = (-1)%Z -> (3 <= emax)%Z -> is_finite (fl_lit prec emax m 0) = true /\ B2R (fl_lit prec emax m 0) = IZR m.
Proof.
  intros M E. pose proof (prec_pos prec). destruct (lit_runs prec emax m 0) as (F & V).
  - change (bpow radix2 0) with 1. rewrite Rmult_1_r. destruct M as [-> | ->].
    + change 1 with (bpow radix2 0). apply pw_format; [exact Hp|]. unfold FmaSpec.emin. lia.
    + replace (IZR (-1)) with (- bpow radix2 0) by (cbn; lra). apply generic_format_opp. apply pw_format; [exact Hp|]. unfold FmaSpec.emin. lia.
  - change (bpow radix2 0) with 1. rewrite Rmult_1_r. rewrite <- abs_IZR. replace (Z.abs m) with 1%Z by lia. change 1 with (bpow radix2 0). apply bpow_lt. lia.
  - change (bpow radix2 0) with 1 in V. rewrite Rmult_1_r in V. split; assumption.
Qed.
Lemma finite_ltb_inf (x : float) s : is_finite x = true -> fl_ltb prec emax (B754_infinity s) x = s /\ fl_ltb prec emax x (B754_infinity s) = negb s.
Proof. destruct x as [sx|sx| |sx mx ex Hx]; try discriminate; intros _; destruct s; split; reflexivity. Qed.
Lemma clamped (c lo hi : float) : is_finite lo = true -> is_finite hi = true -> B2R lo <= B2R hi ->
  let r := fl_min prec emax hi (fl_max prec emax c lo) in is_finite r = true /\ B2R lo <= B2R r <= B2R hi /\ (is_nan c = true -> r = hi) /\ (is_finite c = true -> B2R lo <= B2R c <= B2R hi -> B2R r = B2R c).
Proof.
  intros Fl Fh L r. unfold r, fl_min, fl_max. destruct c as [s|s| |s m e Hb] eqn:E.
  2: { destruct (finite_ltb_inf lo s Fl) as (-> & _). destruct s.
       - unfold fl_ltb. rewrite Bltb_correct by assumption. destruct (Rlt_bool_spec (B2R lo) (B2R hi)); repeat split; try assumption; try lra; discriminate.
       - destruct (finite_ltb_inf hi false Fh) as (-> & _). repeat split; try assumption; try lra; discriminate. }
  2: { cbn. repeat split; try assumption; try lra; discriminate. }
  all: rewrite <- E; assert (Fc : is_finite c = true) by (rewrite E; reflexivity); assert (Nc : is_nan c = false) by (rewrite E; reflexivity); clear E;
    unfold fl_ltb; rewrite (Bltb_correct _ _ c lo) by assumption; destruct (Rlt_bool_spec (B2R c) (B2R lo));
      [rewrite (Bltb_correct _ _ lo hi) by assumption; destruct (Rlt_bool_spec (B2R lo) (B2R hi))|rewrite (Bltb_correct _ _ c hi) by assumption; destruct (Rlt_bool_spec (B2R c) (B2R hi))];
      repeat split; try assumption; try lra; congruence.
Qed.
Lemma cosine_range N (v w : nat -> float) : (3 <= emax)%Z -> is_finite (fl_cosine N v w) = true /\ -1 <= B2R (fl_cosine N v w) <= 1.
Proof.
  intros E. destruct (lit_unit 1 ltac:(auto) E) as (F1 & V1). destruct (lit_unit (-1) ltac:(auto) E) as (F2 & V2).
  destruct (clamped (fl_dot N (fl_unit N w) (fl_unit N v)) _ _ F2 F1 ltac:(rewrite V1, V2; lra)) as (F & B & _). rewrite V1, V2 in B. split; [exact F|exact B].
Qed.
End Exact.
