From Coq Require Import Reals ZArith Lia Lra Bool.
From Flocq Require Import Core Relative Plus_error BinarySingleNaN.
From Verif Require Import FmaModel FmaSpec FmaProofs FquadModel FquadProofs FquadMore FvecModel FvecSpec FvecProofs FvecMore FmtxModel FmtxSpec FmtxProofs FmtxMore FboxModel FboxSpec FboxProofs FsphModel.
Open Scope R_scope.

Section Sph.
Variable prec emax : Z.
Context {Hp : Prec_gt_0 prec} {He : Prec_lt_emax prec emax}.
Notation float := (binary_float prec emax).
Notation vector := (nat -> float).
Notation pw := (bpow radix2).
Notation emin' := (FmaSpec.emin prec emax).
Notation fexp' := (FLT_exp emin' prec).
Notation RNE := (rn fexp' (fun t => negb (Z.even t))).
Notation FT := (generic_format radix2 fexp').
Notation M := (pw emax).
Notation u := (pw (- prec)).
Notation st := (step prec).
Notation add := (fl_add prec emax).
Notation sub := (fl_sub prec emax).
Notation mul := (fl_mul prec emax).
Notation fma := (fl_fma prec emax).
Notation zero := (fl_lit prec emax 0 0).
Notation cl := (cl emax).
Notation inf := (B754_infinity false : float).

Lemma leb_ltb (x y : float) : is_nan x = false -> is_nan y = false -> fl_leb x y = negb (fl_ltb prec emax y x).
Proof.
  intros X Y. unfold fl_leb, fl_ltb. destruct (is_finite x) eqn:Fx, (is_finite y) eqn:Fy.
  - rewrite Bleb_correct, Bltb_correct by assumption. symmetry. apply negb_Rle_bool.
  - destruct x as [s|s| |s m e H], y as [t|t| |t k f K]; try discriminate; destruct s, t; reflexivity.
  - destruct x as [s|s| |s m e H], y as [t|t| |t k f K]; try discriminate; destruct s, t; reflexivity.
  - destruct x as [s|s| |s m e H], y as [t|t| |t k f K]; try discriminate; destruct s, t; reflexivity.
Qed.
Lemma leb_place (x y : float) : is_nan x = false -> is_nan y = false -> fl_leb x y = Rle_bool (place x) (place y).
Proof. intros X Y. rewrite leb_ltb, ltb_place by assumption. apply negb_Rle_bool. Qed.
Lemma leb_iff (x y : float) : is_nan x = false -> is_nan y = false -> (fl_leb x y = true <-> place x <= place y).
Proof. intros X Y. rewrite leb_place by assumption. destruct (Rle_bool_spec (place x) (place y)); split; intros; auto; (discriminate || lra). Qed.
Lemma leb_nan (x y : float) : is_nan x = true \/ is_nan y = true -> fl_leb x y = false.
Proof. unfold fl_leb. intros [H|H]; [destruct x|destruct y]; try discriminate; [reflexivity|destruct x as [s|s| |s m e K]; try destruct s; reflexivity]. Qed.
Lemma rne_opp x : RNE (- x) = - RNE x. Proof. apply (round_NE_opp radix2 fexp'). Qed.
Lemma cl_opp x : cl (- x) = - cl x.
Proof.
  pose proof (m_pos emax) as P. destruct (Rle_dec M x) as [A|A]; [rewrite (cl_hi emax x), (cl_lo emax (- x)); lra|]. destruct (Rle_dec x (- M)) as [B|B]; [rewrite (cl_lo emax x), (cl_hi emax (- x)); lra|].
  assert (R : Rabs x <= M) by (apply Rabs_le; lra). rewrite (cl_id emax x R), (cl_id emax (- x)) by (now rewrite Rabs_Ropp). reflexivity.
Qed.
Lemma clr_abs a b : Rabs a <= Rabs b -> Rabs (cl (RNE a)) <= Rabs (cl (RNE b)).
Proof.
  intros H. assert (E : forall x, Rabs (cl (RNE x)) = cl (RNE (Rabs x))).
  { intros x. unfold Rabs at 2. assert (Z : cl (RNE 0) = 0) by (rewrite rne_zero; apply cl_id; rewrite Rabs_R0; left; apply m_pos). destruct (Rcase_abs x) as [r|r].
    - rewrite rne_opp, cl_opp. apply Rabs_left1. apply Rle_trans with (cl (RNE 0)); [apply (clr_mono prec emax); left; exact r|right; exact Z].
    - apply Rabs_pos_eq. apply Rle_trans with (cl (RNE 0)); [right; symmetry; exact Z|apply (clr_mono prec emax); apply Rge_le, r]. }
  rewrite !E. now apply (clr_mono prec emax).
Qed.
(** ** Sums of squares, infinities included *)
Lemma fma_place (x s : float) : is_finite x = true -> is_finite s = true -> 0 <= B2R s -> is_nan (fma x x s) = false /\ place (fma x x s) = cl (RNE (B2R x * B2R x + B2R s)).
Proof.
  intros Fx Fs S. pose proof (Bfma_correct prec emax _ _ mode_NE x x s Fx Fx Fs) as H. cbv zeta in H. assert (Q : 0 <= B2R x * B2R x + B2R s) by (pose proof (Rle_0_sqr (B2R x)); unfold Rsqr in *; lra).
  assert (C : (if Rlt_bool (Rabs (RNE (B2R x * B2R x + B2R s))) M then B2R (fma x x s) = RNE (B2R x * B2R x + B2R s) /\ is_finite (fma x x s) = true else B2SF (fma x x s) = binary_overflow prec emax mode_NE false)).
  { rewrite (Rlt_bool_false (B2R x * B2R x + B2R s) 0 Q) in H. change (round radix2 _ (round_mode mode_NE) (B2R x * B2R x + B2R s)) with (RNE (B2R x * B2R x + B2R s)) in H. destruct (Rlt_bool _ _); [|exact H]. split; [exact (proj1 H)|exact (proj1 (proj2 H))]. }
  apply (clamped_result prec emax _ _ false C); [discriminate|intros _; exact Q].
Qed.
Lemma fma_inf (x s : float) : is_nan x = false -> is_nan s = false -> 0 <= place s -> is_finite x = false \/ is_finite s = false -> fma x x s = inf.
Proof.
  intros X S P H. pose proof (m_pos emax). unfold fl_fma, Bfma. destruct x as [a|a| |a m e K], s as [b|b| |b k f L]; try discriminate; cbn in P |- *;
    try (destruct b; cbn in P; [exfalso; lra|]); try (destruct H; discriminate); try (destruct a; reflexivity); reflexivity.
Qed.
Lemma fma_nonneg (x s : float) : is_nan x = false -> is_nan s = false -> 0 <= place s -> is_nan (fma x x s) = false /\ 0 <= place (fma x x s).
Proof.
  intros X S P. pose proof (m_pos emax). destruct (is_finite x) eqn:Fx, (is_finite s) eqn:Fs; try (rewrite fma_inf by auto; split; [reflexivity|cbn; lra]).
  rewrite finite_place in P by exact Fs. destruct (fma_place x s Fx Fs P) as (A & B). split; [exact A|]. rewrite B. apply Rle_trans with (cl (RNE 0)); [rewrite rne_zero, cl_id by (rewrite Rabs_R0; lra); lra|].
  apply (clr_mono prec emax). pose proof (Rle_0_sqr (B2R x)). unfold Rsqr in *. lra.
Qed.
Lemma fma_mono (x y s t : float) : is_nan x = false -> is_nan y = false -> is_nan s = false -> is_nan t = false -> Rabs (place x) <= Rabs (place y) -> 0 <= place s <= place t ->
  place (fma x x s) <= place (fma y y t).
Proof.
  intros X Y S T L (S0 & ST). pose proof (m_pos emax) as P0.
  destruct (is_finite y) eqn:Fy; [destruct (is_finite t) eqn:Ft|]; [|rewrite (fma_inf y t) by (auto; lra); apply place_range|rewrite (fma_inf y t) by (auto; lra); apply place_range].
  assert (Fx : is_finite x = true). { destruct (finite_cases prec emax x X) as [F|[->| ->]]; [exact F| |]; exfalso; apply (finite_inside prec emax) in Fy; cbn in L; [rewrite Rabs_Ropp in L|]; rewrite (Rabs_pos_eq M) in L by lra; apply Rabs_le_inv in Fy || idtac; assert (Rabs (place y) < M) by (apply Rabs_lt; exact Fy); lra. }
  assert (Fs : is_finite s = true). { destruct (finite_cases prec emax s S) as [F|[->| ->]]; [exact F| |]; exfalso; apply (finite_inside prec emax) in Ft; cbn in S0, ST; lra. }
  rewrite !finite_place in * by assumption. rewrite (proj2 (fma_place x s Fx Fs S0)), (proj2 (fma_place y t Fy Ft ltac:(lra))). apply (clr_mono prec emax).
  assert (B2R x * B2R x <= B2R y * B2R y) by (apply Rsqr_le_abs_1 in L; exact L). lra.
Qed.
Lemma zero_place : place zero = 0 /\ is_nan zero = false. Proof. split; [|reflexivity]. destruct (lit_zero prec emax) as (F & V). now rewrite finite_place. Qed.
Lemma mag2_place N (v : vector) : not_nan N v -> is_nan (fl_mag2 N v) = false /\ 0 <= place (fl_mag2 N v).
Proof.
  induction N as [|n IH]; intros H; [destruct zero_place as (A & B); cbn [fl_mag2]; split; [exact B|rewrite A; lra]|].
  destruct IH as (A & B); [intros i I; apply H; lia|]. cbn [fl_mag2]. apply fma_nonneg; auto.
Qed.
Lemma mag2_mono N (v w : vector) : not_nan N v -> not_nan N w -> (forall i, (i < N)%nat -> Rabs (place (v i)) <= Rabs (place (w i))) -> place (fl_mag2 N v) <= place (fl_mag2 N w).
Proof.
  induction N as [|n IH]; intros V W H; [apply Rle_refl|]. cbn [fl_mag2].
  assert (V' : not_nan n v) by (intros i I; apply V; lia). assert (W' : not_nan n w) by (intros i I; apply W; lia).
  destruct (mag2_place n v V') as (A & B). destruct (mag2_place n w W') as (C & D). apply fma_mono; auto. split; [exact B|]. apply IH; auto.
Qed.
Lemma mag2_nan N (v : vector) i : (i < N)%nat -> is_nan (v i) = true -> is_nan (fl_mag2 N v) = true.
Proof.
  induction N as [|n IH]; intros I H; [lia|]. cbn [fl_mag2]. unfold fl_multiply_add, fl_fma, Bfma. destruct (Nat.eq_dec i n) as [E|Ne].
  - subst i. destruct (v n); try discriminate. reflexivity.
  - specialize (IH ltac:(lia) H). destruct (fl_mag2 n v); try discriminate. destruct (v n) as [a|a| |a m e K]; reflexivity.
Qed.
End Sph.
