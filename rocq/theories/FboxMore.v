From Coq Require Import Reals ZArith Lia Lra Bool List.
From Flocq Require Import Core Relative Plus_error Mult_error Operations BinarySingleNaN.
From Verif Require Import FmaModel FmaSpec FmaProofs FquadModel FquadProofs FquadMore FvecModel FvecSpec FvecProofs FvecMore FmtxModel FmtxSpec FmtxProofs FmtxMore FboxModel FboxSpec FboxProofs.
Import ListNotations.
Open Scope R_scope.

Section Box.
Variable prec emax : Z.
Context {Hp : Prec_gt_0 prec} {He : Prec_lt_emax prec emax}.
Notation float := (binary_float prec emax).
Notation pw := (bpow radix2).
Notation emin' := (FmaSpec.emin prec emax).
Notation fexp' := (FLT_exp emin' prec).
Notation RNE := (rn fexp' (fun t => negb (Z.even t))).
Notation FT := (generic_format radix2 fexp').
Notation M := (pw emax).
Notation u := (pw (- prec)).
Notation st := (step prec).
Notation h := (pw (emin' - 1)).
Notation cl := (FboxProofs.cl emax).
Notation add := (fl_add prec emax).
Notation sub := (fl_sub prec emax).
Notation mul := (fl_mul prec emax).
Notation div := (fl_div prec emax).
Notation zero := (fl_lit prec emax 0 0).
Notation one := (fl_one prec emax).
Notation two := (fl_lit prec emax 2 0).
Hypothesis P2 : (2 <= prec)%Z.

Lemma lit_two : is_finite two = true /\ B2R two = 2.
Proof.
  pose proof (He : (prec < emax)%Z). destruct (lit_runs prec emax 2 0) as (F & V); [| |change (pw 0) with 1 in V; rewrite Rmult_1_r in V; split; assumption]; change (pw 0) with 1; rewrite Rmult_1_r; change 2 with (pw 1).
  - apply (pw_format prec emax). unfold FmaSpec.emin. lia.
  - rewrite Rabs_pos_eq by apply bpow_ge_0. apply bpow_lt. lia.
Qed.
Lemma rne_shrink x : FT x -> forall y, Rabs y <= Rabs x -> Rabs (RNE y) <= Rabs x.
Proof. intros F y H. unfold rn. apply abs_round_le_generic; [now apply FLT_exp_valid|auto with typeclass_instances|now apply generic_format_abs|exact H]. Qed.
Lemma half (x : float) : is_finite x = true -> is_finite (div x two) = true /\ B2R (div x two) = RNE (B2R x / 2).
Proof.
  intros F. destruct lit_two as (F2 & V2). destruct (div_runs prec emax x two F) as (A & B); [rewrite V2; lra| |rewrite V2 in B; auto].
  rewrite V2. eapply Rle_lt_trans; [apply (rne_shrink (B2R x))|apply abs_B2R_lt_emax]; [apply b2r_format|]. unfold Rdiv. rewrite Rabs_mult, (Rabs_pos_eq (/ 2)) by lra. pose proof (Rabs_pos (B2R x)). lra.
Qed.
Lemma add_zero_lit (x : float) : same_number (add x zero) x.
Proof. destruct (lit_zero prec emax) as (F & V). destruct (zero_float prec emax zero F V) as (s & E). rewrite E. apply add_zero. Qed.
Lemma sub_zero_lit (x : float) : same_number (sub x zero) x.
Proof. destruct (lit_zero prec emax) as (F & V). destruct (zero_float prec emax zero F V) as (s & E). rewrite E. rewrite <- sub_neg. change (fl_neg prec emax (B754_zero s)) with (@B754_zero prec emax (negb s)). apply add_zero. Qed.
Lemma same_finite (x y : float) : same_number x y -> is_finite x = is_finite y /\ B2R x = B2R y /\ place x = place y /\ is_nan x = is_nan y.
Proof. intros [->|(A & B & C & D)]; [auto|]. rewrite !finite_place, !finite_not_nan by assumption. rewrite A, B, C, D. auto. Qed.
(** *** Centers *)
Lemma center_value (b : fl_box prec emax) i : is_finite (add (fl_hi b i) (fl_lo b i)) = true -> is_finite (fl_center b i) = true /\ B2R (fl_center b i) = RNE (RNE (B2R (fl_hi b i) + B2R (fl_lo b i)) / 2).
Proof.
  intros F. destruct (plus_finite prec emax _ _ F) as (_ & _ & V). destruct (same_finite _ _ (add_zero_lit (add (fl_hi b i) (fl_lo b i)))) as (F' & V' & _). rewrite F in F'. destruct (half _ F') as (A & B). unfold fl_center. split; [exact A|]. rewrite B, V', V. reflexivity.
Qed.
Lemma double_format x : FT x -> FT (2 * x). Proof. intros F. exact (scale_up prec emax x 1 ltac:(lia) F). Qed.
Lemma center_in (b : fl_box prec emax) i : is_finite (add (fl_hi b i) (fl_lo b i)) = true -> place (fl_lo b i) <= place (fl_hi b i) ->
  is_finite (fl_center b i) = true /\ B2R (fl_lo b i) <= B2R (fl_center b i) <= B2R (fl_hi b i).
Proof.
  intros F L. destruct (plus_finite prec emax _ _ F) as (Fh & Fl & _). rewrite !finite_place in L by assumption. destruct (center_value b i F) as (A & ->). split; [exact A|]. set (l := B2R (fl_lo b i)) in *. set (r := B2R (fl_hi b i)) in *.
  assert (FL : FT l) by apply b2r_format. assert (FR : FT r) by apply b2r_format.
  pose proof (rn_id emin' prec (fun t => negb (Z.even t)) _ FL) as IL. pose proof (rn_id emin' prec (fun t => negb (Z.even t)) _ FR) as IR. pose proof (rn_id emin' prec (fun t => negb (Z.even t)) _ (double_format _ FL)) as I2L. pose proof (rn_id emin' prec (fun t => negb (Z.even t)) _ (double_format _ FR)) as I2R.
  pose proof (rne_mono prec emax (2 * l) (r + l) ltac:(lra)) as X. pose proof (rne_mono prec emax (r + l) (2 * r) ltac:(lra)) as Y. rewrite I2L in X. rewrite I2R in Y. split.
  - apply Rle_trans with (RNE l); [rewrite IL; apply Rle_refl|]. apply (rne_mono prec emax). lra.
  - apply Rle_trans with (RNE r); [|rewrite IR; apply Rle_refl]. apply (rne_mono prec emax). lra.
Qed.
Lemma u_pos : 0 < u. Proof. apply bpow_gt_0. Qed.
Lemma h_pos : 0 < h. Proof. apply bpow_gt_0. Qed.
Lemma center_accurate (b : fl_box prec emax) i : is_finite (add (fl_hi b i) (fl_lo b i)) = true -> let mid := (B2R (fl_lo b i) + B2R (fl_hi b i)) / 2 in
  Rabs (B2R (fl_center b i) - mid) <= (st ^ 2 - 1) * Rabs mid + h.
Proof.
  intros F mid. destruct (center_value b i F) as (_ & ->). destruct (sum_model prec emax (B2R (fl_hi b i)) (B2R (fl_lo b i)) ltac:(apply b2r_format) ltac:(apply b2r_format)) as (e & E & ->).
  replace ((B2R (fl_hi b i) + B2R (fl_lo b i)) * (1 + e) / 2) with (mid * (1 + e)) by (unfold mid; field). destruct (rn_model prec emax (mid * (1 + e))) as (d & t & D & T & ->).
  replace (mid * (1 + e) * (1 + d) + t - mid) with (mid * (e + d + e * d) + t) by ring. eapply Rle_trans; [apply Rabs_triang|]. apply Rplus_le_compat; [|exact T]. rewrite Rabs_mult, Rmult_comm. apply Rmult_le_compat_r; [apply Rabs_pos|].
  eapply Rle_trans; [apply Rabs_triang|]. pose proof (Rabs_triang e d) as ED. assert (PP : Rabs (e * d) <= u * u) by (rewrite Rabs_mult; apply Rmult_le_compat; auto using Rabs_pos). unfold step. cbn [pow]. lra.
Qed.
Lemma center_overflow (b : fl_box prec emax) i : is_finite (fl_lo b i) = true -> is_finite (fl_hi b i) = true -> is_finite (add (fl_hi b i) (fl_lo b i)) = false -> is_finite (fl_center b i) = false /\ (place (fl_center b i) < place (fl_lo b i) \/ place (fl_hi b i) < place (fl_center b i)).
Proof.
  intros Fl Fh NF. destruct (add_place prec emax (fl_hi b i) (fl_lo b i) Fh Fl) as (NN & _). destruct (finite_cases prec emax _ NN) as [X|X]; [congruence|].
  destruct lit_two as (F2 & V2). pose proof (finite_inside prec emax _ Fl) as IL. pose proof (finite_inside prec emax _ Fh) as IH. unfold fl_center.
  assert (D : forall s, add (B754_infinity s) zero = B754_infinity s) by (intros s; destruct zero eqn:Ez; try reflexivity; destruct (lit_zero prec emax) as (Q & _); rewrite Ez in Q; discriminate).
  assert (E : forall s, div (B754_infinity s) two = B754_infinity s). { intros s. destruct two as [t|t| |t m e H'] eqn:Et; try discriminate; [cbn in V2; lra|]. destruct t; [|destruct s; reflexivity]. exfalso. assert (F2R (Defs.Float radix2 (Zneg m) e) < 0) by (apply F2R_lt_0; reflexivity). cbn [B2R cond_Zopp] in V2. change (F2R (Defs.Float radix2 (Zneg m) e) = 2) in V2. lra. }
  destruct X as [-> | ->]; rewrite D, E; (split; [reflexivity|]); cbn [place]; [left|right]; lra.
Qed.
(** *** Dimensions *)
Lemma dims_place (b : fl_box prec emax) i : is_finite (fl_lo b i) = true -> is_finite (fl_hi b i) = true -> is_nan (fl_dimensions b i) = false /\ place (fl_dimensions b i) = cl (RNE (B2R (fl_hi b i) - B2R (fl_lo b i))).
Proof. intros Fl Fh. destruct (sub_place prec emax _ _ Fh Fl) as (A & B). unfold fl_dimensions. destruct (same_finite _ _ (add_zero_lit (sub (fl_hi b i) (fl_lo b i)))) as (_ & _ & C & D). now rewrite C, D. Qed.
Lemma diff_model x y : FT x -> FT y -> exists e, Rabs e <= u /\ RNE (x - y) = (x - y) * (1 + e).
Proof. intros Fx Fy. exact (sum_model prec emax x (- y) Fx (generic_format_opp radix2 fexp' y Fy)). Qed.
Lemma u_small : u <= / 4. Proof. change (/ 4) with (pw (-2)). apply bpow_le. lia. Qed.
Lemma dims_accurate (b : fl_box prec emax) i : is_finite (fl_lo b i) = true -> is_finite (fl_hi b i) = true -> is_finite (fl_dimensions b i) = true ->
  Rabs (B2R (fl_dimensions b i) - (B2R (fl_hi b i) - B2R (fl_lo b i))) <= u * Rabs (B2R (fl_hi b i) - B2R (fl_lo b i)).
Proof.
  intros Fl Fh F. unfold fl_dimensions in *. destruct (same_finite _ _ (add_zero_lit (sub (fl_hi b i) (fl_lo b i)))) as (A & -> & _). rewrite F in A. rewrite (minus_finite prec emax _ _ Fh Fl (eq_sym A)).
  destruct (diff_model (B2R (fl_hi b i)) (B2R (fl_lo b i)) ltac:(apply b2r_format) ltac:(apply b2r_format)) as (e & E & ->). replace (_ * (1 + e) - _) with (e * (B2R (fl_hi b i) - B2R (fl_lo b i))) by ring. rewrite Rabs_mult. apply Rmult_le_compat_r; [apply Rabs_pos|exact E].
Qed.
Lemma diff_sign x y : FT x -> FT y -> (0 < RNE (x - y) <-> y < x) /\ (RNE (x - y) = 0 <-> x = y).
Proof.
  intros Fx Fy. destruct (diff_model x y Fx Fy) as (e & E & ->). pose proof u_small. apply Rabs_le_inv in E. split; split; intros L.
  - destruct (Rlt_le_dec y x) as [G|G]; [exact G|]. exfalso. assert (Q : (x - y) * (1 + e) <= 0) by (rewrite <- (Rmult_0_l (1 + e)); apply Rmult_le_compat_r; lra). lra.
  - apply Rmult_lt_0_compat; lra.
  - apply Rmult_integral in L. lra.
  - subst. ring.
Qed.
Lemma cl_sign r : (0 < cl r <-> 0 < r) /\ (cl r = 0 <-> r = 0).
Proof.
  pose proof (m_pos emax) as MP. destruct (Rle_lt_dec M r) as [H|H]; [rewrite cl_hi by exact H; lra|]. destruct (Rle_lt_dec r (- M)) as [H'|H']; [rewrite cl_lo by exact H'; lra|]. rewrite cl_id; [tauto|]. apply Rabs_le. lra.
Qed.
Lemma dims_sign (b : fl_box prec emax) i : is_finite (fl_lo b i) = true -> is_finite (fl_hi b i) = true ->
  (0 < place (fl_dimensions b i) <-> place (fl_lo b i) < place (fl_hi b i)) /\ (place (fl_dimensions b i) = 0 <-> place (fl_lo b i) = place (fl_hi b i)).
Proof.
  intros Fl Fh. destruct (dims_place b i Fl Fh) as (_ & ->). rewrite !finite_place by assumption. destruct (diff_sign (B2R (fl_hi b i)) (B2R (fl_lo b i)) ltac:(apply b2r_format) ltac:(apply b2r_format)) as (A & B). destruct (cl_sign (RNE (B2R (fl_hi b i) - B2R (fl_lo b i)))) as (C & D). split; [tauto|]. split; intros H; [symmetry|]; intuition.
Qed.
(** *** Boxes about a center *)
Lemma from_center_in N (c dims : nat -> float) : all_finite N c -> all_finite N dims -> in_box N (fl_from_center c dims) c.
Proof.
  intros Fc Fd. assert (G : forall i, (i < N)%nat -> is_finite (div (dims i) two) = true /\ is_finite (div (sub (dims i) zero) two) = true /\ B2R (div (sub (dims i) zero) two) = B2R (div (dims i) two)).
  { intros i I. destruct (half (dims i) (Fd i I)) as (A & B). destruct (same_finite _ _ (sub_zero_lit (dims i))) as (C & D & _). rewrite (Fd i I) in C. destruct (half _ C) as (E & F). rewrite F, B, D. auto. }
  unfold fl_from_center. apply span_in.
  - intros i I. destruct (G i I) as (A & _). apply sub_place; auto.
  - intros i I. destruct (G i I) as (_ & A & _). apply add_place; auto.
  - intros i I. apply finite_not_nan; auto.
  - intros i I. destruct (G i I) as (A & B & C). set (h1 := div (dims i) two) in *. set (h2 := div (sub (dims i) zero) two) in *. rewrite <- sub_neg. destruct (neg_finite prec emax h1 A) as (An & Vn). pose proof (Fc i I) as F. apply finite_not_nan in F.
    destruct (Rle_lt_dec 0 (B2R h1)) as [P|P].
    + destruct (add_nonpos prec emax (c i) (fl_neg prec emax h1) F An ltac:(lra)) as (X & _). destruct (add_nonneg prec emax (c i) h2 F B ltac:(lra)) as (Y & _).
      split; [eapply Rle_trans; [apply Rmin_l|exact X]|eapply Rle_trans; [exact Y|apply Rmax_r]].
    + destruct (add_nonneg prec emax (c i) (fl_neg prec emax h1) F An ltac:(lra)) as (X & _). destruct (add_nonpos prec emax (c i) h2 F B ltac:(lra)) as (Y & _).
      split; [eapply Rle_trans; [apply Rmin_r|exact Y]|eapply Rle_trans; [exact X|apply Rmax_l]].
Qed.
Lemma edge_error (c r e : R) (d : R) : RNE (c + d) = r -> FT c -> FT d -> Rabs (d - e) <= u * Rabs e + h -> Rabs (r - (c + e)) <= (st ^ 2 - 1) * (Rabs c + Rabs e) + st * h.
Proof.
  intros <- Fc Fd D. destruct (sum_model prec emax c d Fc Fd) as (t & T & ->). pose proof u_pos as U. pose proof h_pos as HP. replace ((c + d) * (1 + t) - (c + e)) with ((d - e) * (1 + t) + t * (c + e)) by ring.
  assert (T1 : Rabs (1 + t) <= 1 + u) by (eapply Rle_trans; [apply Rabs_triang|]; rewrite Rabs_R1; lra). eapply Rle_trans; [apply Rabs_triang|]. rewrite !Rabs_mult.
  assert (X : Rabs (d - e) * Rabs (1 + t) <= (u * Rabs e + h) * (1 + u)) by (apply Rmult_le_compat; auto using Rabs_pos). assert (Y : Rabs t * Rabs (c + e) <= u * (Rabs c + Rabs e)) by (apply Rmult_le_compat; auto using Rabs_pos, Rabs_triang).
  unfold step. pose proof (Rabs_pos c) as C. assert (0 <= u * Rabs c) by (apply Rmult_le_pos; lra). assert (0 <= u * (u * Rabs c)) by (apply Rmult_le_pos; lra). cbn [pow].
  replace (((1 + u) * ((1 + u) * 1) - 1) * (Rabs c + Rabs e) + (1 + u) * h) with ((u * Rabs e + h) * (1 + u) + u * (Rabs c + Rabs e) + (u * Rabs c + u * (u * Rabs c))) by ring. lra.
Qed.
Lemma from_center_accurate (c dims : nat -> float) i : is_finite (c i) = true -> is_finite (dims i) = true -> 0 <= B2R (dims i) -> is_finite (fl_lo (fl_from_center c dims) i) = true -> is_finite (fl_hi (fl_from_center c dims) i) = true ->
  let err := (st ^ 2 - 1) * (Rabs (B2R (c i)) + B2R (dims i) / 2) + st * h in
  Rabs (B2R (fl_lo (fl_from_center c dims) i) - (B2R (c i) - B2R (dims i) / 2)) <= err /\ Rabs (B2R (fl_hi (fl_from_center c dims) i) - (B2R (c i) + B2R (dims i) / 2)) <= err.
Proof.
  intros Fc Fd P FL FH err. destruct (half (dims i) Fd) as (A & B). destruct (same_finite _ _ (sub_zero_lit (dims i))) as (C & D & _). rewrite Fd in C. destruct (half _ C) as (E & F). rewrite D in F.
  assert (PH : 0 <= RNE (B2R (dims i) / 2)) by (apply Rle_trans with (RNE 0); [rewrite (rne_zero prec emax); apply Rle_refl|apply (rne_mono prec emax); lra]).
  destruct (rn_model prec emax (B2R (dims i) / 2)) as (d & t & Hd & Ht & R). assert (HE : Rabs (RNE (B2R (dims i) / 2) - B2R (dims i) / 2) <= u * Rabs (B2R (dims i) / 2) + h).
  { rewrite R. replace (B2R (dims i) / 2 * (1 + d) + t - B2R (dims i) / 2) with (d * (B2R (dims i) / 2) + t) by ring. eapply Rle_trans; [apply Rabs_triang|]. rewrite Rabs_mult. apply Rplus_le_compat; [apply Rmult_le_compat_r; [apply Rabs_pos|exact Hd]|exact Ht]. }
  assert (FTH : FT (RNE (B2R (dims i) / 2))) by (rewrite <- B; apply b2r_format).
  set (x := sub (c i) (div (dims i) two)). set (y := add (c i) (div (sub (dims i) zero) two)). assert (XL : place x <= place (c i)). { unfold x. rewrite <- sub_neg. destruct (neg_finite prec emax _ A) as (An & Vn). apply add_nonpos; auto using finite_not_nan. rewrite Vn, B. lra. }
  assert (YL : place (c i) <= place y). { unfold y. apply add_nonneg; auto using finite_not_nan. rewrite F. exact PH. }
  destruct (sub_place prec emax (c i) (div (dims i) two) Fc A) as (Nx & _). fold x in Nx. destruct (add_place prec emax (c i) _ Fc E) as (Ny & _). fold y in Ny.
  cbn [fl_from_center fl_spanning fl_lo fl_hi] in *. unfold fl_vmin, fl_vmax in *. cbv beta in *. fold x y in FL, FH |- *.
  assert (EL : fl_min prec emax x y = x) by (unfold fl_min; rewrite ltb_place by assumption; rewrite Rlt_bool_false by lra; reflexivity).
  rewrite EL in *.
  assert (EH : B2R (fl_max prec emax x y) = B2R y /\ is_finite y = true). { destruct (max_place prec emax x y Nx Ny) as (Q1 & Q2). rewrite Rmax_right in Q2 by lra. rewrite finite_place in Q2 by exact FH. destruct (finite_cases prec emax y Ny) as [Fy|[Ey|Ey]].
    - rewrite finite_place in Q2 by exact Fy. auto.
    - exfalso. rewrite Ey in YL. pose proof (finite_inside prec emax _ Fc). change (place (B754_infinity true)) with (- M) in YL. lra.
    - exfalso. pose proof (finite_inside prec emax _ FH) as Q3. rewrite finite_place in Q3 by exact FH. rewrite Q2, Ey in Q3. change (place (B754_infinity false)) with M in Q3. lra. }
  destruct EH as (EH & Fy). rewrite EH. assert (AB : Rabs (B2R (dims i) / 2) = B2R (dims i) / 2) by (apply Rabs_pos_eq; lra). split.
  - rewrite (minus_finite prec emax _ _ Fc A FL : B2R x = _), B. pose proof (edge_error (B2R (c i)) _ (- (B2R (dims i) / 2)) (- RNE (B2R (dims i) / 2)) eq_refl ltac:(apply b2r_format) (generic_format_opp _ _ _ FTH)) as Z. rewrite Rabs_Ropp, AB in Z. apply Z.
    replace (- RNE (B2R (dims i) / 2) - - (B2R (dims i) / 2)) with (- (RNE (B2R (dims i) / 2) - B2R (dims i) / 2)) by ring. rewrite Rabs_Ropp. rewrite AB in HE. exact HE.
  - destruct (plus_finite prec emax _ _ Fy) as (_ & _ & V). fold y in V. rewrite V, F. pose proof (edge_error (B2R (c i)) _ (B2R (dims i) / 2) (RNE (B2R (dims i) / 2)) eq_refl ltac:(apply b2r_format) FTH HE) as Z. rewrite AB in Z. exact Z.
Qed.
End Box.
