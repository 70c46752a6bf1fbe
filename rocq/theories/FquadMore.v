From Coq Require Import Reals ZArith Lia Lra Bool.
From Flocq Require Import Core Relative Plus_error Mult_error BinarySingleNaN.
From Verif Require Import FmaModel FmaSpec FmaProofs FquadModel FquadSpec FquadProofs.
Open Scope R_scope.

(** ** Real analysis *)
Lemma abs_le x k : - k <= x -> x <= k -> Rabs x <= k. Proof. intros. unfold Rabs. destruct Rcase_abs; lra. Qed.
Lemma le_abs x k : Rabs x <= k -> - k <= x <= k. Proof. unfold Rabs. destruct Rcase_abs; lra. Qed.
Lemma sqrt_near u d : 0 < u <= / 256 -> Rabs d <= 3 * u -> 0 <= 1 + d /\ Rabs (sqrt (1 + d) - 1) <= 151 / 100 * u.
Proof.
  intros U H. apply le_abs in H. split; [lra|]. apply abs_le.
  - assert (1 - 151 / 100 * u <= sqrt (1 + d)); [|lra]. rewrite <- (sqrt_square (1 - 151 / 100 * u)) by lra. apply sqrt_le_1_alt.
    assert (0 <= u * (/ 256 - u)) by (apply Rmult_le_pos; lra). lra.
  - assert (sqrt (1 + d) <= 1 + 151 / 100 * u); [|lra]. rewrite <- (sqrt_square (1 + 151 / 100 * u)) by lra. apply sqrt_le_1_alt.
    assert (0 <= u * u) by (apply Rmult_le_pos; lra). lra.
Qed.
(** The error of a product of two factors near 1. *)
Lemma two_factors u x y k : 0 < u <= / 256 -> 0 <= k -> Rabs x <= k * u -> Rabs y <= u -> Rabs ((1 + x) * (1 + y) - 1) <= (k + 1 + k / 256) * u.
Proof.
  intros U K X Y. replace ((1 + x) * (1 + y) - 1) with (x + (y + x * y)) by ring. eapply Rle_trans; [apply Rabs_triang|].
  assert (Rabs (x * y) <= k * u * / 256). { rewrite Rabs_mult. apply Rmult_le_compat; try apply Rabs_pos; lra. }
  pose proof (Rabs_triang y (x * y)). lra.
Qed.
Lemma inverse_factor u x : 0 < u <= / 256 -> Rabs x <= 353 / 100 * u -> Rabs (/ (1 + x) - 1) <= 358 / 100 * u.
Proof.
  intros U X. apply le_abs in X. assert (P : 0 < 1 + x) by lra. replace (/ (1 + x) - 1) with (- x * / (1 + x)) by (field; lra).
  assert (I : / (1 + x) <= 358 / 353). { replace (358 / 353) with (/ (353 / 358)) by lra. apply Rinv_le; lra. }
  assert (I0 : 0 < / (1 + x)) by (now apply Rinv_0_lt_compat).
  rewrite Rabs_mult, Rabs_Ropp, (Rabs_pos_eq (/ _)) by lra. apply Rle_trans with (353 / 100 * u * (358 / 353)); [|lra]. apply Rmult_le_compat; [apply Rabs_pos|lra|apply abs_le; lra|exact I].
Qed.
Lemma square_bound x k : (0 <= k)%Z -> Rabs (x * x) <= bpow radix2 k -> Rabs x <= bpow radix2 k.
Proof.
  intros K H. destruct (Rle_lt_dec (Rabs x) (bpow radix2 k)) as [?|L]; [assumption|]. exfalso. rewrite Rabs_mult in H.
  assert (O : 1 <= bpow radix2 k) by (change 1 with (bpow radix2 0); now apply bpow_le).
  assert (1 * Rabs x < Rabs x * Rabs x) by (apply Rmult_lt_compat_r; lra). lra.
Qed.
Lemma root_low x m : (m <= -6)%Z -> bpow radix2 m <= x -> bpow radix2 (m + 3) <= sqrt x.
Proof.
  intros M H. rewrite <- sqrt_bpow. apply sqrt_le_1_alt. eapply Rle_trans; [|exact H]. apply bpow_le. lia.
Qed.

Section More.
Variable prec emax : Z.
Context {Hp : Prec_gt_0 prec} {He : Prec_lt_emax prec emax}.
Notation float := (binary_float prec emax).
Local Notation pw := (bpow radix2).
Notation emin' := (FmaSpec.emin prec emax).
Notation fexp' := (FLT_exp emin' prec).
Notation RNE := (rn fexp' (fun t => negb (Z.even t))).
Notation FT := (generic_format radix2 fexp').
Notation u := (pw (- prec)).
Notation low := (pw (emin' + prec - 1)).
Hypotheses (P8 : (8 <= prec)%Z) (E8 : (8 <= emax)%Z).
Let VT : Valid_exp fexp' := FLT_exp_valid emin' prec.
Let US : 0 < u <= / 256 := u_small prec P8.

Lemma normal_rounding x : low <= Rabs x -> exists e, Rabs e <= u /\ RNE x = x * (1 + e).
Proof.
  intros L. destruct (relative_error_N_FLT_ex radix2 emin' prec Hp (fun t => negb (Z.even t)) x L) as (e & E & R). exists e. split; [|exact R].
  rewrite bpow_plus in E. change (pw 1) with 2 in E. lra.
Qed.
Lemma sum_rounding x y : FT x -> FT y -> exists e, Rabs e <= u /\ RNE (x + y) = (x + y) * (1 + e).
Proof.
  intros Fx Fy. destruct (FLT_plus_error_N_ex radix2 emin' prec (fun t => negb (Z.even t)) x y Fx Fy) as (e & E & R). exists e. split; [|exact R].
  eapply Rle_trans; [exact E|]. assert (W : u_ro radix2 prec = u). { unfold u_ro. rewrite bpow_plus. change (pw 1) with 2. lra. } rewrite W.
  apply (Rmult_le_reg_r (1 + u)); [lra|]. unfold Rdiv. rewrite Rmult_assoc, Rinv_l by lra. assert (0 <= u * u) by (apply Rmult_le_pos; lra). lra.
Qed.
Lemma low_up k : pw (emin' + prec - 1 + k) = low * pw k. Proof. apply bpow_plus. Qed.

(** *** The number q *)
Section Q.
Variables a b c : float.
Hypothesis OK : coefficients_ok a b c.
Notation D := (B2R b * B2R b - 4 * B2R a * B2R c).
Hypothesis DOK : discriminant_ok prec emax (B2R a) (B2R b) (B2R c).
Definition root_sum : float := fl_add prec emax b (fl_copysign prec emax (fl_sqrt prec emax (descr prec emax a b c)) b).
Definition qhat : float := fl_mul prec emax (fl_lit prec emax (-1) (-1)) root_sum.
Definition tt_ : R := B2R b + sg prec emax b * sqrt D.
Lemma d_nonneg : 0 <= D. Proof. destruct DOK as [->|H]; [lra|]. eapply Rle_trans; [apply bpow_ge_0|exact H]. Qed.
Lemma root_runs : is_finite (fl_sqrt prec emax (descr prec emax a b c)) = true /\
  exists th, Rabs th <= 252 / 100 * u /\ B2R (fl_sqrt prec emax (descr prec emax a b c)) = sqrt D * (1 + th) /\ (D = 0 -> th = 0).
Proof.
  pose proof (descr_finite prec emax E8 a b c OK) as F. pose proof (descr_nonneg prec emax E8 a b c OK d_nonneg) as N.
  destruct (sqrt_runs prec emax _ F N) as (F2 & V2). split; [exact F2|]. rewrite V2. destruct DOK as [Z|L].
  - exists 0. split; [rewrite Rabs_R0; lra|]. split; [|reflexivity]. rewrite (descr_zero prec emax E8 a b c OK Z), Z, sqrt_0, (rn_zero emin' prec). ring.
  - destruct (descr_accurate prec emax E8 a b c OK L) as (d & Dd & V). rewrite V.
    destruct (sqrt_near u d US Dd) as (P1 & G). rewrite sqrt_mult by (exact P1 || exact d_nonneg). set (s := sqrt D) in *. set (g := sqrt (1 + d)) in *.
    assert (SL : pw (emin' + prec - 1 + 3) <= s) by (apply root_low; [unfold FmaSpec.emin; lia|exact L]). rewrite low_up in SL. change (pw 3) with 8 in SL.
    assert (L0 : 0 < low) by apply bpow_gt_0. apply le_abs in G.
    destruct (normal_rounding (s * g)) as (e & E & R).
    { assert (s * / 2 <= s * g) by (apply Rmult_le_compat_l; lra). rewrite Rabs_pos_eq by lra. lra. }
    exists (g * (1 + e) - 1). split; [|split].
    + replace (g * (1 + e) - 1) with ((1 + (g - 1)) * (1 + e) - 1) by ring. eapply Rle_trans; [apply (two_factors u (g - 1) e (151 / 100)); auto; [lra|apply abs_le; lra]|]. lra.
    + rewrite R. ring.
    + intros Z. assert (D > 0) by (eapply Rlt_le_trans; [exact L0|exact L]). lra.
Qed.
Lemma t_abs : Rabs tt_ = Rabs (B2R b) + sqrt D /\ tt_ = sg prec emax b * (Rabs (B2R b) + sqrt D).
Proof.
  assert (T : tt_ = sg prec emax b * (Rabs (B2R b) + sqrt D)). { unfold tt_. destruct OK as (_ & Fb & _). rewrite (sg_abs prec emax b Fb) at 1. ring. }
  split; [|exact T]. rewrite T, Rabs_mult. pose proof (Rabs_pos (B2R b)). pose proof (sqrt_pos D). rewrite (Rabs_pos_eq (_ + _)) by lra.
  unfold sg. destruct (Bsign b); [rewrite (Rabs_left (-1)) by lra|rewrite Rabs_R1]; ring.
Qed.
Lemma t_cases : tt_ = 0 \/ pw (emin' + prec - 1 + 3) <= Rabs tt_.
Proof.
  destruct t_abs as (A & T). pose proof (Rabs_pos (B2R b)) as PB. pose proof (sqrt_pos D) as PS. destruct DOK as [Z|L].
  - rewrite Z, sqrt_0 in *. destruct OK as (_ & _ & _ & _ & _ & _ & [N|N]).
    + left. assert (B0 : B2R b * B2R b = 0) by lra. assert (B2R b = 0) as B1 by (apply Rmult_integral in B0; tauto). rewrite T, B1, Rabs_R0. ring.
    + right. rewrite A, Rplus_0_r. rewrite <- sqrt_Rsqr_abs. apply root_low; [unfold FmaSpec.emin; lia|]. unfold Rsqr. replace (B2R b * B2R b) with (4 * B2R a * B2R c) by lra.
      rewrite Rabs_pos_eq in N by (pose proof (Rle_0_sqr (B2R b)) as Q; unfold Rsqr in Q; lra). eapply Rle_trans; [|exact N]. apply bpow_le. lia.
  - right. rewrite A. pose proof (root_low D (emin' + prec - 1) ltac:(unfold FmaSpec.emin; lia) L). lra.
Qed.
Lemma t_bound : Rabs tt_ <= 3 / 8 * pw emax.
Proof.
  destruct t_abs as (A & _). rewrite A. destruct OK as (_ & _ & _ & _ & BB & AC & _).
  assert (B1 : Rabs (B2R b) <= pw (emax - 3)) by (apply square_bound; [lia|exact BB]).
  assert (S1 : Rabs (sqrt D) <= pw (emax - 2)).
  { apply square_bound; [lia|]. rewrite sqrt_sqrt by exact d_nonneg. rewrite Rabs_pos_eq by exact d_nonneg. replace (emax - 2)%Z with (1 + (emax - 3))%Z by ring. rewrite bpow_plus. change (pw 1) with 2.
    apply le_abs in BB. apply le_abs in AC. lra. }
  rewrite Rabs_pos_eq in S1 by apply sqrt_pos. unfold Z.sub in B1, S1. rewrite bpow_plus in B1, S1. change (pw (- (3))) with (/ 8) in B1. change (pw (- (2))) with (/ 4) in S1. lra.
Qed.
Lemma sum_runs : is_finite root_sum = true /\ exists n, Rabs n <= 353 / 100 * u /\ B2R root_sum = tt_ * (1 + n) /\ (D = 0 -> n = 0).
Proof.
  assert (Fb : is_finite b = true) by (destruct OK as (_ & Fb & _); exact Fb).
  destruct root_runs as (Fs & th & TH & Vs & TZ). destruct (copysign_runs prec emax _ b Fs) as (Fc & Vc). fold root_sum.
  assert (TP : 0 < 1 + th) by (apply le_abs in TH; lra). pose proof (sqrt_pos D) as PS. pose proof (Rabs_pos (B2R b)) as PB.
  rewrite Vs, Rabs_pos_eq in Vc by (apply Rmult_le_pos; lra). destruct t_abs as (TA & T).
  set (y := fl_copysign prec emax (fl_sqrt prec emax (descr prec emax a b c)) b) in *.
  assert (ES : exists n, Rabs n <= 353 / 100 * u /\ RNE (B2R b + B2R y) = tt_ * (1 + n) /\ (D = 0 -> n = 0)).
  { destruct (Req_dec D 0) as [Z|NZ].
    - exists 0. split; [rewrite Rabs_R0; lra|]. split; [|reflexivity]. rewrite Vc, Z, sqrt_0, Rmult_0_l, Rmult_0_r, Rplus_0_r.
      rewrite (rn_id emin' prec _ _ (b2r_format prec emax b)). unfold tt_. rewrite Z, sqrt_0. ring.
    - destruct (sum_rounding _ _ (b2r_format prec emax b) (b2r_format prec emax y)) as (e & E & R). rewrite R.
      set (s := sqrt D) in *. assert (SP : 0 < s) by (apply sqrt_lt_R0; pose proof d_nonneg; lra).
      set (t2 := s * th / (Rabs (B2R b) + s)). assert (T2 : Rabs t2 <= 252 / 100 * u).
      { unfold t2, Rdiv. rewrite !Rabs_mult, Rabs_inv, (Rabs_pos_eq s), (Rabs_pos_eq (_ + s)) by lra. apply Rle_trans with (Rabs th); [|exact TH].
        apply (Rmult_le_reg_r (Rabs (B2R b) + s)); [lra|]. rewrite Rmult_assoc, Rinv_l by lra. assert (0 <= Rabs th * Rabs (B2R b)) by (apply Rmult_le_pos; apply Rabs_pos). lra. }
      exists ((1 + t2) * (1 + e) - 1). split; [|split; [|intros Z; now elim NZ]].
      + eapply Rle_trans; [apply (two_factors u t2 e (252 / 100)); auto; lra|]. lra.
      + replace (B2R b + B2R y) with (tt_ * (1 + t2)); [ring|]. rewrite Vc, T. destruct OK as (_ & Fb' & _). rewrite (sg_abs prec emax b Fb') at 2. unfold t2. fold s. field. lra. }
  destruct ES as (n & N & R & NZ). assert (NB : Rabs (1 + n) <= 2) by (apply le_abs in N; apply abs_le; lra).
  destruct (plus_runs prec emax b y Fb Fc) as (F & V).
  { rewrite R, Rabs_mult. pose proof t_bound as TB. pose proof (bpow_gt_0 radix2 emax).
    assert (Rabs tt_ * Rabs (1 + n) <= 3 / 8 * pw emax * 2) by (apply Rmult_le_compat; try apply Rabs_pos; lra). lra. }
  split; [exact F|]. exists n. split; [exact N|]. split; [|exact NZ]. unfold root_sum. fold y. rewrite V. exact R.
Qed.
Lemma q_runs : is_finite qhat = true /\ exists n, Rabs n <= 353 / 100 * u /\ B2R qhat = - / 2 * tt_ * (1 + n) /\ (D = 0 -> n = 0).
Proof.
  destruct sum_runs as (Fs & n & N & V & NZ). destruct (lit_half prec emax ltac:(lia)) as (Fh & Vh).
  assert (NB : / 2 <= Rabs (1 + n)) by (apply le_abs in N; rewrite Rabs_pos_eq; lra).
  assert (FM : FT (- / 2 * B2R root_sum)).
  { destruct t_cases as [Z|L]; [rewrite V, Z, Rmult_0_l, Rmult_0_r; apply generic_format_0|]. apply scale_down; [exact Hp|apply b2r_format|]. rewrite V, Rabs_mult.
    rewrite low_up in L. change (pw 3) with 8 in L. replace (emin' + prec)%Z with (emin' + prec - 1 + 1)%Z by ring. rewrite low_up. change (pw 1) with 2. pose proof (bpow_gt_0 radix2 (emin' + prec - 1)).
    assert (low * 8 * / 2 <= Rabs tt_ * Rabs (1 + n)) by (apply Rmult_le_compat; lra). lra. }
  destruct (mult_runs prec emax _ root_sum Fh Fs) as (F & V2).
  { rewrite Vh, (rn_id emin' prec _ _ FM), Rabs_mult, Rabs_Ropp, (Rabs_pos_eq (/ 2)) by lra. pose proof (abs_B2R_lt_emax prec emax root_sum) as B. pose proof (Rabs_pos (B2R root_sum)). lra. }
  split; [exact F|]. exists n. split; [exact N|]. split; [|exact NZ]. unfold qhat. rewrite V2, Vh, (rn_id emin' prec _ _ FM), V. ring.
Qed.
(** The equation satisfied by the exact q. *)
Lemma q_equation : let q := - / 2 * tt_ in q * q + B2R b * q + B2R a * B2R c = 0.
Proof.
  intros q. unfold q, tt_. pose proof (sg_sq prec emax b) as S1. pose proof (sqrt_sqrt D d_nonneg) as S2. set (s := sqrt D) in *. set (z := sg prec emax b) in *.
  replace (- / 2 * (B2R b + z * s) * (- / 2 * (B2R b + z * s)) + B2R b * (- / 2 * (B2R b + z * s)) + B2R a * B2R c) with (/ 4 * ((z * z) * (s * s)) - / 4 * (B2R b * B2R b) + B2R a * B2R c) by field.
  rewrite S1, S2. field.
Qed.
End Q.

(** *** The results *)
Lemma feqb_zero (x : float) : is_finite x = true -> fl_eqb prec emax x (fl_lit prec emax 0 0) = Req_bool (B2R x) 0.
Proof. intros F. destruct (lit_zero prec emax) as (F0 & V0). unfold fl_eqb. rewrite Beqb_correct, V0 by assumption. reflexivity. Qed.
Lemma fltb_zero (x : float) : is_finite x = true -> fl_ltb prec emax x (fl_lit prec emax 0 0) = Rlt_bool (B2R x) 0.
Proof. intros F. destruct (lit_zero prec emax) as (F0 & V0). unfold fl_ltb. rewrite Bltb_correct, V0 by assumption. reflexivity. Qed.
Lemma solve_some (a b c : float) : coefficients_ok a b c -> 0 <= B2R b * B2R b - 4 * B2R a * B2R c -> ~ (B2R a = 0 /\ B2R b = 0) ->
  fl_quadratic_solve a b c = Some (if negb (fl_eqb prec emax a (fl_lit prec emax 0 0)) then fl_div prec emax (qhat a b c) a else fl_div prec emax c (qhat a b c),
                                   if negb (fl_eqb prec emax (qhat a b c) (fl_lit prec emax 0 0)) then fl_div prec emax c (qhat a b c) else fl_div prec emax (qhat a b c) a).
Proof.
  intros OK D N. assert (OK' := OK). destruct OK' as (Fa & Fb & Fc & _). unfold fl_quadratic_solve. cbv zeta. fold (descr prec emax a b c). fold (root_sum a b c). fold (qhat a b c).
  rewrite (fltb_zero (descr prec emax a b c)) by (now apply descr_finite). rewrite Rlt_bool_false by (now apply descr_nonneg). rewrite (feqb_zero a Fa) at 1. rewrite (feqb_zero b Fb).
  assert (E : Req_bool (B2R a) 0 && Req_bool (B2R b) 0 = false). { destruct (Req_bool_spec (B2R a) 0), (Req_bool_spec (B2R b) 0); try reflexivity. exfalso. now apply N. }
  rewrite E. reflexivity.
Qed.
Lemma solve_none (a b c : float) : coefficients_ok a b c -> (B2R b * B2R b - 4 * B2R a * B2R c < 0 \/ (B2R a = 0 /\ B2R b = 0)) -> fl_quadratic_solve a b c = None.
Proof.
  intros OK D. assert (OK' := OK). destruct OK' as (Fa & Fb & Fc & _). unfold fl_quadratic_solve. cbv zeta. fold (descr prec emax a b c).
  rewrite (fltb_zero (descr prec emax a b c)) by (now apply descr_finite). rewrite (feqb_zero a Fa), (feqb_zero b Fb).
  destruct D as [D|(-> & ->)].
  - rewrite Rlt_bool_true by (now apply descr_neg). reflexivity.
  - rewrite !Req_bool_true by reflexivity. rewrite orb_true_r. reflexivity.
Qed.
Lemma root_disc (a b c : R) : ~ (a = 0 /\ b = 0) -> (has_root a b c <-> 0 <= b * b - 4 * a * c).
Proof.
  intros N. split.
  - intros (x & X). pose proof (Rle_0_sqr (2 * a * x + b)) as Q. unfold Rsqr in Q. replace (b * b - 4 * a * c) with ((2 * a * x + b) * (2 * a * x + b) - 4 * a * (a * (x * x) + b * x + c)) by ring. rewrite X. lra.
  - intros D. destruct (Req_dec a 0) as [->|A].
    + exists (- c / b). field. intros ->. now apply N.
    + exists ((- b + sqrt (b * b - 4 * a * c)) / (2 * a)). pose proof (sqrt_sqrt _ D) as S. set (s := sqrt _) in *.
      replace (a * ((- b + s) / (2 * a) * ((- b + s) / (2 * a))) + b * ((- b + s) / (2 * a)) + c) with ((s * s - (b * b - 4 * a * c)) / (4 * a)) by (field; exact A). rewrite S. field. exact A.
Qed.
Lemma decides (a b c : float) : coefficients_ok a b c ->
  (B2R a = 0 -> B2R b = 0 -> fl_quadratic_solve a b c = None) /\ (~ (B2R a = 0 /\ B2R b = 0) -> (fl_quadratic_solve a b c <> None <-> has_root (B2R a) (B2R b) (B2R c))).
Proof.
  intros OK. split; [intros A B; apply solve_none; auto|]. intros N. rewrite (root_disc _ _ _ N). split.
  - intros S. destruct (Rle_lt_dec 0 (B2R b * B2R b - 4 * B2R a * B2R c)) as [?|L]; [assumption|]. elim S. apply solve_none; auto.
  - intros D. rewrite (solve_some a b c OK D N). discriminate.
Qed.
Lemma div_zero (x y : float) : is_finite x = true -> B2R y <> 0 -> B2R x = 0 -> is_finite (fl_div prec emax x y) = true /\ B2R (fl_div prec emax x y) = 0.
Proof.
  intros F N Z. assert (R0 : RNE (B2R x / B2R y) = 0) by (rewrite Z; unfold Rdiv; rewrite Rmult_0_l; apply rn_zero).
  destruct (div_runs prec emax x y F N) as (F2 & V); [rewrite R0, Rabs_R0; apply bpow_gt_0|]. rewrite R0 in V. split; assumption.
Qed.
Lemma div_rel (x y : float) (r n : R) : is_finite x = true -> B2R y <> 0 -> representable prec emax r -> Rabs n <= 36 / 10 * u -> B2R x / B2R y = r * (1 + n) ->
  relative_to 5 (fl_div prec emax x y) r /\ B2R (fl_div prec emax x y) = RNE (B2R x / B2R y).
Proof.
  intros Fx Ny [->|(RL & RH)] N V.
  - rewrite Rmult_0_l in V. assert (X : B2R x = 0) by (replace (B2R x) with (B2R x / B2R y * B2R y) by (field; exact Ny); rewrite V; ring).
    destruct (div_zero x y Fx Ny X) as (F & Z). split; [split; [exact F|]; rewrite Z, Rminus_0_r, Rabs_R0; lra|]. rewrite V, Z. now rewrite (rn_zero emin' prec).
  - assert (NB : / 2 <= Rabs (1 + n) <= 102 / 100) by (apply le_abs in N; rewrite Rabs_pos_eq; lra).
    replace (emin' + prec)%Z with (emin' + prec - 1 + 1)%Z in RL by ring. rewrite low_up in RL. change (pw 1) with 2 in RL. pose proof (bpow_gt_0 radix2 (emin' + prec - 1)) as L0.
    destruct (normal_rounding (r * (1 + n))) as (e & E & R). { rewrite Rabs_mult. assert (low * 2 * / 2 <= Rabs r * Rabs (1 + n)) by (apply Rmult_le_compat; lra). lra. }
    destruct (div_runs prec emax x y Fx Ny) as (F & VV).
    { rewrite V, R, !Rabs_mult. assert (EB : Rabs (1 + e) <= 102 / 100) by (apply le_abs in E; apply abs_le; lra). unfold Z.sub in RH. rewrite bpow_plus in RH. change (pw (- (1))) with (/ 2) in RH. pose proof (bpow_gt_0 radix2 emax).
      assert (Rabs r * Rabs (1 + n) <= pw emax * / 2 * (102 / 100)) by (apply Rmult_le_compat; try apply Rabs_pos; lra).
      assert (Rabs r * Rabs (1 + n) * Rabs (1 + e) <= pw emax * / 2 * (102 / 100) * (102 / 100)) by (apply Rmult_le_compat; try apply Rabs_pos; try lra; apply Rmult_le_pos; apply Rabs_pos). lra. }
    split; [|exact VV]. split; [exact F|]. rewrite VV, V, R. replace (r * (1 + n) * (1 + e) - r) with (((1 + n) * (1 + e) - 1) * r) by ring. rewrite Rabs_mult. apply Rmult_le_compat_r; [apply Rabs_pos|].
    eapply Rle_trans; [apply (two_factors u n e (36 / 10)); auto; lra|]. lra.
Qed.

Lemma roots_facts (a b c r0 r1 : R) : roots_of a b c r0 r1 -> c = a * (r0 * r1) /\ b = - (a * (r0 + r1)) /\ b * b - 4 * a * c = (a * (r0 - r1)) * (a * (r0 - r1)).
Proof.
  intros H. pose proof (H 0) as H0. pose proof (H 1) as H1. pose proof (H (-1)) as H2. assert (C : c = a * (r0 * r1)) by lra. assert (B : b = - (a * (r0 + r1))) by lra. split; [exact C|]. split; [exact B|]. rewrite B, C. ring.
Qed.
(** Dividing by, and into, the rounded q. *)
Lemma divides (a b c : float) (OK : coefficients_ok a b c) (DOK : discriminant_ok prec emax (B2R a) (B2R b) (B2R c)) :
  let q := - / 2 * tt_ a b c in q <> 0 -> B2R (qhat a b c) <> 0 /\
  (B2R a <> 0 -> representable prec emax (q / B2R a) -> relative_to 5 (fl_div prec emax (qhat a b c) a) (q / B2R a)) /\
  (representable prec emax (B2R c / q) -> relative_to 5 (fl_div prec emax c (qhat a b c)) (B2R c / q)).
Proof.
  intros q Q. assert (Fc : is_finite c = true) by apply OK. destruct (q_runs a b c OK DOK) as (F & n & N & V & _). fold q in V. assert (NB : 0 < 1 + n) by (apply le_abs in N; lra).
  assert (QN : B2R (qhat a b c) <> 0). { rewrite V. apply Rmult_integral_contrapositive. split; [exact Q|lra]. }
  split; [exact QN|]. split.
  - intros A R. apply (div_rel _ _ _ n F A R); [lra|]. rewrite V. field. exact A.
  - intros R. apply (div_rel _ _ _ (/ (1 + n) - 1) Fc QN R); [eapply Rle_trans; [apply inverse_factor; [exact US|exact N]|lra]|]. rewrite V. field. split; [lra|exact Q].
Qed.
Lemma quadratic_accurate (a b c : float) (r0 r1 : R) : coefficients_ok a b c -> B2R a <> 0 -> discriminant_ok prec emax (B2R a) (B2R b) (B2R c) ->
  roots_of (B2R a) (B2R b) (B2R c) r0 r1 -> representable prec emax r0 -> representable prec emax r1 ->
  exists x0 x1, fl_quadratic_solve a b c = Some (x0, x1) /\ ((relative_to 5 x0 r0 /\ relative_to 5 x1 r1) \/ (relative_to 5 x0 r1 /\ relative_to 5 x1 r0)).
Proof.
  intros OK A DOK RO R0 R1. destruct (roots_facts _ _ _ _ _ RO) as (C & B & DD). assert (Fa : is_finite a = true) by apply OK. destruct (q_runs a b c OK DOK) as (Fq & n & N & V & _).
  rewrite (solve_some a b c OK (d_nonneg a b c DOK)) by tauto. rewrite (feqb_zero a Fa), Req_bool_false by exact A. rewrite (feqb_zero _ Fq). cbn [negb].
  do 2 eexists. split; [reflexivity|]. pose proof (q_equation a b c DOK) as QE. cbv zeta in QE. set (q := - / 2 * tt_ a b c) in *. destruct (Req_dec q 0) as [Z|Q].
  - assert (Z0 : B2R (qhat a b c) = 0) by (rewrite V, Z; ring). rewrite Req_bool_true by exact Z0. cbn [negb].
    assert (T0 : tt_ a b c = 0) by (unfold q in Z; lra). destruct (t_abs a b c OK) as (TA & _). rewrite T0, Rabs_R0 in TA.
    pose proof (Rabs_pos (B2R b)) as PB. pose proof (sqrt_pos (B2R b * B2R b - 4 * B2R a * B2R c)) as PS.
    assert (B0 : B2R b = 0). { assert (A0 : Rabs (B2R b) = 0) by lra. destruct (Req_dec (B2R b) 0) as [?|NB]; [assumption|]. now elim (Rabs_no_R0 _ NB). }
    assert (C0 : B2R c = 0). { rewrite Z, B0 in QE. assert (AC : B2R a * B2R c = 0) by lra. apply Rmult_integral in AC. tauto. }
    assert (S0 : r0 + r1 = 0). { rewrite B0 in B. assert (X : B2R a * (r0 + r1) = 0) by lra. apply Rmult_integral in X. tauto. }
    assert (M0 : r0 * r1 = 0). { rewrite C0 in C. assert (X : B2R a * (r0 * r1) = 0) by lra. apply Rmult_integral in X. tauto. }
    assert (r0 = 0 /\ r1 = 0) as (-> & ->) by (apply Rmult_integral in M0; lra).
    destruct (div_zero (qhat a b c) a Fq A Z0) as (F & W). assert (RZ : relative_to 5 (fl_div prec emax (qhat a b c) a) 0) by (split; [exact F|]; rewrite W, Rminus_0_r, Rabs_R0; lra). left. split; exact RZ.
  - destruct (divides a b c OK DOK Q) as (QN & DA & DC). rewrite Req_bool_false by exact QN. cbn [negb]. specialize (DA A). fold q in DA, DC.
    assert (P : (q - B2R a * r0) * (q - B2R a * r1) = 0). { rewrite B, C in QE. replace 0 with (q * q + - (B2R a * (r0 + r1)) * q + B2R a * (B2R a * (r0 * r1))) by exact QE. ring. }
    assert (W : forall r s, q = B2R a * r -> B2R c = B2R a * (r * s) -> q / B2R a = r /\ B2R c / q = s).
    { intros r s E1 E2. assert (r <> 0) by (intros ->; rewrite Rmult_0_r in E1; now elim Q). rewrite E2, E1. split; field; [exact A|]. split; assumption. }
    apply Rmult_integral in P. destruct P as [P|P].
    + destruct (W r0 r1) as (W1 & W2); [lra|exact C|]. rewrite W1 in DA. rewrite W2 in DC. left. split; auto.
    + destruct (W r1 r0) as (W1 & W2); [lra|rewrite C; ring|]. rewrite W1 in DA. rewrite W2 in DC. right. split; auto.
Qed.
Lemma linear_accurate (a b c : float) : coefficients_ok a b c -> B2R a = 0 -> B2R b <> 0 -> discriminant_ok prec emax (B2R a) (B2R b) (B2R c) -> representable prec emax (- B2R c / B2R b) ->
  exists x, fl_quadratic_solve a b c = Some (x, x) /\ relative_to 5 x (- B2R c / B2R b).
Proof.
  intros OK A B DOK R. assert (Fa : is_finite a = true) by apply OK. assert (Fb : is_finite b = true) by apply OK. destruct (q_runs a b c OK DOK) as (Fq & n & N & V & _).
  rewrite (solve_some a b c OK (d_nonneg a b c DOK)) by tauto. rewrite (feqb_zero a Fa), Req_bool_true by exact A. rewrite (feqb_zero _ Fq). cbn [negb].
  assert (T : tt_ a b c = 2 * B2R b). { destruct (t_abs a b c OK) as (_ & T). rewrite A in T. replace (B2R b * B2R b - 4 * 0 * B2R c) with (Rsqr (B2R b)) in T by (unfold Rsqr; ring). rewrite sqrt_Rsqr_abs in T. rewrite T. rewrite (sg_abs prec emax b Fb) at 3. ring. }
  assert (Q : - / 2 * tt_ a b c <> 0) by (rewrite T; lra). destruct (divides a b c OK DOK Q) as (QN & _ & DC). rewrite Req_bool_false by exact QN. cbn [negb].
  exists (fl_div prec emax c (qhat a b c)). split; [reflexivity|]. replace (- B2R c / B2R b) with (B2R c / (- / 2 * tt_ a b c)) by (rewrite T; field; exact B). apply DC. rewrite T. replace (B2R c / (- / 2 * (2 * B2R b))) with (- B2R c / B2R b) by (field; exact B). exact R.
Qed.
Lemma double_root (a b c : float) (r : R) : coefficients_ok a b c -> B2R a <> 0 -> roots_of (B2R a) (B2R b) (B2R c) r r -> representable prec emax r ->
  exists x0 x1, fl_quadratic_solve a b c = Some (x0, x1) /\ relative_to 5 x0 r /\ is_finite x1 = true /\ B2R x0 = B2R x1.
Proof.
  intros OK A RO R. destruct (roots_facts _ _ _ _ _ RO) as (C & B & DD). assert (D0 : B2R b * B2R b - 4 * B2R a * B2R c = 0) by (rewrite DD; ring).
  assert (DOK : discriminant_ok prec emax (B2R a) (B2R b) (B2R c)) by (now left). assert (Fa : is_finite a = true) by apply OK. assert (Fc : is_finite c = true) by apply OK.
  destruct (q_runs a b c OK DOK) as (Fq & n & N & V & NZ). specialize (NZ D0). subst n. rewrite Rplus_0_r, Rmult_1_r in V.
  assert (T : tt_ a b c = B2R b) by (unfold tt_; rewrite D0, sqrt_0; ring). rewrite T in V.
  rewrite (solve_some a b c OK (d_nonneg a b c DOK)) by tauto. rewrite (feqb_zero a Fa), Req_bool_false by exact A. rewrite (feqb_zero _ Fq). cbn [negb].
  do 2 eexists. split; [reflexivity|]. assert (VR : B2R (qhat a b c) / B2R a = r * (1 + 0)) by (rewrite V, B; field; exact A).
  destruct (div_rel _ _ _ 0 Fq A R ltac:(rewrite Rabs_R0; lra) VR) as (K & W). split; [exact K|]. destruct (Req_bool_spec (B2R (qhat a b c)) 0) as [Z|Q]; cbn [negb].
  - destruct K as (K & _). split; [exact K|reflexivity].
  - assert (RN0 : r <> 0) by (intros ->; apply Q; rewrite V, B; ring).
    assert (VC : B2R c / B2R (qhat a b c) = r * (1 + 0)) by (rewrite V, B, C; replace (- / 2 * - (B2R a * (r + r))) with (B2R a * r) by field; field; split; assumption).
    destruct (div_rel _ _ _ 0 Fc Q R ltac:(rewrite Rabs_R0; lra) VC) as ((K2 & _) & W2). split; [exact K2|]. rewrite W, W2, VR, VC. reflexivity.
Qed.
End More.

(** ** Doubles *)
Local Notation pw := (bpow radix2).
Lemma dbl_runs m e : (Z.abs m < 2 ^ 53)%Z -> (-1074 <= e <= 900)%Z -> is_finite (dbl m e) = true /\ B2R (dbl m e) = IZR m * pw e.
Proof.
  intros M E. apply (lit_runs 53 1024).
  - apply generic_format_FLT. exists (Float radix2 m e); [reflexivity|exact M|cbn; lia].
  - rewrite Rabs_mult, (Rabs_pos_eq (pw e)), <- abs_IZR by apply bpow_ge_0. apply Rlt_le_trans with (IZR (2 ^ 53) * pw e); [apply Rmult_lt_compat_r; [apply bpow_gt_0|now apply IZR_lt]|].
    change (2 ^ 53)%Z with (Zpower radix2 53). rewrite IZR_Zpower, <- bpow_plus by lia. apply bpow_le. lia.
Qed.
Lemma dbl_int m : (Z.abs m < 2 ^ 53)%Z -> is_finite (dbl m 0) = true /\ B2R (dbl m 0) = IZR m.
Proof. intros M. destruct (dbl_runs m 0 M ltac:(lia)) as (F & V). change (pw 0) with 1 in V. rewrite Rmult_1_r in V. split; assumption. Qed.
Lemma dbl_pow e : (-1074 <= e <= 900)%Z -> B2R (dbl 1 e) = pw e.
Proof. intros E. destruct (dbl_runs 1 e ltac:(lia) E) as (_ & V). rewrite V. apply Rmult_1_l. Qed.
Lemma no_root_disc (a b c : R) : b * b - 4 * a * c < 0 -> ~ has_root a b c.
Proof.
  intros D (x & X). pose proof (Rle_0_sqr (2 * a * x + b)) as Q. unfold Rsqr in Q. replace (b * b - 4 * a * c) with ((2 * a * x + b) * (2 * a * x + b) - 4 * a * (a * (x * x) + b * x + c)) in D by ring. rewrite X in D. lra.
Qed.
Lemma tiny_coefficients : let a := dbl 1 (-540) in
  ~ has_root (B2R a) (B2R a) (B2R a) /\ exists x0 x1, fl_quadratic_solve a a a = Some (x0, x1) /\ B2R x0 = - / 2 /\ B2R x1 = - 2.
Proof.
  intros a. split.
  - apply no_root_disc. unfold a. rewrite dbl_pow by lia. pose proof (bpow_gt_0 radix2 (-540)) as P. assert (0 < pw (-540) * pw (-540)) by (now apply Rmult_lt_0_compat). lra.
  - destruct (fl_quadratic_solve a a a) as [[x0 x1]|] eqn:E; [|exfalso; assert (X : match fl_quadratic_solve a a a with None => false | _ => true end = true) by (vm_compute; reflexivity); rewrite E in X; discriminate].
    exists x0, x1. split; [reflexivity|].
    assert (X0 : match fl_quadratic_solve a a a with Some (x, _) => B2SF x | None => SpecFloat.S754_nan end = SpecFloat.S754_finite true 4503599627370496 (-53)) by (vm_compute; reflexivity).
    assert (X1 : match fl_quadratic_solve a a a with Some (_, x) => B2SF x | None => SpecFloat.S754_nan end = SpecFloat.S754_finite true 4503599627370496 (-51)) by (vm_compute; reflexivity).
    rewrite E in X0, X1. rewrite (dbl_value _ _ _ _ X0), (dbl_value _ _ _ _ X1). assert (W : IZR (cond_Zopp true 4503599627370496) = - pw 52).
    { rewrite <- (IZR_Zpower radix2 52) by lia. rewrite <- opp_IZR. reflexivity. }
    rewrite W, !Ropp_mult_distr_l_reverse, <- !bpow_plus. change (pw (52 + -53)) with (/ 2). change (pw (52 + -51)) with 2. split; reflexivity.
Qed.
Lemma huge_coefficients : let a := dbl 1 600 in let b := dbl 1 0 in
  ~ has_root (B2R a) (B2R b) (B2R a) /\ exists x0 x1, fl_quadratic_solve a b a = Some (x0, x1) /\ is_nan x0 = true /\ is_nan x1 = true.
Proof.
  intros a b. split.
  - apply no_root_disc. unfold a, b. rewrite !dbl_pow by lia. change (pw 0) with 1. assert (P : 1 <= pw 600) by (change 1 with (pw 0); apply bpow_le; lia). assert (1 * 1 <= pw 600 * pw 600) by (apply Rmult_le_compat; lra). lra.
  - assert (X : match fl_quadratic_solve a b a with Some (x, y) => is_nan x && is_nan y | None => false end = true) by (vm_compute; reflexivity).
    destruct (fl_quadratic_solve a b a) as [[x0 x1]|]; [|discriminate]. apply andb_prop in X. exists x0, x1. split; [reflexivity|exact X].
Qed.
Lemma large_middle : let a := dbl 1 0 in let b := dbl 1 600 in
  (exists r0 r1, roots_of (B2R a) (B2R b) (B2R a) r0 r1 /\ - pw 600 <= r0 < 0 /\ - pw 600 <= r1 < 0) /\
  exists x0 x1, fl_quadratic_solve a b a = Some (x0, x1) /\ is_finite x0 = false /\ is_finite x1 = true /\ B2R x1 = 0.
Proof.
  intros a b. split.
  - unfold a, b. rewrite !dbl_pow by lia. change (pw 0) with 1. set (k := pw 600). assert (K : 4 <= k) by (change 4 with (pw 2); apply bpow_le; lia).
    assert (D : 0 <= k * k - 4) by (assert (4 * 4 <= k * k) by (apply Rmult_le_compat; lra); lra). pose proof (sqrt_sqrt _ D) as S. pose proof (sqrt_pos (k * k - 4)) as SP.
    assert (SL : sqrt (k * k - 4) < k). { apply Rlt_le_trans with (sqrt (k * k)); [apply sqrt_lt_1_alt; split; [exact D|lra]|rewrite sqrt_square; lra]. }
    set (s := sqrt (k * k - 4)) in *. exists ((- k + s) / 2), ((- k - s) / 2). split; [|lra].
    intros x. replace (1 * ((x - (- k + s) / 2) * (x - (- k - s) / 2))) with (x * x + k * x + (k * k - s * s) / 4) by field. rewrite S. field.
  - assert (X : match fl_quadratic_solve a b a with Some (x, y) => negb (is_finite x) && is_finite y && Beqb y (dbl 0 0) | None => false end = true) by (vm_compute; reflexivity).
    destruct (fl_quadratic_solve a b a) as [[x0 x1]|]; [|discriminate]. apply andb_prop in X. destruct X as (X & X3). apply andb_prop in X. destruct X as (X1 & X2). exists x0, x1. split; [reflexivity|].
    split; [now apply negb_true_iff|]. split; [exact X2|]. destruct (dbl_int 0 ltac:(lia)) as (F0 & V0). rewrite Beqb_correct, V0 in X3 by assumption. destruct (Req_bool_spec (B2R x1) 0); [assumption|discriminate].
Qed.
Ltac ints := unfold coefficients_ok, discriminant_ok, representable, FmaSpec.emin;
  destruct (dbl_int 0 ltac:(lia)) as (F0 & V0); destruct (dbl_int 1 ltac:(lia)) as (F1 & V1); destruct (dbl_int 2 ltac:(lia)) as (F2 & V2); destruct (dbl_int (-3) ltac:(lia)) as (F3 & V3); destruct (dbl_int (-2) ltac:(lia)) as (F4 & V4);
  rewrite ?V0, ?V1, ?V2, ?V3, ?V4.
Lemma big_enough x : Rabs x <= 16 -> Rabs x < pw 1024 /\ Rabs x <= pw (1024 - 3) /\ Rabs x <= pw (1024 - 1).
Proof.
  intros H. assert (L : forall k, (5 <= k)%Z -> Rabs x < pw k). { intros k K. apply Rle_lt_trans with (1 := H). change 16 with (pw 4). apply bpow_lt. lia. }
  split; [apply L; lia|split; apply Rlt_le, L; lia].
Qed.
Lemma small_enough k x : (k <= -2)%Z -> / 4 <= x -> pw k <= x.
Proof. intros K X. eapply Rle_trans; [|exact X]. change (/ 4) with (pw (-2)). now apply bpow_le. Qed.
Ltac calc := unfold Rabs; destruct Rcase_abs; lra.
Lemma one_ok : representable 53 1024 1. Proof. right. unfold FmaSpec.emin. split; [apply small_enough; [lia|rewrite Rabs_R1; lra]|apply big_enough; calc]. Qed.
Lemma two_ok : representable 53 1024 2. Proof. right. unfold FmaSpec.emin. split; [apply small_enough; [lia|calc]|apply big_enough; calc]. Qed.
Lemma example_two : coefficients_ok (dbl 1 0) (dbl (-3) 0) (dbl 2 0) /\ discriminant_ok 53 1024 (B2R (dbl 1 0)) (B2R (dbl (-3) 0)) (B2R (dbl 2 0)) /\
  roots_of (B2R (dbl 1 0)) (B2R (dbl (-3) 0)) (B2R (dbl 2 0)) 1 2 /\ representable 53 1024 1 /\ representable 53 1024 2.
Proof.
  split; [|split; [|split; [|split; [exact one_ok|exact two_ok]]]].
  - ints. repeat (split; [assumption|]). split; [apply big_enough; calc|]. split; [apply big_enough; calc|]. split; [apply big_enough; calc|]. right. apply small_enough; [lia|calc].
  - ints. right. apply small_enough; [lia|lra].
  - ints. intros x. ring.
Qed.
Lemma example_linear : coefficients_ok (dbl 0 0) (dbl (-3) 0) (dbl 2 0) /\ discriminant_ok 53 1024 (B2R (dbl 0 0)) (B2R (dbl (-3) 0)) (B2R (dbl 2 0)) /\
  B2R (dbl 0 0) = 0 /\ B2R (dbl (-3) 0) <> 0 /\ representable 53 1024 (- B2R (dbl 2 0) / B2R (dbl (-3) 0)).
Proof.
  split; [|split; [|split; [|split]]].
  - ints. repeat (split; [assumption|]). split; [apply big_enough; calc|]. split; [apply big_enough; calc|]. split; [apply big_enough; calc|]. left. ring.
  - ints. right. apply small_enough; [lia|lra].
  - ints. reflexivity.
  - ints. lra.
  - ints. right. replace (- (2) / -3) with (2 / 3) by field. split; [apply small_enough; [lia|calc]|apply big_enough; calc].
Qed.
Lemma example_double : coefficients_ok (dbl 1 0) (dbl (-2) 0) (dbl 1 0) /\ roots_of (B2R (dbl 1 0)) (B2R (dbl (-2) 0)) (B2R (dbl 1 0)) 1 1.
Proof.
  split.
  - ints. repeat (split; [assumption|]). split; [apply big_enough; calc|]. split; [apply big_enough; calc|]. split; [apply big_enough; calc|]. right. apply small_enough; [lia|calc].
  - ints. intros x. ring.
Qed.
Lemma example_none : coefficients_ok (dbl 1 0) (dbl 1 0) (dbl 1 0) /\ ~ has_root (B2R (dbl 1 0)) (B2R (dbl 1 0)) (B2R (dbl 1 0)).
Proof.
  split.
  - ints. repeat (split; [assumption|]). split; [apply big_enough; calc|]. split; [apply big_enough; calc|]. split; [apply big_enough; calc|]. right. apply small_enough; [lia|calc].
  - ints. apply no_root_disc. lra.
Qed.
