From Coq Require Import Reals ZArith Lia Lra Bool.
From Flocq Require Import Core Relative Plus_error BinarySingleNaN.
From Verif Require Import FmaModel FmaSpec FmaProofs FquadModel FquadProofs FquadMore FvecModel FvecSpec FvecProofs FvecMore FvecAcc FmtxModel FmtxSpec FmtxProofs FmtxMore FboxModel FboxSpec FboxProofs FsphModel FsphProofs.
Open Scope R_scope.

Section Sph.
Variable prec emax : Z.
Context {Hp : Prec_gt_0 prec} {He : Prec_lt_emax prec emax}.
Notation float := (binary_float prec emax).
Notation vector := (nat -> float).
Notation pw := (bpow radix2).
Notation emin' := (FmaSpec.emin prec emax).
Notation fexp' := (FLT_exp emin' prec).
Notation RNE := (rn fexp' (fun t => negb (Z.even t))).
Notation FT := (generic_format radix2 fexp').
Notation M := (pw emax).
Notation u := (pw (- prec)).
Notation st := (step prec).
Notation add := (fl_add prec emax).
Notation sub := (fl_sub prec emax).
Notation mul := (fl_mul prec emax).
Notation zero := (fl_lit prec emax 0 0).
Notation cl := (cl emax).
Let VT : Valid_exp fexp' := FLT_exp_valid emin' prec.

(** ** Containment *)
Lemma square_place (r : float) : is_nan r = false -> is_nan (mul r r) = false /\ 0 <= place (mul r r).
Proof.
  intros N. pose proof (m_pos emax) as P. destruct (finite_cases prec emax r N) as [F|[->| ->]]; [|split; [reflexivity|cbn; lra]|split; [reflexivity|cbn; lra]].
  destruct (mul_place prec emax r r F F) as (A & B). split; [exact A|]. rewrite B. apply Rle_trans with (cl (RNE 0)); [rewrite (rne_zero prec emax), cl_id by (rewrite Rabs_R0; lra); lra|apply (clr_mono prec emax), Rle_0_sqr].
Qed.
Lemma square_mono (r s : float) : is_nan r = false -> is_nan s = false -> Rabs (place r) <= Rabs (place s) -> place (mul r r) <= place (mul s s).
Proof.
  intros R S L. pose proof (m_pos emax) as P. destruct (finite_cases prec emax s S) as [F|[->| ->]].
  - assert (Fr : is_finite r = true). { pose proof (finite_inside prec emax s F) as I. assert (Rabs (place s) < M) by (apply Rabs_lt; exact I). destruct (finite_cases prec emax r R) as [G|[->| ->]]; [exact G| |]; exfalso; cbn in L; rewrite ?Rabs_Ropp, (Rabs_pos_eq M) in L by lra; lra. }
    rewrite (proj2 (mul_place prec emax r r Fr Fr)), (proj2 (mul_place prec emax s s F F)). apply (clr_mono prec emax). rewrite !finite_place in L by assumption. apply Rsqr_le_abs_1 in L. exact L.
  - change (mul (B754_infinity true) (B754_infinity true)) with (B754_infinity false : float). apply place_range.
  - change (mul (B754_infinity false) (B754_infinity false)) with (B754_infinity false : float). apply place_range.
Qed.
Lemma sub_not_nan N (v w : vector) : all_finite N v -> all_finite N w -> not_nan N (fl_vsub prec emax v w).
Proof. intros V W i I. apply (sub_place prec emax); auto. Qed.
Lemma contains_iff N (s : fl_sphere prec emax) (p : vector) : all_finite N (fl_center s) -> all_finite N p -> is_nan (fl_radius s) = false ->
  (fl_sphere_contains N s p = true <-> place (fl_mag2 N (fl_vsub prec emax (fl_center s) p)) <= place (mul (fl_radius s) (fl_radius s))).
Proof.
  intros C P R. unfold fl_sphere_contains. apply leb_iff; [|now apply square_place]. apply mag2_place. now apply sub_not_nan.
Qed.
Lemma contains_nearer N (s t : fl_sphere prec emax) (p q : vector) : all_finite N (fl_center s) -> all_finite N (fl_center t) -> all_finite N p -> all_finite N q -> is_nan (fl_radius s) = false -> is_nan (fl_radius t) = false ->
  (forall i, (i < N)%nat -> Rabs (B2R (fl_center t i) - B2R (q i)) <= Rabs (B2R (fl_center s i) - B2R (p i))) -> Rabs (place (fl_radius s)) <= Rabs (place (fl_radius t)) ->
  fl_sphere_contains N s p = true -> fl_sphere_contains N t q = true.
Proof.
  intros Cs Ct P Q R S D L H. rewrite contains_iff in H |- * by assumption. eapply Rle_trans; [|eapply Rle_trans; [exact H|now apply square_mono]].
  apply mag2_mono; [now apply sub_not_nan|now apply sub_not_nan|]. intros i I. unfold fl_vsub.
  rewrite (proj2 (sub_place prec emax _ _ (Ct i I) (Q i I))), (proj2 (sub_place prec emax _ _ (Cs i I) (P i I))). apply (clr_abs prec emax). now apply D.
Qed.
Lemma mag2_zero_place N (v : vector) : (forall i, (i < N)%nat -> is_nan (v i) = false /\ place (v i) = 0) -> place (fl_mag2 N v) = 0.
Proof.
  intros H. apply Rle_antisym; [|apply mag2_place; intros i I; now apply H].
  assert (W : forall n, (n <= N)%nat -> place (fl_mag2 n (fun _ => zero)) = 0).
  { clear. induction n as [|n IH]; intros L; [apply zero_place|]. cbn [fl_mag2]. unfold fl_multiply_add. destruct (lit_zero prec emax) as (F & V).
    assert (Fs : is_finite (fl_mag2 n (fun _ => zero)) = true). { destruct (mag2_place prec emax n (fun _ => zero)) as (A & B); [intros i I; reflexivity|]. destruct (finite_cases prec emax _ A) as [G|[G|G]]; [exact G| |]; pose proof (m_pos emax); rewrite G in IH; cbn in IH; specialize (IH ltac:(lia)); lra. }
    specialize (IH ltac:(lia)). rewrite (finite_place prec emax _ Fs) in IH. rewrite (proj2 (fma_place prec emax zero _ F Fs ltac:(lra))), IH, V. rewrite Rmult_0_l, Rplus_0_l, (rne_zero prec emax). apply cl_id. rewrite Rabs_R0. left. apply m_pos. }
  apply Rle_trans with (place (fl_mag2 N (fun _ => zero))); [|right; apply (W N (le_n N))]. apply mag2_mono; [intros i I; now apply H|intros i I; reflexivity|]. intros i I. rewrite (proj2 (H i I)), Rabs_R0. apply Rabs_pos.
Qed.
Lemma contains_center N (s : fl_sphere prec emax) : all_finite N (fl_center s) -> is_nan (fl_radius s) = false -> fl_sphere_contains N s (fl_center s) = true.
Proof.
  intros C R. rewrite contains_iff by assumption. rewrite mag2_zero_place; [now apply square_place|]. intros i I. unfold fl_vsub. destruct (sub_place prec emax _ _ (C i I) (C i I)) as (A & B). split; [exact A|].
  rewrite B, Rminus_diag_eq by reflexivity. rewrite (rne_zero prec emax). apply cl_id. rewrite Rabs_R0. left. apply m_pos.
Qed.
Lemma contains_nan N (s : fl_sphere prec emax) (p : vector) : is_nan (fl_radius s) = true \/ (exists i, (i < N)%nat /\ (is_nan (p i) = true \/ is_nan (fl_center s i) = true)) -> fl_sphere_contains N s p = false.
Proof.
  intros H. unfold fl_sphere_contains. apply leb_nan. destruct H as [H|(i & I & H)].
  - right. destruct (fl_radius s); try discriminate. reflexivity.
  - left. apply (mag2_nan prec emax N _ i I). unfold fl_vsub, fl_sub. destruct H as [H|H]; [destruct (p i)|destruct (fl_center s i)]; try discriminate; [destruct (fl_center s i) as [a|a| |a m e K]; reflexivity|reflexivity].
Qed.
(** *** Tolerance *)
Lemma factor_scale_pow j k : (j <= k)%nat -> st ^ j <= st ^ k.
Proof. intros L. apply Rle_pow; [|exact L]. unfold step. pose proof (bpow_gt_0 radix2 (- prec)). lra. Qed.
Lemma st_pos k : 1 <= st ^ k. Proof. apply pow_R1_Rle. unfold step. pose proof (bpow_gt_0 radix2 (- prec)). lra. Qed.
Lemma contains_far N (s : fl_sphere prec emax) (p : vector) : (4 <= prec)%Z -> (8 <= emax)%Z -> (Z.of_nat N <= 2 ^ (prec - 1))%Z -> all_finite N (fl_center s) -> all_finite N p -> is_finite (fl_radius s) = true ->
  safe_vector N (fl_vsub prec emax (fl_center s) p) -> let r := B2R (fl_radius s) in r = 0 \/ pw (emin' + prec - 1) <= r * r -> r * r < pw (emax - 1) ->
  (exact_dist2 N (fl_center s) p * st ^ (N + 3) <= r * r -> fl_sphere_contains N s p = true) /\
  (r * r * st ^ (N + 3) < exact_dist2 N (fl_center s) p -> fl_sphere_contains N s p = false).
Proof.
  intros P4 E8 NB C P R S r L Hh. destruct (dist_accurate prec emax P4 E8 N _ _ (fun i I => Logic.conj (C i I) (P i I)) S NB) as (F & (W1 & W2) & _). unfold exact_dist2. set (D := total N _) in *.
  assert (R0 : 0 <= r * r) by apply Rle_0_sqr.
  assert (NF : pw (emin' + prec - 1) <= r * r \/ FT (r * r)) by (destruct L as [-> |L]; [right; rewrite Rmult_0_l; apply generic_format_0|now left]).
  destruct (normal_factor prec emax P4 (r * r) R0 NF) as ((V1 & V2) & V0).
  assert (Hi : Rabs (RNE (r * r)) < M). { rewrite Rabs_pos_eq by exact V0. apply Rle_lt_trans with (r * r * st ^ 1); [exact V1|]. apply Rle_lt_trans with (r * r * 2); [apply Rmult_le_compat_l; [exact R0|]|].
    - rewrite pow_1. unfold step. assert (u <= pw 0) by (apply bpow_le; lia). cbn in *. lra.
    - replace M with (2 * pw (emax - 1)) by (replace emax with (1 + (emax - 1))%Z at 2 by ring; rewrite bpow_plus; reflexivity). lra. }
  destruct (mult_runs prec emax (fl_radius s) (fl_radius s) R R Hi) as (Fm & Vm). fold r in Vm.
  assert (I : fl_sphere_contains N s p = true <-> B2R (fl_dist2 N (fl_center s) p) <= RNE (r * r)).
  { rewrite contains_iff by (auto; destruct (fl_radius s); (discriminate || reflexivity)). rewrite !finite_place by assumption. now rewrite Vm. }
  assert (T : st ^ (N + 3) = st ^ (N + 2) * st ^ 1) by (rewrite <- pow_add; f_equal; lia). pose proof (st_pos (N + 2)) as S2. pose proof (st_pos 1) as S1.
  split.
  - intros H. apply I. apply (Rmult_le_reg_r (st ^ 1)); [lra|]. eapply Rle_trans; [apply Rmult_le_compat_r; [lra|exact W1]|]. rewrite T in H. rewrite Rmult_assoc. lra.
  - intros H. apply not_true_is_false. rewrite I. apply Rlt_not_le. apply (Rmult_lt_reg_r (st ^ (N + 2))); [lra|]. apply Rlt_le_trans with D; [|exact W2]. eapply Rle_lt_trans; [|exact H]. rewrite T. replace (r * r * (st ^ (N + 2) * st ^ 1)) with (r * r * st ^ 1 * st ^ (N + 2)) by ring. apply Rmult_le_compat_r; [lra|exact V1].
Qed.
(** *** The signed distance *)
Lemma root_square (r : R) : (2 <= prec)%Z -> FT r -> 0 <= r -> r = 0 \/ pw (emin' + prec - 1) <= r * r -> RNE (sqrt (RNE (r * r))) <= r.
Proof.
  intros P2 Fr R0 L. destruct (Req_dec r 0) as [-> |Nz]; [rewrite Rmult_0_l, (rne_zero prec emax), sqrt_0, (rne_zero prec emax); apply Rle_refl|]. destruct L as [Z|L]; [contradiction|].
  assert (Rp : 0 < r) by lra. assert (Q : RNE (r * r) <= r * r * (1 + u)).
  { destruct (relative_error_N_FLT_ex radix2 emin' prec Hp (fun t => negb (Z.even t)) (r * r)) as (d & D & E); [rewrite Rabs_pos_eq by apply Rle_0_sqr; exact L|].
    unfold rn. rewrite E. apply Rmult_le_compat_l; [apply Rle_0_sqr|]. apply Rabs_le_inv in D. rewrite bpow_plus in D. change (pw 1) with 2 in D. lra. }
  assert (U : 0 < u) by apply bpow_gt_0.
  assert (S : sqrt (RNE (r * r)) < r * (1 + u / 2)).
  { apply Rle_lt_trans with (sqrt (r * r * (1 + u))); [now apply sqrt_le_1_alt|]. rewrite <- (sqrt_square (r * (1 + u / 2))) by (apply Rmult_le_pos; lra). apply sqrt_lt_1_alt. split; [apply Rmult_le_pos; [apply Rle_0_sqr|lra]|].
    replace (r * (1 + u / 2) * (r * (1 + u / 2))) with (r * r * ((1 + u / 2) * (1 + u / 2))) by ring. apply Rmult_lt_compat_l; [apply Rmult_lt_0_compat; exact Rp|]. assert (0 < u * u) by (apply Rmult_lt_0_compat; exact U). lra. }
  apply (round_N_le_midp radix2 fexp'); [exact Fr|]. rewrite succ_eq_pos by exact R0. eapply Rlt_le_trans; [exact S|].
  assert (K : r * u <= ulp radix2 fexp' r).
  { rewrite ulp_neq_0 by exact Nz. unfold cexp. apply Rle_trans with (pw (mag radix2 r) * u).
    - apply Rmult_le_compat_r; [lra|]. pose proof (bpow_mag_gt radix2 r) as G. rewrite Rabs_pos_eq in G by exact R0. lra.
    - rewrite <- bpow_plus. apply bpow_le. unfold FLT_exp. lia. }
  lra.
Qed.
Lemma contains_sdf N (s : fl_sphere prec emax) (p : vector) : (2 <= prec)%Z -> all_finite N (fl_center s) -> all_finite N p -> is_finite (fl_radius s) = true -> let r := B2R (fl_radius s) in
  0 <= r -> r = 0 \/ pw (emin' + prec - 1) <= r * r -> is_finite (mul (fl_radius s) (fl_radius s)) = true -> fl_sphere_contains N s p = true ->
  is_finite (fl_sphere_sdf N s p) = true /\ B2R (fl_sphere_sdf N s p) <= 0.
Proof.
  intros P2 C P R r R0 L Fm H. assert (Rn : is_nan (fl_radius s) = false) by (destruct (fl_radius s); (discriminate || reflexivity)). rewrite contains_iff in H by assumption.
  set (m := fl_mag2 N (fl_vsub prec emax (fl_center s) p)) in *. destruct (mag2_place prec emax N _ (sub_not_nan N _ _ C P)) as (Mn & M0). fold m in Mn, M0.
  assert (F : is_finite m = true). { pose proof (finite_inside prec emax _ Fm). destruct (finite_cases prec emax m Mn) as [G|[G|G]]; [exact G| |]; exfalso; rewrite G in H, M0; cbn in H, M0; pose proof (m_pos emax); lra. }
  rewrite !finite_place in * by assumption. pose proof (mult_finite prec emax (fl_radius s) (fl_radius s) R R Fm) as Vm. rewrite Vm in H. fold r in H.
  assert (Fr : FT r) by apply b2r_format.
  destruct (sqrt_runs prec emax m F M0) as (Fq & Vq).
  assert (Q : B2R (fl_sqrt prec emax m) <= r). { rewrite Vq. eapply Rle_trans; [|apply (root_square r P2 Fr R0 L)]. apply (rne_mono prec emax). now apply sqrt_le_1_alt. }
  assert (Q0 : 0 <= B2R (fl_sqrt prec emax m)). { rewrite Vq. apply Rle_trans with (RNE 0); [right; symmetry; apply (rne_zero prec emax)|apply (rne_mono prec emax), sqrt_pos]. }
  unfold fl_sphere_sdf. change (fl_mag N (fl_vsub prec emax p (fl_center s))) with (fl_dist N p (fl_center s)). rewrite dist_symmetric. change (fl_dist N (fl_center s) p) with (fl_sqrt prec emax m).
  assert (B : - r <= RNE (B2R (fl_sqrt prec emax m) - r) <= 0).
  { split; [|apply Rle_trans with (RNE 0); [apply (rne_mono prec emax); lra|right; apply (rne_zero prec emax)]]. apply Rle_trans with (RNE (- r)); [right; symmetry; rewrite rne_opp; f_equal; apply rne_exact|apply (rne_mono prec emax); lra]. }
  assert (Rl : r < M) by (pose proof (finite_inside prec emax _ R) as X; rewrite finite_place in X by exact R; unfold r; lra).
  destruct (minus_runs prec emax (fl_sqrt prec emax m) (fl_radius s) Fq R) as (A1 & A2); [fold r; apply Rabs_lt; lra|]. fold r in A2. split; [exact A1|]. rewrite A2. apply B.
Qed.
Lemma sdf_accurate N (s : fl_sphere prec emax) (p : vector) : (4 <= prec)%Z -> (8 <= emax)%Z -> (Z.of_nat N <= 2 ^ (prec - 1))%Z -> all_finite N (fl_center s) -> all_finite N p -> is_finite (fl_radius s) = true ->
  safe_vector N (fl_vsub prec emax p (fl_center s)) -> is_finite (fl_sphere_sdf N s p) = true -> let d := sqrt (exact_dist2 N p (fl_center s)) in let r := B2R (fl_radius s) in
  Rabs (B2R (fl_sphere_sdf N s p) - (d - r)) <= (st ^ (N + 5) - 1) * (d + Rabs r).
Proof.
  intros P4 E8 NB C P R S F d r. destruct (dist_accurate prec emax P4 E8 N _ _ (fun i I => Logic.conj (P i I) (C i I)) S NB) as (_ & _ & Fd & D0 & (W1 & W2)). fold (exact_dist2 N p (fl_center s)) in W1, W2.
  assert (E0 : 0 <= exact_dist2 N p (fl_center s)) by (apply total_nonneg; intros; apply Rle_0_sqr). assert (d0 : 0 <= d) by apply sqrt_pos. assert (dd : d * d = exact_dist2 N p (fl_center s)) by (apply sqrt_sqrt; exact E0). rewrite <- dd in W1, W2.
  set (m := B2R (fl_dist N p (fl_center s))) in *. set (k := (N + 4)%nat) in *. pose proof (st_pos k) as K.
  assert (SQ : st ^ k <= st ^ k * st ^ k) by (rewrite <- (Rmult_1_r (st ^ k)) at 1; apply Rmult_le_compat_l; lra).
  assert (A : m <= d * st ^ k). { apply sqr_le || apply Rsqr_incr_0_var; [|apply Rmult_le_pos; lra]. unfold Rsqr. eapply Rle_trans; [exact W1|]. replace (d * st ^ k * (d * st ^ k)) with (d * d * (st ^ k * st ^ k)) by ring. apply Rmult_le_compat_l; [apply Rle_0_sqr|exact SQ]. }
  assert (B : d <= m * st ^ k). { apply Rsqr_incr_0_var; [|apply Rmult_le_pos; lra]. unfold Rsqr. eapply Rle_trans; [exact W2|]. replace (m * st ^ k * (m * st ^ k)) with (m * m * (st ^ k * st ^ k)) by ring. apply Rmult_le_compat_l; [apply Rle_0_sqr|exact SQ]. }
  assert (X : Rabs (m - d) <= d * (st ^ k - 1)). { apply Rabs_le. split; [|lra]. assert (d * (2 - st ^ k) <= m); [|lra]. apply (Rmult_le_reg_r (st ^ k)); [lra|]. eapply Rle_trans; [|exact B]. rewrite <- (Rmult_1_r d) at 2. rewrite Rmult_assoc. apply Rmult_le_compat_l; [exact d0|]. pose proof (Rle_0_sqr (st ^ k - 1)). unfold Rsqr in *. lra. }
  unfold fl_sphere_sdf in *. change (fl_mag N (fl_vsub prec emax p (fl_center s))) with (fl_dist N p (fl_center s)) in *. rewrite (minus_finite prec emax _ _ Fd R F). fold m r.
  assert (Y : Rabs (RNE (m - r) - (m - r)) <= u * (d * st ^ k + Rabs r)).
  { apply Rle_trans with (u * Rabs (m - r)).
    - destruct (sum_model prec emax m (- r)) as (e & E1 & E2); [apply b2r_format|apply generic_format_opp, b2r_format|]. replace (m - r) with (m + - r) by ring. rewrite E2. replace ((m + - r) * (1 + e) - (m + - r)) with (e * (m + - r)) by ring. rewrite Rabs_mult. apply Rmult_le_compat_r; [apply Rabs_pos|exact E1].
    - apply Rmult_le_compat_l; [apply bpow_ge_0|]. unfold Rminus. eapply Rle_trans; [apply Rabs_triang|]. rewrite Rabs_Ropp, (Rabs_pos_eq m) by exact D0. lra. }
  replace (RNE (m - r) - (d - r)) with ((RNE (m - r) - (m - r)) + (m - d)) by ring. eapply Rle_trans; [apply Rabs_triang|].
  replace (N + 5)%nat with (1 + k)%nat by (unfold k; lia). rewrite (pow_add st 1 k), pow_1. unfold step at 1. assert (U : 0 < u) by apply bpow_gt_0. assert (Z : 0 <= ((1 + u) * st ^ k - 1 - u) * Rabs r) by (apply Rmult_le_pos; [|apply Rabs_pos]; assert ((1 + u) * 1 <= (1 + u) * st ^ k) by (apply Rmult_le_compat_l; lra); lra).
  replace (((1 + u) * st ^ k - 1) * (d + Rabs r)) with (u * (d * st ^ k + Rabs r) + d * (st ^ k - 1) + ((1 + u) * st ^ k - 1 - u) * Rabs r) by ring. lra.
Qed.
(** *** Bounds *)
Lemma coordinate_le N (v w : vector) i : (i < N)%nat -> (B2R (v i) - B2R (w i)) * (B2R (v i) - B2R (w i)) <= exact_dist2 N v w.
Proof.
  unfold exact_dist2. induction N as [|n IH]; intros I; [lia|]. cbn [total]. assert (T : 0 <= total n (fun i => (B2R (v i) - B2R (w i)) * (B2R (v i) - B2R (w i)))) by (apply total_nonneg; intros; apply Rle_0_sqr).
  pose proof (Rle_0_sqr (B2R (v n) - B2R (w n))) as Q. unfold Rsqr in Q. destruct (Nat.eq_dec i n) as [E|Ne]; [subst i; lra|]. specialize (IH ltac:(lia)). lra.
Qed.
Lemma bounds_hold N (s : fl_sphere prec emax) (p : vector) : all_finite N (fl_center s) -> all_finite N p -> is_finite (fl_radius s) = true -> 0 <= B2R (fl_radius s) ->
  exact_dist2 N (fl_center s) p <= B2R (fl_radius s) * B2R (fl_radius s) -> in_box N (fl_sphere_bounds s) p.
Proof.
  intros C P R R0 D i I. pose proof (coordinate_le N (fl_center s) p i I) as Q. set (r := B2R (fl_radius s)) in *. set (c := B2R (fl_center s i)) in *. set (x := B2R (p i)) in *.
  assert (A : Rabs (c - x) <= r). { rewrite <- (Rabs_pos_eq r R0). apply Rsqr_le_abs_0. unfold Rsqr. lra. } apply Rabs_le_inv in A.
  assert (E : cl (RNE x) = x). { unfold x. rewrite rne_exact. apply cl_id. left. apply abs_B2R_lt_emax. }
  split; [specialize (P i I); destruct (p i); (discriminate || reflexivity)|]. rewrite (finite_place prec emax (p i)) by now apply P. fold x. rewrite <- E. unfold fl_sphere_bounds. cbn [fl_lo fl_hi].
  rewrite (proj2 (sub_place prec emax _ _ (C i I) R)), (proj2 (add_place prec emax _ _ (C i I) R)). fold r c. split; apply (clr_mono prec emax); lra.
Qed.
(** ** Half-spaces *)
Lemma plane_side N (pl : fl_plane prec emax) (p : vector) : all_finite N (fl_normal pl) -> all_finite N p -> is_finite (fl_offset pl) = true -> is_finite (fl_dot N (fl_normal pl) p) = true ->
  let x := exact_dot N (fl_normal pl) p + B2R (fl_offset pl) in let e := (st ^ N - 1) * sum_of_sizes N (fl_normal pl) p + INR N * st ^ N * pw (emin' - 1) in
  (x <= - e -> fl_plane_contains N pl p = true) /\ (e < x -> fl_plane_contains N pl p = false) /\
  (is_finite (fl_plane_distance N pl p) = true -> Rabs (B2R (fl_plane_distance N pl p) - x) <= u * Rabs x + st * e).
Proof.
  intros Fn Fp Fd F x e. pose proof (dot_accurate prec emax N _ _ (fun i I => Logic.conj (Fn i I) (Fp i I)) F) as A. fold e in A. set (t := B2R (fl_dot N (fl_normal pl) p)) in *. set (d := B2R (fl_offset pl)) in *. apply Rabs_le_inv in A.
  assert (I : fl_plane_contains N pl p = true <-> t + d <= 0).
  { unfold fl_plane_contains, fl_plane_distance. destruct (add_place prec emax _ _ F Fd) as (N1 & V). fold t d in V. destruct (zero_place prec emax) as (Z0 & Z1). rewrite leb_iff by assumption. rewrite V, Z0.
    assert (Zc : cl (RNE 0) = 0) by (rewrite (rne_zero prec emax); apply cl_id; rewrite Rabs_R0; left; apply m_pos). split; intros H.
    - apply Rnot_lt_le. intros P. assert (Rp : 0 < RNE (t + d)). { assert (RNE (t + d) <> 0) by exact (@round_plus_neq_0 radix2 fexp' VT _ (Znearest (fun t => negb (Z.even t))) _ t d (b2r_format prec emax _) (b2r_format prec emax _) (Rgt_not_eq _ _ P)). assert (RNE 0 <= RNE (t + d)) by (apply (rne_mono prec emax); lra). rewrite (rne_zero prec emax) in *. lra. }
      pose proof (m_pos emax). unfold FboxProofs.cl in H. assert (0 < Rmin M (RNE (t + d))) by (apply Rmin_glb_lt; lra). pose proof (Rmax_r (- M) (Rmin M (RNE (t + d)))). lra.
    - rewrite <- Zc. apply (clr_mono prec emax). exact H. }
  split; [|split].
  - intros H. apply I. unfold x in H. lra.
  - intros H. apply not_true_is_false. rewrite I. unfold x in H. lra.
  - intros Fi. destruct (plus_finite prec emax _ _ Fi) as (_ & _ & V). unfold fl_plane_distance. rewrite V. fold t d. destruct (sum_model prec emax t d) as (g & G & ->); [apply b2r_format|apply b2r_format|].
    assert (B : Rabs (t + d - x) <= e) by (apply Rabs_le; unfold x; lra). replace ((t + d) * (1 + g) - x) with (g * x + (1 + g) * (t + d - x)) by ring. eapply Rle_trans; [apply Rabs_triang|]. rewrite !Rabs_mult.
    apply Rplus_le_compat; [apply Rmult_le_compat_r; [apply Rabs_pos|exact G]|]. apply Rmult_le_compat; [apply Rabs_pos|apply Rabs_pos| |exact B]. eapply Rle_trans; [apply Rabs_triang|]. rewrite Rabs_R1. unfold step. lra.
Qed.
Lemma plane_own_point N (n pt : vector) : is_finite (fl_dot N pt (fl_unit N n)) = true -> fl_plane_distance N (fl_plane_through N n pt) pt = B754_zero false /\ fl_plane_contains N (fl_plane_through N n pt) pt = true.
Proof.
  intros F. assert (E : fl_plane_distance N (fl_plane_through N n pt) pt = B754_zero false).
  { unfold fl_plane_distance, fl_plane_through. cbn [fl_normal fl_offset]. rewrite (dot_symmetric prec emax N (fl_unit N n) pt). set (t := fl_dot N pt _) in *. rewrite sub_neg.
    assert (S : RNE (B2R t - B2R t) = 0) by (rewrite Rminus_diag_eq by reflexivity; apply (rne_zero prec emax)). pose proof (Bminus_correct prec emax _ _ mode_NE t t F F) as H.
    change (round radix2 _ (round_mode mode_NE) (B2R t - B2R t)) with (RNE (B2R t - B2R t)) in H. rewrite S, Rabs_R0, Rlt_bool_true in H by apply bpow_gt_0. destruct H as (H1 & H2 & H3). rewrite Rminus_diag_eq, Rcompare_Eq in H3 by reflexivity.
    fold (sub t t) in H1, H2, H3. destruct (zero_float prec emax _ H2 H1) as (b & E). rewrite E in H3 |- *. cbn [Bsign] in H3. rewrite H3. destruct (Bsign t); reflexivity. }
  split; [exact E|]. unfold fl_plane_contains. rewrite E. reflexivity.
Qed.
End Sph.
