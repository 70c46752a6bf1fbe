From Coq Require Import Reals ZArith Lia Lra Bool.
From Flocq Require Import Core Relative BinarySingleNaN.
From Verif Require Import FmaModel FmaSpec FmaProofs FquadModel FquadProofs FquadMore FvecModel FvecSpec FvecProofs FvecMore FmtxModel FmtxSpec FmtxProofs FmtxMore FmtxWit Vec3Model QuatModel QuatProofs FqnModel FqnSpec.
Open Scope R_scope.

(** ** Magnitudes of exact quaternions *)
Lemma cauchy4 a b c d e f g h : 0 <= a -> 0 <= b -> 0 <= c -> 0 <= d -> 0 <= e -> 0 <= f -> 0 <= g -> 0 <= h ->
  a * e + b * f + c * g + d * h <= sqrt (a * a + b * b + c * c + d * d) * sqrt (e * e + f * f + g * g + h * h).
Proof.
  intros. rewrite <- sqrt_mult by (pose proof (Rle_0_sqr a); pose proof (Rle_0_sqr b); pose proof (Rle_0_sqr c); pose proof (Rle_0_sqr d); pose proof (Rle_0_sqr e); pose proof (Rle_0_sqr f); pose proof (Rle_0_sqr g); pose proof (Rle_0_sqr h); unfold Rsqr in *; lra).
  assert (P : 0 <= a * e + b * f + c * g + d * h) by (pose proof (Rmult_le_pos a e); pose proof (Rmult_le_pos b f); pose proof (Rmult_le_pos c g); pose proof (Rmult_le_pos d h); lra).
  rewrite <- (sqrt_square _ P) at 1. apply sqrt_le_1_alt.
  pose proof (Rle_0_sqr (a * f - b * e)). pose proof (Rle_0_sqr (a * g - c * e)). pose proof (Rle_0_sqr (a * h - d * e)). pose proof (Rle_0_sqr (b * g - c * f)). pose proof (Rle_0_sqr (b * h - d * f)). pose proof (Rle_0_sqr (c * h - d * g)). unfold Rsqr in *. lra.
Qed.
Lemma abs_sqr x : Rabs x * Rabs x = x * x. Proof. apply Rabs_mult_self || (rewrite <- Rabs_mult; apply Rabs_pos_eq; apply Rle_0_sqr). Qed.
(** A sum of products of the elements of p and of q in any pairing is at most |p| |q|. *)
Lemma pairing p q a b c d e f g h : qmag2 p = a * a + b * b + c * c + d * d -> qmag2 q = e * e + f * f + g * g + h * h ->
  Rabs (a * e) + Rabs (b * f) + Rabs (c * g) + Rabs (d * h) <= qmag p * qmag q.
Proof.
  intros P Q. unfold qmag. rewrite P, Q, !Rabs_mult, <- (abs_sqr a), <- (abs_sqr b), <- (abs_sqr c), <- (abs_sqr d), <- (abs_sqr e), <- (abs_sqr f), <- (abs_sqr g), <- (abs_sqr h).
  apply cauchy4; apply Rabs_pos.
Qed.
Lemma qmag_nonneg q : 0 <= qmag q. Proof. apply sqrt_pos. Qed.
Lemma qmag_mult p q : qmag (qmult p q) = qmag p * qmag q.
Proof. unfold qmag. rewrite qmag2_mult. apply sqrt_mult; apply qmag2_nonneg. Qed.
Lemma qmag_conj q : qmag (conj q) = qmag q. Proof. unfold qmag. f_equal. unfold qmag2, conj; cbn. ring. Qed.
Lemma qmag_vec v : qmag (quat_of v 0) = mag3 v. Proof. unfold qmag, mag3. f_equal. rewrite qmag_of. ring. Qed.
Definition qadd p q := Q4 (qx p + qx q) (qy p + qy q) (qz p + qz q) (qw p + qw q).
Lemma qmag_le q r : 0 <= r -> qmag2 q <= r * r -> qmag q <= r.
Proof. intros R H. unfold qmag. rewrite <- (sqrt_square r R). now apply sqrt_le_1_alt. Qed.
Lemma qmag_triangle p q : qmag (qadd p q) <= qmag p + qmag q.
Proof.
  pose proof (qmag_nonneg p). pose proof (qmag_nonneg q). apply qmag_le; [lra|].
  pose proof (pairing p q (qx p) (qy p) (qz p) (qw p) (qx q) (qy q) (qz q) (qw q) ltac:(unfold qmag2; ring) ltac:(unfold qmag2; ring)) as B.
  pose proof (Rle_abs (qx p * qx q)). pose proof (Rle_abs (qy p * qy q)). pose proof (Rle_abs (qz p * qz q)). pose proof (Rle_abs (qw p * qw q)).
  replace ((qmag p + qmag q) * (qmag p + qmag q)) with (qmag2 p + 2 * (qmag p * qmag q) + qmag2 q) by (rewrite <- !qmag_sq; ring).
  unfold qmag2, qadd in *; cbn [qx qy qz qw] in *. lra.
Qed.
Lemma element_le q : Rabs (qx q) <= qmag q /\ Rabs (qy q) <= qmag q /\ Rabs (qz q) <= qmag q /\ Rabs (qw q) <= qmag q.
Proof.
  pose proof (Rle_0_sqr (qx q)). pose proof (Rle_0_sqr (qy q)). pose proof (Rle_0_sqr (qz q)). pose proof (Rle_0_sqr (qw q)). unfold Rsqr in *.
  unfold qmag. repeat split; rewrite <- sqrt_Rsqr_abs; apply sqrt_le_1_alt; unfold Rsqr, qmag2; lra.
Qed.
Lemma near_mag e p q : 0 <= e -> quat_near e p q -> exists d, p = qadd q d /\ qmag d <= 2 * e.
Proof.
  intros E (A & B & C & D). exists (Q4 (qx p - qx q) (qy p - qy q) (qz p - qz q) (qw p - qw q)). split; [apply q4_eq; cbn; ring|].
  apply qmag_le; [lra|]. unfold qmag2. cbn [qx qy qz qw].
  assert (S : forall x, Rabs x <= e -> x * x <= e * e). { intros x X. rewrite <- abs_sqr. apply Rmult_le_compat; auto using Rabs_pos. }
  pose proof (S _ A). pose proof (S _ B). pose proof (S _ C). pose proof (S _ D). lra.
Qed.
Lemma qmult_add_l p q r : qmult (qadd p q) r = qadd (qmult p r) (qmult q r).
Proof. apply q4_eq; unfold qmult, qadd; cbn; ring. Qed.
Lemma abs_close x y z a b : Rabs (x - y) <= a -> Rabs (y - z) <= b -> Rabs (x - z) <= a + b.
Proof. intros A B. replace (x - z) with ((x - y) + (y - z)) by ring. eapply Rle_trans; [apply Rabs_triang|]. lra. Qed.
Lemma quat_near_trans a b p q r : quat_near a p q -> quat_near b q r -> quat_near (a + b) p r.
Proof. intros (A1 & A2 & A3 & A4) (B1 & B2 & B3 & B4). repeat split; eapply abs_close; eassumption. Qed.
Lemma quat_near_le a b p q : a <= b -> quat_near a p q -> quat_near b p q.
Proof. intros L (A & B & C & D). repeat split; lra. Qed.
Lemma near_of_add q d : quat_near (qmag d) (qadd q d) q.
Proof. destruct (element_le d) as (A & B & C & D). unfold qadd. repeat split; cbn; match goal with |- Rabs (?x + ?y - ?x) <= _ => replace (x + y - x) with y by ring end; assumption. Qed.

Section Quat.
Variable prec emax : Z.
Context {Hp : Prec_gt_0 prec} {He : Prec_lt_emax prec emax}.
Notation float := (binary_float prec emax).
Notation pw := (bpow radix2).
Notation emin' := (FmaSpec.emin prec emax).
Notation fexp' := (FLT_exp emin' prec).
Notation RNE := (rn fexp' (fun t => negb (Z.even t))).
Notation u := (pw (- prec)).
Notation hf := (pw (emin' - 1)).
Notation st := (step prec).
Notation add := (fl_add prec emax).
Notation sub := (fl_sub prec emax).
Notation mul := (fl_mul prec emax).
Notation neg := (fl_neg prec emax).
Notation zero := (fl_lit prec emax 0 0).
Notation one := (fl_one prec emax).
Notation PB := (product_error_bound prec emax 4).

Lemma neg_mul (a b : float) : neg (mul a b) = mul (neg a) b.
Proof.
  unfold fl_neg, fl_mul. destruct a as [sx|sx| |sx mx ex Hx], b as [sy|sy| |sy my ey Hy]; try reflexivity; try (cbn; now rewrite negb_xorb_l).
  set (a := B754_finite sx mx ex Hx). set (b := B754_finite sy my ey Hy).
  pose proof (Bmult_correct prec emax _ _ mode_NE a b) as A. pose proof (Bmult_correct prec emax _ _ mode_NE (Bopp a) b) as B.
  assert (V : round radix2 (SpecFloat.fexp prec emax) (round_mode mode_NE) (B2R (Bopp a) * B2R b) = - round radix2 (SpecFloat.fexp prec emax) (round_mode mode_NE) (B2R a * B2R b)).
  { rewrite B2R_Bopp, Ropp_mult_distr_l_reverse. apply round_NE_opp. }
  rewrite V, Rabs_Ropp in B. rewrite Bsign_Bopp in B by reflexivity. rewrite is_finite_Bopp in B. destruct (Rlt_bool _ _).
  - destruct A as (A1 & A2 & A3), B as (B1 & B2 & B3). change (is_finite a && is_finite b) with true in *.
    assert (FA : is_nan (Bmult mode_NE a b) = false) by (destruct (Bmult mode_NE a b); (reflexivity || discriminate)).
    assert (FB : is_nan (Bmult mode_NE (Bopp a) b) = false) by (destruct (Bmult mode_NE (Bopp a) b); (reflexivity || discriminate)).
    apply B2R_Bsign_inj; [now rewrite is_finite_Bopp|exact B2|now rewrite B2R_Bopp, A1, B1|].
    rewrite Bsign_Bopp by exact FA. rewrite (A3 FA), (B3 FB). apply negb_xorb_l.
  - apply B2SF_inj. rewrite B. assert (O : forall x : float, B2SF (Bopp x) = SpecFloat.SFopp (B2SF x)) by (intros [s|s| |s m e H]; reflexivity). rewrite O, A.
    rewrite <- negb_xorb_l. destruct (xorb _ _); reflexivity.
Qed.
Lemma sub_mul (x a b : float) : sub x (mul a b) = add x (mul (neg a) b).
Proof. now rewrite <- neg_mul, sub_neg. Qed.

Definition four (a b c d : float) (i : nat) : float := match i with O => a | 1%nat => b | 2%nat => c | _ => d end.
Lemma chain_accum (a b c d e f g h : float) : same_number (add (add (add (mul a e) (mul b f)) (mul c g)) (mul d h)) (fl_accum 4 (four a b c d) (four e f g h) zero).
Proof. apply same_sym. cbn [fl_accum four]. apply add_same, add_same, add_same. apply zero_add. Qed.
Lemma same_runs (x y : float) : same_number x y -> is_finite x = is_finite y /\ B2R x = B2R y.
Proof. intros [->|(A & B & C & D)]; split; congruence. Qed.
Lemma four_numbers (a b c d : float) : is_finite a = true -> is_finite b = true -> is_finite c = true -> is_finite d = true -> numbers 4 (four a b c d).
Proof. intros A B C D [|[|[|[|i]]]] I; cbn; assumption || lia. Qed.
Lemma bound_mono x y : x <= y -> PB x <= PB y.
Proof.
  intros H. unfold product_error_bound. apply Rplus_le_compat_r. apply Rmult_le_compat_l; [|exact H].
  assert (1 <= st ^ (4 + 1)) by (apply pow_R1_Rle; unfold step; pose proof (bpow_gt_0 radix2 (- prec)); lra). lra.
Qed.
Lemma chain_accurate (a b c d e f g h : float) s : is_finite a = true -> is_finite b = true -> is_finite c = true -> is_finite d = true -> is_finite e = true -> is_finite f = true -> is_finite g = true -> is_finite h = true ->
  Rabs (B2R a * B2R e) + Rabs (B2R b * B2R f) + Rabs (B2R c * B2R g) + Rabs (B2R d * B2R h) <= s ->
  let r := add (add (add (mul a e) (mul b f)) (mul c g)) (mul d h) in
  (is_finite r = true -> Rabs (B2R r - (B2R a * B2R e + B2R b * B2R f + B2R c * B2R g + B2R d * B2R h)) <= PB s) /\
  ((4 <= prec)%Z -> s <= pw (emax - 3) -> is_finite r = true).
Proof.
  intros A B C D E F G H Q r. pose proof (four_numbers a b c d A B C D) as N1. pose proof (four_numbers e f g h E F G H) as N2.
  destruct (same_runs _ _ (chain_accum a b c d e f g h)) as (T1 & T2). fold r in T1, T2.
  assert (X : exact_dot 4 (four a b c d) (four e f g h) = B2R a * B2R e + B2R b * B2R f + B2R c * B2R g + B2R d * B2R h) by (unfold exact_dot; cbn [total four]; ring).
  assert (Y : sum_of_sizes 4 (four a b c d) (four e f g h) <= s) by (unfold sum_of_sizes; cbn [total four]; lra).
  split.
  - intros R. rewrite T1 in R. rewrite T2, <- X. eapply Rle_trans; [apply (product_accurate prec emax 4 _ _ N1 N2 R)|now apply bound_mono].
  - intros P L. rewrite T1. apply (product_finite prec emax ltac:(lia)); auto; [|lra].
    change (Z.of_nat 4) with 4%Z. apply Z.lt_le_trans with (2 ^ 3)%Z; [lia|]. apply Z.pow_le_mono_r; lia.
Qed.
Lemma neg_fin (x : float) : is_finite x = true -> is_finite (neg x) = true. Proof. intros F. now rewrite (proj1 (neg_runs prec emax x)). Qed.
Lemma neg_val (x : float) : B2R (neg x) = - B2R x. Proof. apply neg_runs. Qed.

(** ** Products *)
Lemma mult_both (p q : fl_quat prec emax) s : quat_numbers p -> quat_numbers q -> qmag (exact_quat p) * qmag (exact_quat q) <= s ->
  (quat_numbers (fl_qmult p q) -> quat_near (PB s) (exact_quat (fl_qmult p q)) (qmult (exact_quat p) (exact_quat q))) /\
  ((4 <= prec)%Z -> s <= pw (emax - 3) -> quat_numbers (fl_qmult p q)).
Proof.
  intros (Px & Py & Pz & Pw) (Qx & Qy & Qz & Qw) S. destruct p as [x y z w], q as [qx' qy' qz' qw']. cbn [fq_x fq_y fq_z fq_w] in *.
  assert (M : forall a b c d e f g h, a * a + b * b + c * c + d * d = qmag2 (exact_quat (FQ x y z w)) -> e * e + f * f + g * g + h * h = qmag2 (exact_quat (FQ qx' qy' qz' qw')) ->
    Rabs (a * e) + Rabs (b * f) + Rabs (c * g) + Rabs (d * h) <= s) by (intros; eapply Rle_trans; [eapply pairing; symmetry; eassumption|exact S]).
  unfold fl_qmult, quat_numbers, quat_near, exact_quat, qmult in *. cbn [fq_x fq_y fq_z fq_w QuatModel.qx QuatModel.qy QuatModel.qz QuatModel.qw] in *. rewrite !sub_mul.
  pose proof (neg_fin x Px). pose proof (neg_fin y Py). pose proof (neg_fin z Pz).
  destruct (chain_accurate w x y (neg z) qx' qw' qz' qy' s) as (A1 & A2); auto; [rewrite neg_val; apply M; unfold qmag2; cbn; ring|].
  destruct (chain_accurate w (neg x) y z qy' qz' qw' qx' s) as (B1 & B2); auto; [rewrite neg_val; apply M; unfold qmag2; cbn; ring|].
  destruct (chain_accurate w x (neg y) z qz' qy' qx' qw' s) as (C1 & C2); auto; [rewrite neg_val; apply M; unfold qmag2; cbn; ring|].
  destruct (chain_accurate w (neg x) (neg y) (neg z) qw' qx' qy' qz' s) as (D1 & D2); auto; [rewrite !neg_val; apply M; unfold qmag2; cbn; ring|].
  split.
  - intros (F1 & F2 & F3 & F4). specialize (A1 F1). specialize (B1 F2). specialize (C1 F3). specialize (D1 F4). rewrite !neg_val in *.
    repeat split; match goal with H : Rabs (?a - _) <= ?e |- Rabs (?a - _) <= ?e => eapply Rle_trans; [right|exact H]; f_equal; ring end.
  - intros P L. repeat split; auto.
Qed.
Lemma mult_accurate (p q : fl_quat prec emax) : quat_numbers p -> quat_numbers q -> quat_numbers (fl_qmult p q) ->
  quat_near (PB (qmag (exact_quat p) * qmag (exact_quat q))) (exact_quat (fl_qmult p q)) (qmult (exact_quat p) (exact_quat q)).
Proof. intros P Q. apply (mult_both p q _ P Q). apply Rle_refl. Qed.
Lemma qmult_finite (P4 : (4 <= prec)%Z) (p q : fl_quat prec emax) : quat_numbers p -> quat_numbers q -> qmag (exact_quat p) * qmag (exact_quat q) <= pw (emax - 3) -> quat_numbers (fl_qmult p q).
Proof. intros P Q S. now apply (mult_both p q _ P Q S); [|apply Rle_refl]. Qed.

(** ** Conjugates, identity *)
Lemma conj_exact (q : fl_quat prec emax) : exact_quat (fl_conj q) = conj (exact_quat q).
Proof. unfold exact_quat, fl_conj, conj. cbn. now rewrite !neg_val. Qed.
Lemma conj_numbers (q : fl_quat prec emax) : quat_numbers q -> quat_numbers (fl_conj q).
Proof. intros (A & B & C & D). repeat split; cbn; auto using neg_fin. Qed.
Lemma conj_conj (q : fl_quat prec emax) : fl_conj (fl_conj q) = q.
Proof. destruct q as [x y z w]. unfold fl_conj, fl_neg. cbn. now rewrite !Bopp_involutive. Qed.
Lemma zmul (x : float) s : is_finite x = true -> exists b, mul (B754_zero s) x = B754_zero b. Proof. apply zero_mul. Qed.
Lemma mulz (x : float) s : is_finite x = true -> exists b, mul x (B754_zero s) = B754_zero b. Proof. rewrite mul_comm. apply zero_mul. Qed.
Lemma sub_zero (x : float) b : same_number (sub x (B754_zero b)) x.
Proof. rewrite <- sub_neg. apply add_zero. Qed.
Lemma sub_same (x y t : float) : same_number x y -> same_number (sub x t) (sub y t).
Proof. rewrite <- !sub_neg. apply add_same. Qed.
Lemma zero_sub (x : float) b : same_number (sub (B754_zero b) x) (neg x).
Proof. rewrite <- sub_neg. apply zero_add. Qed.
Lemma mult_ident_r (q : fl_quat prec emax) a b c : quat_numbers q -> same_quat (fl_qmult q (FQ (B754_zero a) (B754_zero b) (B754_zero c) one)) q.
Proof.
  intros (A & B & C & D). destruct q as [x y z w]. cbn [fq_x fq_y fq_z fq_w] in *. unfold fl_qmult, same_quat. cbn [fq_x fq_y fq_z fq_w]. rewrite !mul_one.
  destruct (mulz w a D) as (k1 & ->), (mulz w b D) as (k2 & ->), (mulz w c D) as (k3 & ->), (mulz x a A) as (k4 & ->), (mulz x b A) as (k5 & ->), (mulz x c A) as (k6 & ->), (mulz y a B) as (k7 & ->), (mulz y b B) as (k8 & ->), (mulz y c B) as (k9 & ->), (mulz z a C) as (k10 & ->), (mulz z b C) as (k11 & ->), (mulz z c C) as (k12 & ->).
  repeat split.
  - eapply same_trans; [apply sub_zero|]. eapply same_trans; [apply add_zero|]. apply zero_add.
  - eapply same_trans; [apply add_zero|]. eapply same_trans; [apply add_same, sub_zero|]. apply zero_add.
  - eapply same_trans; [apply add_same, sub_zero|]. eapply same_trans; [apply add_same, add_zero|]. apply zero_add.
  - eapply same_trans; [apply sub_zero|]. eapply same_trans; [apply sub_zero|]. apply sub_zero.
Qed.
Lemma mult_ident_l (q : fl_quat prec emax) a b c : quat_numbers q -> same_quat (fl_qmult (FQ (B754_zero a) (B754_zero b) (B754_zero c) one) q) q.
Proof.
  intros (A & B & C & D). destruct q as [x y z w]. cbn [fq_x fq_y fq_z fq_w] in *. unfold fl_qmult, same_quat. cbn [fq_x fq_y fq_z fq_w]. rewrite !one_mul.
  destruct (zmul x a A) as (k1 & ->), (zmul x b A) as (k2 & ->), (zmul x c A) as (k3 & ->), (zmul y a B) as (k4 & ->), (zmul y b B) as (k5 & ->), (zmul y c B) as (k6 & ->), (zmul z a C) as (k7 & ->), (zmul z b C) as (k8 & ->), (zmul z c C) as (k9 & ->), (zmul w a D) as (k10 & ->), (zmul w b D) as (k11 & ->), (zmul w c D) as (k12 & ->).
  repeat split.
  - eapply same_trans; [apply sub_zero|]. eapply same_trans; [apply add_zero|]. apply add_zero.
  - eapply same_trans; [apply add_zero|]. eapply same_trans; [apply add_zero|]. apply sub_zero.
  - eapply same_trans; [apply add_zero|]. eapply same_trans; [apply sub_zero|]. apply add_zero.
  - eapply same_trans; [apply sub_zero|]. eapply same_trans; [apply sub_zero|]. apply sub_zero.
Qed.
Lemma same_quat_trans (p q r : fl_quat prec emax) : same_quat p q -> same_quat q r -> same_quat p r.
Proof. intros (A & B & C & D) (E & F & G & H). repeat split; eapply same_trans; eassumption. Qed.
Lemma same_quat_numbers (p q : fl_quat prec emax) : same_quat p q -> quat_numbers q -> quat_numbers p.
Proof. intros (A & B & C & D) (E & F & G & H). repeat split; [rewrite (proj1 (same_runs _ _ A))|rewrite (proj1 (same_runs _ _ B))|rewrite (proj1 (same_runs _ _ C))|rewrite (proj1 (same_runs _ _ D))]; assumption. Qed.
Lemma vec_numbers (v : fl_vec3 prec emax) : vec3_numbers v -> quat_numbers (fl_quat_of v zero).
Proof. intros (A & B & C). repeat split; auto. Qed.
Lemma rot_ident (v : fl_vec3 prec emax) : vec3_numbers v -> same_vec3 (fl_qrot fl_qident v) v /\ same_vec3 (fl_qrot_inv v fl_qident) v.
Proof.
  intros N. pose proof (vec_numbers v N) as Q. unfold fl_qrot, fl_qrot_inv, fl_qident, fl_conj. cbn [fq_x fq_y fq_z fq_w]. rewrite zero_pattern in *. change (neg (B754_zero false)) with (B754_zero true : float).
  pose proof (mult_ident_l _ false false false Q) as A. pose proof (mult_ident_r _ true true true (same_quat_numbers _ _ A Q)) as B. pose proof (same_quat_trans _ _ _ B A) as C.
  pose proof (mult_ident_l _ true true true Q) as A'. pose proof (mult_ident_r _ false false false (same_quat_numbers _ _ A' Q)) as B'. pose proof (same_quat_trans _ _ _ B' A') as C'.
  destruct C as (C1 & C2 & C3 & _), C' as (C4 & C5 & C6 & _). destruct v as [x y z]. repeat split; assumption.
Qed.
Lemma mul_nan (x : float) : mul x B754_nan = B754_nan. Proof. destruct x; reflexivity. Qed.
Lemma nan_mul (x : float) : mul B754_nan x = B754_nan. Proof. reflexivity. Qed.
Lemma sub_nan (x : float) : sub x B754_nan = B754_nan. Proof. destruct x; reflexivity. Qed.
Lemma nan_sub (x : float) : sub B754_nan x = B754_nan. Proof. reflexivity. Qed.
Lemma ident_infinite (y z : float) s : fl_qrot fl_qident (FV (B754_infinity s) y z) = FV B754_nan B754_nan B754_nan.
Proof.
  assert (A : fq_y (fl_qmult fl_qident (fl_quat_of (FV (B754_infinity s) y z) zero)) = B754_nan).
  { unfold fl_qmult, fl_qident, fl_quat_of. cbn [fq_x fq_y fq_z fq_w fv_x fv_y fv_z]. rewrite zero_pattern, zero_mul_inf. apply add_nan. }
  unfold fl_qrot. destruct (fl_qmult fl_qident _) as [a b c d]. cbn [fq_y] in A. subst b.
  unfold fl_imag, fl_qmult. cbn [fq_x fq_y fq_z fq_w]. rewrite !nan_mul. rewrite !add_nan, !sub_nan, !nan_add, !nan_sub. reflexivity.
Qed.
(** *** Integers *)
Lemma chain_integers (P2 : (2 <= prec)%Z) (a b c d e f g h : float) : integral a -> integral b -> integral c -> integral d -> integral e -> integral f -> integral g -> integral h ->
  Rabs (B2R a * B2R e) + Rabs (B2R b * B2R f) + Rabs (B2R c * B2R g) + Rabs (B2R d * B2R h) <= pw prec ->
  let r := add (add (add (mul a e) (mul b f)) (mul c g)) (mul d h) in
  is_finite r = true /\ B2R r = B2R a * B2R e + B2R b * B2R f + B2R c * B2R g + B2R d * B2R h.
Proof.
  intros A B C D E F G H Q r. destruct (same_runs _ _ (chain_accum a b c d e f g h)) as (T1 & T2). fold r in T1, T2. rewrite T1, T2.
  destruct (product_integers prec emax P2 4 (four a b c d) (four e f g h)) as (X & Y).
  - intros [|[|[|[|n]]]] N; try lia; split; assumption.
  - unfold sum_of_sizes; cbn [total four]; lra.
  - split; [exact X|]. rewrite Y. unfold exact_dot; cbn [total four]; ring.
Qed.
Lemma neg_integral (x : float) : integral x -> integral (neg x).
Proof. intros (F & m & V). split; [now apply neg_fin|]. exists (- m)%Z. now rewrite neg_val, V, opp_IZR. Qed.
Lemma mult_integers (P2 : (2 <= prec)%Z) (p q : fl_quat prec emax) : integral_quat p -> integral_quat q -> qmag (exact_quat p) * qmag (exact_quat q) <= pw prec ->
  quat_numbers (fl_qmult p q) /\ exact_quat (fl_qmult p q) = qmult (exact_quat p) (exact_quat q).
Proof.
  intros (Px & Py & Pz & Pw) (Qx & Qy & Qz & Qw) S. destruct p as [x y z w], q as [qx' qy' qz' qw']. cbn [fq_x fq_y fq_z fq_w] in *.
  assert (M : forall a b c d e f g h, a * a + b * b + c * c + d * d = qmag2 (exact_quat (FQ x y z w)) -> e * e + f * f + g * g + h * h = qmag2 (exact_quat (FQ qx' qy' qz' qw')) ->
    Rabs (a * e) + Rabs (b * f) + Rabs (c * g) + Rabs (d * h) <= pw prec) by (intros; eapply Rle_trans; [eapply pairing; symmetry; eassumption|exact S]).
  unfold fl_qmult, quat_numbers, exact_quat, qmult in *. cbn [fq_x fq_y fq_z fq_w QuatModel.qx QuatModel.qy QuatModel.qz QuatModel.qw] in *. rewrite !sub_mul.
  pose proof (neg_integral x Px). pose proof (neg_integral y Py). pose proof (neg_integral z Pz).
  destruct (chain_integers P2 w x y (neg z) qx' qw' qz' qy') as (A1 & A2); auto; [rewrite neg_val; apply M; unfold qmag2; cbn; ring|].
  destruct (chain_integers P2 w (neg x) y z qy' qz' qw' qx') as (B1 & B2); auto; [rewrite neg_val; apply M; unfold qmag2; cbn; ring|].
  destruct (chain_integers P2 w x (neg y) z qz' qy' qx' qw') as (C1 & C2); auto; [rewrite neg_val; apply M; unfold qmag2; cbn; ring|].
  destruct (chain_integers P2 w (neg x) (neg y) (neg z) qw' qx' qy' qz') as (D1 & D2); auto; [rewrite !neg_val; apply M; unfold qmag2; cbn; ring|].
  rewrite !neg_val in *. split; [repeat split; assumption|]. rewrite A2, B2, C2, D2. f_equal; ring.
Qed.

(** ** Rotations *)
Lemma small_u : (8 <= prec)%Z -> 0 < u <= / 256.
Proof. intros P. split; [apply bpow_gt_0|]. replace (/ 256) with (pw (-8)) by (cbn; lra). apply bpow_le. lia. Qed.
Lemma step5 : (8 <= prec)%Z -> 1 <= st ^ 5 <= 1 + 5 * u + u / 16.
Proof.
  intros P. destruct (small_u P) as (U0 & U1). unfold step. set (t := u) in *. clearbody t. split; [apply pow_R1_Rle; lra|].
  replace ((1 + t) ^ 5) with (1 + 5 * t + t * (10 * t + 10 * (t * t) + 5 * (t * t * t) + t * t * t * t)) by ring.
  assert (A : t * t <= / 256 * t) by (apply Rmult_le_compat_r; lra). assert (A0 : 0 <= t * t) by (apply Rmult_le_pos; lra).
  assert (B : t * t * t <= / 256 * (/ 256 * t)). { rewrite Rmult_assoc. replace (/ 256 * (/ 256 * t)) with (/ 256 * (t * / 256)) by ring. apply Rmult_le_compat; try lra. }
  assert (B0 : 0 <= t * t * t) by (apply Rmult_le_pos; lra).
  assert (C : t * t * t * t <= t * t * t * / 256) by (apply Rmult_le_compat_l; lra).
  replace (t / 16) with (t * / 16) by (unfold Rdiv; ring). assert (t * (10 * t + 10 * (t * t) + 5 * (t * t * t) + t * t * t * t) <= t * / 16) by (apply Rmult_le_compat_l; lra). lra.
Qed.
Lemma hf_pos : 0 < hf. Proof. apply bpow_gt_0. Qed.
Lemma bound_simple s : (8 <= prec)%Z -> 0 <= s -> 0 <= PB s <= (5 + / 16) * u * s + (4 + / 8) * hf.
Proof.
  intros P S. destruct (step5 P) as (A & B). destruct (small_u P) as (U0 & U1). pose proof hf_pos as H. unfold product_error_bound. change (4 + 1)%nat with 5%nat. change (INR 4) with (1 + 1 + 1 + 1). split.
  - apply Rplus_le_le_0_compat; apply Rmult_le_pos; lra.
  - apply Rplus_le_compat; [apply Rmult_le_compat_r; lra|apply Rmult_le_compat_r; lra].
Qed.
(** From the first product to the second. *)
Lemma sandwich (P8 : (8 <= prec)%Z) (a b v : fl_quat prec emax) k m : quat_numbers a -> quat_numbers v -> quat_numbers b -> qmag (exact_quat a) = k -> qmag (exact_quat b) = k -> qmag (exact_quat v) = m ->
  (quat_numbers (fl_qmult a v) -> quat_numbers (fl_qmult (fl_qmult a v) b) ->
   quat_near (rotation_error prec emax k m) (exact_quat (fl_qmult (fl_qmult a v) b)) (qmult (qmult (exact_quat a) (exact_quat v)) (exact_quat b))) /\
  ((1 + k * m) * (1 + k) <= pw (emax - 5) -> quat_numbers (fl_qmult a v) /\ quat_numbers (fl_qmult (fl_qmult a v) b)).
Proof.
  intros Na Nv Nb Ka Kb Mv. destruct (small_u P8) as (U0 & U1). pose proof hf_pos as H0.
  assert (K0 : 0 <= k) by (rewrite <- Ka; apply qmag_nonneg). assert (M0 : 0 <= m) by (rewrite <- Mv; apply qmag_nonneg). assert (KM : 0 <= k * m) by (apply Rmult_le_pos; lra).
  assert (KKM : 0 <= k * (k * m)) by (apply Rmult_le_pos; lra).
  set (b1 := PB (k * m)). destruct (bound_simple (k * m) P8 KM) as (B0 & B1). fold b1 in B0, B1.
  assert (Near : quat_numbers (fl_qmult a v) -> exists d, exact_quat (fl_qmult a v) = qadd (qmult (exact_quat a) (exact_quat v)) d /\ qmag d <= 2 * b1).
  { intros F. pose proof (mult_accurate a v Na Nv F) as A. rewrite Ka, Mv in A. apply (near_mag b1 _ _ B0 A). }
  assert (Size : quat_numbers (fl_qmult a v) -> qmag (exact_quat (fl_qmult a v)) <= k * m + 2 * b1).
  { intros F. destruct (Near F) as (d & -> & D). eapply Rle_trans; [apply qmag_triangle|]. rewrite qmag_mult, Ka, Mv. lra. }
  split.
  - intros F1 F2. specialize (Size F1). destruct (Near F1) as (d & E & D).
    assert (S2 : qmag (exact_quat (fl_qmult a v)) * qmag (exact_quat b) <= (k * m + 2 * b1) * k) by (rewrite Kb; apply Rmult_le_compat_r; lra).
    pose proof (proj1 (mult_both (fl_qmult a v) b _ F1 Nb S2) F2) as A.
    assert (A2 : quat_near (2 * b1 * k) (qmult (exact_quat (fl_qmult a v)) (exact_quat b)) (qmult (qmult (exact_quat a) (exact_quat v)) (exact_quat b))).
    { rewrite E, qmult_add_l. eapply quat_near_le; [|apply near_of_add]. rewrite qmag_mult, Kb. apply Rmult_le_compat_r; lra. }
    eapply quat_near_le; [|eapply quat_near_trans; [exact A|exact A2]].
    assert (SZ : 0 <= (k * m + 2 * b1) * k) by (apply Rmult_le_pos; lra). destruct (bound_simple _ P8 SZ) as (_ & B2).
    assert (X : b1 * k <= ((5 + / 16) * u * (k * m) + (4 + / 8) * hf) * k) by (apply Rmult_le_compat_r; lra).
    assert (X0 : 0 <= b1 * k) by (apply Rmult_le_pos; lra).
    assert (Y : u * (b1 * k) <= / 256 * (b1 * k)) by (apply Rmult_le_compat_r; lra).
    assert (Z : 0 <= u * (k * (k * m))) by (apply Rmult_le_pos; lra). assert (W : 0 <= k * hf) by (apply Rmult_le_pos; lra).
    unfold rotation_error.
    replace ((5 + / 16) * u * ((k * m + 2 * b1) * k)) with ((5 + / 16) * (u * (k * (k * m))) + 2 * (5 + / 16) * (u * (b1 * k))) in B2 by ring.
    replace (((5 + / 16) * u * (k * m) + (4 + / 8) * hf) * k) with ((5 + / 16) * (u * (k * (k * m))) + (4 + / 8) * (k * hf)) in X by ring.
    replace (19 * u * (k * k * m) + (5 + 11 * k) * hf) with (19 * (u * (k * (k * m))) + 5 * hf + 11 * (k * hf)) by ring. lra.
  - intros L.
    assert (E5 : pw (emax - 3) = 4 * pw (emax - 5)) by (replace (emax - 3)%Z with (2 + (emax - 5))%Z by ring; rewrite bpow_plus; reflexivity).
    assert (HF : hf <= / 16) by (replace (/ 16) with (pw (-4)) by (cbn; lra); apply bpow_le; pose proof Hp; pose proof He; unfold Prec_gt_0, Prec_lt_emax, FmaSpec.emin in *; lia).
    assert (L' : (1 + k * m) + (1 + k * m) * k <= pw (emax - 5)) by lra. assert (KK : 0 <= (1 + k * m) * k) by (apply Rmult_le_pos; lra).
    assert (F1 : quat_numbers (fl_qmult a v)). { apply (qmult_finite ltac:(lia)); auto. rewrite Ka, Mv, E5. lra. }
    split; [exact F1|]. apply (qmult_finite ltac:(lia)); auto. specialize (Size F1). rewrite Kb, E5.
    assert (T : u * (k * m) <= / 256 * (k * m)) by (apply Rmult_le_compat_r; lra). replace ((5 + / 16) * u * (k * m)) with ((5 + / 16) * (u * (k * m))) in B1 by ring.
    apply Rle_trans with ((2 * (1 + k * m)) * k); [apply Rmult_le_compat_r; lra|lra].
Qed.
Lemma exact_vec (v : fl_vec3 prec emax) : exact_quat (fl_quat_of v zero) = quat_of (exact_vec3 v) 0.
Proof. unfold exact_quat, fl_quat_of, quat_of, exact_vec3. cbn [fq_x fq_y fq_z fq_w vx vy vz]. now rewrite (proj2 (lit_zero prec emax)). Qed.
Lemma imag_near e p q : quat_near e p q -> vec3_near e (imag p) (imag q).
Proof. intros (A & B & C & _). repeat split; assumption. Qed.
Lemma exact_imag (q : fl_quat prec emax) : exact_vec3 (fl_imag q) = imag (exact_quat q). Proof. reflexivity. Qed.
Lemma imag_numbers (q : fl_quat prec emax) : quat_numbers q -> vec3_numbers (fl_imag q). Proof. intros (A & B & C & _). repeat split; assumption. Qed.
Lemma rot_both (P8 : (8 <= prec)%Z) (q : fl_quat prec emax) (v : fl_vec3 prec emax) : quat_numbers q -> vec3_numbers v -> let k := qmag (exact_quat q) in let m := mag3 (exact_vec3 v) in
  (1 + k * m) * (1 + k) <= pw (emax - 5) ->
  (vec3_numbers (fl_qrot q v) /\ vec3_near (rotation_error prec emax k m) (exact_vec3 (fl_qrot q v)) (qrot (exact_quat q) (exact_vec3 v))) /\
  (vec3_numbers (fl_qrot_inv v q) /\ vec3_near (rotation_error prec emax k m) (exact_vec3 (fl_qrot_inv v q)) (qrot_inv (exact_vec3 v) (exact_quat q))).
Proof.
  intros Nq Nv k m L. pose proof (vec_numbers v Nv) as NV. pose proof (conj_numbers q Nq) as NC.
  assert (MV : qmag (exact_quat (fl_quat_of v zero)) = m) by (rewrite exact_vec; apply qmag_vec).
  assert (KC : qmag (exact_quat (fl_conj q)) = k) by (rewrite conj_exact; apply qmag_conj).
  destruct (sandwich P8 q (fl_conj q) (fl_quat_of v zero) k m Nq NV NC eq_refl KC MV) as (A1 & A2). destruct (A2 L) as (F1 & F2). specialize (A1 F1 F2).
  destruct (sandwich P8 (fl_conj q) q (fl_quat_of v zero) k m NC NV Nq KC eq_refl MV) as (B1 & B2). destruct (B2 L) as (G1 & G2). specialize (B1 G1 G2).
  rewrite exact_vec, conj_exact in A1, B1. apply imag_near in A1. apply imag_near in B1.
  unfold fl_qrot, fl_qrot_inv, qrot, qrot_inv. rewrite !exact_imag. split; split; [exact (imag_numbers _ F2)|exact A1|exact (imag_numbers _ G2)|exact B1].
Qed.
Lemma vec3_near_mag e v w : 0 <= e -> vec3_near e v w -> exists d, v = add3 w d /\ mag3 d <= 2 * e.
Proof.
  intros E (A & B & C). destruct (near_mag e (quat_of v 0) (quat_of w 0) E) as (d & D1 & D2); [repeat split; auto; cbn; rewrite Rminus_0_r, Rabs_R0; exact E|].
  exists (imag d). destruct v as [x y z], w as [x' y' z'], d as [d1 d2 d3 d4]. unfold quat_of, qadd, imag, add3 in *. cbn [vx vy vz qx qy qz qw] in *. injection D1 as -> -> -> D4. assert (d4 = 0) by lra. subst d4. split; [reflexivity|].
  rewrite <- qmag_vec. exact D2.
Qed.
Lemma mag3_triangle v w : mag3 (add3 v w) <= mag3 v + mag3 w.
Proof. rewrite <- !qmag_vec. replace (quat_of (add3 v w) 0) with (qadd (quat_of v 0) (quat_of w 0)) by (unfold qadd, quat_of, add3; cbn; now rewrite Rplus_0_r). apply qmag_triangle. Qed.
Lemma qrot_mag q v : mag3 (qrot q v) = qmag q * qmag q * mag3 v.
Proof.
  unfold mag3 at 1.
  replace (mag2_3 (qrot q v)) with (qmag2 q * qmag2 q * mag2_3 v) by (symmetry; apply qrot_dot).
  rewrite sqrt_mult; [|apply Rmult_le_pos; apply qmag2_nonneg|apply mag2_nonneg]. rewrite sqrt_square by apply qmag2_nonneg. now rewrite qmag_sq.
Qed.
Lemma rotation_error_pos k m : 0 <= k -> 0 <= m -> 0 <= rotation_error prec emax k m.
Proof.
  intros K M. unfold rotation_error. pose proof hf_pos. pose proof (bpow_gt_0 radix2 (- prec)). apply Rplus_le_le_0_compat; [|apply Rmult_le_pos; lra]. apply Rmult_le_pos; [lra|]. apply Rmult_le_pos; [|exact M]. apply Rmult_le_pos; exact K.
Qed.
Lemma rot_length (P8 : (8 <= prec)%Z) (q : fl_quat prec emax) (v : fl_vec3 prec emax) : quat_numbers q -> vec3_numbers v -> let k := qmag (exact_quat q) in let m := mag3 (exact_vec3 v) in
  (1 + k * m) * (1 + k) <= pw (emax - 5) -> Rabs (mag3 (exact_vec3 (fl_qrot q v)) - k * k * m) <= 2 * rotation_error prec emax k m.
Proof.
  intros Nq Nv k m L. destruct (rot_both P8 q v Nq Nv L) as ((_ & A) & _). fold k m in A.
  assert (E0 : 0 <= rotation_error prec emax k m) by (apply rotation_error_pos; [apply qmag_nonneg|apply mag_nonneg]).
  destruct (vec3_near_mag _ _ _ E0 A) as (d & D1 & D2). pose proof (mag3_triangle (qrot (exact_quat q) (exact_vec3 v)) d) as T1. rewrite <- D1, qrot_mag in T1. fold k m in T1.
  pose proof (mag3_triangle (exact_vec3 (fl_qrot q v)) (scale3 (-1) d)) as T2. replace (add3 (exact_vec3 (fl_qrot q v)) (scale3 (-1) d)) with (qrot (exact_quat q) (exact_vec3 v)) in T2 by (rewrite D1; apply v3_eq; unfold add3, scale3; cbn; ring).
  rewrite qrot_mag, mag_scale in T2. fold k m in T2. replace (Rabs (-1)) with 1 in T2 by (rewrite Rabs_left; lra). apply Rabs_le. lra.
Qed.
Lemma rot_inv_add q v d : qrot_inv (add3 v d) q = add3 (qrot_inv v q) (qrot_inv d q).
Proof. apply v3_eq; unfold qrot_inv, add3, imag, qmult, quat_of, conj; cbn; ring. Qed.
Lemma rot_inv_mag q v : mag3 (qrot_inv v q) = qmag q * qmag q * mag3 v.
Proof. replace (qrot_inv v q) with (qrot (conj q) v) by (apply v3_eq; unfold qrot, qrot_inv, imag, qmult, quat_of, conj; cbn; ring). rewrite qrot_mag, qmag_conj. reflexivity. Qed.
Lemma round_trip (P8 : (8 <= prec)%Z) (q : fl_quat prec emax) (v : fl_vec3 prec emax) : quat_numbers q -> vec3_numbers v -> let k := qmag (exact_quat q) in let m := mag3 (exact_vec3 v) in
  let e := rotation_error prec emax k m in let m' := k * k * m + 2 * e in
  (1 + k * m) * (1 + k) <= pw (emax - 5) -> (1 + k * m') * (1 + k) <= pw (emax - 5) ->
  vec3_numbers (fl_qrot_inv (fl_qrot q v) q) /\
  vec3_near (rotation_error prec emax k m' + 2 * (k * k * e)) (exact_vec3 (fl_qrot_inv (fl_qrot q v) q)) (scale3 (k * k * (k * k)) (exact_vec3 v)).
Proof.
  intros Nq Nv k m e m' L1 L2. destruct (rot_both P8 q v Nq Nv L1) as ((Nr & A) & _). fold k m e in A.
  assert (K0 : 0 <= k) by apply qmag_nonneg. assert (E0 : 0 <= e) by (apply rotation_error_pos; [apply qmag_nonneg|apply mag_nonneg]).
  pose proof (rot_length P8 q v Nq Nv L1) as Ln. fold k m e in Ln. apply Rabs_le_inv in Ln. set (n := mag3 (exact_vec3 (fl_qrot q v))) in *.
  assert (Nm : n <= m') by (unfold m'; lra). assert (N0 : 0 <= n) by apply mag_nonneg.
  assert (KN : k * n <= k * m') by (apply Rmult_le_compat_l; lra).
  assert (L3 : (1 + k * n) * (1 + k) <= pw (emax - 5)) by (eapply Rle_trans; [|exact L2]; apply Rmult_le_compat_r; lra).
  destruct (rot_both P8 q (fl_qrot q v) Nq Nr L3) as (_ & (Nb & B)). fold k n in B. split; [exact Nb|].
  destruct (vec3_near_mag _ _ _ E0 A) as (d & D1 & D2). rewrite D1, rot_inv_add, qrot_inv_qrot, <- qmag_sq in B. fold k in B.
  assert (Em : rotation_error prec emax k n <= rotation_error prec emax k m').
  { unfold rotation_error. apply Rplus_le_compat_r. apply Rmult_le_compat_l; [pose proof (bpow_gt_0 radix2 (- prec)); lra|]. apply Rmult_le_compat_l; [apply Rmult_le_pos; exact K0|exact Nm]. }
  assert (KK : 0 <= k * k) by (apply Rmult_le_pos; exact K0).
  assert (Dm : mag3 (qrot_inv d (exact_quat q)) <= 2 * (k * k * e)). { rewrite rot_inv_mag. fold k. replace (2 * (k * k * e)) with (k * k * (2 * e)) by ring. apply Rmult_le_compat_l; assumption. }
  destruct (element_le (quat_of (qrot_inv d (exact_quat q)) 0)) as (Q1 & Q2 & Q3 & _). rewrite qmag_vec in Q1, Q2, Q3. cbn [quat_of qx qy qz] in Q1, Q2, Q3.
  destruct B as (B1 & B2 & B3). unfold add3 in B1, B2, B3. cbn [vx vy vz] in B1, B2, B3.
  repeat split; (eapply abs_close; [eapply Rle_trans; [eassumption|exact Em]|]); match goal with |- Rabs (?x + ?y - ?x) <= _ => replace (x + y - x) with y by ring end; lra.
Qed.
End Quat.

(** ** Doubles *)
Definition half_quat := FQ (dbl 1 (-1)) (dbl 1 (-1)) (dbl 1 (-1)) (dbl 1 (-1)).
Lemma half_runs : is_finite (dbl 1 (-1)) = true /\ B2R (dbl 1 (-1)) = / 2.
Proof. destruct (dbl_runs 1 (-1) ltac:(lia) ltac:(lia)) as (F & V). split; [exact F|]. rewrite V. cbn. lra. Qed.
Lemma half_unit : quat_numbers half_quat /\ qmag (exact_quat half_quat) = 1.
Proof.
  destruct half_runs as (F & V). split; [repeat split; exact F|]. unfold qmag, qmag2, exact_quat, half_quat. cbn [fq_x fq_y fq_z fq_w qx qy qz qw]. rewrite V.
  replace (_ + _) with 1 by lra. apply sqrt_1.
Qed.
Lemma lost_rotation : exists (q : fl_quat 53 1024) (v : fl_vec3 53 1024), quat_numbers q /\ qmag (exact_quat q) = 1 /\ vec3_numbers v /\
  vz (qrot (exact_quat q) (exact_vec3 v)) = bpow radix2 (-60) /\ B2R (fv_z (fl_qrot q v)) = 0 /\
  B2R (fv_y v) = bpow radix2 (-60) /\ B2R (fv_y (fl_qrot_inv (fl_qrot q v) q)) = 0.
Proof.
  destruct half_unit as (N & U). destruct half_runs as (F & V). destruct (dbl_runs 1 0 ltac:(lia) ltac:(lia)) as (F1 & V1). destruct (dbl_runs 1 (-60) ltac:(lia) ltac:(lia)) as (F2 & V2). destruct (dbl_runs 0 0 ltac:(lia) ltac:(lia)) as (F3 & V3).
  exists half_quat, (FV (dbl 1 0) (dbl 1 (-60)) (dbl 0 0)). split; [exact N|]. split; [exact U|]. split; [repeat split; assumption|]. split; [|split; [|split]].
  - unfold qrot, imag, qmult, conj, quat_of, exact_quat, exact_vec3, half_quat. cbn [fq_x fq_y fq_z fq_w fv_x fv_y fv_z vx vy vz qx qy qz qw]. rewrite V, V1, V2, V3. set (t := bpow radix2 (-60)). clearbody t. cbn. lra.
  - set (x := fv_z _). assert (Y : B2SF x = SpecFloat.S754_zero false) by (vm_compute; reflexivity). rewrite <- SF2R_B2SF, Y. reflexivity.
  - cbn [fv_y]. rewrite V2. lra.
  - set (x := fv_y _). assert (Y : B2SF x = SpecFloat.S754_zero false) by (vm_compute; reflexivity). rewrite <- SF2R_B2SF, Y. reflexivity.
Qed.
Lemma inf_pattern (f : binary_float 53 1024) : B2SF f = SpecFloat.S754_infinity false -> f = B754_infinity false.
Proof. destruct f as [s|s| |s k e H]; intros E; cbn in E; try discriminate. now injection E as ->. Qed.
Lemma huge_rotation : exists (q : fl_quat 53 1024) (v : fl_vec3 53 1024), quat_numbers q /\ qmag (exact_quat q) = 1 /\ vec3_numbers v /\
  qrot (exact_quat q) (exact_vec3 v) = exact_vec3 v /\ fl_qrot q v = FV (B754_infinity false) (B754_infinity false) (B754_infinity false).
Proof.
  destruct half_unit as (N & U). destruct half_runs as (F & V). set (m := dbl 9007199254740991 971).
  exists half_quat, (FV m m m). split; [exact N|]. split; [exact U|]. split; [repeat split; vm_compute; reflexivity|]. split.
  - unfold qrot, imag, qmult, conj, quat_of, exact_quat, exact_vec3, half_quat. cbn [fq_x fq_y fq_z fq_w fv_x fv_y fv_z vx vy vz qx qy qz qw]. rewrite V. generalize (B2R m). intros t. f_equal; field.
  - set (r := fl_qrot _ _). assert (X : B2SF (fv_x r) = SpecFloat.S754_infinity false) by (vm_compute; reflexivity). assert (Y : B2SF (fv_y r) = SpecFloat.S754_infinity false) by (vm_compute; reflexivity). assert (Z : B2SF (fv_z r) = SpecFloat.S754_infinity false) by (vm_compute; reflexivity).
    apply inf_pattern in X. apply inf_pattern in Y. apply inf_pattern in Z. clearbody r. destruct r as [a b c]. cbn [fv_x fv_y fv_z] in X, Y, Z. now subst.
Qed.
Lemma rotation_example : let q := half_quat in let v := FV (dbl 3 0) (dbl 4 0) (dbl 0 0) in
  quat_numbers q /\ vec3_numbers v /\ (1 + qmag (exact_quat q) * mag3 (exact_vec3 v)) * (1 + qmag (exact_quat q)) <= bpow radix2 (1024 - 5) /\
  rotation_error 53 1024 (qmag (exact_quat q)) (mag3 (exact_vec3 v)) <= bpow radix2 (-46) /\ fl_qrot q v = FV (dbl 0 0) (dbl 3 0) (dbl 4 0).
Proof.
  intros q v. destruct half_unit as (N & U). destruct (dbl_int 3 ltac:(lia)) as (F3 & V3). destruct (dbl_int 4 ltac:(lia)) as (F4 & V4). destruct (dbl_int 0 ltac:(lia)) as (F0 & V0).
  assert (M : mag3 (exact_vec3 v) = 5). { unfold mag3, mag2_3, dot3, exact_vec3, v. cbn [fv_x fv_y fv_z vx vy vz]. rewrite V3, V4, V0. replace (_ + _) with (5 * 5) by lra. apply sqrt_square. lra. }
  split; [exact N|]. split; [repeat split; assumption|]. unfold q. rewrite U, M. split; [|split].
  - apply Rle_trans with (bpow radix2 4); [cbn; lra|apply bpow_le; lia].
  - unfold rotation_error. change (- (53))%Z with (-53)%Z. assert (A : bpow radix2 (emin 53 1024 - 1) <= bpow radix2 (-60)) by (apply bpow_le; unfold emin; lia). apply Rle_trans with (95 * bpow radix2 (-53) + 16 * bpow radix2 (-60)); [lra|cbn; lra].
  - unfold v, fl_qrot. set (r := fl_imag _). assert (X : B2SF (fv_x r) = B2SF (dbl 0 0)) by (vm_compute; reflexivity). assert (Y : B2SF (fv_y r) = B2SF (dbl 3 0)) by (vm_compute; reflexivity). assert (Z : B2SF (fv_z r) = B2SF (dbl 4 0)) by (vm_compute; reflexivity).
    apply B2SF_inj in X. apply B2SF_inj in Y. apply B2SF_inj in Z. clearbody r. destruct r as [a b c]. cbn [fv_x fv_y fv_z] in X, Y, Z. now subst.
Qed.
