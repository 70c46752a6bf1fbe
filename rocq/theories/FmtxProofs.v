From Coq Require Import Reals ZArith Lia Lra Bool.
From Flocq Require Import Core Relative Plus_error Mult_error Operations BinarySingleNaN.
From Verif Require Import FmaModel FmaSpec FmaProofs FquadModel FquadProofs FquadMore FvecModel FvecSpec FvecProofs FvecMore FmtxModel FmtxSpec.
Open Scope R_scope.

Section Mtx.
Variable prec emax : Z.
Context {Hp : Prec_gt_0 prec} {He : Prec_lt_emax prec emax}.
Notation float := (binary_float prec emax).
Notation pw := (bpow radix2).
Notation emin' := (FmaSpec.emin prec emax).
Notation fexp' := (FLT_exp emin' prec).
Notation RNE := (rn fexp' (fun t => negb (Z.even t))).
Notation FT := (generic_format radix2 fexp').
Notation u := (pw (- prec)).
Notation st := (step prec).
Notation add := (fl_add prec emax).
Notation mul := (fl_mul prec emax).
Notation zero := (fl_lit prec emax 0 0).
Notation one := (fl_one prec emax).
Notation nan := (@B754_nan prec emax).

(** ** Bit patterns *)
Lemma same_refl (x : float) : same_number x x. Proof. now left. Qed.
Lemma same_sym (x y : float) : same_number x y -> same_number y x. Proof. intros [->|H]; [now left|right; tauto]. Qed.
Lemma same_trans (x y z : float) : same_number x y -> same_number y z -> same_number x z.
Proof. intros [->|(A & B & C & D)]; [auto|]. intros [<-|(E & F & G & H)]; right; auto. Qed.
Lemma zeros_same a b : same_number (B754_zero a : float) (B754_zero b). Proof. right. now cbn. Qed.
Lemma same_cases (x y : float) : same_number x y -> x = y \/ exists a b, x = B754_zero a /\ y = B754_zero b.
Proof. intros [->|(A & B & C & D)]; [now left|right]. destruct (zero_float prec emax x A C) as (a & ->), (zero_float prec emax y B D) as (b & ->). eauto. Qed.
Lemma mul_comm (x y : float) : mul x y = mul y x.
Proof.
  unfold fl_mul. destruct x as [sx|sx| |sx mx ex Hx], y as [sy|sy| |sy my ey Hy]; try reflexivity; try (cbn; now rewrite xorb_comm).
  apply B2SF_inj. cbn [Bmult]. rewrite !B2SF_SF2B. now rewrite xorb_comm, Pos.mul_comm, Z.add_comm.
Qed.
Lemma accum_comm k (v w : nat -> float) s : fl_accum k v w s = fl_accum k w v s.
Proof. induction k as [|n IH]; [reflexivity|]. cbn [fl_accum]. now rewrite IH, mul_comm. Qed.
Lemma zero_pattern : zero = B754_zero false. Proof. reflexivity. Qed.
Lemma one_pattern : exists m e H, one = B754_finite false m e H.
Proof.
  unfold fl_one. pose proof (Bone_correct prec emax _ _) as V. pose proof (is_finite_Bone prec emax _ _) as F. pose proof (Bsign_Bone prec emax _ _) as S. destruct (@Bone prec emax _ _) as [s|s| |s m e H]; cbn in V, F, S; try discriminate; [lra|]. subst s. eauto.
Qed.
Lemma one_value : B2R one = 1. Proof. apply Bone_correct. Qed.
Lemma mul_one (x : float) : mul x one = x.
Proof.
  destruct (is_finite x) eqn:F.
  - assert (B : Rabs (RNE (B2R x * B2R one)) < pw emax) by (rewrite one_value, Rmult_1_r, rne_exact; apply abs_B2R_lt_emax).
    destruct (mult_runs prec emax x one F (is_finite_Bone prec emax _ _) B) as (Fm & V). apply B2R_Bsign_inj; auto; [now rewrite V, one_value, Rmult_1_r, rne_exact|].
    assert (Nn : is_nan (mul x one) = false) by (destruct (mul x one); (reflexivity || discriminate)).
    destruct one_pattern as (m & e & H & E). pose proof (Bmult_correct prec emax _ _ mode_NE x one) as C. fold (mul x one) in C. destruct (Rlt_bool _ _).
    + destruct C as (_ & _ & C). rewrite (C Nn), E. cbn [Bsign]. apply xorb_false_r.
    + assert (Q : is_finite (mul x one) = false) by (eapply overflow_infinite; exact C). congruence.
  - destruct one_pattern as (m & e & H & ->). destruct x as [s|s| |s mx ex Hx]; try discriminate; cbn; [now rewrite xorb_false_r|reflexivity].
Qed.
Lemma one_mul (x : float) : mul one x = x. Proof. rewrite mul_comm. apply mul_one. Qed.
Lemma zero_mul (x : float) s : is_finite x = true -> exists b, mul (B754_zero s) x = B754_zero b.
Proof. destruct x as [a|a| |a m e H]; try discriminate; intros _; cbn; eauto. Qed.
Lemma zero_mul_inf s t : mul (B754_zero s) (B754_infinity t) = nan. Proof. reflexivity. Qed.
Lemma add_zero (x : float) b : same_number (add x (B754_zero b)) x.
Proof.
  unfold fl_add. destruct x as [s|s| |s m e H]; cbn; try apply same_refl. destruct (Bool.eqb s b); apply zeros_same.
Qed.
Lemma zero_add (x : float) b : same_number (add (B754_zero b) x) x.
Proof. unfold fl_add. destruct x as [s|s| |s m e H]; cbn; try apply same_refl. destruct (Bool.eqb b s); apply zeros_same. Qed.
Lemma add_same (x y t : float) : same_number x y -> same_number (add x t) (add y t).
Proof.
  intros H. destruct (same_cases x y H) as [->|(a & b & -> & ->)]; [apply same_refl|]. apply same_trans with t; [apply zero_add|apply same_sym, zero_add].
Qed.
Lemma sub_neg (x t : float) : add x (fl_neg prec emax t) = fl_sub prec emax x t.
Proof. unfold fl_add, fl_sub, fl_neg. destruct x as [s|s| |s m e H], t as [s'|s'| |s' m' e' H']; reflexivity. Qed.
Lemma nan_add (x : float) : add nan x = nan. Proof. reflexivity. Qed.
Lemma add_nan (x : float) : add x nan = nan. Proof. destruct x; reflexivity. Qed.
(** One term that counts. *)
Lemma accum_zeros k (v w : nat -> float) s : (forall i, (i < k)%nat -> exists b, mul (v i) (w i) = B754_zero b) -> same_number (fl_accum k v w s) s.
Proof.
  induction k as [|n IH]; intros H; [apply same_refl|]. cbn [fl_accum]. destruct (H n ltac:(lia)) as (b & ->). eapply same_trans; [apply add_zero|]. apply IH. intros; apply H; lia.
Qed.
Lemma accum_one k (v w : nat -> float) r : (r < k)%nat -> (forall i, (i < k)%nat -> i <> r -> exists b, mul (v i) (w i) = B754_zero b) -> same_number (fl_accum k v w zero) (mul (v r) (w r)).
Proof.
  induction k as [|n IH]; intros K H; [lia|]. cbn [fl_accum]. destruct (Nat.eq_dec r n) as [E|Ne].
  - rewrite E. eapply same_trans; [apply add_same; apply (accum_zeros n)|apply zero_add]. intros i I. apply H; lia.
  - destruct (H n ltac:(lia) ltac:(lia)) as (b & ->). eapply same_trans; [apply add_zero|]. apply IH; [lia|]. intros; apply H; lia.
Qed.
Lemma accum_nan k (v w : nat -> float) s i : (i < k)%nat -> mul (v i) (w i) = nan -> fl_accum k v w s = nan.
Proof.
  induction k as [|n IH]; intros K H; [lia|]. cbn [fl_accum]. destruct (Nat.eq_dec i n) as [E|Ne]; [rewrite <- E, H; apply add_nan|]. rewrite IH by (assumption || lia). apply nan_add.
Qed.
Lemma accum_ext k (v w v' w' : nat -> float) s : (forall i, (i < k)%nat -> v i = v' i /\ w i = w' i) -> fl_accum k v w s = fl_accum k v' w' s.
Proof. induction k as [|n IH]; intros H; [reflexivity|]. cbn [fl_accum]. destruct (H n ltac:(lia)) as (-> & ->). rewrite IH; [reflexivity|]. intros; apply H; lia. Qed.
Lemma delta_zero r c : r <> c -> @fl_delta prec emax _ _ r c = B754_zero false. Proof. intros H. unfold fl_delta. now apply Nat.eqb_neq in H as ->. Qed.
Lemma delta_one r : @fl_delta prec emax _ _ r r = one. Proof. unfold fl_delta. now rewrite Nat.eqb_refl. Qed.
(** *** The identity *)
Lemma times_identity inner (a : nat -> nat -> float) r c : (c < inner)%nat -> numbers inner (a r) -> same_number (fl_mtx_mul inner a fl_delta r c) (a r c).
Proof.
  intros C F. unfold fl_mtx_mul. eapply same_trans; [apply (accum_one inner (a r) (fun n => fl_delta n c) c C)|].
  - intros i I N. rewrite delta_zero by exact N. rewrite mul_comm. apply zero_mul. now apply F.
  - cbv beta. rewrite delta_one, mul_one. apply same_refl.
Qed.
Lemma identity_vec inner (p : nat -> float) r : (r < inner)%nat -> numbers inner p -> same_number (fl_mtx_vec inner fl_delta p r) (p r).
Proof.
  intros C F. unfold fl_mtx_vec. eapply same_trans; [apply (accum_one inner (fl_delta r) p r C)|].
  - intros i I N. rewrite delta_zero by auto. apply zero_mul. now apply F.
  - rewrite delta_one, one_mul. apply same_refl.
Qed.
Lemma identity_times inner (b : nat -> nat -> float) r c : (r < inner)%nat -> numbers inner (fun n => b n c) -> same_number (fl_mtx_mul inner fl_delta b r c) (b r c).
Proof. apply (identity_vec inner (fun n => b n c)). Qed.
Lemma times_identity_inf inner (a : nat -> nat -> float) r c k s : (c < inner)%nat -> (k < inner)%nat -> k <> c -> a r k = B754_infinity s -> fl_mtx_mul inner a fl_delta r c = nan.
Proof. intros C K N E. unfold fl_mtx_mul. apply (accum_nan inner _ _ _ k K). rewrite E, delta_zero by exact N. reflexivity. Qed.
(** *** Translations and scales *)
Lemma hom_in N (p : nat -> float) i : (i < N)%nat -> fl_hom N p i = p i. Proof. intros H. unfold fl_hom. now apply Nat.ltb_lt in H as ->. Qed.
Lemma hom_last N (p : nat -> float) : fl_hom N p N = one. Proof. unfold fl_hom. now rewrite Nat.ltb_irrefl. Qed.
Lemma moves N (m : nat -> nat -> float) (p : nat -> float) (t : float) r : (r < N)%nat -> numbers N p -> (forall c, (c < N)%nat -> m r c = fl_delta r c) -> m r N = t -> same_number (fl_mtx_vec (S N) m (fl_hom N p) r) (add (p r) t).
Proof.
  intros R F M T. unfold fl_mtx_vec. cbn [fl_accum]. rewrite T, hom_last, mul_one. apply add_same. rewrite (accum_ext N _ _ (fl_delta r) p) by (intros i I; split; [now apply M|now apply hom_in]). now apply identity_vec.
Qed.
Lemma translates N (t p : nat -> float) r : (r < N)%nat -> numbers N p ->
  same_number (fl_apply N (fl_translation N t) p r) (add (p r) (t r)) /\ same_number (fl_apply_inverse N (fl_translation N t) p r) (fl_sub prec emax (p r) (t r)) /\
  same_number (fl_apply_vector N (fl_translation N t) p r) (p r).
Proof.
  intros R F. assert (L : Nat.ltb r N = true) by now apply Nat.ltb_lt. split; [|split].
  - apply moves; auto; cbn [fl_translation fl_mat]; [|now rewrite Nat.eqb_refl, L]. intros c C. replace (Nat.eqb c N) with false; [reflexivity|]. symmetry. apply Nat.eqb_neq. lia.
  - rewrite <- sub_neg. apply moves; auto; cbn [fl_translation fl_inv]; [|now rewrite Nat.eqb_refl, L]. intros c C. replace (Nat.eqb c N) with false; [reflexivity|]. symmetry. apply Nat.eqb_neq. lia.
  - unfold fl_apply_vector. rewrite (accum_ext N _ _ (fl_delta r) p); [now apply identity_vec|]. intros c C. split; [|reflexivity]. cbn [fl_translation fl_mat]. replace (Nat.eqb c N) with false; [reflexivity|]. symmetry. apply Nat.eqb_neq. lia.
Qed.
Lemma scales_m N (m : nat -> nat -> float) (p : nat -> float) (s : float) r : (r < N)%nat -> numbers N p -> (forall c, (c <= N)%nat -> c <> r -> m r c = B754_zero false) -> m r r = s ->
  same_number (fl_mtx_vec (S N) m (fl_hom N p) r) (mul s (p r)) /\ same_number (fl_accum N (m r) p zero) (mul s (p r)).
Proof.
  intros R F M T. assert (D : same_number (fl_accum N (m r) p zero) (mul s (p r))).
  { eapply same_trans; [apply (accum_one N (m r) p r R)|rewrite T; apply same_refl]. intros i I Ne. rewrite M by lia. apply zero_mul. now apply F. }
  split; [|exact D]. unfold fl_mtx_vec. cbn [fl_accum]. rewrite (M N) by lia. rewrite hom_last, mul_one. eapply same_trans; [apply add_zero|]. rewrite (accum_ext N _ _ (m r) p); [exact D|]. intros i I. split; [reflexivity|now apply hom_in].
Qed.
Lemma scale_row N (f : nat -> float) r c : (c <= N)%nat -> c <> r -> (if Nat.eqb r c && Nat.ltb r N then f r else fl_delta r c) = B754_zero false.
Proof. intros C D. replace (Nat.eqb r c) with false; [|symmetry; apply Nat.eqb_neq; auto]. apply delta_zero. auto. Qed.
Lemma scales N (s p : nat -> float) r : (r < N)%nat -> numbers N p ->
  same_number (fl_apply N (fl_scale N s) p r) (mul (s r) (p r)) /\ same_number (fl_apply_inverse N (fl_scale N s) p r) (mul (fl_div prec emax one (s r)) (p r)) /\
  same_number (fl_apply_vector N (fl_scale N s) p r) (mul (s r) (p r)).
Proof.
  intros R F. assert (L : Nat.ltb r N = true) by now apply Nat.ltb_lt. assert (A : forall c, (c <= N)%nat -> c <> r -> fl_mat (fl_scale N s) r c = B754_zero false) by (intros c C D; exact (scale_row N s r c C D)).
  assert (A' : forall c, (c <= N)%nat -> c <> r -> fl_inv (fl_scale N s) r c = B754_zero false) by (intros c C D; exact (scale_row N (fun r => fl_div prec emax one (s r)) r c C D)).
  assert (B : fl_mat (fl_scale N s) r r = s r) by (cbn [fl_scale fl_mat]; now rewrite Nat.eqb_refl, L). assert (B' : fl_inv (fl_scale N s) r r = fl_div prec emax one (s r)) by (cbn [fl_scale fl_inv]; now rewrite Nat.eqb_refl, L).
  destruct (scales_m N (fl_mat (fl_scale N s)) p (s r) r R F A B) as (X & Y). destruct (scales_m N (fl_inv (fl_scale N s)) p _ r R F A' B') as (Z & _). split; [exact X|split; [exact Z|exact Y]].
Qed.
Lemma translate_inf N (t p : nat -> float) r k s : (r < N)%nat -> (k < N)%nat -> k <> r -> p k = B754_infinity s -> fl_apply N (fl_translation N t) p r = nan.
Proof.
  intros R K D E. unfold fl_apply, fl_mtx_vec. apply (accum_nan (Datatypes.S N) _ _ _ k ltac:(lia)). rewrite hom_in, E by exact K. cbn [fl_translation fl_mat]. replace (Nat.eqb k N) with false by (symmetry; apply Nat.eqb_neq; lia). cbn [andb]. rewrite delta_zero by auto. reflexivity.
Qed.
(** There and back. *)
Lemma round_trip N (t p : nat -> float) r : (r < N)%nat -> numbers N p -> numbers N t -> (forall i, (i < N)%nat -> is_finite (add (p i) (t i)) = true) -> B2R (add (p r) (t r)) = B2R (p r) + B2R (t r) ->
  same_number (fl_apply_inverse N (fl_translation N t) (fl_apply N (fl_translation N t) p) r) (p r).
Proof.
  intros R Fp Ft Fs X. assert (G : forall i, (i < N)%nat -> same_number (fl_apply N (fl_translation N t) p i) (add (p i) (t i))) by (intros i I; now apply translates).
  assert (Fin : forall x y : float, same_number x y -> is_finite y = true -> is_finite x = true /\ B2R x = B2R y) by (intros x y [->|(A & B & C & D)] E; [auto|split; [exact A|lra]]).
  assert (FA : numbers N (fl_apply N (fl_translation N t) p)) by (intros i I; exact (proj1 (Fin _ _ (G i I) (Fs i I)))).
  destruct (Fin _ _ (G r R) (Fs r R)) as (F1 & V1). destruct (translates N t _ r R FA) as (_ & T & _). eapply same_trans; [exact T|].
  assert (B : Rabs (RNE (B2R (fl_apply N (fl_translation N t) p r) - B2R (t r))) < pw emax). { rewrite V1, X. replace (B2R (p r) + B2R (t r) - B2R (t r)) with (B2R (p r)) by ring. rewrite rne_exact. apply abs_B2R_lt_emax. }
  destruct (minus_runs prec emax _ _ F1 (Ft r R) B) as (F2 & V2). rewrite V1, X in V2. replace (B2R (p r) + B2R (t r) - B2R (t r)) with (B2R (p r)) in V2 by ring. rewrite rne_exact in V2.
  destruct (Req_dec (B2R (p r)) 0) as [Z|NZ]; [right; rewrite V2; auto|]. left. apply B2R_inj; [| |exact V2].
  - destruct (fl_sub prec emax _ _) as [s|s| |s m e H] eqn:Q; try discriminate; [cbn in V2; lra|reflexivity].
  - specialize (Fp r R). destruct (p r) as [s|s| |s m e H]; try discriminate; [cbn in NZ; lra|reflexivity].
Qed.
End Mtx.
