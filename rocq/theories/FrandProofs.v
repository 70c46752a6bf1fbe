From Coq Require Import Reals ZArith Lia Lra Bool.
From Flocq Require Import Core Relative Plus_error Mult_error Operations BinarySingleNaN.
From Verif Require Import FmaModel FmaSpec FmaProofs FquadModel FquadProofs FquadMore FvecSpec FvecMore FutilSpec FutilProofs FutilMore WordModel RandModel RandSpec RandProofs MTProofs FrandModel FrandSpec.
Open Scope R_scope.

Section Range.
Variable prec emax : Z.
Context {Hp : Prec_gt_0 prec} {He : Prec_lt_emax prec emax}.
Notation float := (binary_float prec emax).
Notation pw := (bpow radix2).
Notation emin' := (FmaSpec.emin prec emax).
Notation fexp' := (FLT_exp emin' prec).
Notation RNE := (rn fexp' (fun t => negb (Z.even t))).
Notation FT := (generic_format radix2 fexp').
Notation u := (pw (- prec)).
Notation h := (pw (emin' - 1)).
Hypotheses (P8 : (8 <= prec)%Z) (E8 : (8 <= emax)%Z).
Let US : 0 < u <= / 256 := u_small prec P8.
Let LP : (prec < emax)%Z := He.
Lemma rne_opp x : RNE (- x) = - RNE x.
Proof. unfold rn. change (Znearest (fun t => negb (Z.even t))) with ZnearestE. apply round_NE_opp. Qed.
Lemma rne_ge x a : FT a -> a <= x -> a <= RNE x.
Proof. intros A H. rewrite <- (rn_id emin' prec (fun t => negb (Z.even t)) a A). now apply (rn_le emin' prec). Qed.
Lemma rne_le x a : FT a -> x <= a -> RNE x <= a.
Proof. intros A H. rewrite <- (rn_id emin' prec (fun t => negb (Z.even t)) a A). now apply (rn_le emin' prec). Qed.
Lemma ft_0 : FT 0. Proof. apply generic_format_0. Qed.
(** A product with a factor in [0,1] does not leave the range of 0 and the other. *)
Lemma shrunk a r : FT a -> 0 <= r <= 1 -> Rmin 0 a <= RNE (a * r) <= Rmax 0 a.
Proof.
  intros A R.
  destruct (Rle_lt_dec 0 a) as [P|P].
  - rewrite Rmin_left, Rmax_right by lra. split; [apply rne_ge; [exact ft_0|apply Rmult_le_pos; lra]|apply rne_le; [exact A|]]. replace a with (a * 1) at 2 by ring. apply Rmult_le_compat_l; lra.
  - rewrite Rmin_right, Rmax_left by lra. assert (0 <= - a * r) by (apply Rmult_le_pos; lra). assert (- a * r <= - a * 1) by (apply Rmult_le_compat_l; lra).
    split; [apply rne_ge; [exact A|lra]|apply rne_le; [exact ft_0|lra]].
Qed.
Lemma below_runs (hi r : float) : is_finite hi = true -> unit_number r -> is_finite (fl_rand_below hi r) = true /\ Rmin 0 (B2R hi) <= B2R (fl_rand_below hi r) <= Rmax 0 (B2R hi).
Proof.
  intros Fh (Fr & R). pose proof (shrunk (B2R hi) (B2R r) (b2r_format prec emax hi) R) as S. pose proof (abs_B2R_lt_emax _ _ hi) as HB. destruct (mult_runs prec emax hi r Fh Fr) as (F & V).
  { eapply Rle_lt_trans; [|exact HB]. apply Rabs_le. unfold Rmin, Rmax in S. unfold Rabs. repeat destruct Rle_dec; destruct Rcase_abs; lra. }
  unfold fl_rand_below. rewrite V. split; assumption.
Qed.
Lemma below_accurate (hi r : float) : is_finite hi = true -> unit_number r -> Rabs (B2R (fl_rand_below hi r) - B2R hi * B2R r) <= u * Rabs (B2R hi) + h.
Proof.
  intros Fh (Fr & R). destruct (below_runs hi r Fh (conj Fr R)) as (F & _). unfold fl_rand_below in *. rewrite (mult_finite prec emax hi r Fh Fr F). destruct (rn_model prec emax (B2R hi * B2R r)) as (d & e & D & E & ->).
  replace (B2R hi * B2R r * (1 + d) + e - B2R hi * B2R r) with (d * (B2R hi * B2R r) + e) by ring. apply bound_add; [|exact E]. apply bound_mul; [exact D|]. rewrite <- (Rmult_1_r (Rabs (B2R hi))), Rabs_mult. apply Rmult_le_compat_l; [apply Rabs_pos|]. rewrite Rabs_pos_eq; lra.
Qed.
Section Two.
Variables lo hi r : float.
Hypotheses (Ml : moderate lo) (Mh : moderate hi) (Ur : unit_number r).
Let M := larger lo hi.
Let s := RNE (B2R hi - B2R lo).
Let p := RNE (s * B2R r).
Lemma m_bounds : Rabs (B2R lo) <= M /\ Rabs (B2R hi) <= M /\ M <= pw (emax - 6) /\ 0 <= M.
Proof.
  destruct Ml as (_ & A), Mh as (_ & B). unfold M, larger. pose proof (Rmax_l (Rabs (B2R lo)) (Rabs (B2R hi))). pose proof (Rmax_r (Rabs (B2R lo)) (Rabs (B2R hi))). pose proof (Rabs_pos (B2R lo)). split; [assumption|]. split; [assumption|]. split; [now apply Rmax_lub|lra].
Qed.
Lemma s_model : exists d, Rabs d <= u /\ s = (B2R hi - B2R lo) * (1 + d).
Proof. apply (sum_rounding prec emax P8 (B2R hi) (- B2R lo)); [apply b2r_format|apply generic_format_opp, b2r_format]. Qed.
Lemma range_runs : is_finite (fl_rand_range lo hi r) = true /\ B2R (fl_rand_range lo hi r) = RNE (p + B2R lo).
Proof.
  destruct Ml as (Fl & _), Mh as (Fh & _), Ur as (Fr & R). destruct m_bounds as (A & B & C & C0). destruct s_model as (d & D & S).
  assert (T : pw (emax - 1) = 32 * pw (emax - 6)) by (change 32 with (pw 5); rewrite <- bpow_plus; f_equal; lia).
  assert (SB : Rabs s <= 3 * M). { rewrite S, Rabs_mult. assert (Rabs (B2R hi - B2R lo) <= M + M) by (apply bound_sub; assumption). assert (Rabs (1 + d) <= 1 + / 256) by (apply bound_add; [rewrite Rabs_R1|]; lra).
    apply Rle_trans with ((M + M) * (1 + / 256)); [apply Rmult_le_compat; try apply Rabs_pos; assumption|lra]. }
  destruct (minus_runs prec emax hi lo Fh Fl) as (F1 & V1). { fold s. apply Rle_lt_trans with (pw (emax - 1)); [lra|apply bpow_lt; lia]. } fold s in V1.
  assert (SF : FT s) by (rewrite <- V1; apply b2r_format). pose proof (shrunk s (B2R r) SF R) as PB. fold p in PB.
  assert (PA : Rabs p <= 3 * M). { apply Rle_trans with (Rabs s); [|exact SB]. unfold Rmin, Rmax in PB. unfold Rabs. repeat destruct Rle_dec; repeat destruct Rcase_abs; lra. }
  destruct (mult_runs prec emax _ r F1 Fr) as (F2 & V2). { rewrite V1. fold p. apply Rle_lt_trans with (pw (emax - 1)); [lra|apply bpow_lt; lia]. } rewrite V1 in V2. fold p in V2.
  unfold fl_rand_range. rewrite <- V2. apply (plus_runs prec emax); [exact F2|exact Fl|]. rewrite V2. apply Rle_lt_trans with (pw (emax - 1)); [|apply bpow_lt; lia]. apply (rn_bound prec emax); [unfold FmaSpec.emin; lia|]. apply Rle_trans with (3 * M + M); [now apply bound_add|lra].
Qed.
Lemma s_format : FT s. Proof. apply generic_format_round; auto with typeclass_instances. Qed.
(** The end lo is never passed; the other one by no more than rounding errors. *)
Lemma range_low : (B2R lo <= B2R hi -> B2R lo <= B2R (fl_rand_range lo hi r)) /\ (B2R hi <= B2R lo -> B2R (fl_rand_range lo hi r) <= B2R lo).
Proof.
  destruct range_runs as (_ & ->). destruct Ur as (Fr & R). pose proof (shrunk s (B2R r) s_format R) as PB. fold p in PB.
  split; intros O.
  - assert (0 <= s) by (apply rne_ge; [exact ft_0|lra]). rewrite Rmin_left in PB by assumption. apply rne_ge; [apply b2r_format|lra].
  - assert (s <= 0) by (apply rne_le; [exact ft_0|lra]). rewrite Rmax_left in PB by assumption. apply rne_le; [apply b2r_format|lra].
Qed.
Lemma sum_error x y : FT x -> FT y -> Rabs (RNE (x + y) - (x + y)) <= u * Rabs (x + y).
Proof. intros X Y. destruct (sum_rounding prec emax P8 x y X Y) as (e & E & ->). replace ((x + y) * (1 + e) - (x + y)) with (e * (x + y)) by ring. apply bound_mul; [exact E|lra]. Qed.
Lemma range_high : (B2R lo <= B2R hi -> B2R (fl_rand_range lo hi r) <= B2R hi + 4 * u * M) /\ (B2R hi <= B2R lo -> B2R hi - 4 * u * M <= B2R (fl_rand_range lo hi r)).
Proof.
  destruct range_runs as (_ & ->). destruct Ur as (Fr & R). pose proof (shrunk s (B2R r) s_format R) as PB. fold p in PB. destruct m_bounds as (A & B & _ & M0). destruct s_model as (d & D & S).
  assert (SE : Rabs (s + B2R lo - B2R hi) <= u * (M + M)). { rewrite S. replace ((B2R hi - B2R lo) * (1 + d) + B2R lo - B2R hi) with (d * (B2R hi - B2R lo)) by ring. apply bound_mul; [exact D|now apply bound_sub]. }
  pose proof (sum_error s (B2R lo) s_format (b2r_format prec emax lo)) as E. assert (XB : Rabs (s + B2R lo) <= u * (M + M) + M). { replace (s + B2R lo) with ((s + B2R lo - B2R hi) + B2R hi) by ring. now apply bound_add. }
  assert (UM : 0 <= u * M <= / 256 * M) by (split; [apply Rmult_le_pos; lra|apply Rmult_le_compat_r; lra]). assert (E2 : u * Rabs (s + B2R lo) <= u * (u * (M + M) + M)) by (apply Rmult_le_compat_l; lra).
  assert (E3 : u * (u * (M + M) + M) <= 2 * (u * M)). { replace (u * (u * (M + M) + M)) with (u * (u * M + u * M + M)) by ring. replace (2 * (u * M)) with (u * (2 * M)) by ring. apply Rmult_le_compat_l; lra. }
  apply Rabs_le_inv in E. apply Rabs_le_inv in SE. split; intros O.
  - assert (0 <= s) by (apply rne_ge; [exact ft_0|lra]). rewrite Rmax_right in PB by assumption. apply Rle_trans with (RNE (s + B2R lo)); [apply (rn_le emin' prec); lra|lra].
  - assert (s <= 0) by (apply rne_le; [exact ft_0|lra]). rewrite Rmin_right in PB by assumption. apply Rle_trans with (RNE (s + B2R lo)); [lra|apply (rn_le emin' prec); lra].
Qed.
Lemma range_exact : B2R (fl_sub prec emax hi lo) = B2R hi - B2R lo -> number_between (fl_rand_range lo hi r) lo hi.
Proof.
  intros X. destruct range_runs as (F & V). destruct range_low as (L1 & L2). split; [exact F|]. destruct Ur as (Fr & R). pose proof (shrunk s (B2R r) s_format R) as PB. fold p in PB. assert (SX : s = B2R hi - B2R lo) by (unfold s; rewrite <- X; apply (rne_exact prec emax)).
  destruct (Rle_lt_dec (B2R lo) (B2R hi)) as [O|O].
  - rewrite Rmin_left, Rmax_right by lra. split; [now apply L1|]. rewrite V. apply rne_le; [apply b2r_format|]. rewrite Rmax_right in PB by lra. lra.
  - rewrite Rmin_right, Rmax_left by lra. split; [|apply L2; lra]. rewrite V. apply rne_ge; [apply b2r_format|]. rewrite Rmin_right in PB by lra. lra.
Qed.
Lemma range_accurate : Rabs (B2R (fl_rand_range lo hi r) - uniform r lo hi) <= 8 * u * M + 2 * h.
Proof.
  destruct range_runs as (_ & ->). destruct Ur as (Fr & R). destruct m_bounds as (A & B & _ & M0). destruct s_model as (d & D & S). assert (H0 : 0 < h) by apply bpow_gt_0.
  assert (UM : 0 <= u * M <= / 256 * M) by (split; [apply Rmult_le_pos; lra|apply Rmult_le_compat_r; lra]). assert (UUM : 0 <= u * (u * M) <= / 256 * (u * M)) by (split; [apply Rmult_le_pos; lra|apply Rmult_le_compat_r; lra]). assert (UH : 0 <= u * h <= / 256 * h) by (split; [apply Rmult_le_pos; lra|apply Rmult_le_compat_r; lra]).
  assert (UUM2 : 0 <= u * (u * (u * M)) <= / 256 * (u * (u * M))) by (split; [apply Rmult_le_pos; lra|apply Rmult_le_compat_r; lra]). assert (RA : Rabs (B2R r) <= 1) by (rewrite Rabs_pos_eq; lra). assert (HL : Rabs (B2R hi - B2R lo) <= M + M) by now apply bound_sub.
  assert (S1 : Rabs (s - (B2R hi - B2R lo)) <= u * (M + M)) by (rewrite S; replace ((B2R hi - B2R lo) * (1 + d) - (B2R hi - B2R lo)) with (d * (B2R hi - B2R lo)) by ring; now apply bound_mul).
  assert (S2 : Rabs s <= M + M + u * (M + M)) by (replace s with ((B2R hi - B2R lo) + (s - (B2R hi - B2R lo))) by ring; now apply bound_add).
  destruct (rn_model prec emax (s * B2R r)) as (d2 & e2 & D2 & E2 & V2). fold p in V2. assert (SR : Rabs (s * B2R r) <= (M + M + u * (M + M)) * 1) by now apply bound_mul.
  assert (P1 : Rabs (p - s * B2R r) <= u * ((M + M + u * (M + M)) * 1) + h). { rewrite V2. replace (s * B2R r * (1 + d2) + e2 - s * B2R r) with (d2 * (s * B2R r) + e2) by ring. apply bound_add; [now apply bound_mul|exact E2]. }
  assert (PF : FT p) by (apply generic_format_round; auto with typeclass_instances). pose proof (sum_error p (B2R lo) PF (b2r_format prec emax lo)) as E. unfold uniform.
  assert (T1 : Rabs (p + B2R lo - (B2R lo + B2R r * (B2R hi - B2R lo))) <= u * ((M + M + u * (M + M)) * 1) + h + u * (M + M) * 1).
  { replace (p + B2R lo - (B2R lo + B2R r * (B2R hi - B2R lo))) with ((p - s * B2R r) + (s - (B2R hi - B2R lo)) * B2R r) by ring. apply bound_add; [exact P1|now apply bound_mul]. }
  assert (X1 : Rabs (B2R lo + B2R r * (B2R hi - B2R lo)) <= M). { apply Rabs_le. apply Rabs_le_inv in A. apply Rabs_le_inv in B. assert (0 <= (1 - B2R r) * (M - B2R lo)) by (apply Rmult_le_pos; lra). assert (0 <= B2R r * (M - B2R hi)) by (apply Rmult_le_pos; lra).
    assert (0 <= (1 - B2R r) * (M + B2R lo)) by (apply Rmult_le_pos; lra). assert (0 <= B2R r * (M + B2R hi)) by (apply Rmult_le_pos; lra). lra. }
  assert (T2 : Rabs (p + B2R lo) <= M + (u * ((M + M + u * (M + M)) * 1) + h + u * (M + M) * 1)). { replace (p + B2R lo) with ((B2R lo + B2R r * (B2R hi - B2R lo)) + (p + B2R lo - (B2R lo + B2R r * (B2R hi - B2R lo)))) by ring. now apply bound_add. }
  assert (T3 : u * Rabs (p + B2R lo) <= u * (M + (u * ((M + M + u * (M + M)) * 1) + h + u * (M + M) * 1))) by (apply Rmult_le_compat_l; lra).
  replace (RNE (p + B2R lo) - (B2R lo + B2R r * (B2R hi - B2R lo))) with ((RNE (p + B2R lo) - (p + B2R lo)) + (p + B2R lo - (B2R lo + B2R r * (B2R hi - B2R lo)))) by ring. eapply Rle_trans; [apply bound_add; [exact E|exact T1]|]. lra.
Qed.
End Two.
(** *** Bit patterns *)
Lemma bits_runs (e m : Z) : (0 <= m < 2 ^ (prec - 1))%Z -> (0 <= e < emax - 1)%Z \/ ((0 <= e <= emax - 1)%Z /\ m = 0%Z) -> let b := (e * 2 ^ (prec - 1) + m)%Z in
  unit_number (fl_of_bits b : float) /\ B2R (fl_of_bits b : float) = IZR (ieee_scaled (prec - 1) b) * pw emin'.
Proof.
  intros Mb Eb b. assert (Q : (0 < 2 ^ (prec - 1))%Z) by (apply Z.pow_pos_nonneg; lia). assert (Q2 : (2 ^ prec = 2 * 2 ^ (prec - 1))%Z) by (rewrite <- (Z.pow_succ_r 2) by lia; f_equal; lia).
  assert (D : (b / 2 ^ (prec - 1) = e)%Z) by (symmetry; apply Z.div_unique with m; unfold b; lia). assert (MD : (b mod 2 ^ (prec - 1) = m)%Z) by (symmetry; apply Z.mod_unique with e; unfold b; lia).
  assert (R1 : IZR (ieee_scaled (prec - 1) b) * pw emin' <= 1 /\ 0 <= IZR (ieee_scaled (prec - 1) b) * pw emin').
  { pose proof (value_range (prec - 1) (emax - 1) e m ltac:(lia) ltac:(lia) Mb Eb) as (V0 & V1). fold b in V0, V1. apply IZR_le in V0. apply IZR_le in V1. split; [|apply Rmult_le_pos; [exact V0|apply bpow_ge_0]].
    eapply Rle_trans; [apply Rmult_le_compat_r; [apply bpow_ge_0|exact V1]|]. unfold ieee_scaled. rewrite Z.div_mul, Z.mod_mul by lia. replace (emax - 1 =? 0)%Z with false by (symmetry; apply Z.eqb_neq; lia). rewrite Z.add_0_r, <- Z.pow_add_r by lia.
    replace (IZR (2 ^ (prec - 1 + (emax - 1 - 1)))) with (pw (prec - 1 + (emax - 1 - 1))) by (symmetry; apply (IZR_Zpower radix2); lia). rewrite <- bpow_plus. change 1 with (pw 0). apply bpow_le. unfold FmaSpec.emin. lia. }
  assert (W : is_finite (fl_of_bits b : float) = true /\ B2R (fl_of_bits b : float) = IZR (ieee_scaled (prec - 1) b) * pw emin').
  { unfold fl_of_bits, ieee_scaled in *. cbv zeta in *. rewrite D, MD in *. change (3 - emax - prec)%Z with emin'. assert (OK : forall k f, (Z.abs k < 2 ^ prec)%Z -> (emin' <= f)%Z -> FT (IZR k * pw f)).
    { intros k f K Ff. apply generic_format_FLT. exists (Defs.Float radix2 k f); [reflexivity|exact K|exact Ff]. }
    assert (TOP : 1 < pw emax) by (change 1 with (pw 0); apply bpow_lt; lia).
    destruct (e =? 0)%Z eqn:Z0.
    - apply (lit_runs prec emax); [apply OK; lia|]. rewrite Rabs_pos_eq; lra.
    - apply Z.eqb_neq in Z0. assert (G : IZR ((2 ^ (prec - 1) + m) * 2 ^ (e - 1)) * pw emin' = IZR (2 ^ (prec - 1) + m) * pw (emin' + e - 1)).
      { rewrite mult_IZR. replace (IZR (2 ^ (e - 1))) with (pw (e - 1)) by (symmetry; apply (IZR_Zpower radix2); lia). rewrite Rmult_assoc, <- bpow_plus. do 2 f_equal. lia. }
      rewrite G in *. apply (lit_runs prec emax); [apply OK; lia|]. rewrite Rabs_pos_eq; lra. }
  destruct W as (F & V). split; [|exact V]. split; [exact F|]. rewrite V. lra.
Qed.
End Range.

(** ** The methods *)
Definition flt_prec : Prec_gt_0 24 := eq_refl. Definition flt_emax : Prec_lt_emax 24 128 := eq_refl.
Lemma rand_float_ok S next32 : (forall s, word 32 (fst (next32 s))) -> forall g, unit_number (fst (rand_float S next32 g)) /\
  B2R (fst (rand_float S next32 g)) = IZR (ieee_scaled 23 (fst (r_float_bits S next32 g))) * bpow radix2 (-149).
Proof.
  intros W g. destruct (float_shape S next32 W g) as (e & m & E & M & X). unfold rand_float. destruct (r_float_bits S next32 g) as (b, g'). cbn [fst] in *. rewrite E.
  exact (@bits_runs 24 128 flt_prec flt_emax ltac:(lia) ltac:(lia) e m M X).
Qed.
Lemma rand_double_ok S next32 : (forall s, word 32 (fst (next32 s))) -> forall g, unit_number (fst (rand_double S next32 g)) /\
  B2R (fst (rand_double S next32 g)) = IZR (ieee_scaled 52 (fst (r_double_bits S next32 g))) * bpow radix2 (-1074).
Proof.
  intros W g. destruct (double_shape S next32 W g) as (e & m & E & M & X). unfold rand_double. destruct (r_double_bits S next32 g) as (b, g'). cbn [fst] in *. rewrite E.
  exact (@bits_runs 53 1024 dbl_prec dbl_emax ltac:(lia) ltac:(lia) e m M X).
Qed.
Lemma calls_split S next32 (lf hf : binary_float 24 128) (ld hd : binary_float 53 1024) g :
  fst (rand_float_below S next32 hf g) = @fl_rand_below 24 128 flt_prec flt_emax hf (fst (rand_float S next32 g)) /\
  fst (rand_double_below S next32 hd g) = fl_rand_below hd (fst (rand_double S next32 g)) /\
  fst (rand_float_range S next32 lf hf g) = @fl_rand_range 24 128 flt_prec flt_emax lf hf (fst (rand_float S next32 g)) /\
  fst (rand_double_range S next32 ld hd g) = fl_rand_range ld hd (fst (rand_double S next32 g)).
Proof.
  unfold rand_float_below, rand_double_below, rand_float_range, rand_double_range. destruct (rand_float S next32 g), (rand_double S next32 g). repeat split.
Qed.
(** ** Witnesses *)
(** A generator whose next double is 1: all-one flips and an empty mantissa. *)
Definition one_next (b : bool) : Z * bool := if b then (0xFFFFFFFF%Z, false) else (0%Z, false).
Lemma one_words s : word 32 (fst (one_next s)). Proof. destruct s; cbn; unfold word; lia. Qed.
Lemma passes_hi : let lo := dbl (-1) 0 in let hi := dbl 129 (-60) in let x := fst (rand_double_range bool one_next lo hi (mkR bool false 3 2)) in
  is_finite lo = true /\ is_finite hi = true /\ B2R lo <= B2R hi /\ is_finite x = true /\ B2R hi < B2R x.
Proof.
  intros lo hi x. destruct (less lo hi) as (F1 & F2 & L1); [vm_compute; reflexivity|]. destruct (less hi x) as (_ & F3 & L2); [vm_compute; reflexivity|]. repeat split; try assumption; lra.
Qed.
Lemma inf_range (lo hi r : binary_float 53 1024) : fl_sub 53 1024 hi lo = B754_infinity false -> is_finite lo = true -> is_finite r = true -> is_finite (fl_rand_range lo hi r) = false.
Proof. intros H Fl Fr. unfold fl_rand_range. rewrite H. destruct r as [s| | |s m e B]; try discriminate; destruct lo; try discriminate; destruct s; reflexivity. Qed.
Lemma overflows : forall S next32, (forall s, word 32 (fst (next32 s))) -> forall g, let lo := dbl (-1) 1023 in let hi := dbl 1 1023 in
  is_finite lo = true /\ is_finite hi = true /\ is_finite (fst (rand_double_range S next32 lo hi g)) = false.
Proof.
  intros S next32 W g lo hi. split; [vm_compute; reflexivity|]. split; [vm_compute; reflexivity|]. destruct (calls_split S next32 (B754_zero false) (B754_zero false) lo hi g) as (_ & _ & _ & ->).
  apply inf_range; [apply B2SF_inj; vm_compute; reflexivity|vm_compute; reflexivity|]. apply rand_double_ok. exact W.
Qed.
Lemma example_exact : moderate (dbl (-1) 0) /\ moderate (dbl 1 0) /\ B2R (fl_sub 53 1024 (dbl 1 0) (dbl (-1) 0)) = B2R (dbl 1 0) - B2R (dbl (-1) 0) /\ (forall s, word 32 (fst (lcg_rand32 s))).
Proof.
  split; [apply dbl_moderate; lia|]. split; [apply dbl_moderate; lia|]. split; [|exact lcg_out_word]. destruct (dbl_int 1 ltac:(lia)) as (_ & ->). destruct (dbl_int (-1) ltac:(lia)) as (_ & ->). destruct (dbl_int 2 ltac:(lia)) as (_ & V).
  replace (fl_sub 53 1024 (dbl 1 0) (dbl (-1) 0)) with (dbl 2 0) by (apply B2SF_inj; vm_compute; reflexivity). rewrite V. lra.
Qed.
