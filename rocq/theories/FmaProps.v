(** Accuracy of the floating-point helpers. *)
From Coq Require Import Reals ZArith Lia Lra.
From Flocq Require Import Core BinarySingleNaN.
From Verif Require Import FmaModel FmaSpec FmaProofs.
Open Scope R_scope.

Section Props.
Variable prec emax : Z.
Context {Hp : Prec_gt_0 prec} {He : Prec_lt_emax prec emax}.
Notation float := (binary_float prec emax).

(** diff_of_products and sum_of_products are within 1.5 units in the last place of the exact value whenever they return a number and
    c * d is zero or not tiny. *)
Theorem diff_of_products_accurate (a b c d : float) : is_finite a = true -> is_finite b = true -> is_finite c = true -> is_finite d = true ->
  is_finite (fl_diff_of_products a b c d) = true -> not_tiny prec emax (B2R c * B2R d) ->
  within_ulps (3 / 2) (fl_diff_of_products a b c d) (B2R a * B2R b - B2R c * B2R d).
Proof. exact (diff_accurate prec emax a b c d). Qed.
Theorem sum_of_products_accurate (a b c d : float) : is_finite a = true -> is_finite b = true -> is_finite c = true -> is_finite d = true ->
  is_finite (fl_sum_of_products a b c d) = true -> not_tiny prec emax (B2R c * B2R d) ->
  within_ulps (3 / 2) (fl_sum_of_products a b c d) (B2R a * B2R b + B2R c * B2R d).
Proof. exact (sum_accurate prec emax a b c d). Qed.
(** They do return a number if both products are at most an eighth of the largest power of two. *)
Theorem products_finite (a b c d : float) : (3 <= emax)%Z -> is_finite a = true -> is_finite b = true -> is_finite c = true -> is_finite d = true ->
  Rabs (B2R a * B2R b) <= bpow radix2 (emax - 3) -> Rabs (B2R c * B2R d) <= bpow radix2 (emax - 3) ->
  is_finite (fl_diff_of_products a b c d) = true /\ is_finite (fl_sum_of_products a b c d) = true.
Proof. exact (diff_finite prec emax a b c d). Qed.
Theorem multiply_add_correctly_rounded (a b c : float) : is_finite a = true -> is_finite b = true -> is_finite (fl_multiply_add a b c) = true ->
  within_ulps (1 / 2) (fl_multiply_add a b c) (B2R a * B2R b + B2R c).
Proof. exact (multiply_add_accurate prec emax a b c). Qed.
(** mix gives the ends without error. *)
Theorem mix_exact_at_ends (t a b : float) : is_finite t = true -> is_finite a = true -> is_finite b = true ->
  (B2R t = 0 -> is_finite (fl_mix t a b) = true /\ B2R (fl_mix t a b) = B2R a) /\ (B2R t = 1 -> is_finite (fl_mix t a b) = true /\ B2R (fl_mix t a b) = B2R b).
Proof. exact (mix_ends prec emax t a b). Qed.
End Props.

(** The bound fails for doubles with a tiny c * d: here the error is more than 1.7 units. *)
Theorem diff_of_products_tiny_refuted : exists a b c d : binary_float 53 1024,
  is_finite a = true /\ is_finite b = true /\ is_finite c = true /\ is_finite d = true /\ is_finite (fl_diff_of_products a b c d) = true /\
  ~ within_ulps (17 / 10) (fl_diff_of_products a b c d) (B2R a * B2R b - B2R c * B2R d).
Proof.
  exists (dbl 8521063127990767 (-548)), (dbl 4833258747927148 (-574)), (dbl 5860179909829749 (-548)), (dbl 6162592456165243 (-574)).
  do 5 (split; [vm_compute; reflexivity|]). intros (_ & H). revert H.
  rewrite (dbl_value (dbl 8521063127990767 (-548)) false 8521063127990767 (-548)) by (vm_compute; reflexivity).
  rewrite (dbl_value (dbl 4833258747927148 (-574)) false 4833258747927148 (-574)) by (vm_compute; reflexivity).
  rewrite (dbl_value (dbl 5860179909829749 (-548)) false 5860179909829749 (-548)) by (vm_compute; reflexivity).
  rewrite (dbl_value (dbl 6162592456165243 (-574)) false 6162592456165243 (-574)) by (vm_compute; reflexivity).
  rewrite (dbl_value (fl_diff_of_products (dbl 8521063127990767 (-548)) (dbl 4833258747927148 (-574)) (dbl 5860179909829749 (-548)) (dbl 6162592456165243 (-574)))
    false 4503599627370496 (-1072)) by (vm_compute; reflexivity).
  unfold cond_Zopp.
  replace (IZR 8521063127990767 * bpow radix2 (-548) * (IZR 4833258747927148 * bpow radix2 (-574)) - IZR 5860179909829749 * bpow radix2 (-548) * (IZR 6162592456165243 * bpow radix2 (-574)))
    with (IZR (8521063127990767 * 4833258747927148 - 5860179909829749 * 6162592456165243) * bpow radix2 (-1122)).
  2: { change (-1122)%Z with (-548 + -574)%Z. rewrite bpow_plus, minus_IZR, !mult_IZR. ring. }
  set (N := (8521063127990767 * 4833258747927148 - 5860179909829749 * 6162592456165243)%Z). vm_compute in N. subst N.
  match goal with |- context [IZR ?n * bpow radix2 (-1122)] => set (N := n) end.
  assert (U : unit_last_place 53 1024 (IZR N * bpow radix2 (-1122)) = IZR (2 ^ 49) * bpow radix2 (-1122)).
  { unfold unit_last_place. rewrite ulp_neq_0 by (apply Rmult_integral_contrapositive_currified; [apply not_0_IZR; discriminate|apply Rgt_not_eq, bpow_gt_0]).
    unfold cexp. change (IZR N * bpow radix2 (-1122)) with (F2R (Float radix2 N (-1122))). rewrite mag_F2R_Zdigits by discriminate.
    replace (FLT_exp (emin 53 1024) 53 (Digits.Zdigits radix2 N + -1122)) with (49 + -1122)%Z by (vm_compute; reflexivity). now rewrite bpow_plus. }
  rewrite U. replace (IZR 4503599627370496 * bpow radix2 (-1072)) with (IZR (4503599627370496 * 2 ^ 50) * bpow radix2 (-1122)).
  2: { change (-1072)%Z with (50 + -1122)%Z. rewrite bpow_plus, mult_IZR. change (bpow radix2 50) with (IZR (2 ^ 50)). ring. }
  rewrite <- Rmult_minus_distr_r, Rabs_mult, (Rabs_pos_eq (bpow radix2 (-1122))) by apply bpow_ge_0. rewrite <- Rmult_assoc. intros H.
  apply Rmult_le_reg_r in H; [|apply bpow_gt_0]. rewrite <- minus_IZR, <- abs_IZR in H.
  assert (H2 : IZR (10 * Z.abs (4503599627370496 * 2 ^ 50 - N)) <= IZR (17 * 2 ^ 49)) by (rewrite !mult_IZR in *; lra).
  apply le_IZR in H2. vm_compute in H2. now apply H2.
Qed.
(** If the products are large the result may be NaN although the exact value is zero. *)
Theorem diff_of_products_large_refuted : exists a b c d : binary_float 53 1024,
  is_finite a = true /\ is_finite b = true /\ is_finite c = true /\ is_finite d = true /\
  B2R a * B2R b - B2R c * B2R d = 0 /\ is_nan (fl_diff_of_products a b c d) = true.
Proof.
  exists (dbl 1 512), (dbl 1 512), (dbl 1 512), (dbl 1 512). do 4 (split; [vm_compute; reflexivity|]). split; [ring|vm_compute; reflexivity].
Qed.
(** positive_mod(a, b) need not be at least zero (a = 1.7, b = 0.1) nor less than b (a = -2^-60, b = 1). *)
Theorem positive_mod_range_refuted :
  (exists a b : binary_float 53 1024, is_finite a = true /\ 0 < B2R b /\ B2R (fl_positive_mod a b) < 0) /\
  (exists a b : binary_float 53 1024, is_finite a = true /\ 0 < B2R b /\ is_finite (fl_positive_mod a b) = true /\ B2R (fl_positive_mod a b) = B2R b).
Proof.
  split.
  - exists (dbl 7656119366529843 (-52)), (dbl 7205759403792794 (-56)). split; [vm_compute; reflexivity|].
    rewrite (dbl_value (dbl 7205759403792794 (-56)) false 7205759403792794 (-56)) by (vm_compute; reflexivity).
    rewrite (dbl_value (fl_positive_mod (dbl 7656119366529843 (-52)) (dbl 7205759403792794 (-56))) true 4503599627370496 (-104)) by (vm_compute; reflexivity).
    pose proof (bpow_gt_0 radix2 (-56)). pose proof (bpow_gt_0 radix2 (-104)). unfold cond_Zopp. split; [lra|]. rewrite <- (Rmult_0_l (bpow radix2 (-104))). apply Rmult_lt_compat_r; [assumption|]. now apply IZR_lt.
  - exists (dbl (-1) (-60)), (dbl 1 0). split; [vm_compute; reflexivity|].
    assert (V1 : B2R (dbl 1 0) = IZR 4503599627370496 * bpow radix2 (-52)) by (apply (dbl_value _ false); vm_compute; reflexivity).
    assert (V2 : B2R (fl_positive_mod (dbl (-1) (-60)) (dbl 1 0)) = IZR 4503599627370496 * bpow radix2 (-52)) by (apply (dbl_value _ false); vm_compute; reflexivity).
    split; [rewrite V1; pose proof (bpow_gt_0 radix2 (-52)); lra|]. split; [vm_compute; reflexivity|]. exact (eq_trans V2 (eq_sym V1)).
Qed.

Print Assumptions diff_of_products_accurate. Print Assumptions sum_of_products_accurate. Print Assumptions products_finite. Print Assumptions multiply_add_correctly_rounded.
Print Assumptions mix_exact_at_ends. Print Assumptions diff_of_products_tiny_refuted. Print Assumptions diff_of_products_large_refuted. Print Assumptions positive_mod_range_refuted.

(** The hypotheses are met where the naive formula cancels: (2^30 + 1)(2^30 - 1) - 2^30 * 2^30 = -1, which the naive formula loses. *)
Example products_met : let a := dbl (2 ^ 30 + 1) 0 in let b := dbl (2 ^ 30 - 1) 0 in let c := dbl (2 ^ 30) 0 in
  is_finite (fl_diff_of_products a b c c) = true /\ not_tiny 53 1024 (B2R c * B2R c) /\
  B2SF (fl_diff_of_products a b c c) = B2SF (dbl (-1) 0) /\ B2SF (fl_sub 53 1024 (fl_mul 53 1024 a b) (fl_mul 53 1024 c c)) = B2SF (dbl 0 0).
Proof.
  cbv zeta. split; [vm_compute; reflexivity|]. split.
  - right. rewrite (dbl_value (dbl (2 ^ 30) 0) false 4503599627370496 (-22)) by (vm_compute; reflexivity). unfold cond_Zopp.
    replace (IZR 4503599627370496) with (bpow radix2 52) by reflexivity. rewrite <- !bpow_plus. rewrite Rabs_pos_eq by apply bpow_ge_0. apply bpow_le. unfold emin. lia.
  - split; vm_compute; reflexivity.
Qed.
