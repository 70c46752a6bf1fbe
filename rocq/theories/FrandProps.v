(** Random floating-point numbers of a range. *)
From Coq Require Import Reals ZArith Lia Lra.
From Flocq Require Import Core BinarySingleNaN.
From Verif Require Import FmaModel FmaSpec FmaProofs FutilSpec WordModel RandModel RandSpec FrandModel FrandSpec FrandProofs.
Open Scope R_scope.

(** rand<float>() and rand<double>() are numbers between 0 and 1, the values of the bit patterns of C43. *)
Theorem flrand_unit : forall (S : Type) (next32 : S -> Z * S), (forall s, word 32 (fst (next32 s))) -> forall g,
  unit_number (fst (rand_float S next32 g)) /\ B2R (fst (rand_float S next32 g)) = IZR (ieee_scaled 23 (fst (r_float_bits S next32 g))) * bpow radix2 (-149) /\
  unit_number (fst (rand_double S next32 g)) /\ B2R (fst (rand_double S next32 g)) = IZR (ieee_scaled 52 (fst (r_double_bits S next32 g))) * bpow radix2 (-1074).
Proof. intros S next32 W g. destruct (rand_float_ok S next32 W g), (rand_double_ok S next32 W g). repeat split; assumption || apply H || apply H1. Qed.
Print Assumptions flrand_unit.
(** The methods with arguments draw one such number and apply the function of the following theorems. *)
Theorem flrand_calls : forall (S : Type) (next32 : S -> Z * S) (lf hf : binary_float 24 128) (ld hd : binary_float 53 1024) g,
  fst (rand_float_below S next32 hf g) = @fl_rand_below 24 128 flt_prec flt_emax hf (fst (rand_float S next32 g)) /\
  fst (rand_double_below S next32 hd g) = fl_rand_below hd (fst (rand_double S next32 g)) /\
  fst (rand_float_range S next32 lf hf g) = @fl_rand_range 24 128 flt_prec flt_emax lf hf (fst (rand_float S next32 g)) /\
  fst (rand_double_range S next32 ld hd g) = fl_rand_range ld hd (fst (rand_double S next32 g)).
Proof. exact calls_split. Qed.
Print Assumptions flrand_calls.

Section Props.
Variable prec emax : Z.
Context {Hp : Prec_gt_0 prec} {He : Prec_lt_emax prec emax}.
Notation float := (binary_float prec emax).
Notation u := (unit_roundoff prec).
Notation least := (bpow radix2 (emin prec emax)).
(** rand(hi) is a number between 0 and hi, whatever the sign of hi, and is hi times the draw but for one rounding. *)
Theorem flrand_below : forall hi r : float, is_finite hi = true -> unit_number r ->
  is_finite (fl_rand_below hi r) = true /\ Rmin 0 (B2R hi) <= B2R (fl_rand_below hi r) <= Rmax 0 (B2R hi) /\
  Rabs (B2R (fl_rand_below hi r) - B2R hi * B2R r) <= u * Rabs (B2R hi) + least / 2.
Proof.
  intros hi r F U. destruct (below_runs prec emax hi r F U) as (A & B). split; [exact A|]. split; [exact B|]. eapply Rle_trans; [exact (below_accurate prec emax hi r F U)|]. right. unfold unit_roundoff. unfold Zminus. rewrite bpow_plus. change (bpow radix2 (-(1))) with (/ 2). field.
Qed.
Print Assumptions flrand_below.
(** rand(lo, hi), far from overflow, never passes lo, passes hi by no more than the rounding errors, and is the draw's number but for them. *)
Theorem flrand_range : forall lo hi r : float, (8 <= prec)%Z -> moderate lo -> moderate hi -> unit_number r ->
  is_finite (fl_rand_range lo hi r) = true /\
  (B2R lo <= B2R hi -> B2R lo <= B2R (fl_rand_range lo hi r) <= B2R hi + 4 * u * larger lo hi) /\
  (B2R hi <= B2R lo -> B2R hi - 4 * u * larger lo hi <= B2R (fl_rand_range lo hi r) <= B2R lo) /\
  Rabs (B2R (fl_rand_range lo hi r) - uniform r lo hi) <= 8 * u * larger lo hi + least.
Proof.
  intros lo hi r P8 Ml Mh U. destruct (range_runs prec emax P8 lo hi r Ml Mh U) as (F & _). destruct (range_low prec emax P8 lo hi r Ml Mh U) as (L1 & L2). destruct (range_high prec emax P8 lo hi r Ml Mh U) as (H1 & H2).
  split; [exact F|]. split; [intros O; split; [exact (L1 O)|exact (H1 O)]|]. split; [intros O; split; [exact (H2 O)|exact (L2 O)]|]. eapply Rle_trans; [exact (range_accurate prec emax P8 lo hi r Ml Mh U)|]. right. unfold unit_roundoff. unfold Zminus. rewrite bpow_plus. change (bpow radix2 (-(1))) with (/ 2). field.
Qed.
Print Assumptions flrand_range.
(** When hi - lo is computed without error, the result is between lo and hi. *)
Theorem flrand_range_exact : forall lo hi r : float, (8 <= prec)%Z -> moderate lo -> moderate hi -> unit_number r ->
  B2R (fl_sub prec emax hi lo) = B2R hi - B2R lo -> number_between (fl_rand_range lo hi r) lo hi.
Proof. intros lo hi r P8 Ml Mh U. exact (range_exact prec emax P8 lo hi r Ml Mh U). Qed.
Print Assumptions flrand_range_exact.
End Props.

(** In general it is not: rand<double>(-1, 129 * 2^-60) can be greater than its upper bound. *)
Theorem flrand_range_refuted : exists (lo hi : binary_float 53 1024) (next32 : bool -> Z * bool) (g : rng bool), (forall s, word 32 (fst (next32 s))) /\
  let x := fst (rand_double_range bool next32 lo hi g) in is_finite lo = true /\ is_finite hi = true /\ B2R lo <= B2R hi /\ is_finite x = true /\ B2R hi < B2R x.
Proof. exists (dbl (-1) 0), (dbl 129 (-60)), one_next, (mkR bool false 3 2). split; [exact one_words|exact passes_hi]. Qed.
Print Assumptions flrand_range_refuted.
(** And for lo = -2^1023, hi = 2^1023 it is always an infinity or NaN. *)
Theorem flrand_range_overflow_refuted : forall (S : Type) (next32 : S -> Z * S), (forall s, word 32 (fst (next32 s))) -> forall g,
  let lo := dbl (-1) 1023 in let hi := dbl 1 1023 in is_finite lo = true /\ is_finite hi = true /\ is_finite (fst (rand_double_range S next32 lo hi g)) = false.
Proof. exact overflows. Qed.
Print Assumptions flrand_range_overflow_refuted.

(** The range (-1, 1) meets the hypotheses, and so does a generator of the library. *)
Example flrand_exact : moderate (dbl (-1) 0) /\ moderate (dbl 1 0) /\ B2R (fl_sub 53 1024 (dbl 1 0) (dbl (-1) 0)) = B2R (dbl 1 0) - B2R (dbl (-1) 0) /\ (forall s, word 32 (fst (lcg_rand32 s))).
Proof. exact example_exact. Qed.
