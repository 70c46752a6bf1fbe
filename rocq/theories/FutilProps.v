(** Accuracy of clamp, mix, interp_linear, ceil_div, floor_div, snap, positive_mod and angle_to in floating point. *)
From Coq Require Import Reals ZArith Lia Lra Bool.
From Flocq Require Import Core BinarySingleNaN.
From Verif Require Import FmaModel FmaSpec FmaProofs FvecModel RealUtilSpec FutilModel FutilSpec FutilProofs FutilMore.
Open Scope R_scope.

Section Props.
Variable prec emax : Z.
Context {Hp : Prec_gt_0 prec} {He : Prec_lt_emax prec emax}.
Notation float := (binary_float prec emax).
Notation u := (unit_roundoff prec).
Notation least := (least_normal prec emax).

(** clamp to numbers lo <= hi returns a number between them whatever v is: the nearest end for an infinity, hi for NaN. *)
Theorem flutil_clamp (v lo hi : float) : is_finite lo = true -> is_finite hi = true -> B2R lo <= B2R hi ->
  is_finite (fl_clamp v lo hi) = true /\ B2R lo <= B2R (fl_clamp v lo hi) <= B2R hi /\
  (is_nan v = true -> B2R (fl_clamp v lo hi) = B2R hi) /\
  (is_finite v = true -> B2R (fl_clamp v lo hi) = Rmax (B2R lo) (Rmin (B2R hi) (B2R v))) /\
  (forall s, v = B754_infinity s -> B2R (fl_clamp v lo hi) = if s then B2R lo else B2R hi).
Proof. exact (clamp_ok prec emax v lo hi). Qed.
(** clamp of a vector does so for each element that is not NaN; a NaN element stays NaN. *)
Theorem flutil_vector_clamp (v lo hi : nat -> float) i : is_finite (lo i) = true -> is_finite (hi i) = true -> B2R (lo i) <= B2R (hi i) ->
  (is_nan (v i) = false -> is_finite (fl_vclamp v lo hi i) = true /\ B2R (lo i) <= B2R (fl_vclamp v lo hi i) <= B2R (hi i)) /\
  (is_finite (v i) = true -> B2R (fl_vclamp v lo hi i) = Rmin (Rmax (B2R (v i)) (B2R (lo i))) (B2R (hi i))) /\
  (forall s, v i = B754_infinity s -> B2R (fl_vclamp v lo hi i) = if s then B2R (lo i) else B2R (hi i)) /\
  (is_nan (v i) = true -> is_nan (fl_vclamp v lo hi i) = true).
Proof. exact (vclamp_ok prec emax v lo hi i). Qed.

Hypotheses (P8 : (8 <= prec)%Z) (E8 : (8 <= emax)%Z).
(** mix, for a parameter from 0 to 1, is within four roundoffs of the exact value, relative to the larger of the two numbers. *)
Theorem flutil_mix (t a b : float) (M : R) : is_finite t = true -> is_finite a = true -> is_finite b = true -> 0 <= B2R t <= 1 ->
  Rabs (B2R a) <= M -> Rabs (B2R b) <= M -> M <= bpow radix2 (emax - 3) ->
  is_finite (fl_mix t a b) = true /\ Rabs (B2R (fl_mix t a b) - ((1 - B2R t) * B2R a + B2R t * B2R b)) <= 4 * u * (M + least).
Proof. exact (mix_accurate prec emax P8 E8 t a b M). Qed.
(** interp_linear over d + 1 axes. *)
Theorem flutil_interp_linear (d : nat) (M : R) (s p : nat -> float) : (4 * Z.of_nat d <= 2 ^ (prec - 1))%Z -> M <= bpow radix2 (emax - 5) ->
  (forall i, (i < S d)%nat -> is_finite (s i) = true /\ 0 <= B2R (s i) <= 1) -> (forall c, (c < 2 ^ S d)%nat -> is_finite (p c) = true /\ Rabs (B2R (p c)) <= M) ->
  is_finite (fl_interp_linear (S d) s p) = true /\
  Rabs (B2R (fl_interp_linear (S d) s p) - multilinear (S d) (fun i => B2R (s i)) (fun c => B2R (p c))) <= ((1 + 4 * u) ^ S d - 1) * (M + least).
Proof. intros D MB S. exact (interp_accurate prec emax P8 E8 d M s D MB S p). Qed.
(** ceil_div and floor_div return an integer; it is the ceiling and floor of the quotient of b and a number close to a. *)
Theorem flutil_ceil_floor (a b : float) : is_finite a = true -> modulus b -> Rabs (B2R a / B2R b) <= bpow radix2 (emax - 6) ->
  let e := u * (Rabs (B2R a) + B2R b) in
  (exists n, is_finite (fl_ceil_div a b) = true /\ B2R (fl_ceil_div a b) = IZR n /\ B2R a - e <= IZR n * B2R b < B2R a + B2R b + e) /\
  (exists n, is_finite (fl_floor_div a b) = true /\ B2R (fl_floor_div a b) = IZR n /\ B2R a - B2R b - e < IZR n * B2R b <= B2R a + e).
Proof. exact (ceil_floor prec emax P8 a b). Qed.
(** snap returns a multiple of b, rounded, from a to a + b up to rounding ... *)
Theorem flutil_snap (a b : float) : moderate a -> modulus b -> Rabs (B2R a / B2R b) <= bpow radix2 (emax - 6) ->
  is_finite (fl_snap a b) = true /\ exists n, Rabs (B2R (fl_snap a b) - IZR n * B2R b) <= u * Rabs (IZR n * B2R b) /\
    B2R a - u * (Rabs (B2R a) + B2R b) <= IZR n * B2R b < B2R a + B2R b + u * (Rabs (B2R a) + B2R b).
Proof. exact (snap_runs prec emax P8 a b). Qed.
(** ... and leaves multiples of b as they are. *)
Theorem flutil_snap_multiple (a b : float) n : moderate a -> modulus b -> (Z.abs n <= 2 ^ prec)%Z -> B2R a = IZR n * B2R b ->
  is_finite (fl_snap a b) = true /\ B2R (fl_snap a b) = B2R a.
Proof. exact (snap_multiple prec emax P8 a b n). Qed.
(** positive_mod is congruent to a modulo b, and from 0 to b, up to rounding errors. *)
Theorem flutil_positive_mod (a b : float) : moderate a -> modulus b -> Rabs (B2R a / B2R b) <= bpow radix2 (emax - 6) ->
  let e := 4 * u * (Rabs (B2R a) + B2R b) in
  is_finite (fl_positive_mod a b) = true /\ congruent_within (B2R b) e (B2R (fl_positive_mod a b)) (B2R a) /\
  - e <= B2R (fl_positive_mod a b) <= B2R b + e.
Proof. exact (mod_runs prec emax P8 a b). Qed.
(** angle_to is the difference of the angles modulo a turn, and at most half a turn, up to rounding errors. *)
Theorem flutil_angle_to (turn r0 r1 : float) : modulus turn -> 1 <= B2R turn -> moderate r0 -> moderate r1 ->
  let e := 16 * u * (Rabs (B2R r0) + Rabs (B2R r1) + B2R turn) in
  is_finite (fl_angle_to turn r0 r1) = true /\ congruent_within (B2R turn) e (B2R (fl_angle_to turn r0 r1)) (B2R r1 - B2R r0) /\
  Rabs (B2R (fl_angle_to turn r0 r1)) <= B2R turn / 2 + e.
Proof. exact (angle_runs prec emax P8 turn r0 r1). Qed.
End Props.

(** clamp of a vector of doubles need not be between the bounds: NaN is not. *)
Theorem flutil_vector_clamp_nan_refuted : exists v lo hi : nat -> binary_float 53 1024, is_finite (lo 0%nat) = true /\ is_finite (hi 0%nat) = true /\ B2R (lo 0%nat) <= B2R (hi 0%nat) /\ is_finite (fl_vclamp v lo hi 0%nat) = false.
Proof. exact vclamp_nan. Qed.
(** mix(t, a, a) may exceed a, and mix may decrease where the parameter increases. *)
Theorem flutil_mix_between_refuted : exists t a : binary_float 53 1024, is_finite t = true /\ is_finite a = true /\ 0 <= B2R t <= 1 /\ is_finite (fl_mix t a a) = true /\ B2R a < B2R (fl_mix t a a).
Proof. exact mix_same. Qed.
Theorem flutil_mix_monotone_refuted : exists t t' a b : binary_float 53 1024, is_finite t = true /\ is_finite t' = true /\ is_finite a = true /\ is_finite b = true /\
  0 <= B2R t /\ B2R t < B2R t' /\ B2R t' <= 1 /\ B2R a < B2R b /\ is_finite (fl_mix t a b) = true /\ is_finite (fl_mix t' a b) = true /\ B2R (fl_mix t' a b) < B2R (fl_mix t a b).
Proof. exact mix_decreases. Qed.
(** snap(a, b) may be less than a, and may exceed a + b. *)
Theorem flutil_snap_range_refuted :
  (exists a b : binary_float 53 1024, is_finite a = true /\ is_finite b = true /\ 0 < B2R b /\ is_finite (fl_snap a b) = true /\ B2R (fl_snap a b) < B2R a) /\
  (exists a b : binary_float 53 1024, is_finite a = true /\ is_finite b = true /\ 0 < B2R b /\ is_finite (fl_snap a b) = true /\ B2R a + B2R b < B2R (fl_snap a b)).
Proof. exact (conj snap_below snap_above). Qed.
(** angle_to may return more than a whole turn. *)
Theorem flutil_angle_range_refuted : exists r0 r1 : binary_float 53 1024, is_finite r0 = true /\ is_finite r1 = true /\ is_finite (fl_angle_to dbl_turn r0 r1) = true /\ B2R dbl_turn < B2R (fl_angle_to dbl_turn r0 r1).
Proof. exact angle_far. Qed.

Print Assumptions flutil_clamp. Print Assumptions flutil_vector_clamp. Print Assumptions flutil_mix. Print Assumptions flutil_interp_linear. Print Assumptions flutil_ceil_floor.
Print Assumptions flutil_snap. Print Assumptions flutil_snap_multiple. Print Assumptions flutil_positive_mod. Print Assumptions flutil_angle_to.
Print Assumptions flutil_vector_clamp_nan_refuted. Print Assumptions flutil_mix_between_refuted. Print Assumptions flutil_mix_monotone_refuted. Print Assumptions flutil_snap_range_refuted. Print Assumptions flutil_angle_range_refuted.

(** The hypotheses are met: by the turn of doubles and angles such as 100 and -3, by 12 = 4 * 3, by parameters 1/4 and 3/4 in a cell of four values. *)
Example flutil_angle_met : modulus dbl_turn /\ 1 <= B2R dbl_turn /\ moderate (dbl 100 0) /\ moderate (dbl (-3) 0) /\ Rabs (B2R (dbl 100 0) / B2R dbl_turn) <= bpow radix2 (1024 - 6).
Proof. exact example_angle. Qed.
Example flutil_multiple_met : moderate (dbl 12 0) /\ modulus (dbl 3 0) /\ B2R (dbl 12 0) = IZR 4 * B2R (dbl 3 0).
Proof. exact example_multiple. Qed.
Example flutil_interp_met : let s := fun i : nat => match i with O => dbl 1 (-2) | _ => dbl 3 (-2) end in let p := fun c : nat => dbl (Z.of_nat c - 2) 0 in
  (forall i, (i < 2)%nat -> is_finite (s i) = true /\ 0 <= B2R (s i) <= 1) /\ (forall c, (c < 4)%nat -> is_finite (p c) = true /\ Rabs (B2R (p c)) <= 2).
Proof. exact example_interp. Qed.
