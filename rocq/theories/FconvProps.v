(** Conversions of angles and cubic interpolation of floating-point numbers. *)
From Coq Require Import Reals ZArith.
From Flocq Require Import Core BinarySingleNaN.
From Verif Require Import FmaModel FmaSpec FmaProofs FquadModel RealUtilSpec RealUtilProofs FutilSpec FconvModel FconvSpec FconvProofs.
Open Scope R_scope.

(** M_PI is pi, rounded. *)
Theorem flconv_pi : is_finite m_pi = true /\ Rabs (B2R m_pi - PI) <= bpow radix2 (-52).
Proof.
  split; [exact (proj1 pi_runs)|]. pose proof pi_upper. pose proof pi_lower. rewrite (proj2 pi_runs). change (bpow radix2 (-52)) with (/ 4503599627370496). apply Rabs_le. split; Lra.lra.
Qed.
(** radians and degrees convert with a relative error of at most 5/2 roundings ... *)
Theorem flconv_radians x : ordinary x -> relatively (5 / 2) (fl_radians x) (in_radians (B2R x)).
Proof. exact (radians_accurate x). Qed.
Theorem flconv_degrees x : ordinary x -> relatively (5 / 2) (fl_degrees x) (in_degrees (B2R x)).
Proof. exact (degrees_accurate x). Qed.
(** ... are inverse to each other but for 5 roundings ... *)
Theorem flconv_round_trip x : ordinary x -> relatively 5 (fl_degrees (fl_radians x)) (B2R x) /\ relatively 5 (fl_radians (fl_degrees x)) (B2R x).
Proof. exact (round_trips x). Qed.
(** ... and keep the order. *)
Theorem flconv_monotone x y : is_finite x = true -> is_finite y = true -> B2R x <= B2R y ->
  (is_finite (fl_radians x) = true -> is_finite (fl_radians y) = true -> B2R (fl_radians x) <= B2R (fl_radians y)) /\
  (is_finite (fl_degrees x) = true -> is_finite (fl_degrees y) = true -> B2R (fl_degrees x) <= B2R (fl_degrees y)).
Proof. exact (angles_monotone x y). Qed.
(** Right angles, up to two turns each way, are the multiples of M_PI / 2 exactly, and come back exactly ... *)
Theorem flconv_right_angles k : (-8 <= k <= 8)%Z ->
  B2R (fl_radians (dbl (90 * k) 0)) = B2R (@fl_mul 53 1024 eq_refl eq_refl (dbl k (-1)) m_pi) /\
  B2R (fl_degrees (@fl_mul 53 1024 eq_refl eq_refl (dbl k (-1)) m_pi)) = IZR (90 * k).
Proof. exact (right_angles k). Qed.
(** ... but other angles need not, and the product of a large angle and pi may overflow where the angle in radians would be in range. *)
Theorem flconv_round_trip_refuted : exists x, ordinary x /\ B2R (fl_degrees (fl_radians x)) < B2R x.
Proof. exact trip_fails. Qed.
Theorem flconv_radians_overflow_refuted : exists x, is_finite x = true /\ Rabs (in_radians (B2R x)) < bpow radix2 1020 /\ is_finite (fl_radians x) = false.
Proof. exact radians_overflow. Qed.

Section Props.
Variable prec emax : Z.
Context {Hp : Prec_gt_0 prec} {He : Prec_lt_emax prec emax}.
Hypotheses (P8 : (8 <= prec)%Z) (E8 : (8 <= emax)%Z).
Notation float := (binary_float prec emax).
(** interp_cubic, of the 4^dim values p at the point s of the unit cube, is the tensor product of Catmull-Rom splines but for rounding errors: in one
    dimension, 150 roundings of the largest value. *)
Theorem flconv_interp_cubic dim M (s p : nat -> float) : (0 < dim)%nat -> 0 <= M ->
  (forall i, (i < dim)%nat -> is_finite (s i) = true /\ 0 <= B2R (s i) <= 1) -> (forall c, (c < 4 ^ dim)%nat -> is_finite (p c) = true /\ Rabs (B2R (p c)) <= M) ->
  cubic_growth prec ^ dim * (M + least_normal prec emax) <= bpow radix2 (emax - 6) ->
  is_finite (fl_interp_cubic dim s p) = true /\
  Rabs (B2R (fl_interp_cubic dim s p) - multicubic dim (fun i => B2R (s i)) (fun c => B2R (p c))) <= (cubic_growth prec ^ dim - (5 / 4) ^ dim) * (M + least_normal prec emax).
Proof.
  destruct dim as [|d]; [intros H; now apply Nat.nlt_0_r in H|]. intros _ M0 S P L. rewrite <- interp_cubic_is. exact (cubic_accurate prec emax P8 E8 d M s S L M0 p P).
Qed.
(** At the grid node (1, ..., 1) it returns the value there exactly. *)
Theorem flconv_interp_cubic_node dim M (s p : nat -> float) : (0 < dim)%nat -> 0 <= M ->
  (forall i, (i < dim)%nat -> is_finite (s i) = true /\ B2R (s i) = 0) -> (forall c, (c < 4 ^ dim)%nat -> is_finite (p c) = true /\ Rabs (B2R (p c)) <= M) ->
  M + least_normal prec emax <= bpow radix2 (emax - 6) ->
  is_finite (fl_interp_cubic dim s p) = true /\ B2R (fl_interp_cubic dim s p) = B2R (p (inner_node dim 0)).
Proof.
  destruct dim as [|d]; [intros H; now apply Nat.nlt_0_r in H|]. intros _ M0 S P L. exact (cubic_at_node prec emax P8 E8 d M s S L M0 p P).
Qed.
End Props.
(** At the next node it need not: for the parameter 1 the result may differ from p2; and four equal values need not give that value. *)
Theorem flconv_interp_cubic_end_refuted : exists p0 p1 p2 p3 : binary_float 53 1024, moderate p0 /\ moderate p1 /\ moderate p2 /\ moderate p3 /\
  B2R p2 < B2R (@fl_cubic1 53 1024 eq_refl eq_refl (dbl 1 0) p0 p1 p2 p3).
Proof. exact cubic_end_fails. Qed.
Theorem flconv_interp_cubic_constant_refuted : exists s c : binary_float 53 1024, is_finite s = true /\ 0 <= B2R s <= 1 /\ moderate c /\ B2R c < B2R (@fl_cubic1 53 1024 eq_refl eq_refl s c c c c).
Proof. exact cubic_constant_fails. Qed.

Print Assumptions flconv_pi. Print Assumptions flconv_radians. Print Assumptions flconv_degrees. Print Assumptions flconv_round_trip. Print Assumptions flconv_monotone.
Print Assumptions flconv_right_angles. Print Assumptions flconv_round_trip_refuted. Print Assumptions flconv_radians_overflow_refuted.
Print Assumptions flconv_interp_cubic. Print Assumptions flconv_interp_cubic_node. Print Assumptions flconv_interp_cubic_end_refuted. Print Assumptions flconv_interp_cubic_constant_refuted.

(** The hypotheses are met: by 11 and -22.5 degrees, and by 16 values from -8 to 7 at the point (1/4, 3/4). *)
Example flconv_ordinary_met : ordinary (dbl 11 0) /\ ordinary (dbl (-45) (-1)).
Proof. exact example_ordinary. Qed.
Example flconv_cubic_met : let s := fun i : nat => match i with O => dbl 1 (-2) | _ => dbl 3 (-2) end in let p := fun c : nat => dbl (Z.of_nat c - 8) 0 in
  (forall i, (i < 2)%nat -> is_finite (s i) = true /\ 0 <= B2R (s i) <= 1) /\ (forall c, (c < 4 ^ 2)%nat -> is_finite (p c) = true /\ Rabs (B2R (p c)) <= 8) /\
  cubic_growth 53 ^ 2 * (8 + least_normal 53 1024) <= bpow radix2 (1024 - 6).
Proof. exact example_cubic. Qed.
