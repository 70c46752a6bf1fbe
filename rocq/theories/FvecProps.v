(** Vectors of floating-point numbers. *)
From Coq Require Import Reals ZArith Lia Lra.
From Flocq Require Import Core BinarySingleNaN.
From Verif Require Import FmaModel FmaSpec FmaProofs FquadModel FvecModel FvecSpec FvecProofs FvecMore FvecAcc.
Open Scope R_scope.

Section Props.
Variable prec emax : Z.
Context {Hp : Prec_gt_0 prec} {He : Prec_lt_emax prec emax}.
Notation float := (binary_float prec emax).
Notation vector := (nat -> float).

(** Exchanging the arguments of dot, dist and dist2 gives the same number, bit for bit, for all arguments (infinities and NaN included). *)
Theorem flvec_symmetric : forall (N : nat) (v w : vector), fl_dot N v w = fl_dot N w v /\ fl_dist N v w = fl_dist N w v /\ fl_dist2 N v w = fl_dist2 N w v.
Proof. intros N v w. split; [apply dot_symmetric|split; [apply dist_symmetric|apply dist2_symmetric]]. Qed.
Print Assumptions flvec_symmetric.

(** The error of a dot product. *)
Theorem flvec_dot_accurate : forall (N : nat) (v w : vector), (forall i, (i < N)%nat -> is_finite (v i) = true /\ is_finite (w i) = true) -> is_finite (fl_dot N v w) = true ->
  Rabs (B2R (fl_dot N v w) - exact_dot N v w) <= (step prec ^ N - 1) * sum_of_sizes N v w + INR N * step prec ^ N * bpow radix2 (emin prec emax - 1).
Proof. apply dot_accurate. Qed.
Print Assumptions flvec_dot_accurate.

(** mag2 and mag are numbers, right up to N and (N + 2) / 2 roundings. *)
Theorem flvec_mag_accurate : forall (N : nat) (v : vector), (4 <= prec)%Z -> (8 <= emax)%Z -> (Z.of_nat N <= 2 ^ (prec - 1))%Z -> safe_vector N v ->
  is_finite (fl_mag2 N v) = true /\ within_factor prec N (B2R (fl_mag2 N v)) (exact_dot N v v) /\
  is_finite (fl_mag N v) = true /\ 0 <= B2R (fl_mag N v) /\ within_factor prec (N + 2) (B2R (fl_mag N v) * B2R (fl_mag N v)) (exact_dot N v v).
Proof.
  intros N v P4 E8 NB S. destruct (mag2_runs prec emax P4 N v S NB N (le_n N)) as (A & B & _). destruct (mag_runs prec emax P4 E8 N v S NB) as (C & D & E). repeat (split; [assumption|]). exact D.
Qed.
Print Assumptions flvec_mag_accurate.

(** unit: each element has the sign of the argument's and the right size, and the length is 1, up to (N + 4) / 2 roundings. *)
Theorem flvec_unit_accurate : forall (N : nat) (v : vector), (4 <= prec)%Z -> (8 <= emax)%Z -> (Z.of_nat N <= 2 ^ (prec - 1))%Z -> safe_vector N v -> exact_dot N v v <> 0 ->
  (forall i, (i < N)%nat -> is_finite (fl_unit N v i) = true /\ 0 <= B2R (fl_unit N v i) * B2R (v i) /\
     within_factor prec (N + 4) (B2R (fl_unit N v i) * B2R (fl_unit N v i)) (B2R (v i) * B2R (v i) / exact_dot N v v)) /\
  within_factor prec (N + 4) (exact_dot N (fl_unit N v) (fl_unit N v)) 1.
Proof.
  intros N v P4 E8 NB S NZ. split; [intros i I; exact (unit_runs prec emax P4 E8 N v S NB i NZ I)|exact (unit_length prec emax P4 E8 N v S NB NZ)].
Qed.
Print Assumptions flvec_unit_accurate.

(** dist2 and dist, when the difference is safe: right up to N + 2 and (N + 4) / 2 roundings of the exact distance of the arguments. *)
Theorem flvec_dist_accurate : forall (N : nat) (v w : vector), (4 <= prec)%Z -> (8 <= emax)%Z -> (Z.of_nat N <= 2 ^ (prec - 1))%Z ->
  (forall i, (i < N)%nat -> is_finite (v i) = true /\ is_finite (w i) = true) -> safe_vector N (fl_vsub prec emax v w) ->
  is_finite (fl_dist2 N v w) = true /\ within_factor prec (N + 2) (B2R (fl_dist2 N v w)) (exact_dist2 N v w) /\
  is_finite (fl_dist N v w) = true /\ 0 <= B2R (fl_dist N v w) /\ within_factor prec (N + 4) (B2R (fl_dist N v w) * B2R (fl_dist N v w)) (exact_dist2 N v w).
Proof. intros N v w P4 E8 NB F S. exact (dist_accurate prec emax P4 E8 N v w F S NB). Qed.
Print Assumptions flvec_dist_accurate.

(** with_length: each element has the sign of the exact one, and its size up to (N + 6) / 2 roundings; the zero vector is kept. *)
Theorem flvec_with_length_accurate : forall (N : nat) (v : vector) (m : float), (4 <= prec)%Z -> (8 <= emax)%Z -> (Z.of_nat N <= 2 ^ (prec - 1))%Z -> safe_vector N v -> is_finite m = true ->
  (exact_dot N v v = 0 -> forall i, is_finite (fl_with_length N v m i) = true /\ B2R (fl_with_length N v m i) = 0) /\
  (exact_dot N v v <> 0 -> safe_scaling N v m -> forall i, (i < N)%nat -> is_finite (fl_with_length N v m i) = true /\ 0 <= B2R (fl_with_length N v m i) * (B2R m * B2R (v i)) /\
     within_factor prec (N + 6) (B2R (fl_with_length N v m i) * B2R (fl_with_length N v m i)) (B2R m * B2R (v i) * (B2R m * B2R (v i)) / exact_dot N v v)).
Proof.
  intros N v m P4 E8 NB S F. split; [exact (length_zero prec emax N v m P4 NB S)|intros NZ H; exact (length_runs prec emax P4 E8 N v m S NB NZ F H)].
Qed.
Print Assumptions flvec_with_length_accurate.

(** The number passed to the arc cosine by angle_to is the cosine of the angle of two non-zero vectors, up to about 3 N + 8 roundings. *)
Theorem flvec_cosine_accurate : forall (N : nat) (v w : vector), (4 <= prec)%Z -> (8 <= emax)%Z -> (Z.of_nat N <= 2 ^ (prec - 1))%Z -> safe_vector N v -> safe_vector N w -> exact_dot N v v <> 0 -> exact_dot N w w <> 0 ->
  Rabs (B2R (fl_cosine N v w) - exact_dot N v w / (sqrt (exact_dot N v v) * sqrt (exact_dot N w w))) <= step prec ^ (3 * N + 8) - 1 + INR N * step prec ^ N * bpow radix2 (emin prec emax - 1).
Proof. intros N v w P4 E8 NB S1 S2 Z1 Z2. exact (cosine_accurate prec emax P4 E8 N v w S1 S2 Z1 Z2 NB). Qed.
Print Assumptions flvec_cosine_accurate.
(** The number passed to the arc cosine by angle_to is always in its domain, whatever the vectors; so the angle is never NaN. *)
Theorem flvec_cosine_range : forall (N : nat) (v w : vector), (3 <= emax)%Z -> is_finite (fl_cosine N v w) = true /\ -1 <= B2R (fl_cosine N v w) <= 1.
Proof. apply cosine_range. Qed.
Print Assumptions flvec_cosine_range.
(** In particular the zero vector has angle 0 (cosine 1) to and from every vector. *)
Theorem flvec_cosine_zero : forall (N : nat) (v w : vector), (1 <= N)%nat -> (3 <= emax)%Z -> (forall i, (i < N)%nat -> is_finite (v i) = true /\ B2R (v i) = 0) ->
  B2R (fl_cosine N v w) = 1 /\ B2R (fl_cosine N w v) = 1.
Proof. apply zero_cosine. Qed.
Print Assumptions flvec_cosine_zero.

(** Cross products are within 1.5 units in the last place, and vanish where they should. *)
Theorem flvec_cross_accurate : forall (a b : vector), (3 <= emax)%Z -> safe_products a b -> forall i, (i < 3)%nat ->
  within_ulps (3 / 2) (fl_cross a b i) (exact_cross a b i) /\ (exact_cross a b i = 0 -> B2R (fl_cross a b i) = 0).
Proof. apply cross_ok. Qed.
Print Assumptions flvec_cross_accurate.
End Props.

(** The unit vector of (2^600, 0), in double, is the zero vector. *)
Theorem flvec_unit_large_refuted : let v := vector2 (dbl 1 600) (dbl 0 0) in B2R (v 0%nat) = bpow radix2 600 /\
  is_finite (fl_unit 2 v 0%nat) = true /\ B2R (fl_unit 2 v 0%nat) = 0 /\ is_finite (fl_unit 2 v 1%nat) = true /\ B2R (fl_unit 2 v 1%nat) = 0.
Proof. exact unit_large. Qed.
Print Assumptions flvec_unit_large_refuted.
(** That of (2^-600, 0) is (infinity, NaN), and with_length (1) makes it the zero vector although it is not zero. *)
Theorem flvec_unit_small_refuted : let v := vector2 (dbl 1 (-600)) (dbl 0 0) in B2R (v 0%nat) = bpow radix2 (-600) /\
  is_finite (fl_unit 2 v 0%nat) = false /\ is_nan (fl_unit 2 v 1%nat) = true /\ (forall i, (i < 2)%nat -> B2R (fl_with_length 2 v (dbl 1 0) i) = 0).
Proof. exact unit_small. Qed.
Print Assumptions flvec_unit_small_refuted.

(** The vector (1, -2) is safe in double, and the products of (1, -2, 1) with itself are. *)
Example flvec_safe : safe_vector 2 (vector2 (dbl 1 0) (dbl (-2) 0)) /\ exact_dot 2 (vector2 (dbl 1 0) (dbl (-2) 0)) (vector2 (dbl 1 0) (dbl (-2) 0)) = 5.
Proof. exact example_safe. Qed.
Example flvec_products : let a := fun i => if Nat.eqb i 1 then dbl (-2) 0 else dbl 1 0 in safe_products a a.
Proof. exact example_products. Qed.
(** Their scaling to length 3, and the difference of (3, -2) and (2, 0), are safe. *)
Example flvec_scaling : let v := vector2 (dbl 1 0) (dbl (-2) 0) in safe_scaling 2 v (dbl 3 0) /\ is_finite (dbl 3 0) = true /\ B2R (dbl 3 0) = 3.
Proof. exact scaling_example. Qed.
Example flvec_difference : let v := vector2 (dbl 3 0) (dbl (-2) 0) in let w := vector2 (dbl 2 0) (dbl 0 0) in
  (forall i, (i < 2)%nat -> is_finite (v i) = true /\ is_finite (w i) = true) /\ safe_vector 2 (fl_vsub 53 1024 v w).
Proof. exact dist_example. Qed.
