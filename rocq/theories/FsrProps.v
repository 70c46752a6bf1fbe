(** Rays and spheres in floating point: which rays hit, and on which side of the origin. *)
From Coq Require Import Reals ZArith.
From Flocq Require Import Core BinarySingleNaN.
From Verif Require Import FmaModel FmaSpec FmaProofs FquadModel FquadSpec FvecModel FvecSpec FboxModel FboxSpec FsphModel FsrModel FsrSpec FsrProofs FsrMore FsrWit.
Open Scope R_scope.

Section Props.
Variable prec emax : Z.
Context {Hp : Prec_gt_0 prec} {He : Prec_lt_emax prec emax}.
Notation float := (binary_float prec emax).
Notation vector := (nat -> float).

(** A ray that starts inside, as contains judges, always hits, and the interval contains parameter 0: whatever is rounded, cancels or
    underflows, and even if b^2 overflows; the direction's squared length must not underflow to 0, nor 4ac overflow. *)
Theorem flray_from_inside (N : nat) (s : fl_sphere prec emax) (o d : vector) : (3 <= emax)%Z -> is_finite (fl_ray_b N s o d) = true ->
  is_finite (fl_mul prec emax (fl_mul prec emax (fl_lit prec emax 4 0) (fl_ray_a N d)) (fl_ray_c N s o)) = true -> 0 < B2R (fl_ray_a N d) ->
  fl_sphere_contains N s o = true -> exists l h, fl_sphere_ray N s o d = Some (l, h) /\ is_nan l = false /\ is_nan h = false /\ place l <= 0 <= place h.
Proof. exact (ray_from_inside prec emax N s o d). Qed.
Print Assumptions flray_from_inside.

(** A ray that starts outside, as contains judges, never has an interval on both sides of its origin: the interval is ahead if the ray
    turns towards the center, and behind if away, as the computed dot product judges. *)
Theorem flray_from_outside (N : nat) (s : fl_sphere prec emax) (o d : vector) : (3 <= emax)%Z -> is_finite (fl_ray_b N s o d) = true ->
  is_finite (fl_mul prec emax (fl_mul prec emax (fl_lit prec emax 4 0) (fl_ray_a N d)) (fl_ray_c N s o)) = true -> 0 < B2R (fl_ray_a N d) ->
  fl_sphere_contains N s o = false -> let t := fl_dot N d (fl_vsub prec emax (fl_center s) o) in
  match fl_sphere_ray N s o d with
  | None => True
  | Some (l, h) => is_nan l = false /\ is_nan h = false /\ (0 < B2R t -> 0 <= place l) /\ (B2R t < 0 -> place h <= 0)
  end.
Proof. exact (ray_from_outside prec emax N s o d). Qed.
Print Assumptions flray_from_outside.

(** Hit and miss are decided rightly unless the line grazes the surface: the margin m is 6 ((1 + 2^-prec)^(2N+3) - 1) times the sum of
    the squared distance from the origin to the center and the squared radius. *)
Theorem flray_decides (N : nat) (s : fl_sphere prec emax) (o d : vector) : (8 <= prec)%Z -> (8 <= emax)%Z -> (Z.of_nat (2 * N + 3) <= 2 ^ (prec - 1))%Z ->
  all_finite N (fl_center s) -> all_finite N o -> is_finite (fl_radius s) = true -> safe_vector N d -> safe_vector N (fl_vsub prec emax (fl_center s) o) ->
  let r := B2R (fl_radius s) in r = 0 \/ bpow radix2 (emin prec emax + prec - 1) <= r * r -> coefficients_ok (fl_ray_a N d) (fl_ray_b N s o d) (fl_ray_c N s o) -> exact_dot N d d <> 0 ->
  let m := 6 * (step prec ^ (2 * N + 3) - 1) * (exact_dist2 N (fl_center s) o + r * r) in
  ((exists t, ray_dist2 N (fl_center s) o d t + m <= r * r) -> fl_sphere_ray N s o d <> None) /\
  ((forall t, r * r + m < ray_dist2 N (fl_center s) o d t) -> fl_sphere_ray N s o d = None).
Proof. exact (ray_decides prec emax N s o d). Qed.
Print Assumptions flray_decides.
End Props.

(** The direction (2^-600, 0): its squared length underflows, and the interval of a ray from (1/2, 0) inside the unit circle is one
    parameter far ahead, [1.5 * 2^600, 1.5 * 2^600]. *)
Theorem flray_tiny_direction_refuted : let s := fl_mkSphere (vector2 (dbl 0 0) (dbl 0 0)) (dbl 1 0) in let o := vector2 (dbl 1 (-1)) (dbl 0 0) in let d := vector2 (dbl 1 (-600)) (dbl 0 0) in
  fl_sphere_contains 2 s o = true /\ B2R (d 0%nat) = bpow radix2 (-600) /\ exists x, fl_sphere_ray 2 s o d = Some (x, x) /\ is_finite x = true /\ B2R x = 3 * bpow radix2 599.
Proof. exact tiny_direction. Qed.
Print Assumptions flray_tiny_direction_refuted.
(** A ray from the center of a circle of radius 2^500 with direction (2^30, 0): 4ac overflows, and the interval is [NaN, NaN]. *)
Theorem flray_overflow_refuted : let s := fl_mkSphere (vector2 (dbl 0 0) (dbl 0 0)) (dbl 1 500) in let o := vector2 (dbl 0 0) (dbl 0 0) in let d := vector2 (dbl 1 30) (dbl 0 0) in
  fl_sphere_contains 2 s o = true /\ B2R (fl_radius s) = bpow radix2 500 /\ B2R (d 0%nat) = bpow radix2 30 /\ exists l h, fl_sphere_ray 2 s o d = Some (l, h) /\ is_nan l = true /\ is_nan h = true.
Proof. exact huge_product. Qed.
Print Assumptions flray_overflow_refuted.
(** A ray from (-2^30, 10) along the first axis stays at distance 10 or more from the origin, and is reported to hit the unit circle. *)
Theorem flray_far_miss_refuted : let s := fl_mkSphere (vector2 (dbl 0 0) (dbl 0 0)) (dbl 1 0) in let o := vector2 (dbl (-1) 30) (dbl 10 0) in let d := vector2 (dbl 1 0) (dbl 0 0) in
  B2R (fl_radius s) = 1 /\ (forall t, 100 <= ray_dist2 2 (fl_center s) o d t) /\ exists x, fl_sphere_ray 2 s o d = Some (x, x) /\ is_finite x = true /\ B2R x = bpow radix2 30.
Proof. exact far_miss. Qed.
Print Assumptions flray_far_miss_refuted.

(** The hypotheses can hold: from (2, 0), a ray through the center (3, -2) of a circle of radius 3, and one perpendicular to that and
    a circle of radius 1. *)
Example flray_hit_example : let s := fl_mkSphere (vector2 (dbl 3 0) (dbl (-2) 0)) (dbl 3 0) in let o := vector2 (dbl 2 0) (dbl 0 0) in let d := vector2 (dbl 1 0) (dbl (-2) 0) in
  safe_vector 2 d /\ safe_vector 2 (fl_vsub 53 1024 (fl_center s) o) /\ coefficients_ok (fl_ray_a 2 d) (fl_ray_b 2 s o d) (fl_ray_c 2 s o) /\ 0 < B2R (fl_ray_a 2 d) /\ fl_sphere_contains 2 s o = true /\
  is_finite (fl_mul 53 1024 (fl_mul 53 1024 (fl_lit 53 1024 4 0) (fl_ray_a 2 d)) (fl_ray_c 2 s o)) = true /\
  ray_dist2 2 (fl_center s) o d 1 + 6 * (step 53 ^ 7 - 1) * (exact_dist2 2 (fl_center s) o + B2R (fl_radius s) * B2R (fl_radius s)) <= B2R (fl_radius s) * B2R (fl_radius s).
Proof. exact ray_hit_example. Qed.
Example flray_miss_example : let s := fl_mkSphere (vector2 (dbl 3 0) (dbl (-2) 0)) (dbl 1 0) in let o := vector2 (dbl 2 0) (dbl 0 0) in let d := vector2 (dbl 2 0) (dbl 1 0) in
  safe_vector 2 d /\ safe_vector 2 (fl_vsub 53 1024 (fl_center s) o) /\ coefficients_ok (fl_ray_a 2 d) (fl_ray_b 2 s o d) (fl_ray_c 2 s o) /\ fl_sphere_contains 2 s o = false /\
  forall t, B2R (fl_radius s) * B2R (fl_radius s) + 6 * (step 53 ^ 7 - 1) * (exact_dist2 2 (fl_center s) o + B2R (fl_radius s) * B2R (fl_radius s)) < ray_dist2 2 (fl_center s) o d t.
Proof. exact ray_miss_example. Qed.
