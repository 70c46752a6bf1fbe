(** Spheres and half-spaces in floating point: what containment and signed distances say about the exact shape. *)
From Coq Require Import Reals ZArith.
From Flocq Require Import Core BinarySingleNaN.
From Verif Require Import FmaModel FmaSpec FmaProofs FquadModel FvecModel FvecSpec FboxModel FboxSpec FsphModel FsphProofs FsphMore FsphWit.
Open Scope R_scope.

Section Props.
Variable prec emax : Z.
Context {Hp : Prec_gt_0 prec} {He : Prec_lt_emax prec emax}.
Notation float := (binary_float prec emax).
Notation vector := (nat -> float).

(** A point is judged rightly unless its squared distance is within N + 3 roundings of the squared radius; nothing may overflow or underflow. *)
Theorem flsph_contains_accurate (N : nat) (s : fl_sphere prec emax) (p : vector) : (4 <= prec)%Z -> (8 <= emax)%Z -> (Z.of_nat N <= 2 ^ (prec - 1))%Z ->
  all_finite N (fl_center s) -> all_finite N p -> is_finite (fl_radius s) = true -> safe_vector N (fl_vsub prec emax (fl_center s) p) ->
  let r := B2R (fl_radius s) in r = 0 \/ bpow radix2 (emin prec emax + prec - 1) <= r * r -> r * r < bpow radix2 (emax - 1) ->
  (exact_dist2 N (fl_center s) p * step prec ^ (N + 3) <= r * r -> fl_sphere_contains N s p = true) /\
  (r * r * step prec ^ (N + 3) < exact_dist2 N (fl_center s) p -> fl_sphere_contains N s p = false).
Proof. exact (contains_far prec emax N s p). Qed.
Print Assumptions flsph_contains_accurate.

(** Containment is monotone, whatever overflows or underflows: a point no farther in any coordinate, from the center of a sphere at
    least as large, is contained too. *)
Theorem flsph_contains_monotone (N : nat) (s t : fl_sphere prec emax) (p q : vector) :
  all_finite N (fl_center s) -> all_finite N (fl_center t) -> all_finite N p -> all_finite N q -> is_nan (fl_radius s) = false -> is_nan (fl_radius t) = false ->
  (forall i, (i < N)%nat -> Rabs (B2R (fl_center t i) - B2R (q i)) <= Rabs (B2R (fl_center s i) - B2R (p i))) -> Rabs (place (fl_radius s)) <= Rabs (place (fl_radius t)) ->
  fl_sphere_contains N s p = true -> fl_sphere_contains N t q = true.
Proof. exact (contains_nearer prec emax N s t p q). Qed.
Print Assumptions flsph_contains_monotone.

(** The center is always inside, and nothing is if a NaN is involved. *)
Theorem flsph_contains_center (N : nat) (s : fl_sphere prec emax) : all_finite N (fl_center s) -> is_nan (fl_radius s) = false -> fl_sphere_contains N s (fl_center s) = true.
Proof. exact (contains_center prec emax N s). Qed.
Print Assumptions flsph_contains_center.
Theorem flsph_contains_nan (N : nat) (s : fl_sphere prec emax) (p : vector) :
  is_nan (fl_radius s) = true \/ (exists i, (i < N)%nat /\ (is_nan (p i) = true \/ is_nan (fl_center s i) = true)) -> fl_sphere_contains N s p = false.
Proof. exact (contains_nan prec emax N s p). Qed.
Print Assumptions flsph_contains_nan.

(** A contained point has signed distance at most 0 (if r^2 neither overflows nor underflows) ... *)
Theorem flsph_contained_sdf (N : nat) (s : fl_sphere prec emax) (p : vector) : (2 <= prec)%Z -> all_finite N (fl_center s) -> all_finite N p -> is_finite (fl_radius s) = true ->
  let r := B2R (fl_radius s) in 0 <= r -> r = 0 \/ bpow radix2 (emin prec emax + prec - 1) <= r * r -> is_finite (fl_mul prec emax (fl_radius s) (fl_radius s)) = true ->
  fl_sphere_contains N s p = true -> is_finite (fl_sphere_sdf N s p) = true /\ B2R (fl_sphere_sdf N s p) <= 0.
Proof. exact (contains_sdf prec emax N s p). Qed.
Print Assumptions flsph_contained_sdf.

(** The signed distance is within N + 5 roundings of the distance to the center and of the radius. *)
Theorem flsph_sdf_accurate (N : nat) (s : fl_sphere prec emax) (p : vector) : (4 <= prec)%Z -> (8 <= emax)%Z -> (Z.of_nat N <= 2 ^ (prec - 1))%Z ->
  all_finite N (fl_center s) -> all_finite N p -> is_finite (fl_radius s) = true -> safe_vector N (fl_vsub prec emax p (fl_center s)) -> is_finite (fl_sphere_sdf N s p) = true ->
  let d := sqrt (exact_dist2 N p (fl_center s)) in let r := B2R (fl_radius s) in
  Rabs (B2R (fl_sphere_sdf N s p) - (d - r)) <= (step prec ^ (N + 5) - 1) * (d + Rabs r).
Proof. exact (sdf_accurate prec emax N s p). Qed.
Print Assumptions flsph_sdf_accurate.

(** The bounds contain every point of the exact sphere. *)
Theorem flsph_bounds (N : nat) (s : fl_sphere prec emax) (p : vector) : all_finite N (fl_center s) -> all_finite N p -> is_finite (fl_radius s) = true -> 0 <= B2R (fl_radius s) ->
  exact_dist2 N (fl_center s) p <= B2R (fl_radius s) * B2R (fl_radius s) -> in_box N (fl_sphere_bounds s) p.
Proof. exact (bounds_hold prec emax N s p). Qed.
Print Assumptions flsph_bounds.

(** Half-spaces: the side is judged rightly unless normal . p + d is within the error e of a dot product; and the error of the distance. *)
Theorem flpl_side (N : nat) (pl : fl_plane prec emax) (p : vector) : all_finite N (fl_normal pl) -> all_finite N p -> is_finite (fl_offset pl) = true -> is_finite (fl_dot N (fl_normal pl) p) = true ->
  let x := exact_dot N (fl_normal pl) p + B2R (fl_offset pl) in
  let e := (step prec ^ N - 1) * sum_of_sizes N (fl_normal pl) p + INR N * step prec ^ N * bpow radix2 (emin prec emax - 1) in
  (x <= - e -> fl_plane_contains N pl p = true) /\ (e < x -> fl_plane_contains N pl p = false) /\
  (is_finite (fl_plane_distance N pl p) = true -> Rabs (B2R (fl_plane_distance N pl p) - x) <= bpow radix2 (- prec) * Rabs x + step prec * e).
Proof. exact (plane_side prec emax N pl p). Qed.
Print Assumptions flpl_side.

(** The point a plane was made through is on it, exactly, whatever was rounded (unless the dot product overflowed). *)
Theorem flpl_through (N : nat) (n pt : vector) : is_finite (fl_dot N pt (fl_unit N n)) = true ->
  fl_plane_distance N (fl_plane_through N n pt) pt = B754_zero false /\ fl_plane_contains N (fl_plane_through N n pt) pt = true.
Proof. exact (plane_own_point prec emax N n pt). Qed.
Print Assumptions flpl_through.
End Props.

(** ... but a point of signed distance 0 may be outside, and be judged to be: (1, 2^-26) and the unit circle, in doubles. *)
Theorem flsph_sdf_contained_refuted : let s := fl_mkSphere (vector2 (dbl 0 0) (dbl 0 0)) (dbl 1 0) in let p := vector2 (dbl 1 0) (dbl 1 (-26)) in
  all_finite 2 p /\ B2R (fl_radius s) = 1 /\ exact_dist2 2 (fl_center s) p = 1 + bpow radix2 (-52) /\
  fl_sphere_contains 2 s p = false /\ is_finite (fl_sphere_sdf 2 s p) = true /\ B2R (fl_sphere_sdf 2 s p) = 0.
Proof. exact sdf_zero_outside. Qed.
Print Assumptions flsph_sdf_contained_refuted.
(** Underflow and overflow: a circle of radius 2^-600 contains a point at 2^-540, one of radius 2^600 a point at 2^900. *)
Theorem flsph_contains_tiny_refuted : let s := fl_mkSphere (vector2 (dbl 0 0) (dbl 0 0)) (dbl 1 (-600)) in let p := vector2 (dbl 1 (-540)) (dbl 0 0) in
  all_finite 2 p /\ B2R (fl_radius s) = bpow radix2 (-600) /\ exact_dist2 2 (fl_center s) p = bpow radix2 (-540) * bpow radix2 (-540) /\ fl_sphere_contains 2 s p = true.
Proof. exact tiny_sphere. Qed.
Print Assumptions flsph_contains_tiny_refuted.
Theorem flsph_contains_huge_refuted : let s := fl_mkSphere (vector2 (dbl 0 0) (dbl 0 0)) (dbl 1 600) in let p := vector2 (dbl 1 900) (dbl 0 0) in
  all_finite 2 p /\ B2R (fl_radius s) = bpow radix2 600 /\ exact_dist2 2 (fl_center s) p = bpow radix2 900 * bpow radix2 900 /\ fl_sphere_contains 2 s p = true.
Proof. exact huge_sphere. Qed.
Print Assumptions flsph_contains_huge_refuted.
(** A point judged to be inside may be outside the bounds: -1 - 2^-52 in the circle of radius 2 around (1, 0), whose bounds start at -1. *)
Theorem flsph_contained_bounds_refuted : let s := fl_mkSphere (vector2 (dbl 1 0) (dbl 0 0)) (dbl 2 0) in let p := vector2 (dbl (-4503599627370497) (-52)) (dbl 0 0) in
  all_finite 2 p /\ fl_sphere_contains 2 s p = true /\ B2R (p 0%nat) = - 1 - bpow radix2 (-52) /\ B2R (fl_lo (fl_sphere_bounds s) 0%nat) = - 1.
Proof. exact outside_bounds. Qed.
Print Assumptions flsph_contained_bounds_refuted.

(** The hypotheses can hold: (2, 0) in the circle of radius 3 around (3, -2); the line of normal direction (3, 4) through (1, 2). *)
Example flsph_example : let s := fl_mkSphere (vector2 (dbl 3 0) (dbl (-2) 0)) (dbl 3 0) in let p := vector2 (dbl 2 0) (dbl 0 0) in
  all_finite 2 (fl_center s) /\ all_finite 2 p /\ is_finite (fl_radius s) = true /\ safe_vector 2 (fl_vsub 53 1024 (fl_center s) p) /\
  bpow radix2 (emin 53 1024 + 53 - 1) <= B2R (fl_radius s) * B2R (fl_radius s) < bpow radix2 (1024 - 1) /\ exact_dist2 2 (fl_center s) p * step 53 ^ 5 <= B2R (fl_radius s) * B2R (fl_radius s).
Proof. exact sphere_example. Qed.
Example flpl_example : let pl := fl_plane_through 2 (vector2 (dbl 3 0) (dbl 4 0)) (vector2 (dbl 1 0) (dbl 2 0)) in
  all_finite 2 (fl_normal pl) /\ is_finite (fl_offset pl) = true /\ is_finite (fl_dot 2 (fl_normal pl) (vector2 (dbl 1 0) (dbl 2 0))) = true /\ is_finite (fl_dot 2 (vector2 (dbl 1 0) (dbl 2 0)) (fl_unit 2 (vector2 (dbl 3 0) (dbl 4 0)))) = true.
Proof. exact plane_example. Qed.
