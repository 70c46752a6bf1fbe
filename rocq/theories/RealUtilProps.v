(** C56 quadratic_solve, C57 interpolation, C58 angles, remainders, clamping. *)
From Coq Require Import Reals ZArith Arith Lra Lia.
From Verif Require Import PerlinSpec RealUtilModel RealUtilSpec RealUtilProofs.
Open Scope R_scope.

(** ** C56 *)
(** quadratic_solve returns false exactly when there is no real root or all coefficients are zero; otherwise it gives
    numbers, which are all the roots; with multiplicity if the equation is quadratic. *)
Theorem quadratic_solve_false neg0 a b c : quadratic_solve neg0 a b c = None <->
  (forall x, a * x ^ 2 + b * x + c <> 0) \/ (a = 0 /\ b = 0 /\ c = 0).
Proof.
  destruct (quadratic_spec neg0 a b c) as [[-> H]|(r0 & r1 & -> & NZ & H & _)]; [tauto|]. split; [discriminate|].
  intros [N|(-> & -> & _)]; [|lra]. exfalso. apply (N r0), H. now left.
Qed.
Print Assumptions quadratic_solve_false.
Theorem quadratic_solve_roots neg0 a b c r : quadratic_solve neg0 a b c = Some r -> exists r0 r1, r = (Some r0, Some r1) /\
  (forall x, a * x ^ 2 + b * x + c = 0 <-> x = r0 \/ x = r1) /\ (a <> 0 -> forall x, a * x ^ 2 + b * x + c = a * (x - r0) * (x - r1)).
Proof.
  destruct (quadratic_spec neg0 a b c) as [[-> _]|(r0 & r1 & -> & _ & H)]; [discriminate|]. intros [= <-]. exists r0, r1. tauto.
Qed.
Print Assumptions quadratic_solve_roots.
Example quadratic_cases : quadratic_solve false 1 0 1 = None /\ (exists r, quadratic_solve false 1 (-3) 2 = Some r) /\
  exists r, quadratic_solve true 0 2 1 = Some r.
Proof.
  unfold quadratic_solve. rewrite !dop_is. split; [destruct (Rlt_dec _ _); [reflexivity|lra]|]. split.
  - destruct (Rlt_dec _ _); [lra|]. destruct (Req_EM_T 1 0); [lra|]. eauto.
  - destruct (Rlt_dec _ _); [lra|]. destruct (Req_EM_T 0 0); [|lra]. destruct (Req_EM_T 2 0); [lra|]. eauto.
Qed.

(** ** C57 *)
(** mix runs from a to b. *)
Theorem mix_endpoints t a b : mix 0 a b = a /\ mix 1 a b = b /\ mix t a b = a + t * (b - a).
Proof. rewrite !mix_is. repeat split; ring. Qed.
Print Assumptions mix_endpoints.
(** interp_linear over at least one axis is the multilinear interpolant: a sum of the grid values with product weights. *)
Theorem interp_linear_is_multilinear dim s p : (0 < dim)%nat -> interp_linear dim s p = multilinear dim s p.
Proof. destruct dim as [|d]; [lia|]. intros _. apply interp_linear_is. Qed.
Print Assumptions interp_linear_is_multilinear.
(** It takes the grid value at each corner and stays between the least and greatest grid value inside the cell. *)
Theorem interp_linear_corner dim s p c : (0 < dim)%nat -> (c < 2 ^ dim)%nat ->
  (forall i, (i < dim)%nat -> s i = if Nat.testbit c i then 1 else 0) -> interp_linear dim s p = p c.
Proof. intros P L H. rewrite interp_linear_is_multilinear by exact P. now apply multilinear_corner. Qed.
Print Assumptions interp_linear_corner.
Theorem interp_linear_between dim s p lo hi : (0 < dim)%nat -> (forall i, (i < dim)%nat -> 0 <= s i <= 1) ->
  (forall c, (c < 2 ^ dim)%nat -> lo <= p c <= hi) -> lo <= interp_linear dim s p <= hi.
Proof. intros P H B. rewrite interp_linear_is_multilinear by exact P. now apply multilinear_bounds. Qed.
Print Assumptions interp_linear_between.
(** Over no axis it is not the single grid value: it reads a second one, beyond the array, and a coordinate that is not there. *)
Theorem interp_linear_no_axis_refuted s p : interp_linear 0 s p = p 0%nat <-> s 0%nat = 0 \/ p 1%nat = p 0%nat.
Proof.
  cbn. rewrite mix_is. split.
  - intros H. assert (s 0%nat * (p 1%nat - p 0%nat) = 0) as Z by lra. apply Rmult_integral in Z as [Z|Z]; [tauto|right; lra].
  - intros [-> | ->]; ring.
Qed.
Print Assumptions interp_linear_no_axis_refuted.
(** interp_cubic in one dimension: through p1 and p2, with the central differences as slopes there ... *)
Theorem interp_cubic_hermite p0 p1 p2 p3 :
  interp_cubic1 0 p0 p1 p2 p3 = p1 /\ interp_cubic1 1 p0 p1 p2 p3 = p2 /\
  derivable_pt_lim (fun s => interp_cubic1 s p0 p1 p2 p3) 0 ((p2 - p0) / 2) /\
  derivable_pt_lim (fun s => interp_cubic1 s p0 p1 p2 p3) 1 ((p3 - p1) / 2).
Proof.
  split; [unfold interp_cubic1; ring|]. split; [unfold interp_cubic1; field|]. split.
  - pose proof (cubic1_derivative 0 p0 p1 p2 p3) as D. replace ((p2 - p0) / 2) with ((p2 - p0) / 2 + (2 * p0 - 5 * p1 + 4 * p2 - p3) * 0 + 3 / 2 * (3 * (p1 - p2) + p3 - p0) * 0 ^ 2) by field. exact D.
  - pose proof (cubic1_derivative 1 p0 p1 p2 p3) as D. replace ((p3 - p1) / 2) with ((p2 - p0) / 2 + (2 * p0 - 5 * p1 + 4 * p2 - p3) * 1 + 3 / 2 * (3 * (p1 - p2) + p3 - p0) * 1 ^ 2) by field. exact D.
Qed.
Print Assumptions interp_cubic_hermite.
(** ... and exact for samples of a quadratic. *)
Theorem interp_cubic_quadratic a b c s : let f := fun x => a * x ^ 2 + b * x + c in interp_cubic1 s (f (-1)) (f 0) (f 1) (f 2) = f s.
Proof. intros f. unfold interp_cubic1, f. field. Qed.
Print Assumptions interp_cubic_quadratic.
(** In several dimensions: the sum of the 4^dim grid values with products of the one-dimensional weights; it takes the grid
    values at the corners of the middle cell. *)
Theorem interp_cubic_is_tensor dim s p : (0 < dim)%nat -> interp_cubic dim s p = multicubic dim s p.
Proof. destruct dim as [|d]; [lia|]. intros _. apply interp_cubic_is. Qed.
Print Assumptions interp_cubic_is_tensor.
Theorem interp_cubic_corner dim s p c : (0 < dim)%nat ->
  (forall i, (i < dim)%nat -> s i = if Nat.testbit c i then 1 else 0) -> interp_cubic dim s p = p (inner_node dim c).
Proof. intros P H. rewrite interp_cubic_is_tensor by exact P. now apply multicubic_corner. Qed.
Print Assumptions interp_cubic_corner.
Example interp_corner_case : interp_linear 2 (fun i => if (i =? 1)%nat then 1 else 0) INR = 2 /\
  interp_cubic 2 (fun i => if (i =? 1)%nat then 1 else 0) INR = 9.
Proof.
  split.
  - rewrite (interp_linear_corner 2 _ _ 2); [cbn; lra|lia|cbn; lia|]. intros [|[|i]] L; [reflexivity|reflexivity|lia].
  - rewrite (interp_cubic_corner 2 _ _ 2); [cbn; lra|lia|]. intros [|[|i]] L; [reflexivity|reflexivity|lia].
Qed.

(** ** C58 *)
(** The shortest signed turn from one angle to the other. *)
Theorem angle_to_shortest r0 r1 : exists e, angle_to r0 r1 = Some e /\ - PI <= e <= PI /\
  (exists k, r1 = r0 + e + 2 * PI * IZR k) /\ forall t k, r1 = r0 + t + 2 * PI * IZR k -> Rabs e <= Rabs t.
Proof.
  destruct (angle_spec r0 r1) as (e & E & B & k & K). exists e. split; [exact E|]. split; [exact B|]. split; [now exists k|].
  intros t j J. replace t with (e + 2 * PI * IZR (k - j)) by (rewrite minus_IZR; lra). now apply angle_least.
Qed.
Print Assumptions angle_to_shortest.
(** positive_mod is the remainder in [0, b); for a negative divisor it is in (b, 0], so never positive. *)
Theorem real_positive_mod a b : (positive_mod a b = None <-> b = 0) /\
  forall r, positive_mod a b = Some r -> (exists k, a = r + b * IZR k) /\ (0 < b -> 0 <= r < b) /\ (b < 0 -> b < r <= 0).
Proof. exact (positive_mod_spec a b). Qed.
Print Assumptions real_positive_mod.
Theorem real_positive_mod_negative_refuted a b : b < 0 -> (forall k, a <> b * IZR k) -> exists r, positive_mod a b = Some r /\ r < 0.
Proof.
  intros B N. destruct (positive_mod_spec a b) as [Z S]. destruct (positive_mod a b) as [r|]; [|destruct Z as [Z _]; specialize (Z eq_refl); lra].
  exists r. split; [reflexivity|]. destruct (S r eq_refl) as ([k K] & _ & P). specialize (P B). destruct (Req_dec r 0) as [->|]; [|lra].
  exfalso. apply (N k). lra.
Qed.
Print Assumptions real_positive_mod_negative_refuted.
(** snap is the least multiple of b at or above a if b is positive; if b is negative, it is the greatest at or below. *)
Theorem snap_up a b : 0 < b -> exists r, snap a b = Some r /\ (exists k, r = b * IZR k) /\ a <= r /\ forall j, a <= b * IZR j -> r <= b * IZR j.
Proof.
  intros B. destruct (snap_spec a b) as [Z S]. destruct (snap a b) as [r|]; [|destruct Z as [Z _]; specialize (Z eq_refl); lra].
  exists r. split; [reflexivity|]. destruct (S r eq_refl) as ([k K] & P & _). specialize (P B). split; [now exists k|]. split; [lra|].
  intros j J. subst r. apply Rmult_le_compat_l; [lra|]. apply IZR_le. assert (k - 1 < j)%Z; [|lia]. apply lt_IZR. rewrite minus_IZR.
  apply (Rmult_lt_reg_l b); lra.
Qed.
Print Assumptions snap_up.
Theorem snap_negative_refuted a b : b < 0 -> (forall k, a <> b * IZR k) -> exists r, snap a b = Some r /\ r < a.
Proof.
  intros B N. destruct (snap_spec a b) as [Z S]. destruct (snap a b) as [r|]; [|destruct Z as [Z _]; specialize (Z eq_refl); lra].
  exists r. split; [reflexivity|]. destruct (S r eq_refl) as ([k K] & _ & P). specialize (P B). destruct (Req_dec r a) as [->|]; [|lra].
  exfalso. now apply (N k).
Qed.
Print Assumptions snap_negative_refuted.
(** clamp gives the nearest point of [lo, hi]; if the bounds are crossed, the lower one (unlike the clamp of vectors). *)
Theorem clamp_nearest v lo hi : lo <= hi -> lo <= clamp v lo hi <= hi /\ forall x, lo <= x <= hi -> Rabs (v - clamp v lo hi) <= Rabs (v - x).
Proof.
  intros H. unfold clamp, std_max, std_min. destruct (Rlt_dec v hi); destruct (Rlt_dec lo _); (split; [lra|]); intros x X; unfold Rabs; destruct (Rcase_abs _), (Rcase_abs _); lra.
Qed.
Print Assumptions clamp_nearest.
Theorem clamp_bounds_crossed v lo hi : hi < lo -> clamp v lo hi = lo.
Proof. intros H. unfold clamp, std_max, std_min. destruct (Rlt_dec v hi); destruct (Rlt_dec lo _); lra. Qed.
Print Assumptions clamp_bounds_crossed.
(** Degrees and radians convert back and forth; half a turn is 180 degrees. *)
Theorem degrees_radians x : degrees (radians x) = x /\ radians (degrees x) = x /\ radians 180 = PI /\ degrees PI = 180.
Proof. pose proof PI_RGT_0. unfold degrees, radians. repeat split; field; lra. Qed.
Print Assumptions degrees_radians.
(** Quotients of reals. *)
Theorem real_divisions a b : b <> 0 -> exists f c, floor_div a b = Some (IZR f) /\ ceil_div a b = Some (IZR c) /\
  IZR f <= a / b < IZR f + 1 /\ IZR c - 1 < a / b <= IZR c.
Proof.
  intros B. unfold floor_div, ceil_div, div_opt. destruct (Req_EM_T b 0); [tauto|]. destruct (floor_int (a / b)) as [f F], (ceil_int (a / b)) as [c C].
  exists f, c. rewrite F, C, <- F, <- C. split; [reflexivity|]. split; [reflexivity|]. split; [apply floor_spec|apply ceil_spec].
Qed.
Print Assumptions real_divisions.
