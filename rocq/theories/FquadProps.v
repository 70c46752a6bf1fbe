(** Solving quadratic equations in floating point. *)
From Coq Require Import Reals ZArith Lia Lra.
From Flocq Require Import Core BinarySingleNaN.
From Verif Require Import FmaModel FmaSpec FmaProofs FquadModel FquadSpec FquadMore.
Open Scope R_scope.

(** The function succeeds exactly when the equation, with the given coefficients taken as exact, has a real solution: rounding never
    changes the answer. Equations "c = 0" are rejected. *)
Theorem flquad_decides : forall (prec emax : Z) (Hp : Prec_gt_0 prec) (He : Prec_lt_emax prec emax) (a b c : binary_float prec emax), (8 <= emax)%Z -> (8 <= prec)%Z -> coefficients_ok a b c ->
  (B2R a = 0 -> B2R b = 0 -> fl_quadratic_solve a b c = None) /\
  (~ (B2R a = 0 /\ B2R b = 0) -> (fl_quadratic_solve a b c <> None <-> has_root (B2R a) (B2R b) (B2R c))).
Proof. intros prec emax Hp He a b c E8 P8. now apply decides. Qed.
Print Assumptions flquad_decides.

(** The two results are the two exact roots, each with relative error at most 5 * 2^-prec. *)
Theorem flquad_accurate : forall (prec emax : Z) (Hp : Prec_gt_0 prec) (He : Prec_lt_emax prec emax) (a b c : binary_float prec emax) (r0 r1 : R), (8 <= prec)%Z -> (8 <= emax)%Z ->
  coefficients_ok a b c -> B2R a <> 0 -> discriminant_ok prec emax (B2R a) (B2R b) (B2R c) ->
  roots_of (B2R a) (B2R b) (B2R c) r0 r1 -> representable prec emax r0 -> representable prec emax r1 ->
  exists x0 x1, fl_quadratic_solve a b c = Some (x0, x1) /\ ((relative_to 5 x0 r0 /\ relative_to 5 x1 r1) \/ (relative_to 5 x0 r1 /\ relative_to 5 x1 r0)).
Proof. intros prec emax Hp He a b c r0 r1 P8 E8. now apply quadratic_accurate. Qed.
Print Assumptions flquad_accurate.

(** With a = 0 both results are the solution of the linear equation. *)
Theorem flquad_linear : forall (prec emax : Z) (Hp : Prec_gt_0 prec) (He : Prec_lt_emax prec emax) (a b c : binary_float prec emax), (8 <= prec)%Z -> (8 <= emax)%Z ->
  coefficients_ok a b c -> B2R a = 0 -> B2R b <> 0 -> discriminant_ok prec emax (B2R a) (B2R b) (B2R c) -> representable prec emax (- B2R c / B2R b) ->
  exists x, fl_quadratic_solve a b c = Some (x, x) /\ relative_to 5 x (- B2R c / B2R b).
Proof. intros prec emax Hp He a b c P8 E8. now apply linear_accurate. Qed.
Print Assumptions flquad_linear.

(** "In the case where there is exactly one real solution, the two roots will be set equal to each other", also after rounding. *)
Theorem flquad_double : forall (prec emax : Z) (Hp : Prec_gt_0 prec) (He : Prec_lt_emax prec emax) (a b c : binary_float prec emax) (r : R), (8 <= prec)%Z -> (8 <= emax)%Z ->
  coefficients_ok a b c -> B2R a <> 0 -> roots_of (B2R a) (B2R b) (B2R c) r r -> representable prec emax r ->
  exists x0 x1, fl_quadratic_solve a b c = Some (x0, x1) /\ relative_to 5 x0 r /\ is_finite x1 = true /\ B2R x0 = B2R x1.
Proof. intros prec emax Hp He a b c r P8 E8. now apply double_root. Qed.
Print Assumptions flquad_double.

(** Outside that range the answers are wrong. The equation 2^-540 (x^2 + x + 1) = 0 has no real solution, and is given two. *)
Theorem flquad_underflow_refuted : let a := dbl 1 (-540) in
  ~ has_root (B2R a) (B2R a) (B2R a) /\ exists x0 x1, fl_quadratic_solve a a a = Some (x0, x1) /\ B2R x0 = - / 2 /\ B2R x1 = - 2.
Proof. exact tiny_coefficients. Qed.
Print Assumptions flquad_underflow_refuted.
(** 2^600 x^2 + x + 2^600 = 0 has no real solution either; the function succeeds, and gives NaN. *)
Theorem flquad_overflow_refuted : let a := dbl 1 600 in let b := dbl 1 0 in
  ~ has_root (B2R a) (B2R b) (B2R a) /\ exists x0 x1, fl_quadratic_solve a b a = Some (x0, x1) /\ is_nan x0 = true /\ is_nan x1 = true.
Proof. exact huge_coefficients. Qed.
Print Assumptions flquad_overflow_refuted.
(** x^2 + 2^600 x + 1 = 0 has two negative solutions, both well within the range of double; the function gives minus infinity and zero. *)
Theorem flquad_large_b_refuted : let a := dbl 1 0 in let b := dbl 1 600 in
  (exists r0 r1, roots_of (B2R a) (B2R b) (B2R a) r0 r1 /\ - bpow radix2 600 <= r0 < 0 /\ - bpow radix2 600 <= r1 < 0) /\
  exists x0 x1, fl_quadratic_solve a b a = Some (x0, x1) /\ is_finite x0 = false /\ is_finite x1 = true /\ B2R x1 = 0.
Proof. exact large_middle. Qed.
Print Assumptions flquad_large_b_refuted.

(** The hypotheses hold of x^2 - 3 x + 2, of -3 x + 2 and of x^2 - 2 x + 1 in double. *)
Example flquad_two_roots : coefficients_ok (dbl 1 0) (dbl (-3) 0) (dbl 2 0) /\ discriminant_ok 53 1024 (B2R (dbl 1 0)) (B2R (dbl (-3) 0)) (B2R (dbl 2 0)) /\
  roots_of (B2R (dbl 1 0)) (B2R (dbl (-3) 0)) (B2R (dbl 2 0)) 1 2 /\ representable 53 1024 1 /\ representable 53 1024 2.
Proof. exact example_two. Qed.
Example flquad_one_root : coefficients_ok (dbl 0 0) (dbl (-3) 0) (dbl 2 0) /\ discriminant_ok 53 1024 (B2R (dbl 0 0)) (B2R (dbl (-3) 0)) (B2R (dbl 2 0)) /\
  B2R (dbl 0 0) = 0 /\ B2R (dbl (-3) 0) <> 0 /\ representable 53 1024 (- B2R (dbl 2 0) / B2R (dbl (-3) 0)).
Proof. exact example_linear. Qed.
Example flquad_double_root : coefficients_ok (dbl 1 0) (dbl (-2) 0) (dbl 1 0) /\ roots_of (B2R (dbl 1 0)) (B2R (dbl (-2) 0)) (B2R (dbl 1 0)) 1 1.
Proof. exact example_double. Qed.
Example flquad_no_root : coefficients_ok (dbl 1 0) (dbl 1 0) (dbl 1 0) /\ ~ has_root (B2R (dbl 1 0)) (B2R (dbl 1 0)) (B2R (dbl 1 0)).
Proof. exact example_none. Qed.
