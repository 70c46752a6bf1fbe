(** Dual numbers: property C39. *)
From Coq Require Import Reals ZArith Lra Lia List.
From Verif Require Import Vec3Model DualModel DualSpec DualProofs DualDefProofs.
Import ListNotations.
Open Scope R_scope.

(** Let the variables of an expression follow arbitrary curves, and let each dual variable hold its curve's value and
    derivative at time [t].  Away from kinks and inside the domains, the library's result is a finite dual holding the value
    and the derivative of the expression along the curves. *)
Theorem expression_derivative_exact : forall P (e : expr) (curve : nat -> R -> R) (t : R) (env : nat -> dual),
  (forall i, tracks (curve i) t (env i)) -> smooth P e (fun i => curve i t) -> in_domain e (fun i => curve i t) ->
  exists d, deval P e env = Some d /\ tracks (fun s => sem e (fun i => curve i s)) t d.
Proof. exact (fun P e curve t env => deval_defined P t e curve env). Qed.
Print Assumptions expression_derivative_exact.

(** Whenever a result is finite and no kink is hit, it is right. *)
Theorem finite_result_is_right : forall P (e : expr) (curve : nat -> R -> R) (t : R) (env : nat -> dual) d,
  (forall i, tracks (curve i) t (env i)) -> smooth P e (fun i => curve i t) -> deval P e env = Some d ->
  tracks (fun s => sem e (fun i => curve i s)) t d.
Proof. exact (fun P e curve t env d T S E => deval_tracks P t e curve env d T E S). Qed.
Print Assumptions finite_result_is_right.

(** Partial derivatives: seed one variable with 1 and the others with 0. *)
Theorem partial_derivative : forall P (e : expr) (x : nat -> R) (k : nat) d,
  smooth P e x -> deval P e (fun i => D (x i) (if Nat.eqb i k then 1 else 0)) = Some d ->
  px d = sem e x /\ derivable_pt_lim (fun s => sem e (puts x k s)) (x k) (dx d).
Proof.
  intros P e x k d S E.
  assert (T : tracked (x k) (fun i s => puts x k s i) (fun i => D (x i) (if Nat.eqb i k then 1 else 0))).
  { intros i. unfold puts. destruct (Nat.eqb_spec i k) as [->|]; (split; [reflexivity|]); [apply derivable_pt_lim_id|apply derivable_pt_lim_const]. }
  assert (X : forall i, puts x k (x k) i = x i) by (intros i; unfold puts; destruct (Nat.eqb_spec i k) as [->|]; reflexivity).
  assert (FX : (fun i => puts x k (x k) i) = x) by (apply FunctionalExtensionality.functional_extensionality; exact X).
  destruct (deval_tracks P (x k) e _ _ d T E) as [V L]; [rewrite FX; exact S|]. split; [|exact L]. rewrite <- V, FX. reflexivity.
Qed.
Print Assumptions partial_derivative.

(** Straight-line programs with assignments and compound assignments. *)
Theorem program_derivative_exact : forall P (p : list stmt) (curve : nat -> R -> R) (t : R) (st : nat -> dual),
  (forall i, tracks (curve i) t (st i)) -> smooth_run P p (fun i => curve i t) -> in_domain_run p (fun i => curve i t) ->
  exists st', drun P p st = Some st' /\ forall i, tracks (fun s => run p (fun k => curve k s) i) t (st' i).
Proof. exact (fun P p curve t st => drun_defined P t p curve st). Qed.
Print Assumptions program_derivative_exact.

(** At a tie, [min] resolves between the true left and right derivatives as the policy says. *)
Theorem min_at_tie : forall P f g t a b, tracks f t a -> tracks g t b -> f t = g t ->
  exists lo hi, left_derivative (fun s => Rmin (f s) (g s)) t lo /\ right_derivative (fun s => Rmin (f s) (g s)) t hi /\
  match P with
  | PLeft => dmin P a b = Some (D (f t) lo)
  | PRight => dmin P a b = Some (D (f t) hi)
  | PAverage => dmin P a b = Some (D (f t) ((lo + hi) / 2))
  | PNaN => dmin P a b = None
  | PInf => dmin P a b = if Req_EM_T hi lo then Some (D (f t) lo) else None
  end.
Proof.
  intros P f g t a b F G E. assert (E' : px a = px b) by (destruct F, G; congruence). destruct (min_tie P f g t a b F G E') as (lo & hi & L & H & Q).
  exists lo, hi. split; [exact L|]. split; [exact H|]. rewrite (proj1 F). destruct P; rewrite Q; cbn; try reflexivity. destruct (Req_EM_T hi lo); reflexivity.
Qed.
Print Assumptions min_at_tie.
(** At a tie, [max] under the default policy returns the true right derivative. *)
Theorem max_at_tie : forall f g t a b, tracks f t a -> tracks g t b -> f t = g t ->
  exists hi, right_derivative (fun s => Rmax (f s) (g s)) t hi /\ dmax PRight a b = Some (D (f t) hi).
Proof.
  intros f g t a b F G E. assert (E' : px a = px b) by (destruct F, G; congruence). destruct (max_tie f g t a b F G E') as (lo & hi & L & H & Q).
  exists hi. split; [exact H|]. rewrite (proj1 F). exact Q.
Qed.
Print Assumptions max_at_tie.
(** [abs] at zero resolves correctly when the argument is not decreasing; when it is decreasing the sides are swapped. *)
Theorem abs_at_zero : forall f t a, tracks f t a -> f t = 0 ->
  exists lo hi, left_derivative (fun s => Rabs (f s)) t lo /\ right_derivative (fun s => Rabs (f s)) t hi /\
  (0 <= dx a -> dabs PLeft a = Some (D 0 lo) /\ dabs PRight a = Some (D 0 hi)) /\ dabs PAverage a = Some (D 0 ((lo + hi) / 2)).
Proof.
  intros f t a F Z. assert (Z' : px a = 0) by (destruct F; congruence). exists (- Rabs (dx a)), (Rabs (dx a)). destruct (abs_sides f t a F Z') as [Ri Le].
  split; [exact Le|]. split; [exact Ri|]. unfold dabs. rewrite Z'. destruct (Req_EM_T 0 0); [|contradiction]. destruct (Rlt_dec 0 0); [lra|]. cbn. split.
  - intros H. rewrite Rabs_pos_eq by exact H. split; reflexivity.
  - do 2 f_equal. lra.
Qed.
Print Assumptions abs_at_zero.
Theorem abs_at_zero_refuted : forall f t a, tracks f t a -> f t = 0 -> dx a < 0 ->
  exists lo hi, left_derivative (fun s => Rabs (f s)) t lo /\ right_derivative (fun s => Rabs (f s)) t hi /\ lo < hi /\
  dabs PLeft a = Some (D 0 hi) /\ dabs PRight a = Some (D 0 lo).
Proof.
  intros f t a F Z N. assert (Z' : px a = 0) by (destruct F; congruence). exists (- Rabs (dx a)), (Rabs (dx a)). destruct (abs_sides f t a F Z') as [Ri Le].
  split; [exact Le|]. split; [exact Ri|]. rewrite Rabs_left by exact N. split; [lra|]. unfold dabs. rewrite Z'. destruct (Req_EM_T 0 0); [|contradiction]. destruct (Rlt_dec 0 0); [lra|].
  cbn. split; [reflexivity|]. now rewrite Ropp_involutive.
Qed.
Print Assumptions abs_at_zero_refuted.

(** ** Wrong rules *)
(** exp and tan return the negated derivative; scalar - dual does not negate. *)
Theorem exp_derivative_refuted : forall f t a l, tracks f t a -> derivable_pt_lim (fun s => exp (f s)) t l -> dexp a = D (exp (f t)) (- l).
Proof. intros f t a l F H. destruct (exp_wrong f t a l F H) as [X Y]. rewrite <- X, <- Y. reflexivity. Qed.
Print Assumptions exp_derivative_refuted.
Theorem tan_derivative_refuted : forall f t a l, tracks f t a -> cos (f t) <> 0 -> derivable_pt_lim (fun s => tan (f s)) t l -> dtan a = Some (D (tan (f t)) (- l)).
Proof. exact tan_wrong. Qed.
Print Assumptions tan_derivative_refuted.
Theorem scalar_minus_dual_refuted : forall f t a c l, tracks f t a -> derivable_pt_lim (fun s => c - f s) t l -> s_dsub c a = D (c - f t) (- l).
Proof. exact sdsub_wrong. Qed.
Print Assumptions scalar_minus_dual_refuted.
(** pow(dual, dual) is off by [dx base * base^xp * (1 - xp/base)], and NaN at exponent zero. *)
Theorem pow_derivative_refuted : forall f g t a b l, tracks f t a -> tracks g t b -> 0 < f t -> derivable_pt_lim (fun s => Rpower (f s) (g s)) t l ->
  (g t <> 0 -> dpow a b = Some (D (Rpower (f t) (g t)) (l + dx a * Rpower (f t) (g t) * (1 - g t / f t)))) /\ (g t = 0 -> dpow a b = None).
Proof. exact pow_wrong. Qed.
Print Assumptions pow_derivative_refuted.
(** pow(dual, n) is NaN at base zero although the power is differentiable there. *)
Theorem pow_at_zero_refuted : forall f t a (n : nat), tracks f t a -> f t = 0 -> (1 <= n)%nat ->
  dpow_s a (INR n) = None /\ exists l, derivable_pt_lim (fun s => f s ^ n) t l.
Proof. exact pows_zero_wrong. Qed.
Print Assumptions pow_at_zero_refuted.
(** Converting between policies replaces the value by the derivative; so do [max] and pow(scalar, dual) under any policy but the default. *)
Theorem policy_conversion_refuted : forall v w, convert (D v w) = D w w.
Proof. reflexivity. Qed.
Print Assumptions policy_conversion_refuted.
Theorem max_value_refuted : forall P a b, P <> PRight -> px a < px b -> dmax P a b = Some (D (dx b) (dx b)).
Proof. exact max_wrong_exact. Qed.
Print Assumptions max_value_refuted.
Theorem scalar_pow_value_refuted : forall P c a, P <> PRight -> 0 < c -> exists d, s_dpow P c a = Some d /\ px d = dx a * Rpower c (px a) * ln c.
Proof. intros P c a N H. rewrite (spow_wrong P c a N H). eexists. split; reflexivity. Qed.
Print Assumptions scalar_pow_value_refuted.
(** [x *= x] and [x /= x]. *)
Theorem dual_multiply_by_itself_refuted : forall st i f t, tracks f t (st i) ->
  mul_assign st i i i = D (f t * f t) (dx (st i) * (f t + f t * f t)) /\ derivable_pt_lim (fun s => f s * f s) t (2 * f t * dx (st i)).
Proof. intros st i f t F. destruct (mul_self_wrong st i f t F) as (X & Y & Z). split; [|exact Z]. destruct (mul_assign st i i i). cbn in X, Y. congruence. Qed.
Print Assumptions dual_multiply_by_itself_refuted.
Theorem dual_divide_by_itself_refuted : forall st i f t, tracks f t (st i) -> f t <> 0 ->
  (exists st', div_assign st i i = Some st' /\ px (st' i) = 1 /\ dx (st' i) = dx (st i) * (1 - f t)) /\ derivable_pt_lim (fun s => f s / f s) t 0.
Proof. exact div_self_wrong. Qed.
Print Assumptions dual_divide_by_itself_refuted.

(** ** Cases meeting the hypotheses *)
Example expression_case : exists (curve : nat -> R -> R) env, (forall i, tracks (curve i) 2 (env i)) /\
  let e := EDiv (ESin (EMul (EVar 0) (EVar 1))) (EAdd (ESqrt (EVar 0)) (EMax (EVar 1) (EAbs (EConst (-5))))) in
  smooth PRight e (fun i => curve i 2) /\ in_domain e (fun i => curve i 2).
Proof.
  exists (fun i s => match i with O => s | _ => s * s end), (fun i => match i with O => D 2 1 | _ => D 4 4 end). split.
  - intros [|i]; split; try (cbn; lra); [apply derivable_pt_lim_id|]. apply (d_eq _ _ _ _ (derivable_pt_lim_mult id id 2 1 1 (derivable_pt_lim_id _) (derivable_pt_lim_id _))). unfold id. cbn. lra.
  - cbn. rewrite Rabs_left by lra. repeat split; try lra. rewrite ?Ropp_involutive, Rmax_right by lra. pose proof (sqrt_pos 2). lra.
Qed.
Example program_case : exists (curve : nat -> R -> R) env p, (forall i, tracks (curve i) 3 (env i)) /\ length p = 4%nat /\
  smooth_run PLeft p (fun i => curve i 3) /\ in_domain_run p (fun i => curve i 3).
Proof.
  exists (fun _ s => s), (fun _ => D 3 1), [SMul 1 0; SAdd 1 1; SDiv 2 1; SSet 0 (ELog (EVar 0))]. split.
  - intros i. split; [reflexivity|apply derivable_pt_lim_id].
  - cbn. unfold puts. cbn. repeat split; try lra; try discriminate.
Qed.
