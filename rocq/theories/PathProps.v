From Coq Require Import Reals ZArith List Lra Lia.
From Verif Require Import VecNModel RayModel PathModel PathSpec PathProofs.
Open Scope R_scope.

(** Evaluation is defined exactly for parameters above -1 and below 2^64. *)
Theorem path_eval_defined knots t : (exists v, path_eval knots t = Some v) <-> in_domain t.
Proof.
  split; [|apply eval_in]. intros [v H]. destruct (Rlt_dec (-1) t); [destruct (Rlt_dec t (IZR (2 ^ 64)))|]; [now split| |];
    rewrite eval_out in H by (unfold in_domain; lra); discriminate.
Qed.
Print Assumptions path_eval_defined.
(** The code provides for every t < 0 by continuing the first tangent line, but for t <= -1 behaviour is undefined before that. *)
Theorem path_extrapolate_refuted knots t : t <= -1 -> path_eval knots t = None.
Proof. intros H. apply eval_out. unfold in_domain. lra. Qed.
Print Assumptions path_extrapolate_refuted.
(** A path without knots is the origin. *)
Theorem path_empty t i : in_domain t -> exists v, path_eval nil t = Some v /\ v i = 0.
Proof. intros D. exists (fun _ => 0). split; [now apply eval_empty|reflexivity]. Qed.
Print Assumptions path_empty.
(** The curve passes through knot k at t = k. *)
Theorem path_through_knots knots k r i : nth_error knots k = Some r -> in_domain (INR k) -> coord knots i (INR k) = origin r i.
Proof.
  intros H D. assert (L : (k < length knots)%nat) by (apply nth_error_Some; congruence).
  rewrite coord_fj; [|destruct knots; [cbn in L; lia|congruence]|trivial].
  rewrite fj_knot by (trivial; lia). now rewrite (nth_kn _ _ _ H).
Qed.
Print Assumptions path_through_knots.
(** The curve is twice continuously differentiable on its whole domain; at every knot its velocity is the knot's tangent and its
    acceleration is zero. *)
Theorem path_smooth knots : exists vel acc, C2_curve knots vel acc /\
  forall k r i, nth_error knots k = Some r -> vel (INR k) i = direction r i /\ acc (INR k) i = 0.
Proof.
  exists (vel knots), (acc knots). split; [apply curve_C2|]. intros k r i H.
  assert (L : (k < length knots)%nat) by (apply nth_error_Some; congruence). destruct knots as [|a l] eqn:K; [cbn in L; lia|].
  unfold vel, acc. rewrite <- K in *. rewrite !fj_knot by (trivial; lia). rewrite (nth_kn _ _ _ H). split; reflexivity.
Qed.
Print Assumptions path_smooth.
(** Between knots k and k+1 the curve point lies between the points of the two tangent lines, weighted by 6s^5 - 15s^4 + 10s^3. *)
Theorem path_between knots k r0 r1 t : nth_error knots k = Some r0 -> nth_error knots (S k) = Some r1 ->
  INR k <= t <= INR k + 1 -> in_domain t ->
  let s := t - INR k in
  exists v, path_eval knots t = Some v /\
    between (fun i => origin r0 i + s * direction r0 i) (fun i => origin r1 i - (1 - s) * direction r1 i) v /\
    forall i, v i = (1 - (6 * s ^ 5 - 15 * s ^ 4 + 10 * s ^ 3)) * (origin r0 i + s * direction r0 i) +
                    (6 * s ^ 5 - 15 * s ^ 4 + 10 * s ^ 3) * (origin r1 i - (1 - s) * direction r1 i).
Proof.
  intros H0 H1 T D s. assert (L : (S k < length knots)%nat) by (apply nth_error_Some; congruence).
  destruct (eval_in knots t D) as [v E]. exists v. split; trivial.
  assert (Ez : ease s = 6 * s ^ 5 - 15 * s ^ 4 + 10 * s ^ 3) by (unfold ease; ring).
  assert (V : forall i, v i = (1 - ease s) * (origin r0 i + s * direction r0 i) + ease s * (origin r1 i - (1 - s) * direction r1 i)).
  { intros i. destruct (Req_dec t (INR k + 1)) as [Q|Q].
    - assert (C : coord knots i t = v i) by (unfold coord; now rewrite E).
      rewrite Q, <- S_INR in C, D. rewrite (path_through_knots knots (S k) r1) in C by trivial. rewrite <- C.
      assert (s = 1) as -> by (unfold s; lra). rewrite ease_1. ring.
    - destruct (eval_seg knots k t L ltac:(lra) D) as (w & Ew & W). rewrite E in Ew. injection Ew as <-. rewrite W. fold s.
      rewrite (nth_kn _ _ _ H0), (nth_kn _ _ _ H1). unfold at_multiple, vec_add, vec_scale. ring. }
  split; [|intros i; rewrite <- Ez; apply V].
  exists (ease s). split; [apply ease_range; unfold s; lra|apply V].
Qed.
Print Assumptions path_between.
(** Before the first knot and after the last the curve continues the tangent line. *)
Theorem path_before knots r t i : nth_error knots 0 = Some r -> -1 < t <= 0 -> coord knots i t = origin r i + t * direction r i.
Proof.
  intros H T. destruct (eval_before knots t) as (v & E & V); trivial; [destruct knots; discriminate|].
  unfold coord. rewrite E, V, (nth_kn _ _ _ H). unfold at_multiple, vec_add, vec_scale. ring.
Qed.
Print Assumptions path_before.
Theorem path_after knots r k t i : nth_error knots k = Some r -> length knots = S k -> INR k <= t -> in_domain t ->
  coord knots i t = origin r i + (t - INR k) * direction r i.
Proof.
  intros H L T D. destruct (eval_after knots t) as (v & E & V); trivial; [destruct knots; discriminate|rewrite L; now replace (S k - 1)%nat with k by lia|].
  rewrite L in V. replace (S k - 1)%nat with k in V by lia.
  unfold coord. rewrite E, V, (nth_kn _ _ _ H). unfold at_multiple, vec_add, vec_scale. ring.
Qed.
Print Assumptions path_after.
(** Appending a knot leaves the curve up to the previous last knot unchanged, and the new knot is the last. *)
Theorem path_append knots p v : nth_error (append_knot knots p v) (length knots) = Some (mkRay p v) /\
  (knots <> nil -> forall t i, t <= INR (length knots - 1) -> in_domain t -> coord (append_knot knots p v) i t = coord knots i t).
Proof.
  split; [|intros; now apply eval_append]. unfold append_knot. rewrite nth_error_app2 by lia. now rewrite Nat.sub_diag.
Qed.
Print Assumptions path_append.
(** The hypotheses are satisfiable: two knots, and the middle of the segment between them. *)
Example path_example :
  let ks := mkRay (fun _ => 0) (fun _ => 1) :: mkRay (fun _ => 10) (fun _ => 2) :: nil in
  in_domain (1/2) /\ coord ks 0 (1/2) = 19/4.
Proof.
  intros ks. assert (D : in_domain (1/2)). { split; [lra|]. apply Rlt_trans with 1; [lra|]. apply IZR_lt. reflexivity. }
  split; trivial. destruct (path_between ks 0 (mkRay (fun _ => 0) (fun _ => 1)) (mkRay (fun _ => 10) (fun _ => 2)) (1/2)) as (v & E & _ & V); trivial; [cbn; lra|].
  unfold coord. rewrite E, V. cbn. lra.
Qed.
