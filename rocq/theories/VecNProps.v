(** C54: N-dimensional vectors. *)
From Coq Require Import Reals Arith Lra Lia.
From Verif Require Import PerlinSpec VecNModel VecNSpec VecNProofs.
Open Scope R_scope.

(** dot is the inner product; it is bounded by the product of the lengths; mag is the Euclidean length. *)
Theorem dot_mag_spec N a b : dot N a b = inner N a b /\ mag N a = length N a /\ mag2 N a = inner N a a /\
  Rabs (dot N a b) <= mag N a * mag N b /\ (mag N a = 0 <-> all_zero N a).
Proof. rewrite !dot_is, !mag_is, mag2_is. repeat split; [apply cauchy|apply length_zero|apply length_zero]. Qed.
Print Assumptions dot_mag_spec.
(** dist is a metric. *)
Theorem dist_is_metric N a b c : 0 <= dist N a b /\ (dist N a b = 0 <-> same N a b) /\ dist N a b = dist N b a /\
  dist N a c <= dist N a b + dist N b c /\ dist2 N a b = dist N a b * dist N a b.
Proof. exact (dist_metric N a b c). Qed.
Print Assumptions dist_is_metric.
(** unit has length one and the direction of the vector; it fails exactly for the zero vector. *)
Theorem unit_spec N a : (unit_vec N a = None <-> all_zero N a) /\
  forall u, unit_vec N a = Some u -> length N u = 1 /\ 0 < length N a /\ same N a (fun i => length N a * u i).
Proof.
  split; [apply unit_none|]. intros u H. destruct (unit_length _ _ _ H) as [U D]. split; [exact U|]. split; [|exact D].
  apply unit_some in H as [Z _]. pose proof (length_nonneg N a). lra.
Qed.
Print Assumptions unit_spec.
(** project_on gives the nearest multiple of the axis; what is left is perpendicular to the axis. *)
Theorem project_on_spec N a axis : (exists s, same N (project_on N a axis) (fun i => s * axis i)) /\
  inner N (fun i => a i - project_on N a axis i) axis = 0 /\
  forall s, distance N a (project_on N a axis) <= distance N a (fun i => s * axis i).
Proof.
  split; [apply project_on_axis|]. split; [apply project_perp|]. intros s. rewrite <- !dist_is. apply project_nearest.
Qed.
Print Assumptions project_on_spec.
(** fraction_on is the multiple of the axis that project_on gives. *)
Theorem fraction_on_spec N a axis : (fraction_on N a axis = None <-> all_zero N axis) /\
  forall f, fraction_on N a axis = Some f -> same N (project_on N a axis) (fun i => f * axis i).
Proof. exact (fraction_spec N a axis). Qed.
Print Assumptions fraction_on_spec.
(** with_length(m) has length |m| and is a multiple, of the sign of m, of the vector; the zero vector is unchanged. *)
Theorem with_length_is N a m :
  (~ all_zero N a -> length N (with_length N a m) = Rabs m /\ same N (fun i => length N a * with_length N a m i) (fun i => m * a i)) /\
  (all_zero N a -> same N (with_length N a m) a).
Proof. split; [apply with_length_spec|apply with_length_zero]. Qed.
Print Assumptions with_length_is.
(** mix starts at the one vector, ends at the other, and moves at constant speed on the line between them. *)
Theorem mix_is_linear N a b : same N (vec_mix a b 0) a /\ same N (vec_mix a b 1) b /\
  (forall t, distance N a (vec_mix a b t) = Rabs t * distance N a b /\ distance N b (vec_mix a b t) = Rabs (1 - t) * distance N a b).
Proof.
  split; [intros i L; unfold vec_mix; ring|]. split; [intros i L; unfold vec_mix; ring|]. intros t. rewrite <- !dist_is. apply mix_spec.
Qed.
Print Assumptions mix_is_linear.
(** angle_to is the angle between the vectors: the only number in [0, pi] whose cosine is the normalised inner product. *)
Theorem angle_to_spec N a b : (angle_to N a b = None <-> all_zero N a \/ all_zero N b) /\
  forall t, angle_to N a b = Some t <->
    ~ all_zero N a /\ ~ all_zero N b /\ 0 <= t <= PI /\ cos t * (length N a * length N b) = inner N a b.
Proof.
  split; [apply angle_none|]. intros t. split.
  - intros H. assert (~ (all_zero N a \/ all_zero N b)) by (rewrite <- angle_none; congruence). apply angle_some in H. tauto.
  - intros (A & B & P & C). destruct (angle_to N a b) as [s|] eqn:E.
    + f_equal. now apply (angle_unique N a b).
    + apply angle_none in E. tauto.
Qed.
Print Assumptions angle_to_spec.
Theorem angle_to_symmetric N a b : angle_to N a b = angle_to N b a.
Proof. exact (angle_sym N a b). Qed.
Print Assumptions angle_to_symmetric.
(** Equality and zero tests. *)
Theorem vec_equality N a b : (vec_eq N a b = true <-> same N a b) /\ (is_zero N a = true <-> all_zero N a).
Proof. split; [apply vec_eq_spec|apply is_zero_spec]. Qed.
Print Assumptions vec_equality.
(** Smallest and largest element, and the first index of smallest and largest magnitude. *)
Theorem extreme_elements N a : (0 < N)%nat ->
  ((exists i, (i < N)%nat /\ min_elem N a = a i) /\ forall i, (i < N)%nat -> min_elem N a <= a i) /\
  ((exists i, (i < N)%nat /\ max_elem N a = a i) /\ forall i, (i < N)%nat -> a i <= max_elem N a).
Proof. intros P. split; [now apply min_elem_spec|now apply max_elem_spec]. Qed.
Print Assumptions extreme_elements.
Theorem extreme_indices N a : (0 < N)%nat ->
  ((argmax N a < N)%nat /\ (forall i, (i < N)%nat -> Rabs (a i) <= Rabs (a (argmax N a))) /\
    forall i, (i < argmax N a)%nat -> Rabs (a i) < Rabs (a (argmax N a))) /\
  ((argmin N a < N)%nat /\ (forall i, (i < N)%nat -> Rabs (a (argmin N a)) <= Rabs (a i)) /\
    forall i, (i < argmin N a)%nat -> Rabs (a (argmin N a)) < Rabs (a i)).
Proof. intros P. split; [now apply argmax_spec|now apply argmin_spec]. Qed.
Print Assumptions extreme_indices.
(** Element-wise min, max and clamp. *)
Theorem elementwise_min_max a b i : vec_min a b i = Rmin (a i) (b i) /\ vec_max a b i = Rmax (a i) (b i).
Proof.
  unfold vec_min, vec_max, std_min, std_max, Rmin, Rmax.
  destruct (Rlt_dec (b i) (a i)), (Rlt_dec (a i) (b i)), (Rle_dec (a i) (b i)); lra.
Qed.
Print Assumptions elementwise_min_max.
Theorem clamp_is_nearest a lo hi i : lo i <= hi i ->
  lo i <= vec_clamp a lo hi i <= hi i /\ (forall x, lo i <= x <= hi i -> Rabs (a i - vec_clamp a lo hi i) <= Rabs (a i - x)).
Proof. exact (clamp_spec a lo hi i). Qed.
Print Assumptions clamp_is_nearest.
(** With crossed bounds the upper one wins. *)
Theorem clamp_crossed a lo hi i : hi i < lo i -> vec_clamp a lo hi i = hi i.
Proof. intros H. unfold vec_clamp, std_min, std_max. destruct (Rlt_dec (a i) (lo i)), (Rlt_dec _ _); lra. Qed.
Print Assumptions clamp_crossed.
(** resized keeps the common elements and zeroes the new ones. *)
Theorem vec_resized_spec N M a i : (i < M)%nat -> ((i < N)%nat -> resized N M a i = a i) /\ ((N <= i)%nat -> resized N M a i = 0).
Proof. intros L. unfold resized. split; intros H; destruct (Nat.ltb_spec i (Nat.min M N)); (reflexivity || lia). Qed.
Print Assumptions vec_resized_spec.

(** The vector (3, -4) is not zero, has length 5 and a unit vector; its largest component by magnitude is the second. *)
Example nonzero_vector : let a := fun i => match i with O => 3 | 1%nat => -4 | _ => 0 end in
  ~ all_zero 2 a /\ length 2 a = 5 /\ (exists u, unit_vec 2 a = Some u) /\ argmax 2 a = 1%nat.
Proof.
  intros a. assert (~ all_zero 2 a) as Z by (intros H; specialize (H 0%nat ltac:(lia)); cbn in H; lra). split; [exact Z|]. split; [|split].
  - unfold length, inner. cbn. replace (_ + _ + _) with (Rsqr 5) by (unfold Rsqr; ring). apply sqrt_Rsqr. lra.
  - apply unit_defined. exists 0%nat. cbn. split; [lia|lra].
  - unfold argmax. cbn. unfold Rabs. destruct (Rcase_abs 3), (Rcase_abs (-4)); try lra. destruct (Rlt_dec 3 (- -4)); [reflexivity|lra].
Qed.
