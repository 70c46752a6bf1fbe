(** Lemmas for rays. *)
From Coq Require Import Reals Lra Lia Arith.
From Verif Require Import PerlinSpec PerlinProofs VecNModel VecNSpec VecNProofs RayModel RaySpec.
Open Scope R_scope.

Lemma at_distance_spec N r d : (at_distance N r d = None <-> all_zero N (direction r)) /\
  forall q, at_distance N r d = Some q -> distance N q (origin r) = Rabs d /\ on_line N r q /\ (0 <= d -> on_ray N r q).
Proof.
  unfold at_distance. destruct (unit_vec N (direction r)) as [u|] eqn:E.
  - split; [split; [discriminate|]; intros H; apply unit_none in H; congruence|]. intros q [= <-].
    pose proof (unit_length _ _ _ E) as [U _]. apply unit_some in E as [NZ D]. pose proof (length_nonneg N (direction r)) as P.
    assert (same N (vec_add (origin r) (vec_scale u d)) (fun i => origin r i + d / length N (direction r) * direction r i)) as Q.
    { intros i L. unfold vec_add, vec_scale. rewrite D. now field. }
    split; [|split].
    + unfold distance. rewrite (length_ext N _ (fun i => d * u i)) by (intros i L; unfold vec_add, vec_scale; ring).
      rewrite length_scale, U. ring.
    + eexists. exact Q.
    + intros Hd. eexists. split; [|exact Q]. apply Rmult_le_pos; [exact Hd|]. left. apply Rinv_0_lt_compat. lra.
  - split; [|discriminate]. apply unit_none in E. tauto.
Qed.
Lemma ray_project_line N r p : on_line N r (ray_project N r p).
Proof.
  destruct (project_on_axis N (vec_sub p (origin r)) (direction r)) as [s S]. exists s. intros i L.
  unfold ray_project, vec_add. rewrite S by exact L. ring.
Qed.
Lemma ray_project_nearest N r p q : on_line N r q -> distance N p (ray_project N r p) <= distance N p q.
Proof.
  intros [s S]. pose proof (project_nearest N (vec_sub p (origin r)) (direction r) s) as P. rewrite !dist_is in P. unfold distance in *.
  rewrite (length_ext N (fun i => p i - ray_project N r p i) (fun i => vec_sub p (origin r) i - project_on N (vec_sub p (origin r)) (direction r) i))
    by (intros i L; unfold ray_project, vec_add, vec_sub; ring).
  rewrite (length_ext N (fun i => p i - q i) (fun i => vec_sub p (origin r) i - s * direction r i)); [exact P|].
  intros i L. rewrite S by exact L. unfold vec_sub. ring.
Qed.
Lemma ray_project_perp N r p : inner N (fun i => p i - ray_project N r p i) (direction r) = 0.
Proof.
  rewrite <- (project_perp N (vec_sub p (origin r)) (direction r)). apply inner_ext; [|easy].
  intros i L. unfold ray_project, vec_add, vec_sub. ring.
Qed.
Lemma line_distance2_project N r p : line_distance2 N r p (Rsqr (distance N p (ray_project N r p))).
Proof.
  split; [eexists; split; [apply ray_project_line|reflexivity]|]. intros q H. apply Rsqr_incr_1; try apply length_nonneg.
  now apply ray_project_nearest.
Qed.
Lemma line_distance2_unique N r p x y : line_distance2 N r p x -> line_distance2 N r p y -> x = y.
Proof. intros [(q & Hq & ->) A] [(q' & Hq' & ->) B]. apply Rle_antisym; [now apply A|now apply B]. Qed.
Lemma residual2 N a axis : ~ all_zero N axis ->
  Rsqr (distance N a (project_on N a axis)) = inner N a a - inner N a axis * inner N a axis / inner N axis axis.
Proof.
  intros H. assert (inner N axis axis <> 0) as Z by (intros Q; now apply H, inner_zero). unfold distance, Rsqr. rewrite length_sq.
  set (k := inner N a axis / inner N axis axis).
  assert (same N (fun i => a i - project_on N a axis i) (fun i => 1 * a i + - k * axis i)) as E.
  { intros i L. rewrite project_spec by exact H. fold k. ring. }
  rewrite (inner_ext N _ _ _ _ E E), inner_comb. unfold k. now field.
Qed.
(** The true squared distance to the line. *)
Lemma line_distance2_is N r p : ~ all_zero N (direction r) -> let b := vec_sub p (origin r) in
  line_distance2 N r p (inner N b b - inner N b (direction r) * inner N b (direction r) / inner N (direction r) (direction r)).
Proof.
  intros H b. rewrite <- residual2 by exact H. pose proof (line_distance2_project N r p) as L.
  replace (distance N b (project_on N b (direction r))) with (distance N p (ray_project N r p)); [exact L|].
  unfold distance. apply length_ext. intros i K. unfold ray_project, vec_add, b, vec_sub. ring.
Qed.
Lemma line_distance2_zero N r p : all_zero N (direction r) -> let b := vec_sub p (origin r) in line_distance2 N r p (inner N b b).
Proof.
  intros H b. pose proof (line_distance2_project N r p) as L.
  replace (inner N b b) with (Rsqr (distance N p (ray_project N r p))); [exact L|].
  unfold distance, Rsqr. rewrite length_sq.
  assert (same N (fun i => p i - ray_project N r p i) b) as E; [|exact (inner_ext N _ _ _ _ E E)].
  intros i K. unfold ray_project, vec_add, b. pose proof (project_zero N (vec_sub p (origin r)) _ H i K) as E. cbv beta.
  rewrite E. unfold vec_sub. ring.
Qed.
Lemma ray_dist2_is N r p : let b := vec_sub p (origin r) in
  ray_dist2 N r p = if Req_EM_T (inner N b b) 0 then 0 else inner N b b - inner N b (direction r) * inner N b (direction r) / inner N b b.
Proof. intros b. unfold ray_dist2. fold b. rewrite mag2_is, dot_is, (inner_sym N (direction r) b). reflexivity. Qed.
Lemma inner_zero_l N a b : all_zero N a -> inner N a b = 0.
Proof. intros H. unfold inner. rewrite <- (rsum_zero N). apply rsum_ext. intros i L. rewrite H by exact L. ring. Qed.
Lemma ray_dist2_right N r p : let b := vec_sub p (origin r) in
  line_distance2 N r p (ray_dist2 N r p) <->
  inner N b b = 0 \/ inner N b (direction r) = 0 \/ inner N b b = inner N (direction r) (direction r).
Proof.
  intros b. rewrite ray_dist2_is. fold b. set (v := direction r).
  destruct (Req_EM_T (inner N v v) 0) as [Z|Z].
  - assert (all_zero N v) as AZ by now apply inner_zero. pose proof (line_distance2_zero N r p AZ) as T. cbv zeta in T. fold b in T.
    assert (inner N b v = 0) as BZ by (rewrite inner_sym; now apply inner_zero_l). rewrite BZ.
    split; [tauto|]. intros _. destruct (Req_EM_T _ _) as [E|E]; [rewrite <- E|]; [exact T|].
    replace (_ - _) with (inner N b b) by (now field). exact T.
  - assert (~ all_zero N v) as AZ by (intros Q; now apply Z, inner_zero).
    pose proof (line_distance2_is N r p AZ) as T. cbv zeta in T. fold b v in T.
    destruct (Req_EM_T (inner N b b) 0) as [E|E].
    + split; [tauto|]. intros _. replace 0 with (inner N b b - inner N b v * inner N b v / inner N v v); [exact T|].
      rewrite E, (inner_zero_l N b v) by now apply inner_zero. now field.
    + split.
      * intros H. pose proof (line_distance2_unique _ _ _ _ _ H T) as U. right.
        destruct (Req_EM_T (inner N b v) 0) as [D|D]; [tauto|right].
        assert (inner N b v * inner N b v / inner N b b = inner N b v * inner N b v / inner N v v) as W by lra.
        apply (f_equal (fun x => x * inner N b b * inner N v v / (inner N b v * inner N b v))) in W.
        assert (inner N v v = inner N b b) as X; [|now symmetry].
        transitivity (inner N b v * inner N b v / inner N b b * inner N b b * inner N v v / (inner N b v * inner N b v)); [now field|].
        rewrite W. now field.
      * intros [Q|[Q|Q]]; [tauto| |rewrite Q; rewrite Q in T; exact T].
        replace (inner N b b - _) with (inner N b b - inner N b v * inner N b v / inner N v v); [exact T|]. rewrite Q. now field.
Qed.
Lemma project_behind N r p : let b := vec_sub p (origin r) in inner N b (direction r) < 0 -> ~ on_ray N r (ray_project N r p).
Proof.
  intros b H [s [P S]]. pose proof (ray_project_perp N r p) as Q. fold b in Q.
  rewrite (inner_ext N _ (fun i => 1 * b i + - s * direction r i) _ (direction r)) in Q; [|intros i L; rewrite S by exact L; unfold b, vec_sub; ring|easy].
  rewrite inner_lin in Q. pose proof (inner_nonneg N (direction r)). nra.
Qed.
Lemma project_ahead N r p : let b := vec_sub p (origin r) in 0 <= inner N b (direction r) -> on_ray N r (ray_project N r p).
Proof.
  intros b H. destruct (Req_EM_T (inner N (direction r) (direction r)) 0) as [Z|Z].
  - exists 0. split; [lra|]. intros i L. unfold ray_project, vec_add. rewrite project_zero by (assumption || now apply inner_zero). ring.
  - assert (~ all_zero N (direction r)) as AZ by (intros Q; now apply Z, inner_zero).
    exists (inner N b (direction r) / inner N (direction r) (direction r)). pose proof (inner_nonneg N (direction r)). split.
    + apply Rmult_le_pos; [exact H|]. left. apply Rinv_0_lt_compat. lra.
    + intros i L. unfold ray_project, vec_add. fold b. rewrite project_spec by exact AZ. ring.
Qed.
