(** Property C78: sampling of regions and permutation (RandomTools.h). *)
From Coq Require Import List Reals Arith Lra Lia Permutation.
From Verif Require Import Vec3Model Vec2Model VecNModel Ord RectModel SamplerModel VecNSpec GeoSpec SamplerSpec SamplerProofs.
Import ListNotations.
Open Scope R_scope.

(** permute() rearranges; and every arrangement comes from exactly one sequence of choices, so all are equally likely. *)
Theorem permute_rearranges {A} c (l : list A) : choices (List.length l) c -> exists l', permute c l = Some l' /\ Permutation l l'.
Proof. exact (permute_ok c l). Qed.
Print Assumptions permute_rearranges.
Theorem permute_uniform {A} (l l' : list A) : NoDup l -> Permutation l l' ->
  exists c, choices (List.length l) c /\ permute c l = Some l' /\
    forall c', choices (List.length l) c' -> permute c' l = Some l' -> forall i, (i < List.length l)%nat -> c' i = c i.
Proof. exact (permute_uniform_ok l l'). Qed.
Print Assumptions permute_uniform.

(** solidball() returns the first of the successive random points of the cube that lies in the ball. *)
Theorem ball_first_inside u N fuel k v k' : solidball u N fuel k = Some (v, k') <->
  exists t, (t < fuel)%nat /\ v = cube_point u N (k + t * N) /\ length N v <= 1 /\
    (forall s, (s < t)%nat -> 1 < length N (cube_point u N (k + s * N))) /\ k' = (k + (t + 1) * N)%nat.
Proof. exact (solidball_iff u N fuel k v k'). Qed.
Print Assumptions ball_first_inside.
Theorem cube_points u N k i : (i < N)%nat -> cube_point u N k i = 2 * u (k + i)%nat - 1.
Proof. intros H. unfold cube_point, rand_in. destruct (Nat.ltb_spec i N); [ring|lia]. Qed.
Print Assumptions cube_points.
(** unit() returns the direction of that point. *)
Theorem sphere_direction u N fuel k v : sample_unit u N fuel k = Some v ->
  length N v = 1 /\ exists p k', solidball u N fuel k = Some (p, k') /\ same N p (fun i => length N p * v i).
Proof. exact (sphere_ok u N fuel k v). Qed.
Print Assumptions sphere_direction.
Theorem sphere_radius_length u N fuel k r v : sample_unit_radius u N fuel k r = Some v -> length N v = Rabs r.
Proof. exact (sphere_radius u N fuel k r v). Qed.
Print Assumptions sphere_radius_length.
(** The center is not excluded: then the result is not a number. *)
Theorem sphere_center_refuted u N fuel k : (forall i, u i = 1 / 2) -> sample_unit u N (S fuel) k = None /\ exists p k', solidball u N (S fuel) k = Some (p, k').
Proof.
  intros H. split; [exact (sphere_halves u N fuel k H)|]. exists (cube_point u N k), (k + N)%nat. apply solidball_iff. exists 0%nat.
  rewrite Nat.mul_0_l, Nat.add_0_r. replace (length N (cube_point u N k)) with 0; [repeat split; try lia; lra|].
  symmetry. apply VecNProofs.length_zero. intros i Hi. rewrite cube_points by exact Hi. rewrite H. lra.
Qed.
Print Assumptions sphere_center_refuted.

(** solidball(radius) stays in the ball. *)
Theorem ball_radius_inside u N fuel k r w : (0 < N)%nat -> unit_numbers u -> solidball_radius u N fuel k r = Some w ->
  length N w <= Rabs r /\ exists v k', solidball u N fuel (k + 1) = Some (v, k') /\ w = ball_scaled N v (u k) r.
Proof. exact (ball_radius_ok u N fuel k r w). Qed.
Print Assumptions ball_radius_inside.
(** But it scales a uniform sample of the ball once more: if the share of the numbers below s^N and of the ball samples within s are both the
    s^N of a uniform distribution, then more than that share of the results lies within s * radius. *)
Theorem ball_radius_uniform_refuted N s r us bs (dec1 : forall x : R, {x <= s ^ N} + {~ x <= s ^ N}) (dec2 : forall b, {shorter N s b} + {~ shorter N s b})
  (dec3 : forall p : R * vec, {shorter N (s * r) (ball_scaled N (snd p) (fst p) r)} + {~ shorter N (s * r) (ball_scaled N (snd p) (fst p) r)}) :
  (0 < N)%nat -> 0 < s < 1 -> 0 < r -> us <> [] -> bs <> [] -> Forall (fun x => 0 <= x <= 1) us -> Forall (fun b => length N b <= 1) bs ->
  share (fun x => x <= s ^ N) dec1 us = s ^ N -> share (shorter N s) dec2 bs = s ^ N ->
  s ^ N < share (fun p => shorter N (s * r) (ball_scaled N (snd p) (fst p) r)) dec3 (list_prod us bs).
Proof. exact (ball_crowded N s r us bs dec1 dec2 dec3). Qed.
Print Assumptions ball_radius_uniform_refuted.

(** shell(minradius, maxradius): lengths in range; the radius has the right distribution if minradius is 0. *)
Theorem shell_inside u N fuel k lo hi w : (0 < N)%nat -> unit_numbers u -> 0 <= lo <= hi -> 0 < hi -> shell u N fuel k lo hi = Some w -> lo <= length N w <= hi.
Proof. exact (shell_ok u N fuel k lo hi w). Qed.
Print Assumptions shell_inside.
Theorem shell_uniform u N fuel k hi w t : (0 < N)%nat -> unit_numbers u -> 0 < hi -> 0 <= t -> shell u N fuel k 0 hi = Some w -> (length N w <= t <-> u k <= t ^ N / hi ^ N).
Proof. exact (shell_quantile u N fuel k hi w t). Qed.
Print Assumptions shell_uniform.
(** Otherwise an inner layer is never sampled. *)
Theorem shell_uniform_refuted N lo hi : (1 < N)%nat -> 0 < lo < hi -> exists m, lo < m <= hi /\ forall u fuel k w, unit_numbers u -> shell u N fuel k lo hi = Some w -> m <= length N w.
Proof. exact (shell_gap N lo hi). Qed.
Print Assumptions shell_uniform_refuted.

(** box(lo, hi) and box(rect): in the box, each coordinate evenly distributed. *)
Theorem box_inside u lo hi k i : unit_numbers u -> lo i <= hi i -> lo i <= sample_box_in u lo hi k i <= hi i.
Proof. exact (box_ok u lo hi k i). Qed.
Print Assumptions box_inside.
Theorem box_uniform u lo hi k i t : lo i < hi i -> (sample_box_in u lo hi k i <= t <-> u (k i) <= (t - lo i) / (hi i - lo i)).
Proof. exact (rand_in_quantile (lo i) (hi i) (u (k i)) t). Qed.
Print Assumptions box_uniform.
Theorem rect_samples u (b : @rect R_ord) k i : sample_rect u b k i = sample_box_in u (lo b) (hi b) k i /\ sample_box u k i = sample_box_in u (fun _ => 0) (fun _ => 1) k i.
Proof. split; [reflexivity|]. unfold sample_box, sample_box_in, rand_in. ring. Qed.
Print Assumptions rect_samples.

(** cap(half_angle): on the unit sphere, within the angle of the z axis, with probabilities proportional to areas. *)
Theorem cap_on_sphere u a k : unit_numbers u -> is_unit (cap u a k) /\ cos a <= vz (cap u a k).
Proof. intros U. split; [exact (cap_unit u a k U)|exact (proj1 (proj1 (cap_height_range u a k U)))]. Qed.
Print Assumptions cap_on_sphere.
Theorem cap_uniform u a k b : unit_numbers u -> 0 < a <= PI -> 0 <= b <= PI -> (acos (vz (cap u a k)) <= b <-> 1 - u k <= cap_area b / cap_area a).
Proof. exact (cap_quantile u a k b). Qed.
Print Assumptions cap_uniform.
(** cap(dir, half_angle): within the angle of [dir], unless [dir] is along the negative z axis. *)
Theorem cap_about_direction u dir a k : unit_numbers u -> is_unit (cap_about u dir a k) /\ (~ points_down dir -> cos a * mag3 dir <= dot3 (cap_about u dir a k) dir).
Proof. exact (cap_about_ok u dir a k). Qed.
Print Assumptions cap_about_direction.
(** Turning the sample to [dir] keeps its height over the pole, so the distribution is that of cap(half_angle). *)
Theorem cap_about_height u dir a k : ~ points_down dir -> dot3 (cap_about u dir a k) dir = vz (cap u a k) * mag3 dir.
Proof. exact (proj1 (proj2 (turn_ok dir (cap u a k)))). Qed.
Print Assumptions cap_about_height.
(** For the negative z axis the cap is on the opposite side. *)
Theorem cap_about_down_refuted u dir a k : unit_numbers u -> points_down dir -> dot3 (cap_about u dir a k) dir <= - cos a * mag3 dir.
Proof. exact (cap_about_down u dir a k). Qed.
Print Assumptions cap_about_down_refuted.
(** solidcap: as for cap and shell. *)
Theorem solidcap_inside u dir a lo hi k : unit_numbers u -> 0 <= lo <= hi -> 0 < hi -> exists w, solidcap u dir a lo hi k = Some w /\
  lo <= mag3 w <= hi /\ (~ points_down dir -> cos a * (mag3 w * mag3 dir) <= dot3 w dir).
Proof. exact (solidcap_ok u dir a lo hi k). Qed.
Print Assumptions solidcap_inside.
Theorem solidcap_uniform_refuted dir a lo hi : 0 < lo < hi -> exists m, lo < m <= hi /\ forall u k w, unit_numbers u -> solidcap u dir a lo hi k = Some w -> m <= mag3 w.
Proof. exact (solidcap_gap dir a lo hi). Qed.
Print Assumptions solidcap_uniform_refuted.

(** disk(), disk(radius) and oriented_disk(normal, r). *)
Theorem disk_inside u fuel k v : disk u fuel k = Some v -> length 2 v <= 1.
Proof. exact (disk_ok u fuel k v). Qed.
Print Assumptions disk_inside.
Theorem disk_scaled u fuel k r v : disk_radius u fuel k r = Some v -> exists p, disk u fuel k = Some p /\ same 2 v (fun i => r * p i) /\ length 2 v <= Rabs r.
Proof. exact (disk_radius_ok u fuel k r v). Qed.
Print Assumptions disk_scaled.
Theorem oriented_disk_perpendicular u fuel k n r w : oriented_disk u fuel k n r = Some w ->
  dot3 w n = 0 /\ mag3 w <= Rabs r /\ exists d, disk_radius u fuel k r = Some d /\ mag3 w = length 2 d.
Proof. exact (oriented_disk_ok u fuel k n r w). Qed.
Print Assumptions oriented_disk_perpendicular.
(** arc: a unit vector at an angle evenly distributed in the range. *)
Theorem arc_in_range u lo hi k : unit_numbers u -> lo <= hi -> exists a, lo <= a <= hi /\ arc u lo hi k = V2 (cos a) (sin a) /\ mag_2 (arc u lo hi k) = 1 /\
  (lo < hi -> forall t, a <= t <-> u k <= (t - lo) / (hi - lo)).
Proof. exact (arc_ok u lo hi k). Qed.
Print Assumptions arc_in_range.
(** solidarc exchanges the two polar coordinates: the angle becomes the length, and the length the angle. *)
Theorem solidarc_refuted u lo hi r0 r1 k : unit_numbers u -> lo <= hi -> 0 <= r0 <= r1 -> 0 < r1 ->
  exists w a l, solidarc u lo hi r0 r1 k = Some w /\ lo <= a <= hi /\ sqrt (r0 * r1) <= l <= r1 /\ (u (k + 1)%nat = 0 -> l = sqrt (r0 * r1)) /\
    w = V2 (a * cos l) (a * sin l) /\ mag_2 w = Rabs a.
Proof. exact (solidarc_is u lo hi r0 r1 k). Qed.
Print Assumptions solidarc_refuted.

(** The hypotheses can be met. *)
Example permute_hypotheses : choices 3 (fun _ => 0%nat) /\ permute (fun i => match i with O => 2 | _ => 0 end)%nat [1; 2; 3]%nat = Some [3; 2; 1]%nat.
Proof. split; [intros i Hi; lia|reflexivity]. Qed.
Example ball_hypotheses : solidball (fun k => if (k <? 2)%nat then 1 else 1 / 2) 2 2 0 = Some (cube_point (fun k => if (k <? 2)%nat then 1 else 1 / 2) 2 2, 4%nat).
Proof.
  apply ball_first_inside. exists 1%nat. repeat split; try lia.
  - unfold length, inner. cbn. unfold rand_in. cbn. replace (0 + _ + _) with 0 by lra. rewrite sqrt_0. lra.
  - intros s Hs. replace s with 0%nat by lia. unfold length, inner. cbn. unfold rand_in. cbn. rewrite <- sqrt_1 at 1. apply sqrt_lt_1; lra.
Qed.
Example share_hypotheses (dec : forall x, {x <= (1 / 2) ^ 1} + {~ x <= (1 / 2) ^ 1}) : share (fun x => x <= (1 / 2) ^ 1) dec [1 / 4; 1] = (1 / 2) ^ 1.
Proof. unfold share. cbn [filter]. destruct (dec (1 / 4)); [|lra]. destruct (dec 1); [lra|]. cbn. lra. Qed.
Example direction_hypotheses : points_down (V3 0 0 (-1)) /\ ~ points_down (V3 1 0 (-1)).
Proof. unfold points_down. cbn. split; [repeat split; lra|lra]. Qed.
