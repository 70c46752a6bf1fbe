From Coq Require Import Reals ZArith Lia Lra Bool.
From Flocq Require Import Core BinarySingleNaN.
From Verif Require Import FmaModel FmaSpec FmaProofs FquadModel FquadSpec FquadProofs FquadMore FvecModel FvecSpec FvecProofs FvecMore FvecAcc FboxModel FboxSpec FsphModel FsphWit FsrModel FsrSpec.
Open Scope R_scope.
Notation pw := (bpow radix2).
Notation float := (binary_float 53 1024).
Definition shown (o : option (float * float)) := option_map (fun p => (B2SF (fst p), B2SF (snd p))) o.
Lemma shown_some o x y : shown o = Some (B2SF x, B2SF y) -> o = Some (x, y).
Proof. destruct o as [(a & b)|]; [|discriminate]. intros H. injection H as H1 H2. apply B2SF_inj in H1. apply B2SF_inj in H2. now rewrite H1, H2. Qed.
Lemma ray_dist2_2 (c o d : nat -> float) t : ray_dist2 2 c o d t = (B2R (c 0%nat) - (B2R (o 0%nat) + t * B2R (d 0%nat))) * (B2R (c 0%nat) - (B2R (o 0%nat) + t * B2R (d 0%nat))) + (B2R (c 1%nat) - (B2R (o 1%nat) + t * B2R (d 1%nat))) * (B2R (c 1%nat) - (B2R (o 1%nat) + t * B2R (d 1%nat))).
Proof. unfold ray_dist2. cbn [total]. ring. Qed.
Lemma tiny_direction : let s := fl_mkSphere origin (dbl 1 0) in let o := vector2 (dbl 1 (-1)) (dbl 0 0) in let d := vector2 (dbl 1 (-600)) (dbl 0 0) in
  fl_sphere_contains 2 s o = true /\ B2R (d 0%nat) = pw (-600) /\ exists x, fl_sphere_ray 2 s o d = Some (x, x) /\ is_finite x = true /\ B2R x = 3 * pw 599.
Proof.
  intros s o d. split; [vm_compute; reflexivity|]. split; [apply (dbl_pow (-600)); lia|]. exists (dbl 3 599). split; [apply shown_some; vm_compute; reflexivity|]. apply (dbl_runs 3 599); lia.
Qed.
Lemma huge_product : let s := fl_mkSphere origin (dbl 1 500) in let o := origin in let d := vector2 (dbl 1 30) (dbl 0 0) in
  fl_sphere_contains 2 s o = true /\ B2R (fl_radius s) = pw 500 /\ B2R (d 0%nat) = pw 30 /\ exists l h, fl_sphere_ray 2 s o d = Some (l, h) /\ is_nan l = true /\ is_nan h = true.
Proof.
  intros s o d. split; [vm_compute; reflexivity|]. split; [apply (dbl_pow 500); lia|]. split; [apply (dbl_pow 30); lia|]. exists B754_nan, B754_nan. split; [apply shown_some; vm_compute; reflexivity|]. split; reflexivity.
Qed.
Lemma far_miss : let s := fl_mkSphere origin (dbl 1 0) in let o := vector2 (dbl (-1) 30) (dbl 10 0) in let d := vector2 (dbl 1 0) (dbl 0 0) in
  B2R (fl_radius s) = 1 /\ (forall t, 100 <= ray_dist2 2 (fl_center s) o d t) /\ exists x, fl_sphere_ray 2 s o d = Some (x, x) /\ is_finite x = true /\ B2R x = pw 30.
Proof.
  intros s o d. destruct (dbl_int 0 ltac:(lia)) as (F0 & V0). destruct (dbl_int 1 ltac:(lia)) as (F1 & V1). destruct (dbl_int 10 ltac:(lia)) as (F3 & V3). split; [exact V1|]. split.
  - intros t. rewrite ray_dist2_2. unfold s, o, d. cbn [fl_center vector2]. rewrite V0, V3. set (y := B2R (dbl (-1) 30) + _). pose proof (Rle_0_sqr (0 - y)) as Q. unfold Rsqr in Q. lra.
  - exists (dbl 1 30). split; [apply shown_some; vm_compute; reflexivity|]. destruct (dbl_runs 1 30 ltac:(lia) ltac:(lia)) as (F & V). split; [exact F|]. rewrite V. ring.
Qed.
(** Satisfiable hypotheses: from (2, 0), a ray through the center (3, -2), and one perpendicular to it. *)
Lemma coef_value (x : float) m : (Z.abs m < 2 ^ 53)%Z -> B2SF x = B2SF (dbl m 0) -> is_finite x = true /\ B2R x = IZR m.
Proof. intros L H. apply B2SF_inj in H. subst x. now apply dbl_int. Qed.
Lemma finite_coefficients (a b c : float) x y z : is_finite a = true /\ B2R a = IZR x -> is_finite b = true /\ B2R b = IZR y -> is_finite c = true /\ B2R c = IZR z ->
  (Z.abs x <= 100)%Z -> (Z.abs y <= 100)%Z -> (Z.abs z <= 100)%Z -> (x * z <> 0)%Z -> coefficients_ok a b c.
Proof.
  intros (Fa & Va) (Fb & Vb) (Fc & Vc) X Y Z NZ. unfold coefficients_ok. rewrite Va, Vb, Vc, <- !mult_IZR, <- !abs_IZR.
  assert (H : forall n e, (Z.abs n <= 2 ^ 16)%Z -> (16 < e)%Z -> IZR (Z.abs n) < pw e). { intros n e N E. apply Rle_lt_trans with (IZR (2 ^ 16)); [now apply IZR_le|]. change (IZR (2 ^ 16)) with (pw 16). now apply bpow_lt. }
  assert (X1 : (-100 <= x <= 100)%Z) by lia. assert (Y1 : (-100 <= y <= 100)%Z) by lia. assert (Z1 : (-100 <= z <= 100)%Z) by lia.
  split; [exact Fa|]. split; [exact Fb|]. split; [exact Fc|]. split; [apply H; lia|]. split; [left; apply H; [change (2 ^ 16)%Z with 65536%Z; nia|lia]|]. split; [left; apply H; [change (2 ^ 16)%Z with 65536%Z; nia|lia]|]. right.
  apply Rle_trans with (pw 0); [apply bpow_le; unfold emin; lia|]. change (pw 0) with (IZR 1). apply IZR_le. lia.
Qed.
Lemma safe_small (x y : Z) : (0 < Z.abs x <= 100)%Z -> (0 < Z.abs y <= 100)%Z -> forall v : nat -> float, (is_finite (v 0%nat) = true /\ B2R (v 0%nat) = IZR x) -> (is_finite (v 1%nat) = true /\ B2R (v 1%nat) = IZR y) -> safe_vector 2 v.
Proof.
  intros X Y v (F0 & V0) (F1 & V1). assert (X2 : (1 <= x * x <= 10000)%Z) by nia. assert (Y2 : (1 <= y * y <= 10000)%Z) by nia.
  assert (L : forall n, (1 <= n)%Z -> pw (emin 53 1024 + 53 - 1) <= IZR n). { intros n H. apply Rle_trans with (pw 0); [apply bpow_le; unfold emin; lia|]. change (pw 0) with (IZR 1). now apply IZR_le. }
  split.
  - intros [|[|i]] I; [| |lia].
    + split; [exact F0|]. right. rewrite V0, <- mult_IZR. apply L. lia.
    + split; [exact F1|]. right. rewrite V1, <- mult_IZR. apply L. lia.
  - unfold exact_dot. cbn [total]. rewrite V0, V1, Rplus_0_l, <- !mult_IZR, <- plus_IZR. apply Rle_trans with (IZR (2 ^ 15)); [apply IZR_le; change (2 ^ 15)%Z with 32768%Z; lia|]. change (IZR (2 ^ 15)) with (pw 15). apply bpow_le. lia.
Qed.
Lemma step_small : step 53 ^ 7 - 1 <= / 100.
Proof.
  assert (S : 0 <= step 53 <= 1025 / 1024). { unfold step. pose proof (bpow_gt_0 radix2 (- (53))). assert (pw (- (53)) <= pw (-10)) by (apply bpow_le; lia). change (pw (-10)) with (/ 1024) in *. lra. }
  pose proof (pow_incr (step 53) (1025 / 1024) 7 S). lra.
Qed.
Lemma ray_hit_example : let s := fl_mkSphere (vector2 (dbl 3 0) (dbl (-2) 0)) (dbl 3 0) in let o := vector2 (dbl 2 0) (dbl 0 0) in let d := vector2 (dbl 1 0) (dbl (-2) 0) in
  safe_vector 2 d /\ safe_vector 2 (fl_vsub 53 1024 (fl_center s) o) /\ coefficients_ok (fl_ray_a 2 d) (fl_ray_b 2 s o d) (fl_ray_c 2 s o) /\ 0 < B2R (fl_ray_a 2 d) /\ fl_sphere_contains 2 s o = true /\
  is_finite (fl_mul 53 1024 (fl_mul 53 1024 (fl_lit 53 1024 4 0) (fl_ray_a 2 d)) (fl_ray_c 2 s o)) = true /\
  ray_dist2 2 (fl_center s) o d 1 + 6 * (step 53 ^ 7 - 1) * (exact_dist2 2 (fl_center s) o + B2R (fl_radius s) * B2R (fl_radius s)) <= B2R (fl_radius s) * B2R (fl_radius s).
Proof.
  intros s o d. destruct (dbl_int 3 ltac:(lia)) as (F3 & V3). destruct (dbl_int 2 ltac:(lia)) as (F2 & V2). destruct (dbl_int (-2) ltac:(lia)) as (F1 & V1). destruct (dbl_int 0 ltac:(lia)) as (F0 & V0). destruct (dbl_int 1 ltac:(lia)) as (F5 & V5).
  split; [apply (safe_small 1 (-2)); (lia || (split; assumption))|]. split; [apply (safe_small 1 (-2)); [lia|lia| |]; apply coef_value; (lia || (vm_compute; reflexivity))|].
  split; [apply (finite_coefficients _ _ _ 5 (-10) (-4)); try lia; apply coef_value; (lia || (vm_compute; reflexivity))|].
  split; [destruct (coef_value (fl_ray_a 2 d) 5 ltac:(lia) ltac:(vm_compute; reflexivity)) as (_ & V); rewrite V; lra|]. split; [vm_compute; reflexivity|]. split; [vm_compute; reflexivity|].
  rewrite ray_dist2_2, dist2_2. unfold s, o, d. cbn [fl_center fl_radius vector2]. rewrite V0, V1, V2, V3, V5. pose proof step_small. lra.
Qed.
Lemma ray_miss_example : let s := fl_mkSphere (vector2 (dbl 3 0) (dbl (-2) 0)) (dbl 1 0) in let o := vector2 (dbl 2 0) (dbl 0 0) in let d := vector2 (dbl 2 0) (dbl 1 0) in
  safe_vector 2 d /\ safe_vector 2 (fl_vsub 53 1024 (fl_center s) o) /\ coefficients_ok (fl_ray_a 2 d) (fl_ray_b 2 s o d) (fl_ray_c 2 s o) /\ fl_sphere_contains 2 s o = false /\
  forall t, B2R (fl_radius s) * B2R (fl_radius s) + 6 * (step 53 ^ 7 - 1) * (exact_dist2 2 (fl_center s) o + B2R (fl_radius s) * B2R (fl_radius s)) < ray_dist2 2 (fl_center s) o d t.
Proof.
  intros s o d. destruct (dbl_int 3 ltac:(lia)) as (F3 & V3). destruct (dbl_int 2 ltac:(lia)) as (F2 & V2). destruct (dbl_int (-2) ltac:(lia)) as (F1 & V1). destruct (dbl_int 0 ltac:(lia)) as (F0 & V0). destruct (dbl_int 1 ltac:(lia)) as (F5 & V5).
  split; [apply (safe_small 2 1); (lia || (split; assumption))|]. split; [apply (safe_small 1 (-2)); [lia|lia| |]; apply coef_value; (lia || (vm_compute; reflexivity))|].
  split; [apply (finite_coefficients _ _ _ 5 0 4); try lia; [apply coef_value; (lia || (vm_compute; reflexivity))| |apply coef_value; (lia || (vm_compute; reflexivity))]; set (b := fl_ray_b 2 s o d);
    assert (B : is_finite_SF (B2SF b) = true /\ SF2R radix2 (B2SF b) = 0) by (split; vm_compute; reflexivity); rewrite is_finite_SF_B2SF, SF2R_B2SF in B; exact B|]. split; [vm_compute; reflexivity|].
  intros t. rewrite ray_dist2_2, dist2_2. unfold s, o, d. cbn [fl_center fl_radius vector2]. rewrite V0, V1, V2, V3, V5. pose proof step_small. pose proof (Rle_0_sqr t) as Q. unfold Rsqr in Q. lra.
Qed.
