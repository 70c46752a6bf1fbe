From Coq Require Import Reals ZArith Lia Lra Bool.
From Flocq Require Import Core BinarySingleNaN.
From Verif Require Import FmaModel FmaSpec FmaProofs FquadModel FquadProofs FquadMore FvecModel FvecSpec FvecProofs FvecMore FvecAcc FboxModel FboxSpec FsphModel.
Open Scope R_scope.
Notation pw := (bpow radix2).
Notation origin := (vector2 (dbl 0 0) (dbl 0 0)).
Lemma dist2_2 (v w : nat -> binary_float 53 1024) : exact_dist2 2 v w = (B2R (v 0%nat) - B2R (w 0%nat)) * (B2R (v 0%nat) - B2R (w 0%nat)) + (B2R (v 1%nat) - B2R (w 1%nat)) * (B2R (v 1%nat) - B2R (w 1%nat)).
Proof. unfold exact_dist2. cbn [total]. ring. Qed.
Lemma finite2 (x y : binary_float 53 1024) : is_finite x = true -> is_finite y = true -> all_finite 2 (vector2 x y).
Proof. intros X Y [|i] I; cbn; assumption. Qed.
Lemma sdf_zero_outside : let s := fl_mkSphere origin (dbl 1 0) in let p := vector2 (dbl 1 0) (dbl 1 (-26)) in
  all_finite 2 p /\ B2R (fl_radius s) = 1 /\ exact_dist2 2 (fl_center s) p = 1 + pw (-52) /\
  fl_sphere_contains 2 s p = false /\ is_finite (fl_sphere_sdf 2 s p) = true /\ B2R (fl_sphere_sdf 2 s p) = 0.
Proof.
  intros s p. destruct (dbl_runs 1 (-26) ltac:(lia) ltac:(lia)) as (F2 & V2). destruct (dbl_int 1 ltac:(lia)) as (F1 & V1). destruct (dbl_int 0 ltac:(lia)) as (F0 & V0).
  split; [now apply finite2|]. split; [exact V1|]. split; [|split].
  - rewrite dist2_2. unfold s, p. cbn [fl_center vector2]. rewrite V0, V1, V2. replace (pw (-52)) with (pw (-26) * pw (-26)) by (rewrite <- bpow_plus; reflexivity). ring.
  - vm_compute. reflexivity.
  - set (x := fl_sphere_sdf 2 s p). assert (X : B2SF x = SpecFloat.S754_zero false) by (vm_compute; reflexivity). rewrite <- SF2R_B2SF, <- is_finite_SF_B2SF, X. split; reflexivity.
Qed.
Lemma tiny_sphere : let s := fl_mkSphere origin (dbl 1 (-600)) in let p := vector2 (dbl 1 (-540)) (dbl 0 0) in
  all_finite 2 p /\ B2R (fl_radius s) = pw (-600) /\ exact_dist2 2 (fl_center s) p = pw (-540) * pw (-540) /\ fl_sphere_contains 2 s p = true.
Proof.
  intros s p. destruct (dbl_runs 1 (-540) ltac:(lia) ltac:(lia)) as (F2 & V2). destruct (dbl_int 0 ltac:(lia)) as (F0 & V0).
  split; [now apply finite2|]. split; [apply (dbl_pow (-600)); lia|]. split; [|vm_compute; reflexivity].
  rewrite dist2_2. unfold s, p. cbn [fl_center vector2]. rewrite V0, V2. ring.
Qed.
Lemma huge_sphere : let s := fl_mkSphere origin (dbl 1 600) in let p := vector2 (dbl 1 900) (dbl 0 0) in
  all_finite 2 p /\ B2R (fl_radius s) = pw 600 /\ exact_dist2 2 (fl_center s) p = pw 900 * pw 900 /\ fl_sphere_contains 2 s p = true.
Proof.
  intros s p. destruct (dbl_runs 1 900 ltac:(lia) ltac:(lia)) as (F2 & V2). destruct (dbl_int 0 ltac:(lia)) as (F0 & V0).
  split; [now apply finite2|]. split; [apply (dbl_pow 600); lia|]. split; [|vm_compute; reflexivity].
  rewrite dist2_2. unfold s, p. cbn [fl_center vector2]. rewrite V0, V2. ring.
Qed.
Lemma outside_bounds : let s := fl_mkSphere (vector2 (dbl 1 0) (dbl 0 0)) (dbl 2 0) in let p := vector2 (dbl (-4503599627370497) (-52)) (dbl 0 0) in
  all_finite 2 p /\ fl_sphere_contains 2 s p = true /\ B2R (p 0%nat) = - 1 - pw (-52) /\ B2R (fl_lo (fl_sphere_bounds s) 0%nat) = - 1.
Proof.
  intros s p. destruct (dbl_runs (-4503599627370497) (-52) ltac:(lia) ltac:(lia)) as (F2 & V2). destruct (dbl_int 0 ltac:(lia)) as (F0 & V0).
  split; [now apply finite2|]. split; [vm_compute; reflexivity|]. split; [unfold p; cbn [vector2]; rewrite V2; cbn; lra|].
  set (x := fl_lo _ _). assert (X : B2SF x = B2SF (dbl (-1) 0)) by (vm_compute; reflexivity). apply B2SF_inj in X. rewrite X. apply (dbl_int (-1)). lia.
Qed.
Lemma sphere_example : let s := fl_mkSphere (vector2 (dbl 3 0) (dbl (-2) 0)) (dbl 3 0) in let p := vector2 (dbl 2 0) (dbl 0 0) in
  all_finite 2 (fl_center s) /\ all_finite 2 p /\ is_finite (fl_radius s) = true /\ safe_vector 2 (fl_vsub 53 1024 (fl_center s) p) /\
  pw (emin 53 1024 + 53 - 1) <= B2R (fl_radius s) * B2R (fl_radius s) < pw (1024 - 1) /\ exact_dist2 2 (fl_center s) p * step 53 ^ 5 <= B2R (fl_radius s) * B2R (fl_radius s).
Proof.
  intros s p. destruct (dbl_int 3 ltac:(lia)) as (F3 & V3). destruct (dbl_int 2 ltac:(lia)) as (F2 & V2). destruct (dbl_int (-2) ltac:(lia)) as (F1 & V1). destruct (dbl_int 0 ltac:(lia)) as (F0 & V0).
  split; [now apply finite2|]. split; [now apply finite2|]. split; [exact F3|]. split; [apply dist_example|]. unfold s. cbn [fl_radius fl_center]. rewrite V3. split; [split|].
  - apply Rle_trans with (pw 0); [apply bpow_le; unfold emin; lia|cbn; lra].
  - apply Rlt_le_trans with (pw 4); [cbn; lra|apply bpow_le; lia].
  - rewrite dist2_2. unfold p. cbn [vector2]. rewrite V0, V1, V2, V3.
    assert (S : 1 <= step 53 <= 11 / 10). { unfold step. pose proof (bpow_gt_0 radix2 (- (53))). assert (pw (- (53)) <= pw (-4)) by (apply bpow_le; lia). cbn in *. lra. }
    assert (P : step 53 ^ 5 <= (11 / 10) ^ 5) by (apply pow_incr; lra). lra.
Qed.
Lemma plane_example : let pl := fl_plane_through 2 (vector2 (dbl 3 0) (dbl 4 0)) (vector2 (dbl 1 0) (dbl 2 0)) in
  all_finite 2 (fl_normal pl) /\ is_finite (fl_offset pl) = true /\ is_finite (fl_dot 2 (fl_normal pl) (vector2 (dbl 1 0) (dbl 2 0))) = true /\ is_finite (fl_dot 2 (vector2 (dbl 1 0) (dbl 2 0)) (fl_unit 2 (vector2 (dbl 3 0) (dbl 4 0)))) = true.
Proof. intros pl. split; [|repeat split; vm_compute; reflexivity]. intros [|[|i]] I; [vm_compute; reflexivity|vm_compute; reflexivity|lia]. Qed.
