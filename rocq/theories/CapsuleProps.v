(** Capsules (geomc/shape/Capsule.h). *)
From Coq Require Import Reals Arith Lra Lia.
From Verif Require Import PerlinSpec VecNModel VecNSpec VecNProofs Ord RectModel RectArithModel ShapeSpec ShapeProofs SphereModel SphereProofs CapsuleModel CapsuleProofs.
Open Scope R_scope.

(** *** C67 *)
(** Also for p0 = p1, where the code divides zero by zero. *)
Theorem capsule_contains_exact N p0 p1 r p : capsule_contains N (mkCapsule p0 p1 r) p = true <-> capsule N p0 p1 r p.
Proof. exact (capsule_contains_ok N p0 p1 r p). Qed.
Print Assumptions capsule_contains_exact.
Theorem capsule_signed_distance N p0 p1 r p : (2 <= N)%nat -> 0 <= r ->
  signed_distance N (capsule N p0 p1 r) (capsule_surface N p0 p1 r) p (capsule_sdf N (mkCapsule p0 p1 r) p).
Proof. intros L RP. exact (capsule_sdf_ok N p0 p1 r RP p L). Qed.
Print Assumptions capsule_signed_distance.
Theorem capsule_support_extreme N p0 p1 r d : 0 <= r -> is_support N (capsule N p0 p1 r) d (capsule_support N (mkCapsule p0 p1 r) d).
Proof. exact (capsule_support_ok N p0 p1 r d). Qed.
Print Assumptions capsule_support_extreme.
Theorem capsule_bounds_tight N p0 p1 r : 0 <= r -> tight_box N (capsule N p0 p1 r) (capsule_bounds (mkCapsule p0 p1 r)).
Proof. exact (capsule_bounds_ok N p0 p1 r). Qed.
Print Assumptions capsule_bounds_tight.
Theorem capsule_intersects_exact N p0 p1 r c r' : 0 <= r -> 0 <= r' -> (0 < N)%nat ->
  (capsule_intersects N (mkCapsule p0 p1 r) (mkSphere c r') = true <-> meets (capsule N p0 p1 r) (ball N c r')).
Proof. intros RP RP' NP. unfold capsule_intersects. rewrite Rleb_iff. symmetry. exact (capsule_meets_ball N p0 p1 r RP c r' RP' NP). Qed.
Print Assumptions capsule_intersects_exact.
(** A point inside, one on the surface and one outside. *)
Example capsule_case : let s := capsule_default in
  capsule_sdf 2 s (fun _ => 0) = -1 /\ capsule_sdf 2 s (fun i => if (i =? 0)%nat then 2 else 0) = 0 /\ capsule_sdf 2 s (fun i => if (i =? 0)%nat then 0 else 3) = 2.
Proof.
  cbv zeta. unfold capsule_sdf, capsule_default, clamp_quotient, RealUtilModel.clamp, RealUtilModel.std_max, RealUtilModel.std_min, VecNModel.div_opt, dot, mag, VecNModel.mag2, loop, vec_sub, vec_scale. cbn.
  destruct (Req_EM_T _ 0) as [H|H]; [lra|]. clear H. split; [|split].
  - match goal with |- context [?x / ?y] => replace (x / y) with (1/2) by field end. repeat destruct (Rlt_dec _ _); try lra.
    match goal with |- context [sqrt ?x] => replace x with 0 by field end. rewrite sqrt_0. ring.
  - match goal with |- context [?x / ?y] => replace (x / y) with (3/2) by field end. repeat destruct (Rlt_dec _ _); try lra.
    match goal with |- context [sqrt ?x] => replace x with 1 by field end. rewrite sqrt_1. ring.
  - match goal with |- context [?x / ?y] => replace (x / y) with (1/2) by field end. repeat destruct (Rlt_dec _ _); try lra.
    match goal with |- context [sqrt ?x] => replace x with (3 * 3) by field end. rewrite sqrt_square; lra.
Qed.
