(** Lemmas for the rotation constructors of affine transforms. *)
From Coq Require Import Arith Lia List Bool Reals Lra.
From Verif Require Import Fld FldLemmas RFld LinSpec PluModel DetInvModel MulModel Vec3Model Vec2Model QuatModel GeoSpec QuatProofs Vec3Proofs AffineModel AffineSpec AffineProofs.
Import ListNotations.
Open Scope R_scope.

Lemma of_to3 (p : nat -> R_field) : agree 3 (of3 (to3 p)) p.
Proof. intros [|[|[|i]]] Hi; try reflexivity; lia. Qed.
Lemma to_of3 p : to3 (of3 p) = p.
Proof. now destruct p. Qed.
Lemma of_to2 (p : nat -> R_field) : agree 2 (of2 (to2 p)) p.
Proof. intros [|[|i]] Hi; try reflexivity; lia. Qed.
Lemma to_of2 p : to2 (of2 p) = p.
Proof. now destruct p. Qed.
Lemma to3_agree (p q : nat -> R_field) : agree 3 p q <-> to3 p = to3 q.
Proof.
  split; intros H.
  - unfold to3. f_equal; apply H; lia.
  - unfold to3 in H. injection H as A B C. intros [|[|[|i]]] Hi; try assumption; lia.
Qed.
Lemma to2_agree (p q : nat -> R_field) : agree 2 p q <-> to2 p = to2 q.
Proof.
  split; intros H.
  - unfold to2. f_equal; apply H; lia.
  - unfold to2 in H. injection H as A B. intros [|[|i]] Hi; try assumption; lia.
Qed.

Definition maps3 (m : mtx R_field) (p : v3) : v3 := to3 (maps 3 m (of3 p)).
Lemma maps3_of m p : to3 (maps 3 m p) = maps3 m (to3 p).
Proof. unfold maps3. apply to3_agree. intros i Hi. apply maps_ext. intros j Hj. symmetry. now apply of_to3. Qed.
Lemma maps3_is (m : mtx R_field) p : maps3 m p = V3 (m 0%nat 0%nat * vx p + m 0%nat 1%nat * vy p + m 0%nat 2%nat * vz p + m 0%nat 3%nat)
  (m 1%nat 0%nat * vx p + m 1%nat 1%nat * vy p + m 1%nat 2%nat * vz p + m 1%nat 3%nat) (m 2%nat 0%nat * vx p + m 2%nat 1%nat * vy p + m 2%nat 2%nat * vz p + m 2%nat 3%nat).
Proof. unfold maps3, to3, maps. cbn [sum of3]. unR. apply v3_eq; cbn [vx vy vz]; ring. Qed.
Lemma apply_maps3 xf p : to3 (xf_apply 3 xf (of3 p)) = maps3 (xmat xf) p.
Proof. apply to3_agree. intros i Hi. apply apply_maps. lia. Qed.
Lemma apply_inverse_maps3 xf p : to3 (xf_apply_inverse 3 xf (of3 p)) = maps3 (xinv xf) p.
Proof. apply to3_agree. intros i Hi. apply apply_inverse_maps. lia. Qed.
Lemma sound3 (xf : xformR) f g : affine_row 3 (xmat xf) -> affine_row 3 (xinv xf) ->
  (forall p, maps3 (xmat xf) p = f p) -> (forall p, maps3 (xinv xf) p = g p) -> (forall p, f (g p) = p) -> (forall p, g (f p) = p) -> sound 3 xf.
Proof.
  intros A B F G FG GF. apply sound_of_maps; trivial; intros p; apply to3_agree; rewrite !maps3_of, F, G; [apply FG|apply GF].
Qed.
Lemma affine4 l : nth 12 l 0 = 0 -> nth 13 l 0 = 0 -> nth 14 l 0 = 0 -> nth 15 l 0 = 1 -> affine_row 3 (mat4 l).
Proof. intros A B C D [|[|[|[|c]]]] Hc; try lia; unfold mat4; cbn [Nat.mul Nat.add]; [rewrite A|rewrite B|rewrite C|rewrite D]; reflexivity. Qed.
Lemma affine4t (m : mtx R_field) : m 0%nat 3%nat = 0 -> m 1%nat 3%nat = 0 -> m 2%nat 3%nat = 0 -> m 3%nat 3%nat = 1 -> affine_row 3 (mtranspose m).
Proof. intros A B C D [|[|[|[|c]]]] Hc; try lia; unfold mtranspose; assumption. Qed.
Ltac cells := rewrite maps3_is; unfold mtranspose, mat4; cbn [nth Nat.mul Nat.add].

(** ** rotation about an axis *)
Section Axis.
Variables (a : v3) (t : R).
Hypothesis U : is_unit a.
Lemma rotmat_maps p : maps3 (rotmat (vx a) (vy a) (vz a) t) p = rodrigues a t p.
Proof. unfold rotmat. cells. unfold rodrigues. rewrite dot3_def. by3; ring. Qed.
Lemma rotmat_maps_t p : maps3 (mtranspose (rotmat (vx a) (vy a) (vz a) t)) p = rodrigues a (- t) p.
Proof. unfold rotmat. cells. unfold rodrigues. rewrite dot3_def, cos_neg, sin_neg. by3; ring. Qed.
Lemma undo p : rodrigues a t (rodrigues a (- t) p) = p.
Proof. rewrite rodrigues_add by exact U. rewrite Rplus_opp_r. apply rodrigues_0. Qed.
Lemma undo' p : rodrigues a (- t) (rodrigues a t p) = p.
Proof. rewrite rodrigues_add by exact U. rewrite Rplus_opp_l. apply rodrigues_0. Qed.
Lemma rotmat_sound : sound 3 (with_transpose (rotmat (vx a) (vy a) (vz a) t)).
Proof.
  apply (sound3 _ (rodrigues a t) (rodrigues a (- t))).
  - apply affine4; reflexivity.
  - apply affine4t; reflexivity.
  - apply rotmat_maps.
  - apply rotmat_maps_t.
  - apply undo.
  - apply undo'.
Qed.
Variable c : v3.
Let about s p := add3 (rodrigues a s (sub3 p c)) c.
Lemma both_maps p : maps3 (xmat (rotmat_both (vx a) (vy a) (vz a) (vx c) (vy c) (vz c) t)) p = about t p.
Proof.
  unfold is_unit, mag2_3 in U. rewrite dot3_def in U.
  assert (W1 : vy a * vy a + vz a * vz a = 1 - vx a * vx a) by lra.
  assert (W2 : vx a * vx a + vz a * vz a = 1 - vy a * vy a) by lra.
  assert (W3 : vx a * vx a + vy a * vy a = 1 - vz a * vz a) by lra.
  unfold rotmat_both. cbn zeta. rewrite W1, W2, W3. cbn [xmat xinv seq map nth Nat.ltb Nat.leb]. cells. unfold about, rodrigues. rewrite dot3_def. by3; ring.
Qed.
Lemma both_maps_inv p : maps3 (xinv (rotmat_both (vx a) (vy a) (vz a) (vx c) (vy c) (vz c) t)) p = about (- t) p.
Proof.
  unfold is_unit, mag2_3 in U. rewrite dot3_def in U.
  assert (W1 : vy a * vy a + vz a * vz a = 1 - vx a * vx a) by lra.
  assert (W2 : vx a * vx a + vz a * vz a = 1 - vy a * vy a) by lra.
  assert (W3 : vx a * vx a + vy a * vy a = 1 - vz a * vz a) by lra.
  unfold rotmat_both. cbn zeta. rewrite W1, W2, W3. cbn [xmat xinv seq map nth Nat.ltb Nat.leb]. cells. unfold about, rodrigues. rewrite dot3_def, cos_neg, sin_neg. by3; ring.
Qed.
Lemma point_maps p : maps3 (rotmat_point (vx a) (vy a) (vz a) (vx c) (vy c) (vz c) t) p = about t p.
Proof.
  unfold is_unit, mag2_3 in U. rewrite dot3_def in U.
  assert (W1 : vy a * vy a + vz a * vz a = 1 - vx a * vx a) by lra.
  assert (W2 : vx a * vx a + vz a * vz a = 1 - vy a * vy a) by lra.
  assert (W3 : vx a * vx a + vy a * vy a = 1 - vz a * vz a) by lra.
  unfold rotmat_point. cbn zeta. rewrite W1, W2, W3. cells. unfold about, rodrigues. rewrite dot3_def. by3; ring.
Qed.
Lemma sub_add p q : sub3 (add3 p q) q = p.
Proof. by3; ring. Qed.
Lemma add_sub p q : add3 (sub3 p q) q = p.
Proof. by3; ring. Qed.
Lemma both_sound : sound 3 (rotmat_both (vx a) (vy a) (vz a) (vx c) (vy c) (vz c) t).
Proof.
  apply (sound3 _ (about t) (about (- t))).
  - apply affine4; reflexivity.
  - apply affine4; reflexivity.
  - apply both_maps.
  - apply both_maps_inv.
  - intros p. unfold about. rewrite sub_add, undo. apply add_sub.
  - intros p. unfold about. rewrite sub_add, undo'. apply add_sub.
Qed.
End Axis.

(** ** quaternions *)
Lemma quat_maps q p : maps3 (rotmat_quat q) p = qrot q p.
Proof. unfold rotmat_quat. cells. by3; ring. Qed.
Lemma quat_maps_t q p : maps3 (mtranspose (rotmat_quat q)) p = qrot_inv p q.
Proof. unfold rotmat_quat. cells. by3; ring. Qed.
Lemma qmag_pos q : q <> Q4 0 0 0 0 -> 0 < qmag q.
Proof.
  intros H. destruct (Rle_lt_or_eq_dec 0 (qmag q) (sqrt_pos _)) as [L|E]; [exact L|]. exfalso. apply H, qmag2_zero. rewrite <- qmag_sq, <- E. ring.
Qed.
Lemma qunit_unit q : q <> Q4 0 0 0 0 -> qmag2 (qunit q) = 1.
Proof.
  intros H. pose proof (qmag_pos q H) as P. pose proof (qmag_sq q) as S. unfold qunit. set (n := qmag q) in *. clearbody n. 
  unfold qmag2 in *. un3. apply (Rmult_eq_reg_r (n * n)); [|nra]. rewrite S at 2. field. lra.
Qed.
Lemma quat_sound q : qmag2 q = 1 -> sound 3 (with_transpose (rotmat_quat q)).
Proof.
  intros U. apply (sound3 _ (qrot q) (fun p => qrot_inv p q)).
  - apply affine4; reflexivity.
  - apply affine4t; reflexivity.
  - apply quat_maps.
  - apply quat_maps_t.
  - intros p. rewrite qrot_qrot_inv, U, Rmult_1_r. apply scale3_1.
  - intros p. rewrite qrot_inv_qrot, U, Rmult_1_r. apply scale3_1.
Qed.

(** ** coordinate axes *)
Lemma unit_x : is_unit (V3 1 0 0). Proof. unfold is_unit, mag2_3, dot3. cbn. ring. Qed.
Lemma unit_y : is_unit (V3 0 1 0). Proof. unfold is_unit, mag2_3, dot3. cbn. ring. Qed.
Lemma unit_z : is_unit (V3 0 0 1). Proof. unfold is_unit, mag2_3, dot3. cbn. ring. Qed.
Lemma rotmat_x_maps t p : maps3 (rotmat_x t) p = rodrigues (V3 1 0 0) t p /\ maps3 (mtranspose (rotmat_x t)) p = rodrigues (V3 1 0 0) (- t) p.
Proof. unfold rotmat_x. split; cells; unfold rodrigues; rewrite dot3_def, ?cos_neg, ?sin_neg; by3; ring. Qed.
Lemma rotmat_y_maps t p : maps3 (rotmat_y t) p = rodrigues (V3 0 1 0) t p /\ maps3 (mtranspose (rotmat_y t)) p = rodrigues (V3 0 1 0) (- t) p.
Proof. unfold rotmat_y. split; cells; unfold rodrigues; rewrite dot3_def, ?cos_neg, ?sin_neg; by3; ring. Qed.
Lemma rotmat_z_maps t p : maps3 (rotmat_z t) p = rodrigues (V3 0 0 1) t p /\ maps3 (mtranspose (rotmat_z t)) p = rodrigues (V3 0 0 1) (- t) p.
Proof. unfold rotmat_z. split; cells; unfold rodrigues; rewrite dot3_def, ?cos_neg, ?sin_neg; by3; ring. Qed.
Lemma axis_sound m k t : is_unit k -> affine_row 3 m -> affine_row 3 (mtranspose m) ->
  (forall p, maps3 m p = rodrigues k t p /\ maps3 (mtranspose m) p = rodrigues k (- t) p) -> sound 3 (with_transpose m).
Proof.
  intros U A B H. apply (sound3 _ (rodrigues k t) (rodrigues k (- t))); trivial.
  - intros p. apply H.
  - intros p. apply H.
  - now apply undo.
  - now apply undo'.
Qed.
Lemma rotation_x_sound t : sound 3 (rotation_x t).
Proof. apply (axis_sound _ (V3 1 0 0) t unit_x); [apply affine4; reflexivity|apply affine4t; reflexivity|apply rotmat_x_maps]. Qed.
Lemma rotation_y_sound t : sound 3 (rotation_y t).
Proof. apply (axis_sound _ (V3 0 1 0) t unit_y); [apply affine4; reflexivity|apply affine4t; reflexivity|apply rotmat_y_maps]. Qed.
Lemma rotation_z_sound t : sound 3 (rotation_z t).
Proof. apply (axis_sound _ (V3 0 0 1) t unit_z); [apply affine4; reflexivity|apply affine4t; reflexivity|apply rotmat_z_maps]. Qed.

(** ** two dimensions *)
Definition maps2 (m : mtx R_field) (p : v2) : v2 := to2 (maps 2 m (of2 p)).
Lemma maps2_of m p : to2 (maps 2 m p) = maps2 m (to2 p).
Proof. unfold maps2. apply to2_agree. intros i Hi. apply maps_ext. intros j Hj. symmetry. now apply of_to2. Qed.
Lemma v2_eq a b : ux a = ux b -> uy a = uy b -> a = b.
Proof. destruct a, b. cbn. now intros -> ->. Qed.
Lemma rotation_2d_maps t p : maps2 (xmat (rotation_2d t)) p = rotated p t /\ maps2 (xinv (rotation_2d t)) p = rotated p (- t).
Proof.
  split; unfold maps2, to2, maps, rotated, rotation_2d, mat3; cbn [sum of2 xmat xinv nth Nat.mul Nat.add]; unR; apply v2_eq; cbn [ux uy]; rewrite ?cos_neg, ?sin_neg; ring.
Qed.
Lemma rotated_undo p t : rotated (rotated p t) (- t) = p.
Proof.
  pose proof (sin2_cos2 t) as S. unfold Rsqr in S. unfold rotated. apply v2_eq; cbn [ux uy]; rewrite cos_neg, sin_neg.
  - replace (ux p) with ((sin t * sin t + cos t * cos t) * ux p) at 3 by (rewrite S; ring). ring.
  - replace (uy p) with ((sin t * sin t + cos t * cos t) * uy p) at 3 by (rewrite S; ring). ring.
Qed.
Lemma rotation_2d_sound t : sound 2 (rotation_2d t).
Proof.
  apply sound_of_maps.
  - intros [|[|[|c]]] Hc; try lia; reflexivity.
  - intros [|[|[|c]]] Hc; try lia; reflexivity.
  - intros p. apply to2_agree. rewrite !maps2_of, (proj1 (rotation_2d_maps t _)), (proj2 (rotation_2d_maps t _)). pose proof (rotated_undo (to2 p) (- t)) as E. now rewrite Ropp_involutive in E.
  - intros p. apply to2_agree. rewrite !maps2_of, (proj1 (rotation_2d_maps t _)), (proj2 (rotation_2d_maps t _)). apply rotated_undo.
Qed.

(** ** aligning directions *)
Lemma dot_ext a b : (forall x, dot3 x a = dot3 x b) -> a = b.
Proof.
  intros H. pose proof (H (V3 1 0 0)) as A. pose proof (H (V3 0 1 0)) as B. pose proof (H (V3 0 0 1)) as C. unfold dot3 in A, B, C. cbn in A, B, C.
  apply v3_eq; lra.
Qed.
Lemma adjoint (m : mtx R_field) a b : affine_row 3 (mtranspose m) -> affine_row 3 m -> dot3 a (maps3 m b) = dot3 (maps3 (mtranspose m) a) b.
Proof.
  intros A B. rewrite !maps3_is, !dot3_def. cbn [vx vy vz].
  pose proof (A 0%nat ltac:(lia)) as A0. pose proof (A 1%nat ltac:(lia)) as A1. pose proof (A 2%nat ltac:(lia)) as A2.
  pose proof (B 0%nat ltac:(lia)) as B0. pose proof (B 1%nat ltac:(lia)) as B1. pose proof (B 2%nat ltac:(lia)) as B2.
  unfold mtranspose in *. unfold delta in *. cbn in A0, A1, A2, B0, B1, B2. rewrite A0, A1, A2, B0, B1, B2. unR. ring.
Qed.
Lemma isometry_sound m : affine_row 3 m -> affine_row 3 (mtranspose m) ->
  (forall a b, dot3 (maps3 m a) (maps3 m b) = dot3 a b) -> (forall a b, dot3 (maps3 (mtranspose m) a) (maps3 (mtranspose m) b) = dot3 a b) -> sound 3 (with_transpose m).
Proof.
  intros A B H H'. apply (sound3 _ (maps3 m) (maps3 (mtranspose m))); trivial; try reflexivity; intros p; apply dot_ext; intros x.
  - rewrite adjoint by trivial. apply H'.
  - change m with (mtranspose (mtranspose m)) in H at 1. rewrite <- (H x p). rewrite (adjoint (mtranspose m)) by trivial. reflexivity.
Qed.
Lemma cauchy a b : is_unit a -> is_unit b -> -1 <= dot3 a b <= 1.
Proof.
  intros A B. pose proof (lagrange a b A B) as L. pose proof (mag2_nonneg (cross3 a b)) as P. rewrite L in P. nra.
Qed.
Section Dir.
Variables d e : v3.
Hypothesis (Hd : is_unit d) (He : is_unit e).
Lemma align_generic p : Rabs (dot3 d e) <> 1 -> maps3 (rotmat_direction_align d e) p = align3 p d e /\ maps3 (mtranspose (rotmat_direction_align d e)) p = align3 p e d.
Proof.
  intros N. unfold rotmat_direction_align. cbn zeta. destruct (Req_EM_T (Rabs (dot3 d e)) 1) as [E|_]; [contradiction|].
  assert (N1 : dot3 d e <> 1) by (intros E; rewrite E, Rabs_R1 in N; lra).
  assert (N2 : dot3 d e <> -1) by (intros E; apply N; rewrite E, Rabs_left by lra; lra).
  assert (S : dot3 e d = dot3 d e) by (unfold dot3; ring).
  assert (X : cross3 e d = neg3 (cross3 d e)) by (by3; ring).
  split; cells; unfold align3; cbn zeta; rewrite ?S, ?X; set (c := dot3 d e) in *; set (v := cross3 d e); clearbody c v;
    assert (1 - c * c <> 0) by (replace (1 - c * c) with ((1 - c) * (1 + c)) by ring; apply Rmult_integral_contrapositive; split; lra);
    assert (1 + c <> 0) by lra;
    by3; field; (split; assumption).
Qed.
Lemma align_affine : affine_row 3 (rotmat_direction_align d e) /\ affine_row 3 (mtranspose (rotmat_direction_align d e)).
Proof.
  unfold rotmat_direction_align. cbn zeta. destruct (Req_EM_T _ _); [destruct (Rlt_dec _ _)|]; (split; [apply affine4|apply affine4t]); reflexivity.
Qed.
Lemma align_sound : sound 3 (direction_align d e).
Proof.
  destruct align_affine as [A B]. unfold direction_align. 
  destruct (Req_EM_T (Rabs (dot3 d e)) 1) as [E|E].
  - apply isometry_sound; trivial; intros a b; unfold rotmat_direction_align; cbn zeta; destruct (Req_EM_T (Rabs (dot3 d e)) 1) as [_|]; try contradiction;
      destruct (Rlt_dec (dot3 d e) 0); cells; rewrite maps3_is; unfold dot3, mtranspose, mat4; cbn [nth Nat.mul Nat.add vx vy vz]; ring.
  - assert (N2 : dot3 d e <> -1) by (intros Z; apply E; rewrite Z, Rabs_left by lra; lra).
    assert (S : dot3 e d = dot3 d e) by (unfold dot3; ring).
    apply isometry_sound; trivial; intros a b.
    + rewrite !(proj1 (align_generic _ E)). now apply align_dot.
    + rewrite !(proj2 (align_generic _ E)). apply align_dot; trivial. now rewrite S.
Qed.
Lemma unit_dot_1 : dot3 d e = 1 -> d = e.
Proof.
  intros H. assert (Z : mag2_3 (sub3 d e) = 0).
  { transitivity (mag2_3 d + mag2_3 e - 2 * dot3 d e); [unfold mag2_3, dot3; un3; ring|]. unfold is_unit in *. lra. }
  apply mag2_zero in Z. injection Z as X Y W. apply v3_eq; lra.
Qed.
Lemma unit_dot_m1 : dot3 d e = -1 -> e = neg3 d.
Proof.
  intros H. assert (Z : mag2_3 (add3 d e) = 0).
  { transitivity (mag2_3 d + mag2_3 e + 2 * dot3 d e); [unfold mag2_3, dot3; un3; ring|]. unfold is_unit in *. lra. }
  apply mag2_zero in Z. injection Z as X Y W. apply v3_eq; un3; lra.
Qed.
Lemma dot_self_neg : dot3 d (neg3 d) = -1.
Proof. unfold is_unit, mag2_3 in Hd. rewrite dot3_def in *. un3. lra. Qed.
Lemma align_to : e <> neg3 d -> maps3 (rotmat_direction_align d e) d = e.
Proof.
  intros N. destruct (Req_EM_T (Rabs (dot3 d e)) 1) as [E|E].
  - assert (N1 : dot3 d e <> -1) by (intros Z; apply N, unit_dot_m1, Z).
    assert (D : dot3 d e = 1) by (unfold Rabs in E; destruct (Rcase_abs (dot3 d e)); lra).
    assert (Q : d = e) by now apply unit_dot_1.
    unfold rotmat_direction_align. cbn zeta. destruct (Req_EM_T _ _) as [_|]; [|contradiction]. destruct (Rlt_dec _ _); [lra|]. rewrite <- Q. cells. by3; ring.
  - rewrite (proj1 (align_generic _ E)). apply align_maps; trivial. intros Z. apply E. rewrite Z, Rabs_left by lra. lra.
Qed.
Lemma align_opposite : maps3 (rotmat_direction_align d (neg3 d)) d = neg3 d <-> vy d = 0.
Proof.
  unfold rotmat_direction_align. cbn zeta. rewrite dot_self_neg. destruct (Req_EM_T (Rabs (-1)) 1) as [_|N]; [|exfalso; apply N; rewrite Rabs_left by lra; lra].
  destruct (Rlt_dec (-1) 0) as [_|]; [|lra]. cells. split.
  - intros H. apply (f_equal vy) in H. un3. lra.
  - intros H. by3; rewrite H; ring.
Qed.
End Dir.

(** ** everything that can be built *)
Lemma built_sound bigger N xf : sane_order bigger -> built bigger N xf -> sound N xf.
Proof.
  intros O B. induction B.
  - apply sound_identity.
  - apply sound_translation.
  - now apply sound_scale.
  - now apply transformation_sound.
  - apply rotmat_sound. now apply unit_unit.
  - apply both_sound. now apply unit_unit.
  - apply quat_sound. now apply qunit_unit.
  - apply rotation_x_sound.
  - apply rotation_y_sound.
  - apply rotation_z_sound.
  - apply rotation_2d_sound.
  - now apply align_sound.
  - now apply sound_then.
  - rewrite then_inverse_is. apply sound_then; [assumption|now apply sound_inverse].
  - now apply sound_then.
  - change (xf_div N a b) with (xf_then N a (xf_inverse b)). apply sound_then; [assumption|now apply sound_inverse].
  - now apply sound_then.
  - change (xf_div_assign false N a b) with (xf_then N a (xf_inverse b)). apply sound_then; [assumption|now apply sound_inverse].
  - now apply sound_inverse.
Qed.
