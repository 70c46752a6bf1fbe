(** Transformed shapes (geomc/shape/Oriented.h), given the functions of the shape and a transform carrying its true inverse
    (which every transform the API builds does, see [transform_carries_inverse]). *)
From Coq Require Import Reals Arith Lra Lia Bool.
From Verif Require Import Fld RFld LinSpec DetInvModel AffineModel AffineSpec AffineProofs PerlinSpec VecNModel VecNSpec VecNProofs RayModel Ord RectModel RectSpec RectArithModel
  ShapeSpec ShapeProofs SphereModel SphereProofs OrientedSpec OrientedModel OrientedProofs.
Open Scope R_scope.

(** *** C73 *)
Theorem oriented_contains_exact N (xf : xformR) (X : region) s_contains p : sound N xf -> respects N X -> (forall q, s_contains q = true <-> X q) ->
  (oriented_contains N s_contains xf p = true <-> image N (xmat xf) X p).
Proof. intros S RX. exact (contains_ok N xf S X RX s_contains p). Qed.
Print Assumptions oriented_contains_exact.
Theorem oriented_support_extreme N (xf : xformR) (X : region) s_support d : sound N xf ->
  (forall d', ~ all_zero N d' -> is_support N X d' (s_support d')) -> ~ all_zero N d ->
  is_support N (image N (xmat xf) X) d (oriented_support N s_support xf d).
Proof. intros S. exact (support_ok N xf S X s_support d). Qed.
Print Assumptions oriented_support_extreme.
Theorem oriented_bounds_tight N (xf : xformR) (X : region) s_support : sound N xf ->
  (forall d', ~ all_zero N d' -> is_support N X d' (s_support d')) ->
  tight_box N (image N (xmat xf) X) (oriented_bounds N s_support xf).
Proof. intros S. exact (bounds_ok N xf S X s_support). Qed.
Print Assumptions oriented_bounds_tight.
Theorem oriented_ray_exact N (xf : xformR) (X : region) s_ray r : sound N xf -> respects N X -> (forall o d, ray_in X o d (s_ray (mkRay o d))) ->
  ray_in (image N (xmat xf) X) (origin r) (direction r) (oriented_ray N s_ray xf r).
Proof. intros S RX. exact (ray_ok N xf S X RX s_ray r). Qed.
Print Assumptions oriented_ray_exact.
(** The oriented bounding box holds the transformed shape. *)
Theorem oriented_box_holds N (xf : xformR) (X : region) (s_bounds : @rect R_ord) p : (forall q, X q -> in_box N s_bounds q) ->
  image N (xmat xf) X p ->
  let o := oriented_oriented_bounds s_bounds xf in image N (xmat (snd o)) (in_box N (fst o)) p.
Proof. exact (image_mono N (xmat xf) X (in_box N s_bounds) p). Qed.
Print Assumptions oriented_box_holds.

(** Transformed boxes. *)
Theorem oriented_rect_exact N (xf : xformR) (b : @rect R_ord) : sound N xf -> nonempty N b ->
  let Y := image N (xmat xf) (in_box N b) in
  (forall p, obox_contains N b xf p = true <-> Y p) /\ (forall d, is_support N Y d (obox_support N b xf d)) /\
  tight_box N Y (obox_bounds N b xf) /\ (forall r, ray_in Y (origin r) (direction r) (obox_ray N b xf r)).
Proof.
  intros S NE. exact (conj (fun p => obox_contains_ok N xf b S p) (conj (obox_support_ok N xf b NE) (conj (obox_bounds_ok N xf b NE) (obox_ray_ok N xf b NE S)))).
Qed.
Print Assumptions oriented_rect_exact.
(** Its volume is wrong: every box of two or more dimensions and positive extents that is merely moved is given volume zero. *)
Theorem oriented_rect_volume_refuted N bigger (b : @rect R_ord) (t : nat -> R) : sane_order bigger -> (2 <= N)%nat ->
  (forall i, (i < N)%nat -> (lo b i : R) < hi b i) -> obox_volume N b (xf_translation (K := R_field) N t) bigger = 0.
Proof. exact (volume_zero N bigger b t). Qed.
Print Assumptions oriented_rect_volume_refuted.

(** The operators: [xf * s] and [s *= xf] transform the transformed shape; [s / xf] and [s /= xf] undo. *)
Theorem orient_operators N (A : Type) (s : A) (a c : xformR) (X : region) p : sound N a -> sound N c -> respects N X ->
  let at_ := fun o : A * xformR => image N (xmat (snd o)) X in
  (at_ (orient c s) p <-> image N (xmat c) X p) /\
  (at_ (orient_again N c (orient a s)) p <-> image N (xmat c) (at_ (orient a s)) p) /\
  (at_ (orient_assign N (orient a s) c) p <-> image N (xmat c) (at_ (orient a s)) p) /\
  (at_ (unorient s c) p <-> X (xf_apply N c p)) /\
  (at_ (unorient_again N (orient a s) c) p <-> at_ (orient a s) (xf_apply N c p)) /\
  (at_ (unorient_assign N false (orient a s) c) p <-> at_ (orient a s) (xf_apply N c p)).
Proof.
  intros SA SC RX at_. unfold at_. cbn [orient orient_again orient_assign unorient unorient_again unorient_assign fst snd].
  pose proof (sound_inverse R_field N c SC) as SI.
  assert (image N (xmat (xf_then N a (xf_inverse c))) X p <-> image N (xmat a) X (xf_apply N c p)) as U.
  { rewrite (image_then N a (xf_inverse c) X p SA SI RX). apply (image_inverse N c _ p SC). apply image_respects. }
  repeat split; try apply U; try apply (image_then N a c X p SA SC RX); try apply (image_inverse N c X p SC RX); try easy.
Qed.
Print Assumptions orient_operators.

(** Hypotheses met: a ball moved in space, and a box scaled and moved. *)
Example oriented_example : exists (xf : xformR) (X : region) s_contains s_support,
  sound 3 xf /\ respects 3 X /\ (forall q, s_contains q = true <-> X q) /\ (forall d', ~ all_zero 3 d' -> is_support 3 X d' (s_support d')) /\
  oriented_contains 3 s_contains xf (fun _ => 7) = true /\ oriented_contains 3 s_contains xf (fun _ => 0) = false.
Proof.
  exists (xf_translation (K := R_field) 3 (fun _ => 7 : R_field)), (in_box 3 (mkRect (fun _ => -1 : R_ord) (fun _ => 1))),
    (fun q => contains_pt (K := R_ord) 3 (mkRect (fun _ => -1 : R_ord) (fun _ => 1)) q), (fun d i => if Rlt_dec (d i) 0 then -1 else 1).
  set (b := mkRect (fun _ => -1 : R_ord) (fun _ => 1)).
  assert (nonempty 3 b) as NE by (apply RectArithProofs.nonempty_R; intros i _; cbn; lra).
  assert (forall q, contains_pt (K := R_ord) 3 b q = true <-> in_box 3 b q) as C.
  { intros q. rewrite (RectProofs.contains_iff (K := R_ord)). exact (RectArithProofs.inside_R 3 q b). }
  assert (forall q i, (i < 3)%nat -> xf_apply_inverse (K := R_field) 3 (xf_translation 3 (fun _ => 7 : R_field)) q i = (q i : R) - 7) as V.
  { intros q i L. rewrite apply_inverse_maps by lia. now rewrite translation_inv_maps. }
  split; [apply sound_translation|]. split; [apply in_box_respects|]. split; [exact C|]. split.
  { intros d' _. exact (corner_support 3 b NE d'). }
  split.
  - apply C. intros i L. rewrite V by exact L. cbn. lra.
  - apply not_true_is_false. intros H. apply C in H. specialize (H 0%nat ltac:(lia)). rewrite V in H by lia. cbn in H. lra.
Qed.
