(** Property C77: intersection tests of moved boxes. *)
From Coq Require Import Reals Arith Lra Lia.
From Verif Require Import Fld RFld AffineModel AffineSpec AffineProofs Ord RectModel RectSpec VecNSpec ShapeSpec OrientedSpec OrientedModel OrientedProofs GjkSpec SatModel SatSpec SatProofs.
Open Scope R_scope.

(** A moved box and a box with no common point: reported as not intersecting. *)
Theorem obox_apart_missed N (b0 b1 : @rect R_ord) (xf : xformR) : (N = 2 \/ N = 3)%nat -> sound N xf -> nonempty N b0 -> nonempty N b1 ->
  apart N (image N (xmat xf) (in_box N b0)) (in_box N b1) -> obox_intersects N b0 xf b1 = false /\ rect_intersects_obox N b1 b0 xf = false.
Proof. intros [->| ->] S N0 N1 Ap; split; [apply complete2|apply complete2|apply complete3|apply complete3]; assumption. Qed.
Print Assumptions obox_apart_missed.
(** A negative answer: a hyperplane has them on its two sides. *)
Theorem obox_miss_divided N (b0 b1 : @rect R_ord) (xf : xformR) : nonempty N b1 -> obox_intersects N b0 xf b1 = false ->
  divided N (image N (xmat xf) (in_box N b0)) (in_box N b1).
Proof. exact (test_divides N b0 b1 xf). Qed.
Print Assumptions obox_miss_divided.
(** Boxes whose interiors have a common point are reported. *)
Theorem obox_overlap_hit N (b0 b1 : @rect R_ord) (xf : xformR) : nonempty N b1 -> overlap N (image N (xmat xf) (in_box N b0)) (in_box N b1) ->
  obox_intersects N b0 xf b1 = true /\ rect_intersects_obox N b1 b0 xf = true.
Proof.
  intros N1 O. assert (obox_intersects N b0 xf b1 = true) as E; [|exact (conj E E)]. destruct (obox_intersects N b0 xf b1) eqn:E; [reflexivity|]. destruct (divided_overlap N _ _ (test_divides N b0 b1 xf N1 E) O).
Qed.
Print Assumptions obox_overlap_hit.
(** Two moved boxes. *)
Theorem oboxes_apart_missed N (b0 b1 : @rect R_ord) (xf0 xf1 : xformR) : (N = 2 \/ N = 3)%nat -> sound N xf0 -> sound N xf1 -> nonempty N b0 -> nonempty N b1 ->
  apart N (image N (xmat xf0) (in_box N b0)) (image N (xmat xf1) (in_box N b1)) -> oboxes_intersect N b0 xf0 b1 xf1 = false.
Proof.
  intros LN S0 S1 N0 N1 Ap. pose proof (frame_apart N b0 b1 xf0 xf1 S0 S1 Ap) as Ap'. pose proof (div_sound N xf0 xf1 S0 S1) as S. destruct LN as [->| ->]; [apply complete2|apply complete3]; assumption.
Qed.
Print Assumptions oboxes_apart_missed.
Theorem oboxes_miss_divided N (b0 b1 : @rect R_ord) (xf0 xf1 : xformR) : sound N xf0 -> sound N xf1 -> nonempty N b0 -> oboxes_intersect N b0 xf0 b1 xf1 = false ->
  divided N (image N (xmat xf0) (in_box N b0)) (image N (xmat xf1) (in_box N b1)).
Proof. intros S0 S1 N0 E. apply divided_sym, (frame_divided N b0 b1 xf0 xf1 S0 S1), (test_divides N b1 b0 (xf_div N xf1 xf0) N0 E). Qed.
Print Assumptions oboxes_miss_divided.
Theorem oboxes_overlap_hit N (b0 b1 : @rect R_ord) (xf0 xf1 : xformR) : sound N xf0 -> sound N xf1 -> nonempty N b0 ->
  overlap N (image N (xmat xf0) (in_box N b0)) (image N (xmat xf1) (in_box N b1)) -> oboxes_intersect N b0 xf0 b1 xf1 = true.
Proof.
  intros S0 S1 N0 O. destruct (oboxes_intersect N b0 xf0 b1 xf1) eqn:E; [reflexivity|]. destruct (divided_overlap N _ _ (oboxes_miss_divided N b0 b1 xf0 xf1 S0 S1 N0 E) O).
Qed.
Print Assumptions oboxes_overlap_hit.
(** Boxes that share points of a face of the moved box only are missed. *)
Theorem obox_touching_refuted N (b0 b1 : @rect R_ord) i : (N = 2 \/ N = 3)%nat -> nonempty N b0 -> nonempty N b1 ->
  (forall j, (j < N)%nat -> (lo b0 j : R) <= hi b1 j /\ (lo b1 j : R) <= hi b0 j) -> (i < N)%nat -> (hi b0 i : R) = lo b1 i ->
  ~ apart N (in_box N b0) (in_box N b1) /\ obox_intersects N b0 (@xf_identity R_field) b1 = false.
Proof. exact (touching N b0 b1 i). Qed.
Print Assumptions obox_touching_refuted.
(** But touching a face of the other box counts, and the answer depends on whether that box is given as a box or as a box moved by the identity. *)
Theorem obox_touching_inconsistent_refuted : sound 2 turned /\ ~ apart 2 (image 2 (xmat turned) (in_box 2 unit_box)) (in_box 2 left_box) /\
  obox_intersects 2 unit_box turned left_box = true /\ oboxes_intersect 2 unit_box turned left_box (@xf_identity R_field) = false.
Proof. exact (conj turned_sound (conj turned_touch (conj turned_true turned_false))). Qed.
Print Assumptions obox_touching_inconsistent_refuted.
(** A moved box that is empty because its ends are exchanged is treated like the box with the ends in order. *)
Theorem obox_empty_refuted N (b0 b1 : @rect R_ord) (xf : xformR) : (0 < N)%nat -> nonempty N b1 -> (forall i, (i < N)%nat -> (lo b0 i : R) < hi b0 i) ->
  overlap N (image N (xmat xf) (in_box N b0)) (in_box N b1) ->
  (forall p, ~ image N (xmat xf) (in_box N (mkRect (hi b0) (lo b0))) p) /\ obox_intersects N (mkRect (hi b0) (lo b0)) xf b1 = true.
Proof.
  intros L N1 Lt O. split; [|rewrite flipped; exact (proj1 (obox_overlap_hit N b0 b1 xf N1 O))]. intros p (q & Q & _). specialize (Q 0%nat L). specialize (Lt 0%nat L). cbn in *. lra.
Qed.
Print Assumptions obox_empty_refuted.

(** Hypotheses: transforms with their inverse; boxes that are apart, that overlap and that touch. *)
Example obox_sound_case : sound 2 turned /\ sound 3 (@xf_identity R_field) /\ nonempty 3 unit_box /\ nonempty 2 left_box.
Proof. exact (conj turned_sound (conj (sound_identity R_field 3) (conj (unit_nonempty 3) left_nonempty))). Qed.
Example obox_apart_case : apart 2 (image 2 (xmat turned) (in_box 2 unit_box)) (in_box 2 (mkRect (fun _ => -2 : R_ord) (fun _ => -1 : R_ord))).
Proof.
  intros x y (q & Q & E) By S. pose proof (Q 0%nat ltac:(lia)) as Q0. pose proof (Q 1%nat ltac:(lia)) as Q1. specialize (E 0%nat ltac:(lia)). specialize (By 0%nat ltac:(lia)). rewrite <- (S 0%nat ltac:(lia)), E in By. unfold turned, mat3 in By. cbn in *. lra.
Qed.
Example obox_overlap_case N : overlap N (image N (xmat (@xf_identity R_field)) (in_box N unit_box)) (in_box N unit_box).
Proof.
  exists (fun _ => / 2), (/ 2). split; [lra|]. intros p H. assert (in_box N unit_box p) as I; [|split; [now apply identity_image; [apply in_box_respects|]|exact I]].
  intros i L. pose proof (ShapeProofs.coordinate_le N (fun j => p j - / 2) i L) as C. cbv beta in C. unfold ball, distance in H. pose proof (Rle_abs (p i - / 2)). pose proof (Rle_abs (- (p i - / 2))) as O. rewrite Rabs_Ropp in O. cbn. lra.
Qed.
