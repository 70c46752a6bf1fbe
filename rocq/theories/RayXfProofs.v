(** Lemmas for transformed rays. *)
From Coq Require Import Reals Lra Lia Arith.
From Verif Require Import Fld RFld LinSpec FldLemmas AffineModel AffineSpec AffineProofs VecNModel RayModel.
Open Scope R_scope.

Lemma apply_ext N (xf : xform R_field) p q : agree N p q -> agree N (xf_apply N xf p) (xf_apply N xf q).
Proof. intros H i L. rewrite !apply_maps by lia. now apply maps_ext. Qed.
Lemma vector_scaled N (xf : xform R_field) v s i : xf_apply_vector N xf (vec_scale v s) i = (xf_apply_vector N xf v i * s)%R.
Proof.
  rewrite !apply_vector_is. unfold vec_scale. induction N as [|N IH]; cbn [sum]; unR; [ring|]. rewrite IH. ring.
Qed.
Lemma transformed_point N (xf : xform R_field) r s i : (i < N)%nat ->
  xf_apply N xf (at_multiple r s) i = at_multiple (xf_ray N xf r) s i.
Proof.
  intros L. unfold at_multiple, xf_ray. cbn [origin direction]. unfold vec_add at 2. unfold vec_scale at 2.
  rewrite <- vector_scaled. exact (vector_difference R_field N xf (origin r) (vec_scale (direction r) s) i L).
Qed.
Lemma transformed_back N (xf : xform R_field) r i : sound N xf -> (i < N)%nat ->
  origin (ray_unxf N xf (xf_ray N xf r)) i = origin r i /\ direction (ray_unxf N xf (xf_ray N xf r)) i = direction r i.
Proof.
  intros H L. split; [apply (sound_round_trips R_field N xf H (origin r)); exact L|].
  exact (vector_round_trip R_field N xf (direction r) H i L).
Qed.
