(** Model of geomc/shape/Oriented.h over exact reals. The functions of the transformed shape are parameters; the affine transforms are those of AffineModel. *)
From Coq Require Import List Reals Arith Bool.
From Verif Require Import Fld RFld DetInvModel AffineModel VecNModel RayModel Ord RectModel RectArithModel.
Import ListNotations.
Open Scope R_scope.

Section Oriented.
Variables (N : nat) (s_contains : vec -> bool) (s_support : vec -> vec) (s_ray : ray -> interval) (xf : xformR).
(** Oriented.h:70-73. *)
Definition oriented_contains (p : vec) : bool := s_contains (xf_apply_inverse N xf p).
(** Oriented.h:75-79. *)
Definition oriented_support (d : vec) : vec := xf_apply N xf (s_support (xf_apply_inverse_normal N xf d)).
(** Oriented.h:81-101: the direction searched is a row of the matrix. *)
Definition oriented_bounds : @rect R_ord :=
  mkRect (fun axis => xf_apply N xf (s_support (vec_neg (xmat xf axis))) axis : R_ord) (fun axis => xf_apply N xf (s_support (xmat xf axis)) axis).
(** Oriented.h:104-106. *)
Definition oriented_ray (r : ray) : interval := s_ray (ray_unxf N xf r).
End Oriented.

(** Oriented.h:114-233: the specialisation for boxes. *)
Section OrientedRect.
Variables (N : nat) (b : @rect R_ord) (xf : xformR).
(** Oriented.h:154-157: bit [j] of [i] picks the end along axis [j]. *)
Definition box_corner (i : nat) : vec := fun j => if Nat.testbit i j then hi b j else lo b j.
(** Oriented.h:144-164. *)
Definition obox_bounds : @rect R_ord :=
  fold_left (fun (r : @rect R_ord) i => let p : vec := xf_apply N xf (box_corner i) in mkRect (vmin (lo r) (p : @point R_ord)) (vmax (hi r) (p : @point R_ord)))
    (seq 1 (2 ^ N - 1)) (mkRect (xf_apply N xf (lo b) : @point R_ord) (xf_apply N xf (lo b))).
(** Oriented.h:171-178. *)
Definition obox_support (d : vec) : vec :=
  let d_body := xf_apply_inverse_normal N xf d in
  xf_apply N xf (fun i => if Rlt_dec (d_body i) 0 then lo b i else hi b i).
(** Oriented.h:184-187. *)
Definition obox_contains (p : vec) : bool := contains_pt (K := R_ord) N b (xf_apply_inverse N xf p).
(** Oriented.h:217-219. *)
Definition obox_ray (r : ray) : interval := let r' := ray_unxf N xf r in ray_intersect N b (origin r') (direction r').
(** Oriented.h:222-232: column [i] of the matrix, stretched by the length of the box along axis [i]. *)
Definition obox_volume (bigger : R_field -> R_field -> bool) : R :=
  det_destructive bigger (fun k => ((hi b (k mod N)%nat : R) - lo b (k mod N)%nat) * xmat xf (k / N)%nat (k mod N)%nat : R_field) N.
End OrientedRect.

(** Oriented.h:250-330: a transformed shape is a pair of a shape and a transform. *)
Definition orient {A : Type} (xf : xformR) (s : A) : A * xformR := (s, xf).
Definition orient_again {A : Type} (N : nat) (xf : xformR) (s : A * xformR) : A * xformR := (fst s, xf_mul N xf (snd s)).
Definition orient_assign {A : Type} (N : nat) (s : A * xformR) (xf : xformR) : A * xformR := (fst s, xf_mul_assign N (snd s) xf).
Definition unorient {A : Type} (s : A) (xf : xformR) : A * xformR := (s, xf_inverse xf).
Definition unorient_again {A : Type} (N : nat) (s : A * xformR) (xf : xformR) : A * xformR := (fst s, xf_div N (snd s) xf).
Definition unorient_assign {A : Type} (N : nat) (same_object : bool) (s : A * xformR) (xf : xformR) : A * xformR :=
  (fst s, xf_div_assign same_object N (snd s) xf).
(** Oriented.h:109-111, 167-169. *)
Definition oriented_oriented_bounds (s_bounds : @rect R_ord) (xf : xformR) : @rect R_ord * xformR := orient xf s_bounds.
