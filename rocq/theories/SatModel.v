(** Model of geomc/shape/shapedetail/SeparatingAxis.h and of the box tests of geomc/shape/Oriented.h that use it, over exact reals, for two and three dimensions. *)
From Coq Require Import List Reals Arith Bool.
From Verif Require Import Fld RFld AffineModel VecNModel Ord RectModel OrientedModel.
Open Scope R_scope.

(** Vec3.h:206-211. *)
Definition cross_vec (a b : vec) : vec := fun i =>
  match i with
  | O => a 1%nat * b 2%nat - a 2%nat * b 1%nat
  | S O => a 2%nat * b 0%nat - a 0%nat * b 2%nat
  | _ => a 0%nat * b 1%nat - a 1%nat * b 0%nat
  end.
(** A zero vector with one element set to 1 (SeparatingAxis.h:55-56, 106-108). *)
Definition one_at (j : nat) : vec := fun i => if (i =? j)%nat then 1 else 0.
(** SeparatingAxis.h:98-111 (N = 3) and 134-136 (N = 2): axis [i]. *)
Definition sat_axis (N : nat) (xf : xformR) (i : nat) : vec :=
  if (N =? 2)%nat || (i <? 3)%nat then xf_apply_normal N xf (one_at i)
  else cross_vec (one_at (i / 3 - 1)) (fun k => xmat xf k (i mod 3)).
(** SeparatingAxis.h:113-115 and 138-140. *)
Definition sat_axes (N : nat) : nat := if (N =? 2)%nat then 2 else 12.
(** SeparatingAxis.h:185-190 and 202-211: the least and the greatest of [n] numbers.  Instead of at the largest and the lowest number the scan starts at the first element; for finite elements the result is the same. *)
Definition corner_range (n : nat) (f : nat -> R) : R * R :=
  loop1 n (fun c r => (std_min (fst r) (f c), std_max (snd r) (f c))) (f 0%nat, f 0%nat).
(** Rect.h:626-635 for intervals. *)
Definition ranges_intersect (a b : R * R) : bool :=
  if Rle_dec (snd a) (fst b) then false else if Rle_dec (snd b) (fst a) then false else true.
(** SeparatingAxis.h:158-217: intersect. *)
Definition obox_intersects (N : nat) (b0 : @rect R_ord) (xf : xformR) (b1 : @rect R_ord) : bool :=
  let b0_pts := fun c => xf_apply N xf (box_corner b0 c) in
  let b1_pts := fun c => box_corner b1 c in
  let n_corners := (2 ^ N)%nat in
  forallb (fun i => let r := corner_range n_corners (fun j => b0_pts j i) in
                    if Rlt_dec (hi b1 i) (fst r) then false else if Rlt_dec (snd r) (lo b1 i) then false else true) (seq 0 N) &&
  forallb (fun i => let axis := sat_axis N xf i in
                    if vec_eq N axis (fun _ => 0) then true
                    else ranges_intersect (corner_range n_corners (fun c => dot N axis (b0_pts c))) (corner_range n_corners (fun c => dot N axis (b1_pts c)))) (seq 0 (sat_axes N)).
(** Rect.h:642-645. *)
Definition rect_intersects_obox (N : nat) (b1 b0 : @rect R_ord) (xf : xformR) : bool := obox_intersects N b0 xf b1.
(** Oriented.h:207-215: the box [b0] moved by [xf0] against the box [b1] moved by [xf1]. *)
Definition oboxes_intersect (N : nat) (b0 : @rect R_ord) (xf0 : xformR) (b1 : @rect R_ord) (xf1 : xformR) : bool :=
  let b1_in_b0 := unorient_again N (b1, xf1) xf0 in obox_intersects N (fst b1_in_b0) (snd b1_in_b0) b0.
