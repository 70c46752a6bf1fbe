(** Boxes of machine integers. *)
From Coq Require Import ZArith List Lia.
From Verif Require Import IboxModel IboxSpec IboxProofs.
Import ListNotations.
Open Scope Z_scope.

(** dimensions and center are defined exactly when the exact results of both operators on every axis fit, and then exact. *)
Theorem ibox_dimensions : forall w b d, i_dims w b = Some d <-> Forall2 (fun '(l, h) x => x = h - l + 1 /\ fits w (h - l) /\ fits w (h - l + 1)) b d.
Proof. exact dims_spec. Qed.
Print Assumptions ibox_dimensions.
Theorem ibox_center : forall w b c, i_center w b = Some c <-> Forall2 (fun '(l, h) x => x = Z.quot (h + l + 1) 2 /\ fits w (h + l) /\ fits w (h + l + 1)) b c.
Proof. exact center_spec. Qed.
Print Assumptions ibox_center.

(** Asking the default (empty) box for its dimensions or volume is undefined behaviour, in every dimension and width. *)
Theorem ibox_default_refuted : forall w n, 1 < w -> (0 < n)%nat -> (forall p, ~ in_cells (repeat (i_default w) n) p) /\ i_dims w (repeat (i_default w) n) = None /\ i_volume w (repeat (i_default w) n) = None.
Proof. intros w n W N. split; [intros p; exact (default_is_empty w n p W N)|exact (default_dims w n W N)]. Qed.
Print Assumptions ibox_default_refuted.

(** center is undefined for boxes of large coordinates although the center is a value of the type. *)
Theorem ibox_center_refuted : forall w l h b, 1 < w -> fits w l -> fits w h -> l <= h -> 2 ^ (w - 1) <= h + l + 1 -> i_center w ((l, h) :: b) = None /\ l <= (h + l + 1) / 2 <= h.
Proof. exact center_none. Qed.
Print Assumptions ibox_center_refuted.

(** A defined volume is the number of cells; it is defined for boxes with cells when it and the dimensions fit. *)
Theorem ibox_volume : forall w b, (forall v, i_volume w b = Some v -> cell_count b v) /\
  (1 < w -> Forall (fun '(l, h) => l <= h) b -> (forall l h, In (l, h) b -> fits w (h - l + 1)) -> forall n, cell_count b n -> fits w n -> i_volume w b = Some n).
Proof. intros w b. split; [intros v; exact (volume_count w b v)|exact (volume_defined w b)]. Qed.
Print Assumptions ibox_volume.

(** For empty boxes it depends on the order of the axes: the same lengths give 0 or undefined behaviour. *)
Theorem ibox_volume_refuted : forall w, 3 <= w -> let m := 2 ^ (w - 1) - 1 in let b := [(0, m - 1); (0, m - 1); (1, 0)] in
  box_fits w b /\ cell_count b 0 /\ i_volume w b = None /\ i_volume w [(1, 0); (0, m - 1); (0, m - 1)] = Some 0.
Proof. exact volume_order. Qed.
Print Assumptions ibox_volume_refuted.

(** Translation is defined exactly when the moved extremes fit, and then moves the set of cells, and back. *)
Theorem ibox_translate : forall w b t b', length t = length b ->
  (i_add w (beside b t) = Some b' <-> Forall2 (fun '(l, h, x) lh => lh = (l + x, h + x) /\ fits w (l + x) /\ fits w (h + x)) (beside b t) b') /\
  (i_add w (beside b t) = Some b' -> forall p, length p = length b -> (in_cells b' (with_each Z.add p t) <-> in_cells b p)).
Proof. intros w b t b' L. split; [apply add_spec|intros H p P; exact (moved_cells w b t b' p L P H)]. Qed.
Print Assumptions ibox_translate.
Theorem ibox_translate_back : forall w b t b', length t = length b ->
  (i_sub w (beside b t) = Some b' <-> Forall2 (fun '(l, h, x) lh => lh = (l - x, h - x) /\ fits w (l - x) /\ fits w (h - x)) (beside b t) b') /\
  (i_sub w (beside b t) = Some b' -> forall p, length p = length b -> (in_cells b' (with_each Z.sub p t) <-> in_cells b p)).
Proof. intros w b t b' L. split; [apply sub_spec|intros H p P; exact (moved_back w b t b' p L P H)]. Qed.
Print Assumptions ibox_translate_back.

(** A scaled box contains the scaled cells, a dilated one the original cells. *)
Theorem ibox_scale : forall w b a b', length a = length b ->
  (i_mul w (beside b a) = Some b' <-> Forall2 (fun '(l, h, x) lh => lh = (Z.min (l * x) (h * x), Z.max (l * x) (h * x)) /\ fits w (l * x) /\ fits w (h * x)) (beside b a) b') /\
  (i_mul w (beside b a) = Some b' -> forall p, length p = length b -> in_cells b p -> in_cells b' (with_each Z.mul p a)).
Proof. intros w b a b' L. split; [apply mul_spec|intros H p P; exact (scaled_cells w b a b' p L P H)]. Qed.
Print Assumptions ibox_scale.
Theorem ibox_dilated : forall w b a b', length a = length b ->
  (i_dilated w (beside b a) = Some b' <-> Forall2 (fun '(l, h, x) lh => lh = (l - x, h + x) /\ fits w (l - x) /\ fits w (h + x)) (beside b a) b') /\
  (i_dilated w (beside b a) = Some b' -> Forall (fun y => 0 <= y) a -> forall p, in_cells b p -> in_cells b' p).
Proof. intros w b a b' L. split; [apply dilated_spec|intros H P p; exact (dilated_cells w b a b' p L H P)]. Qed.
Print Assumptions ibox_dilated.

(** A box made from a center and positive lengths has these lengths (defined) and contains the center, whenever it can be made. *)
Theorem ibox_from_center : forall w v b,
  (i_from_center w v = Some b <-> Forall2 (fun '(c, d) lh => lh = i_span (c - Z.quot d 2) (c + Z.quot (d - 1) 2) /\ fits w (c - Z.quot d 2) /\ fits w (d - 1) /\ fits w (c + Z.quot (d - 1) 2)) v b) /\
  (i_from_center w v = Some b -> Forall (fun '(c, d) => 0 < d /\ fits w d) v -> i_dims w b = Some (map snd v) /\ in_cells b (map fst v)).
Proof. intros w v b. split; [apply from_center_spec|exact (from_center_dims w v b)]. Qed.
Print Assumptions ibox_from_center.
Theorem ibox_from_corner : forall w v b, i_from_corner w v = Some b <-> Forall2 (fun '(c, d) lh => lh = (Z.min c (c + d - 1), Z.max c (c + d - 1)) /\ fits w (c + d) /\ fits w (c + d - 1)) v b.
Proof. exact from_corner_spec. Qed.
Print Assumptions ibox_from_corner.
Theorem ibox_set_dimensions : forall w v b, i_set_dims w v = Some b <-> Forall2 (fun '(l, h, d) lh => let g := Z.quot (Z.abs d - (h - l + 1)) 2 in
  lh = (l - g, h + g) /\ fits w (Z.abs d) /\ fits w (h - l) /\ fits w (h - l + 1) /\ fits w (Z.abs d - (h - l + 1)) /\ fits w (l - g) /\ fits w (h + g)) v b.
Proof. exact set_dims_spec. Qed.
Print Assumptions ibox_set_dimensions.

(** Unsigned types: exact while nothing wraps ... *)
Theorem ubox_exact : forall w, 0 < w ->
  (forall l h, 0 <= l <= h -> h + l + 1 < 2 ^ w -> u_center w l h = (l + h + 1) / 2 /\ l <= u_center w l h <= h) /\
  (forall l h, 0 <= l < 2 ^ w -> 0 <= h < 2 ^ w -> l <= h -> h - l + 1 < 2 ^ w -> u_dims w l h = h - l + 1) /\
  (forall c d, 0 < d < 2 ^ w -> d / 2 <= c -> c + (d - 1) / 2 < 2 ^ w -> u_from_center w c d = (c - d / 2, c + (d - 1) / 2)) /\
  (forall l h t x, 0 <= l -> h + t < 2 ^ w -> 0 <= t -> l <= x <= h -> fst (u_add w (l, h) t) <= x + t <= snd (u_add w (l, h) t)).
Proof.
  intros w W. split; [exact (u_center_ok w)|]. split; [intros l h L H; exact (proj1 (proj2 (u_dims_ok w l h W L H)))|]. split; [intros c d; exact (u_from_center_ok w c d W)|exact (u_add_ok w)].
Qed.
Print Assumptions ubox_exact.

(** ... but the center of a box of large coordinates lies below the box, a box made about a center near 0 does not contain it, moving part
    of a box over the end empties it, and empty boxes have huge dimensions. *)
Theorem ubox_wraps_refuted : forall w, 0 < w ->
  (forall l h, 0 < l <= h -> h < 2 ^ w -> 2 ^ w <= h + l + 1 -> u_center w l h < l) /\
  (forall c d, 2 < d < 2 ^ w -> 0 <= c < d / 2 -> u_from_center w c d = (c + (d - 1) / 2, 2 ^ w + c - d / 2) /\ c < fst (u_from_center w c d)) /\
  (forall l h t, 0 <= l <= h -> 0 <= t -> h < 2 ^ w -> t < 2 ^ w -> l + t < 2 ^ w -> 2 ^ w <= h + t -> snd (u_add w (l, h) t) < fst (u_add w (l, h) t)) /\
  (forall l h, 0 <= l < 2 ^ w -> 0 <= h < 2 ^ w -> h + 1 < l -> u_dims w l h = 2 ^ w - (l - h - 1)).
Proof.
  intros w W. split; [intros l h; exact (u_center_bad w l h W)|]. split; [intros c d; exact (u_from_center_bad w c d W)|]. split; [intros l h t; exact (u_add_bad w l h t W)|intros l h L H; exact (proj2 (proj2 (u_dims_ok w l h W L H)))].
Qed.
Print Assumptions ubox_wraps_refuted.

(** Concrete boxes. *)
Example ibox_example : i_volume 32 [(-1, 1); (0, 4)] = Some 15 /\ i_dims 32 [(-1, 1); (0, 4)] = Some [3; 5] /\ i_from_center 32 [(7, 4); (0, 3)] = Some [(5, 8); (-1, 1)] /\
  i_add 32 (beside [(-1, 1); (0, 4)] [5; -5]) = Some [(4, 6); (-5, -1)] /\ i_center 32 [(1500000000, 1500000000)] = None /\ u_from_center 32 1 10 = (5, 4294967292).
Proof. vm_compute. repeat split. Qed.
