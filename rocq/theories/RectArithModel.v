(** Model of the arithmetic part of geomc/shape/Rect.h: over the reals for floating-point Rects (rounding is
    not modelled), over the integers for integer Rects (overflow is not modelled). *)
From Coq Require Import ZArith Reals List Bool Arith.
From Verif Require Import Mem Ord RectModel.
Import ListNotations.

(** * Reals *)
Section Real.
Open Scope R_scope.
Variable N : nat.
Notation rpt := (@point R_ord).
Notation rrect := (@rect R_ord).

(** Rect.h:365-406: translation by a vector. *)
Definition r_add (r : rrect) (d : rpt) : rrect := mkRect (fun i => lo r i + d i : R_ord) (fun i => hi r i + d i).
Definition r_sub (r : rrect) (d : rpt) : rrect := mkRect (fun i => lo r i - d i : R_ord) (fun i => hi r i - d i).
(** Rect.h:1018-1020: [p - r], as written. *)
Definition pt_minus_rect (p : rpt) (r : rrect) : rrect := r_sub r p.
(** Rect.h:482-490, 499-506: scaling. *)
Definition r_scale (r : rrect) (a : rpt) : rrect :=
  let lo_a := (fun i => lo r i * a i) : rpt in let hi_a := (fun i => hi r i * a i) : rpt in
  mkRect (vmin lo_a hi_a) (vmax lo_a hi_a).
(** Rect.h:514-521. *)
Definition r_unscale (r : rrect) (a : rpt) : rrect :=
  let lo_a := (fun i => lo r i / a i) : rpt in let hi_a := (fun i => hi r i / a i) : rpt in
  mkRect (vmin lo_a hi_a) (vmax lo_a hi_a).
(** Rect.h:778-780 [dilated], 787-789 [minkowski_sum]. *)
Definition r_dilated (r : rrect) (c : rpt) : rrect := mkRect (fun i => lo r i - c i : R_ord) (fun i => hi r i + c i).
Definition r_minkowski (a b : rrect) : rrect := mkRect (fun i => lo a i + lo b i : R_ord) (fun i => hi a i + hi b i).
(** Rect.h:655-657, 666-668 (endpoint_measure = 0). *)
Definition r_center (r : rrect) : rpt := fun i => (hi r i + lo r i + 0) / 2.
Definition r_dims (r : rrect) : rpt := fun i => hi r i - lo r i + 0.
(** Rect.h:136-144, 152-159. *)
Definition r_from_center (c d : rpt) : rrect := spanning_corners (fun i => c i - d i / 2 : R_ord) (fun i => c i + (d i - 0) / 2).
Definition r_from_corner (c d : rpt) : rrect := spanning_corners c (fun i => c i + d i - 0).
(** Rect.h:714-716 [centered_on]. *)
Definition r_centered_on (r : rrect) (c : rpt) : rrect := r_from_center c (r_dims r).
(** Rect.h:674-695 [set_dimensions]. *)
Definition r_set_dims (r : rrect) (d : rpt) : rrect :=
  let diff i := (Rabs (d i) - r_dims r i) / 2 in
  mkRect (fun i => lo r i - diff i : R_ord) (fun i => hi r i + diff i).
(** Rect.h:891-894 [remap], 901-903 [unmap]. *)
Definition r_remap (r : rrect) (s : rpt) : rpt := fun i => (1 - s i) * lo r i + s i * hi r i.
Definition r_unmap (r : rrect) (p : rpt) : rpt := fun i => (p i - lo r i) / (hi r i - lo r i).
(** Rect.h:850-861 [project]. *)
Definition r_project (r : rrect) (p : rpt) : rpt :=
  fun i => let d_lo := Rabs (p i - lo r i) in let d_hi := Rabs (p i - hi r i) in
           if Rltb d_lo d_hi then lo r i else hi r i.
(** Sum over the axes, and Euclidean distance. *)
Definition sum_axes (f : nat -> R) : R := fold_right Rplus 0 (map f (seq 0 N)).
Definition dist2 (p q : rpt) : R := sum_axes (fun i => (p i - q i) * (p i - q i)).
Definition dist (p q : rpt) : R := sqrt (dist2 p q).
(** Rect.h:866-869 [sdf], 876-878 [dist2]. *)
Definition r_sdf (r : rrect) (p : rpt) : R :=
  (if contains_pt N r p then -1 else 1) * dist (r_project r p) p.
Definition r_dist2 (r : rrect) (p : rpt) : R := dist2 p (clip r p).
(** Rect.h:752-770 [fitted_to]. *)
Definition r_fit_ratio (a b : rrect) : R :=
  fold_left (fun m i => let ratio := if Req_EM_T (r_dims a i) 0 then 0 else r_dims b i / r_dims a i in
                        @omax R_ord m (Rabs ratio)) (seq 0 N) 0.
Definition r_fitted_to (a b : rrect) : rrect :=
  r_from_center (r_center b) (fun i => r_dims a i * r_fit_ratio a b).
End Real.

(** * Intervals with infinite ends, for ray intersection *)
Inductive ext : Type := NInf | Fin (x : R) | PInf.
Definition ext_ltb (a b : ext) : bool :=
  match a, b with
  | NInf, NInf => false | NInf, _ => true
  | _, NInf => false
  | Fin x, Fin y => Rltb x y
  | Fin _, PInf => true
  | PInf, _ => false
  end.
Definition ext_ord : ord.
Proof.
  refine (mkOrd ext ext_ltb _ _ _).
  - intros [| |]; cbn; auto. apply (@ltb_irrefl R_ord).
  - intros [| |] [| |] [| |]; cbn; try discriminate; auto. apply (@ltb_trans R_ord).
  - intros [| |] [| |]; cbn; try discriminate; auto. intros A B. f_equal. now apply (@ltb_total R_ord).
Defined.

(** Rect.h:960-980: ray intersection.  [Rect<T,1>::full] is (-inf, inf); the empty Rect is (inf, -inf) (the code
    uses the largest finite values). *)
Definition interval : Type := @rect ext_ord.
Definition mk_interval (a b : ext) : interval := mkRect (fun _ => a : ext_ord) (fun _ => b).
Fixpoint ray_axes (r : @rect R_ord) (origin direction : nat -> R) (axes : list nat) (iv : interval) : interval :=
  match axes with
  | [] => iv
  | i :: axes' =>
      if Req_EM_T (direction i) 0 then
        if Rltb (origin i) (lo r i) || Rltb (hi r i) (origin i) then mk_interval PInf NInf
        else ray_axes r origin direction axes' iv
      else ray_axes r origin direction axes'
             (inter iv (spanning_corners (fun _ => Fin ((hi r i - origin i) / direction i) : ext_ord)
                                         (fun _ => Fin ((lo r i - origin i) / direction i))))
  end.
Definition ray_intersect (N : nat) (r : @rect R_ord) (origin direction : nat -> R) : interval :=
  ray_axes r origin direction (seq 0 N) (mk_interval NInf PInf).

(** * Integers *)
Section Int.
Open Scope Z_scope.
Notation zpt := (@point Z_ord).
Notation zrect := (@rect Z_ord).

(** Rect.h:136-144, 152-159, 655-657, 666-668 with endpoint_measure = 1; [/ 2] truncates. *)
Definition z_from_center (c d : zpt) : zrect :=
  spanning_corners (fun i => c i - Z.quot (d i) 2 : Z_ord) (fun i => c i + Z.quot (d i - 1) 2).
Definition z_from_corner (c d : zpt) : zrect := spanning_corners c (fun i => c i + d i - 1).
Definition z_center (r : zrect) : zpt := fun i => Z.quot (hi r i + lo r i + 1) 2.
Definition z_dims (r : zrect) : zpt := fun i => hi r i - lo r i + 1.
(** Rect.h:674-695. *)
Definition z_set_dims (r : zrect) (d : zpt) : zrect :=
  let diff i := Z.quot (Z.abs (d i) - z_dims r i) 2 in
  mkRect (fun i => lo r i - diff i : Z_ord) (fun i => hi r i + diff i).
Definition z_add (r : zrect) (d : nat -> Z) : zrect := mkRect (fun i => lo r i + d i : Z_ord) (fun i => hi r i + d i).

(** Rect.h:910-948 [contact_vector] for an integer type of at most 64 bits with largest value [tmax].
    [shortest_axis] is [None] until assigned. *)
Definition cv_step (a b : zrect) (i : nat) : Z * bool :=
  let d0 := lo b i - hi a i in
  let d1 := hi b i - lo a i in
  (if Z.abs d0 <? Z.abs d1 then d0 else d1, negb ((hi a i <=? lo b i) || (hi b i <=? lo a i))).
Definition cv_shortest (a b : zrect) (axes : list nat) (tmax : Z) : Z * option nat :=
  fold_left (fun st i => let s := fst (cv_step a b i) in
     if Z.abs s <? Z.abs (fst st) then (s, Some i) else st) axes (tmax, None).
Definition contact_vector (N : nat) (tmax : Z) (a b : zrect) : res ((nat -> Z) * bool) :=
  let all := all_axes N (fun i => snd (cv_step a b i)) in
  if all then
    match cv_shortest a b (seq 0 N) tmax with
    | (v, Some k) => Ok (fun i => if Nat.eqb i k then v else 0, true)
    | (_, None) => Fault OtherUB
    end
  else Ok (fun i => if snd (cv_step a b i) then 0 else fst (cv_step a b i), false).
End Int.
