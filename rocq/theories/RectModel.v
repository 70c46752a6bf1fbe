(** Model of the order-only part of geomc/shape/Rect.h.  A point of dimension [N] is a function from axis
    numbers; only axes below [N] count.  Coordinates are any totally ordered type (machine integers, or
    floating point without NaN). *)
From Coq Require Import List Bool Arith.
From Verif Require Import Ord.
Import ListNotations.

Section Rect.
Context {K : ord}.
Variable N : nat.

Definition point : Type := nat -> K.
(** Rect.h:76-79: the two extremes. *)
Record rect : Type := mkRect { lo : point; hi : point }.

(** Loops [for (axis = 0; axis < N; axis++) if (bad) return false; return true]. *)
Definition all_axes (f : nat -> bool) : bool := forallb f (seq 0 N).

(** VecStd.h:21-34: element-wise std::min, std::max. *)
Definition vmin (a b : point) : point := fun i => omin (a i) (b i).
Definition vmax (a b : point) : point := fun i => omax (a i) (b i).

(** Rect.h:167-174 [spanning_corners]. *)
Definition spanning_corners (c1 c2 : point) : rect := mkRect (vmin c1 c2) (vmax c1 c2).
(** Rect.h:702-705 [set_corners]. *)
Definition set_corners (r : rect) (c1 c2 : point) : rect := mkRect (vmin c1 c2) (vmax c1 c2).
(** Rect.h:280-283, 291-296: box union (by value and in place). *)
Definition union (a b : rect) : rect := mkRect (vmin (lo a) (lo b)) (vmax (hi a) (hi b)).
Definition union_into (a b : rect) : rect := mkRect (vmin (lo b) (lo a)) (vmax (hi b) (hi a)).
(** Rect.h:303-309, 317-322: point union. *)
Definition union_pt (a : rect) (p : point) : rect := mkRect (vmin (lo a) p) (vmax (hi a) p).
(** Rect.h:335-338, 352-356: intersection. *)
Definition inter (a b : rect) : rect := mkRect (vmax (lo a) (lo b)) (vmin (hi a) (hi b)).
(** Rect.h:91-93: the empty Rect; [tmax], [tmin] are std::numeric_limits<T>::max() and lowest(). *)
Definition rect_empty (tmin tmax : K) : rect := mkRect (fun _ => tmax) (fun _ => tmin).
(** Rect.h:194-201 [from_point_sequence]. *)
Definition from_points (tmin tmax : K) (ps : list point) : rect := fold_left union_pt ps (rect_empty tmin tmax).

(** Rect.h:214-224 and 581-591: point containment. *)
Definition contains_pt (r : rect) (p : point) : bool :=
  all_axes (fun i => negb (ltb (p i) (lo r i) || ltb (hi r i) (p i))).
(** Rect.h:600-610: box containment. *)
Definition contains_box (r box : rect) : bool :=
  all_axes (fun i => negb (ltb (lo box i) (lo r i) || ltb (hi r i) (hi box i))).
(** Rect.h:626-635 [intersects]. *)
Definition intersects (r box : rect) : bool :=
  all_axes (fun i => negb (leb (hi r i) (lo box i) || leb (hi box i) (lo r i))).
(** Rect.h:823-832 [is_empty]. *)
Definition is_empty (r : rect) : bool := negb (all_axes (fun i => negb (ltb (hi r i) (lo r i)))).
(** Rect.h:839-841 [clip]. *)
Definition clip (r : rect) (p : point) : point := vmin (hi r) (vmax (lo r) p).
(** Rect.h:950-957 [convex_support]; [neg i] says whether the direction is negative along [i]. *)
Definition convex_support (r : rect) (neg : nat -> bool) : point := fun i => if neg i then lo r i else hi r i.

(** Rect.h:418-439: interval exclusion [a - b], as written: the loop assigns the members of [*this] and the
    function returns the default-constructed [out].  The result is (returned Rect, new [*this]). *)
Definition exclude_axis (a_lo a_hi b_lo b_hi : K) : K * K :=
  if ltb b_hi b_lo then (a_lo, a_hi) else
  let pick_lo := ltb b_lo a_lo in
  let pick_hi := ltb a_hi b_hi in
  (if pick_lo then a_hi else omin a_hi b_lo, if pick_hi then a_lo else omax b_hi a_lo).
Definition exclude (tmin tmax : K) (a b : rect) : rect * rect :=
  let x i := exclude_axis (lo a i) (hi a i) (lo b i) (hi b i) in
  (rect_empty tmin tmax, mkRect (fun i => fst (x i)) (fun i => snd (x i))).
(** Rect.h:451-454 [operator-=]: assigns the returned Rect. *)
Definition exclude_into (tmin tmax : K) (a b : rect) : rect := fst (exclude tmin tmax a b).
End Rect.

(** Rect.h:549-559: Cartesian product of an [n]-dimensional Rect with another. *)
Definition cartesian {K : ord} (n : nat) (a b : @rect K) : @rect K :=
  mkRect (fun i => if i <? n then lo a i else lo b (i - n)) (fun i => if i <? n then hi a i else hi b (i - n)).
