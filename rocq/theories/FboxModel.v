(** Boxes (Rect) of floating-point numbers (see FmaModel.v for the numbers and operators; RectModel.v and RectArithModel.v have boxes of
    exact numbers). A point of N coordinates is a function from axes; only axes below N are read. All operators act on each axis. *)
From Coq Require Import Reals ZArith Bool List.
From Flocq Require Import Core BinarySingleNaN.
From Verif Require Import FmaModel FquadModel FvecModel.
Import ListNotations.

Section Model.
Variable prec emax : Z.
Context {Hprec : Prec_gt_0 prec} {Hemax : Prec_lt_emax prec emax}.
Notation float := (binary_float prec emax).
Notation point := (nat -> float).
Notation zero := (fl_lit prec emax 0 0).
Notation two := (fl_lit prec emax 2 0).
(** Rect.h:102-104: the lower and upper extremes. *)
Record fl_box : Type := fl_mkBox { fl_lo : point; fl_hi : point }.
(** Rect.h:92-94: the default constructor; numeric_limits<T>::max() is (2^prec - 1) 2^(emax - prec), lowest() its opposite. *)
Definition fl_default_box : fl_box := fl_mkBox (fun _ => fl_lit prec emax (2 ^ prec - 1) (emax - prec)) (fun _ => fl_lit prec emax (1 - 2 ^ prec) (emax - prec)).
(** VecBase.h:734-753 (for N = 1 std::min and std::max themselves): the arguments in the order of the calls. *)
Definition fl_vmin (a b : point) : point := fun i => fl_min prec emax (a i) (b i).
Definition fl_vmax (a b : point) : point := fun i => fl_max prec emax (a i) (b i).
(** Rect.h:167-174: spanning_corners. *)
Definition fl_spanning (c1 c2 : point) : fl_box := fl_mkBox (fl_vmin c1 c2) (fl_vmax c1 c2).
(** Rect.h:136-144: from_center; endpoint_measure (1046-1047) is 0. *)
Definition fl_from_center (c dims : point) : fl_box :=
  fl_spanning (fun i => fl_sub prec emax (c i) (fl_div prec emax (dims i) two)) (fun i => fl_add prec emax (c i) (fl_div prec emax (fl_sub prec emax (dims i) zero) two)).
(** Rect.h:581-592: contains(point). [v > h] is [h < v]. *)
Definition fl_contains (N : nat) (b : fl_box) (p : point) : bool :=
  forallb (fun i => negb (fl_ltb prec emax (p i) (fl_lo b i) || fl_ltb prec emax (fl_hi b i) (p i))) (seq 0 N).
(** Rect.h:280-283: union. *)
Definition fl_union (a b : fl_box) : fl_box := fl_mkBox (fl_vmin (fl_lo a) (fl_lo b)) (fl_vmax (fl_hi a) (fl_hi b)).
(** Rect.h:335-338: intersection. *)
Definition fl_intersection (a b : fl_box) : fl_box := fl_mkBox (fl_vmax (fl_lo a) (fl_lo b)) (fl_vmin (fl_hi a) (fl_hi b)).
(** Rect.h:365-367 and 376-378: translation. *)
Definition fl_box_add (b : fl_box) (dx : point) : fl_box := fl_mkBox (fun i => fl_add prec emax (fl_lo b i) (dx i)) (fun i => fl_add prec emax (fl_hi b i) (dx i)).
Definition fl_box_sub (b : fl_box) (dx : point) : fl_box := fl_mkBox (fun i => fl_sub prec emax (fl_lo b i) (dx i)) (fun i => fl_sub prec emax (fl_hi b i) (dx i)).
(** Rect.h:482-490 and 514-521: scale. *)
Definition fl_box_mul (b : fl_box) (a : point) : fl_box := fl_spanning (fun i => fl_mul prec emax (fl_lo b i) (a i)) (fun i => fl_mul prec emax (fl_hi b i) (a i)).
Definition fl_box_div (b : fl_box) (a : point) : fl_box := fl_spanning (fun i => fl_div prec emax (fl_lo b i) (a i)) (fun i => fl_div prec emax (fl_hi b i) (a i)).
(** Rect.h:655-657 and 666-668: center and dimensions. *)
Definition fl_center (b : fl_box) : point := fun i => fl_div prec emax (fl_add prec emax (fl_add prec emax (fl_hi b i) (fl_lo b i)) zero) two.
Definition fl_dimensions (b : fl_box) : point := fun i => fl_add prec emax (fl_sub prec emax (fl_hi b i) (fl_lo b i)) zero.
(** Rect.h:778-780 and 787-789: dilated and minkowski_sum. *)
Definition fl_dilated (b : fl_box) (c : point) : fl_box := fl_mkBox (fun i => fl_sub prec emax (fl_lo b i) (c i)) (fun i => fl_add prec emax (fl_hi b i) (c i)).
Definition fl_minkowski (a b : fl_box) : fl_box := fl_mkBox (fun i => fl_add prec emax (fl_lo a i) (fl_lo b i)) (fun i => fl_add prec emax (fl_hi a i) (fl_hi b i)).
(** Rect.h:823-832: is_empty. *)
Definition fl_is_empty (N : nat) (b : fl_box) : bool := existsb (fun i => fl_ltb prec emax (fl_hi b i) (fl_lo b i)) (seq 0 N).
(** Rect.h:839-841: clip. *)
Definition fl_clip (b : fl_box) (p : point) : point := fl_vmin (fl_hi b) (fl_vmax (fl_lo b) p).
(** Rect.h:891-894 and 901-903: remap and unmap. *)
Definition fl_remap (b : fl_box) (s : point) : point := fun i =>
  fl_add prec emax (fl_mul prec emax (fl_sub prec emax (fl_one prec emax) (s i)) (fl_lo b i)) (fl_mul prec emax (s i) (fl_hi b i)).
Definition fl_unmap (b : fl_box) (p : point) : point := fun i => fl_div prec emax (fl_sub prec emax (p i) (fl_lo b i)) (fl_sub prec emax (fl_hi b i) (fl_lo b i)).
(** Rect.h:960-981: intersect with the ray of the given origin and direction: the extremes of the interval of parameters. [None]: the
    early return (an empty interval). The loop, by the number of axes done. *)
Fixpoint fl_box_ray (N : nat) (b : fl_box) (o d : point) : option (float * float) := match N with
  | O => Some (B754_infinity true, B754_infinity false)
  | S i => match fl_box_ray i b o d with
    | None => None
    | Some (l, h) =>
      if fl_eqb prec emax (d i) zero then if fl_ltb prec emax (o i) (fl_lo b i) || fl_ltb prec emax (fl_hi b i) (o i) then None else Some (l, h)
      else
        let c1 := fl_div prec emax (fl_sub prec emax (fl_hi b i) (o i)) (d i) in
        let c2 := fl_div prec emax (fl_sub prec emax (fl_lo b i) (o i)) (d i) in
        Some (fl_max prec emax l (fl_min prec emax c1 c2), fl_min prec emax h (fl_max prec emax c1 c2))
    end
  end.
End Model.
Arguments fl_lo {prec emax}. Arguments fl_hi {prec emax}. Arguments fl_mkBox {prec emax}. Arguments fl_spanning {prec emax}. Arguments fl_from_center {prec emax Hprec Hemax}. Arguments fl_contains {prec emax}.
Arguments fl_default_box {prec emax Hprec Hemax}.
Arguments fl_vmin {prec emax}. Arguments fl_vmax {prec emax}.
Arguments fl_union {prec emax}. Arguments fl_intersection {prec emax}. Arguments fl_box_add {prec emax Hprec Hemax}. Arguments fl_box_sub {prec emax Hprec Hemax}. Arguments fl_box_mul {prec emax Hprec Hemax}. Arguments fl_box_div {prec emax Hprec Hemax}.
Arguments fl_center {prec emax Hprec Hemax}. Arguments fl_dimensions {prec emax Hprec Hemax}. Arguments fl_dilated {prec emax Hprec Hemax}. Arguments fl_minkowski {prec emax Hprec Hemax}. Arguments fl_is_empty {prec emax}. Arguments fl_clip {prec emax}.
Arguments fl_remap {prec emax Hprec Hemax}. Arguments fl_unmap {prec emax Hprec Hemax}. Arguments fl_box_ray {prec emax Hprec Hemax}.
