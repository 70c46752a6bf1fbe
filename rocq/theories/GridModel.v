(** Model of geomc/shape/GridIterator.h over unbounded integer coordinates (coordinate overflow is not
    modelled).  A point of dimension N is a list of N coordinates in axis order. *)
From Coq Require Import ZArith List Bool.
From Verif Require Import Mem.
Import ListNotations.
Open Scope Z_scope.
Open Scope res_scope.

(** GridIterator.h:64-68: the loops run over the axes from [dim_first] to [dim_last]: ascending for
    ARRAYORDER_FIRST_DIM_CONSECUTIVE ([o = true]) and descending otherwise.  [along o] lists the
    coordinates in that loop order; it is its own inverse. *)
Definition along (o : bool) (p : list Z) : list Z := if o then p else rev p.

(** GridIterator.h:136-142 [increment], coordinates in loop order.  On the last axis the coordinate is left
    one past the end. *)
Fixpoint inc (lo hi pt : list Z) : list Z :=
  match lo, hi, pt with
  | l :: lo', h :: hi', p :: pt' =>
      let p := p + 1 in
      if p >? h then
        match pt' with
        | [] => [p]
        | _ => l :: inc lo' hi' pt'
        end
      else p :: pt'
  | _, _, _ => pt
  end.

(** GridIterator.h:144-150 [decrement]. *)
Fixpoint dec (lo hi pt : list Z) : list Z :=
  match lo, hi, pt with
  | l :: lo', h :: hi', p :: pt' =>
      let p := p - 1 in
      if p <? l then
        match pt' with
        | [] => [p]
        | _ => (h - 1) :: dec lo' hi' pt'
        end
      else p :: pt'
  | _, _, _ => pt
  end.

(** Rect.h:666 [dimensions] of an integer Rect. *)
Fixpoint dims (lo hi : list Z) : list Z :=
  match lo, hi with
  | l :: lo', h :: hi' => (h - l + 1) :: dims lo' hi'
  | _, _ => []
  end.
(** Rect.h:800-807 [volume]. *)
Definition volume (lo hi : list Z) : Z := fold_right (fun d v => Z.max d 0 * v) 1 (dims lo hi).

(** GridIterator.h:152-164 [advance]: the loop runs from the last axis to the first; [ds] are the dimensions
    in that (reverse loop) order.  Division truncates; dividing by zero is a fault. *)
Fixpoint adv (ds : list Z) (vol n : Z) : res (list Z) :=
  match ds with
  | [] => Ok []
  | d :: ds' =>
      if d =? 0 then Fault DivByZero else
      let vol := Z.quot vol d in
      if vol =? 0 then Fault DivByZero else
      let* rest := adv ds' vol (Z.rem n vol) in
      Ok (Z.quot n vol :: rest)
  end.

(** GridIterator.h:166-176 [distance_to], coordinates in loop order. *)
Fixpoint dist (ds p q : list Z) (vol : Z) : Z :=
  match ds, p, q with
  | d :: ds', a :: p', b :: q' => vol * (b - a) + dist ds' p' q' (vol * Z.max d 0)
  | _, _, _ => 0
  end.

(** GridIterator.h:119-126 [end], in loop order: the first cell past the last axis. *)
Fixpoint end_pt (lo hi : list Z) : list Z :=
  match lo, hi with
  | [l], h :: _ => [h + 1]
  | l :: lo', _ :: hi' => l :: end_pt lo' hi'
  | _, _ => []
  end.

(** The class: region, order and current point. *)
Record grid_it : Type := mkG { g_order : bool; g_lo : list Z; g_hi : list Z; g_pt : list Z }.

(** GridIterator.h:83-85 constructor from a Rect; 102-104 from [lo] and an exclusive [hi]. *)
Definition g_new (o : bool) (lo hi : list Z) : grid_it := mkG o lo hi lo.
Definition g_new_corners (o : bool) (lo hi : list Z) : grid_it := mkG o lo (map (fun h => h - 1) hi) lo.

Definition g_with (g : grid_it) (p : list Z) : grid_it := mkG (g_order g) (g_lo g) (g_hi g) p.
Definition g_begin (g : grid_it) : grid_it := g_with g (g_lo g).
Definition g_end (g : grid_it) : grid_it :=
  let v := along (g_order g) in g_with g (v (end_pt (v (g_lo g)) (v (g_hi g)))).
Definition g_inc (g : grid_it) : grid_it :=
  let v := along (g_order g) in g_with g (v (inc (v (g_lo g)) (v (g_hi g)) (v (g_pt g)))).
Definition g_dec (g : grid_it) : grid_it :=
  let v := along (g_order g) in g_with g (v (dec (v (g_lo g)) (v (g_hi g)) (v (g_pt g)))).
Definition g_advance (g : grid_it) (n : Z) : res grid_it :=
  let v := along (g_order g) in
  let* r := adv (rev (v (dims (g_lo g) (g_hi g)))) (volume (g_lo g) (g_hi g)) n in
  Ok (g_with g (v (rev r))).
Definition g_dist (g other : grid_it) : Z :=
  let v := along (g_order g) in dist (v (dims (g_lo g) (g_hi g))) (v (g_pt g)) (v (g_pt other)) 1.
Definition g_equal (g other : grid_it) : bool := if list_eq_dec Z.eq_dec (g_pt g) (g_pt other) then true else false.

(** The loop [for (it = g.begin(); it != g.end(); ++it)]: the points visited (dereferenced), or [None] when the
    loop is still running after [fuel] visits. *)
Fixpoint g_walk (fuel : nat) (g : grid_it) : option (list (list Z)) :=
  if g_equal g (g_end g) then Some [] else
  match fuel with
  | O => None
  | S k => match g_walk k (g_inc g) with Some l => Some (g_pt g :: l) | None => None end
  end.

(** GridIterator.h:196-262, the one-dimensional specialisation: region and current coordinate. *)
Record grid1 : Type := mkG1 { g1_lo : Z; g1_hi : Z; g1_pt : Z }.
(** GridIterator.h:208-213 constructors; 215-225 begin, end; 227-258 the operations. *)
Definition g1_new (lo hi : Z) : grid1 := mkG1 lo hi lo.
Definition g1_new_corners (lo hi : Z) : grid1 := mkG1 lo (hi + 1) lo.
Definition g1_end (g : grid1) : grid1 := mkG1 (g1_lo g) (g1_hi g) (g1_hi g + 1).
Definition g1_inc (g : grid1) : grid1 := mkG1 (g1_lo g) (g1_hi g) (g1_pt g + 1).
Definition g1_dec (g : grid1) : grid1 := mkG1 (g1_lo g) (g1_hi g) (g1_pt g - 1).
Definition g1_advance (g : grid1) (n : Z) : grid1 := mkG1 (g1_lo g) (g1_hi g) (g1_pt g + n).
Definition g1_dist (g other : grid1) : Z := g1_pt other - g1_pt g.
Fixpoint g1_walk (fuel : nat) (g : grid1) : option (list Z) :=
  if g1_pt g =? g1_pt (g1_end g) then Some [] else
  match fuel with
  | O => None
  | S k => match g1_walk k (g1_inc g) with Some l => Some (g1_pt g :: l) | None => None end
  end.
