(** The index arithmetic of rasters and grid iterators in machine integers (RasterModel.v and GridModel.v have it in exact integers).
    An operator on a signed type whose exact result does not fit is undefined behaviour, here [Fault OtherUB]. Coordinates of grid iterators have a
    signed type T of [w] bits, at least those of int; index_t is signed and has [wi] bits. A raster has coordinates of type index_t. *)
From Coq Require Import ZArith List Bool.
From Verif Require Import Mem GridModel RasterModel.
Import ListNotations.
Open Scope Z_scope.
Open Scope res_scope.

(** The lowest and greatest value of a signed type of [w] bits. *)
Definition lowest (w : Z) : Z := - 2 ^ (w - 1).
Definition greatest (w : Z) : Z := 2 ^ (w - 1) - 1.
(** The result of a signed operator. *)
Definition sg (w z : Z) : res Z := if (lowest w <=? z) && (z <=? greatest w) then Ok z else Fault OtherUB.
(** Division and remainder: by zero, and of the lowest value by -1, are undefined. *)
Definition sg_quot (w a b : Z) : res Z := if b =? 0 then Fault DivByZero else sg w (Z.quot a b).
Definition sg_rem (w a b : Z) : res Z := if b =? 0 then Fault DivByZero else let* _ := sg w (Z.quot a b) in Ok (Z.rem a b).
(** Conversion to a signed type of [w] bits. *)
Definition narrow (w x : Z) : Z := (x + 2 ^ (w - 1)) mod 2 ^ w - 2 ^ (w - 1).

Section Raster.
(** The width of index_t. *)
Variable w : Z.
(** RasterDetail.h:28-30, 36-38 (with Utils.h:24-26), 44-50, 56-58: [_ImplEdge::coord]; [cyc] and [i] have type int. *)
Definition m_edge (e : edge) (c max : Z) : res Z :=
  match e with
  | EClamp => let* m := sg w (max - 1) in Ok (Z.max (Z.min c m) 0)
  | EPeriodic => let* r := sg_rem w c max in let* s := sg w (r + max) in sg_rem w s max
  | EMirror =>
      let* a := sg w (Z.abs c) in
      let* m := sg w (max - 1) in
      let* q := sg_quot w a m in
      let* r := sg_rem w a m in
      let cyc := narrow 32 q in
      let i := narrow 32 r in
      if Z.land cyc 1 =? 0 then Ok i else sg w (m - i)
  | EConstant => Ok c
  end.
(** RasterDetail.h:136-149: the loop; for one axis (152-159) there is no arithmetic after [coord]. *)
Fixpoint m_flat (e : edge) (extent c : list Z) (dim idx : Z) : res Z :=
  match extent, c with
  | m :: extent', x :: c' =>
      let* x := m_edge e x m in
      let* s := sg w (x * dim) in
      let* idx := sg w (idx + s) in
      let* dim := sg w (dim * m) in
      m_flat e extent' c' dim idx
  | _, _ => Ok idx
  end.
Definition m_cell (e : edge) (extent c : list Z) : res Z :=
  match extent, c with [m], [x] => m_edge e x m | _, _ => m_flat e extent c 1 0 end.
(** Raster.h:437-441: index, with [n] channels. *)
Definition m_index (e : edge) (extent : list Z) (n : Z) (c : list Z) : res Z := let* k := m_cell e extent c in sg w (k * n).
(** RasterDetail.h:165-178: array_product (for one axis the extent itself). *)
Fixpoint m_product (acc : Z) (l : list Z) : res Z := match l with
  | [] => Ok acc
  | m :: l' => let* a := sg w (acc * m) in m_product a l'
  end.
(** Raster.h:145-152 and 200-207: the number of values allocated. *)
Definition m_size (extent : list Z) (n : Z) : res Z :=
  let* p := match extent with [m] => Ok m | _ => m_product 1 extent end in sg w (p * n).
End Raster.

Section Grid.
(** The widths of T and of index_t. *)
Variables w wi : Z.
(** GridIterator.h:136-142: increment, coordinates in loop order. *)
Fixpoint m_inc (lo hi pt : list Z) : res (list Z) :=
  match lo, hi, pt with
  | l :: lo', h :: hi', p :: pt' =>
      let* p := sg w (p + 1) in
      if p >? h then
        match pt' with
        | [] => Ok [p]
        | _ => let* r := m_inc lo' hi' pt' in Ok (l :: r)
        end
      else Ok (p :: pt')
  | _, _, _ => Ok pt
  end.
(** GridIterator.h:119-126: end, in loop order. *)
Fixpoint m_end_pt (lo hi : list Z) : res (list Z) :=
  match lo, hi with
  | [l], h :: _ => let* e := sg w (h + 1) in Ok [e]
  | l :: lo', _ :: hi' => let* r := m_end_pt lo' hi' in Ok (l :: r)
  | _, _ => Ok []
  end.
(** Rect.h:666-668 and 800-807: dimensions and volume, both of type T. *)
Fixpoint m_dims (lo hi : list Z) : res (list Z) :=
  match lo, hi with
  | l :: lo', h :: hi' => let* d := sg w (h - l) in let* d := sg w (d + 1) in let* r := m_dims lo' hi' in Ok (d :: r)
  | _, _ => Ok []
  end.
Fixpoint m_volume (vol : Z) (ds : list Z) : res Z := match ds with
  | [] => Ok vol
  | d :: ds' => let* v := sg w (vol * Z.max d 0) in m_volume v ds'
  end.
(** GridIterator.h:152-164: the loop of advance, from the last axis to the first. The quotients and remainders have type index_t. *)
Fixpoint m_adv (ds : list Z) (vol n : Z) : res (list Z) :=
  match ds with
  | [] => Ok []
  | d :: ds' =>
      let* vol := sg_quot wi vol d in
      let* q := sg_quot wi n vol in
      let* r := sg_rem wi n vol in
      let* rest := m_adv ds' vol r in
      Ok (narrow w q :: rest)
  end.
(** GridIterator.h:166-176: distance_to. The differences have type T, products and sums type index_t. *)
Fixpoint m_jump (p q : list Z) : res (list Z) :=
  match p, q with
  | a :: p', b :: q' => let* j := sg w (b - a) in let* r := m_jump p' q' in Ok (j :: r)
  | _, _ => Ok []
  end.
Fixpoint m_dist (ds js : list Z) (dist vol : Z) : res Z :=
  match ds, js with
  | d :: ds', j :: js' =>
      let* t := sg wi (vol * j) in
      let* dist := sg wi (dist + t) in
      let* vol := sg wi (vol * Z.max d 0) in
      m_dist ds' js' dist vol
  | _, _ => Ok dist
  end.

(** The operations on the class of GridModel.v. *)
Definition mg_end (g : grid_it) : res grid_it :=
  let v := along (g_order g) in let* p := m_end_pt (v (g_lo g)) (v (g_hi g)) in Ok (g_with g (v p)).
Definition mg_inc (g : grid_it) : res grid_it :=
  let v := along (g_order g) in let* p := m_inc (v (g_lo g)) (v (g_hi g)) (v (g_pt g)) in Ok (g_with g (v p)).
Definition mg_advance (g : grid_it) (n : Z) : res grid_it :=
  let v := along (g_order g) in
  let* d := m_dims (g_lo g) (g_hi g) in
  let* vol := m_volume 1 d in
  let* r := m_adv (rev (v d)) vol n in
  Ok (g_with g (v (rev r))).
Definition mg_dist (g other : grid_it) : res Z :=
  let v := along (g_order g) in
  let* d := m_dims (g_lo g) (g_hi g) in
  let* j := m_jump (g_pt g) (g_pt other) in
  m_dist (v d) (v j) 0 1.
(** The loop [for (it = g.begin(); it != end; ++it)] with end = g.end(): the points visited, or [None] when it is still running after [fuel] visits. *)
Fixpoint m_loop (fuel : nat) (stop g : grid_it) : option (res (list (list Z))) :=
  if g_equal g stop then Some (Ok []) else
  match fuel with
  | O => None
  | S k => match mg_inc g with
    | Fault f => Some (Fault f)
    | Ok g' => match m_loop k stop g' with Some (Ok l) => Some (Ok (g_pt g :: l)) | x => x end
    end
  end.
Definition m_walk (fuel : nat) (g : grid_it) : option (res (list (list Z))) :=
  match mg_end g with Ok stop => m_loop fuel stop (g_begin g) | Fault f => Some (Fault f) end.
End Grid.
