(** Model of geomc/function/Raster.h and functiondetail/RasterDetail.h: discrete access to a raster.
    Grid coordinates and extents are lists of unbounded integers (index_t overflow is not modelled, the
    narrowing to [int] of the mirror mode is). *)
From Coq Require Import ZArith List Bool.
From Verif Require Import Mem GridModel.
Import ListNotations.
Open Scope Z_scope.
Open Scope res_scope.

Inductive edge : Type := EClamp | EPeriodic | EMirror | EConstant.

(** Conversion of an integer to a 32-bit [int]. *)
Definition int32 (x : Z) : Z := (x + 2 ^ 31) mod 2 ^ 32 - 2 ^ 31.

(** RasterDetail.h:28-30, 36-38 (with Utils.h:23-26 [positive_mod]), 44-50, 56-58: [_ImplEdge::coord]. *)
Definition edge_coord (e : edge) (c max : Z) : res Z :=
  match e with
  | EClamp => Ok (Z.max (Z.min c (max - 1)) 0)
  | EPeriodic => if max =? 0 then Fault DivByZero else Ok (Z.rem (Z.rem c max + max) max)
  | EMirror =>
      let c := Z.abs c in
      let max := max - 1 in
      if max =? 0 then Fault DivByZero else
      let cyc := int32 (Z.quot c max) in
      let i := int32 (Z.rem c max) in
      Ok (if Z.land cyc 1 =? 0 then i else max - i)
  | EConstant => Ok c
  end.

(** RasterDetail.h:136-149 [_ImplRasterIndex::index] (the loop; M = 1 at 152-159 is the same computation). *)
Fixpoint flat_index (e : edge) (extent c : list Z) (dim idx : Z) : res Z :=
  match extent, c with
  | m :: extent', x :: c' =>
      let* x := edge_coord e x m in
      flat_index e extent' c' (dim * m) (idx + x * dim)
  | _, _ => Ok idx
  end.

(** RasterDetail.h:165-178 [array_product]. *)
Definition array_product (l : list Z) : Z := fold_left Z.mul l 1.

Section Raster.
Variable O : Type.
Variable zero : O.

(** Raster.h:127-132: the members ([m_domain] is modelled elsewhere).  [abyss = None] is an uninitialised
    value. *)
Record raster : Type := mkR { r_extent : list Z; r_chan : nat; r_data : list O; r_abyss : option (list O) }.

(** Raster.h:145-152: the constructor fills with zero.  [m_abyss] is default-initialised: a [Vec] is zero, a
    plain number (one channel) is indeterminate. *)
Definition abyss0 (n : nat) : option (list O) := if (n =? 1)%nat then None else Some (repeat zero n).
Definition r_new (dims : list Z) (n : nat) : raster :=
  mkR dims n (repeat zero (Z.to_nat (array_product dims * Z.of_nat n))) (abyss0 n).
(** Raster.h:170-181: from existing data. *)
Definition r_of_data (dims : list Z) (n : nat) (src : list O) : raster :=
  mkR dims n (firstn (Z.to_nat (array_product dims * Z.of_nat n)) src) (abyss0 n).

(** Raster.h:214-216 [setAbyss]. *)
Definition r_set_abyss (r : raster) (v : list O) : raster := mkR (r_extent r) (r_chan r) (r_data r) (Some v).

(** Raster.h:381-393 [contains_gridpt]. *)
Fixpoint contains (extent idx : list Z) : bool :=
  match extent, idx with
  | e :: extent', c :: idx' => if (c <? 0) || (e <=? c) then false else contains extent' idx'
  | _, _ => true
  end.

(** Raster.h:437-441 [index]. *)
Definition r_index (e : edge) (r : raster) (c : list Z) : res Z :=
  let* k := flat_index e (r_extent r) c 1 0 in Ok (k * Z.of_nat (r_chan r)).

(** [PointType::from_ptr]: read [n] consecutive values. *)
Definition read (d : list O) (offs : Z) (n : nat) : res (list O) :=
  if (0 <=? offs) && (offs + Z.of_nat n <=? Z.of_nat (length d))
  then Ok (firstn n (skipn (Z.to_nat offs) d)) else Fault OutOfBounds.
Definition write (d : list O) (offs : Z) (v : list O) : res (list O) :=
  if (0 <=? offs) && (offs + Z.of_nat (length v) <=? Z.of_nat (length d))
  then Ok (firstn (Z.to_nat offs) d ++ v ++ skipn (Z.to_nat offs + length v) d) else Fault OutOfBounds.

(** Raster.h:223-229 [set]. *)
Definition r_set (r : raster) (idx : list Z) (v : list O) : res raster :=
  if contains (r_extent r) idx then
    let* p := r_index EConstant r idx in
    let* d := write (r_data r) p v in
    Ok (mkR (r_extent r) (r_chan r) d (r_abyss r))
  else Ok r.

(** Raster.h:329-346 [sample_discrete]. *)
Definition r_sample (e : edge) (r : raster) (pt : list Z) : res (list O) :=
  match e with
  | EConstant =>
      if contains (r_extent r) pt then
        let* o := r_index EConstant r pt in read (r_data r) o (r_chan r)
      else match r_abyss r with Some v => Ok v | None => Fault DeadRead end
  | _ => let* o := r_index e r pt in read (r_data r) o (r_chan r)
  end.

(** Raster.h:241-248 [copy]: the samples of the region in the order of the grid iteration. *)
Fixpoint r_gather (e : edge) (r : raster) (pts : list (list Z)) : res (list (list O)) :=
  match pts with
  | [] => Ok []
  | p :: pts' => let* v := r_sample e r p in let* vs := r_gather e r pts' in Ok (v :: vs)
  end.
Definition r_copy (fuel : nat) (e : edge) (r : raster) (lo hi : list Z) : option (res (list (list O))) :=
  match g_walk fuel (g_begin (g_new true lo hi)) with
  | Some pts => Some (r_gather e r pts)
  | None => None
  end.
End Raster.
Arguments mkR {O} r_extent r_chan r_data r_abyss.
Arguments r_extent {O}. Arguments r_chan {O}. Arguments r_data {O}. Arguments r_abyss {O}.
Arguments r_new {O}. Arguments r_of_data {O}. Arguments r_set_abyss {O}. Arguments r_index {O}.
Arguments read {O}. Arguments write {O}. Arguments r_set {O}. Arguments r_sample {O}.
Arguments r_gather {O}. Arguments r_copy {O}.

(** Conversion of a real grid coordinate to [index_t]: truncation towards zero. *)
From Coq Require Import QArith.
Definition truncQ (q : Q) : Z := Z.quot (Qnum q) (Zpos (Qden q)).
(** Rect.h:901-903 [unmap] and Raster.h:433-435 [toGridSpace], along one axis, over the rationals. *)
Definition to_grid (extent : Z) (lo hi pt : Q) : Q := (inject_Z extent * ((pt - lo) / (hi - lo)))%Q.
(** Raster.h:145-152: the domain of a raster built without one. *)
Definition default_domain (extent : Z) : Q * Q := (0%Q, (inject_Z extent - 1)%Q).
(** RasterDetail.h:87-90 (INTERP_NEAREST): the grid point sampled. *)
Definition nearest_cell (extent : Z) (lo hi pt : Q) : Z := truncQ (to_grid extent lo hi pt + (1 # 2)).
(** RasterDetail.h:101-103 (INTERP_LINEAR; the same at 120-122): base cell and the fraction within it. *)
Definition linear_cell (extent : Z) (lo hi pt : Q) : Z * Q :=
  let g := to_grid extent lo hi pt in let c := truncQ g in (c, (g - inject_Z c)%Q).
