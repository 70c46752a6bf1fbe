(** Model of geomc/shape/Extruded.h over exact reals; [None] is a division by zero (no number in C++).
    The functions of the base shape, which has [M] dimensions, are parameters. *)
From Coq Require Import Reals Arith Bool.
From Verif Require Import VecNModel RayModel Ord RectModel RectArithModel SphereModel.
Open Scope R_scope.

(** Vec(v, a): [a] after the coordinates of [v]. *)
Definition join (M : nat) (v : vec) (a : R) : vec := fun i => if (i <? M)%nat then v i else a.
Section Extruded.
Variables (M : nat) (b_contains : vec -> bool) (b_sdf : vec -> R) (b_normal b_project b_support : vec -> vec) (b_bounds : @rect R_ord) (b_ray : ray -> interval) (height : @rect R_ord).
Notation h_lo := (lo height 0%nat).
Notation h_hi := (hi height 0%nat).
Definition height_has (h : R) : bool := contains_pt 1 height (fun _ => h : R_ord).
Definition base_pt (p : vec) : vec := resized (S M) M p.
(** Extruded.h:67-70: contains. *)
Definition extruded_contains (p : vec) : bool := if height_has (p M) then b_contains (base_pt p) else false.
(** Extruded.h:72-93: sdf. *)
Definition extruded_sdf (p : vec) : R :=
  let h := p M in
  let sdf_base := b_sdf (base_pt p) in
  let sdf_h_slab := VecNModel.std_max (h - h_hi) (h_lo - h) in
  if height_has h then VecNModel.std_max sdf_base sdf_h_slab
  else if Rlt_dec sdf_base 0 then sdf_h_slab else sqrt (sdf_base * sdf_base + sdf_h_slab * sdf_h_slab).
(** Extruded.h:95-127: normal. *)
Definition extruded_normal (p : vec) : option vec :=
  let p_base := base_pt p in
  let h := p M in
  let inside_base := b_contains p_base in
  if height_has h then
    let cap_h := r_project height (fun _ => h : R_ord) 0%nat in
    let cap_dist := Rabs (h - cap_h) in
    let wall_dist := Rabs (b_sdf p_base) in
    if inside_base && (if Rlt_dec cap_dist wall_dist then true else false)
    then Some (join M (fun _ => 0) (if Rle_dec h_hi cap_h then 1 else -1))
    else Some (join M (b_normal p_base) 0)
  else if inside_base then Some (join M (fun _ => 0) (if Rle_dec h_hi h then 1 else -1))
  else
    let cap_pt := join M (b_project p_base) (clip height (fun _ => h : R_ord) 0%nat) in
    unit_vec (S M) (vec_sub p cap_pt).
(** Extruded.h:132-149: project. *)
Definition extruded_project (p : vec) : vec :=
  let h := p M in
  let h_cap := if Rlt_dec (Rabs (h - h_lo)) (Rabs (h - h_hi)) then h_lo else h_hi in
  let p_base := base_pt p in
  let p_proj := b_project p_base in
  let wall_pt := join M p_proj (clip height (fun _ => h : R_ord) 0%nat) in
  let cap_pt := if b_contains p_base then join M p_base h_cap else join M p_proj h_cap in
  if Rlt_dec (VecNModel.dist2 (S M) p wall_pt) (VecNModel.dist2 (S M) p cap_pt) then wall_pt else cap_pt.
(** Extruded.h:151-167: convex_support. *)
Definition extruded_support (d : vec) : vec :=
  let d_ := base_pt d in
  let d_ := if is_zero M d_ then (fun i => if (i =? 0)%nat then 1 else d_ i) else d_ in
  let p0 := b_support d_ in
  join M p0 (if Rlt_dec 0 (d M) then h_hi else h_lo).
(** Extruded.h:169-171: bounds. *)
Definition extruded_bounds : @rect R_ord := cartesian M b_bounds height.
(** Extruded.h:174-197: intersect(ray). *)
Definition extruded_ray (r : ray) : interval :=
  let r_base := ray_resized (S M) M r in
  let interval :=
    if is_zero M (direction r_base) then if b_contains (origin r_base) then mk_interval NInf PInf else iv_empty
    else b_ray r_base in
  let h := origin r M in
  let dH := direction r M in
  if Req_EM_T dH 0 then if height_has h then interval else iv_empty
  else inter interval (iv_between ((h_lo - h) / dH) ((h_hi - h) / dH)).
End Extruded.
