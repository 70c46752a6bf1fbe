(** Model of geomc/shape/Frustum.h over exact reals; [None] is a division by zero (no number in C++) or an infinite base interval.
    The functions of the base shape, which has [M] dimensions, are parameters. *)
From Coq Require Import Reals Arith Bool.
From Verif Require Import VecNModel RayModel Ord RectModel RectArithModel SphereModel ExtrudedModel.
Open Scope R_scope.

Section Frustum.
Variables (M : nat) (b_contains : vec -> bool) (b_support : vec -> vec) (b_bounds : @rect R_ord) (b_ray : ray -> interval) (height : @rect R_ord).
(** Frustum.h:229-233: clipped_height. *)
Definition clipped_height : @rect R_ord :=
  let h_lo : R := lo height 0%nat in let h_hi : R := hi height 0%nat in
  @mkRect R_ord (fun _ => if Rlt_dec h_lo 0 then if Rlt_dec 0 h_hi then 0 else h_lo else h_lo) (fun _ => h_hi).
(** Frustum.h:88-93: contains. *)
Definition frustum_contains (p : vec) : bool :=
  if height_has clipped_height (p M) then
    if Req_EM_T (p M) 0 then is_zero (S M) p
    else b_contains (base_pt M (fun i => p i / p M))
  else false.
(** Frustum.h:96-198: intersect(ray). *)
Definition frustum_ray (r : ray) : option interval :=
  let N := S M in
  let slab_range := ray_intersect 1 clipped_height (fun _ => origin r M) (fun _ => direction r M) in
  let o_ortho := vec_sub (origin r) (project_on N (origin r) (direction r)) in
  let z_plus : vec := fun i => if (i =? M)%nat then 1 else 0 in
  let o_base := vec_add (project_on N z_plus (direction r)) (project_on N z_plus o_ortho) in
  let v_base := vec_sub (direction r) (project_on N (direction r) o_base) in
  if Req_EM_T (o_base M) 0 then
    if is_zero N o_base then
      match fraction_on N (direction r) (origin r) with
      | None => None
      | Some s => Some (inter (mk_interval (Fin s) (Fin s)) slab_range)
      end
    else Some iv_empty
  else if is_zero N v_base then Some (if b_contains (base_pt M o_base) then slab_range else iv_empty)
  else
    let o_base' : vec := fun i => o_base i / o_base M in
    let ray_base := mkRay (base_pt M o_base') (base_pt M v_base) in
    let s := b_ray ray_base in
    if is_empty 1 s then Some iv_empty
    else match lo s 0%nat, hi s 0%nat with
    | Fin s_lo, Fin s_hi =>
      let p_lo := join M (at_multiple ray_base s_lo) 1 in
      let p_hi := join M (at_multiple ray_base s_hi) 1 in
      match fraction_on N (origin r) (direction r), fraction_on N p_lo o_ortho, fraction_on N p_hi o_ortho,
        fraction_on N p_lo (direction r), fraction_on N p_hi (direction r) with
      | Some o_x, Some p_lo_y, Some p_hi_y, Some p_lo_x, Some p_hi_x =>
        match div_opt p_lo_x p_lo_y, div_opt p_hi_x p_hi_y with
        | Some x0, Some x1 =>
          let a := VecNModel.std_min (x0 - o_x) (x1 - o_x) in
          let b := VecNModel.std_max (x0 - o_x) (x1 - o_x) in
          let h0 := origin r M + a * direction r M in
          let h1 := origin r M + b * direction r M in
          let s := if Bool.eqb (Rltb h0 0) (Rltb h1 0) then mk_interval (Fin a) (Fin b)
            else if ext_ltb (lo slab_range 0%nat) (Fin 0) then mk_interval NInf (Fin a) else mk_interval (Fin b) PInf in
          Some (inter s slab_range)
        | _, _ => None
        end
      | _, _, _, _, _ => None
      end
    | _, _ => None
    end.
(** Frustum.h:200-219: convex_support. *)
Definition frustum_support (d : vec) : vec :=
  let sign := if Rlt_dec (lo clipped_height 0%nat) 0 then -1 else 1 in
  let d_s : vec := fun i => sign * base_pt M d i in
  let d_s := if is_zero M d_s then (fun i => if (i =? 0)%nat then 1 else d_s i) else d_s in
  let p := join M (b_support d_s) 1 in
  let z := if Rlt_dec 0 (dot (S M) p d) then hi clipped_height 0%nat else lo clipped_height 0%nat in
  fun i => z * p i.
(** Frustum.h:221-227: bounds. *)
Definition frustum_bounds : @rect R_ord :=
  let h := clipped_height in
  cartesian M (union (r_scale b_bounds (fun _ => lo h 0%nat)) (r_scale b_bounds (fun _ => hi h 0%nat))) h.
End Frustum.
