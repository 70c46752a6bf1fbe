(** Model of geomc/shape/Cylinder.h over exact reals; [None] is a division by zero (no number in C++).
    The documentation declares p0 == p1 undefined; there every function divides by zero. *)
From Coq Require Import Reals Arith Bool.
From Verif Require Import VecNModel RayModel RealUtilModel Ord RectModel RectArithModel SphereModel.
Open Scope R_scope.

Definition Rltb' (x y : R) : bool := if Rlt_dec x y then true else false.
(** Cylinder.h:34-39: p0, p1, radius; 42: the default. *)
Record cylinder_t : Type := mkCyl { y_p0 : vec; y_p1 : vec; y_r : R }.
Definition cylinder_default : cylinder_t := mkCyl (fun _ => 0) (fun i => if (i =? 0)%nat then 1 else 0) 1.
Section M.
Variables (N : nat) (c : cylinder_t).
Notation p0 := (y_p0 c).
Notation p1 := (y_p1 c).
Notation radius := (y_r c).
(** Cylinder.h:59-69: contains. *)
Definition cylinder_contains (p : vec) : option bool :=
  let a := vec_sub p1 p0 in
  let b := vec_sub p p0 in
  let b2 := VecNModel.mag2 N b in
  let a2 := VecNModel.mag2 N a in
  let d := dot N a b in
  match VecNModel.div_opt (d * d) a2 with
  | None => None
  | Some x2 =>
    let in_r := Rleb (b2 - x2) (radius * radius) in
    let in_caps := Rltb' x2 a2 && Rleb 0 d in
    Some (in_r && in_caps)
  end.
(** Cylinder.h:76-103: sdf. *)
Definition cylinder_sdf (p : vec) : option R :=
  let a := vec_sub p1 p0 in
  let b := vec_sub p p0 in
  let b2 := VecNModel.mag2 N b in
  let a2 := VecNModel.mag2 N a in
  let d := dot N a b in
  match VecNModel.div_opt d a2 with
  | None => None
  | Some s =>
    let x2 := d * s in
    let r := sqrt (b2 - x2) - radius in
    let s := VecNModel.std_max (- s) (s - 1) in
    let sign := if Rltb' s 0 && Rltb' r 0 then -1 else 1 in
    let s := VecNModel.std_max s 0 in
    let r := VecNModel.std_max r 0 in
    let x2 := s * s * a2 in
    Some (sign * sqrt (r * r + x2))
  end.
(** Cylinder.h:105-135: project. *)
Definition cylinder_project (p : vec) : option vec :=
  let a := vec_sub p1 p0 in
  let b := vec_sub p p0 in
  let b2 := VecNModel.mag2 N b in
  let a2 := VecNModel.mag2 N a in
  let d := dot N a b in
  match VecNModel.div_opt d a2 with
  | None => None
  | Some s =>
    let x2 := d * s in
    let r_dist := sqrt (b2 - x2) in
    match vec_div (vec_sub (vec_sub p p0) (vec_scale a s)) r_dist with
    | None => None
    | Some r =>
      let (s, r_dist) :=
        if Rltb' s 0 || Rltb' 1 s then (if Rltb' s 0 then 0 else 1, VecNModel.std_min r_dist radius)
        else if Rltb' r_dist radius && Rltb' (sqrt a2 * VecNModel.std_min s (1 - s)) (radius - r_dist) then (if Rltb' s (1/2) then 0 else 1, r_dist)
        else (s, radius) in
      Some (vec_add (vec_add p0 (vec_scale a s)) (vec_scale r r_dist))
    end
  end.
(** Cylinder.h:137-172: normal. *)
Definition cylinder_normal (p : vec) : option vec :=
  let a := vec_sub p1 p0 in
  let b := vec_sub p p0 in
  let b2 := VecNModel.mag2 N b in
  let a2 := VecNModel.mag2 N a in
  let d := dot N a b in
  match VecNModel.div_opt d a2 with
  | None => None
  | Some s =>
    let x2 := d * s in
    let r_dist := sqrt (b2 - x2) in
    match vec_div (vec_sub (vec_sub p p0) (vec_scale a s)) r_dist with
    | None => None
    | Some r =>
      let n :=
        if Rltb' s 0 || Rltb' 1 s then
          if Rltb' radius r_dist then vec_sub p (vec_add (vec_scale r radius) p0)
          else if Rltb' s 0 then vec_neg a else a
        else if Rltb' r_dist radius && Rltb' (sqrt a2 * VecNModel.std_min s (1 - s)) (radius - r_dist) then (if Rltb' s (1/2) then vec_neg a else a)
        else r in
      unit_vec N n
    end
  end.
(** Cylinder.h:178-193: bounds. *)
Definition cylinder_bounds : option (@rect R_ord) :=
  let a := vec_sub p1 p0 in
  match vec_div (vec_mul a a) (VecNModel.mag2 N a) with
  | None => None
  | Some n2 =>
    let c0 := fun i => radius * sqrt (1 - n2 i) in
    let b0 := mkRect (vec_sub p0 c0 : @point R_ord) (vec_add p0 c0) in
    let b1 := mkRect (vec_sub p1 c0 : @point R_ord) (vec_add p1 c0) in
    Some (union b0 b1)
  end.
(** Cylinder.h:195-199: convex_support. *)
Definition cylinder_support (d : vec) : option vec :=
  let a := vec_sub p1 p0 in
  match unit_vec N (vec_sub d (project_on N d a)) with
  | None => None
  | Some u => let perp := vec_scale u radius in Some (vec_add (if Rltb' 0 (dot N d a) then p1 else p0) perp)
  end.
(** Cylinder.h:202-254: intersect(ray); [neg0] is the sign bit of [k1] when it is zero. *)
Definition cylinder_ray (neg0 : bool) (r : ray) : option interval :=
  let a := vec_sub p1 p0 in
  let b := vec_sub (origin r) p0 in
  let a2 := VecNModel.mag2 N a in
  let b2 := VecNModel.mag2 N b in
  let d := dot N a b in
  match VecNModel.div_opt d a2 with
  | None => None
  | Some s =>
    let x2 := d * s in
    let m := dot N (direction r) a in
    let k0 := VecNModel.mag2 N (direction r) - m * m / a2 in
    let k1 := 2 * (dot N b (direction r) - d * m / a2) in
    let k2 := b2 - x2 - radius * radius in
    let wall :=
      match (if Req_EM_T k0 0 then None else quadratic_solve neg0 k0 k1 k2) with
      | Some (Some r0, Some r1) => Some (Some (iv_between r0 r1))
      | Some _ => None
      | None => if Rltb' k2 0 then Some (Some (mk_interval NInf PInf)) else Some None
      end in
    match wall with
    | None => None
    | Some None => Some iv_empty
    | Some (Some interval) =>
      if Req_EM_T m 0 then if Rltb' s 0 || Rltb' 1 s then Some iv_empty else Some interval
      else
        let z0 := d in
        let z1 := dot N a (vec_sub (origin r) p1) in
        Some (inter interval (iv_between (- z0 / m) (- z1 / m)))
    end
  end.
End M.
