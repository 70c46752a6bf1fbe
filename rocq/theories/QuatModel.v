(** Model of geomc/linalg/Quaternion.h over exact real arithmetic. *)
From Coq Require Import Reals.
From Verif Require Import Vec3Model.
Open Scope R_scope.

Record quat : Type := Q4 { qx : R; qy : R; qz : R; qw : R }.
(** Quaternion.h:47-52: vector part and real part. *)
Definition quat_of (v : v3) (w : R) : quat := Q4 (vx v) (vy v) (vz v) w.
(** Quaternion.h:150-160. *)
Definition imag (q : quat) : v3 := V3 (qx q) (qy q) (qz q).
(** Quaternion.h:75-77. *)
Definition qident : quat := Q4 0 0 0 1.
(** VecBase.h:565-581. *)
Definition qmag2 (q : quat) : R := qw q * qw q + (qz q * qz q + (qy q * qy q + (qx q * qx q + 0))).
Definition qmag (q : quat) : R := sqrt (qmag2 q).
(** VecBase.h:526-532. *)
Definition qscale (k : R) (q : quat) : quat := Q4 (qx q * k) (qy q * k) (qz q * k) (qw q * k).
(** Quaternion.h:86-92. *)
Definition rotation_from_axis_angle (axis : v3) (radians : R) : quat :=
  if Req_EM_T (vx axis) 0 then
    if Req_EM_T (vy axis) 0 then
      if Req_EM_T (vz axis) 0 then quat_of axis 1 else quat_of (scale3 (sin (radians * (1/2))) (unit3 axis)) (cos (radians * (1/2)))
    else quat_of (scale3 (sin (radians * (1/2))) (unit3 axis)) (cos (radians * (1/2)))
  else quat_of (scale3 (sin (radians * (1/2))) (unit3 axis)) (cos (radians * (1/2))).
(** Quaternion.h:100-107. *)
Definition rotation_direction_align (v alignWith : v3) : quat := quat_of (cross3 v alignWith) (dot3 v alignWith).
(** Quaternion.h:167-172, 175-189. *)
Definition conj (q : quat) : quat := Q4 (- qx q) (- qy q) (- qz q) (qw q).
Definition qmult (p q : quat) : quat :=
  let x := qx p in let y := qy p in let z := qz p in let w := qw p in
  Q4 (w * qx q + x * qw q + y * qz q - z * qy q)
     (w * qy q - x * qz q + y * qw q + z * qx q)
     (w * qz q + x * qy q - y * qx q + z * qw q)
     (w * qw q - x * qx q - y * qy q - z * qz q).
(** Quaternion.h:123-126: q * v, and 133-136: v * q. *)
Definition qrot (q : quat) (v : v3) : v3 := imag (qmult (qmult q (quat_of v 0)) (conj q)).
Definition qrot_inv (v : v3) (q : quat) : v3 := imag (qmult (qmult (conj q) (quat_of v 0)) q).
(** Quaternion.h:195-206; the result is (axis, angle).  The clamp's constants are doubles, so this instantiates for
    double elements only. *)
Definition clamp1 (w : R) : R := Rmin (Rmax w (-1)) 1.
Definition is_zero3 (v : v3) : bool :=
  if Req_EM_T (vx v) 0 then if Req_EM_T (vy v) 0 then if Req_EM_T (vz v) 0 then true else false else false else false.
Definition to_axis_angle (q : quat) : v3 * R :=
  let alpha := 2 * acos (clamp1 (qw q)) in
  if is_zero3 (imag q) then (V3 1 0 0, 0) else (unit3 (imag q), alpha).
(** Quaternion.h:212-221. *)
Definition to_angular_velocity (q : quat) : v3 :=
  let alpha := 2 * acos (clamp1 (qw q)) in
  if is_zero3 (imag q) then zero3 else scale3 alpha (unit3 (imag q)).
(** Quaternion.h:296-303. *)
Definition qexp (q : quat) : quat :=
  let k := exp (qw q) in
  let m := mag3 (imag q) in
  if Req_EM_T m 0 then quat_of zero3 (exp (qw q))
  else let c := cos m in let s := sin m in
    quat_of (scale3 (/ m) (scale3 (k * s) (imag q))) (k * c).
(** Quaternion.h:309-314.  [None]: NaN elements (0/0 in the vector part when it is zero, 0/0 for the zero quaternion). *)
Definition qlog (q : quat) : option quat :=
  let q_m := qmag q in
  let v_m := mag3 (imag q) in
  let k := acos (qw q / q_m) in
  if Req_EM_T v_m 0 then None else Some (quat_of (scale3 (/ v_m) (scale3 k (imag q))) (ln q_m)).
(** Quaternion.h:320-328.  [None]: NaN elements, from normalising a zero vector part. *)
Definition qpow (q : quat) (a : R) : option quat :=
  let mag := qmag q in
  if Req_EM_T mag 0 then Some qident
  else let theta := acos (qw q / mag) in
    if is_zero3 (imag q) then None
    else let nhat := unit3 (imag q) in
      Some (qscale (Rpower mag a) (quat_of (scale3 (sin (a * theta)) nhat) (cos (a * theta)))).
