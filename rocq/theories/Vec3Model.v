(** Model of geomc/linalg/vecdetail/Vec3.h (and the 3-element case of VecBase.h) over exact real arithmetic. *)
From Coq Require Import Reals.
Open Scope R_scope.

Record v3 : Type := V3 { vx : R; vy : R; vz : R }.
(** VecBase.h:420-530: element-wise sum, difference, negation, scalar multiple. *)
Definition add3 (a b : v3) : v3 := V3 (vx a + vx b) (vy a + vy b) (vz a + vz b).
Definition sub3 (a b : v3) : v3 := V3 (vx a - vx b) (vy a - vy b) (vz a - vz b).
Definition neg3 (a : v3) : v3 := V3 (- vx a) (- vy a) (- vz a).
Definition scale3 (k : R) (a : v3) : v3 := V3 (vx a * k) (vy a * k) (vz a * k).
Definition zero3 : v3 := V3 0 0 0.
(** VecBase.h:553-559, 565-581: dot, mag, mag2 (sums start from 0). *)
Definition dot3 (a b : v3) : R := vz a * vz b + (vy a * vy b + (vx a * vx b + 0)).
Definition mag2_3 (a : v3) : R := dot3 a a.
Definition mag3 (a : v3) : R := sqrt (mag2_3 a).
(** VecBase.h:538-545: unit; division by zero is left unspecified by R, so theorems require a non-zero vector. *)
Definition unit3 (a : v3) : v3 := let n := mag3 a in V3 (vx a / n) (vy a / n) (vz a / n).
(** Vec3.h:206-218; [diff_of_products] is exact here. *)
Definition cross3 (a b : v3) : v3 := V3 (vy a * vz b - vz a * vy b) (vz a * vx b - vx a * vz b) (vx a * vy b - vy a * vx b).

(** Vec3.h:264-298: rotate(u, v, w, radians). *)
Definition rotate3 (p axis : v3) (radians : R) : v3 :=
  let x := vx p in let y := vy p in let z := vz p in
  let u := vx axis in let v := vy axis in let w := vz axis in
  let u2 := u * u in let v2 := v * v in let w2 := w * w in
  let uxvywz := (u * x + v * y) + w * z in
  let uvw2 := u2 + v2 + w2 in
  let rsin := sqrt uvw2 * sin radians in
  let c := cos radians in
  let p0 := v * y + w * z in
  let p1 := u * x + w * z in
  let p2 := u * z + v * y in
  let q0 := v * z - w * y in
  let q1 := w * x - u * z in
  let q2 := u * y - v * x in
  let s0 := x * (v2 + w2) - u * p0 in
  let s1 := y * (u2 + w2) - v * p1 in
  let s2 := z * (u2 + v2) - w * p2 in
  let t0 := u * uxvywz + s0 * c in
  let t1 := v * uxvywz + s1 * c in
  let t2 := w * uxvywz + s2 * c in
  V3 ((t0 + rsin * q0) / uvw2) ((t1 + rsin * q1) / uvw2) ((t2 + rsin * q2) / uvw2).
(** Vec3.h:311-336: rotate(u, v, w, a, b, c, radians), rotation about a centre. *)
Definition rotate3_about (p axis center : v3) (radians : R) : v3 :=
  let x := vx p in let y := vy p in let z := vz p in
  let u := vx axis in let v := vy axis in let w := vz axis in
  let a := vx center in let b := vy center in let c := vz center in
  let cc := cos radians in
  let ss := sin radians in
  let oneMcos := 1 - cc in
  let u2 := u * u in let v2 := v * v in let w2 := w * w in
  let uxvywz := (u * x - v * y) - (w * z) in
  let p0 := b * v + c * w in
  let p1 := a * u + c * w in
  let p2 := a * u + b * v in
  let q0 := a * (v2 + w2) - u * (p0 - uxvywz) in
  let q1 := b * (u2 + w2) - v * (p1 - uxvywz) in
  let q2 := c * (u2 + v2) - w * (p2 - uxvywz) in
  V3 (q0 * oneMcos + x * cc + (- c * v + b * w - w * y + v * z) * ss)
     (q1 * oneMcos + y * cc + (c * u - a * w + w * x - u * z) * ss)
     (q2 * oneMcos + z * cc + (- b * u + a * v - v * x + u * y) * ss).
(** Vec3.h:341-351: align(from, to). *)
Definition align3 (p from to : v3) : v3 :=
  let q := cross3 from to in
  let c := dot3 from to in
  let k := 1 / (1 + c) in
  V3 ((vx q * vx q * k + c) * vx p + (vy q * vx q * k - vz q) * vy p + (vz q * vx q * k + vy q) * vz p)
     ((vx q * vy q * k + vz q) * vx p + (vy q * vy q * k + c) * vy p + (vz q * vy q * k - vx q) * vz p)
     ((vx q * vz q * k - vy q) * vx p + (vy q * vz q * k + vx q) * vy p + (vz q * vz q * k + c) * vz p).
(** std::atan2 as the C standard defines it, signed zeros aside. *)
Definition atan2 (y x : R) : R :=
  if Rlt_dec 0 x then atan (y / x)
  else if Rlt_dec x 0 then (if Rle_dec 0 y then atan (y / x) + PI else atan (y / x) - PI)
  else if Rlt_dec 0 y then PI / 2 else if Rlt_dec y 0 then - (PI / 2) else 0.
(** Vec3.h:228-237 and 248-255. *)
Definition to_spherical (p : v3) : v3 := let r := mag3 p in V3 r (acos (vz p / r)) (atan2 (vy p) (vx p)).
Definition from_spherical (r elev azi : R) : v3 :=
  let rsinelev := r * sin elev in V3 (rsinelev * cos azi) (rsinelev * sin azi) (r * cos elev).
