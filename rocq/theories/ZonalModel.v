(** Model of the class ZonalHarmonics of geomc/function/SphericalHarmonics.h, exact real arithmetic.
    The coefficient array has bands() elements in every configuration: fixed or dynamic size. *)
From Coq Require Import Reals Arith List.
From Verif Require Import VecNModel BasisModel.
Import ListNotations.
Open Scope R_scope.

(** SphericalHarmonics.h:580-585: number of bands and coefficients; the elements from [zn] on do not exist. *)
Record zonal : Type := mkZonal { zn : nat; zc : nat -> R }.
(** SphericalHarmonics.h:646-655: coeff(n) and coeffs[n]; [None] reads out of bounds. *)
Definition zget (z : zonal) (i : nat) : option R := if (i <? zn z)%nat then Some (zc z i) else None.
Definition upd (c : nat -> R) (i : nat) (v : R) : nat -> R := fun j => if (j =? i)%nat then v else c j.
Definition zset (z : zonal) (i : nat) (v : R) : option zonal := if (i <? zn z)%nat then Some (mkZonal (zn z) (upd (zc z) i v)) else None.
(** SphericalHarmonics.h:833-835: clear; 592-606: the constructors from a number of bands. *)
Definition zclear (z : zonal) : zonal := mkZonal (zn z) (fun _ => 0).
Definition zonal_new (n : nat) : zonal := zclear (mkZonal (Nat.max n 1) (fun _ => 0)).
(** SphericalHarmonics.h:660-668: dot; the smaller band count is computed but the loop runs over all bands of this object. *)
Definition zdot (a b : zonal) : option R :=
  fold_left (fun s i => match s, zget a i, zget b i with Some sum, Some x, Some y => Some (sum + x * y) | _, _, _ => None end) (seq 0 (zn a)) (Some 0).
(** SphericalHarmonics.h:690-703: one even band n of the Lambertian kernel. *)
Definition lambert_band (n : nat) : R :=
  let '(fac_num, fac_den) := fold_left (fun '(a, b) i => (a * INR (i + n / 2), b * INR i)) (seq 1 (n / 2)) (1, 1) in
  let k := (2 * INR n + 1) / 2 in
  let A_n := k / ((INR n + 2) * (INR n - 1)) in
  let A_n := A_n * (/ 2 ^ n * fac_num / fac_den) in
  if (n mod 4 <? 2)%nat then A_n * -1 else A_n.
(** SphericalHarmonics.h:678-705: generate_lambertian; an [order] below 1 is 0.  [!(n & 2)] is n mod 4 < 2.
    The variable fac, which is never read, is left out. *)
Definition generate_lambertian (order : nat) (z : zonal) : option zonal :=
  let ct := if (order <? 1)%nat then zn z else Nat.min order (zn z) in
  match zset (zclear z) 0 (1 / 4) with
  | None => None
  | Some z =>
    if (1 <? zn z)%nat then
      match zset z 1 (1 / 2) with
      | None => None
      | Some z => fold_left (fun z k => match z with Some z => zset z (2 + 2 * k) (lambert_band (2 + 2 * k)) | None => None end)
          (seq 0 ((ct - 1) / 2)) (Some z)
      end
    else Some z
  end.
(** SphericalHarmonics.h:713-730: generate_spot. *)
Definition generate_spot (cos_angle : R) (z : zonal) : option zonal :=
  let x := std_min 1 (std_max (-1) cos_angle) in
  match zset z 0 ((2 - x - 1) / 2) with
  | None => None
  | Some z =>
    let '(z, _, _) := fold_left (fun '(z, p_0, p_1) i =>
        let k := (2 * INR i + 1) / 2 in
        let p_i := bonnet i x p_1 p_0 in
        (match z with Some z => zset z i (- k * (p_i - p_0) / (2 * INR i + 1)) | None => None end, p_1, p_i))
      (seq 1 (zn z - 1)) (Some z, 1, x) in z
  end.
(** SphericalHarmonics.h:737-751: eval. *)
Definition zeval (z : zonal) (x : R) : option R :=
  match zget z 0 with
  | None => None
  | Some c0 =>
    let sum := if (1 <? zn z)%nat then match zget z 1 with Some c1 => Some (c0 + c1 * x) | None => None end else Some c0 in
    let '(sum, _, _) := fold_left (fun '(sum, p_0, p_1) i =>
        let p_i := bonnet i x p_1 p_0 in
        (match sum, zget z (i + 1) with Some s, Some c => Some (s + c * p_i) | _, _ => None end, p_1, p_i))
      (seq 1 (zn z - 1 - 1)) (sum, 1, x) in sum
  end.
(** SphericalHarmonics.h:759-771: project, including the precedence of [/] on line 766. *)
Definition zproject (x val : R) (z : zonal) : option zonal :=
  match zset z 0 val with
  | None => None
  | Some z =>
    let z1 := if (1 <? zn z)%nat then zset z 1 (x * val) else Some z in
    let '(z, _, _) := fold_left (fun '(z, p_0, p_1) i =>
        let p_i := (2 * INR i + 1) * x * p_1 - INR i * p_0 / (INR i + 1) in
        (match z with Some z => zset z i (val * p_i) | None => None end, p_1, p_i))
      (seq 1 (zn z - 1)) (z1, 1, x) in z
  end.
(** The factor sqrt(4 pi / (2 l + 1)) of lines 194, 779 and 796. *)
Definition band_factor (l : nat) : R := sqrt (4 * PI / (2 * INR l + 1)).
(** SphericalHarmonics.h:777-782: convolve. *)
Definition zconvolve (kernel z : zonal) : option zonal :=
  fold_left (fun z l => match z with
    | Some z => match zget z l, zget kernel l with Some c, Some k => zset z l (c * (band_factor l * k)) | _, _ => None end
    | None => None end) (seq 0 (zn z)) (Some z).
(** SphericalHarmonics.h:20-23: the real part of a complex power of a real number, exp(t log m) with log m = ln |m| + i pi for
    m < 0.  The C++ standard does not fix the value for m = 0: [pow0] is the implementation's. *)
Definition cpow (pow0 : R -> R) (m t : R) : R :=
  if Rlt_dec 0 m then exp (t * ln m) else if Rlt_dec m 0 then exp (t * ln (- m)) * cos (t * PI) else pow0 t.
(** SphericalHarmonics.h:792-802: diffuse. *)
Definition zdiffuse (pow0 : R -> R) (t : R) (z : zonal) : zonal :=
  mkZonal (zn z) (fun l => if (l <? zn z)%nat then cpow pow0 (band_factor l * zc z l) t / band_factor l else zc z l).
(** SphericalHarmonics.h:819-828: normalize. *)
Definition znormalize (z : zonal) : option zonal :=
  let k := sqrt (4 * PI / 3) in
  match zget z 1 with
  | None => None
  | Some c1 =>
    let nh := c1 * k in
    if Req_EM_T nh 0 then Some z
    else Some (mkZonal (zn z) (fun i => if (i =? 1)%nat then 1 / k else if (i <? zn z)%nat then zc z i / nh else zc z i))
  end.
