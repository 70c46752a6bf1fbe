(** Model of geomc/function/functiondetail/DualImpl.h and DualFunctions.h over exact real arithmetic.  An operation whose
    result has a component that is not a finite number (NaN or infinity) returns [None]. *)
From Coq Require Import Reals ZArith Arith.
From Verif Require Import Vec3Model.
Open Scope R_scope.

(** DualImpl.h:13-27. *)
Inductive policy : Type := PNaN | PAverage | PLeft | PRight | PInf.
(** DualImpl.h:32-68: resolve(a, b). *)
Definition resolve (P : policy) (a b : R) : option R :=
  match P with
  | PNaN => None
  | PLeft => Some a
  | PRight => Some b
  | PAverage => Some ((a + b) / 2)
  | PInf => if Req_EM_T b a then Some a else None
  end.
(** DualImpl.h:128-147. *)
Record dual : Type := D { px : R; dx : R }.
Definition of_const (c : R) : dual := D c 0.
(** DualImpl.h:149-151: construction from a dual with another policy. *)
Definition convert (d : dual) : dual := D (dx d) (dx d).
(** Conversion applied when a function declared to return [Dual<T,P>] returns a [Dual<T>], whose policy is Right. *)
Definition from_default (P : policy) (d : dual) : dual := match P with PRight => d | _ => convert d end.

(** Real operations that may leave the finite numbers. *)
Definition div_f (a b : R) : option R := if Req_EM_T b 0 then None else Some (a / b).
Definition log_f (a : R) : option R := if Rlt_dec 0 a then Some (ln a) else None.
Definition sqrt_f (a : R) : option R := if Rle_dec 0 a then Some (sqrt a) else None.
Definition arc_f (f : R -> R) (a : R) : option R := if Rle_dec (-1) a then if Rle_dec a 1 then Some (f a) else None else None.
Definition floor_f (a : R) : R := IZR (Int_part a).
Definition ceil_f (a : R) : R := - IZR (Int_part (- a)).
(** std::pow: positive bases; other bases with integer exponents. *)
Definition pow_f (b e : R) : option R :=
  if Rlt_dec 0 b then Some (Rpower b e)
  else if Req_EM_T b 0 then (if Rlt_dec 0 e then Some 0 else if Req_EM_T e 0 then Some 1 else None)
  else if Req_EM_T (floor_f e) e then Some (powerRZ b (Int_part e)) else None.
Definition opt2 (a b : option R) : option dual := match a, b with Some x, Some d => Some (D x d) | _, _ => None end.
Definition obind {A B} (o : option A) (f : A -> option B) : option B := match o with Some a => f a | None => None end.

(** DualFunctions.h:20-45; [sum_of_products] is exact here. *)
Definition dmul (a b : dual) : dual := D (px a * px b) (px a * dx b + dx a * px b).
Definition dmul_s (a : dual) (s : R) : dual := D (px a * s) (dx a * s).
Definition s_dmul (s : R) (a : dual) : dual := D (s * px a) (s * dx a).
(** DualFunctions.h:72-105. *)
Definition ddiv (a b : dual) : option dual := opt2 (div_f (px a) (px b)) (div_f (dx a * px b - px a * dx b) (px b * px b)).
Definition ddiv_s (a : dual) (s : R) : option dual := opt2 (div_f (px a) s) (div_f (dx a) s).
Definition s_ddiv (s : R) (a : dual) : option dual := opt2 (div_f s (px a)) (div_f (- s * dx a) (px a * px a)).
(** DualFunctions.h:134-200. *)
Definition dadd (a b : dual) : dual := D (px a + px b) (dx a + dx b).
Definition dadd_s (a : dual) (s : R) : dual := D (px a + s) (dx a).
Definition s_dadd (s : R) (a : dual) : dual := D (s + px a) (dx a).
Definition dsub (a b : dual) : dual := D (px a - px b) (dx a - dx b).
Definition dsub_s (a : dual) (s : R) : dual := D (px a - s) (dx a).
Definition s_dsub (s : R) (a : dual) : dual := D (s - px a) (dx a).
(** DualFunctions.h:242-246. *)
Definition dneg (a : dual) : dual := D (- px a) (- dx a).
(** DualFunctions.h:277-301. *)
Definition dsin (d : dual) : dual := D (sin (px d)) (dx d * cos (px d)).
Definition dcos (d : dual) : dual := D (cos (px d)) (- dx d * sin (px d)).
Definition dtan (d : dual) : option dual := let c := cos (px d) in opt2 (div_f (sin (px d)) c) (div_f (- dx d) (c * c)).
(** DualFunctions.h:308-353. *)
Definition dasin (d : dual) : option dual := opt2 (arc_f asin (px d)) (obind (sqrt_f (1 - px d * px d)) (div_f (dx d))).
Definition dacos (d : dual) : option dual := opt2 (arc_f acos (px d)) (obind (sqrt_f (1 - px d * px d)) (div_f (- dx d))).
Definition datan (d : dual) : option dual := opt2 (Some (atan (px d))) (div_f (dx d) (px d * px d + 1)).
Definition datan2 (y x : dual) : option dual :=
  opt2 (Some (atan2 (px y) (px x))) (div_f (px x * dx y - px y * dx x) (px x * px x + px y * px y)).
(** DualFunctions.h:360-377. *)
Definition dexp (d : dual) : dual := let e := exp (px d) in D e (- dx d * e).
Definition dlog (d : dual) : option dual := opt2 (log_f (px d)) (div_f (dx d) (px d)).
(** DualFunctions.h:384-402: pow(dual, dual). *)
Definition dpow (base xp : dual) : option dual :=
  obind (pow_f (px base) (px xp)) (fun a_c =>
  obind (div_f (dx base * px xp * a_c) (px xp)) (fun t =>
  obind (log_f (px base)) (fun l => Some (D a_c (t + dx xp * a_c * l))))).
(** DualFunctions.h:409-416: pow(dual, scalar); defined for the default policy only. *)
Definition dpow_s (base : dual) (xp : R) : option dual :=
  obind (pow_f (px base) xp) (fun a_x => obind (div_f (dx base * xp * a_x) (px base)) (fun t => Some (D a_x t))).
(** DualFunctions.h:423-430: pow(scalar, dual); a [Dual<T>] is converted to the declared result. *)
Definition s_dpow (P : policy) (base : R) (xp : dual) : option dual :=
  obind (pow_f base (px xp)) (fun a_x => obind (log_f base) (fun l => Some (from_default P (D a_x (dx xp * a_x * l))))).
(** DualFunctions.h:437-444. *)
Definition dsqrt (d : dual) : option dual := obind (sqrt_f (px d)) (fun sr => obind (div_f (dx d) (2 * sr)) (fun t => Some (D sr t))).
(** DualFunctions.h:453-465. *)
Definition dabs (P : policy) (d : dual) : option dual :=
  let neg := Rlt_dec (px d) 0 in
  obind (if Req_EM_T (px d) 0 then resolve P (- dx d) (dx d) else Some (if neg then - dx d else dx d))
    (fun t => Some (D (if neg then - px d else px d) t)).
(** DualFunctions.h:472-507. *)
Definition step_dx (P : policy) (x y : R) : option R :=
  match P with PInf | PNaN => if Req_EM_T x y then None else Some 0 | _ => Some 0 end.
Definition dceil (P : policy) (d : dual) : option dual := opt2 (Some (ceil_f (px d))) (step_dx P (ceil_f (px d)) (px d)).
Definition dfloor (P : policy) (d : dual) : option dual := opt2 (Some (floor_f (px d))) (step_dx P (floor_f (px d)) (px d)).
(** DualFunctions.h:514-528. *)
Definition dmin (P : policy) (a b : dual) : option dual :=
  let lt := Rle_dec (px a) (px b) in
  obind (if Req_EM_T (px a) (px b) then resolve P (Rmax (dx a) (dx b)) (Rmin (dx a) (dx b)) else Some (if lt then dx a else dx b))
    (fun t => Some (D (if lt then px a else px b) t)).
(** DualFunctions.h:535-549: the result is built as a [Dual<T>] and converted. *)
Definition dmax (P : policy) (a b : dual) : option dual :=
  let gt := Rle_dec (px b) (px a) in
  obind (if Req_EM_T (px a) (px b) then resolve P (Rmin (dx a) (dx b)) (Rmax (dx a) (dx b)) else Some (if gt then dx a else dx b))
    (fun t => Some (from_default P (D (if gt then px a else px b) t))).
(** DualFunctions.h:559-566, UtilDetail.h:121-126. *)
Definition dfma (a b c : dual) : dual := D (px a * px b + px c) (px a * dx b + dx a * px b + dx c).
(** UtilDetail.h:107-119: sum_of_products(a, b, c, d) = a*b + c*d. *)
Definition dsum_of_products (a b c d : dual) : dual :=
  D (px a * px b + px c * px d) ((px a * dx b + dx a * px b) + (px c * dx d + dx c * px d)).

(** ** Compound assignment: a store of dual variables; the operands are references and may be the same variable *)
Definition store : Type := nat -> dual.
Definition put (st : store) (i : nat) (d : dual) : store := fun k => if (k =? i)%nat then d else st k.
Definition set_px (st : store) (i : nat) (v : R) : store := put st i (D v (dx (st i))).
Definition set_dx (st : store) (i : nat) (v : R) : store := put st i (D (px (st i)) v).
(** DualFunctions.h:47-55: x *= y. *)
Definition mul_assign (st : store) (i j : nat) : store :=
  let x_x := px (st i) in
  let st := set_px st i (px (st i) * px (st j)) in
  set_dx st i (x_x * dx (st j) + px (st j) * dx (st i)).
(** DualFunctions.h:108-117: x /= y. *)
Definition div_assign (st : store) (i j : nat) : option store :=
  let x_x := px (st i) in
  obind (div_f (px (st i)) (px (st j))) (fun q =>
  let st := set_px st i q in
  obind (div_f (dx (st i) * px (st j) - x_x * dx (st j)) (px (st j) * px (st j))) (fun t => Some (set_dx st i t))).
(** DualFunctions.h:119-128: x /= s. *)
Definition div_assign_s (st : store) (i : nat) (s : R) : option store :=
  obind (div_f (px (st i)) s) (fun q => let st := set_px st i q in obind (div_f (dx (st i)) s) (fun t => Some (set_dx st i t))).
(** DualFunctions.h:202-234: x += y, x += s, x -= y, x -= s. *)
Definition add_assign (st : store) (i j : nat) : store :=
  let st := set_px st i (px (st i) + px (st j)) in set_dx st i (dx (st i) + dx (st j)).
Definition add_assign_s (st : store) (i : nat) (s : R) : store := set_px st i (px (st i) + s).
Definition sub_assign (st : store) (i j : nat) : store :=
  let st := set_px st i (px (st i) - px (st j)) in set_dx st i (dx (st i) - dx (st j)).
Definition sub_assign_s (st : store) (i : nat) (s : R) : store := set_px st i (px (st i) - s).
(** DualImpl.h:163-167: x = c; and 186-209: ++x, --x. *)
Definition assign_const (st : store) (i : nat) (c : R) : store := put st i (D c 0).
Definition incr (st : store) (i : nat) : store := set_px st i (px (st i) + 1).
Definition decr (st : store) (i : nat) : store := set_px st i (px (st i) - 1).
