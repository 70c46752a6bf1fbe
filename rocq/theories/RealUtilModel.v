(** Model of the real-number helpers of geomc/function/Utils.h, exact arithmetic, M_PI idealised to pi.
    A division by zero (no number in C++) gives [None]. *)
From Coq Require Import Reals ZArith Arith.
Open Scope R_scope.

Definition std_min (a b : R) : R := if Rlt_dec b a then b else a.
Definition std_max (a b : R) : R := if Rlt_dec a b then b else a.
(** std::floor and std::ceil. *)
Definition floor (x : R) : R := IZR (Int_part x).
Definition ceil (x : R) : R := - floor (- x).
Definition div_opt (a b : R) : option R := if Req_EM_T b 0 then None else Some (a / b).
(** UtilDetail.h:72-83: the fused forms. *)
Definition diff_of_products (a b c d : R) : R := let cd := c * d in let err := - c * d + cd in let x := a * b + - cd in x + err.
Definition sum_of_products (a b c d : R) : R := let cd := c * d in let err := c * d + - cd in let x := a * b + cd in x + err.
(** Utils.h:29-32: positive_mod of non-integers. *)
Definition positive_mod (a b : R) : option R := match div_opt a b with Some q => Some (a - b * floor q) | None => None end.
(** Utils.h:88-90: clamp. *)
Definition clamp (v lo hi : R) : R := std_max lo (std_min hi v).
(** Utils.h:100-104: mix. *)
Definition mix (t a b : R) : R := sum_of_products (1 - t) a t b.
(** Utils.h:115-126: interp_linear over an array; [p + blocksize] is the array shifted.  The shift count is not bounded as
    that of a 32-bit int is: an array of 2^31 values is assumed never to be passed. *)
Fixpoint interp_linear (dim : nat) (s p : nat -> R) : R :=
  match dim with
  | O => mix (s 0%nat) (p 0%nat) (p 1%nat)
  | S next_dim => match next_dim with
    | O => mix (s 0%nat) (p 0%nat) (p 1%nat)
    | S _ => mix (s next_dim) (interp_linear next_dim s p) (interp_linear next_dim s (fun i => p (2 ^ next_dim + i)%nat))
    end
  end.
(** Utils.h:135-141: interp_cubic in one dimension. *)
Definition interp_cubic1 (s p0 p1 p2 p3 : R) : R :=
  p1 + (1/2) * s * (p2 - p0 + s * (2 * p0 - 5 * p1 + 4 * p2 - p3 + s * (3 * (p1 - p2) + p3 - p0))).
(** Utils.h:152-166: interp_cubic in several dimensions. *)
Fixpoint interp_cubic (dim : nat) (s p : nat -> R) : R :=
  match dim with
  | O => interp_cubic1 (s 0%nat) (p 0%nat) (p 1%nat) (p 2%nat) (p 3%nat)
  | S next_dim => match next_dim with
    | O => interp_cubic1 (s 0%nat) (p 0%nat) (p 1%nat) (p 2%nat) (p 3%nat)
    | S _ =>
      let blocksize := (2 ^ (2 * next_dim))%nat in
      interp_cubic1 (s next_dim) (interp_cubic next_dim s p) (interp_cubic next_dim s (fun i => p (blocksize + i)%nat))
        (interp_cubic next_dim s (fun i => p (2 * blocksize + i)%nat)) (interp_cubic next_dim s (fun i => p (3 * blocksize + i)%nat))
    end
  end.
(** std::copysign(x, y) for x >= 0; [neg0] is the sign bit of a zero y. *)
Definition copysign (neg0 : bool) (x y : R) : R :=
  if Rlt_dec y 0 then - x else if Req_EM_T y 0 then (if neg0 then - x else x) else x.
(** Utils.h:183-195: quadratic_solve; [None] is the return value false (results unaltered), a root of [None] is no number. *)
Definition quadratic_solve (neg0 : bool) (a b c : R) : option (option R * option R) :=
  let descr := diff_of_products b b (4 * a) c in
  if Rlt_dec descr 0 then None else
  if Req_EM_T a 0 then if Req_EM_T b 0 then None else
    let q := - (1/2) * (b + copysign neg0 (sqrt descr) b) in
    Some (div_opt c q, if Req_EM_T q 0 then div_opt q a else div_opt c q)
  else
    let q := - (1/2) * (b + copysign neg0 (sqrt descr) b) in
    Some (div_opt q a, if Req_EM_T q 0 then div_opt q a else div_opt c q).
(** Utils.h:202-218: angle_to. *)
Definition angle_to (radians_0 radians_1 : R) : option R :=
  let turn := 2 * PI in
  match positive_mod radians_0 turn, positive_mod radians_1 turn with
  | Some a0, Some a1 =>
    let da := a1 - a0 in
    let db := a1 - (a0 + turn) in
    let dc := a1 - (a0 - turn) in
    let err := if Rlt_dec (Rabs da) (Rabs db) then da else db in
    let err := if Rlt_dec (Rabs err) (Rabs dc) then err else dc in
    Some err
  | _, _ => None
  end.
(** Utils.h:228-234, 240-242 and 252-258: ceil_div, snap and floor_div of non-integers. *)
Definition ceil_div (a b : R) : option R := match div_opt a b with Some q => Some (ceil q) | None => None end.
Definition snap (a b : R) : option R := match ceil_div a b with Some q => Some (b * q) | None => None end.
Definition floor_div (a b : R) : option R := match div_opt a b with Some q => Some (floor q) | None => None end.
(** Utils.h:269-271 and 277-279: radians, degrees. *)
Definition radians (degrees : R) : R := degrees * PI / 180.
Definition degrees (radians : R) : R := radians * 180 / PI.
