(** Model of geomc/function/Path.h: a curve through knots, each a position with a tangent, over exact reals. *)
From Coq Require Import Reals ZArith Arith List.
From Verif Require Import VecNModel RayModel.
Open Scope R_scope.

(** Path.h:63: [size_t n = t], conversion of a floating point number to a 64-bit unsigned integer: the fraction is dropped,
    and the behaviour is undefined ([None]) when the truncated number does not fit, i.e. unless -1 < t < 2^64. *)
Definition to_size_t (t : R) : option nat :=
  if Rle_dec t (-1) then None else if Rle_dec (IZR (2 ^ 64)) t then None else Some (Z.to_nat (Int_part t)).
(** Path.h:91-93: ease. *)
Definition ease (t : R) : R := t * t * t * (t * (t * 6 - 15) + 10).
(** Path.h:62-82: eval; [None] is undefined behaviour.  An element of [knots] that does not exist would be undefined as well. *)
Definition path_eval (knots : list ray) (t : R) : option vec :=
  match to_size_t t with
  | None => None
  | Some n =>
    let sz := length knots in
    if (sz <? 1)%nat then Some (fun _ => 0)
    else if Rlt_dec t 0 then match nth_error knots 0 with Some r => Some (at_multiple r t) | None => None end
    else if (sz - 1 <=? n)%nat then
      let t_0 := t - INR sz + 1 in
      match nth_error knots (sz - 1) with Some r => Some (at_multiple r t_0) | None => None end
    else
      let t_0 := t - INR n in
      match nth_error knots n, nth_error knots (n + 1) with
      | Some r0, Some r1 =>
        let v0 := at_multiple r0 t_0 in
        let v1 := at_multiple r1 (t_0 - 1) in
        Some (vec_mix v0 v1 (ease t_0))
      | _, _ => None
      end
  end.
(** Path.h:84-86: appendKnot. *)
Definition append_knot (knots : list ray) (p v : vec) : list ray := knots ++ (mkRay p v :: nil).
