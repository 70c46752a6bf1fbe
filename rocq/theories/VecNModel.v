(** Model of geomc/linalg/vecdetail/VecBase.h (VecCommon) and geomc/linalg/Vec.h: vectors of N real elements, exact arithmetic.
    A vector is a function from element indices; indices at or above N do not exist.  A division by zero (no number in C++)
    gives [None].  Not modelled: [reflect_about] and [bounce_on] (VecBase.h:605-623), which call a member [neg] that no
    class defines and so do not compile when used; floor, ceil, round and the transcendental functions of VecStd.h, which
    apply one function of the C++ library to each element. *)
From Coq Require Import Reals Arith List.
Import ListNotations.
Open Scope R_scope.

Definition vec := nat -> R.
(** A loop [for (i = 0; i < N; i++) sum = step(i, sum)] and one starting at 1. *)
Definition loop {A} (N : nat) (step : nat -> A -> A) (init : A) : A := fold_left (fun s i => step i s) (seq 0 N) init.
Definition loop1 {A} (N : nat) (step : nat -> A -> A) (init : A) : A := fold_left (fun s i => step i s) (seq 1 (N - 1)) init.
(** std::min(a, b) and std::max(a, b). *)
Definition std_min (a b : R) : R := if Rlt_dec b a then b else a.
Definition std_max (a b : R) : R := if Rlt_dec a b then b else a.
Definition div_opt (a b : R) : option R := if Req_EM_T b 0 then None else Some (a / b).
(** VecBase.h:392-398: operator==. *)
Definition vec_eq (N : nat) (a b : vec) : bool := loop N (fun i r => if Req_EM_T (b i) (a i) then r else false) true.
(** VecBase.h:412-447, 456-531: element-wise operators; Vec.h:40-118: vector by scalar. *)
Definition vec_neg (a : vec) : vec := fun i => - a i.
Definition vec_add (a b : vec) : vec := fun i => a i + b i.
Definition vec_sub (a b : vec) : vec := fun i => a i - b i.
Definition vec_mul (a b : vec) : vec := fun i => a i * b i.
Definition vec_scale (a : vec) (s : R) : vec := fun i => a i * s.
Definition vec_div (a : vec) (s : R) : option vec := if Req_EM_T s 0 then None else Some (fun i => a i / s).
(** VecBase.h:553-559: dot, one multiply_add per element. *)
Definition dot (N : nat) (a b : vec) : R := loop N (fun i sum => a i * b i + sum) 0.
(** VecBase.h:573-580: mag2; 565-567: mag. *)
Definition mag2 (N : nat) (a : vec) : R := loop N (fun i sum => a i * a i + sum) 0.
Definition mag (N : nat) (a : vec) : R := sqrt (mag2 N a).
(** VecBase.h:587-589 and 596-598. *)
Definition dist (N : nat) (a b : vec) : R := mag N (vec_sub a b).
Definition dist2 (N : nat) (a b : vec) : R := mag2 N (vec_sub a b).
(** VecBase.h:538-545: unit. *)
Definition unit_vec (N : nat) (a : vec) : option vec := vec_div a (mag N a).
(** VecBase.h:631-634: project_on. *)
Definition project_on (N : nat) (a axis : vec) : vec :=
  let m2 := mag2 N axis in if Req_EM_T m2 0 then axis else fun i => axis i * dot N a axis / m2.
(** VecBase.h:641-643: fraction_on. *)
Definition fraction_on (N : nat) (a axis : vec) : option R := div_opt (dot N a axis) (mag2 N axis).
(** VecBase.h:650-658: with_length. *)
Definition with_length (N : nat) (a : vec) (m : R) : vec :=
  let m2 := mag2 N a in if Req_EM_T m2 0 then fun _ => 0 else fun i => m * a i / sqrt m2.
(** VecBase.h:668-675: mix. *)
Definition vec_mix (a b : vec) (t : R) : vec := let xim := 1 - t in fun i => xim * a i + t * b i.
(** VecBase.h:682-686: angle_to. *)
Definition angle_to (N : nat) (a b : vec) : option R :=
  match unit_vec N b, unit_vec N a with
  | Some ub, Some ua => Some (acos (std_min 1 (std_max (dot N ub ua) (-1))))
  | _, _ => None
  end.
(** VecBase.h:734-740 and 747-753: element-wise min and max; 696-702: abs. *)
Definition vec_min (a b : vec) : vec := fun i => std_min (a i) (b i).
Definition vec_max (a b : vec) : vec := fun i => std_max (a i) (b i).
Definition vec_abs (a : vec) : vec := fun i => Rabs (a i).
(** VecBase.h:759-765 and 771-777: smallest and largest element. *)
Definition min_elem (N : nat) (a : vec) : R := loop1 N (fun i x => std_min (a i) x) (a 0%nat).
Definition max_elem (N : nat) (a : vec) : R := loop1 N (fun i x => std_max (a i) x) (a 0%nat).
(** VecBase.h:786-792: clamp. *)
Definition vec_clamp (a lo hi : vec) : vec := fun i => std_min (std_max (a i) (lo i)) (hi i).
(** VecBase.h:806-817 and 820-831: argmax, argmin.  State: largest (smallest) magnitude so far and its index. *)
Definition argmax (N : nat) (a : vec) : nat :=
  snd (loop1 N (fun i s => if Rlt_dec (fst s) (Rabs (a i)) then (Rabs (a i), i) else s) (Rabs (a 0%nat), 0%nat)).
Definition argmin (N : nat) (a : vec) : nat :=
  snd (loop1 N (fun i s => if Rlt_dec (Rabs (a i)) (fst s) then (Rabs (a i), i) else s) (Rabs (a 0%nat), 0%nat)).
(** VecBase.h:840-846: resized<M>; the new vector starts zeroed, except that a 1-element result is a bare number left
    unset until the copy. *)
Definition resized (N M : nat) (a : vec) : vec := fun i => if (i <? Nat.min M N)%nat then a i else 0.
(** VecBase.h:852-857: is_zero. *)
Definition is_zero (N : nat) (a : vec) : bool := loop N (fun i r => if Req_EM_T (a i) 0 then r else false) true.
