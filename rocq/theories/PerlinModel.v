(** Model of geomc/function/PerlinNoise.h over exact real arithmetic for the noise and 64-bit signed integers for the lattice. *)
From Coq Require Import Reals ZArith List Bool Arith.
Import ListNotations.
Open Scope R_scope.

Definition bind {A B} (o : option A) (f : A -> option B) : option B := match o with Some a => f a | None => None end.
Definition set_at {A} (f : nat -> A) (i : nat) (v : A) : nat -> A := fun k => if (k =? i)%nat then v else f k.
(** Signed 64-bit arithmetic ([index_t]): [chk] is the language's, an overflow being undefined behaviour ([None]);
    [wrap] is two's complement wrap-around, what compilers commonly do or are asked to do with -fwrapv. *)
Definition chk (z : Z) : option Z := if (- 2 ^ 63 <=? z)%Z && (z <? 2 ^ 63)%Z then Some z else None.
Definition wrap (z : Z) : option Z := Some ((z + 2 ^ 63) mod 2 ^ 64 - 2 ^ 63)%Z.
(** PerlinNoise.h:185-193, Utils.h:23-26; [ar] is the arithmetic. *)
Definition hash_step (ar : Z -> option Z) (idx k : Z) : option Z :=
  bind (ar (k + idx)%Z) (fun s => bind (ar (6364136223846793005 * s)%Z) (fun m => ar (m + 1442695040888963407)%Z)).
Definition scramble (ar : Z -> option Z) (N : nat) (pt : nat -> Z) : option Z :=
  fold_left (fun idx i => bind idx (fun idx => hash_step ar idx (pt i))) (seq 0 N) (Some 0%Z).
Definition grid_index (ar : Z -> option Z) (N : nat) (pt : nat -> Z) : option Z :=
  bind (scramble ar N pt) (fun idx => Some (Z.rem (Z.rem idx 256 + 256) 256)).
(** PerlinNoise.h:217-223. *)
Definition corner (i : nat) : nat -> Z := fun axis => if Nat.testbit i axis then 1%Z else 0%Z.
(** PerlinNoise.h:225-232. *)
Definition fade (t : R) : R := t * t * t * (t * (t * 6 - 15) + 10).
Definition dfade_dt (t : R) : R := let w := t - 1 in 30 * w * w * t * t.
(** Utils.h:100-104, exact. *)
Definition mix (t a b : R) : R := (1 - t) * a + t * b.
(** PointType::dot, LinalgTypes.h:170-172, 207-209. *)
Definition vdot (N : nat) (a b : nat -> R) : R := fold_left (fun s i => s + a i * b i) (seq 0 N) 0.
(** Conversion of a floating-point value to [index_t]: undefined if it does not fit. *)
Definition to_grid (N : nat) (p0f : nat -> R) : option (nat -> Z) :=
  if forallb (fun i => match chk (Int_part (p0f i)) with Some _ => true | None => false end) (seq 0 N) then Some (fun i => Int_part (p0f i)) else None.
(** p0 + corner, componentwise. *)
Definition add_corner (ar : Z -> option Z) (N : nat) (p0 : nat -> Z) (c : nat) : option (nat -> Z) :=
  if forallb (fun i => match ar (p0 i + corner c i)%Z with Some _ => true | None => false end) (seq 0 N) then Some (fun i => (p0 i + corner c i)%Z) else None.

Section Noise.
Variables (ar : Z -> option Z) (N : nat).
(** The table of 256 gradients. *)
Variable gradients : Z -> nat -> R.
(** get_grid_gradient, PerlinNoise.h:185-214. *)
Definition grid_gradient (pt : nat -> Z) : option (nat -> R) := bind (grid_index ar N pt) (fun i => Some (gradients i)).
Definition floor_pt (pt : nat -> R) : nat -> R := fun i => IZR (Int_part (pt i)).
(** PerlinNoise.h:81-111: eval.  [f_x] is the uninitialised array; the 2^N corners are visited in order. *)
Definition eval (f_x : nat -> R) (pt : nat -> R) : option R :=
  let p0f := floor_pt pt in
  bind (to_grid N p0f) (fun p0 =>
  let p_mod := fun i => pt i - p0f i in
  bind (fold_left (fun f c => bind f (fun f => bind (add_corner ar N p0 c) (fun q => bind (grid_gradient q) (fun g =>
          Some (set_at f c (vdot N (fun i => p_mod i - IZR (corner c i)) g)))))) (seq 0 (2 ^ N)) (Some f_x)) (fun f =>
  Some (fold_left (fun f axis =>
          let t := fade (p_mod axis) in
          fold_left (fun f pair => set_at f pair (mix t (f (pair * 2)%nat) (f (pair * 2 + 1)%nat))) (seq 0 (2 ^ (N - axis - 1))) f) (seq 0 N) f 0%nat))).
(** PerlinNoise.h:119-181: gradient.  For N = 1 [point_t w] is an uninitialised scalar that is then read; for N > 1 it is a
    Vec, which is zero-initialised (VecBase.h:47-51, 119, 182, 248). *)
Definition grad_pair (p_mod : nat -> R) (axis : nat) (s : (nat -> R) * (nat -> nat -> R)) (pair : nat) : (nat -> R) * (nat -> nat -> R) :=
  let t := fade (p_mod axis) in let dt_dx := dfade_dt (p_mod axis) in
  let k := (pair * 2)%nat in
  let a := fst s k in let b := fst s (k + 1)%nat in
  let da := snd s k in let db := snd s (k + 1)%nat in
  let w0 := fun i => if (i =? axis)%nat then 0 + (b - a) * dt_dx else 0 in
  let w := fun i => w0 i + (1 - t) * da i + t * db i in
  (set_at (fst s) pair (mix t a b), set_at (snd s) pair w).
Definition gradient (f_x : nat -> R) (df : nat -> nat -> R) (pt : nat -> R) : option (R * (nat -> R)) :=
  let p0f := floor_pt pt in
  bind (to_grid N p0f) (fun p0 =>
  let p_mod := fun i => pt i - p0f i in
  bind (fold_left (fun s c => bind s (fun s => bind (add_corner ar N p0 c) (fun q => bind (grid_gradient q) (fun g =>
          Some (set_at (fst s) c (vdot N (fun i => p_mod i - IZR (corner c i)) g), set_at (snd s) c g))))) (seq 0 (2 ^ N)) (Some (f_x, df))) (fun s =>
  if (N =? 1)%nat then None
  else let s := fold_left (fun s axis => fold_left (grad_pair p_mod axis) (seq 0 (2 ^ (N - axis - 1))) s) (seq 0 N) s in
       Some (fst s 0%nat, snd s 0%nat))).
End Noise.
