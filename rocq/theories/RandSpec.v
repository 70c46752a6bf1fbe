(** Specification vocabulary for the random number properties. *)
From Coq Require Import ZArith List Bool.
From Verif Require Import Mem WordModel RandModel.
Import ListNotations.
Open Scope Z_scope.

(** Number of words b in [0, n) with P b. *)
Fixpoint count_words (P : Z -> bool) (n : nat) : Z :=
  match n with O => 0 | S k => count_words P k + (if P (Z.of_nat k) then 1 else 0) end.

(** The raw words of width w that make the bounded draw return v at once. *)
Definition yields (w hi v b : Z) : bool := negb (below_reject w hi b) && (below_val hi b =? v).

(** The words a generator produces from a state on. *)
Section Stream.
Variable S : Type.
Variable next32 : S -> Z * S.
Fixpoint stream (s : S) (n : nat) : Z :=
  match n with O => fst (next32 s) | Datatypes.S k => stream (snd (next32 s)) k end.
End Stream.

(** The value of a non-negative IEEE-754 bit pattern with p mantissa bits, scaled by 2^(bias+p-1):
    patterns of exponent 0 are subnormal. *)
Definition ieee_scaled (p bits : Z) : Z :=
  let e := bits / 2 ^ p in
  let m := bits mod 2 ^ p in
  if e =? 0 then m else (2 ^ p + m) * 2 ^ (e - 1).

(** A draw without the boolean pool. *)
Definition word_call (c : rcall) : bool :=
  match c with CWord | CU64 | CReseed _ => true | _ => false end.

(** Fair coin sequences of a given length, counted. *)
Fixpoint count_flips (P : list bool -> bool) (n : nat) : Z :=
  match n with
  | O => if P [] then 1 else 0
  | S k => count_flips (fun l => P (true :: l)) k + count_flips (fun l => P (false :: l)) k
  end.

(** The successive coin flips of a generator. *)
Section Flips.
Variable S : Type.
Variable next32 : S -> Z * S.
Fixpoint flips (n : nat) (g : rng S) : list bool :=
  match n with
  | O => []
  | Datatypes.S k => let (b, g') := r_bool S next32 g in b :: flips k g'
  end.
End Flips.

(** The exponent field selected by coin flips: start at [n] and go down one for each leading tail. *)
Fixpoint exp_of_flips (e : Z) (l : list bool) : Z :=
  match l with
  | false :: l' => exp_of_flips (e - 1) l'
  | _ => e
  end.

(** The Mersenne-Twister recurrence step (word size 32, r = 31, a = 0x9908B0DF), without tempering: with
    x the word made of the top bit of [a] and the low 31 bits of [b], shift right and conditionally add
    the matrix constant, then add [c]. *)
Definition mt_step (a b c : Z) : Z :=
  let x := (a / 2 ^ 31) mod 2 * 2 ^ 31 + b mod 2 ^ 31 in
  Z.lxor c (Z.lxor (x / 2) (if Z.odd x then 0x9908B0DF else 0)).

(** A 256-bit xoshiro state: four 64-bit words. *)
Definition xword (s : xstate) : Prop := word 64 (x0 s) /\ word 64 (x1 s) /\ word 64 (x2 s) /\ word 64 (x3 s).
