(** Model of the random number generators (geomc/random). *)
From Coq Require Import ZArith List Bool.
From Verif Require Import Mem WordModel.
Import ListNotations.
Open Scope Z_scope.

(** ** LCRand *)

(** LCRand.h:47-52 [rand64]; the result is the new state. *)
Definition lcg_A : Z := 6364136223846793005.
Definition lcg_C : Z := 1442695040888963407.
Definition lcg_next (s : Z) : Z := wadd 64 (wmul 64 lcg_A s) lcg_C.

(** LCRand.cpp:21-23 [rand32]: output and new state. *)
Definition lcg_rand32 (s : Z) : Z * Z := let s' := lcg_next s in (wshr s' 32, s').

(** ** Xorshiro.h *)

(** Xorshiro.h:10-15 [splitmix64]: output and new counter. *)
Definition sm_gamma : Z := 0x9E3779B97f4A7C15.
Definition sm_mix (x0 : Z) : Z :=
  let x := wmul 64 (wxor x0 (wshr x0 30)) 0xBF58476D1CE4E5B9 in
  let x := wmul 64 (wxor x (wshr x 27)) 0x94D049BB133111EB in
  wxor x (wshr x 31).
Definition splitmix64 (state : Z) : Z * Z :=
  let x := wadd 64 state sm_gamma in (sm_mix x, x).

Record xstate : Type := mkX { x0 : Z; x1 : Z; x2 : Z; x3 : Z }.

(** Xorshiro.h:36-42 [rseed]. *)
Definition x_rseed (seed : Z) : xstate :=
  let (a, s) := splitmix64 seed in
  let (b, s) := splitmix64 s in
  let (c, s) := splitmix64 s in
  let (d, s) := splitmix64 s in
  mkX a b c d.

(** Xorshiro.h:44-55 [seed(F)], given the four values the entropy source returns. *)
Definition x_seed_from (e0 e1 e2 e3 : Z) : xstate :=
  mkX (fst (splitmix64 e0)) (fst (splitmix64 e1)) (fst (splitmix64 e2)) (fst (splitmix64 e3)).

(** Xorshiro.h:57-62 [seed(const uint64_t[4])]. *)
Definition x_seed_raw (e0 e1 e2 e3 : Z) : xstate := mkX e0 e1 e2 e3.

(** Xorshiro.h:64-78 [rand64]: output and new state, statement by statement. *)
Definition x_rand64 (s : xstate) : Z * xstate :=
  let s0 := x0 s in let s1 := x1 s in let s2 := x2 s in let s3 := x3 s in
  let out := wadd 64 (wrotl 64 (wadd 64 s0 s3) 23) s0 in
  let t := wshl 64 s1 17 in
  let s2 := wxor s2 s0 in
  let s3 := wxor s3 s1 in
  let s1 := wxor s1 s2 in
  let s0 := wxor s0 s3 in
  let s2 := wxor s2 t in
  let s3 := wrotl 64 s3 45 in
  (out, mkX s0 s1 s2 s3).

(** Xorshiro.h:80-82 [rand32]. *)
Definition x_rand32 (s : xstate) : Z * xstate :=
  let (o, s') := x_rand64 s in (wshr o 32, s').

(** ** The Random base class over an arbitrary generator *)

Section Base.
Variable S : Type.
(** The virtual methods [rand32] and [rseed]. *)
Variable next32 : S -> Z * S.
Variable seedf : Z -> S.

(** Random.h: data members [_bitpool], [_bitsleft] plus the derived class's state. *)
Record rng : Type := mkR { r_state : S; r_pool : Z; r_left : Z }.

(** Random.cpp:33-34 constructor, with a seeded derived state. *)
Definition r_new (seed : Z) : rng := mkR (seedf seed) 0 0.

(** LCRand.cpp:25-27, MTRand.cpp:68-74, Xorshiro.h:36-42: the overriding [rseed] methods replace the
    derived state only. *)
Definition r_rseed (g : rng) (seed : Z) : rng := mkR (seedf seed) (r_pool g) (r_left g).

Definition r_rand32 (g : rng) : Z * rng :=
  let (o, s) := next32 (r_state g) in (o, mkR s (r_pool g) (r_left g)).

(** Random.cpp:44-53 [rand<bool>]. *)
Definition r_bool (g : rng) : bool * rng :=
  let g := (if r_left g =? 0 then let (o, g') := r_rand32 g in mkR (r_state g') o 32 else g) in
  let bit := Z.land (r_pool g) 1 in
  (negb (bit =? 0), mkR (r_state g) (wshr (r_pool g) 1) (r_left g - 1)).

(** Random.cpp:56-72 [rand<unsigned int>] (32-bit unsigned int). *)
Definition r_u32 (g : rng) : Z * rng := r_rand32 g.

(** Random.cpp:75-86, 94-101 [rand<unsigned long>] (64-bit): two words, the first one high. *)
Definition r_u64 (g : rng) : Z * rng :=
  let (a, g) := r_rand32 g in
  let bits := wor (wshl 64 0 32) a in
  let (b, g) := r_rand32 g in
  (wor (wshl 64 bits 32) b, g).

(** The loop condition of Random.cpp:189-200 (and 212-223, 237-248) for a [w]-bit word: reject iff
    [(lo & SIGNBIT) & ~(lo + (hi-1))] is nonzero. *)
Definition below_val (hi bits : Z) : Z := bits mod hi.
Definition below_reject (w hi bits : Z) : bool :=
  let val := bits mod hi in
  let lo := wsub w bits val in
  negb (wand (wand lo (2 ^ (w - 1))) (wnot w (wadd w lo (hi - 1))) =? 0).

(** The do-while loop; [raw] draws a word.  [None] when [fuel] draws were all rejected, and
    [Fault DivByZero] for hi = 0 (bits % hi). *)
Section Below.
Variable w : Z.
Variable raw : rng -> Z * rng.
Fixpoint r_below (fuel : nat) (hi : Z) (g : rng) : res (option (Z * rng)) :=
  if hi =? 0 then Fault DivByZero else
  match fuel with
  | O => Ok None
  | Datatypes.S k =>
      let (bits, g') := raw g in
      if below_reject w hi bits then r_below k hi g' else Ok (Some (below_val hi bits, g'))
  end.
End Below.

(** Random.cpp:203-209 [rand<int>(hi)]; negating INT_MIN is undefined. *)
Definition r_int_below (fuel : nat) (hi : Z) (g : rng) : res (option (Z * rng)) :=
  if hi <? 0 then
    if hi =? - 2 ^ 31 then Fault OtherUB else
    match r_below 32 r_u32 fuel (- hi) g with
    | Ok (Some (v, g')) => Ok (Some (- v, g'))
    | r => r end
  else r_below 32 r_u32 fuel hi g.

(** Random.cpp:275-278 [rand<int>(lo, hi)]; the subtraction and the addition are signed. *)
Definition r_int_range (fuel : nat) (lo hi : Z) (g : rng) : res (option (Z * rng)) :=
  let lo1 := Z.min hi lo in
  let d := Z.max hi lo - lo1 in
  if 2 ^ 31 <=? d then Fault OtherUB else
  match r_int_below fuel d g with
  | Ok (Some (v, g')) =>
      if (- 2 ^ 31 <=? v + lo1) && (v + lo1 <? 2 ^ 31) then Ok (Some (v + lo1, g')) else Fault OtherUB
  | r => r end.

(** Random.cpp:126-152 [rand<float>]: the coin-flipping loop; [e] is the current exponent field. *)
Fixpoint flip_exp (n : nat) (e : Z) (g : rng) : Z * rng :=
  match n with
  | O => (e, g)
  | Datatypes.S k => let (b, g') := r_bool g in if b then (e, g') else flip_exp k (e - 1) g'
  end.

(** The bit pattern returned: loop from exponent 126 while it is above 0, then 23 mantissa bits. *)
Definition r_float_bits (g : rng) : Z * rng :=
  let (e, g) := flip_exp 126 126 g in
  let (o, g) := r_rand32 g in
  let mant := wshr (wand o 0xFFFFFE00) 9 in
  let (e, g) := (if mant =? 0 then let (b, g) := r_bool g in ((if b then e + 1 else e), g) else (e, g)) in
  (wor (wshl 32 e 23) mant, g).

(** Random.cpp:155-182 [rand<double>]. *)
Definition r_double_bits (g : rng) : Z * rng :=
  let (e, g) := flip_exp 1022 1022 g in
  let (a, g) := r_rand32 g in
  let (b, g) := r_rand32 g in
  let m := wor (wshl 64 a 32) b in
  let mant := wshr (wand m 0xFFFFFFFFFFFFF000) 12 in
  let (e, g) := (if mant =? 0 then let (b, g) := r_bool g in ((if b then e + 1 else e), g) else (e, g)) in
  (wor (wshl 64 e 52) mant, g).

(** Histories of calls on one generator. *)
Inductive rcall : Type := CWord | CBool | CU64 | CFloat | CDouble | CReseed (seed : Z).
Definition r_call (g : rng) (c : rcall) : Z * rng :=
  match c with
  | CWord => r_rand32 g
  | CBool => let (b, g) := r_bool g in ((if b then 1 else 0), g)
  | CU64 => r_u64 g
  | CFloat => r_float_bits g
  | CDouble => r_double_bits g
  | CReseed s => (0, r_rseed g s)
  end.
Fixpoint r_calls (g : rng) (cs : list rcall) : list Z * rng :=
  match cs with
  | [] => ([], g)
  | c :: cs' => let (o, g) := r_call g c in let (os, g) := r_calls g cs' in (o :: os, g)
  end.
End Base.

(** ** MTRand *)

(** MTRand.cpp:43-66.  The buffer is a function from index to word; [mt_index] counts words (the code
    counts bytes, always a multiple of four). *)
Definition mt_len : Z := 624.
Definition mt_ia : Z := 397.
Definition mt_ib : Z := mt_len - mt_ia.
Definition mt_twist (a b : Z) : Z := wor (wand a 0x80000000) (wand b 0x7FFFFFFF).
Definition mt_magic (s : Z) : Z := wmul 32 (wand s 1) 0x9908B0DF.
Definition fupd (f : Z -> Z) (i v : Z) : Z -> Z := fun j => if j =? i then v else f j.

(** One in-place assignment b[i] = b[k] ^ (s >> 1) ^ MAGIC(s) with s = TWIST(b, i, j). *)
Definition mt_assign (b : Z -> Z) (i j k : Z) : Z -> Z :=
  let s := mt_twist (b i) (b j) in
  fupd b i (wxor (wxor (b k) (wshr s 1)) (mt_magic s)).

(** The two loops: index [i], [n] iterations, source offset [d]. *)
Fixpoint mt_loop (b : Z -> Z) (i d : Z) (n : nat) : Z -> Z :=
  match n with
  | O => b
  | S k => mt_loop (mt_assign b i (i + 1) (i + d)) (i + 1) d k
  end.

Definition mt_regen (b : Z -> Z) : Z -> Z :=
  let b := mt_loop b 0 mt_ia (Z.to_nat mt_ib) in
  let b := mt_loop b mt_ib (- mt_ib) (Z.to_nat (mt_len - 1 - mt_ib)) in
  mt_assign b (mt_len - 1) 0 (mt_ia - 1).

Record mtstate : Type := mkMT { mt_buf : Z -> Z; mt_idx : Z }.

Definition mt_rand32 (s : mtstate) : Z * mtstate :=
  let (b, i) := (if mt_idx s =? mt_len then (mt_regen (mt_buf s), 0) else (mt_buf s, mt_idx s)) in
  (b i, mkMT b (i + 1)).

(** MTRand.cpp:68-74 [rseed]. *)
Fixpoint mt_fill (b : Z -> Z) (i : Z) (seeder : Z) (n : nat) : Z -> Z :=
  match n with
  | O => b
  | S k => let (o, s) := lcg_rand32 seeder in mt_fill (fupd b i o) (i + 1) s k
  end.
Definition mt_rseed (seed : Z) : mtstate := mkMT (mt_fill (fun _ => 0) 0 seed (Z.to_nat mt_len)) 0.
