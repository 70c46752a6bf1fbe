(** SipHash-2-4 as published (Aumasson and Bernstein, "SipHash: a fast short-input PRF", with the 128-bit
    variant of the reference implementation), stated on lists of bytes and plain arithmetic. *)
From Coq Require Import ZArith List.
Import ListNotations.
Open Scope Z_scope.

Definition byte (b : Z) : Prop := 0 <= b < 256.

(** The little-endian number of a byte string, and the n-byte encoding of a number. *)
Fixpoint le (l : list Z) : Z := match l with [] => 0 | b :: l => b + 256 * le l end.
Fixpoint le_bytes (n : nat) (x : Z) : list Z :=
  match n with O => [] | S k => x mod 256 :: le_bytes k (x / 256) end.

(** Padding: zeros up to 7 modulo 8, then the length modulo 256. *)
Definition sip_pad (msg : list Z) : list Z :=
  msg ++ repeat 0 (7 - length msg mod 8) ++ [Z.of_nat (length msg) mod 256].
Fixpoint sip_words (n : nat) (l : list Z) : list Z :=
  match n with O => [] | S k => le (firstn 8 l) :: sip_words k (skipn 8 l) end.
Definition sip_message (msg : list Z) : list Z := sip_words (length msg / 8 + 1) (sip_pad msg).

Definition M64 : Z := 2 ^ 64.
Definition rot (x k : Z) : Z := (x * 2 ^ k) mod M64 + x / 2 ^ (64 - k).
Definition plus (x y : Z) : Z := (x + y) mod M64.

(** SipRound in the order of the paper's figure. *)
Definition SipRound (s : Z * Z * Z * Z) : Z * Z * Z * Z :=
  let '(a, b, c, d) := s in
  let a := plus a b in let c := plus c d in
  let b := rot b 13 in let d := rot d 16 in
  let b := Z.lxor b a in let d := Z.lxor d c in
  let a := rot a 32 in
  let c := plus c b in let a := plus a d in
  let b := rot b 17 in let d := rot d 21 in
  let b := Z.lxor b c in let d := Z.lxor d a in
  let c := rot c 32 in
  (a, b, c, d).
Definition Rounds (n : nat) (s : Z * Z * Z * Z) := Nat.iter n SipRound s.

Definition Compress (s : Z * Z * Z * Z) (m : Z) : Z * Z * Z * Z :=
  let '(a, b, c, d) := s in
  let '(a, b, c, d) := Rounds 2 (a, b, c, Z.lxor d m) in
  (Z.lxor a m, b, c, d).

Definition Fold4 (s : Z * Z * Z * Z) : Z := let '(a, b, c, d) := s in Z.lxor (Z.lxor (Z.lxor a b) c) d.

Definition SipInit (key : list Z) : Z * Z * Z * Z :=
  let k0 := le (firstn 8 key) in
  let k1 := le (skipn 8 key) in
  (Z.lxor 0x736f6d6570736575 k0, Z.lxor 0x646f72616e646f6d k1,
   Z.lxor 0x6c7967656e657261 k0, Z.lxor 0x7465646279746573 k1).

(** The 64-bit hash. *)
Definition SipHash64 (key msg : list Z) : Z :=
  let '(a, b, c, d) := fold_left Compress (sip_message msg) (SipInit key) in
  Fold4 (Rounds 4 (a, b, Z.lxor c 0xff, d)).

(** The 128-bit variant: two 64-bit halves, low half first. *)
Definition SipHash128 (key msg : list Z) : Z * Z :=
  let '(a, b, c, d) := SipInit key in
  let '(a, b, c, d) := fold_left Compress (sip_message msg) (a, Z.lxor b 0xee, c, d) in
  let s := Rounds 4 (a, b, Z.lxor c 0xee, d) in
  let '(a, b, c, d) := s in
  (Fold4 s, Fold4 (Rounds 4 (a, Z.lxor b 0xdd, c, d))).
