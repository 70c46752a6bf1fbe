(** Model of geomc/Hash.h and geomc/function/functiondetail/SipHash.cpp.

    Unsigned words are their values; bytes are integers in [0, 256).  Buffers are lists of bytes, read by
    index: a read outside is [Fault OutOfBounds]. *)
From Coq Require Import ZArith List Bool.
From Verif Require Import Mem WordModel.
Import ListNotations.
Open Scope Z_scope.
Open Scope res_scope.

(** ** Hash.h *)

(** Hash.h:210-242 [hash_combine] for a [w]-bit unsigned type: [h0 ^= h1 + k + (h0 << a) + (h0 >> b)]. *)
Section Combine.
Variables w k a b : Z.
Definition combine (h0 h1 : Z) : Z :=
  wxor h0 (wadd w (wadd w (wadd w h1 k) (wshl w h0 a)) (wshr h0 b)).

(** Hash.h:244-252 [hash_combine_many]: right fold over the argument pack (at least one argument). *)
Fixpoint combine_many (h : Z) (hs : list Z) : Z :=
  match hs with
  | [] => h
  | h' :: hs' => combine h (combine_many h' hs')
  end.

(** Hash.h:254-261 [hash_array]: left fold; [hs] are the hashes of the elements. *)
Definition hash_array (nonce : Z) (hs : list Z) : Z := fold_left combine hs nonce.
End Combine.

(** The four instances, Hash.h:212-235. *)
Definition combine128 := combine 128 0x9e3779b97f4a7c15f39cc0605cedc834 24 8.
Definition combine64 := combine 64 0x9e3779b97f4a7c15 12 4.
Definition combine32 := combine 32 0x9e3779b9 6 2.
Definition combine16 := combine 16 0x9e37 3 1.

(** ** SipHash.cpp *)

Definition rd (p : list Z) (i : Z) : res Z :=
  if i <? 0 then Fault OutOfBounds else
  match nth_error p (Z.to_nat i) with Some b => Ok b | None => Fault OutOfBounds end.

(** SipHash.cpp:5-15 [u32to8], [u64to8]. *)
Definition u32to8 (v : Z) : list Z :=
  [norm 8 v; norm 8 (wshr v 8); norm 8 (wshr v 16); norm 8 (wshr v 24)].
Definition u64to8 (v : Z) : list Z := u32to8 (norm 32 v) ++ u32to8 (norm 32 (wshr v 32)).

(** SipHash.cpp:17-24 [u8to64]. *)
Definition u8to64 (p : list Z) (i : Z) : res Z :=
  let* p0 := rd p i in
  let* p1 := rd p (i + 1) in let* p2 := rd p (i + 2) in
  let* p3 := rd p (i + 3) in let* p4 := rd p (i + 4) in
  let* p5 := rd p (i + 5) in let* p6 := rd p (i + 6) in
  let* p7 := rd p (i + 7) in
  let v := p0 in
  let v := wor v (wor (wshl 64 p1 8) (wshl 64 p2 16)) in
  let v := wor v (wor (wshl 64 p3 24) (wshl 64 p4 32)) in
  let v := wor v (wor (wshl 64 p5 40) (wshl 64 p6 48)) in
  let v := wor v (wshl 64 p7 56) in
  Ok v.

Record sip : Type := mkS { v0 : Z; v1 : Z; v2 : Z; v3 : Z }.

(** SipHash.cpp:26-41 [sipround]. *)
Definition sipround (s : sip) : sip :=
  let '(mkS v0 v1 v2 v3) := s in
  let v0 := wadd 64 v0 v1 in
  let v1 := wrotl 64 v1 13 in
  let v1 := wxor v1 v0 in
  let v0 := wrotl 64 v0 32 in
  let v2 := wadd 64 v2 v3 in
  let v3 := wrotl 64 v3 16 in
  let v3 := wxor v3 v2 in
  let v0 := wadd 64 v0 v3 in
  let v3 := wrotl 64 v3 21 in
  let v3 := wxor v3 v0 in
  let v2 := wadd 64 v2 v1 in
  let v1 := wrotl 64 v1 17 in
  let v1 := wxor v1 v2 in
  let v2 := wrotl 64 v2 32 in
  mkS v0 v1 v2 v3.

Fixpoint rounds (n : nat) (s : sip) : sip := match n with O => s | S k => rounds k (sipround s) end.

(** One message word: lines 93-98 and 114-116. *)
Definition absorb (s : sip) (m : Z) : sip :=
  let s := mkS (v0 s) (v1 s) (v2 s) (wxor (v3 s) m) in
  let s := rounds 2 s in
  mkS (wxor (v0 s) m) (v1 s) (v2 s) (v3 s).

(** Lines 92-99: the loop [for (; ni != end; ni += 8)].  Running out of fuel is a fault. *)
Fixpoint sip_loop (fuel : nat) (p : list Z) (ni fin : Z) (s : sip) : res (sip * Z) :=
  if ni =? fin then Ok (s, ni) else
  match fuel with
  | O => Fault OtherUB
  | S k => let* m := u8to64 p ni in sip_loop k p (ni + 8) fin (absorb s m)
  end.

(** Lines 101-111: the switch with fallthrough executes the statements for j = left, left-1, ..., 1. *)
Fixpoint sip_tail (j : nat) (left ni : Z) (p : list Z) (b : Z) : res Z :=
  match j with
  | O => Ok b
  | S k =>
      let* b := (if Z.of_nat j <=? left
                 then let* x := rd p (ni + Z.of_nat k) in Ok (wor b (wshl 64 x (8 * Z.of_nat k)))
                 else Ok b) in
      sip_tail k left ni p b
  end.

(** Lines 84-90: key and output-length mixing. *)
Definition sip_setup (k0 k1 outlen : Z) : sip :=
  mkS (wxor 0x736f6d6570736575 k0)
      (if outlen =? 16 then wxor (wxor 0x646f72616e646f6d k1) 0xee else wxor 0x646f72616e646f6d k1)
      (wxor 0x6c7967656e657261 k0) (wxor 0x7465646279746573 k1).

(** Lines 117-120: first finalisation. *)
Definition sip_final (s : sip) (outlen : Z) : sip :=
  rounds 4 (mkS (v0 s) (v1 s) (wxor (v2 s) (if outlen =? 16 then 0xee else 0xff)) (v3 s)).
(** Lines 124-125: second finalisation (16-byte output). *)
Definition sip_final2 (s : sip) : sip := rounds 4 (mkS (v0 s) (wxor (v1 s) 0xdd) (v2 s) (v3 s)).
(** Lines 121-122, 127-128: one output word. *)
Definition sip_out (s : sip) : list Z := u64to8 (wxor (wxor (wxor (v0 s) (v1 s)) (v2 s)) (v3 s)).

(** Lines 54-127 [siphash]: the bytes written to [out]. *)
Definition siphash (p : list Z) (inlen : Z) (key : list Z) (outlen : Z) : res (list Z) :=
  let* k0 := u8to64 key 0 in
  let* k1 := u8to64 key 8 in
  let* (s, ni) := sip_loop (Z.to_nat (inlen / 8)) p 0 (inlen - inlen mod 8) (sip_setup k0 k1 outlen) in
  let* b := sip_tail 7 (Z.land inlen 7) ni p (wshl 64 inlen 56) in
  let s := sip_final (absorb s b) outlen in
  if outlen =? 8 then Ok (sip_out s) else Ok (sip_out s ++ sip_out (sip_final2 s)).

(** Hash.h:268-294 [hash_bytes] for a 128-bit hash type with a 64-bit size_t, on a little-endian host
    (the key words and the result words are reinterpreted as bytes). *)
Definition hash_bytes128 (nonce : Z) (p : list Z) : res Z :=
  let key := u64to8 (norm 64 nonce) ++ u64to8 (norm 64 (wshr nonce 64)) in
  let* out := siphash p (Z.of_nat (length p)) key 16 in
  let* o0 := u8to64 out 0 in
  let* o1 := u8to64 out 8 in
  Ok (wor (wshl 128 o0 64) o1).
