(** C15, C16: hash combination and SipHash. *)
From Coq Require Import ZArith List Bool Lia.
From Verif Require Import Mem WordModel HashModel HashSpec HashProofs.
Import ListNotations.
Open Scope Z_scope.

(** C15.  At every width and for every constant and shift amounts (so for each of the four instances
    combine16, combine32, combine64, combine128), combining with a fixed accumulator is injective in the
    value mixed in, and onto. *)
Theorem hash_combine_injective :
  forall w k a b, 0 < w -> forall h0 x y, word w x -> word w y ->
  combine w k a b h0 x = combine w k a b h0 y -> x = y.
Proof. exact combine_inj. Qed.
Print Assumptions hash_combine_injective.

Theorem hash_combine_onto :
  forall w k a b, 0 < w -> forall h0 t, word w h0 -> word w t ->
  exists x, word w x /\ combine w k a b h0 x = t.
Proof. exact combine_surj. Qed.
Print Assumptions hash_combine_onto.

(** C15.  Arrays, and argument packs, that differ only in their last element hash differently. *)
Theorem hash_array_last_injective :
  forall w k a b, 0 < w -> forall nonce hs x y, word w x -> word w y ->
  hash_array w k a b nonce (hs ++ [x]) = hash_array w k a b nonce (hs ++ [y]) -> x = y.
Proof. exact array_last_inj. Qed.
Print Assumptions hash_array_last_injective.

Theorem hash_many_last_injective :
  forall w k a b, 0 < w -> forall hs nonce x y,
  word w nonce -> Forall (word w) hs -> word w x -> word w y ->
  combine_many w k a b nonce (hs ++ [x]) = combine_many w k a b nonce (hs ++ [y]) -> x = y.
Proof. exact many_last_inj. Qed.
Print Assumptions hash_many_last_injective.

Example hash_array_ex : word 64 1 /\ word 64 2 /\
  hash_array 64 0x9e3779b97f4a7c15 12 4 7 [3; 1] <> hash_array 64 0x9e3779b97f4a7c15 12 4 7 [3; 2].
Proof. split; [unfold word; lia|]. split; [unfold word; lia|]. vm_compute. discriminate. Qed.

(** C15, violated for the accumulator: from every nonce there are two arrays that differ in the first
    element only and collide; in particular for each instance of hash_combine. *)
Theorem hash_array_first_refuted :
  forall w k a b, 0 < w -> 1 <= a < w -> 1 <= b < w -> forall nonce, word w nonce ->
  exists x y z, word w x /\ word w y /\ word w z /\ x <> y /\
    hash_array w k a b nonce [x; z] = hash_array w k a b nonce [y; z].
Proof. exact array_first_collide. Qed.
Print Assumptions hash_array_first_refuted.

Example hash_array_first_refuted_64 :
  combine64 0 (2 ^ 11 - 2 ^ 59 - 0x9e3779b97f4a7c15 + 2 ^ 64) =
  combine64 (2 ^ 64 - 1) (2 ^ 11 - 2 ^ 59 - 0x9e3779b97f4a7c15 + 2 ^ 64).
Proof. vm_compute. reflexivity. Qed.

(** C16.  siphash is SipHash-2-4 on every key and message, for both output lengths, and reads nothing
    outside its input. *)
Theorem siphash_is_siphash24_64 :
  forall key msg, length key = 16%nat -> Forall byte key -> Forall byte msg ->
  siphash msg (Z.of_nat (length msg)) key 8 = Ok (le_bytes 8 (SipHash64 key msg)).
Proof. exact siphash_64. Qed.
Print Assumptions siphash_is_siphash24_64.

Theorem siphash_is_siphash24_128 :
  forall key msg, length key = 16%nat -> Forall byte key -> Forall byte msg ->
  siphash msg (Z.of_nat (length msg)) key 16 =
    Ok (le_bytes 8 (fst (SipHash128 key msg)) ++ le_bytes 8 (snd (SipHash128 key msg))).
Proof. exact siphash_128. Qed.
Print Assumptions siphash_is_siphash24_128.

(** The specification reproduces the published test vectors. *)
Example siphash_vector :
  let key := map Z.of_nat (seq 0 16) in
  length key = 16%nat /\ Forall byte key /\ Forall byte (map Z.of_nat (seq 0 15)) /\
  SipHash64 key (map Z.of_nat (seq 0 15)) = 0xa129ca6149be45e5 /\
  le_bytes 8 (fst (SipHash128 key [])) ++ le_bytes 8 (snd (SipHash128 key [])) =
    [0xa3; 0x81; 0x7f; 0x04; 0xba; 0x25; 0xa8; 0xe6; 0x6d; 0xf6; 0x72; 0x14; 0xc7; 0x55; 0x02; 0x93].
Proof.
  cbv zeta. split; [reflexivity|]. split; [|split].
  - apply Forall_forall. intros x Hx. apply in_map_iff in Hx. destruct Hx as (n & <- & Hn). apply in_seq in Hn.
    unfold byte. lia.
  - apply Forall_forall. intros x Hx. apply in_map_iff in Hx. destruct Hx as (n & <- & Hn). apply in_seq in Hn.
    unfold byte. lia.
  - split; vm_compute; reflexivity.
Qed.

(** C16.  hash_bytes at 128 bits is SipHash-2-4-128 keyed by the nonce. *)
Theorem hash_bytes_128_is_siphash :
  forall nonce msg, 0 <= nonce < 2 ^ 128 -> Forall byte msg ->
  hash_bytes128 nonce msg =
    let (lo, hi) := SipHash128 (le_bytes 16 nonce) msg in Ok (lo * 2 ^ 64 + hi).
Proof. exact hash_bytes128_spec. Qed.
Print Assumptions hash_bytes_128_is_siphash.

(** C16.  The round loses no information. *)
Theorem sipround_injective :
  forall a b c d a' b' c' d',
  word 64 a -> word 64 b -> word 64 c -> word 64 d -> word 64 a' -> word 64 b' -> word 64 c' -> word 64 d' ->
  sipround (mkS a b c d) = sipround (mkS a' b' c' d') -> (a, b, c, d) = (a', b', c', d').
Proof. exact round_inj. Qed.
Print Assumptions sipround_injective.
