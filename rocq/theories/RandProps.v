(** C11-C14, C42, C43: the random number generators. *)
From Coq Require Import ZArith List Bool Lia.
From Verif Require Import Mem WordModel RandModel RandSpec BelowProofs LcgProofs XoshiroProofs RandProofs MTProofs RandProofs2.
Import ListNotations.
Open Scope Z_scope.

(** C11.  From every seed the LCG returns to its state exactly after the multiples of 2^64 steps, and it
    reaches every 64-bit state within 2^64 steps. *)
Theorem lcg_full_period :
  forall s, 0 <= s < 2 ^ 64 ->
  (forall n, Nat.iter n lcg_next s = s <-> (2 ^ 64 | Z.of_nat n)) /\
  (forall t, 0 <= t < 2 ^ 64 -> exists n, Z.of_nat n < 2 ^ 64 /\ Nat.iter n lcg_next s = t).
Proof. exact lcg_full. Qed.
Print Assumptions lcg_full_period.

Example lcg_full_period_ex : 0 <= 1 < 2 ^ 64 /\ Nat.iter 2 lcg_next 1 = 9396908728118811419.
Proof. split; [lia|vm_compute; reflexivity]. Qed.

(** C12.  The xoshiro transition is a bijection of the 256-bit states. *)
Theorem xoshiro_bijective :
  exists back, forall s, xword s ->
    xword (snd (x_rand64 s)) /\ xword (back s) /\
    back (snd (x_rand64 s)) = s /\ snd (x_rand64 (back s)) = s.
Proof. exact x_bijective. Qed.
Print Assumptions xoshiro_bijective.

(** C12.  A generator seeded by [rseed] never enters the all-zero state, at any later time. *)
Theorem xoshiro_seeded_nonzero :
  forall seed n, word 64 seed -> Nat.iter n (fun s => snd (x_rand64 s)) (x_rseed seed) <> mkX 0 0 0 0.
Proof. exact (fun seed n H => x_nonzero n _ (x_rseed_word seed) (x_rseed_nonzero seed H)). Qed.
Print Assumptions xoshiro_seeded_nonzero.

(** C12.  No non-zero state ever leads to the zero state. *)
Theorem xoshiro_never_zero :
  forall n s, xword s -> s <> mkX 0 0 0 0 -> Nat.iter n (fun s => snd (x_rand64 s)) s <> mkX 0 0 0 0.
Proof. exact x_nonzero. Qed.
Print Assumptions xoshiro_never_zero.

Example xoshiro_ex : xword (mkX 1 2 3 4) /\ mkX 1 2 3 4 <> mkX 0 0 0 0 /\
  x_rand64 (mkX 1 2 3 4) = (41943041, mkX 7 0 262146 (6 * 2 ^ 45)).
Proof. split; [unfold xword, word; cbn; lia|]. split; [discriminate|vm_compute; reflexivity]. Qed.

(** C12, violated for the entropy seeding, whose comment promises "no zeros": four equal entropy words
    put the generator in the zero state, after which it returns 0 forever. *)
Theorem xoshiro_entropy_seed_refuted :
  let e := 2 ^ 64 - sm_gamma in
  x_seed_from e e e e = mkX 0 0 0 0 /\ x_seed_raw 0 0 0 0 = mkX 0 0 0 0 /\
  forall n, stream xstate x_rand32 (mkX 0 0 0 0) n = 0.
Proof. exact x_entropy_zero. Qed.
Print Assumptions xoshiro_entropy_seed_refuted.

(** C12.  Different seeds, or entropy words, make different states, by each of the three ways of seeding. *)
Theorem xoshiro_seeds_distinct :
  (forall a b, word 64 a -> word 64 b -> x_rseed a = x_rseed b -> a = b) /\
  (forall a0 a1 a2 a3 b0 b1 b2 b3, word 64 a0 -> word 64 a1 -> word 64 a2 -> word 64 a3 -> word 64 b0 -> word 64 b1 -> word 64 b2 -> word 64 b3 ->
     x_seed_from a0 a1 a2 a3 = x_seed_from b0 b1 b2 b3 -> (a0, a1, a2, a3) = (b0, b1, b2, b3)) /\
  (forall e0 e1 e2 e3, let s := x_seed_raw e0 e1 e2 e3 in (x0 s, x1 s, x2 s, x3 s) = (e0, e1, e2, e3)).
Proof. exact x_seeds_distinct. Qed.
Print Assumptions xoshiro_seeds_distinct.

(** C12.  splitmix64's output is a bijection of the 64-bit seed. *)
Theorem splitmix64_bijective :
  (forall a b, word 64 a -> word 64 b -> fst (splitmix64 a) = fst (splitmix64 b) -> a = b) /\
  (forall y, word 64 y -> exists a, word 64 a /\ fst (splitmix64 a) = y).
Proof. exact splitmix_bijective. Qed.
Print Assumptions splitmix64_bijective.

(** C13.  The bounded draw returns the residue of the first accepted word of the stream (and nothing when
    all of the first [fuel] words are rejected). *)
Theorem bounded_draw_first_accepted :
  forall (S : Type) (next32 : S -> Z * S) fuel hi g, hi <> 0 ->
  match r_below S 32 (r_u32 S next32) fuel hi g with
  | Ok (Some (v, _)) => exists k, (k < fuel)%nat /\
       (forall j, (j < k)%nat -> below_reject 32 hi (stream S next32 (r_state S g) j) = true) /\
       below_reject 32 hi (stream S next32 (r_state S g) k) = false /\
       v = stream S next32 (r_state S g) k mod hi
  | Ok None => forall j, (j < fuel)%nat -> below_reject 32 hi (stream S next32 (r_state S g) j) = true
  | Fault _ => False
  end.
Proof. exact below_u32_spec. Qed.
Print Assumptions bounded_draw_first_accepted.

(** C13.  For every word width and every bound up to three quarters of the range, each value below the
    bound is returned by exactly floor(2^w / hi) of the 2^w words (the others are rejected). *)
Theorem bounded_draw_uniform :
  forall w, 2 <= w -> forall hi v, 0 < hi -> 4 * hi <= 3 * 2 ^ w -> 0 <= v < hi ->
  count_words (yields w hi v) (Z.to_nat (2 ^ w)) = 2 ^ w / hi.
Proof. exact below_uniform. Qed.
Print Assumptions bounded_draw_uniform.

Example bounded_draw_uniform_ex :
  0 < 6 /\ 4 * 6 <= 3 * 2 ^ 4 /\ map (fun v => count_words (yields 4 6 v) 16) [0; 1; 2; 3; 4; 5] = [2; 2; 2; 2; 2; 2].
Proof. repeat split; try lia. Qed.

(** C13, violated for larger bounds: nothing is rejected and the small values are twice as likely. *)
Theorem bounded_draw_uniform_refuted :
  forall w, 2 <= w -> forall hi v, 3 * 2 ^ w < 4 * hi -> hi < 2 ^ w -> 0 <= v < hi ->
  count_words (yields w hi v) (Z.to_nat (2 ^ w)) = if v <? 2 ^ w - hi then 2 else 1.
Proof. exact below_biased. Qed.
Print Assumptions bounded_draw_uniform_refuted.

Example bounded_draw_refuted_ex : 3 * 2 ^ 4 < 4 * 13 /\ 13 < 2 ^ 4 /\
  map (fun v => count_words (yields 4 13 v) 16) [0; 1; 2; 3; 12] = [2; 2; 2; 1; 1].
Proof. repeat split; try lia. Qed.

(** C13.  A two-sided integer draw lies between its bounds; it divides by zero exactly for an empty range
    and overflows exactly when the range does not fit an int. *)
Theorem int_range_draw :
  forall (S : Type) (next32 : S -> Z * S) fuel lo hi g,
  - 2 ^ 31 <= lo < 2 ^ 31 -> - 2 ^ 31 <= hi < 2 ^ 31 ->
  match r_int_range S next32 fuel lo hi g with
  | Ok (Some (v, _)) => Z.min lo hi <= v < Z.max lo hi
  | Ok None => lo <> hi /\ Z.abs (hi - lo) < 2 ^ 31
  | Fault DivByZero => lo = hi
  | Fault _ => 2 ^ 31 <= Z.abs (hi - lo)
  end.
Proof. exact int_range_spec. Qed.
Print Assumptions int_range_draw.

Example int_range_draw_ex :
  exists v g, r_int_range Z lcg_rand32 5 (-3) 7 (r_new Z (fun s => s) 11) = Ok (Some (v, g)) /\ v = 0.
Proof. do 2 eexists. vm_compute. split; reflexivity. Qed.

(** C14.  Word-valued draws after a reseed do not depend on the generator's history. *)
Theorem reseed_words_reproducible :
  forall (S : Type) (next32 : S -> Z * S) (seedf : Z -> S) (g : rng S) seed cs,
  forallb word_call cs = true ->
  fst (r_calls S next32 seedf (r_rseed S seedf g seed) cs) =
  fst (r_calls S next32 seedf (r_new S seedf seed) cs).
Proof. exact reseed_words. Qed.
Print Assumptions reseed_words_reproducible.

(** C14.  When no buffered bits are left, neither does any other draw. *)
Theorem reseed_reproducible_empty_pool :
  forall (S : Type) (next32 : S -> Z * S) (seedf : Z -> S) (g : rng S) seed cs,
  r_left S g = 0 ->
  fst (r_calls S next32 seedf (r_rseed S seedf g seed) cs) =
  fst (r_calls S next32 seedf (r_new S seedf seed) cs).
Proof. exact reseed_empty_pool. Qed.
Print Assumptions reseed_reproducible_empty_pool.

(** C14, violated: after one boolean draw, the next 31 booleans are the same whatever the new seed. *)
Theorem reseed_bools_refuted :
  forall (S : Type) (next32 : S -> Z * S) (seedf : Z -> S) s0 seed seed',
  let used := snd (r_calls S next32 seedf (r_new S seedf s0) [CBool]) in
  fst (r_calls S next32 seedf (r_rseed S seedf used seed) (repeat CBool 31)) =
  fst (r_calls S next32 seedf (r_rseed S seedf used seed') (repeat CBool 31)).
Proof. exact reseed_bools. Qed.
Print Assumptions reseed_bools_refuted.

(** With the library's LCG: a reseeded generator and a fresh one with the same seed disagree. *)
Theorem reseed_bools_lcg_refuted :
  exists s0 seed,
  let used := snd (r_calls Z lcg_rand32 (fun s => s) (r_new Z (fun s => s) s0) [CBool]) in
  fst (r_calls Z lcg_rand32 (fun s => s) (r_rseed Z (fun s => s) used seed) [CBool; CBool; CBool]) <>
  fst (r_calls Z lcg_rand32 (fun s => s) (r_new Z (fun s => s) seed) [CBool; CBool; CBool]).
Proof. exists 1, 2. vm_compute. discriminate. Qed.
Print Assumptions reseed_bools_lcg_refuted.

(** C42.  The first 624 words of a seeded MTRand are those of an LCRand with the same seed, and after them
    the (untempered) Mersenne-Twister recurrence holds for ever. *)
Theorem mt_recurrence :
  forall seed n,
  let o := stream mtstate mt_rand32 (mt_rseed seed) in
  o (n + 624)%nat = mt_step (o n) (o (n + 1)%nat) (o (n + 397)%nat).
Proof. exact seeded_recurrence. Qed.
Print Assumptions mt_recurrence.

Theorem mt_first_block :
  forall n seed, (n < 624)%nat ->
  stream mtstate mt_rand32 (mt_rseed seed) n = stream Z lcg_rand32 seed n.
Proof. exact seeded_first. Qed.
Print Assumptions mt_first_block.

Example mt_ex : stream mtstate mt_rand32 (mt_rseed 5) 0 = stream Z lcg_rand32 5 0 /\
  stream Z lcg_rand32 5 0 = 3449765985.
Proof. split; vm_compute; reflexivity. Qed.

(** C43.  Random floats and doubles lie between 0.0 and 1.0 inclusive. *)
Theorem float_in_unit_interval :
  forall (S : Type) (next32 : S -> Z * S), (forall s, word 32 (fst (next32 s))) ->
  forall g, 0 <= ieee_scaled 23 (fst (r_float_bits S next32 g)) <= ieee_scaled 23 0x3F800000.
Proof. exact float_range. Qed.
Print Assumptions float_in_unit_interval.

Theorem double_in_unit_interval :
  forall (S : Type) (next32 : S -> Z * S), (forall s, word 32 (fst (next32 s))) ->
  forall g, 0 <= ieee_scaled 52 (fst (r_double_bits S next32 g)) <= ieee_scaled 52 0x3FF0000000000000.
Proof. exact double_range. Qed.
Print Assumptions double_in_unit_interval.

Example float_hyp_ex : forall s, word 32 (fst (lcg_rand32 s)).
Proof. exact lcg_out_word. Qed.

(** 1.0 is attained: a generator of all-one flips and an empty mantissa. *)
Example float_one_attained :
  fst (r_float_bits bool (fun b => if b then (0xFFFFFFFF, false) else (0, false)) (mkR bool false 3 2)) = 0x3F800000.
Proof. vm_compute. reflexivity. Qed.

(** C43.  The exponent field of a float (double) before the mantissa is drawn is selected by the coin flips,
    and among the 2^n equally likely flip sequences, 2^(e-1) select field e > 0 and one selects field 0:
    each binade has probability proportional to its width. *)
Theorem float_exponent_flips :
  forall (S : Type) (next32 : S -> Z * S) n e g,
  fst (flip_exp S next32 n e g) = exp_of_flips e (flips S next32 n g).
Proof. exact flip_is_flips. Qed.
Print Assumptions float_exponent_flips.

Theorem float_exponent_distribution :
  forall n e, 0 <= e <= Z.of_nat n ->
  count_flips (fun l => exp_of_flips (Z.of_nat n) l =? e) n = if e =? 0 then 1 else 2 ^ (e - 1).
Proof. exact exponent_count. Qed.
Print Assumptions float_exponent_distribution.

Example float_exponent_ex :
  map (fun e => count_flips (fun l => exp_of_flips 4 l =? e) 4) [0; 1; 2; 3; 4] = [1; 1; 2; 4; 8].
Proof. reflexivity. Qed.
