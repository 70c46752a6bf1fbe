From Coq Require Import ZArith List Bool Lia ZifyBool.
From Verif Require Import Mem WordModel WordLemmas RandModel RandSpec BelowProofs.
Import ListNotations.
Open Scope Z_scope.

Section B.
Variable S : Type.
Variable next32 : S -> Z * S.
Variable seedf : Z -> S.
Notation rng := (rng S).
Notation calls := (r_calls S next32 seedf).
Notation call := (r_call S next32 seedf).

(** ** Reseeding *)

Lemma word_call_state (g1 g2 : rng) c : word_call c = true -> r_state S g1 = r_state S g2 ->
  fst (call g1 c) = fst (call g2 c) /\ r_state S (snd (call g1 c)) = r_state S (snd (call g2 c)).
Proof.
  destruct g1 as [s1 p1 l1], g2 as [s2 p2 l2]. intros Hc E. cbn in E. subst s2.
  destruct c; try discriminate; cbn [r_call]; unfold r_rand32, r_u64, r_rseed, r_rand32; cbn [r_state r_pool r_left].
  - destruct (next32 s1); split; reflexivity.
  - destruct (next32 s1) as [a s]. cbn [r_state r_pool r_left]. destruct (next32 s). split; reflexivity.
  - split; reflexivity.
Qed.

Lemma word_calls_state cs : forall g1 g2 : rng, forallb word_call cs = true -> r_state S g1 = r_state S g2 ->
  fst (calls g1 cs) = fst (calls g2 cs).
Proof.
  induction cs as [|c cs IH]; intros g1 g2 Hc E; [reflexivity|].
  cbn [forallb] in Hc. apply andb_true_iff in Hc. destruct Hc as [Hc Hcs].
  pose proof (word_call_state g1 g2 c Hc E) as [E1 E2]. cbn [r_calls].
  destruct (call g1 c) as [o1 h1], (call g2 c) as [o2 h2]. cbn [fst snd] in *.
  specialize (IH h1 h2 Hcs E2). destruct (calls h1 cs), (calls h2 cs). cbn [fst] in *. congruence.
Qed.

Lemma reseed_words (g : rng) seed cs : forallb word_call cs = true ->
  fst (calls (r_rseed S seedf g seed) cs) = fst (calls (r_new S seedf seed) cs).
Proof. intros Hc. apply word_calls_state; auto. Qed.

(** With an empty pool the whole stream is determined by the state. *)
Definition same (g1 g2 : rng) : Prop :=
  r_state S g1 = r_state S g2 /\ r_left S g1 = r_left S g2 /\ (r_left S g1 <> 0 -> r_pool S g1 = r_pool S g2).

Lemma same_rand32 g1 g2 : same g1 g2 ->
  fst (r_rand32 S next32 g1) = fst (r_rand32 S next32 g2) /\
  same (snd (r_rand32 S next32 g1)) (snd (r_rand32 S next32 g2)).
Proof.
  destruct g1 as [s1 p1 l1], g2 as [s2 p2 l2]. intros (E1 & E2 & E3). cbn in E1, E2, E3. subst.
  unfold r_rand32. cbn [r_state r_pool r_left]. destruct (next32 s2). cbn [fst snd].
  split; [reflexivity|]. repeat split. exact E3.
Qed.

Lemma same_bool g1 g2 : same g1 g2 ->
  fst (r_bool S next32 g1) = fst (r_bool S next32 g2) /\
  same (snd (r_bool S next32 g1)) (snd (r_bool S next32 g2)).
Proof.
  destruct g1 as [s1 p1 l1], g2 as [s2 p2 l2]. intros (E1 & E2 & E3). cbn in E1, E2, E3. subst.
  unfold r_bool, r_rand32. cbn [r_state r_pool r_left].
  destruct (l2 =? 0) eqn:E.
  - destruct (next32 s2). cbn [fst snd r_state r_pool r_left]. repeat split.
  - rewrite E3 by lia. cbn [fst snd r_state r_pool r_left]. repeat split.
Qed.

Ltac use_same L g1 g2 H o1 h1 h2 Hs :=
  let X := fresh in
  pose proof (L g1 g2 H) as X;
  match type of X with
  | fst ?a = fst ?b /\ _ => destruct a as [o1 h1], b as [? h2]; cbn [fst snd] in X; destruct X as [<- Hs]
  end.

Lemma same_flip n : forall e g1 g2, same g1 g2 ->
  fst (flip_exp S next32 n e g1) = fst (flip_exp S next32 n e g2) /\
  same (snd (flip_exp S next32 n e g1)) (snd (flip_exp S next32 n e g2)).
Proof.
  induction n as [|n IH]; intros e g1 g2 H; [split; auto|].
  cbn [flip_exp]. use_same same_bool g1 g2 H b h1 h2 Hs.
  destruct b; [split; auto|]. now apply IH.
Qed.

Lemma same_call g1 g2 c : same g1 g2 ->
  fst (call g1 c) = fst (call g2 c) /\ same (snd (call g1 c)) (snd (call g2 c)).
Proof.
  intros H. destruct c; cbn [r_call].
  - now apply same_rand32.
  - use_same same_bool g1 g2 H b h1 h2 Hs. split; auto.
  - unfold r_u64. use_same same_rand32 g1 g2 H a h1 h2 Hs.
    use_same same_rand32 h1 h2 Hs a' i1 i2 Hs'. split; auto.
  - unfold r_float_bits. use_same (same_flip 126 126) g1 g2 H e h1 h2 Hs.
    use_same same_rand32 h1 h2 Hs o i1 i2 Hs'. cbv zeta.
    destruct (wshr (wand o 0xFFFFFE00) 9 =? 0); [|split; auto].
    use_same same_bool i1 i2 Hs' b j1 j2 Hs''. split; auto.
  - unfold r_double_bits. use_same (same_flip 1022 1022) g1 g2 H e h1 h2 Hs.
    use_same same_rand32 h1 h2 Hs o i1 i2 Hs'. use_same same_rand32 i1 i2 Hs' o' i1' i2' Hs2. cbv zeta.
    destruct (wshr (wand (wor (wshl 64 o 32) o') 0xFFFFFFFFFFFFF000) 12 =? 0); [|split; auto].
    use_same same_bool i1' i2' Hs2 b j1 j2 Hs''. split; auto.
  - split; [reflexivity|]. destruct H as (E1 & E2 & E3). repeat split; auto.
Qed.

Lemma same_calls cs : forall g1 g2, same g1 g2 -> fst (calls g1 cs) = fst (calls g2 cs).
Proof.
  induction cs as [|c cs IH]; intros g1 g2 H; [reflexivity|]. cbn [r_calls].
  use_same (fun a b => same_call a b c) g1 g2 H o h1 h2 Hs.
  specialize (IH h1 h2 Hs). destruct (calls h1 cs), (calls h2 cs). cbn [fst] in *. congruence.
Qed.

Lemma reseed_empty_pool (g : rng) seed cs : r_left S g = 0 ->
  fst (calls (r_rseed S seedf g seed) cs) = fst (calls (r_new S seedf seed) cs).
Proof.
  intros E. apply same_calls. repeat split; cbn; auto. intros C. now rewrite E in C.
Qed.

(** One boolean draw before the reseed fixes the next 31 booleans, whatever the new seed is. *)
Lemma bool_draws_pool n : forall (s : S) p l, Z.of_nat n <= l ->
  fst (calls (mkR S s p l) (repeat CBool n)) =
    map (fun k => if Z.testbit p (Z.of_nat k) then 1 else 0) (seq 0 n).
Proof.
  induction n as [|n IH]; intros s p l Hl; [reflexivity|].
  cbn [repeat r_calls r_call]. unfold r_bool. cbn [r_left r_pool r_state].
  replace (l =? 0) with false by lia. cbn [r_left r_pool r_state].
  specialize (IH s (wshr p 1) (l - 1) ltac:(lia)).
  destruct (calls _ _) as [os g']. cbn [fst] in *. rewrite IH. cbn [seq map]. f_equal.
  - change (Z.of_nat 0) with 0. rewrite Z.bit0_odd. 
    assert (EL : Z.land p 1 = p mod 2) by (change 1 with (Z.ones 1); rewrite Z.land_ones by lia; reflexivity).
    rewrite EL, Zmod_odd. destruct (Z.odd p); reflexivity.
  - rewrite <- seq_shift, map_map. apply map_ext. intros k. unfold wshr.
    rewrite Z.shiftr_spec by lia. now replace (Z.of_nat k + 1) with (Z.of_nat (Datatypes.S k)) by lia.
Qed.

Lemma reseed_bools (s0 seed seed' : Z) :
  fst (calls (r_rseed S seedf (snd (calls (r_new S seedf s0) [CBool])) seed) (repeat CBool 31)) =
  fst (calls (r_rseed S seedf (snd (calls (r_new S seedf s0) [CBool])) seed') (repeat CBool 31)).
Proof.
  cbn [r_calls r_call]. unfold r_new, r_bool, r_rand32. cbn [r_left r_pool r_state Z.eqb].
  destruct (next32 (seedf s0)) as [o s]. cbn [r_left r_pool r_state snd]. unfold r_rseed. cbn [r_left r_pool].
  now rewrite !bool_draws_pool by lia.
Qed.

(** ** Floating point values *)

Hypothesis next_word : forall s, word 32 (fst (next32 s)).

Lemma flip_range n : forall e g, Z.of_nat n <= e -> e - Z.of_nat n <= fst (flip_exp S next32 n e g) <= e.
Proof.
  induction n as [|n IH]; intros e g He; cbn [flip_exp]; [cbn; lia|].
  destruct (r_bool S next32 g) as [b g']. destruct b; [cbn [fst]; lia|].
  specialize (IH (e - 1) g' ltac:(lia)). lia.
Qed.

Lemma rand32_word g : word 32 (fst (r_rand32 S next32 g)).
Proof. unfold r_rand32. pose proof (next_word (r_state S g)). now destruct (next32 (r_state S g)). Qed.

Lemma mant_word w k o : 0 <= k <= w -> word w o -> 0 <= wshr (wand o (2 ^ w - 2 ^ k)) k < 2 ^ (w - k).
Proof.
  intros Hk Ho. unfold wshr, wand.
  assert (0 < 2 ^ k) by (apply Z.pow_pos_nonneg; lia).
  assert (Hb : 0 <= Z.land o (2 ^ w - 2 ^ k) < 2 ^ w).
  { pose proof Ho as [Ho1 Ho2]. split; [apply Z.land_nonneg; now left|].
    apply Z.le_lt_trans with o; [|auto].
    assert (E : o - Z.land o (2 ^ w - 2 ^ k) = Z.ldiff o (2 ^ w - 2 ^ k)).
    { rewrite Z.sub_nocarry_ldiff.
      - apply Z.bits_inj'. intros n Hn. rewrite !Z.ldiff_spec, Z.land_spec. destruct (Z.testbit o n), (Z.testbit (2^w-2^k) n); reflexivity.
      - apply Z.bits_inj'. intros n Hn. rewrite Z.ldiff_spec, Z.land_spec, Z.bits_0. destruct (Z.testbit o n), (Z.testbit (2^w-2^k) n); reflexivity. }
    assert (0 <= Z.ldiff o (2 ^ w - 2 ^ k)) by (apply Z.ldiff_nonneg; now left). lia. }
  rewrite Z.shiftr_div_pow2 by lia. split; [apply Z.div_pos; lia|].
  apply Z.div_lt_upper_bound; [lia|]. rewrite <- Z.pow_add_r by lia. replace (k + (w - k)) with w by lia. lia.
Qed.

Lemma pack_bits w p e m : 0 <= p <= w -> 0 <= e < 2 ^ (w - p) -> 0 <= m < 2 ^ p ->
  wor (wshl w e p) m = e * 2 ^ p + m.
Proof.
  intros Hp He Hm. unfold wor, wshl, norm. rewrite Z.shiftl_mul_pow2 by lia.
  assert (0 < 2 ^ p) by (apply Z.pow_pos_nonneg; lia).
  assert (e * 2 ^ p < 2 ^ w).
  { replace w with (w - p + p) by lia. rewrite Z.pow_add_r by lia. nia. }
  rewrite Z.mod_small by nia. rewrite <- Z.shiftl_mul_pow2 by lia.
  symmetry. rewrite <- Z.lxor_lor, <- Z.add_nocarry_lxor; auto.
  - apply Z.bits_inj'. intros n Hn. rewrite Z.land_spec, Z.bits_0.
    destruct (Z.lt_ge_cases n p).
    + rewrite Z.shiftl_spec_low by lia. reflexivity.
    + replace (Z.testbit m n) with false; [apply andb_false_r|].
      symmetry. destruct (Z.eq_dec m 0) as [->|]; [apply Z.bits_0|].
      apply Z.bits_above_log2; [lia|]. apply Z.lt_le_trans with p; [|lia]. apply Z.log2_lt_pow2; lia.
  - apply Z.bits_inj'. intros n Hn. rewrite Z.land_spec, Z.bits_0.
    destruct (Z.lt_ge_cases n p).
    + rewrite Z.shiftl_spec_low by lia. reflexivity.
    + replace (Z.testbit m n) with false; [apply andb_false_r|].
      symmetry. destruct (Z.eq_dec m 0) as [->|]; [apply Z.bits_0|].
      apply Z.bits_above_log2; [lia|]. apply Z.lt_le_trans with p; [|lia]. apply Z.log2_lt_pow2; lia.
Qed.

(** The value of the pattern: at most 1.0, which has exponent field [b] (the bias) and no mantissa. *)
Lemma value_range p b e m : 0 <= p -> 1 <= b -> 0 <= m < 2 ^ p -> 0 <= e < b \/ (0 <= e <= b /\ m = 0) ->
  0 <= ieee_scaled p (e * 2 ^ p + m) <= ieee_scaled p (b * 2 ^ p).
Proof.
  intros Hp Hb Hm He. unfold ieee_scaled.
  assert (P : 0 < 2 ^ p) by (apply Z.pow_pos_nonneg; lia).
  rewrite Z.div_mul, Z.mod_mul by lia.
  replace ((e * 2 ^ p + m) / 2 ^ p) with e by (apply Z.div_unique with m; lia).
  replace ((e * 2 ^ p + m) mod 2 ^ p) with m by (apply Z.mod_unique with e; lia).
  replace (b =? 0) with false by lia.
  assert (Hb1 : 1 <= 2 ^ (b - 1)) by (pose proof (Z.pow_pos_nonneg 2 (b - 1)); lia).
  destruct (e =? 0) eqn:E; [nia|].
  assert (0 < 2 ^ (e - 1)) by (apply Z.pow_pos_nonneg; lia).
  split; [nia|]. destruct He as [He|[He ->]].
  - assert (2 ^ (e - 1) * 2 <= 2 ^ (b - 1)).
    { rewrite Z.mul_comm, <- Z.pow_succ_r by lia. apply Z.pow_le_mono_r; lia. }
    nia.
  - assert (2 ^ (e - 1) <= 2 ^ (b - 1)) by (apply Z.pow_le_mono_r; lia). nia.
Qed.

Lemma float_shape g : exists e m, fst (r_float_bits S next32 g) = e * 2 ^ 23 + m /\ 0 <= m < 2 ^ 23 /\
  (0 <= e < 127 \/ (0 <= e <= 127 /\ m = 0)).
Proof.
  unfold r_float_bits.
  pose proof (flip_range 126 126 g ltac:(cbn; lia)) as He. change (Z.of_nat 126) with 126 in He.
  destruct (flip_exp S next32 126 126 g) as [e h]. cbn [fst] in He.
  pose proof (rand32_word h) as Ho. destruct (r_rand32 S next32 h) as [o h']. cbn [fst] in Ho. cbv zeta.
  pose proof (mant_word 32 9 o ltac:(lia) Ho) as Hm. change (2 ^ 32 - 2 ^ 9) with 0xFFFFFE00 in Hm.
  change (2 ^ (32 - 9)) with (2 ^ 23) in Hm.
  set (m := wshr _ 9) in *.
  destruct (m =? 0) eqn:E.
  - destruct (r_bool S next32 h') as [b h'']. cbn [fst].
    exists (if b then e + 1 else e), m. split; [apply pack_bits; destruct b; lia|]. split; [lia|]. right. destruct b; lia.
  - cbn [fst]. exists e, m. split; [apply pack_bits; lia|]. split; [lia|]. left. lia.
Qed.

Lemma double_shape g : exists e m, fst (r_double_bits S next32 g) = e * 2 ^ 52 + m /\ 0 <= m < 2 ^ 52 /\
  (0 <= e < 1023 \/ (0 <= e <= 1023 /\ m = 0)).
Proof.
  unfold r_double_bits.
  pose proof (flip_range 1022 1022 g) as He. 
  set (N := 1022%nat) in *. assert (EN : Z.of_nat N = 1022) by reflexivity. clearbody N. rewrite EN in He.
  specialize (He ltac:(lia)).
  destruct (flip_exp S next32 N 1022 g) as [e h]. cbn [fst] in He.
  pose proof (rand32_word h) as Ho. destruct (r_rand32 S next32 h) as [o h']. cbn [fst] in Ho.
  pose proof (rand32_word h') as Ho'. destruct (r_rand32 S next32 h') as [o' h'']. cbn [fst] in Ho'. cbv zeta.
  assert (Hmw : word 64 (wor (wshl 64 o 32) o')).
  { rewrite pack_bits by (unfold word in *; change (2 ^ (64 - 32)) with (2 ^ 32); lia). unfold word in *.
    assert (2 ^ 64 = 2 ^ 32 * 2 ^ 32) by reflexivity. nia. }
  pose proof (mant_word 64 12 _ ltac:(lia) Hmw) as Hm. change (2 ^ 64 - 2 ^ 12) with 0xFFFFFFFFFFFFF000 in Hm.
  change (2 ^ (64 - 12)) with (2 ^ 52) in Hm.
  set (m := wshr _ 12) in *.
  destruct (m =? 0) eqn:E.
  - destruct (r_bool S next32 h'') as [b g']. cbn [fst].
    exists (if b then e + 1 else e), m. split; [apply pack_bits; destruct b; lia|]. split; [lia|]. right. destruct b; lia.
  - cbn [fst]. exists e, m. split; [apply pack_bits; lia|]. split; [lia|]. left. lia.
Qed.

Lemma float_range g : 0 <= ieee_scaled 23 (fst (r_float_bits S next32 g)) <= ieee_scaled 23 0x3F800000.
Proof.
  destruct (float_shape g) as (e & m & -> & Hm & He). change 0x3F800000 with (127 * 2 ^ 23).
  apply value_range; auto; lia.
Qed.

Lemma double_range g : 0 <= ieee_scaled 52 (fst (r_double_bits S next32 g)) <= ieee_scaled 52 0x3FF0000000000000.
Proof.
  destruct (double_shape g) as (e & m & -> & Hm & He). change 0x3FF0000000000000 with (1023 * 2 ^ 52).
  apply value_range; auto; lia.
Qed.

(** ** The exponent distribution *)

Lemma flip_is_flips n : forall e g, fst (flip_exp S next32 n e g) = exp_of_flips e (flips S next32 n g).
Proof.
  induction n as [|n IH]; intros e g; [reflexivity|]. cbn [flip_exp flips].
  destruct (r_bool S next32 g) as [b g']. destruct b; [reflexivity|]. cbn [exp_of_flips]. apply IH.
Qed.
End B.

Lemma count_flips_true n : count_flips (fun _ => true) n = 2 ^ Z.of_nat n.
Proof.
  induction n as [|n IH]; [reflexivity|]. cbn [count_flips]. rewrite IH, Nat2Z.inj_succ, Z.pow_succ_r by lia. lia.
Qed.
Lemma count_flips_false n : count_flips (fun _ => false) n = 0.
Proof. induction n as [|n IH]; [reflexivity|]. cbn [count_flips]. now rewrite IH. Qed.

Lemma exp_flips_range l : forall e, e - Z.of_nat (length l) <= exp_of_flips e l <= e.
Proof. induction l as [|[] l IH]; intros e; cbn [exp_of_flips length]; try lia. specialize (IH (e - 1)). lia. Qed.

Lemma count_flips_ext P Q n : (forall l, length l = n -> P l = Q l) -> count_flips P n = count_flips Q n.
Proof.
  revert P Q. induction n as [|n IH]; intros P Q E; cbn [count_flips]; [now rewrite E|].
  f_equal; apply IH; intros l Hl; apply E; cbn; lia.
Qed.

Lemma exponent_count n : forall e, 0 <= e <= Z.of_nat n ->
  count_flips (fun l => exp_of_flips (Z.of_nat n) l =? e) n = if e =? 0 then 1 else 2 ^ (e - 1).
Proof.
  induction n as [|n IH]; intros e He.
  - replace e with 0 by lia. reflexivity.
  - cbn [count_flips exp_of_flips]. rewrite Nat2Z.inj_succ. unfold Z.succ.
    replace (Z.of_nat n + 1 - 1) with (Z.of_nat n) by lia.
    destruct (Z.eq_dec e (Z.of_nat n + 1)) as [->|Hne].
    + rewrite (count_flips_ext (fun l => Z.of_nat n + 1 =? Z.of_nat n + 1) (fun _ => true)) by (intros; lia).
      rewrite count_flips_true.
      rewrite (count_flips_ext (fun l => exp_of_flips _ l =? _) (fun _ => false)).
      2: { intros l Hl. pose proof (exp_flips_range l (Z.of_nat n)). lia. }
      rewrite count_flips_false. replace (Z.of_nat n + 1 =? 0) with false by lia.
      replace (Z.of_nat n + 1 - 1) with (Z.of_nat n) by lia. lia.
    + rewrite (count_flips_ext (fun l => Z.of_nat n + 1 =? e) (fun _ => false)) by (intros; lia).
      rewrite count_flips_false. rewrite IH by lia. lia.
Qed.
