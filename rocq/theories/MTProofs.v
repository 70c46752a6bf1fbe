From Coq Require Import ZArith List Bool Lia ZifyBool.
From Verif Require Import Mem WordModel WordLemmas RandModel RandSpec BelowProofs LcgProofs.
Import ListNotations.
Open Scope Z_scope.

Definition mtF (a b c : Z) : Z := let s := mt_twist a b in wxor (wxor c (wshr s 1)) (mt_magic s).

Lemma twist_eq a b : 0 <= a < 2 ^ 32 -> 0 <= b ->
  mt_twist a b = (a / 2 ^ 31) mod 2 * 2 ^ 31 + b mod 2 ^ 31.
Proof.
  intros Ha Hb. unfold mt_twist, wand, wor.
  change 0x80000000 with (2 ^ 31). change 0x7FFFFFFF with (Z.ones 31).
  rewrite land_pow2 by lia. rewrite Z.land_ones by lia.
  rewrite Z.testbit_eqb by lia.
  pose proof (Z.mod_pos_bound (a / 2 ^ 31) 2 ltac:(lia)) as M.
  pose proof (Z.mod_pos_bound b (2 ^ 31) ltac:(lia)) as M2.
  destruct ((a / 2 ^ 31) mod 2 =? 1) eqn:E.
  - apply Z.eqb_eq in E. rewrite E, Z.mul_1_l.
    assert (L : Z.land (2 ^ 31) (b mod 2 ^ 31) = 0).
    { rewrite Z.land_comm, land_pow2 by lia.
      rewrite Z.testbit_eqb by lia. rewrite Z.div_small by lia. reflexivity. }
    rewrite <- Z.lxor_lor, <- Z.add_nocarry_lxor; auto.
  - replace ((a / 2 ^ 31) mod 2) with 0 by lia. cbn [Z.mul Z.add]. apply Z.lor_0_l.
Qed.

Lemma mtF_step a b c : 0 <= a < 2 ^ 32 -> 0 <= b -> mtF a b c = mt_step a b c.
Proof.
  intros Ha Hb. unfold mtF, mt_step. rewrite twist_eq by auto. cbv zeta.
  set (x := _ + _). unfold wxor, mt_magic, wshr, wand, wmul, norm. rewrite Z.lxor_assoc. f_equal. f_equal.
  - rewrite Z.shiftr_div_pow2 by lia. reflexivity.
  - assert (EL : Z.land x 1 = x mod 2) by (change 1 with (Z.ones 1); rewrite Z.land_ones by lia; reflexivity).
    rewrite EL, Zmod_odd. destruct (Z.odd x); reflexivity.
Qed.

Lemma assign_at b i j k : mt_assign b i j k i = mtF (b i) (b j) (b k).
Proof. unfold mt_assign, fupd. cbv zeta. now rewrite Z.eqb_refl. Qed.
Lemma assign_ne b i j k n : n <> i -> mt_assign b i j k n = b n.
Proof. intros H. unfold mt_assign, fupd. cbv zeta. now replace (n =? i) with false by lia. Qed.

Lemma loop_spec n : forall b i d, d <> 0 ->
  let r := mt_loop b i d n in
  (forall j, (j < i \/ i + Z.of_nat n <= j) -> r j = b j) /\
  (forall j, i <= j < i + Z.of_nat n ->
     r j = mtF (b j) (b (j + 1)) (if 0 <? d then b (j + d) else r (j + d))).
Proof.
  induction n as [|n IH]; intros b i d Hd; cbn [mt_loop]; cbv zeta.
  - split; intros; [reflexivity|lia].
  - specialize (IH (mt_assign b i (i + 1) (i + d)) (i + 1) d Hd). cbv zeta in IH.
    set (r := mt_loop _ _ _ n) in *. destruct IH as [I1 I2].
    split.
    + intros j Hj. rewrite I1 by lia. apply assign_ne. lia.
    + intros j Hj. destruct (Z.eq_dec j i) as [->|Hne].
      * rewrite I1 by lia. rewrite assign_at. destruct (0 <? d) eqn:E; [reflexivity|].
        rewrite (I1 (i + d)) by lia. rewrite assign_ne by lia. reflexivity.
      * rewrite I2 by lia. rewrite !assign_ne by lia.
        destruct (0 <? d) eqn:E; [|reflexivity]. now rewrite assign_ne by lia.
Qed.

Definition glue (b b' : Z -> Z) (k : Z) : Z := if k <? mt_len then b k else b' (k - mt_len).

Lemma regen_spec b i : 0 <= i < mt_len ->
  glue b (mt_regen b) (i + mt_len) =
    mtF (glue b (mt_regen b) i) (glue b (mt_regen b) (i + 1)) (glue b (mt_regen b) (i + mt_ia)).
Proof.
  unfold mt_regen. cbv zeta.
  pose proof (loop_spec (Z.to_nat mt_ib) b 0 mt_ia ltac:(discriminate)) as [A1 A2].
  set (b1 := mt_loop b 0 mt_ia (Z.to_nat mt_ib)) in *.
  pose proof (loop_spec (Z.to_nat (mt_len - 1 - mt_ib)) b1 mt_ib (- mt_ib) ltac:(discriminate)) as [B1 B2].
  set (b2 := mt_loop b1 mt_ib (- mt_ib) (Z.to_nat (mt_len - 1 - mt_ib))) in *.
  rewrite Z2Nat.id in A1, A2, B1, B2 by (unfold mt_ib, mt_len, mt_ia; lia).
  set (b3 := mt_assign b2 (mt_len - 1) 0 (mt_ia - 1)).
  assert (E3 : b3 (mt_len - 1) = mtF (b2 (mt_len - 1)) (b2 0) (b2 (mt_ia - 1))) by apply assign_at.
  assert (N3 : forall n, n <> mt_len - 1 -> b3 n = b2 n) by (intros; now apply assign_ne).
  clearbody b1 b2 b3.
  change (0 <? mt_ia) with true in A2. change (0 <? - mt_ib) with false in B2.
  unfold glue, mt_ib, mt_len, mt_ia in *. intros Hi.
  replace (i + 624 <? 624) with false by lia. replace (i + 624 - 624) with i by lia.
  replace (i <? 624) with true by lia.
  destruct (Z.eq_dec i 623) as [->|].
  - change (623 + 1 <? 624) with false. change (623 + 397 <? 624) with false.
    cbn iota. change (623 + 1 - 624) with 0. change (623 + 397 - 624) with (397 - 1).
    change (624 - 1) with 623 in *. rewrite E3. rewrite (N3 0), (N3 (397 - 1)) by lia.
    f_equal. rewrite B1 by lia. apply A1. lia.
  - rewrite N3 by lia. replace (i + 1 <? 624) with true by lia.
    destruct (Z.lt_ge_cases i 227).
    + rewrite B1 by lia. rewrite A2 by lia. replace (i + 397 <? 624) with true by lia. reflexivity.
    + rewrite B2 by lia. replace (i + 397 <? 624) with false by lia.
      rewrite N3 by lia. rewrite (A1 i), (A1 (i + 1)) by lia.
      replace (i + - (624 - 397)) with (i + 397 - 624) by lia. reflexivity.
Qed.

(** The k-th generation of the buffer. *)
Fixpoint gen (b : Z -> Z) (k : nat) : Z -> Z :=
  match k with O => b | S k => mt_regen (gen b k) end.
Definition mtout (b : Z -> Z) (m : Z) : Z := gen b (Z.to_nat (m / mt_len)) (m mod mt_len).

Lemma out_split b q r : 0 <= r < mt_len -> mtout b (mt_len * Z.of_nat q + r) = gen b q r.
Proof.
  intros Hr. unfold mtout.
  replace ((mt_len * Z.of_nat q + r) / mt_len) with (Z.of_nat q) by (apply Z.div_unique with r; lia).
  replace ((mt_len * Z.of_nat q + r) mod mt_len) with r by (apply Z.mod_unique with (Z.of_nat q); lia).
  now rewrite Nat2Z.id.
Qed.

Lemma stream_out b n : forall q r, 0 <= r <= mt_len ->
  stream mtstate mt_rand32 (mkMT (gen b q) r) n = mtout b (mt_len * Z.of_nat q + r + Z.of_nat n).
Proof.
  induction n as [|n IH]; intros q r Hr; cbn [stream]; unfold mt_rand32; cbn [mt_idx mt_buf].
  - destruct (Z.eqb_spec r mt_len) as [E|E].
    + cbn [fst]. change (mt_regen (gen b q)) with (gen b (S q)). change (Z.of_nat 0) with 0.
      rewrite <- out_split by (unfold mt_len; lia). f_equal. lia.
    + cbn [fst]. rewrite <- out_split by lia. f_equal. lia.
  - destruct (Z.eqb_spec r mt_len) as [E|E].
    + cbn [snd]. change (mt_regen (gen b q)) with (gen b (S q)).
      rewrite IH by (unfold mt_len; lia). f_equal. lia.
    + cbn [snd]. rewrite IH by lia. f_equal. lia.
Qed.

Lemma gen_glue b m : 0 <= m -> exists q, forall k, 0 <= k < 2 * mt_len - m mod mt_len ->
   mtout b (m + k) = glue (gen b q) (gen b (S q)) (m mod mt_len + k).
Proof.
  intros Hm. exists (Z.to_nat (m / mt_len)). intros k Hk.
  pose proof (Z.div_mod m mt_len ltac:(discriminate)) as D.
  pose proof (Z.mod_pos_bound m mt_len ltac:(reflexivity)) as M.
  assert (0 <= m / mt_len) by (apply Z.div_pos; [lia|reflexivity]).
  assert (0 < mt_len) by reflexivity.
  set (q := m / mt_len) in *. set (r := m mod mt_len) in *. clearbody q r.
  unfold glue. destruct (Z.ltb_spec (r + k) mt_len).
  - rewrite <- out_split by lia. f_equal. nia.
  - rewrite <- out_split by lia. f_equal. nia.
Qed.

Lemma out_recurrence b m : 0 <= m ->
  mtout b (m + mt_len) = mtF (mtout b m) (mtout b (m + 1)) (mtout b (m + mt_ia)).
Proof.
  intros Hm. destruct (gen_glue b m Hm) as (q & Hq).
  pose proof (Z.mod_pos_bound m mt_len ltac:(reflexivity)) as M.
  rewrite <- (Z.add_0_r m) at 2. unfold mt_ia.
  assert (L : mt_len = 624) by reflexivity.
  rewrite !Hq by lia. rewrite Z.add_0_r. apply (regen_spec (gen b q)). auto.
Qed.

Lemma recurrence b n :
  let o := fun k => stream mtstate mt_rand32 (mkMT b 0) k in
  o (n + 624)%nat = mtF (o n) (o (n + 1)%nat) (o (n + 397)%nat).
Proof.
  cbv zeta. change b with (gen b 0).
  rewrite !stream_out by (unfold mt_len; lia). change (mt_len * Z.of_nat 0 + 0) with 0. rewrite !Z.add_0_l.
  rewrite !Nat2Z.inj_add. change (Z.of_nat 624) with mt_len. change (Z.of_nat 397) with mt_ia.
  change (Z.of_nat 1) with 1. apply out_recurrence. lia.
Qed.

Lemma first_block b n : (n < 624)%nat -> stream mtstate mt_rand32 (mkMT b 0) n = b (Z.of_nat n).
Proof.
  intros Hn. change b with (gen b 0) at 1. rewrite stream_out by (unfold mt_len; lia).
  rewrite <- Z.add_assoc. rewrite out_split by (unfold mt_len; lia). reflexivity.
Qed.

(** ** Seeding *)

Lemma fill_spec n : forall b i s j,
  mt_fill b i s n j =
    if (i <=? j) && (j <? i + Z.of_nat n) then stream Z lcg_rand32 s (Z.to_nat (j - i)) else b j.
Proof.
  induction n as [|n IH]; intros b i s j; cbn [mt_fill].
  - replace ((i <=? j) && (j <? i + Z.of_nat 0)) with false by lia. reflexivity.
  - destruct (lcg_rand32 s) as [o s'] eqn:E. rewrite IH. unfold fupd.
    destruct (Z.eq_dec j i) as [->|Hne].
    + replace (i + 1 <=? i) with false by lia. cbn [andb]. rewrite Z.eqb_refl.
      replace ((i <=? i) && (i <? i + Z.of_nat (S n))) with true by lia. rewrite Z.sub_diag. cbn [Z.to_nat stream].
      now rewrite E.
    + replace (j =? i) with false by lia.
      replace ((i <=? j) && (j <? i + Z.of_nat (S n))) with ((i + 1 <=? j) && (j <? i + 1 + Z.of_nat n)) by lia.
      destruct ((i + 1 <=? j) && (j <? i + 1 + Z.of_nat n)) eqn:C; [|reflexivity].
      replace (Z.to_nat (j - i)) with (S (Z.to_nat (j - (i + 1)))) by lia. cbn [stream]. now rewrite E.
Qed.

Lemma seeded_first n seed : (n < 624)%nat ->
  stream mtstate mt_rand32 (mt_rseed seed) n = stream Z lcg_rand32 seed n.
Proof.
  intros Hn. unfold mt_rseed. rewrite first_block by auto. rewrite fill_spec.
  rewrite Z2Nat.id by discriminate.
  replace ((0 <=? Z.of_nat n) && (Z.of_nat n <? 0 + mt_len)) with true by (unfold mt_len; lia).
  f_equal. lia.
Qed.

Lemma lcg_out_word s : word 32 (fst (lcg_rand32 s)).
Proof.
  unfold lcg_rand32. cbv zeta. cbn [fst].
  match goal with |- word 32 (wshr (lcg_next s) 32) => idtac | _ => fail "shape" end.
  assert (H : word 64 (lcg_next s)) by (unfold lcg_next; apply (wadd_word 64); lia).
  unfold word in H. set (t := lcg_next s) in *. clearbody t.
  unfold wshr, word. rewrite Z.shiftr_div_pow2 by lia.
  split; [apply Z.div_pos; lia|]. apply Z.div_lt_upper_bound; [lia|].
  change (2 ^ 32 * 2 ^ 32) with (2 ^ 64). lia.
Qed.
Lemma lcg_stream_word n : forall s, word 32 (stream Z lcg_rand32 s n).
Proof. induction n; intros s; cbn [stream]; [apply lcg_out_word|apply IHn]. Qed.

Lemma mtF_word a b c : word 32 a -> word 32 b -> word 32 c -> word 32 (mtF a b c).
Proof.
  intros Ha Hb Hc. unfold mtF. cbv zeta. apply (wxor_word 32); [lia| |].
  - apply (wxor_word 32); [lia|auto|]. apply (wshr_word 32); [lia|lia|].
    unfold mt_twist. apply (wor_word 32); [lia| |].
    + unfold wand. change 0x80000000 with (2 ^ 31). rewrite land_pow2 by lia. destruct (Z.testbit a 31); unfold word; split; (discriminate || reflexivity).
    + unfold wand. change 0x7FFFFFFF with (Z.ones 31). rewrite Z.land_ones by lia. unfold word.
      pose proof (Z.mod_pos_bound b (2 ^ 31)). lia.
  - unfold mt_magic. apply wmul_word. lia.
Qed.

Lemma seeded_word seed n : word 32 (stream mtstate mt_rand32 (mt_rseed seed) n).
Proof.
  induction n as [n IH] using (well_founded_induction Wf_nat.lt_wf).
  destruct (Nat.lt_ge_cases n 624) as [H|H].
  - rewrite seeded_first by auto. apply lcg_stream_word.
  - replace n with ((n - 624) + 624)%nat by lia. unfold mt_rseed. rewrite recurrence.
    apply mtF_word; apply IH; lia.
Qed.

Lemma seeded_recurrence seed n :
  let o := stream mtstate mt_rand32 (mt_rseed seed) in
  o (n + 624)%nat = mt_step (o n) (o (n + 1)%nat) (o (n + 397)%nat).
Proof.
  cbv zeta. rewrite <- mtF_step.
  - unfold mt_rseed. apply recurrence.
  - apply seeded_word.
  - apply seeded_word.
Qed.
