From Coq Require Import ZArith List Bool Lia ZifyBool.
From Verif Require Import Mem WordModel WordLemmas RandModel RandSpec.
Import ListNotations.
Open Scope Z_scope.

Lemma top_bit w x : 1 <= w -> word w x -> Z.testbit x (w - 1) = (2 ^ (w - 1) <=? x).
Proof.
  intros Hw [H1 H2].
  assert (E : 2 ^ w = 2 * 2 ^ (w - 1)) by (rewrite <- Z.pow_succ_r by lia; f_equal; lia).
  assert (P : 0 < 2 ^ (w - 1)) by (apply Z.pow_pos_nonneg; lia).
  rewrite Z.testbit_eqb by lia.
  destruct (2 ^ (w - 1) <=? x) eqn:C.
  - replace (x / 2 ^ (w - 1)) with 1; [reflexivity|]. apply Z.div_unique with (x - 2 ^ (w - 1)); lia.
  - rewrite Z.div_small by lia. reflexivity.
Qed.

Lemma land_pow2 x k : 0 <= k -> Z.land x (2 ^ k) = if Z.testbit x k then 2 ^ k else 0.
Proof.
  intros Hk. apply Z.bits_inj'. intros n Hn. rewrite Z.land_spec.
  destruct (Z.eq_dec n k) as [->|Hne].
  - rewrite Z.pow2_bits_true by lia. destruct (Z.testbit x k); [now rewrite Z.pow2_bits_true|].
    now rewrite Z.bits_0.
  - rewrite Z.pow2_bits_false by lia. rewrite andb_false_r.
    destruct (Z.testbit x k); [now rewrite Z.pow2_bits_false by lia|now rewrite Z.bits_0].
Qed.

Section Below.
Variable w : Z.
Hypothesis Hw : 2 <= w.
Let W := 2 ^ w.
Let H := 2 ^ (w - 1).

Lemma WH : W = 2 * H /\ 0 < H.
Proof.
  unfold W, H. split; [|apply Z.pow_pos_nonneg; lia]. rewrite <- Z.pow_succ_r by lia. f_equal. lia.
Qed.

Lemma reject_iff hi b : 0 < hi < W -> 0 <= b < W ->
  below_reject w hi b =
    (H <=? b - b mod hi) && ((b - b mod hi + (hi - 1)) mod W <? H).
Proof.
  intros Hhi Hb. destruct WH as [EW PH]. unfold below_reject. cbv zeta.
  pose proof (Z.mod_pos_bound b hi ltac:(lia)) as Hm. pose proof (Z.mod_le b hi ltac:(lia) ltac:(lia)) as Hle.
  unfold wsub, wadd, norm. fold W. rewrite (Z.mod_small (b - b mod hi)) by lia.
  set (lo := b - b mod hi). set (e := (lo + (hi - 1)) mod W).
  assert (He : word w e) by (unfold e; apply Z.mod_pos_bound; lia).
  unfold wand at 2. fold H. unfold H at 1. rewrite land_pow2 by lia.
  rewrite top_bit by (lia || (unfold word; fold W; unfold lo; lia)). fold H.
  destruct (H <=? lo) eqn:E1.
  - unfold wand, H. rewrite Z.land_comm, land_pow2 by lia.
    assert (Hn : word w (wnot w e)) by (unfold wnot, word in *; lia).
    rewrite top_bit by (lia || auto). fold H. unfold wnot. fold W.
    cbn [andb]. unfold word in He. fold W in He.
    destruct (e <? H) eqn:E2.
    + replace (H <=? W - 1 - e) with true by lia. replace (H =? 0) with false by lia. reflexivity.
    + replace (H <=? W - 1 - e) with false by lia. reflexivity.
  - unfold wand. rewrite Z.land_0_l. reflexivity.
Qed.

(** Below three quarters of the range, exactly the incomplete last chunk is rejected. *)
Lemma accept_iff hi b : 0 < hi -> 4 * hi <= 3 * W -> 0 <= b < W ->
  below_reject w hi b = negb (b - b mod hi + hi <=? W).
Proof.
  intros Hhi Hhi2 Hb. destruct WH as [EW PH].
  rewrite reject_iff by lia.
  pose proof (Z.mod_pos_bound b hi ltac:(lia)) as Hm. pose proof (Z.mod_le b hi ltac:(lia) ltac:(lia)) as Hle.
  set (lo := b - b mod hi) in *.
  assert (Hlo : exists k, 0 <= k /\ lo = k * hi).
  { exists (b / hi). split; [apply Z.div_pos; lia|]. pose proof (Z.div_mod b hi ltac:(lia)). unfold lo. lia. }
  destruct Hlo as (k & Hk & Ek).
  destruct (lo + hi <=? W) eqn:E.
  - rewrite Z.mod_small by lia. cbn [negb]. lia.
  - cbn [negb].
    assert (El : (lo + (hi - 1)) mod W = lo + (hi - 1) - W).
    { symmetry. apply Z.mod_unique with 1; lia. }
    rewrite El.
    (* the incomplete chunk starts in the upper half *)
    assert (Hup : H <= lo).
    { destruct (Z.le_gt_cases hi H); [lia|].
      destruct (Z.eq_dec k 0) as [->|]; [lia|]. nia. }
    assert (Hend : lo + (hi - 1) - W < H).
    { destruct (Z.le_gt_cases hi H); [lia|].
      assert (k = 1 \/ k = 0 \/ 2 <= k) as [->|[->|]] by lia; nia. }
    lia.
Qed.

Lemma yields_iff hi v b : 0 < hi -> 4 * hi <= 3 * W -> 0 <= b < W ->
  yields w hi v b = (b <? hi * (W / hi)) && (b mod hi =? v).
Proof.
  intros Hhi Hhi2 Hb. unfold yields, below_val. rewrite accept_iff by auto. rewrite negb_involutive.
  f_equal. destruct WH as [EW PH].
  pose proof (Z.div_mod b hi ltac:(lia)) as D. pose proof (Z.mod_pos_bound b hi ltac:(lia)) as M.
  pose proof (Z.div_mod W hi ltac:(lia)) as D'. pose proof (Z.mod_pos_bound W hi ltac:(lia)) as M'.
  destruct (b <? hi * (W / hi)) eqn:E.
  - assert (b / hi < W / hi) by nia. assert (b / hi + 1 <= W / hi) by lia. nia.
  - assert (W / hi <= b / hi) by (apply Z.div_le_lower_bound; lia). nia.
Qed.

(** Counting a residue class. *)
Lemma count_residue hi v q n : 0 < hi -> 0 <= v < hi -> Z.of_nat n <= hi * q ->
  count_words (fun b => (b <? hi * q) && (b mod hi =? v)) n =
    Z.of_nat n / hi + (if v <? Z.of_nat n mod hi then 1 else 0).
Proof.
  intros Hhi Hv. induction n as [|n IH]; intros Hn.
  - cbn [count_words]. change (Z.of_nat 0) with 0. rewrite Z.div_0_l, Z.mod_0_l by lia.
    replace (v <? 0) with false by lia. reflexivity.
  - cbn [count_words]. rewrite IH by lia. replace (Z.of_nat n <? hi * q) with true by lia. cbn [andb].
    rewrite Nat2Z.inj_succ. unfold Z.succ.
    set (m := Z.of_nat n) in *.
    pose proof (Z.div_mod m hi ltac:(lia)) as D. pose proof (Z.mod_pos_bound m hi ltac:(lia)) as M.
    destruct (Z.eq_dec (m mod hi) (hi - 1)) as [E|E].
    + assert (E1 : (m + 1) / hi = m / hi + 1) by (symmetry; apply Z.div_unique with 0; lia).
      assert (E2 : (m + 1) mod hi = 0) by (symmetry; apply Z.mod_unique with (m / hi + 1); lia).
      rewrite E1, E2, E. replace (v <? 0) with false by lia.
      destruct (Z.eq_dec v (hi - 1)); [replace (v <? hi - 1) with false by lia; replace (hi - 1 =? v) with true by lia; lia|].
      replace (v <? hi - 1) with true by lia. replace (hi - 1 =? v) with false by lia. lia.
    + assert (E1 : (m + 1) / hi = m / hi) by (symmetry; apply Z.div_unique with (m mod hi + 1); lia).
      assert (E2 : (m + 1) mod hi = m mod hi + 1) by (symmetry; apply Z.mod_unique with (m / hi); lia).
      rewrite E1, E2.
      destruct (v <? m mod hi) eqn:C1, (m mod hi =? v) eqn:C2, (v <? m mod hi + 1) eqn:C3; lia.
Qed.

Lemma count_ext P Q n : (forall k, (k < n)%nat -> P (Z.of_nat k) = Q (Z.of_nat k)) ->
  count_words P n = count_words Q n.
Proof.
  induction n; intros E; [reflexivity|]. cbn [count_words]. rewrite IHn by (intros; apply E; lia).
  now rewrite E by lia.
Qed.

Lemma count_none P a n : (forall k, (a <= k < a + n)%nat -> P (Z.of_nat k) = false) ->
  count_words P (a + n) = count_words P a.
Proof.
  induction n; intros E; [now rewrite Nat.add_0_r|]. rewrite Nat.add_succ_r. cbn [count_words].
  rewrite IHn by (intros; apply E; lia). rewrite E by lia. lia.
Qed.

Lemma below_uniform hi v : 0 < hi -> 4 * hi <= 3 * W -> 0 <= v < hi ->
  count_words (yields w hi v) (Z.to_nat W) = W / hi.
Proof.
  intros Hhi Hhi2 Hv. destruct WH as [EW PH].
  pose proof (Z.div_mod W hi ltac:(lia)) as D. pose proof (Z.mod_pos_bound W hi ltac:(lia)) as M.
  assert (Q : 0 <= W / hi) by (apply Z.div_pos; lia).
  rewrite (count_ext _ (fun b => (b <? hi * (W / hi)) && (b mod hi =? v))).
  2: { intros k Hk. apply yields_iff; lia. }
  replace (Z.to_nat W) with (Z.to_nat (hi * (W / hi)) + Z.to_nat (W mod hi))%nat by lia.
  rewrite count_none.
  2: { intros k Hk. replace (Z.of_nat k <? hi * (W / hi)) with false by lia. reflexivity. }
  rewrite (count_residue hi v (W / hi)) by lia.
  rewrite Z2Nat.id by lia. rewrite Z.mul_comm, Z.div_mul, Z.mod_mul by lia.
  replace (v <? 0) with false by lia. lia.
Qed.

(** Above three quarters, the words below W - hi are returned twice as often as the rest. *)
Lemma below_accepts_all hi b : 3 * W < 4 * hi -> hi < W -> 0 <= b < W -> below_reject w hi b = false.
Proof.
  intros H1 H2 Hb. destruct WH as [EW PH]. rewrite reject_iff by lia.
  destruct (Z.lt_ge_cases b hi).
  - rewrite (Z.mod_small b hi) by lia. replace (H <=? b - b) with false by lia. reflexivity.
  - replace (b mod hi) with (b - hi) by (apply Z.mod_unique with 1; lia).
    replace (b - (b - hi)) with hi by lia.
    replace ((hi + (hi - 1)) mod W) with (2 * hi - 1 - W) by (apply Z.mod_unique with 1; lia).
    lia.
Qed.

Lemma below_biased hi v : 3 * W < 4 * hi -> hi < W -> 0 <= v < hi ->
  count_words (yields w hi v) (Z.to_nat W) = if v <? W - hi then 2 else 1.
Proof.
  intros H1 H2 Hv. destruct WH as [EW PH].
  rewrite (count_ext _ (fun b => (b <? hi * 2) && (b mod hi =? v))).
  2: { intros k Hk. unfold yields. rewrite below_accepts_all by lia.
       replace (Z.of_nat k <? hi * 2) with true by lia. reflexivity. }
  rewrite (count_residue hi v 2) by lia. rewrite Z2Nat.id by lia.
  replace (W / hi) with 1 by (apply Z.div_unique with (W - hi); lia).
  replace (W mod hi) with (W - hi) by (apply Z.mod_unique with 1; lia).
  destruct (v <? W - hi); lia.
Qed.

End Below.

(** The loop returns the value of the first word that is not rejected, and nothing else. *)
Section Loop.
Variable S : Type.
Variable w : Z.
Variable raw : rng S -> Z * rng S.

Fixpoint nth_raw (g : rng S) (n : nat) : Z :=
  match n with O => fst (raw g) | Datatypes.S k => nth_raw (snd (raw g)) k end.
Fixpoint nth_state (g : rng S) (n : nat) : rng S :=
  match n with O => g | Datatypes.S k => nth_state (snd (raw g)) k end.

Lemma r_below_spec fuel hi g : hi <> 0 ->
  r_below S w raw fuel hi g =
    Ok (match find (fun k => negb (below_reject w hi (nth_raw g k))) (seq 0 fuel) with
        | Some k => Some (nth_raw g k mod hi, nth_state g (Datatypes.S k))
        | None => None end).
Proof.
  intros Hhi. revert g. induction fuel as [|n IH]; intros g; cbn [r_below]; replace (hi =? 0) with false by lia.
  - reflexivity.
  - cbn [seq find nth_raw]. destruct (raw g) as [b g'] eqn:E. cbn [fst].
    destruct (below_reject w hi b) eqn:R; cbn [negb].
    + rewrite IH. f_equal.
      rewrite <- seq_shift.
      assert (F : forall (P Q : nat -> bool) l, (forall k, P k = Q (Datatypes.S k)) ->
         find Q (map Datatypes.S l) = option_map Datatypes.S (find P l)).
      { clear. intros P Q l HE. induction l; [reflexivity|]. cbn. rewrite HE. destruct (Q (Datatypes.S a)); auto. }
      rewrite (F (fun k => negb (below_reject w hi (nth_raw g' k)))).
      2: { intros k. cbn [nth_raw]. now rewrite E. }
      destruct (find (fun k => negb (below_reject w hi (nth_raw g' k))) (seq 0 n)) as [k|]; cbn [option_map]; [|reflexivity].
      cbn [nth_raw nth_state]. now rewrite E.
    + cbn [nth_raw nth_state]. rewrite E. reflexivity.
Qed.

Lemma r_below_range fuel hi g v g' : 0 < hi -> r_below S w raw fuel hi g = Ok (Some (v, g')) -> 0 <= v < hi.
Proof.
  intros Hhi. rewrite r_below_spec by lia.
  destruct (find _ _); [|discriminate]. intros [= <- _]. apply Z.mod_pos_bound. lia.
Qed.
End Loop.

(** Reachable termination: some word is accepted, so a stream that eventually produces it stops. *)
Lemma below_accepts_small w hi b : 2 <= w -> 0 < hi < 2 ^ w -> 0 <= b < hi -> below_reject w hi b = false.
Proof.
  intros Hw Hhi Hb. rewrite reject_iff by lia. rewrite Z.mod_small by lia.
  assert (0 < 2 ^ (w - 1)) by (apply Z.pow_pos_nonneg; lia).
  replace (2 ^ (w - 1) <=? b - b) with false by lia. reflexivity.
Qed.
