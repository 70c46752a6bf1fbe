From Coq Require Import ZArith Bool Lia ZifyBool Znumtheory.
From Verif Require Import Mem ArithModel ArithSpec.
Open Scope Z_scope.
Open Scope res_scope.

Lemma s_ret_ok w x : smin w <= x <= smax w -> s_ret w x = Ok x.
Proof. intros H. unfold s_ret, in_signed. now replace ((smin w <=? x) && (x <=? smax w)) with true by lia. Qed.

Lemma s_ret_bad w x : ~ (smin w <= x <= smax w) -> s_ret w x = Fault OtherUB.
Proof. intros H. unfold s_ret, in_signed. now replace ((smin w <=? x) && (x <=? smax w)) with false by lia. Qed.

Lemma smin_smax w : 1 <= w -> smin w = - (smax w + 1) /\ 0 <= smax w.
Proof.
  intros H. unfold smin, smax. pose proof (Z.pow_pos_nonneg 2 (w - 1)). lia.
Qed.

Lemma rem_plus_mod a b : b <> 0 -> Z.rem (Z.rem a b + b) b = a mod b.
Proof.
  intros Hb.
  pose proof (Z.quot_rem' a b) as E. pose proof (Z.rem_bound_abs a b Hb) as B.
  pose proof (Z.mod_pos_bound a b). pose proof (Z.mod_neg_bound a b).
  pose proof (Z.div_mod a b Hb) as D.
  assert (Hm : (Z.rem a b + b) mod b = a mod b).
  { replace (Z.rem a b + b) with (a + (1 - Z.quot a b) * b) by lia. apply Z.mod_add; auto. }
  destruct (Z.lt_trichotomy b 0) as [H1|[H1|H1]]; [|lia|].
  - rewrite <- Hm. rewrite <- (Z.opp_involutive b), Z.rem_opp_r by lia.
    rewrite <- (Z.opp_involutive (Z.rem a (- - b) + - - b)), Z.rem_opp_l by lia.
    rewrite Z.mod_opp_opp by lia. rewrite Z.rem_mod_nonneg; [reflexivity| |lia].
    rewrite Z.opp_involutive. lia.
  - rewrite Z.rem_mod_nonneg; lia.
Qed.

(** Exact behaviour of signed positive_mod. *)
Lemma positive_mod_s_spec w a b : 2 <= w -> smin w <= a <= smax w -> smin w <= b <= smax w -> b <> 0 ->
  ~ (a = smin w /\ b = -1) ->
  positive_mod_s w a b =
    if in_signed w (Z.rem a b + b) then Ok (a mod b) else Fault OtherUB.
Proof.
  intros Hw Ha Hb Hb0 Hov. destruct (smin_smax w ltac:(lia)) as [Hm1 Hm2]. unfold positive_mod_s, s_rem.
  replace (b =? 0) with false by lia.
  assert (Hq : smin w <= Z.quot a b <= smax w).
  { assert (Z.abs (Z.quot a b) <= Z.abs a).
    { rewrite <- Z.quot_abs by auto. rewrite Z.quot_div_nonneg by lia.
      apply Z.div_le_upper_bound; [lia|]. nia. }
    destruct (Z.eq_dec a (smin w)) as [->|]; [|lia].
    destruct (Z.eq_dec b 1) as [->|]; [rewrite Z.quot_1_r; lia|].
    assert (2 <= Z.abs b) by lia.
    assert (Z.abs (Z.quot (smin w) b) < Z.abs (smin w) \/ smin w = 0).
    { destruct (Z.eq_dec (smin w) 0); [auto|left].
      rewrite <- Z.quot_abs by auto. rewrite Z.quot_div_nonneg by lia.
      apply Z.div_lt_upper_bound; [lia|]. nia. }
    lia. }
  rewrite (s_ret_ok w _ Hq). cbn [bind]. unfold s_add, s_ret.
  destruct (in_signed w (Z.rem a b + b)) eqn:Et; [|reflexivity]. cbn [bind].
  assert (Hq2 : smin w <= Z.quot (Z.rem a b + b) b <= smax w).
  { unfold in_signed in Et. 
    assert (Z.abs (Z.quot (Z.rem a b + b) b) <= 1).
    { pose proof (Z.rem_bound_abs a b Hb0).
      rewrite <- Z.quot_abs by auto. rewrite Z.quot_div_nonneg by lia.
      assert (Z.abs (Z.rem a b + b) / Z.abs b < 2); [|lia].
      apply Z.div_lt_upper_bound; lia. }
    assert (1 <= smax w) by (unfold smax; pose proof (Z.pow_le_mono_r 2 1 (w-1)); lia). lia. }
  unfold in_signed. replace ((smin w <=? Z.quot (Z.rem a b + b) b) && (Z.quot (Z.rem a b + b) b <=? smax w)) with true by lia.
  cbn [bind]. f_equal. now apply rem_plus_mod.
Qed.

Lemma positive_mod_s_ok w a b : 2 <= w -> smin w <= a <= smax w -> 0 < b -> 2 * b <= smax w + 1 ->
  positive_mod_s w a b = Ok (a mod b).
Proof.
  intros Hw Ha Hb Hb2. destruct (smin_smax w ltac:(lia)) as [Hm1 Hm2].
  rewrite positive_mod_s_spec by lia.
  pose proof (Z.rem_bound_abs a b ltac:(lia)).
  unfold in_signed. now replace ((smin w <=? Z.rem a b + b) && (Z.rem a b + b <=? smax w)) with true by lia.
Qed.

(** Every larger divisor has a dividend for which the addition overflows. *)
Lemma positive_mod_s_overflow w b : 2 <= w -> smax w + 1 < 2 * b -> b <= smax w ->
  positive_mod_s w (b - 1) b = Fault OtherUB.
Proof.
  intros Hw Hb Hb2. destruct (smin_smax w ltac:(lia)) as [Hm1 Hm2].
  rewrite positive_mod_s_spec by lia.
  rewrite Z.rem_small by lia. unfold in_signed.
  now replace ((smin w <=? b - 1 + b) && (b - 1 + b <=? smax w)) with false by lia.
Qed.

Lemma positive_mod_u_ok w a b : 0 <= w -> 0 <= a < 2 ^ w -> 0 < b -> 2 * b <= 2 ^ w ->
  positive_mod_u w a b = Ok (a mod b).
Proof.
  intros Hw Ha Hb Hb2. unfold positive_mod_u, u_rem. replace (b =? 0) with false by lia. cbn [bind].
  f_equal. unfold wrap, umod. pose proof (Z.mod_pos_bound a b Hb).
  rewrite (Z.mod_small (a mod b + b)) by lia.
  replace (a mod b + b) with (a mod b + 1 * b) by lia. rewrite Z.mod_add by lia. apply Z.mod_mod. lia.
Qed.

Lemma positive_mod_u_bad w b : 0 <= w -> 2 ^ w < 2 * b - 1 -> b < 2 ^ w ->
  exists r, positive_mod_u w (b - 1) b = Ok r /\ r <> (b - 1) mod b.
Proof.
  intros Hw Hb Hb2. unfold positive_mod_u, u_rem. replace (b =? 0) with false by lia. cbn [bind].
  eexists. split; [reflexivity|]. rewrite (Z.mod_small (b - 1) b) by lia. unfold wrap, umod.
  replace ((b - 1 + b) mod 2 ^ w) with (2 * b - 1 - 2 ^ w).
  - rewrite Z.mod_small; lia.
  - apply Z.mod_unique with 1; lia.
Qed.


Lemma is_floor_div a b : 0 < b -> is_floor a b (a / b).
Proof. intros H. unfold is_floor. pose proof (Z.div_mod a b). pose proof (Z.mod_pos_bound a b). nia. Qed.

Lemma is_floor_unique a b q q' : 0 < b -> is_floor a b q -> is_floor a b q' -> q = q'.
Proof. unfold is_floor. intros. nia. Qed.

Lemma is_ceil_unique a b q q' : 0 < b -> is_ceil a b q -> is_ceil a b q' -> q = q'.
Proof. unfold is_ceil. intros. nia. Qed.

Lemma quot_neg x b : x < 0 -> 0 < b -> is_ceil x b (Z.quot x b).
Proof.
  intros Hx Hb. rewrite <- (Z.opp_involutive x), Z.quot_opp_l by lia.
  rewrite Z.quot_div_nonneg by lia. unfold is_ceil.
  pose proof (Z.div_mod (-x) b). pose proof (Z.mod_pos_bound (-x) b). nia.
Qed.

Lemma quot_nonneg x b : 0 <= x -> 0 < b -> is_floor x b (Z.quot x b).
Proof. intros Hx Hb. rewrite Z.quot_div_nonneg by lia. now apply is_floor_div. Qed.

Section Div.
Variable w : Z.
Hypothesis Hw : 2 <= w.
Variables a b : Z.
Hypothesis Ha : smin w <= a <= smax w.
Hypothesis Hb : 0 < b <= smax w.
Hypothesis Hab : a + b <= smax w.

Lemma ceil_div_s_val : exists q, ceil_div_s w a b = Ok q /\ q = Z.quot (a + b - 1) b.
Proof.
  destruct (smin_smax w ltac:(lia)) as [Hm1 Hm2].
  unfold ceil_div_s, s_add, s_sub, s_quot. rewrite s_ret_ok by lia. cbn [bind].
  rewrite s_ret_ok by lia. cbn [bind]. replace (b =? 0) with false by lia.
  assert (Z.abs (Z.quot (a + b - 1) b) <= Z.abs (a + b - 1)).
  { rewrite <- Z.quot_abs by lia. rewrite Z.quot_div_nonneg by lia. apply Z.div_le_upper_bound; [lia|]. nia. }
  rewrite s_ret_ok; [eauto|].
  destruct (Z.le_gt_cases 0 (a + b - 1)); [lia|].
  pose proof (quot_neg (a + b - 1) b ltac:(lia) ltac:(lia)) as Q. unfold is_ceil in Q.
  assert (Z.quot (a + b - 1) b <= 0) by nia. lia.
Qed.

Lemma ceil_div_s_iff : exists q, ceil_div_s w a b = Ok q /\
  (is_ceil a b q <-> (0 < a + b \/ (b | a - 1))).
Proof.
  destruct ceil_div_s_val as (q & E & ->). eexists; split; [exact E|].
  destruct (Z.le_gt_cases 0 (a + b - 1)) as [H|H].
  - pose proof (quot_nonneg (a + b - 1) b H ltac:(lia)) as Q.
    split; [intros; left; lia|]. intros _. unfold is_floor, is_ceil in *. lia.
  - pose proof (quot_neg (a + b - 1) b H ltac:(lia)) as Q. split.
    + intros C. right. unfold is_ceil in *. exists (Z.quot (a + b - 1) b - 1). lia.
    + intros [C|[k Hk]]; [lia|]. 
      replace (Z.quot (a + b - 1) b) with (k + 1); [unfold is_ceil; nia|].
      replace (a + b - 1) with ((k + 1) * b) by lia. rewrite Z.quot_mul; lia.
Qed.

Lemma floor_div_s_iff : exists q, floor_div_s w a b = Ok q /\
  (is_floor a b q <-> (0 <= a + b \/ (b | a))).
Proof.
  destruct (smin_smax w ltac:(lia)) as [Hm1 Hm2].
  unfold floor_div_s, s_add, s_sub, s_quot. rewrite s_ret_ok by lia. cbn [bind].
  replace (b =? 0) with false by lia.
  assert (Z.abs (Z.quot (a + b) b) <= Z.abs (a + b)).
  { rewrite <- Z.quot_abs by lia. rewrite Z.quot_div_nonneg by lia. apply Z.div_le_upper_bound; [lia|]. nia. }
  assert (Hq : smin w <= Z.quot (a + b) b <= smax w) 
    by (destruct (Z.le_gt_cases 0 (a + b)); [lia|];
        pose proof (quot_neg (a + b) b ltac:(lia) ltac:(lia)) as Q; unfold is_ceil in Q;
        assert (Z.quot (a + b) b <= 0) by nia; lia).
  rewrite s_ret_ok by lia. cbn [bind].
  destruct (Z.le_gt_cases 0 (a + b)) as [H0|H0].
  - pose proof (quot_nonneg (a + b) b H0 ltac:(lia)) as Q.
    assert (0 <= Z.quot (a + b) b) by (rewrite Z.quot_div_nonneg by lia; apply Z.div_pos; lia).
    rewrite s_ret_ok by lia. eexists; split; [reflexivity|]. split; [intros; lia|]. intros _.
    unfold is_floor in *. lia.
  - pose proof (quot_neg (a + b) b H0 ltac:(lia)) as Q.
    assert (smin w < Z.quot (a + b) b) by lia.
    rewrite s_ret_ok by lia. eexists; split; [reflexivity|]. split.
    + intros C. right. unfold is_ceil, is_floor in *. exists (Z.quot (a + b) b - 1). lia.
    + intros [C|[k Hk]]; [lia|].
      replace (Z.quot (a + b) b) with (k + 1); [unfold is_floor; nia|].
      replace (a + b) with ((k + 1) * b) by lia. rewrite Z.quot_mul; lia.
Qed.

Lemma snap_s_ok : 0 < a + b -> Z.quot (a + b - 1) b * b <= smax w ->
  exists r, snap_s w a b = Ok r /\ (b | r) /\ a <= r < a + b.
Proof.
  intros H H2. destruct (smin_smax w ltac:(lia)) as [Hm1 Hm2].
  destruct ceil_div_s_val as (q & E & Eq). unfold snap_s. rewrite E. cbn [bind].
  pose proof (quot_nonneg (a + b - 1) b ltac:(lia) ltac:(lia)) as Q. rewrite <- Eq in *.
  unfold is_floor in Q. unfold s_mul. rewrite s_ret_ok by lia. eexists; split; [reflexivity|].
  split; [exists q; lia|]. lia.
Qed.
End Div.

(** Unsigned variants are right whenever the sum does not wrap. *)
Lemma ceil_div_u_ok w a b : 0 <= w -> 0 <= a -> 0 < b -> a + b < 2 ^ w ->
  exists q, ceil_div_u w a b = Ok q /\ is_ceil a b q.
Proof.
  intros Hw Ha Hb H. unfold ceil_div_u, u_quot, wrap, umod. replace (b =? 0) with false by lia.
  rewrite (Z.mod_small (a + b)) by lia. rewrite Z.mod_small by lia. eexists; split; [reflexivity|].
  pose proof (is_floor_div (a + b - 1) b Hb). unfold is_floor, is_ceil in *. lia.
Qed.

Lemma floor_div_u_ok w a b : 0 <= w -> 0 <= a -> 0 < b -> a + b < 2 ^ w ->
  exists q, floor_div_u w a b = Ok q /\ is_floor a b q.
Proof.
  intros Hw Ha Hb H. unfold floor_div_u, u_quot, wrap, umod. replace (b =? 0) with false by lia.
  rewrite (Z.mod_small (a + b)) by lia. cbn [bind]. eexists; split; [reflexivity|].
  pose proof (is_floor_div (a + b) b Hb) as F.
  assert (1 <= (a + b) / b) by (apply Z.div_le_lower_bound; lia).
  assert ((a + b) / b <= a + b) by (apply Z.div_le_upper_bound; nia).
  rewrite Z.mod_small by lia. unfold is_floor in *. lia.
Qed.

(** ** Powers of two *)

Lemma land_pred_pow2 k : 0 <= k -> Z.land (2 ^ k) (2 ^ k - 1) = 0.
Proof.
  intros Hk. replace (2 ^ k - 1) with (Z.ones k) by (rewrite Z.ones_equiv; lia).
  rewrite Z.land_ones by lia. apply Z.mod_same. pose proof (Z.pow_pos_nonneg 2 k). lia.
Qed.

Lemma land_pred_zero x : 0 < x -> Z.land x (x - 1) = 0 -> exists k, 0 <= k /\ x = 2 ^ k.
Proof.
  intros Hx H. exists (Z.log2 x). pose proof (Z.log2_nonneg x). split; [assumption|].
  destruct (Z.log2_spec x Hx) as [L U].
  destruct (Z.eq_dec x (2 ^ Z.log2 x)) as [|Hne]; [assumption|exfalso].
  (* then x - 1 has the same leading bit *)
  assert (Hl : Z.log2 (x - 1) = Z.log2 x) by (apply Z.log2_unique; lia).
  assert (B : Z.testbit (Z.land x (x - 1)) (Z.log2 x) = true).
  { rewrite Z.land_spec, Z.bit_log2 by lia. rewrite <- Hl at 1. rewrite Z.bit_log2; [reflexivity|].
    pose proof (Z.pow_pos_nonneg 2 (Z.log2 x)). lia. }
  rewrite H, Z.bits_0 in B. discriminate.
Qed.

Lemma is_power_of_two_s_ok w x : 2 <= w -> smin w <= x <= smax w ->
  exists r, is_power_of_two_s w x = Ok r /\ (r = true <-> exists k, 0 <= k /\ x = 2 ^ k).
Proof.
  intros Hw Hx. destruct (smin_smax w ltac:(lia)) as [Hm1 Hm2]. unfold is_power_of_two_s.
  destruct (0 <? x) eqn:E.
  - unfold s_sub. rewrite s_ret_ok by lia. cbn [bind]. eexists; split; [reflexivity|]. rewrite Z.eqb_eq. split.
    + apply land_pred_zero. lia.
    + intros (k & Hk & ->). now apply land_pred_pow2.
  - eexists; split; [reflexivity|]. split; [discriminate|]. intros (k & Hk & ->).
    pose proof (Z.pow_pos_nonneg 2 k). lia.
Qed.

Lemma is_power_of_two_u_ok w x : 0 <= w -> 0 <= x < 2 ^ w ->
  is_power_of_two_u w x = true <-> exists k, 0 <= k /\ x = 2 ^ k.
Proof.
  intros Hw Hx. unfold is_power_of_two_u. rewrite Bool.andb_true_iff, Z.eqb_eq, Z.ltb_lt. unfold wrap, umod. split.
  - intros [H1 H2]. rewrite Z.mod_small in H2 by lia. now apply land_pred_zero.
  - intros (k & Hk & ->). pose proof (Z.pow_pos_nonneg 2 k). split; [lia|]. rewrite Z.mod_small by lia.
    now apply land_pred_pow2.
Qed.
