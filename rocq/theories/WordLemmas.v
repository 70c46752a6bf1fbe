From Coq Require Import ZArith Bool Lia ZifyBool.
From Verif Require Import WordModel.
Open Scope Z_scope.

Section W.
Variable w : Z.
Hypothesis Hw : 0 <= w.

Lemma word_bits x n : word w x -> w <= n -> Z.testbit x n = false.
Proof.
  intros [H1 H2] Hn. destruct (Z.eq_dec x 0) as [->|]; [apply Z.bits_0|].
  apply Z.bits_above_log2; [lia|]. assert (Z.log2 x < w) by (apply Z.log2_lt_pow2; lia). lia.
Qed.

Lemma norm_bits x n : 0 <= n -> Z.testbit (norm w x) n = (n <? w) && Z.testbit x n.
Proof.
  intros Hn. unfold norm. destruct (n <? w) eqn:E.
  - apply Z.mod_pow2_bits_low. lia.
  - apply Z.mod_pow2_bits_high. lia.
Qed.

Lemma norm_word x : word w (norm w x).
Proof. unfold word, norm. apply Z.mod_pos_bound. apply Z.pow_pos_nonneg; lia. Qed.

Lemma norm_id x : word w x -> norm w x = x.
Proof. intros H. apply Z.mod_small. exact H. Qed.

Lemma wshl_bits x k n : 0 <= n -> 0 <= k -> Z.testbit (wshl w x k) n = (n <? w) && Z.testbit x (n - k).
Proof. intros Hn Hk. unfold wshl. rewrite norm_bits by lia. now rewrite Z.shiftl_spec. Qed.

Lemma wshr_bits x k n : 0 <= n -> Z.testbit (wshr x k) n = Z.testbit x (n + k).
Proof. intros Hn. unfold wshr. now apply Z.shiftr_spec. Qed.

Lemma wxor_bits x y n : Z.testbit (wxor x y) n = xorb (Z.testbit x n) (Z.testbit y n).
Proof. apply Z.lxor_spec. Qed.

Lemma word_of_bits x : 0 <= x -> (forall n, w <= n -> Z.testbit x n = false) -> word w x.
Proof.
  intros H0 H. split; [exact H0|]. destruct (Z.eq_dec x 0) as [->|Hx]; [apply Z.pow_pos_nonneg; lia|].
  apply Z.log2_lt_pow2; [lia|]. destruct (Z.lt_ge_cases (Z.log2 x) w) as [|C]; [assumption|].
  specialize (H _ C). rewrite Z.bit_log2 in H by lia. discriminate.
Qed.

Lemma wxor_word x y : word w x -> word w y -> word w (wxor x y).
Proof.
  intros Hx Hy. apply word_of_bits.
  - apply Z.lxor_nonneg. destruct Hx, Hy. lia.
  - intros n Hn. rewrite wxor_bits, (word_bits x), (word_bits y); auto.
Qed.

Lemma wor_word x y : word w x -> word w y -> word w (wor x y).
Proof.
  intros Hx Hy. apply word_of_bits.
  - apply Z.lor_nonneg. destruct Hx, Hy. lia.
  - intros n Hn. unfold wor. rewrite Z.lor_spec, (word_bits x), (word_bits y); auto.
Qed.

Lemma wshl_word x k : word w (wshl w x k).
Proof. apply norm_word. Qed.

Lemma wshr_word x k : 0 <= k -> word w x -> word w (wshr x k).
Proof.
  intros Hk Hx. apply word_of_bits.
  - apply Z.shiftr_nonneg. destruct Hx; lia.
  - intros n Hn. rewrite wshr_bits by lia. apply word_bits; [auto|lia].
Qed.

Lemma wrotl_word x k : 0 <= k <= w -> word w x -> word w (wrotl w x k).
Proof. intros Hk Hx. apply wor_word; [apply wshl_word|apply wshr_word; [lia|auto]]. Qed.

Lemma wadd_word x y : word w (wadd w x y).
Proof. apply norm_word. Qed.
Lemma wmul_word x y : word w (wmul w x y).
Proof. apply norm_word. Qed.

Lemma wrotl_bits x k n : 0 < k < w -> 0 <= n < w -> word w x ->
  Z.testbit (wrotl w x k) n = Z.testbit x (if n <? k then n + w - k else n - k).
Proof.
  intros Hk Hn Hx. unfold wrotl. rewrite Z.lor_spec, wshl_bits, wshr_bits by lia.
  replace (n <? w) with true by lia. cbn [andb]. destruct (n <? k) eqn:E.
  - rewrite (Z.testbit_neg_r x (n - k)) by lia. cbn [orb]. f_equal. lia.
  - rewrite (word_bits x (n + (w - k))) by (auto; lia). now rewrite orb_false_r.
Qed.

(** Rotating by k and then by w - k gives the word back. *)
Lemma wrotl_inv x k : 0 < k < w -> word w x -> wrotl w (wrotl w x k) (w - k) = x.
Proof.
  intros Hk Hx. apply Z.bits_inj'. intros n Hn.
  assert (Hr : word w (wrotl w x k)) by (apply wrotl_word; [lia|auto]).
  destruct (Z.lt_ge_cases n w) as [H|H].
  - rewrite wrotl_bits by (auto; lia). destruct (n <? w - k) eqn:E; rewrite wrotl_bits by (auto; lia).
    + replace (n + w - (w - k) <? k) with false by lia. f_equal. lia.
    + replace (n - (w - k) <? k) with true by lia. f_equal. lia.
  - rewrite (word_bits x n), (word_bits (wrotl w _ _) n); auto. apply wrotl_word; [lia|auto].
Qed.

Lemma word_0 : word w 0.
Proof. split; [lia|]. apply Z.pow_pos_nonneg; lia. Qed.

Lemma wmul_inv a b x : (a * b) mod 2 ^ w = 1 -> word w x -> wmul w (wmul w x a) b = x.
Proof.
  intros H Hx. unfold wmul, norm. rewrite Zmult_mod_idemp_l. 
  replace (x * a * b) with (x * (a * b)) by ring.
  rewrite <- Zmult_mod_idemp_r, H, Z.mul_1_r. now apply Z.mod_small.
Qed.
End W.

Lemma wxor_cancel_l x y : wxor x (wxor x y) = y.
Proof. unfold wxor. now rewrite <- Z.lxor_assoc, Z.lxor_nilpotent, Z.lxor_0_l. Qed.
Lemma wxor_cancel_r x y : wxor (wxor x y) y = x.
Proof. unfold wxor. now rewrite Z.lxor_assoc, Z.lxor_nilpotent, Z.lxor_0_r. Qed.
Lemma wxor_comm x y : wxor x y = wxor y x.
Proof. apply Z.lxor_comm. Qed.
Lemma wxor_assoc x y z : wxor (wxor x y) z = wxor x (wxor y z).
Proof. apply Z.lxor_assoc. Qed.
