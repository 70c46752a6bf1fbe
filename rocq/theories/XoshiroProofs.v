From Coq Require Import ZArith Bool Lia ZifyBool.
From Verif Require Import WordModel WordLemmas RandModel RandSpec.
Open Scope Z_scope.

Notation word64 := (word 64).

(** ** splitmix64 *)

Definition unxs (k y : Z) : Z := wxor (wxor y (wshr y k)) (wshr y (2 * k)).

Lemma unxs_xs k x : 0 <= k -> 64 <= 3 * k -> word64 x -> unxs k (wxor x (wshr x k)) = x.
Proof.
  intros Hk Hk3 Hx. apply Z.bits_inj'. intros n Hn. unfold unxs.
  rewrite !wxor_bits, !wshr_bits, !wxor_bits, !wshr_bits by lia.
  replace (n + 2 * k + k) with (n + 3 * k) by lia. replace (n + k + k) with (n + 2 * k) by lia.
  rewrite (word_bits 64 ltac:(lia) x (n + 3 * k)) by (auto; lia).
  destruct (Z.testbit x n), (Z.testbit x (n + k)), (Z.testbit x (n + 2 * k)); reflexivity.
Qed.

Lemma xs_unxs k x : 0 <= k -> 64 <= 3 * k -> word64 x -> wxor (unxs k x) (wshr (unxs k x) k) = x.
Proof.
  intros Hk Hk3 Hx. apply Z.bits_inj'. intros n Hn. unfold unxs.
  rewrite !wxor_bits, !wshr_bits, !wxor_bits, !wshr_bits by lia.
  replace (n + k + 2 * k) with (n + 3 * k) by lia. replace (n + k + k) with (n + 2 * k) by lia.
  rewrite (word_bits 64 ltac:(lia) x (n + 3 * k)) by (auto; lia).
  destruct (Z.testbit x n), (Z.testbit x (n + k)), (Z.testbit x (n + 2 * k)); reflexivity.
Qed.

Lemma xs_word k x : 0 <= k -> word64 x -> word64 (wxor x (wshr x k)).
Proof. intros. apply wxor_word; auto; [lia|]. apply wshr_word; auto; lia. Qed.

Lemma unxs_word k x : 0 <= k -> word64 x -> word64 (unxs k x).
Proof.
  intros. unfold unxs. apply wxor_word; [lia|apply xs_word; auto|]. apply wshr_word; auto; lia.
Qed.

(** The inverse of the mixing function. *)
Definition sm_unmix (y : Z) : Z :=
  let x := unxs 31 y in
  let x := unxs 27 (wmul 64 x 0x319642b2d24d8ec3) in
  unxs 30 (wmul 64 x 0x96de1b173f119089).

Lemma sm_unmix_mix x : word64 x -> sm_unmix (sm_mix x) = x.
Proof.
  intros Hx. unfold sm_unmix, sm_mix. cbv zeta.
  rewrite (unxs_xs 31) by (lia || apply wmul_word; lia).
  rewrite wmul_inv by (reflexivity || (apply xs_word; [lia|apply wmul_word; lia])).
  rewrite (unxs_xs 27) by (lia || apply wmul_word; lia).
  rewrite wmul_inv by (reflexivity || (apply xs_word; [lia|auto])).
  apply unxs_xs; auto; lia.
Qed.

Lemma sm_mix_unmix y : word64 y -> sm_mix (sm_unmix y) = y.
Proof.
  intros Hy. unfold sm_unmix, sm_mix. cbv zeta.
  rewrite (xs_unxs 30) by (lia || apply wmul_word; lia).
  rewrite wmul_inv by (reflexivity || (apply unxs_word; [lia|apply wmul_word; lia])).
  rewrite (xs_unxs 27) by (lia || apply wmul_word; lia).
  rewrite wmul_inv by (reflexivity || (apply unxs_word; [lia|auto])).
  apply xs_unxs; auto; lia.
Qed.

Lemma sm_mix_word x : word64 (sm_mix x).
Proof. unfold sm_mix. cbv zeta. apply xs_word; [lia|]. apply wmul_word; lia. Qed.

Lemma sm_mix_0 : sm_mix 0 = 0.
Proof. reflexivity. Qed.

Lemma sm_mix_zero_iff x : word64 x -> (sm_mix x = 0 <-> x = 0).
Proof.
  intros Hx. split; [|intros ->; reflexivity]. intros H.
  rewrite <- (sm_unmix_mix x Hx), H. reflexivity.
Qed.

Lemma sm_counter_inj a b : word64 a -> word64 b -> wadd 64 a sm_gamma = wadd 64 b sm_gamma -> a = b.
Proof.
  unfold wadd, norm, word. intros Ha Hb H. unfold sm_gamma in *.
  pose proof (Z.div_mod (a + 0x9E3779B97f4A7C15) (2^64) ltac:(lia)).
  pose proof (Z.div_mod (b + 0x9E3779B97f4A7C15) (2^64) ltac:(lia)). nia.
Qed.

Lemma splitmix_inj a b : word64 a -> word64 b -> fst (splitmix64 a) = fst (splitmix64 b) -> a = b.
Proof.
  intros Ha Hb H. cbn [splitmix64 fst] in H. apply sm_counter_inj; auto.
  rewrite <- (sm_unmix_mix (wadd 64 a sm_gamma)), <- (sm_unmix_mix (wadd 64 b sm_gamma))
    by (apply wadd_word; lia).
  now rewrite H.
Qed.

(** Every word is the output of exactly one counter value. *)
Definition sm_source (y : Z) : Z := wsub 64 (sm_unmix y) sm_gamma.

Lemma sm_source_ok y : word64 y -> word64 (sm_source y) /\ fst (splitmix64 (sm_source y)) = y.
Proof.
  intros Hy. split; [unfold sm_source, wsub; apply norm_word; lia|].
  cbn [splitmix64 fst]. unfold sm_source, wadd, wsub, norm.
  rewrite Zplus_mod_idemp_l. replace (sm_unmix y - sm_gamma + sm_gamma) with (sm_unmix y) by ring.
  rewrite Z.mod_small.
  - now apply sm_mix_unmix.
  - unfold sm_unmix. cbv zeta. apply unxs_word; [lia|]. apply wmul_word; lia.
Qed.

(** ** xoshiro256++ *)


Definition unxl17 (y : Z) : Z :=
  wxor (wxor (wxor y (wshl 64 y 17)) (wshl 64 y 34)) (wshl 64 y 51).

Lemma unxl_xl x : word64 x -> unxl17 (wxor x (wshl 64 x 17)) = x.
Proof.
  intros Hx. apply Z.bits_inj'. intros n Hn. unfold unxl17.
  destruct (Z.lt_ge_cases n 64) as [H|H].
  - rewrite !wxor_bits, !wshl_bits by lia.
    replace (n <? 64) with true by lia. cbn [andb].
    assert (G : forall m, m < 64 -> Z.testbit (wxor x (wshl 64 x 17)) m =
                   xorb (Z.testbit x m) (Z.testbit x (m - 17))).
    { intros m Hm. rewrite wxor_bits. destruct (Z.lt_ge_cases m 0).
      - rewrite !Z.testbit_neg_r by lia. reflexivity.
      - rewrite wshl_bits by lia. replace (m <? 64) with true by lia. reflexivity. }
    rewrite !G by lia.
    replace (n - 17 - 17) with (n - 34) by lia. replace (n - 34 - 17) with (n - 51) by lia.
    rewrite (Z.testbit_neg_r x (n - 51 - 17)) by lia.
    destruct (Z.testbit x n), (Z.testbit x (n - 17)), (Z.testbit x (n - 34)), (Z.testbit x (n - 51)); reflexivity.
  - rewrite !wxor_bits, !wshl_bits by lia. replace (n <? 64) with false by lia.
    rewrite (word_bits 64 ltac:(lia) x n) by auto. reflexivity.
Qed.

Lemma xl_unxl x : word64 x -> wxor (unxl17 x) (wshl 64 (unxl17 x) 17) = x.
Proof.
  intros Hx. apply Z.bits_inj'. intros n Hn.
  destruct (Z.lt_ge_cases n 64) as [H|H].
  - rewrite !wxor_bits, !wshl_bits by lia.
    replace (n <? 64) with true by lia. cbn [andb].
    assert (G : forall m, m < 64 -> Z.testbit (unxl17 x) m =
       xorb (xorb (xorb (Z.testbit x m) (Z.testbit x (m - 17))) (Z.testbit x (m - 34))) (Z.testbit x (m - 51))).
    { intros m Hm. unfold unxl17. rewrite !wxor_bits. destruct (Z.lt_ge_cases m 0).
      - rewrite !Z.testbit_neg_r by lia. reflexivity.
      - rewrite !wshl_bits by lia. replace (m <? 64) with true by lia. reflexivity. }
    rewrite !G by lia.
    replace (n - 17 - 17) with (n - 34) by lia. replace (n - 17 - 34) with (n - 51) by lia.
    rewrite (Z.testbit_neg_r x (n - 17 - 51)) by lia.
    destruct (Z.testbit x n), (Z.testbit x (n - 17)), (Z.testbit x (n - 34)), (Z.testbit x (n - 51)); reflexivity.
  - unfold unxl17. rewrite !wxor_bits, !wshl_bits by lia. replace (n <? 64) with false by lia.
    rewrite (word_bits 64 ltac:(lia) x n) by auto. reflexivity.
Qed.

(** The inverse of the state update. *)
Definition x_prev (s : xstate) : xstate :=
  let s3' := wrotl 64 (x3 s) 19 in
  let s0 := wxor (x0 s) s3' in
  let s1 := unxl17 (wxor (x2 s) (x1 s)) in
  let s2' := wxor (x1 s) s1 in
  mkX s0 s1 (wxor s2' s0) (wxor s3' s1).

Lemma unxl_word x : word64 x -> word64 (unxl17 x).
Proof.
  intros. unfold unxl17. repeat apply wxor_word; try lia; auto; apply wshl_word; lia.
Qed.

Lemma x_next_word s : xword s -> xword (snd (x_rand64 s)).
Proof.
  intros (H0 & H1 & H2 & H3). unfold x_rand64, xword. cbv zeta. cbn [snd x0 x1 x2 x3].
  assert (W := fun a b => wxor_word 64 ltac:(lia) a b).
  refine (conj _ (conj _ (conj _ _))).
  - exact (W _ _ H0 (W _ _ H3 H1)).
  - exact (W _ _ H1 (W _ _ H2 H0)).
  - apply W; [exact (W _ _ H2 H0)|apply wshl_word; lia].
  - exact (wrotl_word 64 ltac:(lia) _ 45 ltac:(lia) (W _ _ H3 H1)).
Qed.

Lemma x_prev_next s : xword s -> x_prev (snd (x_rand64 s)) = s.
Proof.
  intros (H0 & H1 & H2 & H3). destruct s as [a b c d]. cbn [x0 x1 x2 x3] in *.
  unfold x_prev, x_rand64. cbv zeta. cbn [snd x0 x1 x2 x3].
  assert (W := fun a b => wxor_word 64 ltac:(lia) a b).
  change 19 with (64 - 45). rewrite wrotl_inv by (lia || auto).
  rewrite wxor_cancel_r.
  assert (E : wxor (wxor (wxor c a) (wshl 64 b 17)) (wxor b (wxor c a)) = wxor b (wshl 64 b 17)).
  { set (p := wxor c a). set (t := wshl 64 b 17). rewrite (wxor_comm p t), (wxor_comm b p), wxor_assoc.
    rewrite wxor_cancel_l. apply wxor_comm. }
  rewrite E, unxl_xl by auto.
  f_equal.
  - rewrite (wxor_comm (wxor b (wxor c a)) b), wxor_cancel_l. apply wxor_cancel_r.
  - apply wxor_cancel_r.
Qed.

Lemma x_next_prev s : xword s -> snd (x_rand64 (x_prev s)) = s.
Proof.
  intros (H0 & H1 & H2 & H3). destruct s as [a b c d]. cbn [x0 x1 x2 x3] in *.
  unfold x_prev, x_rand64. cbv zeta. cbn [snd x0 x1 x2 x3].
  assert (W := fun a b => wxor_word 64 ltac:(lia) a b).
  set (u := unxl17 (wxor c b)).
  rewrite !wxor_cancel_r. f_equal.
  - rewrite wxor_comm. apply wxor_cancel_r.
  - rewrite wxor_assoc.
    assert (E : wxor u (wshl 64 u 17) = wxor c b) by (apply xl_unxl; auto).
    rewrite E. rewrite wxor_comm. apply wxor_cancel_r.
  - change 45 with (64 - 19). apply wrotl_inv; [lia|lia|auto].
Qed.

Lemma x_zero_fixed : snd (x_rand64 (mkX 0 0 0 0)) = mkX 0 0 0 0 /\ fst (x_rand64 (mkX 0 0 0 0)) = 0.
Proof. split; vm_compute; reflexivity. Qed.

Fixpoint x_iter (n : nat) (s : xstate) : xstate :=
  match n with O => s | S k => snd (x_rand64 (x_iter k s)) end.

Lemma x_iter_word n s : xword s -> xword (x_iter n s).
Proof. intros H. induction n; cbn [x_iter]; auto using x_next_word. Qed.

Lemma x_never_zero n s : xword s -> s <> mkX 0 0 0 0 -> x_iter n s <> mkX 0 0 0 0.
Proof.
  intros H Hs. induction n; cbn [x_iter]; [exact Hs|]. intros C. apply IHn.
  rewrite <- (x_prev_next (x_iter n s)) by (apply x_iter_word; auto). rewrite C. vm_compute. reflexivity.
Qed.

Lemma x_rseed_word seed : xword (x_rseed seed).
Proof. unfold x_rseed, xword. cbn [splitmix64 x0 x1 x2 x3]. refine (conj _ (conj _ (conj _ _))); apply sm_mix_word. Qed.

Lemma x_rseed_nonzero seed : word64 seed -> x_rseed seed <> mkX 0 0 0 0.
Proof.
  intros Hs. unfold x_rseed. cbn [splitmix64]. intros [= A B C D].
  apply (proj1 (sm_mix_zero_iff _ (wadd_word 64 ltac:(lia) _ _))) in A.
  apply (proj1 (sm_mix_zero_iff _ (wadd_word 64 ltac:(lia) _ _))) in B.
  rewrite A in B. vm_compute in B. discriminate.
Qed.

(** The comment "this ensures that there are no zeros" is false of the entropy-source seeding. *)
Lemma x_seed_from_zero : x_seed_from (2 ^ 64 - sm_gamma) (2 ^ 64 - sm_gamma) (2 ^ 64 - sm_gamma) (2 ^ 64 - sm_gamma)
  = mkX 0 0 0 0.
Proof. vm_compute. reflexivity. Qed.

Lemma x_zero_forever n : x_iter n (mkX 0 0 0 0) = mkX 0 0 0 0.
Proof. induction n; [reflexivity|]. cbn [x_iter]. rewrite IHn. vm_compute. reflexivity. Qed.
