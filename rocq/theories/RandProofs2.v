(** Restatements of the generator lemmas in the vocabulary of the property files. *)
From Coq Require Import ZArith List Bool Lia ZifyBool.
From Verif Require Import Mem WordModel WordLemmas RandModel RandSpec BelowProofs LcgProofs XoshiroProofs RandProofs MTProofs.
Import ListNotations.
Open Scope Z_scope.

Lemma iter_lcg n s : Nat.iter n lcg_next s = lcg_iter n s.
Proof. induction n as [|n IH]; [reflexivity|]. cbn [Nat.iter nat_rect lcg_iter]. unfold Nat.iter in IH. now rewrite IH. Qed.

Lemma lcg_full s : 0 <= s < 2 ^ 64 ->
  (forall n, Nat.iter n lcg_next s = s <-> (2 ^ 64 | Z.of_nat n)) /\
  (forall t, 0 <= t < 2 ^ 64 -> exists n, Z.of_nat n < 2 ^ 64 /\ Nat.iter n lcg_next s = t).
Proof.
  intros Hs. split.
  - intros n. rewrite iter_lcg. now apply lcg_period.
  - intros t Ht. destruct (lcg_visits_all s t Hs Ht) as (n & Hn & E). exists n. now rewrite iter_lcg.
Qed.

Lemma iter_x n s : Nat.iter n (fun s => snd (x_rand64 s)) s = x_iter n s.
Proof. induction n as [|n IH]; [reflexivity|]. cbn [Nat.iter nat_rect x_iter]. unfold Nat.iter in IH. now rewrite IH. Qed.

Lemma x_bijective : exists back,
  forall s, xword s -> xword (snd (x_rand64 s)) /\ xword (back s) /\
    back (snd (x_rand64 s)) = s /\ snd (x_rand64 (back s)) = s.
Proof.
  exists x_prev. intros s Hs.
  refine (conj (x_next_word s Hs) (conj _ (conj (x_prev_next s Hs) (x_next_prev s Hs)))).
  destruct Hs as (H0 & H1 & H2 & H3). unfold x_prev, xword. cbv zeta. cbn [x0 x1 x2 x3].
  assert (W := fun a b => wxor_word 64 ltac:(lia) a b).
  assert (R : word 64 (wrotl 64 (x3 s) 19)) by (apply wrotl_word; auto; lia).
  assert (U : word 64 (unxl17 (wxor (x2 s) (x1 s)))) by (apply unxl_word; apply W; auto).
  refine (conj (W _ _ H0 R) (conj U (conj (W _ _ (W _ _ H1 U) (W _ _ H0 R)) (W _ _ R U)))).
Qed.

Lemma x_nonzero n s : xword s -> s <> mkX 0 0 0 0 -> Nat.iter n (fun s => snd (x_rand64 s)) s <> mkX 0 0 0 0.
Proof. rewrite iter_x. apply x_never_zero. Qed.

Lemma splitmix_bijective :
  (forall a b, word 64 a -> word 64 b -> fst (splitmix64 a) = fst (splitmix64 b) -> a = b) /\
  (forall y, word 64 y -> exists a, word 64 a /\ fst (splitmix64 a) = y).
Proof. split; [exact splitmix_inj|]. intros y Hy. exists (sm_source y). now apply sm_source_ok. Qed.

Lemma x_entropy_zero :
  let e := 2 ^ 64 - sm_gamma in
  x_seed_from e e e e = mkX 0 0 0 0 /\ x_seed_raw 0 0 0 0 = mkX 0 0 0 0 /\
  forall n, stream xstate x_rand32 (mkX 0 0 0 0) n = 0.
Proof.
  cbv zeta. refine (conj x_seed_from_zero (conj eq_refl _)). induction n as [|n IH]; [reflexivity|].
  cbn [stream]. replace (snd (x_rand32 (mkX 0 0 0 0))) with (mkX 0 0 0 0); [exact IH|reflexivity].
Qed.

(** The next raw word (u32 or u64) depends on the generator state only; the bounded draw picks the first
    accepted word of the stream. *)
Lemma nth_raw_u32 S next32 n : forall g, nth_raw S (r_u32 S next32) g n = stream S next32 (r_state S g) n.
Proof.
  induction n as [|n IH]; intros g; cbn [nth_raw stream]; unfold r_u32, r_rand32;
    destruct (next32 (r_state S g)) as [o s]; cbn [fst snd]; [reflexivity|]. exact (IH (mkR S s (r_pool S g) (r_left S g))).
Qed.

Lemma below_u32_spec S next32 fuel hi g : hi <> 0 ->
  match r_below S 32 (r_u32 S next32) fuel hi g with
  | Ok (Some (v, _)) => exists k, (k < fuel)%nat /\
       (forall j, (j < k)%nat -> below_reject 32 hi (stream S next32 (r_state S g) j) = true) /\
       below_reject 32 hi (stream S next32 (r_state S g) k) = false /\
       v = stream S next32 (r_state S g) k mod hi
  | Ok None => forall j, (j < fuel)%nat -> below_reject 32 hi (stream S next32 (r_state S g) j) = true
  | Fault _ => False
  end.
Proof.
  intros Hhi. rewrite r_below_spec by auto.
  destruct (find _ (seq 0 fuel)) as [k|] eqn:E.
  - assert (G : forall P a n k, find P (seq a n) = Some k -> (a <= k < a + n)%nat /\ P k = true /\ forall j, (a <= j < k)%nat -> P j = false).
    { clear. intros P a n. revert a. induction n as [|n IH]; intros a k H; cbn in H; [discriminate|].
      destruct (P a) eqn:Pa.
      - injection H as <-. repeat split; auto; lia.
      - apply IH in H. destruct H as (H1 & H2 & H3). repeat split; auto; try lia.
        intros j Hj. destruct (Nat.eq_dec j a) as [->|]; auto. apply H3. lia. }
    apply G in E. destruct E as (E1 & E2 & E3). exists k. rewrite <- nth_raw_u32. 
    split; [lia|]. split.
    + intros j Hj. rewrite <- nth_raw_u32. specialize (E3 j ltac:(lia)). now apply negb_false_iff.
    + split; [now apply negb_true_iff|reflexivity].
  - intros j Hj. pose proof (find_none _ _ E j) as N. rewrite <- nth_raw_u32. 
    apply negb_false_iff. apply N. apply in_seq. lia.
Qed.

(** Signed draws. *)
Lemma int_below_range S next32 fuel hi g v g' :
  r_int_below S next32 fuel hi g = Ok (Some (v, g')) -> (0 < hi -> 0 <= v < hi) /\ (hi < 0 -> hi < v <= 0).
Proof.
  unfold r_int_below. destruct (hi <? 0) eqn:E.
  - destruct (hi =? - 2 ^ 31); [discriminate|].
    destruct (r_below S 32 (r_u32 S next32) fuel (- hi) g) as [[[u h]|]|] eqn:B; try discriminate.
    apply r_below_range in B; [|lia]. intros [= <- <-]. lia.
  - destruct (Z.eq_dec hi 0) as [->|]; [lia|]. intros B. apply r_below_range in B; lia.
Qed.

Lemma int_range_spec S next32 fuel lo hi g :
  - 2 ^ 31 <= lo < 2 ^ 31 -> - 2 ^ 31 <= hi < 2 ^ 31 ->
  match r_int_range S next32 fuel lo hi g with
  | Ok (Some (v, _)) => Z.min lo hi <= v < Z.max lo hi
  | Ok None => lo <> hi /\ Z.abs (hi - lo) < 2 ^ 31
  | Fault DivByZero => lo = hi
  | Fault _ => 2 ^ 31 <= Z.abs (hi - lo)
  end.
Proof.
  intros Hlo Hhi. unfold r_int_range. cbv zeta.
  set (d := Z.max hi lo - Z.min hi lo).
  assert (Ed : d = Z.abs (hi - lo)) by (unfold d; lia).
  destruct (2 ^ 31 <=? d) eqn:E; [lia|].
  unfold r_int_below. replace (d <? 0) with false by lia.
  destruct (Z.eq_dec d 0) as [E0|Hd].
  - rewrite E0. destruct fuel; cbn [r_below Z.eqb]; lia.
  - pose proof (below_u32_spec S next32 fuel d g Hd) as B.
    destruct (r_below S 32 (r_u32 S next32) fuel d g) as [[[v g']|]|f] eqn:R; [| lia | easy].
    apply r_below_range in R; [|lia].
    replace ((- 2 ^ 31 <=? v + Z.min hi lo) && (v + Z.min hi lo <? 2 ^ 31)) with true by lia. lia.
Qed.

(** ** Seeds *)
Lemma x_seeds_distinct :
  (forall a b, word 64 a -> word 64 b -> x_rseed a = x_rseed b -> a = b) /\
  (forall a0 a1 a2 a3 b0 b1 b2 b3, word 64 a0 -> word 64 a1 -> word 64 a2 -> word 64 a3 -> word 64 b0 -> word 64 b1 -> word 64 b2 -> word 64 b3 ->
     x_seed_from a0 a1 a2 a3 = x_seed_from b0 b1 b2 b3 -> (a0, a1, a2, a3) = (b0, b1, b2, b3)) /\
  (forall e0 e1 e2 e3, let s := x_seed_raw e0 e1 e2 e3 in (x0 s, x1 s, x2 s, x3 s) = (e0, e1, e2, e3)).
Proof.
  split; [|split].
  - intros a b A B H. apply splitmix_inj; auto. unfold x_rseed in H. cbn [splitmix64] in H. injection H as H _ _ _. exact H.
  - intros a0 a1 a2 a3 b0 b1 b2 b3 A0 A1 A2 A3 B0 B1 B2 B3 H. unfold x_seed_from in H. injection H as H0 H1 H2 H3.
    apply splitmix_inj in H0, H1, H2, H3; auto. now subst.
  - reflexivity.
Qed.
