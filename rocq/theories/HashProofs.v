From Coq Require Import ZArith List Bool Lia ZifyBool ZifyNat.
From Verif Require Import Mem WordModel WordLemmas HashModel HashSpec.
Import ListNotations.
Open Scope Z_scope.

(** ** hash_combine *)

Section C.
Variables w k a b : Z.
Hypothesis Hw : 0 < w.
Notation W := (2 ^ w).

Lemma Wpos : 0 < W. Proof. apply Z.pow_pos_nonneg; lia. Qed.

Lemma combine_eq h0 h1 : combine w k a b h0 h1 = Z.lxor h0 ((h1 + k + Z.shiftl h0 a + Z.shiftr h0 b) mod W).
Proof.
  unfold combine, wxor, wadd, wshl, wshr, norm. f_equal.
  rewrite Zplus_mod_idemp_l, <- Z.add_assoc, Zplus_mod_idemp_l.
  rewrite !Z.add_assoc. rewrite <- (Z.add_assoc (h1 + k) _ _), (Z.add_comm (h1 + k)).
  rewrite <- Z.add_assoc, Zplus_mod_idemp_l. f_equal. lia.
Qed.

Lemma lxor_inj x y z : Z.lxor x y = Z.lxor x z -> y = z.
Proof.
  intros H. rewrite <- (Z.lxor_0_l y), <- (Z.lxor_0_l z), <- (Z.lxor_nilpotent x), !Z.lxor_assoc. now rewrite H.
Qed.

Lemma combine_inj h0 x y : word w x -> word w y -> combine w k a b h0 x = combine w k a b h0 y -> x = y.
Proof.
  intros Hx Hy. rewrite !combine_eq. intros H. apply lxor_inj in H. unfold word in *. pose proof Wpos.
  assert (E : (x - y) mod W = 0).
  { replace (x - y) with ((x + k + Z.shiftl h0 a + Z.shiftr h0 b) - (y + k + Z.shiftl h0 a + Z.shiftr h0 b)) by lia.
    rewrite Zminus_mod, H, Z.sub_diag. apply Z.mod_0_l. lia. }
  apply Z.mod_divide in E; [|lia]. destruct E as [c E].
  set (P := 2 ^ w) in *. clearbody P. assert (c = 0) by nia. lia.
Qed.

Lemma combine_word h0 h1 : word w h0 -> word w (combine w k a b h0 h1).
Proof. intros H. unfold combine. apply wxor_word; [lia|auto|]. apply wadd_word. lia. Qed.

Lemma combine_surj h0 t : word w h0 -> word w t -> exists x, word w x /\ combine w k a b h0 x = t.
Proof.
  intros H0 Ht. set (y := Z.lxor h0 t).
  assert (Hy : word w y) by (apply (wxor_word w); auto; lia).
  exists ((y - k - Z.shiftl h0 a - Z.shiftr h0 b) mod W).
  split; [apply Z.mod_pos_bound, Wpos|].
  rewrite combine_eq. pose proof Wpos.
  rewrite <- !Z.add_assoc, Zplus_mod_idemp_l.
  replace (_ + _) with y by lia. rewrite Z.mod_small by exact Hy.
  unfold y. now rewrite <- Z.lxor_assoc, Z.lxor_nilpotent, Z.lxor_0_l.
Qed.

(** Arrays (left fold) that differ in their last element only. *)
Lemma array_last_inj n hs x y : word w x -> word w y ->
  hash_array w k a b n (hs ++ [x]) = hash_array w k a b n (hs ++ [y]) -> x = y.
Proof. unfold hash_array. rewrite !fold_left_app. cbn [fold_left]. apply combine_inj. Qed.

(** Packs (right fold) that differ in their last element only. *)
Lemma many_word hs : forall h, word w h -> Forall (word w) hs -> word w (combine_many w k a b h hs).
Proof. induction hs; intros h Hh Hs; cbn [combine_many]; [auto|]. apply combine_word; auto. Qed.

Lemma many_last_inj hs : forall h x y, word w h -> Forall (word w) hs -> word w x -> word w y ->
  combine_many w k a b h (hs ++ [x]) = combine_many w k a b h (hs ++ [y]) -> x = y.
Proof.
  induction hs as [|c hs IH]; intros h x y Hh Hs Hx Hy H; cbn [combine_many app] in H.
  - now apply combine_inj in H.
  - inversion Hs; subst. apply combine_inj in H; [| | ].
    + now apply IH in H.
    + apply many_word; auto. apply Forall_app. auto.
    + apply many_word; auto. apply Forall_app. auto.
Qed.

(** ** The accumulator is not kept apart *)

(** The accumulators 0 and 2^w-1 collide for one mixed-in value. *)
Lemma combine_acc_collide : 1 <= a < w -> 1 <= b < w ->
  exists x, word w x /\ combine w k a b 0 x = combine w k a b (W - 1) x.
Proof.
  intros Ha Hb. pose proof Wpos as P.
  set (c := (2 ^ (a - 1) - 2 ^ (w - b - 1)) mod W).
  assert (Hc : 0 <= c < W) by (apply Z.mod_pos_bound; lia).
  exists ((c - k) mod W). split; [apply Z.mod_pos_bound; lia|].
  rewrite !combine_eq. rewrite Z.shiftl_0_l, Z.shiftr_0_l, !Z.add_0_r, Z.lxor_0_l.
  rewrite Zplus_mod_idemp_l. replace (c - k + k) with c by lia. rewrite (Z.mod_small c) by lia.
  (* the right side *)
  assert (Es : Z.shiftr (W - 1) b = 2 ^ (w - b) - 1).
  { rewrite Z.shiftr_div_pow2 by lia. symmetry.
    assert (0 < 2 ^ b) by (apply Z.pow_pos_nonneg; lia).
    assert (W = 2 ^ (w - b) * 2 ^ b) by (rewrite <- Z.pow_add_r by lia; f_equal; lia).
    apply Z.div_unique with (2 ^ b - 1); [lia|]. nia. }
  rewrite Es, Z.shiftl_mul_pow2 by lia.
  set (A := 2 ^ (a - 1)) in *. set (B := 2 ^ (w - b - 1)) in *.
  assert (EA : 2 ^ a = 2 * A) by (unfold A; rewrite <- Z.pow_succ_r by lia; f_equal; lia).
  assert (EB : 2 ^ (w - b) = 2 * B) by (unfold B; rewrite <- Z.pow_succ_r by lia; f_equal; lia).
  rewrite EA, EB.
  assert (EM : ((c - k) mod W + k + (W - 1) * (2 * A) + (2 * B - 1)) mod W = W - 1 - c).
  { rewrite <- !Z.add_assoc, Zplus_mod_idemp_l.
    destruct (Z.mod_divide (A - B - c) W ltac:(lia)) as [D _].
    assert (D0 : (A - B - c) mod W = 0) by (unfold c; rewrite Zminus_mod, Zmod_mod, Z.sub_diag; apply Z.mod_0_l; lia).
    destruct (D D0) as [z Ez].
    symmetry. apply Z.mod_unique with (2 * A - 1 - 2 * z); [lia|]. nia. }
  rewrite EM.
  (* all-ones xor is complement *)
  apply Z.bits_inj'. intros n Hn. rewrite Z.lxor_spec.
  replace (W - 1) with (Z.ones w) by (rewrite Z.ones_equiv; lia).
  destruct (Z.lt_ge_cases n w) as [L|L].
  - rewrite Z.ones_spec_low by lia.
    replace (Z.ones w - c) with (Z.lxor (Z.ones w) c).
    + rewrite Z.lxor_spec, Z.ones_spec_low by lia. now destruct (Z.testbit c n).
    + rewrite Z.sub_nocarry_ldiff.
      * apply Z.bits_inj'. intros m Hm. rewrite Z.lxor_spec, Z.ldiff_spec.
        destruct (Z.lt_ge_cases m w); [rewrite Z.ones_spec_low by lia; now destruct (Z.testbit c m)|].
        rewrite Z.ones_spec_high by lia. rewrite (word_bits w (Z.lt_le_incl _ _ Hw) c m) by (auto; lia). reflexivity.
      * apply Z.bits_inj'. intros m Hm. rewrite Z.ldiff_spec, Z.bits_0.
        destruct (Z.lt_ge_cases m w); [rewrite Z.ones_spec_low by lia; now destruct (Z.testbit c m)|].
        rewrite (word_bits w (Z.lt_le_incl _ _ Hw) c m) by (auto; lia). reflexivity.
  - rewrite Z.ones_spec_high by lia. rewrite (word_bits w (Z.lt_le_incl _ _ Hw) c n) by (auto; lia).
    assert (Hd : word w (Z.ones w - c)) by (unfold word; rewrite Z.ones_equiv; lia).
    rewrite (word_bits w (Z.lt_le_incl _ _ Hw) _ n Hd) by lia. reflexivity.
Qed.

(** So, whatever the nonce, two arrays of two elements that differ in the first one collide. *)
Lemma array_first_collide : 1 <= a < w -> 1 <= b < w -> forall n, word w n ->
  exists x y z, word w x /\ word w y /\ word w z /\ x <> y /\
    hash_array w k a b n [x; z] = hash_array w k a b n [y; z].
Proof.
  intros Ha Hb n Hn. destruct (combine_acc_collide Ha Hb) as (z & Hz & E). pose proof Wpos.
  assert (2 ^ 1 <= W) by (apply Z.pow_le_mono_r; lia). change (2 ^ 1) with 2 in *.
  destruct (combine_surj n 0 Hn ltac:(unfold word; lia)) as (x & Hx & Ex).
  destruct (combine_surj n (W - 1) Hn ltac:(unfold word; lia)) as (y & Hy & Ey).
  exists x, y, z. refine (conj Hx (conj Hy (conj Hz (conj _ _)))).
  - intros ->. rewrite Ex in Ey. lia.
  - unfold hash_array. cbn [fold_left]. now rewrite Ex, Ey.
Qed.
End C.

(** ** Bytes *)

Lemma lor_disjoint A m k : 0 <= k -> 0 <= m < 2 ^ k -> Z.lor (A * 2 ^ k) m = A * 2 ^ k + m.
Proof.
  intros Hk Hm. rewrite <- Z.shiftl_mul_pow2 by lia.
  assert (L : Z.land (Z.shiftl A k) m = 0).
  { apply Z.bits_inj'. intros n Hn. rewrite Z.land_spec, Z.bits_0.
    destruct (Z.lt_ge_cases n k).
    - rewrite Z.shiftl_spec_low by lia. reflexivity.
    - replace (Z.testbit m n) with false; [apply andb_false_r|].
      symmetry. destruct (Z.eq_dec m 0) as [->|]; [apply Z.bits_0|].
      apply Z.bits_above_log2; [lia|]. apply Z.lt_le_trans with k; [|lia]. apply Z.log2_lt_pow2; lia. }
  rewrite <- Z.lxor_lor, <- Z.add_nocarry_lxor; auto.
Qed.

Lemma lor_up m A k : 0 <= k -> 0 <= m < 2 ^ k -> Z.lor m (A * 2 ^ k) = m + A * 2 ^ k.
Proof. intros. rewrite Z.lor_comm, lor_disjoint by auto. lia. Qed.

Lemma shl_byte x k : 0 <= k <= 56 -> byte x -> wshl 64 x k = x * 2 ^ k.
Proof.
  intros Hk Hx. unfold wshl, norm. rewrite Z.shiftl_mul_pow2 by lia. apply Z.mod_small.
  unfold byte in Hx. assert (2 ^ k <= 2 ^ 56) by (apply Z.pow_le_mono_r; lia).
  assert (0 < 2 ^ k) by (apply Z.pow_pos_nonneg; lia).
  change (2 ^ 64) with (256 * 2 ^ 56). nia.
Qed.

Lemma le_bound l : Forall byte l -> 0 <= le l < 256 ^ Z.of_nat (length l).
Proof.
  induction l as [|b l IH]; intros H; [cbn; lia|]. inversion H; subst. specialize (IH H3).
  cbn [le length]. rewrite Nat2Z.inj_succ, Z.pow_succ_r by lia. unfold byte in *. lia.
Qed.

Lemma le_app l1 l2 : le (l1 ++ l2) = le l1 + 256 ^ Z.of_nat (length l1) * le l2.
Proof.
  induction l1 as [|b l IH]; [cbn [app le length]; change (256 ^ Z.of_nat 0) with 1; lia|].
  cbn [app le length]. rewrite IH, Nat2Z.inj_succ, Z.pow_succ_r by lia. lia.
Qed.

Lemma lor8 b0 b1 b2 b3 b4 b5 b6 b7 :
  byte b0 -> byte b1 -> byte b2 -> byte b3 -> byte b4 -> byte b5 -> byte b6 -> byte b7 ->
  wor (wor (wor (wor b0 (wor (wshl 64 b1 8) (wshl 64 b2 16)))
                (wor (wshl 64 b3 24) (wshl 64 b4 32)))
           (wor (wshl 64 b5 40) (wshl 64 b6 48))) (wshl 64 b7 56)
  = le [b0; b1; b2; b3; b4; b5; b6; b7].
Proof.
  intros H0 H1 H2 H3 H4 H5 H6 H7. rewrite !shl_byte by (auto; lia). unfold wor. unfold byte in *.
  rewrite !Z.lor_assoc. rewrite (lor_up b0 b1 8) by lia.
  rewrite (lor_up _ b2 16) by lia. rewrite (lor_up _ b3 24) by lia. rewrite (lor_up _ b4 32) by lia.
  rewrite (lor_up _ b5 40) by lia. rewrite (lor_up _ b6 48) by lia. rewrite (lor_up _ b7 56) by lia.
  cbn [le]. lia.
Qed.

Lemma rd_app pre x post i : i = Z.of_nat (length pre) -> rd (pre ++ x :: post) i = Ok x.
Proof.
  intros ->. unfold rd. replace (Z.of_nat (length pre) <? 0) with false by lia.
  rewrite Nat2Z.id, nth_error_app2 by lia. now rewrite Nat.sub_diag.
Qed.

Lemma rd_in pre w8 post i j x : i = Z.of_nat (length pre) + Z.of_nat j -> nth_error w8 j = Some x ->
  rd (pre ++ w8 ++ post) i = Ok x.
Proof.
  intros -> E. unfold rd. replace (_ <? 0) with false by lia.
  assert (j < length w8)%nat by (apply nth_error_Some; congruence).
  rewrite nth_error_app2 by lia. replace (_ - _)%nat with j by lia.
  now rewrite nth_error_app1, E by lia.
Qed.

Lemma u8to64_spec pre w8 post i : i = Z.of_nat (length pre) -> length w8 = 8%nat -> Forall byte w8 ->
  u8to64 (pre ++ w8 ++ post) i = Ok (le w8).
Proof.
  intros Hi L F.
  destruct w8 as [|b0 [|b1 [|b2 [|b3 [|b4 [|b5 [|b6 [|b7 [|]]]]]]]]]; try discriminate L.
  assert (R : forall j x, nth_error [b0; b1; b2; b3; b4; b5; b6; b7] j = Some x ->
     rd (pre ++ [b0; b1; b2; b3; b4; b5; b6; b7] ++ post) (i + Z.of_nat j) = Ok x).
  { intros j x E. eapply rd_in; [|exact E]. lia. }
  unfold u8to64.
  pose proof (R 0%nat b0 eq_refl) as R0. change (Z.of_nat 0) with 0 in R0. rewrite Z.add_0_r in R0.
  pose proof (R 1%nat b1 eq_refl : rd _ (i + 1) = Ok b1) as R1.
  pose proof (R 2%nat b2 eq_refl : rd _ (i + 2) = Ok b2) as R2.
  pose proof (R 3%nat b3 eq_refl : rd _ (i + 3) = Ok b3) as R3.
  pose proof (R 4%nat b4 eq_refl : rd _ (i + 4) = Ok b4) as R4.
  pose proof (R 5%nat b5 eq_refl : rd _ (i + 5) = Ok b5) as R5.
  pose proof (R 6%nat b6 eq_refl : rd _ (i + 6) = Ok b6) as R6.
  pose proof (R 7%nat b7 eq_refl : rd _ (i + 7) = Ok b7) as R7.
  rewrite R0, R1, R2, R3, R4, R5, R6, R7. cbn [bind]. f_equal.
  repeat match goal with H : Forall byte (_ :: _) |- _ => inversion H; clear H; subst end.
  now apply lor8.
Qed.

(** The tail: bytes are added below what is already there. *)
Lemma sip_tail_spec t : forall p ni pre A n, p = pre ++ t -> ni = Z.of_nat (length pre) -> Forall byte t ->
  (length t <= n)%nat -> (n <= 7)%nat ->
  sip_tail n (Z.of_nat (length t)) ni p (A * 256 ^ Z.of_nat (length t)) =
    Ok (A * 256 ^ Z.of_nat (length t) + le t).
Proof.
  intros p ni pre A n Ep Hni Ft Hn Hn7.
  (* skip the cases above *)
  assert (S0 : forall n B left, Z.of_nat (length t) = left -> (length t <= n)%nat ->
     sip_tail n left ni p B = sip_tail (length t) left ni p B).
  { clear - t. intros n B left Hl Hn. induction n as [|n IH]; [replace (length t) with 0%nat by lia; reflexivity|].
    destruct (Nat.eq_dec (S n) (length t)) as [->|]; [reflexivity|].
    cbn [sip_tail]. replace (Z.of_nat (S n) <=? left) with false by lia. cbn [bind]. apply IH. lia. }
  rewrite S0 by lia. clear S0.
  (* process downwards: prefix u of t with the rest already in the accumulator *)
  assert (G : forall u v B, t = u ++ v -> (length u <= 7)%nat ->
     sip_tail (length u) (Z.of_nat (length t)) ni p (B * 256 ^ Z.of_nat (length u)) =
       Ok (B * 256 ^ Z.of_nat (length u) + le u)).
  { induction u as [|x u IH] using rev_ind; intros v B E L.
    - cbn [length sip_tail le]. f_equal. lia.
    - rewrite app_length in *. cbn [length] in *. rewrite Nat.add_1_r in *. cbn [sip_tail].
      assert (Lt : (length u < length t)%nat) by (rewrite E, !app_length; cbn [length]; lia).
      replace (Z.of_nat (S (length u)) <=? Z.of_nat (length t)) with true by lia.
      assert (Fx : byte x).
      { rewrite Forall_forall in Ft. apply Ft. rewrite E. apply in_or_app. left. apply in_or_app. right. now left. }
      assert (Er : rd p (ni + Z.of_nat (length u)) = Ok x).
      { rewrite Ep, <- (app_nil_r t). apply (rd_in pre t [] _ (length u)); [lia|].
        rewrite E, <- app_assoc, nth_error_app2, Nat.sub_diag by lia. reflexivity. }
      rewrite Er. cbn [bind].
      rewrite shl_byte by (auto; lia). unfold wor.
      assert (P256 : 2 ^ (8 * Z.of_nat (length u)) = 256 ^ Z.of_nat (length u)) by (rewrite Z.pow_mul_r by lia; reflexivity).
      assert (P0 : 0 < 256 ^ Z.of_nat (length u)) by (apply Z.pow_pos_nonneg; lia).
      assert (EL : Z.lor (B * 256 ^ Z.of_nat (S (length u))) (x * 2 ^ (8 * Z.of_nat (length u))) =
                   (B * 256 + x) * 256 ^ Z.of_nat (length u)).
      { replace (256 ^ Z.of_nat (S (length u))) with (2 ^ (8 * Z.of_nat (length u) + 8)).
        - rewrite lor_disjoint.
          + rewrite Z.pow_add_r by lia. rewrite P256. change (2 ^ 8) with 256. lia.
          + lia.
          + rewrite Z.pow_add_r by lia. rewrite P256. unfold byte in Fx. change (2 ^ 8) with 256. nia.
        - rewrite Nat2Z.inj_succ, Z.pow_succ_r by lia. rewrite Z.pow_add_r by lia. rewrite P256. change (2 ^ 8) with 256. lia. }
      rewrite EL. rewrite (IH (x :: v)) by (lia || (rewrite E, <- app_assoc; reflexivity)).
      f_equal. rewrite le_app. cbn [le]. rewrite Nat2Z.inj_succ, Z.pow_succ_r by lia. lia. }
  apply (G t []); [now rewrite app_nil_r|lia].
Qed.

(** ** Rounds *)

Definition tup (s : sip) : Z * Z * Z * Z := (v0 s, v1 s, v2 s, v3 s).
Definition sword (s : sip) : Prop := word 64 (v0 s) /\ word 64 (v1 s) /\ word 64 (v2 s) /\ word 64 (v3 s).

Lemma rot_eq x k : 0 < k < 64 -> word 64 x -> wrotl 64 x k = rot x k.
Proof.
  intros Hk Hx. unfold wrotl, wshl, wshr, norm, rot, M64.
  rewrite Z.shiftl_mul_pow2, Z.shiftr_div_pow2 by lia. unfold word in Hx.
  assert (E64 : 2 ^ 64 = 2 ^ (64 - k) * 2 ^ k) by (rewrite <- Z.pow_add_r by lia; f_equal; lia).
  assert (P1 : 0 < 2 ^ k) by (apply Z.pow_pos_nonneg; lia).
  assert (P2 : 0 < 2 ^ (64 - k)) by (apply Z.pow_pos_nonneg; lia).
  rewrite E64 at 1 2. rewrite Z.mul_mod_distr_r by lia.
  apply lor_disjoint; [lia|]. split; [apply Z.div_pos; lia|].
  apply Z.div_lt_upper_bound; lia.
Qed.

Lemma rot_word x k : 0 < k < 64 -> word 64 x -> word 64 (rot x k).
Proof. intros Hk Hx. rewrite <- rot_eq by auto. apply wrotl_word; auto; lia. Qed.
Lemma plus_word x y : word 64 (plus x y).
Proof. apply Z.mod_pos_bound. reflexivity. Qed.
Lemma lx_word x y : word 64 x -> word 64 y -> word 64 (Z.lxor x y).
Proof. intros. apply (wxor_word 64); auto; lia. Qed.

Ltac sw := repeat (apply rot_word; [lia|] || apply plus_word || apply lx_word || assumption).

Lemma sipround_spec s : sword s -> tup (sipround s) = SipRound (tup s) /\ sword (sipround s).
Proof.
  destruct s as [a b c d]. intros (Ha & Hb & Hc & Hd). cbn [v0 v1 v2 v3] in *.
  unfold sipround, tup, SipRound. cbn [v0 v1 v2 v3]. cbv zeta.
  change (wadd 64) with plus. change wxor with Z.lxor.
  assert (W1 : word 64 (Z.lxor (rot b 13) (plus a b))) by sw.
  assert (W2 : word 64 (Z.lxor (rot d 16) (plus c d))) by sw.
  rewrite (rot_eq b 13), (rot_eq d 16) by (lia || auto).
  rewrite (rot_eq (plus a b) 32) by (lia || apply plus_word).
  rewrite (rot_eq _ 21 ltac:(lia) W2). rewrite (rot_eq _ 17 ltac:(lia) W1).
  rewrite (rot_eq _ 32 ltac:(lia) (plus_word _ _)).
  split; [reflexivity|]. unfold sword. cbn [v0 v1 v2 v3].
  refine (conj _ (conj _ (conj _ _))); sw.
Qed.

Lemma rounds_spec n : forall s, sword s -> tup (rounds n s) = Rounds n (tup s) /\ sword (rounds n s).
Proof.
  induction n as [|n IH]; intros s Hs; [split; auto|]. cbn [rounds].
  destruct (sipround_spec s Hs) as [E W]. destruct (IH _ W) as [E2 W2]. split; [|exact W2].
  rewrite E2, E. unfold Rounds. clear. 
  assert (G : forall n x, Nat.iter n SipRound (SipRound x) = SipRound (Nat.iter n SipRound x)).
  { clear. induction n; intros x; [reflexivity|]. cbn [Nat.iter nat_rect]. unfold Nat.iter in IHn. now rewrite IHn. }
  apply G.
Qed.

Lemma absorb_spec s m : sword s -> word 64 m -> tup (absorb s m) = Compress (tup s) m /\ sword (absorb s m).
Proof.
  destruct s as [a b c d]. intros (H0 & H1 & H2 & H3) Hm. cbn [v0 v1 v2 v3] in *.
  assert (Hs' : sword (mkS a b c (Z.lxor d m))) by (refine (conj H0 (conj H1 (conj H2 _))); now apply lx_word).
  destruct (rounds_spec 2 _ Hs') as [E W].
  unfold absorb, Compress, wxor. cbn [v0 v1 v2 v3 tup].
  unfold tup at 2 in E. cbn [v0 v1 v2 v3] in E. rewrite <- E. clear E.
  destruct (rounds 2 (mkS a b c (Z.lxor d m))) as [a' b' c' d']. destruct W as (W0 & W1 & W2 & W3).
  cbn [tup v0 v1 v2 v3] in *. split; [reflexivity|].
  refine (conj _ (conj W1 (conj W2 W3))). cbn [v0]. now apply lx_word.
Qed.

Lemma fold_cons {A B} (f : A -> B -> A) x l a : fold_left f (x :: l) a = fold_left f l (f a x).
Proof. reflexivity. Qed.
Lemma fold_last {A B} (f : A -> B -> A) x l a : fold_left f (l ++ [x]) a = f (fold_left f l a) x.
Proof. now rewrite fold_left_app. Qed.

Lemma absorb_fold ms : forall s, sword s -> Forall (word 64) ms ->
  tup (fold_left absorb ms s) = fold_left Compress ms (tup s) /\ sword (fold_left absorb ms s).
Proof.
  induction ms as [|m ms IH]; intros s Hs F; [split; auto|]. inversion F; subst. rewrite !fold_cons.
  destruct (absorb_spec s m Hs H1) as [E W]. rewrite <- E. now apply IH.
Qed.

(** ** The message loop *)

Lemma le8_word l : length l = 8%nat -> Forall byte l -> word 64 (le l).
Proof. intros L F. pose proof (le_bound l F) as H. rewrite L in H. exact H. Qed.

Lemma firstn8 (l : list Z) : (8 <= length l)%nat -> length (firstn 8 l) = 8%nat.
Proof. intros. rewrite firstn_length. lia. Qed.
Lemma Forall_firstn n (l : list Z) P : Forall P l -> Forall P (firstn n l).
Proof. intros H. rewrite Forall_forall in *. intros x Hx. apply H. rewrite <- (firstn_skipn n l). apply in_or_app. now left. Qed.
Lemma Forall_skipn n (l : list Z) P : Forall P l -> Forall P (skipn n l).
Proof. intros H. rewrite Forall_forall in *. intros x Hx. apply H. rewrite <- (firstn_skipn n l). apply in_or_app. now right. Qed.

Lemma sip_loop_spec n : forall p pre l s fin,
  p = pre ++ l -> Forall byte l -> (8 * n <= length l)%nat -> fin = Z.of_nat (length pre) + 8 * Z.of_nat n ->
  sip_loop n p (Z.of_nat (length pre)) fin s = Ok (fold_left absorb (sip_words n l) s, fin).
Proof.
  induction n as [|n IH]; intros p pre l s fin Ep F L Ef; cbn [sip_loop].
  - replace (Z.of_nat (length pre) =? fin) with true by lia. cbn [sip_words fold_left]. do 2 f_equal. lia.
  - replace (Z.of_nat (length pre) =? fin) with false by lia.
    rewrite Ep. rewrite <- (firstn_skipn 8 l) at 1.
    rewrite (u8to64_spec pre (firstn 8 l) (skipn 8 l)).
    2: reflexivity. 2: apply firstn8; lia. 2: now apply Forall_firstn.
    cbn [bind]. cbn [sip_words]. rewrite fold_cons.
    specialize (IH p (pre ++ firstn 8 l) (skipn 8 l) (absorb s (le (firstn 8 l))) fin).
    rewrite app_length, firstn8 in IH by lia. rewrite Nat2Z.inj_add in IH.
    change (Z.of_nat 8) with 8 in IH. rewrite <- Ep. apply IH.
    + rewrite Ep, <- app_assoc, firstn_skipn. reflexivity.
    + now apply Forall_skipn.
    + rewrite skipn_length. lia.
    + lia.
Qed.

Lemma skipn_add {A} a b (l : list A) : skipn a (skipn b l) = skipn (b + a) l.
Proof. revert l. induction b as [|b IH]; intros l; [reflexivity|]. destruct l; [now rewrite !skipn_nil|]. cbn. apply IH. Qed.

Lemma sip_words_app n m : forall l, (8 * n <= length l)%nat ->
  sip_words (n + m) l = sip_words n l ++ sip_words m (skipn (8 * n) l).
Proof.
  induction n as [|n IH]; intros l L; [reflexivity|]. cbn [Nat.add sip_words app].
  rewrite IH by (rewrite skipn_length; lia). f_equal. f_equal. f_equal.
  rewrite skipn_add. f_equal. lia.
Qed.

Lemma sip_words_prefix n : forall l1 l2, (8 * n <= length l1)%nat -> sip_words n (l1 ++ l2) = sip_words n l1.
Proof.
  induction n as [|n IH]; intros l1 l2 L; [reflexivity|]. cbn [sip_words].
  rewrite firstn_app, skipn_app. replace (8 - length l1)%nat with 0%nat by lia. rewrite firstn_O, skipn_O.
  rewrite app_nil_r. rewrite IH by (rewrite skipn_length; lia). reflexivity.
Qed.

Lemma le_zeros n : le (repeat 0 n) = 0.
Proof. induction n as [|n IH]; [reflexivity|]. cbn [repeat le]. now rewrite IH. Qed.

(** The words of a message: whole blocks, then the last partial one with the length on top. *)
Lemma sip_message_split msg :
  let q := (length msg / 8)%nat in
  let t := skipn (8 * q) msg in
  sip_message msg = sip_words q msg ++ [le t + (Z.of_nat (length msg) mod 256) * 256 ^ 7].
Proof.
  cbv zeta. set (L := length msg). set (q := (L / 8)%nat).
  pose proof (Nat.div_mod L 8 ltac:(lia)) as D. pose proof (Nat.mod_upper_bound L 8 ltac:(lia)) as M. fold q in D.
  unfold sip_message. fold L. fold q. rewrite sip_words_app.
  2: { unfold sip_pad. rewrite app_length. fold L. lia. }
  unfold sip_pad. fold L. rewrite sip_words_prefix by (fold L; lia). f_equal.
  cbn [sip_words]. f_equal.
  rewrite skipn_app. replace (8 * q - length msg)%nat with 0%nat by (fold L; lia). rewrite skipn_O.
  set (t := skipn (8 * q) msg).
  assert (Lt : length t = (L mod 8)%nat) by (unfold t; rewrite skipn_length; fold L; lia).
  rewrite firstn_all2.
  2: { rewrite !app_length, repeat_length, Lt. cbn [length]. lia. }
  rewrite !le_app, le_zeros, repeat_length, Lt. cbn [le].
  replace (256 ^ 7) with (256 ^ Z.of_nat (L mod 8) * 256 ^ Z.of_nat (7 - L mod 8)).
  - ring.
  - rewrite <- Z.pow_add_r by lia. f_equal. lia.
Qed.

Lemma byte_length L : 0 <= L -> wshl 64 L 56 = (L mod 256) * 256 ^ 7.
Proof.
  intros H. unfold wshl, norm. rewrite Z.shiftl_mul_pow2 by lia.
  change (2 ^ 64) with (256 * 2 ^ 56). rewrite Z.mul_mod_distr_r by lia. reflexivity.
Qed.

Lemma land7 L : Z.land L 7 = L mod 8.
Proof. change 7 with (Z.ones 3). rewrite Z.land_ones by lia. reflexivity. Qed.

Lemma u64to8_spec x : word 64 x -> u64to8 x = le_bytes 8 x.
Proof.
  intros Hx. unfold u64to8, u32to8, norm, wshr. cbn [app le_bytes].
  rewrite !Z.shiftr_div_pow2 by lia. unfold word in Hx.
  change 256 with (2 ^ 8).
  assert (M : forall y, (y mod 2 ^ 32) mod 2 ^ 8 = y mod 2 ^ 8).
  { intros y. symmetry. apply Znumtheory.Zmod_div_mod; try lia. exists (2 ^ 24). reflexivity. }
  assert (D : forall y k, 0 <= k -> (k = 8 \/ k = 16 \/ k = 24) -> (y mod 2 ^ 32 / 2 ^ k) mod 2 ^ 8 = (y / 2 ^ k) mod 2 ^ 8).
  { intros y k _ Hk.
    assert (E : y / 2 ^ k = y mod 2 ^ 32 / 2 ^ k + (y / 2 ^ 32) * 2 ^ (32 - k)).
    { rewrite (Z.div_mod y (2 ^ 32) ltac:(lia)) at 1.
      replace (2 ^ 32 * (y / 2 ^ 32) + y mod 2 ^ 32) with (y mod 2 ^ 32 + (y / 2 ^ 32 * 2 ^ (32 - k)) * 2 ^ k).
      - apply Z.div_add. destruct Hk as [->|[->| ->]]; lia.
      - replace (2 ^ 32) with (2 ^ (32 - k) * 2 ^ k) at 3; [ring|].
        rewrite <- Z.pow_add_r by lia. f_equal. lia. }
    rewrite E. replace (2 ^ (32 - k)) with (2 ^ (24 - k) * 2 ^ 8).
    - rewrite Z.mul_assoc. symmetry. apply Z.mod_add. lia.
    - rewrite <- Z.pow_add_r by lia. f_equal. lia. }
  rewrite !M, !D by lia.
  rewrite !Z.div_div by lia.
  change (2 ^ 32 * 2 ^ 8) with (2 ^ 40). change (2 ^ 32 * 2 ^ 16) with (2 ^ 48). change (2 ^ 32 * 2 ^ 24) with (2 ^ 56).
  rewrite <- !Z.pow_add_r by lia. reflexivity.
Qed.

Lemma land_small L : (Z.land (Z.of_nat L) 7) = Z.of_nat (L mod 8).
Proof. rewrite land7. rewrite Nat2Z.inj_mod. reflexivity. Qed.

Lemma siphash_common msg s0 : Forall byte msg -> sword s0 ->
  exists s, bind (sip_loop (Z.to_nat (Z.of_nat (length msg) / 8)) msg 0
                   (Z.of_nat (length msg) - Z.of_nat (length msg) mod 8) s0)
        (fun '(s, ni) => bind (sip_tail 7 (Z.land (Z.of_nat (length msg)) 7) ni msg (wshl 64 (Z.of_nat (length msg)) 56))
                         (fun b => Ok (absorb s b))) = Ok s /\
    tup s = fold_left Compress (sip_message msg) (tup s0) /\ sword s.
Proof.
  intros F Hs0. set (L := length msg). set (q := (L / 8)%nat).
  pose proof (Nat.div_mod L 8 ltac:(lia)) as D. pose proof (Nat.mod_upper_bound L 8 ltac:(lia)) as M. fold q in D.
  assert (Eq : Z.to_nat (Z.of_nat L / 8) = q) by (unfold q; lia).
  assert (Ef : Z.of_nat L - Z.of_nat L mod 8 = 8 * Z.of_nat q) by lia.
  rewrite Eq, Ef, land_small.
  pose proof (sip_loop_spec q msg [] msg s0 (8 * Z.of_nat q) eq_refl F ltac:(fold L; lia) eq_refl) as EL.
  change (Z.of_nat (length [])) with 0 in EL. rewrite EL. cbn [bind].
  set (t := skipn (8 * q) msg).
  assert (Lt : length t = (L mod 8)%nat) by (unfold t; rewrite skipn_length; fold L; lia).
  rewrite byte_length by lia.
  assert (P7 : 256 ^ 7 = 256 ^ Z.of_nat (7 - length t) * 256 ^ Z.of_nat (length t)).
  { rewrite <- Z.pow_add_r by lia. f_equal. lia. }
  rewrite P7, Z.mul_assoc, <- Lt.
  assert (Ft : Forall byte t) by (now apply Forall_skipn).
  rewrite (sip_tail_spec t msg _ (firstn (8 * q) msg)).
  2: unfold t; now rewrite firstn_skipn.
  2: rewrite firstn_length; fold L; lia.
  2: exact Ft. 2: lia. 2: lia.
  cbn [bind]. eexists. split; [reflexivity|].
  assert (Em : sip_message msg = sip_words q msg ++ [Z.of_nat L mod 256 * 256 ^ Z.of_nat (7 - length t) * 256 ^ Z.of_nat (length t) + le t]).
  { pose proof (sip_message_split msg) as S. cbv zeta in S. fold L in S. fold q in S. fold t in S. rewrite S.
    f_equal. f_equal. rewrite P7. ring. }
  rewrite Em, fold_last.
  assert (Fw : Forall (word 64) (sip_words q msg)).
  { clear - F D. assert (G : forall n l, Forall byte l -> (8 * n <= length l)%nat -> Forall (word 64) (sip_words n l)).
    { induction n as [|n IH]; intros l Fl Ll; cbn [sip_words]; constructor.
      - apply le8_word; [apply firstn8; lia|now apply Forall_firstn].
      - apply IH; [now apply Forall_skipn|rewrite skipn_length; lia]. }
    apply G; auto. fold L. lia. }
  destruct (absorb_fold _ s0 Hs0 Fw) as [E1 W1]. rewrite <- E1.
  apply absorb_spec; [exact W1|].
  pose proof (le_bound t Ft) as Bt. pose proof (Z.mod_pos_bound (Z.of_nat L) 256 ltac:(lia)) as BL.
  rewrite <- Z.mul_assoc, <- P7. unfold word.
  assert (256 ^ Z.of_nat (length t) <= 256 ^ 7) by (apply Z.pow_le_mono_r; lia).
  change (2 ^ 64) with (256 * 256 ^ 7). nia.
Qed.

Lemma key_words key : length key = 16%nat -> Forall byte key ->
  u8to64 key 0 = Ok (le (firstn 8 key)) /\ u8to64 key 8 = Ok (le (skipn 8 key)) /\
  word 64 (le (firstn 8 key)) /\ word 64 (le (skipn 8 key)).
Proof.
  intros L F.
  assert (L1 : length (firstn 8 key) = 8%nat) by (apply firstn8; lia).
  assert (L2 : length (skipn 8 key) = 8%nat) by (rewrite skipn_length; lia).
  refine (conj _ (conj _ (conj _ _))).
  - rewrite <- (firstn_skipn 8 key) at 1. apply (u8to64_spec [] _ (skipn 8 key)); auto. now apply Forall_firstn.
  - rewrite <- (firstn_skipn 8 key) at 1. rewrite <- (app_nil_r (skipn 8 key)) at 1.
    apply (u8to64_spec (firstn 8 key) _ []); auto; [now rewrite L1|]. now apply Forall_skipn.
  - apply le8_word; auto. now apply Forall_firstn.
  - apply le8_word; auto. now apply Forall_skipn.
Qed.

Lemma const_word c : (0 <=? c) && (c <? 2 ^ 64) = true -> word 64 c.
Proof. unfold word. lia. Qed.

Lemma out_spec s : sword s -> sip_out s = le_bytes 8 (Fold4 (tup s)) /\ word 64 (Fold4 (tup s)).
Proof.
  intros (H0 & H1 & H2 & H3). unfold tup, Fold4, sip_out, wxor.
  assert (W : word 64 (Z.lxor (Z.lxor (Z.lxor (v0 s) (v1 s)) (v2 s)) (v3 s))) by sw.
  split; [|exact W]. now apply u64to8_spec.
Qed.

Lemma final_spec s outlen : sword s ->
  tup (sip_final s outlen) =
    (let '(a, b, c, d) := tup s in Rounds 4 (a, b, Z.lxor c (if outlen =? 16 then 0xee else 0xff), d)) /\
  sword (sip_final s outlen).
Proof.
  destruct s as [a b c d]. intros (H0 & H1 & H2 & H3). cbn [v0 v1 v2 v3] in *. unfold sip_final. cbn [v0 v1 v2 v3 tup].
  set (x := if outlen =? 16 then _ else _).
  assert (Hx : word 64 x) by (unfold x; destruct (outlen =? 16); apply const_word; reflexivity). clearbody x.
  assert (H : sword (mkS a b (wxor c x) d)) by (refine (conj H0 (conj H1 (conj _ H3))); now apply lx_word).
  exact (rounds_spec 4 _ H).
Qed.

Lemma final2_spec s : sword s ->
  tup (sip_final2 s) = (let '(a, b, c, d) := tup s in Rounds 4 (a, Z.lxor b 0xdd, c, d)) /\ sword (sip_final2 s).
Proof.
  destruct s as [a b c d]. intros (H0 & H1 & H2 & H3). cbn [v0 v1 v2 v3] in *. unfold sip_final2. cbn [v0 v1 v2 v3 tup].
  assert (H : sword (mkS a (wxor b 0xdd) c d)).
  { refine (conj H0 (conj _ (conj H2 H3))). apply lx_word; [exact H1|]. apply const_word. reflexivity. }
  exact (rounds_spec 4 _ H).
Qed.

Lemma setup_word k0 k1 n : word 64 k0 -> word 64 k1 -> sword (sip_setup k0 k1 n).
Proof.
  intros H0 H1. unfold sword, sip_setup. cbn [v0 v1 v2 v3]. unfold wxor.
  refine (conj _ (conj _ (conj _ _))); [| destruct (n =? 16) | |]; repeat apply lx_word; auto; apply const_word; reflexivity.
Qed.

(** Both output lengths at once. *)
Lemma siphash_run key msg outlen : length key = 16%nat -> Forall byte key -> Forall byte msg ->
  exists s, sword s /\
    tup s = fold_left Compress (sip_message msg)
              (tup (sip_setup (le (firstn 8 key)) (le (skipn 8 key)) outlen)) /\
    siphash msg (Z.of_nat (length msg)) key outlen =
      (if outlen =? 8 then Ok (sip_out (sip_final s outlen))
       else Ok (sip_out (sip_final s outlen) ++ sip_out (sip_final2 (sip_final s outlen)))).
Proof.
  intros Lk Fk Fm. destruct (key_words key Lk Fk) as (E0 & E1 & W0 & W1).
  unfold siphash. rewrite E0, E1. cbn [bind].
  set (s0 := sip_setup _ _ _).
  assert (Hs0 : sword s0) by (apply setup_word; auto). clearbody s0.
  destruct (siphash_common msg s0 Fm Hs0) as (s & Es & Et & Ws). exists s.
  split; [exact Ws|]. split; [exact Et|].
  destruct (sip_loop _ msg 0 _ s0) as [[s1 ni]|f]; [|discriminate]. cbn [bind] in *.
  destruct (sip_tail 7 _ ni msg _) as [b|f]; [|discriminate]. cbn [bind] in *. injection Es as Es. now rewrite Es.
Qed.

Lemma siphash_64 key msg : length key = 16%nat -> Forall byte key -> Forall byte msg ->
  siphash msg (Z.of_nat (length msg)) key 8 = Ok (le_bytes 8 (SipHash64 key msg)).
Proof.
  intros Lk Fk Fm. destruct (siphash_run key msg 8 Lk Fk Fm) as (s & Ws & Et & E). rewrite E.
  change (8 =? 8) with true. cbn iota.
  destruct (final_spec s 8 Ws) as [E4 W4]. destruct (out_spec _ W4) as [Eo _]. rewrite Eo, E4. f_equal. f_equal.
  unfold SipHash64. change (tup (sip_setup _ _ 8)) with (SipInit key) in Et. rewrite <- Et.
  destruct (tup s) as [[[a b] c] d]. reflexivity.
Qed.

Lemma sip128_common key msg : length key = 16%nat -> Forall byte key -> Forall byte msg ->
  siphash msg (Z.of_nat (length msg)) key 16 =
    Ok (le_bytes 8 (fst (SipHash128 key msg)) ++ le_bytes 8 (snd (SipHash128 key msg))) /\
  word 64 (fst (SipHash128 key msg)) /\ word 64 (snd (SipHash128 key msg)).
Proof.
  intros Lk Fk Fm. destruct (siphash_run key msg 16 Lk Fk Fm) as (s & Ws & Et & E). rewrite E.
  change (16 =? 8) with false. cbn iota.
  destruct (final_spec s 16 Ws) as [E4 W4]. destruct (out_spec _ W4) as [Eo Wo].
  destruct (final2_spec _ W4) as [E8 W8]. destruct (out_spec _ W8) as [Eo2 Wo2]. rewrite Eo, Eo2.
  assert (G : SipHash128 key msg = (Fold4 (tup (sip_final s 16)), Fold4 (tup (sip_final2 (sip_final s 16))))).
  { unfold SipHash128. unfold SipInit. cbv zeta. cbn iota beta.
    unfold sip_setup in Et. change (16 =? 16) with true in Et, E4. cbn iota in Et, E4. unfold tup at 2 in Et. cbn [v0 v1 v2 v3] in Et. unfold wxor in Et.
    rewrite <- Et. rewrite E8, E4. destruct (tup s) as [[[a b] c] d]. cbn iota beta.
    destruct (Rounds 4 (a, b, Z.lxor c 238, d)) as [[[a' b'] c'] d']. reflexivity. }
  rewrite G. cbn [fst snd]. auto.
Qed.

Lemma siphash_128 key msg : length key = 16%nat -> Forall byte key -> Forall byte msg ->
  siphash msg (Z.of_nat (length msg)) key 16 =
    Ok (le_bytes 8 (fst (SipHash128 key msg)) ++ le_bytes 8 (snd (SipHash128 key msg))).
Proof. intros. now apply sip128_common. Qed.

Lemma sip128_word key msg : length key = 16%nat -> Forall byte key -> Forall byte msg ->
  word 64 (fst (SipHash128 key msg)) /\ word 64 (snd (SipHash128 key msg)).
Proof. intros. now apply sip128_common. Qed.

(** ** The round is invertible *)

Definition unround (s : Z * Z * Z * Z) : Z * Z * Z * Z :=
  let '(a, b, c, d) := s in
  let c := rot c 32 in
  let d := Z.lxor d a in let b := Z.lxor b c in
  let d := rot d 43 in let b := rot b 47 in
  let a := (a - d) mod M64 in let c := (c - b) mod M64 in
  let a := rot a 32 in
  let d := Z.lxor d c in let b := Z.lxor b a in
  let d := rot d 48 in let b := rot b 51 in
  let c := (c - d) mod M64 in let a := (a - b) mod M64 in
  (a, b, c, d).

Lemma rot_rot x k : 0 < k < 64 -> word 64 x -> rot (rot x k) (64 - k) = x.
Proof.
  intros Hk Hx. rewrite <- (rot_eq x k) by auto.
  rewrite <- rot_eq by (lia || (apply wrotl_word; auto; lia)). apply wrotl_inv; auto; lia.
Qed.
Lemma plus_minus x y : word 64 x -> word 64 y -> (plus x y - y) mod M64 = x.
Proof.
  intros Hx Hy. unfold plus. rewrite Zminus_mod_idemp_l. replace (x + y - y) with x by lia.
  apply Z.mod_small. exact Hx.
Qed.
Lemma lx_cancel x y : Z.lxor (Z.lxor x y) y = x.
Proof. now rewrite Z.lxor_assoc, Z.lxor_nilpotent, Z.lxor_0_r. Qed.

Lemma unround_round a b c d : word 64 a -> word 64 b -> word 64 c -> word 64 d ->
  unround (SipRound (a, b, c, d)) = (a, b, c, d).
Proof.
  intros Ha Hb Hc Hd. unfold SipRound, unround. cbv zeta.
  set (a1 := plus a b). set (c1 := plus c d). set (b2 := Z.lxor (rot b 13) a1). set (d2 := Z.lxor (rot d 16) c1).
  assert (Wa1 : word 64 a1) by apply plus_word. assert (Wc1 : word 64 c1) by apply plus_word.
  assert (Wb2 : word 64 b2) by (unfold b2; sw). assert (Wd2 : word 64 d2) by (unfold d2; sw).
  set (c3 := plus c1 b2). set (a3 := plus (rot a1 32) d2).
  assert (R32 : forall x, word 64 x -> rot (rot x 32) 32 = x) by (intros; now apply (rot_rot x 32)).
  rewrite (R32 c3) by apply plus_word.
  rewrite !lx_cancel. rewrite (rot_rot _ 21 ltac:(lia) Wd2 : rot _ 43 = _), (rot_rot _ 17 ltac:(lia) Wb2 : rot _ 47 = _).
  unfold a3, c3. rewrite plus_minus by (auto; sw). rewrite (plus_minus c1 b2) by auto.
  rewrite (R32 a1) by auto.
  unfold d2, b2. rewrite !lx_cancel. rewrite (rot_rot _ 16 ltac:(lia) Hd : rot _ 48 = _), (rot_rot _ 13 ltac:(lia) Hb : rot _ 51 = _). unfold a1, c1. now rewrite !plus_minus by auto.
Qed.

Lemma round_inj a b c d a' b' c' d' :
  word 64 a -> word 64 b -> word 64 c -> word 64 d -> word 64 a' -> word 64 b' -> word 64 c' -> word 64 d' ->
  sipround (mkS a b c d) = sipround (mkS a' b' c' d') -> (a, b, c, d) = (a', b', c', d').
Proof.
  intros. rewrite <- (unround_round a b c d), <- (unround_round a' b' c' d') by auto. f_equal.
  destruct (sipround_spec (mkS a b c d)) as [E _]; [unfold sword; auto|].
  destruct (sipround_spec (mkS a' b' c' d')) as [E' _]; [unfold sword; auto|].
  unfold tup in E at 2, E' at 2. cbn [v0 v1 v2 v3] in E, E'. rewrite <- E, <- E'. now f_equal.
Qed.

(** ** hash_bytes at 128 bits *)

Lemma le_bytes_spec n : forall x, length (le_bytes n x) = n /\ Forall byte (le_bytes n x) /\
  (0 <= x < 256 ^ Z.of_nat n -> le (le_bytes n x) = x).
Proof.
  induction n as [|n IH]; intros x; cbn [le_bytes length le].
  - repeat split; auto. change (256 ^ Z.of_nat 0) with 1. lia.
  - destruct (IH (x / 256)) as (L & F & E). split; [now rewrite L|]. split.
    + constructor; auto. apply Z.mod_pos_bound. lia.
    + rewrite Nat2Z.inj_succ, Z.pow_succ_r by lia. intros Hx.
      rewrite E by (split; [apply Z.div_pos; lia|apply Z.div_lt_upper_bound; lia]).
      pose proof (Z.div_mod x 256). lia.
Qed.

Lemma hash_bytes128_spec nonce msg : 0 <= nonce < 2 ^ 128 -> Forall byte msg ->
  hash_bytes128 nonce msg =
    let (lo, hi) := SipHash128 (le_bytes 16 nonce) msg in Ok (lo * 2 ^ 64 + hi).
Proof.
  intros Hn Fm. unfold hash_bytes128. cbv zeta.
  assert (Ek : u64to8 (norm 64 nonce) ++ u64to8 (norm 64 (wshr nonce 64)) = le_bytes 16 nonce).
  { unfold norm, wshr. rewrite Z.shiftr_div_pow2 by lia.
    rewrite !u64to8_spec by (apply Z.mod_pos_bound; lia).
    assert (S : forall n x y, 0 <= y -> 0 <= x < 256 ^ Z.of_nat n -> forall m,
       le_bytes n x ++ le_bytes m y = le_bytes (n + m) (x + 256 ^ Z.of_nat n * y)).
    { clear. induction n as [|n IH]; intros x y Hy Hx m.
      - change (256 ^ Z.of_nat 0) with 1 in *. cbn [le_bytes app Nat.add]. f_equal. lia.
      - rewrite Nat2Z.inj_succ, Z.pow_succ_r in * by lia. cbn [le_bytes app Nat.add].
        rewrite IH; [|exact Hy|split; [apply Z.div_pos; lia|apply Z.div_lt_upper_bound; lia]].
        assert (Em : x + 256 * 256 ^ Z.of_nat n * y = x + (256 ^ Z.of_nat n * y) * 256) by ring.
        rewrite Em, Z.mod_add, Z.div_add by lia. reflexivity. }
    rewrite S.
    - f_equal. rewrite (Z.mod_small (nonce / 2 ^ 64)).
      + change (256 ^ Z.of_nat 8) with (2 ^ 64). pose proof (Z.div_mod nonce (2 ^ 64)). lia.
      + split; [apply Z.div_pos; lia|]. apply Z.div_lt_upper_bound; [lia|].
        change (2 ^ 64 * 2 ^ 64) with (2 ^ 128). lia.
    - apply Z.mod_pos_bound. lia.
    - change (256 ^ Z.of_nat 8) with (2 ^ 64). apply Z.mod_pos_bound. lia. }
  rewrite Ek. destruct (le_bytes_spec 16 nonce) as (Lk & Fk & _).
  rewrite siphash_128 by auto. cbn [bind].
  destruct (sip128_word (le_bytes 16 nonce) msg Lk Fk Fm) as [W0 W1].
  destruct (SipHash128 (le_bytes 16 nonce) msg) as [lo hi]. cbn [fst snd] in *.
  destruct (le_bytes_spec 8 lo) as (L0 & F0 & D0). destruct (le_bytes_spec 8 hi) as (L1 & F1 & D1).
  rewrite (u8to64_spec [] (le_bytes 8 lo) (le_bytes 8 hi)) by auto. cbn [bind].
  rewrite <- (app_nil_r (le_bytes 8 hi)). rewrite (u8to64_spec (le_bytes 8 lo) (le_bytes 8 hi) []) by (auto; now rewrite L0).
  cbn [bind]. rewrite D0, D1 by assumption. f_equal.
  unfold wor, wshl, norm. rewrite Z.shiftl_mul_pow2 by lia. unfold word in *.
  rewrite Z.mod_small.
  - apply lor_disjoint; [lia|exact W1].
  - change (2 ^ 128) with (2 ^ 64 * 2 ^ 64). nia.
Qed.
