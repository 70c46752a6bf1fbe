(** Full period of the linear congruential generator. *)
From Coq Require Import ZArith Lia Znumtheory Wf_nat.
From Verif Require Import WordModel RandModel.
Open Scope Z_scope.

Section LCG.
Variables a c : Z.
Hypothesis Ha : a mod 4 = 1.
Hypothesis Hc : Z.odd c = true.

(** 1 + a + ... + a^(n-1). *)
Fixpoint geo (n : nat) : Z := match n with O => 0 | S k => geo k + a ^ Z.of_nat k end.
Fixpoint iter_affine (n : nat) (x : Z) : Z := match n with O => x | S k => a * iter_affine k x + c end.

Lemma pow_mod4 n : (a ^ Z.of_nat n) mod 4 = 1.
Proof.
  induction n; [reflexivity|]. rewrite Nat2Z.inj_succ, Z.pow_succ_r by lia.
  rewrite Z.mul_mod, Ha, IHn by lia. reflexivity.
Qed.

Lemma geo_closed n : (a - 1) * geo n = a ^ Z.of_nat n - 1.
Proof.
  induction n; [cbn; lia|]. cbn [geo]. rewrite Nat2Z.inj_succ, Z.pow_succ_r by lia.
  rewrite Z.mul_add_distr_l, IHn. ring.
Qed.

Lemma iter_closed n x : iter_affine n x - x = geo n * ((a - 1) * x + c).
Proof.
  assert (H : iter_affine n x = a ^ Z.of_nat n * x + c * geo n).
  { induction n; [cbn [iter_affine geo]; change (a ^ Z.of_nat 0) with 1; ring|]. cbn [iter_affine]. rewrite IHn. cbn [geo].
    assert (E : a * geo n + 1 = geo n + a ^ Z.of_nat n) by (pose proof (geo_closed n); lia).
    rewrite Nat2Z.inj_succ, Z.pow_succ_r by lia.
    transitivity (a * a ^ Z.of_nat n * x + c * (a * geo n + 1)); [ring|]. rewrite E. ring. }
  rewrite H. pose proof (geo_closed n) as G.
  replace (geo n * ((a - 1) * x + c)) with (((a - 1) * geo n) * x + c * geo n) by ring. rewrite G. ring.
Qed.

Lemma geo_add n m : geo (n + m) = geo n + a ^ Z.of_nat n * geo m.
Proof.
  induction m; [rewrite Nat.add_0_r; cbn; lia|]. rewrite Nat.add_succ_r. cbn [geo]. rewrite IHm.
  rewrite Nat2Z.inj_add, Z.pow_add_r by lia. ring.
Qed.

Lemma geo_parity n : (geo n) mod 2 = (Z.of_nat n) mod 2.
Proof.
  induction n; [reflexivity|]. cbn [geo]. rewrite Nat2Z.inj_succ. unfold Z.succ.
  rewrite Z.add_mod, IHn by lia.
  assert (E : (a ^ Z.of_nat n) mod 2 = 1).
  { pose proof (pow_mod4 n). rewrite (Z.div_mod (a ^ Z.of_nat n) 4) by lia. rewrite H.
    replace (4 * (a ^ Z.of_nat n / 4) + 1) with (1 + (2 * (a ^ Z.of_nat n / 4)) * 2) by ring.
    rewrite Z.mod_add by lia. reflexivity. }
  rewrite E. rewrite (Z.add_mod (Z.of_nat n) 1) by lia. reflexivity.
Qed.

Lemma pow2_dvd_odd k u v : 0 <= k -> v mod 2 = 1 -> ((2 ^ k | u * v) <-> (2 ^ k | u)).
Proof.
  intros Hk Hv. split; [|apply Z.divide_mul_l].
  intros H. apply Gauss with v; [now rewrite Z.mul_comm|].
  apply rel_prime_sym. clear H. revert k Hk. apply natlike_ind.
  - apply rel_prime_sym, rel_prime_1.
  - intros k Hk IH. rewrite Z.pow_succ_r by lia. apply rel_prime_mult; [|exact IH].
    apply rel_prime_sym. apply prime_rel_prime; [apply prime_2|]. intros D.
    apply Zdivide_mod in D. lia.
Qed.

Lemma geo_divides k : forall n, (2 ^ Z.of_nat k | geo n) <-> (2 ^ Z.of_nat k | Z.of_nat n).
Proof.
  induction k as [|k IH]; intros n.
  - cbn. split; intros _; apply Z.divide_1_l.
  - destruct (Nat.Even_or_Odd n) as [[m ->]|[m ->]].
    + replace (2 * m)%nat with (m + m)%nat by lia. rewrite geo_add.
      replace (geo m + a ^ Z.of_nat m * geo m) with (geo m * (1 + a ^ Z.of_nat m)) by ring.
      pose proof (pow_mod4 m) as P. set (q := a ^ Z.of_nat m / 4).
      assert (E : 1 + a ^ Z.of_nat m = 2 * (1 + 2 * q)).
      { pose proof (Z.div_mod (a ^ Z.of_nat m) 4). unfold q. lia. }
      rewrite E. replace (geo m * (2 * (1 + 2 * q))) with (2 * (geo m * (1 + 2 * q))) by ring.
      replace (Z.of_nat (m + m)) with (2 * Z.of_nat m) by lia.
      rewrite Nat2Z.inj_succ, Z.pow_succ_r by lia.
      rewrite !Z.mul_divide_cancel_l by lia.
      rewrite pow2_dvd_odd; [apply IH|lia|].
      replace (1 + 2 * q) with (1 + q * 2) by ring. rewrite Z.mod_add by lia. reflexivity.
    + assert (D : forall z, (2 ^ Z.of_nat (S k) | z) -> z mod 2 = 0).
      { intros z [t ->]. rewrite Nat2Z.inj_succ, Z.pow_succ_r by lia.
        replace (t * (2 * 2 ^ Z.of_nat k)) with (t * 2 ^ Z.of_nat k * 2) by ring. apply Z.mod_mul. lia. }
      split; intros H; apply D in H; exfalso; pose proof (geo_parity (2 * m + 1)) as P;
        assert ((Z.of_nat (2 * m + 1)) mod 2 = 1) by
          (replace (Z.of_nat (2 * m + 1)) with (1 + Z.of_nat m * 2) by lia; rewrite Z.mod_add by lia; reflexivity);
        lia.
Qed.

Lemma affine_odd x : ((a - 1) * x + c) mod 2 = 1.
Proof.
  rewrite (Z.div_mod a 4) by lia. rewrite Ha.
  replace ((4 * (a / 4) + 1 - 1) * x + c) with (c + (2 * (a / 4) * x) * 2) by ring.
  rewrite Z.mod_add by lia. rewrite Zmod_odd, Hc. reflexivity.
Qed.

Lemma affine_period k n x :
  (iter_affine n x) mod 2 ^ Z.of_nat k = x mod 2 ^ Z.of_nat k <-> (2 ^ Z.of_nat k | Z.of_nat n).
Proof.
  assert (P : 0 < 2 ^ Z.of_nat k) by (apply Z.pow_pos_nonneg; lia).
  rewrite <- geo_divides. rewrite <- (pow2_dvd_odd (Z.of_nat k) (geo n) ((a - 1) * x + c)) by (lia || apply affine_odd).
  rewrite <- iter_closed. split.
  - intros H. apply Z.mod_divide; [lia|]. rewrite Zminus_mod, H, Z.sub_diag. apply Z.mod_0_l. lia.
  - intros [t Ht]. replace (iter_affine n x) with (x + t * 2 ^ Z.of_nat k) by lia. apply Z.mod_add. lia.
Qed.

Lemma iter_affine_add n m x : iter_affine (n + m) x = iter_affine n (iter_affine m x).
Proof. induction n; cbn; [reflexivity|]. now rewrite IHn. Qed.

(** Every residue is reached, by lifting one bit at a time. *)
Lemma affine_reaches k x t : exists n, Z.of_nat n < 2 ^ Z.of_nat k /\
  (iter_affine n x) mod 2 ^ Z.of_nat k = t mod 2 ^ Z.of_nat k.
Proof.
  induction k as [|k (n & Hn & IH)].
  - exists 0%nat. split; [reflexivity|]. now rewrite !Z.mod_1_r.
  - set (q := 2 ^ Z.of_nat k) in *.
    assert (Pq : 0 < q) by (apply Z.pow_pos_nonneg; lia).
    assert (E2 : 2 ^ Z.of_nat (S k) = 2 * q) by (rewrite Nat2Z.inj_succ, Z.pow_succ_r by lia; reflexivity).
    set (y := iter_affine n x) in *.
    assert (HD : exists d, y = t + d * q).
    { exists ((y - t) / q). assert ((q | y - t)).
      { apply Z.mod_divide; [lia|]. rewrite Zminus_mod, IH, Z.sub_diag. apply Z.mod_0_l. lia. }
      destruct H as [z Hz]. rewrite Hz, Z.div_mul by lia. lia. }
    destruct HD as [d Hd].
    destruct (Z.Even_or_Odd d) as [[z ->]|[z ->]].
    + exists n. split; [lia|]. fold y. rewrite E2, Hd.
      replace (2 * z * q) with (z * (2 * q)) by ring. apply Z.mod_add. lia.
    + exists (Z.to_nat q + n)%nat. split; [lia|]. rewrite iter_affine_add. fold y.
      set (y' := iter_affine (Z.to_nat q) y).
      assert (Hq : Z.of_nat (Z.to_nat q) = q) by lia.
      assert (H1 : y' mod q = y mod q).
      { apply (affine_period k (Z.to_nat q) y). rewrite Hq. apply Z.divide_refl. }
      assert (H2 : y' mod (2 * q) <> y mod (2 * q)).
      { rewrite <- E2. unfold y'. intros C. apply (affine_period (S k) (Z.to_nat q) y) in C.
        rewrite E2, Hq in C. destruct C as [u Hu]. assert (Z0 : q * (1 - 2 * u) = 0) by lia. apply Z.mul_eq_0 in Z0. lia. }
      assert ((q | y' - y)) as [e He].
      { apply Z.mod_divide; [lia|]. rewrite Zminus_mod, H1, Z.sub_diag. apply Z.mod_0_l. lia. }
      destruct (Z.Even_or_Odd e) as [[f ->]|[f ->]].
      * exfalso. apply H2. replace y' with (y + f * (2 * q)) by lia. apply Z.mod_add. lia.
      * rewrite E2. replace y' with (t + (z + f + 1) * (2 * q)) by lia. apply Z.mod_add. lia.
Qed.
End LCG.

(** The n-fold step. *)
Fixpoint lcg_iter (n : nat) (s : Z) : Z := match n with O => s | S k => lcg_next (lcg_iter k s) end.

Lemma lcg_next_eq s : lcg_next s = (lcg_A * s + lcg_C) mod 2 ^ 64.
Proof. unfold lcg_next, wadd, wmul, norm. now rewrite Zplus_mod_idemp_l. Qed.

Lemma lcg_iter_eq n s : 0 <= s < 2 ^ 64 -> lcg_iter n s = (iter_affine lcg_A lcg_C n s) mod 2 ^ 64.
Proof.
  intros Hs. induction n; cbn [lcg_iter iter_affine]; [now rewrite Z.mod_small|].
  rewrite lcg_next_eq, IHn. rewrite Zplus_mod, Zmult_mod_idemp_r, <- Zplus_mod. reflexivity.
Qed.

Lemma lcg_iter_word n s : 0 <= s < 2 ^ 64 -> 0 <= lcg_iter n s < 2 ^ 64.
Proof. intros Hs. rewrite lcg_iter_eq by auto. apply Z.mod_pos_bound. lia. Qed.

Lemma lcg_iter_add n m s : lcg_iter (n + m) s = lcg_iter n (lcg_iter m s).
Proof. induction n; cbn; [reflexivity|]. now rewrite IHn. Qed.

Lemma lcg_period s n : 0 <= s < 2 ^ 64 -> (lcg_iter n s = s <-> (2 ^ 64 | Z.of_nat n)).
Proof.
  intros Hs. rewrite lcg_iter_eq by auto.
  pose proof (affine_period lcg_A lcg_C eq_refl eq_refl 64 n s) as P.
  change (2 ^ Z.of_nat 64) with (2 ^ 64) in P.
  rewrite (Z.mod_small s) in P by auto. exact P.
Qed.

(** Distinct step counts below the period give distinct states. *)
Lemma lcg_next_inj s t : 0 <= s < 2 ^ 64 -> 0 <= t < 2 ^ 64 -> lcg_next s = lcg_next t -> s = t.
Proof.
  intros Hs Ht. rewrite !lcg_next_eq. intros H.
  assert (D : (2 ^ 64 | (s - t) * lcg_A)).
  { apply Z.mod_divide; [lia|].
    replace ((s - t) * lcg_A) with ((lcg_A * s + lcg_C) - (lcg_A * t + lcg_C)) by ring.
    rewrite Zminus_mod, H, Z.sub_diag. reflexivity. }
  apply pow2_dvd_odd in D; [|lia|reflexivity]. destruct D as [k Hk]. nia.
Qed.

Lemma lcg_iter_inj n s t : 0 <= s < 2 ^ 64 -> 0 <= t < 2 ^ 64 -> lcg_iter n s = lcg_iter n t -> s = t.
Proof.
  intros Hs Ht. induction n; cbn [lcg_iter]; [auto|]. intros H. apply IHn.
  apply lcg_next_inj in H; auto using lcg_iter_word.
Qed.

Lemma lcg_distinct s i j : 0 <= s < 2 ^ 64 -> Z.of_nat i < 2 ^ 64 -> Z.of_nat j < 2 ^ 64 ->
  lcg_iter i s = lcg_iter j s -> i = j.
Proof.
  assert (W : forall i j, (i <= j)%nat -> 0 <= s < 2 ^ 64 -> Z.of_nat j < 2 ^ 64 ->
    lcg_iter i s = lcg_iter j s -> i = j).
  { clear. intros i j Hij Hs Hj H.
    replace j with (i + (j - i))%nat in H at 1 by lia.
    rewrite lcg_iter_add in H. symmetry in H. apply lcg_iter_inj in H; [|apply lcg_iter_word; auto|auto].
    apply lcg_period in H; [|auto]. destruct H as [k Hk]. nia. }
  intros Hs Hi Hj H. destruct (Nat.le_ge_cases i j); [apply W; auto|symmetry; apply W; auto].
Qed.

Lemma lcg_visits_all s t : 0 <= s < 2 ^ 64 -> 0 <= t < 2 ^ 64 ->
  exists n, Z.of_nat n < 2 ^ 64 /\ lcg_iter n s = t.
Proof.
  intros Hs Ht. destruct (affine_reaches lcg_A lcg_C eq_refl eq_refl 64 s t) as (n & Hn & E).
  change (2 ^ Z.of_nat 64) with (2 ^ 64) in *. exists n. split; [exact Hn|].
  rewrite lcg_iter_eq by auto. rewrite E. now apply Z.mod_small.
Qed.
