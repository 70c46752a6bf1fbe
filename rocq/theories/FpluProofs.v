From Coq Require Import Reals ZArith Lia Lra Bool List.
From Flocq Require Import Core BinarySingleNaN.
From Verif Require Import PermModel PermSpec PermProofs PermSignProofs.
From Verif Require Import FmaModel FmaSpec FmaProofs FquadModel FquadSpec FquadProofs FquadMore FvecModel FvecSpec FvecProofs FvecMore FinvProofs FcholModel FcholProofs FsolveSpec FsolveProofs FsolveMore FpluModel FpluSpec.
Import ListNotations.
Open Scope R_scope.

Section Plu.
Variable prec emax : Z.
Context {Hp : Prec_gt_0 prec} {He : Prec_lt_emax prec emax}.
Notation float := (binary_float prec emax).
Notation matrix := (nat -> nat -> float).
Notation pw := (bpow radix2).
Notation emin' := (FmaSpec.emin prec emax).
Notation fexp' := (FLT_exp emin' prec).
Notation RNE := (rn fexp' (fun t => negb (Z.even t))).
Notation u := (pw (- prec)).
Notation st := (step prec).
Notation h := (pw (emin' - 1)).
Notation div := (fl_div prec emax). Notation neg := (fl_neg prec emax). Notation eqb := (fl_eqb prec emax). Notation zero := (fl_lit prec emax 0 0).
Notation state := (fl_plu prec emax).
(** ** The loops *)
Definition exch (a b r : nat) : nat := if Nat.eqb r b then a else if Nat.eqb r a then b else r.
Lemma row_swap_spec cols (m : matrix) a b r c : fl_row_swap cols m a b r c = if Nat.ltb c cols then m (exch a b r) c else m r c.
Proof.
  unfold fl_row_swap, exch. revert r c. induction cols as [|n IH]; intros r c; [reflexivity|]. rewrite seq_S, fold_left_app. cbn [fold_left Nat.add].
  set (m1 := fold_left _ (seq 0 n) m : matrix) in *. destruct (Nat.eq_dec c n) as [->|N].
  - replace (Nat.ltb n (S n)) with true by (symmetry; apply Nat.ltb_lt; lia).
    assert (E : forall r, m1 r n = m r n) by (intros r'; rewrite IH, Nat.ltb_irrefl; reflexivity).
    destruct (Nat.eqb_spec r b) as [->|Nb]; [rewrite set_same; apply E|]. rewrite set_row by auto.
    destruct (Nat.eqb_spec r a) as [->|Na]; [rewrite set_same; apply E|]. rewrite set_row by auto. apply E.
  - rewrite !set_col by auto. rewrite IH. destruct (Nat.ltb_spec c n), (Nat.ltb_spec c (S n)); try lia; reflexivity.
Qed.
Definition upd (b src dst : float) : float := if eqb b zero then dst else fl_multiply_add (neg b) src dst.
Lemma elim_inner (m : matrix) r i b : r <> i -> forall k c0 r' c,
  fold_left (fun (m : matrix) c => fl_set m r c (fl_multiply_add (neg b) (m i c) (m r c))) (seq c0 k) m r' c =
  if (Nat.eqb r' r && Nat.leb c0 c && Nat.ltb c (c0 + k))%bool then fl_multiply_add (neg b) (m i c) (m r c) else m r' c.
Proof.
  intros N k c0. induction k as [|k IH]; intros r' c.
  - cbn [seq fold_left]. destruct (Nat.eqb r' r), (Nat.leb_spec c0 c), (Nat.ltb_spec c (c0 + 0)); try reflexivity; lia.
  - rewrite seq_S, fold_left_app. cbn [fold_left]. destruct (Nat.eq_dec r' r) as [->|Nr].
    + rewrite Nat.eqb_refl. destruct (Nat.eq_dec c (c0 + k)) as [->|Nc].
      * rewrite set_same, !IH, Nat.eqb_refl. destruct (Nat.eqb_spec i r); [congruence|].
        destruct (Nat.leb_spec c0 (c0 + k)), (Nat.ltb_spec (c0 + k) (c0 + k)), (Nat.ltb_spec (c0 + k) (c0 + S k)); try lia. reflexivity.
      * rewrite set_col by auto. rewrite IH, Nat.eqb_refl.
        destruct (Nat.leb_spec c0 c), (Nat.ltb_spec c (c0 + k)), (Nat.ltb_spec c (c0 + S k)); try lia; reflexivity.
    + rewrite set_row by auto. rewrite IH. destruct (Nat.eqb_spec r' r); [contradiction|reflexivity].
Qed.
Lemma elim_row_spec cols i a (m : matrix) r r' c : r <> i -> fl_elim_row cols i a m r r' c =
  if Nat.eqb r' r then (if Nat.eqb c i then div (m r i) a else if (Nat.ltb i c && Nat.ltb c cols)%bool then upd (div (m r i) a) (m i c) (m r c) else m r c) else m r' c.
Proof.
  intros N. unfold fl_elim_row, upd. destruct (Nat.eqb_spec r' r) as [->|Nr].
  - destruct (Nat.eqb_spec c i) as [->|Nc]; [apply set_same|]. rewrite set_col by auto. destruct (eqb _ zero); [destruct (_ && _)%bool; reflexivity|].
    rewrite elim_inner by auto. rewrite Nat.eqb_refl. cbn [andb].
    destruct (Nat.leb_spec (S i) c), (Nat.ltb_spec c (S i + (cols - S i))), (Nat.ltb_spec i c), (Nat.ltb_spec c cols); try lia; reflexivity.
  - rewrite set_row by auto. destruct (eqb _ zero); [reflexivity|]. rewrite elim_inner by auto. destruct (Nat.eqb_spec r' r); [contradiction|reflexivity].
Qed.
Lemma eliminate_spec rows cols i (m : matrix) r c : fl_eliminate rows cols i m r c =
  if (Nat.ltb i r && Nat.ltb r rows)%bool then
    (if Nat.eqb c i then div (m r i) (m i i) else if (Nat.ltb i c && Nat.ltb c cols)%bool then upd (div (m r i) (m i i)) (m i c) (m r c) else m r c)
  else m r c.
Proof.
  unfold fl_eliminate. set (a := m i i).
  assert (G : forall k r c, fold_left (fl_elim_row cols i a) (seq (S i) k) m r c =
    if (Nat.ltb i r && Nat.ltb r (S i + k))%bool then
      (if Nat.eqb c i then div (m r i) a else if (Nat.ltb i c && Nat.ltb c cols)%bool then upd (div (m r i) a) (m i c) (m r c) else m r c)
    else m r c).
  { induction k as [|k IH]; intros r' c'.
    - cbn [seq fold_left]. destruct (Nat.ltb_spec i r'), (Nat.ltb_spec r' (S i + 0)); try lia; reflexivity.
    - rewrite seq_S, fold_left_app. cbn [fold_left]. rewrite elim_row_spec by lia. rewrite !IH.
      replace (Nat.ltb i i) with false by (symmetry; apply Nat.ltb_irrefl). cbn [andb].
      replace (Nat.ltb (S i + k) (S i + k)) with false by (symmetry; apply Nat.ltb_irrefl). rewrite andb_false_r.
      destruct (Nat.eqb_spec r' (S i + k)) as [->|N].
      + replace (Nat.ltb i (S i + k)) with true by (symmetry; apply Nat.ltb_lt; lia).
        replace (Nat.ltb (S i + k) (S i + S k)) with true by (symmetry; apply Nat.ltb_lt; lia). reflexivity.
      + destruct (Nat.ltb_spec i r'), (Nat.ltb_spec r' (S i + k)), (Nat.ltb_spec r' (S i + S k)); try lia; reflexivity. }
  rewrite G. destruct (Nat.ltb_spec i r), (Nat.ltb_spec r (S i + (rows - S i))), (Nat.ltb_spec r rows); try lia; reflexivity.
Qed.
(** The pivot is the greatest. *)
Lemma babs_value (x : float) : is_finite x = true -> is_finite (Babs x) = true /\ B2R (Babs x) = Rabs (B2R x).
Proof. intros F. rewrite is_finite_Babs, B2R_Babs. now split. Qed.
Lemma pivot_range rows (m : matrix) i : (i < rows)%nat -> (i <= fl_find_pivot rows m i < rows)%nat.
Proof.
  intros H. unfold fl_find_pivot. assert (G : forall k, (i <= fold_left (fun pvt p => if fl_ltb prec emax (Babs (m pvt i)) (Babs (m p i)) then p else pvt) (seq (S i) k) i <= i + k)%nat).
  { induction k as [|k IH]; [cbn; lia|]. rewrite seq_S, fold_left_app. cbn [fold_left]. destruct (fl_ltb _ _ _ _); lia. }
  pose proof (G (rows - S i)%nat). lia.
Qed.
Lemma pivot_greatest rows (m : matrix) i : (i < rows)%nat -> (forall r, (r < rows)%nat -> is_finite (m r i) = true) -> forall r, (i <= r < rows)%nat -> Rabs (B2R (m r i)) <= Rabs (B2R (m (fl_find_pivot rows m i) i)).
Proof.
  intros H F. unfold fl_find_pivot. set (f := fun pvt p => if fl_ltb prec emax (Babs (m pvt i)) (Babs (m p i)) then p else pvt).
  assert (G : forall k, (i + k < rows)%nat -> (i <= fold_left f (seq (S i) k) i <= i + k)%nat /\ forall r, (i <= r <= i + k)%nat -> Rabs (B2R (m r i)) <= Rabs (B2R (m (fold_left f (seq (S i) k) i) i))).
  { induction k as [|k IH]; intros K; [cbn; split; [lia|]; intros r R; replace r with i by lia; lra|]. rewrite seq_S, fold_left_app. cbn [fold_left]. destruct (IH ltac:(lia)) as (I1 & I2). set (q := fold_left f (seq (S i) k) i) in *. assert (FE : f q (S i + k)%nat = if fl_ltb prec emax (Babs (m q i)) (Babs (m (S i + k)%nat i)) then (S i + k)%nat else q) by reflexivity. rewrite FE. clear FE.
    destruct (babs_value _ (F q ltac:(lia))) as (F1 & V1). destruct (babs_value _ (F (S i + k)%nat ltac:(lia))) as (F2 & V2). unfold fl_ltb. rewrite Bltb_correct by assumption. rewrite V1, V2.
    destruct (Rlt_bool_spec (Rabs (B2R (m q i))) (Rabs (B2R (m (S i + k)%nat i)))) as [L|L]; (split; [lia|]); intros r R; (destruct (Nat.eq_dec r (S i + k)) as [->|N]; [lra|]; pose proof (I2 r ltac:(lia)); lra). }
  destruct (G (rows - S i)%nat ltac:(lia)) as (_ & G2). intros r R. apply G2. lia.
Qed.
(** ** Finite results come from finite values *)
Definition fin (rows cols : nat) (m : matrix) : Prop := forall r c, (r < rows)%nat -> (c < cols)%nat -> is_finite (m r c) = true.
Lemma eqb_zero_iff (x : float) : is_finite x = true -> eqb x zero = true <-> B2R x = 0.
Proof.
  intros F. destruct (lit_zero prec emax) as (Fz & Vz). unfold fl_eqb. rewrite Beqb_correct by assumption. rewrite Vz. destruct (Req_bool_spec (B2R x) 0); split; intros; congruence.
Qed.
Lemma upd_finite b src dst : is_finite b = true -> is_finite src = true -> is_finite (upd b src dst) = true -> is_finite dst = true /\ Rabs (B2R dst - (B2R (upd b src dst) + B2R b * B2R src)) <= u * Rabs (B2R (upd b src dst)) + h.
Proof.
  intros Fb Fs. unfold upd. assert (H0 : 0 < h) by apply bpow_gt_0. pose proof (bpow_gt_0 radix2 (- prec)) as U. destruct (eqb b zero) eqn:E; intros F.
  - split; [exact F|]. apply (eqb_zero_iff b Fb) in E. rewrite E, Rmult_0_l, Rplus_0_r, Rminus_diag_eq, Rabs_R0 by reflexivity. assert (0 <= u * Rabs (B2R dst)) by (apply Rmult_le_pos; [lra|apply Rabs_pos]). lra.
  - unfold fl_multiply_add in *. assert (Fn : is_finite (neg b) = true) by (unfold fl_neg; now rewrite is_finite_Bopp). destruct (fma_finite prec emax _ _ _ Fn Fs F) as (Fd & V). split; [exact Fd|]. rewrite V. assert (NV : B2R (neg b) = - B2R b) by (unfold fl_neg; apply B2R_Bopp). rewrite NV.
    set (z := - B2R b * B2R src + B2R dst).
    assert (B : Rabs (RNE z - z) <= u * Rabs (RNE z) + h).
    { pose proof (error_le_half_ulp_round radix2 fexp' (fun t => negb (Z.even t)) z) as E1. change (round radix2 fexp' (Znearest (fun t => negb (Z.even t))) z) with (RNE z) in E1. pose proof (ulp_any prec emax (RNE z)) as A.
      assert (W : / 2 * pw emin' = h) by (replace emin' with (emin' - 1 + 1)%Z at 1 by lia; rewrite bpow_plus; change (pw 1) with 2; lra). assert (0 <= u * Rabs (RNE z)) by (apply Rmult_le_pos; [lra|apply Rabs_pos]).
      unfold Rmax in A. destruct (Rle_dec _ _); lra. }
    replace (B2R dst - (RNE z + B2R b * B2R src)) with (- (RNE z - z)) by (unfold z; ring). rewrite Rabs_Ropp. exact B.
Qed.
Lemma eliminate_fin rows cols i (m : matrix) : (i < rows)%nat -> (i < cols)%nat -> fin rows cols (fl_eliminate rows cols i m) -> fin rows cols m.
Proof.
  intros Hi Hj F. assert (F1 : forall r c, (r <= i)%nat -> (c < cols)%nat -> is_finite (m r c) = true).
  { intros r c R C. pose proof (F r c ltac:(lia) C) as G. rewrite eliminate_spec in G. destruct (Nat.ltb_spec i r); [lia|]. exact G. }
  intros r c R C. destruct (le_lt_dec r i) as [L|L]; [now apply F1|]. pose proof (F r c R C) as G. rewrite eliminate_spec in G. destruct (Nat.ltb_spec i r), (Nat.ltb_spec r rows); try lia. cbn [andb] in G.
  pose proof (F r i R Hj) as Gi. rewrite eliminate_spec in Gi. destruct (Nat.ltb_spec i r), (Nat.ltb_spec r rows); try lia. rewrite Nat.eqb_refl in Gi. cbn [andb] in Gi.
  destruct (Nat.eqb_spec c i) as [->|N]; [apply (div_accurate prec emax _ _ (F1 i i (le_n i) Hj) Gi)|]. destruct (Nat.ltb_spec i c), (Nat.ltb_spec c cols); try lia; cbn [andb] in G; [|exact G]. apply (upd_finite _ _ _ Gi (F1 i c (le_n i) C) G).
Qed.
Lemma exch_lt rows a b r : (a < rows)%nat -> (b < rows)%nat -> (r < rows)%nat -> (exch a b r < rows)%nat.
Proof. intros. unfold exch. destruct (Nat.eqb_spec r b), (Nat.eqb_spec r a); lia. Qed.
Lemma exch_twice a b r : exch a b (exch a b r) = r.
Proof. unfold exch. destruct (Nat.eqb_spec r b), (Nat.eqb_spec r a); repeat match goal with |- context [Nat.eqb ?x ?y] => destruct (Nat.eqb_spec x y) end; lia. Qed.
Lemma swap_fin rows cols a b (m : matrix) : (a < rows)%nat -> (b < rows)%nat -> fin rows cols (fl_row_swap cols m a b) -> fin rows cols m.
Proof.
  intros A B F r c R C. pose proof (F (exch a b r) c (exch_lt rows a b r A B R) C) as G. rewrite row_swap_spec, exch_twice in G. destruct (Nat.ltb_spec c cols); [exact G|lia].
Qed.
(** The rows in their new order; no exchange if the pivot is in place. *)
Lemma step_cases rows cols (s : state) i : (i < rows)%nat -> (i < cols)%nat -> let pvt := fl_find_pivot rows (fl_lu s) i in let t := fl_plu_step rows cols s i in
  (eqb (Babs (fl_lu s pvt i)) zero = true /\ fl_lu t = fl_lu s /\ fl_reorder t = fl_reorder s /\ fl_parity t = fl_parity s /\ fl_degenerate t = S (fl_degenerate s)) \/
  (eqb (Babs (fl_lu s pvt i)) zero = false /\ fl_degenerate t = fl_degenerate s /\ exists m, fl_lu t = fl_eliminate rows cols i m /\ (forall r c, (c < cols)%nat -> m r c = fl_lu s (exch i pvt r) c) /\
     ((pvt = i /\ fl_reorder t = fl_reorder s /\ fl_parity t = fl_parity s) \/ (pvt <> i /\ fl_reorder t = swap (fl_reorder s) i pvt /\ fl_parity t = negb (fl_parity s)))).
Proof.
  intros Hi Hj pvt t. unfold t, fl_plu_step. fold pvt. destruct (eqb _ zero); [left; cbn; auto|right]. split; [reflexivity|]. destruct (Nat.eqb_spec pvt i) as [E|N]; (split; [reflexivity|]).
  - exists (fl_lu s). split; [reflexivity|]. split; [|left; auto]. intros r c C. rewrite E. unfold exch. destruct (Nat.eqb_spec r i) as [->|]; reflexivity.
  - exists (fl_row_swap cols (fl_lu s) i pvt). split; [reflexivity|]. split; [|right; auto]. intros r c C. rewrite row_swap_spec. destruct (Nat.ltb_spec c cols); [reflexivity|lia].
Qed.
Lemma step_fin rows cols (s : state) i : (i < rows)%nat -> (i < cols)%nat -> fin rows cols (fl_lu (fl_plu_step rows cols s i)) -> fin rows cols (fl_lu s).
Proof.
  intros Hi Hj F. pose proof (pivot_range rows (fl_lu s) i Hi) as PR. destruct (step_cases rows cols s i Hi Hj) as [(_ & E & _)|(_ & _ & m & E & M & _)]; rewrite E in F; [exact F|]. apply (eliminate_fin rows cols i m Hi Hj) in F.
  intros r c R C. pose proof (F (exch i (fl_find_pivot rows (fl_lu s) i) r) c ltac:(apply exch_lt; lia) C) as G. rewrite M in G by exact C. now rewrite exch_twice in G.
Qed.
(** ** The invariant *)
Definition depth (i r c : nat) : nat := Nat.min i (Nat.min r c).
Definition tail (i : nat) (m : matrix) (r c : nat) : R := if (Nat.ltb c r && Nat.ltb c i)%bool then B2R (m r c) * B2R (m c c) else B2R (m r c).
Definition rep (i : nat) (m : matrix) (r c : nat) : R := total (depth i r c) (fun k => B2R (m r k) * B2R (m k c)) + tail i m r c.
Definition sz (i : nat) (m : matrix) (r c : nat) : R := total (depth i r c) (fun k => Rabs (B2R (m r k) * B2R (m k c))) + Rabs (tail i m r c).
Definition dg (i : nat) (m : matrix) (r c : nat) : R := if (Nat.ltb c r && Nat.ltb c i)%bool then Rabs (B2R (m c c)) else 0.
Definition bnd (i : nat) (m : matrix) (r c : nat) : R := (st ^ i - 1) * sz i m r c + st ^ i * h * (INR i + dg i m r c).
Lemma sz_nonneg i m r c : 0 <= sz i m r c.
Proof. unfold sz. pose proof (Rabs_pos (tail i m r c)). assert (0 <= total (depth i r c) (fun k => Rabs (B2R (m r k) * B2R (m k c)))) by (apply total_nonneg; intros; apply Rabs_pos). lra. Qed.
Lemma dg_nonneg i m r c : 0 <= dg i m r c. Proof. unfold dg. destruct (_ && _)%bool; [apply Rabs_pos|lra]. Qed.
(** Unchanged elements: the bound grows. *)
Lemma bnd_grows i (m : matrix) z d : 0 <= z -> 0 <= d -> (st ^ i - 1) * z + st ^ i * h * (INR i + d) <= (st ^ S i - 1) * z + st ^ S i * h * (INR (S i) + d).
Proof.
  intros Z D. pose proof (step_ge prec) as S1. assert (P : 1 <= st ^ i) by (apply pow_R1_Rle; exact S1). assert (Q : st ^ i <= st ^ S i) by (apply Rle_pow; [exact S1|lia]). assert (H0 : 0 < h) by apply bpow_gt_0. pose proof (pos_INR i) as N. rewrite S_INR.
  apply Rplus_le_compat; [apply Rmult_le_compat_r; lra|]. rewrite !Rmult_assoc. apply Rmult_le_compat; [lra| |exact Q|]; [apply Rmult_le_pos; lra|]. apply Rmult_le_compat_l; lra.
Qed.
(** One more elimination or division. *)
Lemma bnd_step i (A S0 S1' s t d : R) : 0 <= d -> Rabs (A - (S0 + s)) <= (st ^ i - 1) * (S1' + Rabs s) + st ^ i * h * (INR i + 0) ->
  forall p, Rabs (s - (t + p)) <= u * Rabs t + h * d -> Rabs (A - (S0 + p + t)) <= (st ^ S i - 1) * (S1' + Rabs p + Rabs t) + st ^ S i * h * (INR i + d) \/ S1' < 0.
Proof.
  intros D HA p HS. destruct (Rlt_dec S1' 0) as [L|L]; [right; exact L|left]. pose proof (step_ge prec) as SG. assert (P : 1 <= st ^ i) by (apply pow_R1_Rle; exact SG). cbn [pow]. set (q := st ^ i) in *. assert (H0 : 0 < h) by apply bpow_gt_0. pose proof (bpow_gt_0 radix2 (- prec)) as U. pose proof (pos_INR i) as N. set (n := INR i) in *.
  assert (HD : 0 <= h * d) by (apply Rmult_le_pos; lra). assert (AS : Rabs s <= st * Rabs t + Rabs p + h * d).
  { replace s with ((s - (t + p)) + (t + p)) by ring. eapply Rle_trans; [apply Rabs_triang|]. pose proof (Rabs_triang t p). unfold step. lra. }
  replace (A - (S0 + p + t)) with ((A - (S0 + s)) + (s - (t + p))) by ring. eapply Rle_trans; [apply Rabs_triang|].
  assert (B1 : (q - 1) * (S1' + Rabs s) <= (q - 1) * (S1' + (st * Rabs t + Rabs p + h * d))) by (apply Rmult_le_compat_l; lra).
  assert (B2 : (q - 1) * (S1' + Rabs p) <= (st * q - 1) * (S1' + Rabs p)). { apply Rmult_le_compat_r; [pose proof (Rabs_pos p); lra|]. assert (1 * q <= st * q) by (apply Rmult_le_compat_r; lra). lra. }
  assert (B3 : q * h * (n + d) <= st * q * h * (n + d)). { apply Rmult_le_compat_r; [lra|]. apply Rmult_le_compat_r; [lra|]. assert (1 * q <= st * q) by (apply Rmult_le_compat_r; lra). lra. }
  replace ((st * q - 1) * (S1' + Rabs p + Rabs t)) with ((st * q - 1) * (S1' + Rabs p) + ((q - 1) * (st * Rabs t) + u * Rabs t)) by (unfold step; ring).
  replace ((q - 1) * (S1' + (st * Rabs t + Rabs p + h * d))) with ((q - 1) * (S1' + Rabs p) + (q - 1) * (st * Rabs t) + q * h * d - h * d) in B1 by ring.
  replace (q * h * (n + 0)) with (q * h * n) in HA by ring. replace (q * h * (n + d)) with (q * h * n + q * h * d) in B3 by ring. lra.
Qed.
End Plu.
