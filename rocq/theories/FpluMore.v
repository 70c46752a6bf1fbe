From Coq Require Import Reals ZArith Lia Lra Bool List.
From Flocq Require Import Core BinarySingleNaN.
From Verif Require Import PermModel PermSpec PermProofs PermSignProofs.
From Verif Require Import FmaModel FmaSpec FmaProofs FquadModel FquadSpec FquadProofs FquadMore FvecModel FvecSpec FvecProofs FvecMore FinvProofs FcholModel FsolveSpec FsolveProofs FsolveMore FpluModel FpluSpec FpluProofs.
Import ListNotations.
Open Scope R_scope.

Section Plu.
Variable prec emax : Z.
Context {Hp : Prec_gt_0 prec} {He : Prec_lt_emax prec emax}.
Notation float := (binary_float prec emax).
Notation matrix := (nat -> nat -> float).
Notation pw := (bpow radix2).
Notation emin' := (FmaSpec.emin prec emax).
Notation fexp' := (FLT_exp emin' prec).
Notation RNE := (rn fexp' (fun t => negb (Z.even t))).
Notation u := (pw (- prec)).
Notation st := (step prec).
Notation h := (pw (emin' - 1)).
Notation div := (fl_div prec emax). Notation eqb := (fl_eqb prec emax). Notation zero := (fl_lit prec emax 0 0).
Notation state := (fl_plu prec emax).
Notation rep := (rep prec emax). Notation sz := (sz prec emax). Notation dg := (dg prec emax). Notation bnd := (bnd prec emax). Notation fin := (fin prec emax). Notation tail := (tail prec emax).
(** Elements that step i leaves alone. *)
Lemma same_rep i (m m' : matrix) r c : (forall r c, (r <= i \/ c < i)%nat -> m' r c = m r c) -> (r <= i \/ c < i)%nat -> rep (S i) m' r c = rep i m r c /\ sz (S i) m' r c = sz i m r c /\ dg (S i) m' r c = dg i m r c.
Proof.
  intros E H. assert (D : depth (S i) r c = depth i r c) by (unfold depth; lia). assert (C : (Nat.ltb c r && Nat.ltb c (S i))%bool = (Nat.ltb c r && Nat.ltb c i)%bool) by (destruct (Nat.ltb_spec c r), (Nat.ltb_spec c (S i)), (Nat.ltb_spec c i); try lia; reflexivity).
  assert (T : tail (S i) m' r c = tail i m r c). { unfold FpluProofs.tail. rewrite C. destruct (Nat.ltb_spec c r); cbn [andb]; [rewrite (E r c H), (E c c) by lia; reflexivity|now rewrite (E r c H)]. }
  split; [|split].
  - unfold FpluProofs.rep. rewrite D, T. f_equal. apply total_ext. intros k K. unfold depth in K. rewrite !E by lia. reflexivity.
  - unfold FpluProofs.sz. rewrite D, T. f_equal. apply total_ext. intros k K. unfold depth in K. rewrite !E by lia. reflexivity.
  - unfold FpluProofs.dg. rewrite C. destruct (Nat.ltb_spec c r); cbn [andb]; [|reflexivity]. rewrite (E c c) by lia. reflexivity.
Qed.
Section Step.
Variables (rows cols i : nat).
Hypothesis Hi : (i < rows)%nat.
Hypothesis Hj : (i < cols)%nat.
Lemma eliminate_same (m : matrix) r c : (r <= i \/ c < i)%nat -> fl_eliminate rows cols i m r c = m r c.
Proof. intros H. rewrite eliminate_spec. destruct (Nat.ltb_spec i r), (Nat.ltb_spec r rows); cbn [andb]; try reflexivity. destruct (Nat.eqb_spec c i), (Nat.ltb_spec i c); try lia. reflexivity. Qed.
Lemma inv_elim (a : nat -> nat -> R) (m : matrix) : fin rows cols (fl_eliminate rows cols i m) -> (forall r c, (r < rows)%nat -> (c < cols)%nat -> Rabs (a r c - rep i m r c) <= bnd i m r c) ->
  forall r c, (r < rows)%nat -> (c < cols)%nat -> Rabs (a r c - rep (S i) (fl_eliminate rows cols i m) r c) <= bnd (S i) (fl_eliminate rows cols i m) r c.
Proof.
  intros F J r c R C. pose proof (J r c R C) as B. pose proof (eliminate_fin prec emax rows cols i m Hi Hj F) as Fm. set (m' := fl_eliminate rows cols i m) in *.
  assert (LOW : forall r c, (r <= i \/ c < i)%nat -> m' r c = m r c) by (intros; now apply eliminate_same).
  assert (CASES : (r <= i \/ c < i)%nat \/ (i < r /\ i <= c)%nat) by lia. destruct CASES as [H|(H1 & H2)].
  - destruct (same_rep i m m' r c LOW H) as (E1 & E2 & E3). rewrite E1. unfold FpluProofs.bnd in *. rewrite E2, E3. eapply Rle_trans; [exact B|]. apply (bnd_grows prec emax i m); [apply sz_nonneg|apply dg_nonneg].
  - assert (LI : m' r i = div (m r i) (m i i)). { unfold m'. rewrite eliminate_spec, Nat.eqb_refl. destruct (Nat.ltb_spec i r), (Nat.ltb_spec r rows); try lia. reflexivity. }
    assert (D0 : depth i r c = i) by (unfold depth; lia).
    assert (ND : (Nat.ltb c r && Nat.ltb c i)%bool = false) by (destruct (Nat.ltb_spec c i); [lia|apply andb_false_r]).
    unfold FpluProofs.bnd in B. unfold FpluProofs.rep, FpluProofs.sz, FpluProofs.tail, FpluProofs.dg in B. rewrite D0, ND in B.
    set (S0 := total i (fun k => B2R (m r k) * B2R (m k c))) in *. set (Z0 := total i (fun k => Rabs (B2R (m r k) * B2R (m k c)))) in *. assert (ZP : 0 <= Z0) by (apply total_nonneg; intros; apply Rabs_pos).
    assert (TS : total i (fun k => B2R (m' r k) * B2R (m' k c)) = S0) by (apply total_ext; intros k K; rewrite !LOW by lia; reflexivity).
    assert (TZ : total i (fun k => Rabs (B2R (m' r k) * B2R (m' k c))) = Z0) by (apply total_ext; intros k K; rewrite !LOW by lia; reflexivity).
    pose proof (F r i R Hj) as Fb. pose proof (Fm i i Hi Hj) as Fa. rewrite LI in Fb. destruct (div_accurate prec emax _ _ Fa Fb) as (NZ & _ & DA). rewrite <- LI in DA, Fb.
    pose proof (step_ge prec) as SG. assert (H0 : 0 < h) by apply bpow_gt_0. assert (Q1 : 1 <= st ^ S i) by (apply pow_R1_Rle; exact SG).
    destruct (Nat.eq_dec c i) as [->|N].
    + assert (D1 : depth (S i) r i = i) by (unfold depth; lia). assert (ND1 : (Nat.ltb i r && Nat.ltb i (S i))%bool = true) by (destruct (Nat.ltb_spec i r), (Nat.ltb_spec i (S i)); try lia; reflexivity).
      unfold FpluProofs.bnd, FpluProofs.rep, FpluProofs.sz, FpluProofs.tail, FpluProofs.dg. rewrite D1, ND1, TS, TZ, (LOW i i) by lia. set (d := Rabs (B2R (m i i))) in *. set (t := B2R (m' r i) * B2R (m i i)) in *.
      destruct (bnd_step prec emax i (a r i) S0 Z0 (B2R (m r i)) t d (Rabs_pos _) B 0) as [G|G]; [rewrite Rplus_0_r; lra| |lra].
      rewrite Rabs_R0, !Rplus_0_r in G. eapply Rle_trans; [exact G|]. apply Rplus_le_compat_l. apply Rmult_le_compat_l; [apply Rmult_le_pos; lra|]. rewrite S_INR. lra.
    + assert (D1 : depth (S i) r c = S i) by (unfold depth; lia). assert (ND1 : (Nat.ltb c r && Nat.ltb c (S i))%bool = false) by (destruct (Nat.ltb_spec c (S i)); [lia|apply andb_false_r]).
      assert (LC : m' r c = upd prec emax (m' r i) (m i c) (m r c)). { rewrite LI. unfold m'. rewrite eliminate_spec. destruct (Nat.ltb_spec i r), (Nat.ltb_spec r rows), (Nat.eqb_spec c i), (Nat.ltb_spec i c), (Nat.ltb_spec c cols); try lia; reflexivity. }
      pose proof (F r c R C) as Fc. rewrite LC in Fc. destruct (upd_finite prec emax _ _ _ Fb (Fm i c Hi C) Fc) as (_ & UA). rewrite <- LC in UA.
      unfold FpluProofs.bnd, FpluProofs.rep, FpluProofs.sz, FpluProofs.tail, FpluProofs.dg. rewrite D1, ND1. cbn [total]. rewrite TS, TZ, (LOW i c) by lia.
      destruct (bnd_step prec emax i (a r c) S0 Z0 (B2R (m r c)) (B2R (m' r c)) 1 ltac:(lra) B (B2R (m' r i) * B2R (m i c))) as [G|G]; [rewrite Rmult_1_r; exact UA| |lra].
      rewrite S_INR, Rplus_0_r. exact G.
Qed.
(** Exchanging rows from i on. *)
Lemma rep_exch (m m1 : matrix) pvt r c : (i <= pvt < rows)%nat -> (forall r c, (c < cols)%nat -> m1 r c = m (exch i pvt r) c) -> (c < cols)%nat ->
  rep i m1 r c = rep i m (exch i pvt r) c /\ sz i m1 r c = sz i m (exch i pvt r) c /\ dg i m1 r c = dg i m (exch i pvt r) c.
Proof.
  intros P E C. assert (X : forall k, (k < i)%nat -> exch i pvt k = k) by (intros k K; unfold exch; destruct (Nat.eqb_spec k pvt), (Nat.eqb_spec k i); lia).
  assert (X2 : (r < i /\ exch i pvt r = r)%nat \/ (i <= r /\ i <= exch i pvt r)%nat) by (destruct (le_lt_dec i r) as [L|L]; [right; split; [lia|]; unfold exch; destruct (Nat.eqb_spec r pvt), (Nat.eqb_spec r i); lia|left; split; [lia|now apply X]]).
  assert (D : depth i r c = depth i (exch i pvt r) c) by (unfold depth; lia).
  assert (B : (Nat.ltb c r && Nat.ltb c i)%bool = (Nat.ltb c (exch i pvt r) && Nat.ltb c i)%bool) by (destruct (Nat.ltb_spec c r), (Nat.ltb_spec c (exch i pvt r)), (Nat.ltb_spec c i); try lia; reflexivity).
  assert (T : tail i m1 r c = tail i m (exch i pvt r) c). { unfold FpluProofs.tail. rewrite B, (E r c C). clear B. destruct (Nat.ltb c (exch i pvt r) && Nat.ltb c i)%bool eqn:BB; [|reflexivity]. apply andb_true_iff in BB. destruct BB as (_ & BB). apply Nat.ltb_lt in BB. rewrite (E c c C), (X c BB). reflexivity. }
  split; [|split].
  - unfold FpluProofs.rep. rewrite D, T. f_equal. apply total_ext. intros k K. unfold depth in K. rewrite (E r k), (E k c), (X k) by lia. reflexivity.
  - unfold FpluProofs.sz. rewrite D, T. f_equal. apply total_ext. intros k K. unfold depth in K. rewrite (E r k), (E k c), (X k) by lia. reflexivity.
  - unfold FpluProofs.dg. rewrite B. clear B. destruct (Nat.ltb c (exch i pvt r) && Nat.ltb c i)%bool eqn:BB; [|reflexivity]. apply andb_true_iff in BB. destruct BB as (_ & BB). apply Nat.ltb_lt in BB. rewrite (E c c C), (X c BB). reflexivity.
Qed.
(** A column of zeros. *)
Lemma rep_zero (a : R) (m : matrix) r c : (forall r, (i <= r < rows)%nat -> B2R (m r i) = 0) -> (r < rows)%nat -> Rabs (a - rep i m r c) <= bnd i m r c -> Rabs (a - rep (S i) m r c) <= bnd (S i) m r c.
Proof.
  intros Z R B. assert (CASES : (r <= i \/ c < i)%nat \/ (i < r /\ i <= c)%nat) by lia. destruct CASES as [H|(H1 & H2)].
  - destruct (same_rep i m m r c ltac:(reflexivity) H) as (E1 & E2 & E3). rewrite E1. unfold FpluProofs.bnd in *. rewrite E2, E3. eapply Rle_trans; [exact B|]. apply (bnd_grows prec emax i m); [apply sz_nonneg|apply dg_nonneg].
  - assert (D0 : depth i r c = i) by (unfold depth; lia). assert (ND : (Nat.ltb c r && Nat.ltb c i)%bool = false) by (destruct (Nat.ltb_spec c i); [lia|apply andb_false_r]). pose proof (Z r ltac:(lia)) as Zr. pose proof (Z i ltac:(lia)) as Zi.
    assert (E : rep (S i) m r c = rep i m r c /\ sz (S i) m r c = sz i m r c /\ dg (S i) m r c = 0 /\ dg i m r c = 0).
    { unfold FpluProofs.rep, FpluProofs.sz, FpluProofs.tail, FpluProofs.dg. rewrite D0, ND. destruct (Nat.eq_dec c i) as [->|N].
      - assert (D1 : depth (S i) r i = i) by (unfold depth; lia). rewrite D1. destruct (Nat.ltb_spec i r), (Nat.ltb_spec i (S i)); try lia. cbn [andb]. rewrite Zr, Zi, Rmult_0_l, Rabs_R0. repeat split; reflexivity.
      - assert (D1 : depth (S i) r c = S i) by (unfold depth; lia). rewrite D1. destruct (Nat.ltb_spec c (S i)); [lia|]. rewrite andb_false_r. cbn [total]. rewrite Zr, Rmult_0_l, Rabs_R0. repeat split; ring. }
    destruct E as (E1 & E2 & E3 & E4). rewrite E1. unfold FpluProofs.bnd in *. rewrite E2, E3. rewrite E4 in B. eapply Rle_trans; [exact B|]. apply (bnd_grows prec emax i m); [apply sz_nonneg|lra].
Qed.
Lemma quotient_small (x y : float) : is_finite y = true -> is_finite (div x y) = true -> Rabs (B2R x) <= Rabs (B2R y) -> Rabs (B2R (div x y)) <= 1.
Proof.
  intros Fy F L. destruct (div_accurate prec emax x y Fy F) as (NZ & _ & _). assert (V : B2R (div x y) = RNE (B2R x / B2R y)). { pose proof (Bdiv_correct prec emax _ _ mode_NE x y NZ) as C. unfold fl_div in *. destruct (Rlt_bool _ _); [exact (proj1 C)|]. apply overflow_infinite in C. congruence. }
  rewrite V. pose proof (FLT_exp_valid emin' prec) as VE. unfold rn. apply abs_round_le_generic; [exact VE|apply valid_rnd_N| |].
  - change 1 with (pw 0). apply generic_format_bpow. unfold FLT_exp, FmaSpec.emin. pose proof (@prec_lt_emax prec emax He). unfold Prec_gt_0 in Hp. lia.
  - unfold Rdiv. rewrite Rabs_mult, Rabs_inv. assert (0 < Rabs (B2R y)) by (now apply Rabs_pos_lt). apply (Rmult_le_reg_r (Rabs (B2R y))); [assumption|]. rewrite Rmult_assoc, Rinv_l, Rmult_1_r, Rmult_1_l by lra. exact L.
Qed.
End Step.
Section Run.
Variables (A : matrix) (rows cols : nat).
Definition inv (i : nat) (s : state) : Prop :=
  (forall r c, (r < rows)%nat -> (c < cols)%nat -> Rabs (B2R (A (fl_reorder s r) c) - rep i (fl_lu s) r c) <= bnd i (fl_lu s) r c) /\
  (forall r c, (c < i)%nat -> (c < r < rows)%nat -> Rabs (B2R (fl_lu s r c)) <= 1) /\
  (exists k, by_swaps rows k (fl_reorder s) /\ fl_parity s = Nat.odd k) /\
  (fl_degenerate s = 0%nat -> forall k, (k < i)%nat -> B2R (fl_lu s k k) <> 0).
Lemma inv_step i s : (i < rows)%nat -> (i < cols)%nat -> fin rows cols (fl_lu (fl_plu_step rows cols s i)) -> inv i s -> inv (S i) (fl_plu_step rows cols s i).
Proof.
  intros Hi Hj F (I1 & I2 & (k & I3 & I3p) & I4). pose proof (step_fin prec emax rows cols s i Hi Hj F) as Fs. pose proof (pivot_range prec emax rows (fl_lu s) i Hi) as PR. pose proof (pivot_greatest prec emax rows (fl_lu s) i Hi ltac:(intros r R; now apply Fs)) as PG.
  destruct (babs_value prec emax _ (Fs (fl_find_pivot rows (fl_lu s) i) i ltac:(lia) Hj)) as (Fz & Vz). destruct (step_cases prec emax rows cols s i Hi Hj) as [(Z & E1 & E2 & E3 & E4)|(Z & E4 & m & E1 & M & EP)]; set (pvt := fl_find_pivot rows (fl_lu s) i) in *; set (t := fl_plu_step rows cols s i) in *; clearbody t.
  - apply (eqb_zero_iff prec emax _ Fz) in Z. rewrite Vz in Z. rewrite Z in PG. assert (ZC : forall r, (i <= r < rows)%nat -> B2R (fl_lu s r i) = 0). { intros r R. pose proof (PG r R) as G. pose proof (Rabs_pos (B2R (fl_lu s r i))). destruct (Req_dec (B2R (fl_lu s r i)) 0) as [E|E]; [exact E|]. apply Rabs_pos_lt in E. lra. }
    unfold inv. rewrite E1, E2, E3, E4. split; [|split; [|split]].
    + intros r c R C. apply (rep_zero rows cols i Hi Hj (B2R (A (fl_reorder s r) c)) (fl_lu s) r c ZC R). now apply I1.
    + intros r c C R. destruct (Nat.eq_dec c i) as [->|N]; [rewrite ZC, Rabs_R0 by lia; lra|apply I2; lia].
    + exists k. split; assumption.
    + discriminate.
  - assert (NZ : B2R (fl_lu s pvt i) <> 0). { intros E. assert (G : eqb (Babs (fl_lu s pvt i)) zero = true) by (apply (eqb_zero_iff prec emax _ Fz); rewrite Vz, E; apply Rabs_R0). congruence. }
    rewrite E1 in F. assert (XI : exch i pvt i = pvt) by (unfold exch; destruct (Nat.eqb_spec i pvt), (Nat.eqb_spec i i); lia).
    assert (RO : forall r, (r < rows)%nat -> fl_reorder t r = fl_reorder s (exch i pvt r)).
    { intros r R. destruct EP as [(P & -> & _)|(P & -> & _)].
      - rewrite P. unfold exch. destruct (Nat.eqb_spec r i) as [->|]; reflexivity.
      - unfold swap, PermModel.upd, exch. destruct (Nat.eqb_spec r pvt), (Nat.eqb_spec r i); reflexivity. }
    assert (Fm : fin rows cols m) by (exact (eliminate_fin prec emax rows cols i m Hi Hj F)).
    unfold inv. rewrite E1, E4. split; [|split; [|split]].
    + intros r c R C. rewrite RO by exact R. apply (inv_elim rows cols i Hi Hj (fun r c => B2R (A (fl_reorder s (exch i pvt r)) c)) m F); [|exact R|exact C].
      clear r c R C. intros r c R C. destruct (rep_exch rows cols i Hi Hj (fl_lu s) m pvt r c PR M C) as (X1 & X2 & X3). rewrite X1. unfold FpluProofs.bnd. rewrite X2, X3. apply I1; [apply exch_lt; lia|exact C].
    + intros r c C R. destruct (Nat.eq_dec c i) as [->|N].
      * pose proof (F r i ltac:(lia) Hj) as G. rewrite eliminate_spec, Nat.eqb_refl in G |- *. destruct (Nat.ltb_spec i r), (Nat.ltb_spec r rows); try lia. cbn [andb] in *. apply (quotient_small rows cols i Hi Hj); [apply Fm; lia|exact G|]. rewrite !M, XI by lia. apply PG. unfold exch. destruct (Nat.eqb_spec r pvt), (Nat.eqb_spec r i); lia.
      * rewrite eliminate_same by lia. rewrite M by lia. apply I2; [lia|]. split; [unfold exch; destruct (Nat.eqb_spec r pvt), (Nat.eqb_spec r i); lia|apply exch_lt; lia].
    + destruct EP as [(P & -> & ->)|(P & -> & ->)]; [exists k; split; assumption|]. exists (S k). split.
      * apply (bs_swap rows k (fl_reorder s) _ i pvt I3); [lia|lia|congruence|]. intros r R. unfold swap, PermModel.upd. destruct (Nat.eqb_spec r i), (Nat.eqb_spec r pvt); congruence.
      * rewrite I3p, Nat.odd_succ, <- Nat.negb_odd. reflexivity.
    + intros D q K. rewrite eliminate_same by lia. rewrite M by lia. destruct (Nat.eq_dec q i) as [->|N]; [rewrite XI; exact NZ|]. assert (XQ : exch i pvt q = q) by (unfold exch; destruct (Nat.eqb_spec q pvt), (Nat.eqb_spec q i); lia). rewrite XQ. apply I4; [exact D|lia].
Qed.
Definition run (i : nat) : state := fold_left (fl_plu_step rows cols) (seq 0 i) (fl_mkPlu A (fun i => i) false 0).
Lemma inv_run i : (i <= Nat.min rows cols - 1)%nat -> fin rows cols (fl_lu (run i)) -> fin rows cols A /\ inv i (run i).
Proof.
  induction i as [|i IH]; intros Hn F.
  - split; [exact F|]. unfold run, inv. cbn [seq fold_left fl_lu fl_reorder fl_parity fl_degenerate]. split; [|split; [|split]].
    + intros r c _ _. unfold FpluProofs.rep, FpluProofs.bnd, FpluProofs.sz, FpluProofs.tail, FpluProofs.dg, depth. cbn [Nat.min total pow INR]. rewrite andb_false_r. rewrite Rplus_0_l, Rminus_diag_eq, Rabs_R0 by reflexivity. lra.
    + intros; lia.
    + exists 0%nat. split; [|reflexivity]. constructor. intros q _. reflexivity.
    + intros; lia.
  - unfold run in F |- *. rewrite seq_S, fold_left_app in F |- *. cbn [fold_left Nat.add] in F |- *. fold (run i) in *. pose proof (step_fin prec emax rows cols (run i) i ltac:(lia) ltac:(lia) F) as Fi. destruct (IH ltac:(lia) Fi) as (FA & I). split; [exact FA|]. apply inv_step; [lia|lia|exact F|exact I].
Qed.
Lemma rep_product n (m : matrix) r c : (r < n)%nat -> rep (n - 1) m r c = lu_product n m r c /\ sz (n - 1) m r c = lu_product_size n m r c.
Proof.
  intros RL. unfold lu_product, lu_product_size. assert (T : forall f g : nat -> R, forall q, (q < n)%nat -> (forall k, (k < q)%nat -> f k = g k) -> (forall k, (q < k < n)%nat -> f k = 0) -> total n f = total q g + f q).
  { intros f g q Q E Z. rewrite (total_split n q) by exact Q. rewrite (total_ext q f g) by (intros; now apply E). f_equal. assert (ZZ : over (above q n) f = 0). { rewrite (over_ext _ f (fun _ => 0)) by (intros k K; apply in_above in K; now apply Z). induction (above q n) as [|x l IH]; [reflexivity|]. rewrite over_cons, IH. ring. } rewrite ZZ. ring. }
  unfold FpluProofs.rep, FpluProofs.sz, FpluProofs.tail, depth. destruct (Nat.ltb_spec c r) as [L|L].
  - replace (Nat.min (n - 1) (Nat.min r c)) with c by lia. destruct (Nat.ltb_spec c (n - 1)); [|lia]. cbn [andb].
    assert (Q : lower_part m r c * upper_part m c c = B2R (m r c) * B2R (m c c)) by (unfold lower_part, upper_part; destruct (Nat.ltb_spec c r); [|lia]; rewrite Nat.ltb_irrefl; reflexivity).
    split; symmetry.
    + rewrite (T _ (fun k => B2R (m r k) * B2R (m k c)) c); [now rewrite Q|lia| |]; intros k K; unfold lower_part, upper_part; destruct (Nat.ltb_spec k r), (Nat.ltb_spec c k); try lia; ring.
    + rewrite (T _ (fun k => Rabs (B2R (m r k) * B2R (m k c))) c); [now rewrite Q|lia| |]; intros k K; unfold lower_part, upper_part; destruct (Nat.ltb_spec k r), (Nat.ltb_spec c k); try lia; rewrite ?Rmult_0_r, ?Rabs_R0; reflexivity.
  - replace (Nat.min (n - 1) (Nat.min r c)) with r by lia. cbn [andb].
    assert (Q : lower_part m r r * upper_part m r c = B2R (m r c)) by (unfold lower_part, upper_part; rewrite Nat.ltb_irrefl, Nat.eqb_refl; destruct (Nat.ltb_spec c r); [lia|ring]).
    split; symmetry.
    + rewrite (T _ (fun k => B2R (m r k) * B2R (m k c)) r); [now rewrite Q|lia| |]; intros k K; unfold lower_part, upper_part; destruct (Nat.ltb_spec k r), (Nat.eqb_spec k r), (Nat.ltb_spec c k); try lia; ring.
    + rewrite (T _ (fun k => Rabs (B2R (m r k) * B2R (m k c))) r); [now rewrite Q|lia| |]; intros k K; unfold lower_part, upper_part; destruct (Nat.ltb_spec k r), (Nat.eqb_spec k r), (Nat.ltb_spec c k); try lia; rewrite ?Rmult_0_l, ?Rabs_R0; reflexivity.
Qed.
Lemma decomposed : (rows <= cols)%nat -> let d := fl_decomp_plu A rows cols in (forall r c, (r < rows)%nat -> (c < cols)%nat -> is_finite (fl_lu d r c) = true) ->
  (forall r c, (r < rows)%nat -> (c < cols)%nat -> is_finite (A r c) = true) /\ (exists k, by_swaps rows k (fl_reorder d) /\ fl_parity d = Nat.odd k) /\
  (forall r c, (r < rows)%nat -> (c < cols)%nat -> Rabs (B2R (A (fl_reorder d r) c) - lu_product rows (fl_lu d) r c) <= plu_bound rows (fl_lu d) r c) /\
  (forall r c, (c < r < rows)%nat -> Rabs (B2R (fl_lu d r c)) <= 1) /\ (fl_degenerate d = 0%nat -> forall k, (k < rows - 1)%nat -> B2R (fl_lu d k k) <> 0).
Proof.
  intros L d F. unfold d, fl_decomp_plu in *. replace (Nat.min rows cols - 1)%nat with (rows - 1)%nat in * by lia. fold (run (rows - 1)) in *. destruct (inv_run (rows - 1) ltac:(lia) F) as (FA & I1 & I2 & I3 & I4). split; [exact FA|]. split; [exact I3|]. split; [|split].
  - intros r c R C. pose proof (I1 r c R C) as B. destruct (rep_product rows (fl_lu (run (rows - 1))) r c R) as (E1 & E2). rewrite E1 in B. eapply Rle_trans; [exact B|]. unfold FpluProofs.bnd, plu_bound. rewrite E2. pose proof (step_ge prec) as SG. assert (P0 : 1 <= st ^ (rows - 1)) by (apply pow_R1_Rle; exact SG). assert (P1 : st ^ (rows - 1) <= st ^ rows) by (apply Rle_pow; [exact SG|lia]). assert (H0 : 0 < h) by apply bpow_gt_0. pose proof (pos_INR (rows - 1)) as N0. assert (N1 : INR (rows - 1) <= INR rows) by (apply le_INR; lia).
    pose proof (dg_nonneg prec emax (rows - 1) (fl_lu (run (rows - 1))) r c) as D0. assert (D1 : dg (rows - 1) (fl_lu (run (rows - 1))) r c <= if Nat.ltb c r then Rabs (B2R (fl_lu (run (rows - 1)) c c)) else 0) by (unfold FpluProofs.dg; destruct (Nat.ltb c r), (Nat.ltb c (rows - 1)); cbn [andb]; try lra; apply Rabs_pos).
    apply Rplus_le_compat; [apply Rmult_le_compat_r; [rewrite <- E2; apply sz_nonneg|lra]|]. apply Rmult_le_compat; [apply Rmult_le_pos; lra|lra|apply Rmult_le_compat_r; lra|lra].
  - intros r c R. apply I2; lia.
  - exact I4.
Qed.
(** Whatever the elements are. *)
Lemma order_swaps i : (i <= Nat.min rows cols - 1)%nat -> exists k, by_swaps rows k (fl_reorder (run i)) /\ fl_parity (run i) = Nat.odd k.
Proof.
  induction i as [|i IH]; intros Hn.
  - exists 0%nat. split; [|reflexivity]. constructor. intros q _. reflexivity.
  - destruct (IH ltac:(lia)) as (k & B & P). unfold run. rewrite seq_S, fold_left_app. cbn [fold_left Nat.add]. fold (run i). set (s := run i) in *. clearbody s.
    pose proof (pivot_range prec emax rows (fl_lu s) i ltac:(lia)) as PR. destruct (step_cases prec emax rows cols s i ltac:(lia) ltac:(lia)) as [(_ & _ & E2 & E3 & _)|(_ & _ & m & _ & _ & [(_ & E2 & E3)|(N & E2 & E3)])]; rewrite E2, E3; [now exists k|now exists k|].
    exists (S k). split; [|rewrite P, Nat.odd_succ, <- Nat.negb_odd; reflexivity].
    apply (bs_swap rows k (fl_reorder s) _ i (fl_find_pivot rows (fl_lu s) i) B); [lia|lia|congruence|]. intros r R. unfold swap, PermModel.upd. destruct (Nat.eqb_spec r i), (Nat.eqb_spec r (fl_find_pivot rows (fl_lu s) i)); congruence.
Qed.
Lemma ordered : let d := fl_decomp_plu A rows cols in exists k, by_swaps rows k (fl_reorder d) /\ fl_parity d = Nat.odd k.
Proof. exact (order_swaps _ (le_n _)). Qed.
End Run.
End Plu.
