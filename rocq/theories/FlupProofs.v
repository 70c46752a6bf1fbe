From Coq Require Import Reals ZArith Lia Lra Bool List.
From Flocq Require Import Core BinarySingleNaN.
From Verif Require Import PermModel PermSpec PermProofs PermSignProofs.
From Verif Require Import FmaModel FmaSpec FmaProofs FquadModel FquadSpec FquadProofs FquadMore FvecModel FvecSpec FvecProofs FvecMore FinvProofs FcholModel FcholProofs FsolveSpec FsolveProofs FsolveMore FpluModel FpluSpec FpluProofs FpluMore FlupModel.
Import ListNotations.
Open Scope R_scope.

Section Lup.
Variable prec emax : Z.
Context {Hp : Prec_gt_0 prec} {He : Prec_lt_emax prec emax}.
Notation float := (binary_float prec emax).
Notation matrix := (nat -> nat -> float).
Notation pw := (bpow radix2).
Notation emin' := (FmaSpec.emin prec emax).
Notation st := (step prec).
Notation h := (pw (emin' - 1)).
Notation div := (fl_div prec emax). Notation eqb := (fl_eqb prec emax). Notation zero := (fl_lit prec emax 0 0).
Notation state := (fl_plu prec emax).
Notation rep := (rep prec emax). Notation sz := (sz prec emax). Notation dg := (dg prec emax). Notation bnd := (bnd prec emax). Notation fin := (fin prec emax). Notation tail := (tail prec emax).
Lemma col_swap_spec rows (m : matrix) a b r c : fl_col_swap rows m a b r c = if Nat.ltb r rows then m r (exch a b c) else m r c.
Proof.
  unfold fl_col_swap, exch. revert r c. induction rows as [|n IH]; intros r c; [reflexivity|]. rewrite seq_S, fold_left_app. cbn [fold_left Nat.add].
  set (m1 := fold_left _ (seq 0 n) m : matrix) in *. destruct (Nat.eq_dec r n) as [->|N].
  - replace (Nat.ltb n (S n)) with true by (symmetry; apply Nat.ltb_lt; lia).
    assert (E : forall c, m1 n c = m n c) by (intros c'; rewrite IH, Nat.ltb_irrefl; reflexivity).
    destruct (Nat.eqb_spec c b) as [->|Nb]; [rewrite set_same; apply E|]. rewrite set_col by auto.
    destruct (Nat.eqb_spec c a) as [->|Na]; [rewrite set_same; apply E|]. rewrite set_col by auto. apply E.
  - rewrite !set_row by auto. rewrite IH. destruct (Nat.ltb_spec r n), (Nat.ltb_spec r (S n)); try lia; reflexivity.
Qed.
(** The pivot of a row is that of a column of the transposed matrix. *)
Lemma pivot_col cols (m : matrix) i : fl_find_pivot_col cols m i = fl_find_pivot cols (fun r c => m c r) i.
Proof. reflexivity. Qed.
Lemma pivot_col_range cols (m : matrix) i : (i < cols)%nat -> (i <= fl_find_pivot_col cols m i < cols)%nat.
Proof. intros H. rewrite pivot_col. now apply (pivot_range prec emax). Qed.
Lemma pivot_col_greatest cols (m : matrix) i : (i < cols)%nat -> (forall c, (c < cols)%nat -> is_finite (m i c) = true) -> forall c, (i <= c < cols)%nat -> Rabs (B2R (m i c)) <= Rabs (B2R (m i (fl_find_pivot_col cols m i))).
Proof. intros H F. rewrite pivot_col. exact (pivot_greatest prec emax cols (fun r c => m c r) i H F). Qed.
Lemma lup_cases rows cols (s : state) i : let pvt := fl_find_pivot_col cols (fl_lu s) i in let t := fl_lup_step rows cols s i in
  (eqb (Babs (fl_lu s i pvt)) zero = true /\ fl_lu t = fl_lu s /\ fl_reorder t = fl_reorder s /\ fl_parity t = fl_parity s /\ fl_degenerate t = S (fl_degenerate s)) \/
  (eqb (Babs (fl_lu s i pvt)) zero = false /\ fl_degenerate t = fl_degenerate s /\ exists m, fl_lu t = fl_eliminate rows cols i m /\ (forall r c, (r < rows)%nat -> m r c = fl_lu s r (exch i pvt c)) /\
     ((pvt = i /\ fl_reorder t = fl_reorder s /\ fl_parity t = fl_parity s) \/ (pvt <> i /\ fl_reorder t = swap (fl_reorder s) i pvt /\ fl_parity t = negb (fl_parity s)))).
Proof.
  intros pvt t. unfold t, fl_lup_step. fold pvt. destruct (eqb _ zero); [left; cbn; auto|right]. split; [reflexivity|]. destruct (Nat.eqb_spec pvt i) as [E|N]; (split; [reflexivity|]).
  - exists (fl_lu s). split; [reflexivity|]. split; [|left; auto]. intros r c C. rewrite E. unfold exch. destruct (Nat.eqb_spec c i) as [->|]; reflexivity.
  - exists (fl_col_swap rows (fl_lu s) i pvt). split; [reflexivity|]. split; [|right; auto]. intros r c C. rewrite col_swap_spec. destruct (Nat.ltb_spec r rows); [reflexivity|lia].
Qed.
Lemma lup_fin rows cols (s : state) i : (i < rows)%nat -> (i < cols)%nat -> fin rows cols (fl_lu (fl_lup_step rows cols s i)) -> fin rows cols (fl_lu s).
Proof.
  intros Hi Hj F. pose proof (pivot_col_range cols (fl_lu s) i Hj) as PR. destruct (lup_cases rows cols s i) as [(_ & E & _)|(_ & _ & m & E & M & _)]; rewrite E in F; [exact F|]. apply (eliminate_fin prec emax rows cols i m Hi Hj) in F.
  intros r c R C. pose proof (F r (exch i (fl_find_pivot_col cols (fl_lu s) i) c) R ltac:(apply exch_lt; lia)) as G. rewrite M in G by exact R. now rewrite exch_twice in G.
Qed.
Lemma rep_exch_col rows i (m m1 : matrix) pvt r c : (i <= pvt)%nat -> (forall r c, (r < rows)%nat -> m1 r c = m r (exch i pvt c)) -> (r < rows)%nat ->
  rep i m1 r c = rep i m r (exch i pvt c) /\ sz i m1 r c = sz i m r (exch i pvt c) /\ dg i m1 r c = dg i m r (exch i pvt c).
Proof.
  intros P E C. assert (X : forall k, (k < i)%nat -> exch i pvt k = k) by (intros k K; unfold exch; destruct (Nat.eqb_spec k pvt), (Nat.eqb_spec k i); lia).
  assert (X2 : (c < i /\ exch i pvt c = c)%nat \/ (i <= c /\ i <= exch i pvt c)%nat) by (destruct (le_lt_dec i c) as [L|L]; [right; split; [lia|]; unfold exch; destruct (Nat.eqb_spec c pvt), (Nat.eqb_spec c i); lia|left; split; [lia|now apply X]]).
  assert (D : depth i r c = depth i r (exch i pvt c)) by (unfold depth; lia).
  assert (B : (Nat.ltb c r && Nat.ltb c i)%bool = (Nat.ltb (exch i pvt c) r && Nat.ltb (exch i pvt c) i)%bool).
  { destruct X2 as [(_ & ->)|(X3 & X4)]; [reflexivity|]. destruct (Nat.ltb_spec c i), (Nat.ltb_spec (exch i pvt c) i); try lia; now rewrite !andb_false_r. }
  assert (CC : (Nat.ltb c r && Nat.ltb c i)%bool = true -> m1 c c = m (exch i pvt c) (exch i pvt c)).
  { intros BB. apply andb_true_iff in BB. destruct BB as (B1 & B2). apply Nat.ltb_lt in B1, B2. rewrite E by lia. now rewrite !(X c B2). }
  assert (T : tail i m1 r c = tail i m r (exch i pvt c)).
  { unfold FpluProofs.tail. rewrite <- B, (E r c C). destruct (Nat.ltb c r && Nat.ltb c i)%bool; [|reflexivity]. now rewrite CC. }
  split; [|split].
  - unfold FpluProofs.rep. rewrite <- D, T. f_equal. apply total_ext. intros k K. unfold depth in K. rewrite (E r k), (E k c), (X k) by lia. reflexivity.
  - unfold FpluProofs.sz. rewrite <- D, T. f_equal. apply total_ext. intros k K. unfold depth in K. rewrite (E r k), (E k c), (X k) by lia. reflexivity.
  - unfold FpluProofs.dg. rewrite <- B. destruct (Nat.ltb c r && Nat.ltb c i)%bool; [|reflexivity]. now rewrite CC.
Qed.
Section Run.
Variables (A : matrix) (rows cols : nat).
Definition linv (i : nat) (s : state) : Prop := fl_degenerate s = 0%nat ->
  (forall r c, (r < rows)%nat -> (c < cols)%nat -> Rabs (B2R (A r (fl_reorder s c)) - rep i (fl_lu s) r c) <= bnd i (fl_lu s) r c) /\
  (forall r c, (r < i)%nat -> (r <= c < cols)%nat -> Rabs (B2R (fl_lu s r c)) <= Rabs (B2R (fl_lu s r r))) /\
  (forall k, (k < i)%nat -> B2R (fl_lu s k k) <> 0).
Lemma linv_step i s : (i < rows)%nat -> (i < cols)%nat -> fin rows cols (fl_lu (fl_lup_step rows cols s i)) -> linv i s -> linv (S i) (fl_lup_step rows cols s i).
Proof.
  intros Hi Hj F I D. pose proof (lup_fin rows cols s i Hi Hj F) as Fs. pose proof (pivot_col_range cols (fl_lu s) i Hj) as PR. pose proof (pivot_col_greatest cols (fl_lu s) i Hj ltac:(intros r R; now apply Fs)) as PG.
  destruct (babs_value prec emax _ (Fs i (fl_find_pivot_col cols (fl_lu s) i) Hi ltac:(lia))) as (Fz & Vz). destruct (lup_cases rows cols s i) as [(_ & _ & _ & _ & E4)|(Z & E4 & m & E1 & M & EP)]; [congruence|]. set (pvt := fl_find_pivot_col cols (fl_lu s) i) in *. set (t := fl_lup_step rows cols s i) in *. clearbody t.
  rewrite E4 in D. destruct (I D) as (I1 & I2 & I4).
  assert (NZ : B2R (fl_lu s i pvt) <> 0). { intros E. assert (G : eqb (Babs (fl_lu s i pvt)) zero = true) by (apply (eqb_zero_iff prec emax _ Fz); rewrite Vz, E; apply Rabs_R0). congruence. }
  rewrite E1 in F. assert (XI : exch i pvt i = pvt) by (unfold exch; destruct (Nat.eqb_spec i pvt), (Nat.eqb_spec i i); lia).
  assert (XQ : forall q, (q < i)%nat -> exch i pvt q = q) by (intros q Q; unfold exch; destruct (Nat.eqb_spec q pvt), (Nat.eqb_spec q i); lia).
  assert (RO : forall c, fl_reorder t c = fl_reorder s (exch i pvt c)).
  { intros r. destruct EP as [(P & -> & _)|(P & -> & _)].
    - rewrite P. unfold exch. destruct (Nat.eqb_spec r i) as [->|]; reflexivity.
    - unfold swap, PermModel.upd, exch. destruct (Nat.eqb_spec r pvt), (Nat.eqb_spec r i); reflexivity. }
  rewrite E1. split; [|split].
  - intros r c R C. rewrite RO. apply (inv_elim prec emax rows cols i Hi Hj (fun r c => B2R (A r (fl_reorder s (exch i pvt c)))) m F); [|exact R|exact C].
    clear r c R C. intros r c R C. destruct (rep_exch_col rows i (fl_lu s) m pvt r c ltac:(lia) M R) as (X1 & X2 & X3). rewrite X1. unfold FpluProofs.bnd. rewrite X2, X3. apply I1; [exact R|apply exch_lt; lia].
  - intros r c R C. rewrite !(eliminate_same prec emax rows cols i Hi Hj) by lia. rewrite !M by lia. destruct (Nat.eq_dec r i) as [->|N].
    + rewrite XI. apply PG. split; [unfold exch; destruct (Nat.eqb_spec c pvt), (Nat.eqb_spec c i); lia|apply exch_lt; lia].
    + rewrite (XQ r) by lia. apply I2; [lia|]. split; [unfold exch; destruct (Nat.eqb_spec c pvt), (Nat.eqb_spec c i); lia|apply exch_lt; lia].
  - intros q K. rewrite (eliminate_same prec emax rows cols i Hi Hj) by lia. rewrite M by lia. destruct (Nat.eq_dec q i) as [->|N]; [rewrite XI; exact NZ|]. rewrite XQ by lia. apply I4. lia.
Qed.
Definition lrun (i : nat) : state := fold_left (fl_lup_step rows cols) (seq 0 i) (fl_mkPlu A (fun i => i) false 0).
Lemma linv_run i : (i <= Nat.min rows cols - 1)%nat -> fin rows cols (fl_lu (lrun i)) -> fin rows cols A /\ linv i (lrun i).
Proof.
  induction i as [|i IH]; intros Hn F.
  - split; [exact F|]. unfold lrun, linv. cbn [seq fold_left fl_lu fl_reorder fl_parity fl_degenerate]. intros _. split; [|split].
    + intros r c _ _. unfold FpluProofs.rep, FpluProofs.bnd, FpluProofs.sz, FpluProofs.tail, FpluProofs.dg, depth. cbn [Nat.min total pow INR]. rewrite andb_false_r. rewrite Rplus_0_l, Rminus_diag_eq, Rabs_R0 by reflexivity. lra.
    + intros; lia.
    + intros; lia.
  - unfold lrun in F |- *. rewrite seq_S, fold_left_app in F |- *. cbn [fold_left Nat.add] in F |- *. fold (lrun i) in *. pose proof (lup_fin rows cols (lrun i) i ltac:(lia) ltac:(lia) F) as Fi. destruct (IH ltac:(lia) Fi) as (FA & I). split; [exact FA|]. apply linv_step; [lia|lia|exact F|exact I].
Qed.
Lemma lorder_swaps i : (i <= Nat.min rows cols - 1)%nat -> exists k, by_swaps cols k (fl_reorder (lrun i)) /\ fl_parity (lrun i) = Nat.odd k.
Proof.
  induction i as [|i IH]; intros Hn.
  - exists 0%nat. split; [|reflexivity]. constructor. intros q _. reflexivity.
  - destruct (IH ltac:(lia)) as (k & B & P). unfold lrun. rewrite seq_S, fold_left_app. cbn [fold_left Nat.add]. fold (lrun i). set (s := lrun i) in *. clearbody s.
    pose proof (pivot_col_range cols (fl_lu s) i ltac:(lia)) as PR. destruct (lup_cases rows cols s i) as [(_ & _ & E2 & E3 & _)|(_ & _ & m & _ & _ & [(_ & E2 & E3)|(N & E2 & E3)])]; rewrite E2, E3; [now exists k|now exists k|].
    exists (S k). split; [|rewrite P, Nat.odd_succ, <- Nat.negb_odd; reflexivity].
    apply (bs_swap cols k (fl_reorder s) _ i (fl_find_pivot_col cols (fl_lu s) i) B); [lia|lia|congruence|]. intros r R. unfold swap, PermModel.upd. destruct (Nat.eqb_spec r i), (Nat.eqb_spec r (fl_find_pivot_col cols (fl_lu s) i)); congruence.
Qed.
Lemma lordered : let d := fl_decomp_lup A rows cols in exists k, by_swaps cols k (fl_reorder d) /\ fl_parity d = Nat.odd k.
Proof. exact (lorder_swaps _ (le_n _)). Qed.
Lemma ldecomposed : (rows <= cols)%nat -> let d := fl_decomp_lup A rows cols in (forall r c, (r < rows)%nat -> (c < cols)%nat -> is_finite (fl_lu d r c) = true) ->
  (forall r c, (r < rows)%nat -> (c < cols)%nat -> is_finite (A r c) = true) /\ (fl_degenerate d = 0%nat ->
  (forall r c, (r < rows)%nat -> (c < cols)%nat -> Rabs (B2R (A r (fl_reorder d c)) - lu_product rows (fl_lu d) r c) <= plu_bound rows (fl_lu d) r c) /\
  (forall r c, (r < rows - 1)%nat -> (r <= c < cols)%nat -> Rabs (B2R (fl_lu d r c)) <= Rabs (B2R (fl_lu d r r))) /\ (forall k, (k < rows - 1)%nat -> B2R (fl_lu d k k) <> 0)).
Proof.
  intros L d F. unfold d, fl_decomp_lup in *. replace (Nat.min rows cols - 1)%nat with (rows - 1)%nat in * by lia. fold (lrun (rows - 1)) in *. destruct (linv_run (rows - 1) ltac:(lia) F) as (FA & I). split; [exact FA|]. intros D. destruct (I D) as (I1 & I2 & I4). split; [|split; [exact I2|exact I4]].
  intros r c R C. pose proof (I1 r c R C) as B. destruct (rep_product prec emax rows (fl_lu (lrun (rows - 1))) r c R) as (E1 & E2). rewrite E1 in B. eapply Rle_trans; [exact B|]. unfold FpluProofs.bnd, plu_bound. rewrite E2. pose proof (step_ge prec) as SG. assert (P0 : 1 <= st ^ (rows - 1)) by (apply pow_R1_Rle; exact SG). assert (P1 : st ^ (rows - 1) <= st ^ rows) by (apply Rle_pow; [exact SG|lia]). assert (H0 : 0 < h) by apply bpow_gt_0. pose proof (pos_INR (rows - 1)) as N0. assert (N1 : INR (rows - 1) <= INR rows) by (apply le_INR; lia).
  pose proof (dg_nonneg prec emax (rows - 1) (fl_lu (lrun (rows - 1))) r c) as D0. assert (D1 : dg (rows - 1) (fl_lu (lrun (rows - 1))) r c <= if Nat.ltb c r then Rabs (B2R (fl_lu (lrun (rows - 1)) c c)) else 0) by (unfold FpluProofs.dg; destruct (Nat.ltb c r), (Nat.ltb c (rows - 1)); cbn [andb]; try lra; apply Rabs_pos).
  apply Rplus_le_compat; [apply Rmult_le_compat_r; [rewrite <- E2; apply sz_nonneg|lra]|]. apply Rmult_le_compat; [apply Rmult_le_pos; lra|lra|apply Rmult_le_compat_r; lra|lra].
Qed.
End Run.
End Lup.
