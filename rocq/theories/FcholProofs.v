From Coq Require Import Reals ZArith Lia Lra Bool List.
From Flocq Require Import Core Relative BinarySingleNaN.
From Verif Require Import FmaModel FmaSpec FmaProofs FquadModel FquadSpec FquadProofs FquadMore FvecModel FvecSpec FvecProofs FvecMore FmtxModel FmtxSpec FmtxProofs FmtxMore FqnModel FqnProofs FinvProofs FcholModel FcholSpec.
Import ListNotations.
Open Scope R_scope.

Section Chol.
Variable prec emax : Z.
Context {Hp : Prec_gt_0 prec} {He : Prec_lt_emax prec emax}.
Notation float := (binary_float prec emax).
Notation matrix := (nat -> nat -> float).
Notation pw := (bpow radix2).
Notation emin' := (FmaSpec.emin prec emax).
Notation fexp' := (FLT_exp emin' prec).
Notation RNE := (rn fexp' (fun t => negb (Z.even t))).
Notation u := (pw (- prec)).
Notation st := (step prec).
Notation h := (pw (emin' - 1)).
Notation mul := (fl_mul prec emax). Notation sub := (fl_sub prec emax). Notation div := (fl_div prec emax). Notation neg := (fl_neg prec emax).
Notation zero := (fl_lit prec emax 0 0).
Notation ltb := (fl_ltb prec emax).
Let VT : Valid_exp fexp' := FLT_exp_valid emin' prec.

(** ** What the loops leave *)
Fixpoint less (k : nat) (v w : nat -> float) (s : float) : float := match k with O => s | S n => sub (less n v w s) (mul (v n) (w n)) end.
Lemma less_ext k v w v' w' s : (forall i, (i < k)%nat -> v i = v' i /\ w i = w' i) -> less k v w s = less k v' w' s.
Proof. induction k as [|k IH]; intros H; [reflexivity|]. cbn [less]. rewrite IH by (intros i I; apply H; lia). destruct (H k ltac:(lia)) as (-> & ->). reflexivity. Qed.
Lemma fold_less (v w : nat -> float) c s : fold_left (fun s k => sub s (mul (v k) (w k))) (seq 0 c) s = less c v w s.
Proof. induction c as [|c IH]; [reflexivity|]. rewrite seq_S, fold_left_app. cbn [fold_left Nat.add less]. now rewrite IH. Qed.
Lemma residue_less (m : matrix) r c : fl_residue m r c = less c (m r) (m c) (m r c). Proof. apply fold_less. Qed.
Lemma set_same (m : matrix) r c x : fl_set m r c x r c = x. Proof. unfold fl_set. now rewrite !Nat.eqb_refl. Qed.
Lemma set_row (m : matrix) r c x i j : i <> r -> fl_set m r c x i j = m i j. Proof. intros H. unfold fl_set. now apply Nat.eqb_neq in H as ->. Qed.
Lemma set_col (m : matrix) r c x i j : j <> c -> fl_set m r c x i j = m i j. Proof. intros H. unfold fl_set. apply Nat.eqb_neq in H as ->. now rewrite andb_false_r. Qed.
Section Inv.
Variables (A : matrix) (n : nat).
Definition res (m : matrix) (i j : nat) : float := less j (m i) (m j) (A i j).
Definition done (r c i j : nat) : Prop := (i < r \/ (i = r /\ j < c))%nat.
Definition value (m : matrix) (i j : nat) : float := if Nat.eqb i j then fl_sqrt prec emax (res m i j) else div (res m i j) (m j j).
Definition inv (r c : nat) (s : matrix * bool) : Prop := let (m, ok) := s in
  (forall i j, (j <= i)%nat -> done r c i j -> m i j = value m i j) /\
  (forall i j, (j <= i)%nat -> ~ done r c i j -> m i j = A i j) /\
  (forall i j, (j < i)%nat -> done r c i j -> m j i = zero) /\
  (ok = true <-> forall i, done r c i i -> ltb zero (res m i i) = true).
Lemma inv_step r c s : (c <= r)%nat -> inv r c s -> inv r (S c) (fl_chol_elem r s c).
Proof.
  intros Hc. destruct s as [m ok]. intros (I1 & I2 & I3 & I4). unfold fl_chol_elem. rewrite residue_less.
  rewrite (I2 r c Hc) by (unfold done; lia). fold (res m r c).
  assert (E : forall m' : matrix, (forall i j, (j <= i)%nat -> (i <> r \/ j <> c) -> m' i j = m i j) ->
    (forall i j, (j <= i)%nat -> done r (S c) i j -> res m' i j = res m i j)).
  { intros m' H i j Hj D. unfold res. apply less_ext. intros k Hk. unfold done in D. rewrite !H by lia. split; reflexivity. }
  destruct (Nat.eqb_spec r c) as [Erc|Nrc].
  - subst c. set (m' := fl_set m r r _).
    assert (Eo : forall i j, (j <= i)%nat -> (i <> r \/ j <> r) -> m' i j = m i j).
    { intros i j Hj N. unfold m'. destruct N; [now rewrite set_row by auto|now rewrite set_col by auto]. }
    pose proof (E m' Eo) as Er. clear E. split; [|split; [|split]].
    + intros i j Hj D. unfold value. rewrite Er by auto. destruct (Nat.eq_dec i r) as [->|Ni]; [destruct (Nat.eq_dec j r) as [->|Nj]|].
      * rewrite Nat.eqb_refl. unfold m'. now rewrite set_same.
      * rewrite !Eo by lia. apply (I1 r j Hj). unfold done in *. lia.
      * destruct (Nat.eqb_spec i j) as [<-|N]; rewrite !Eo by (unfold done in *; lia).
        -- rewrite I1 by (unfold done in *; lia). unfold value. now rewrite Nat.eqb_refl.
        -- rewrite I1 by (unfold done in *; lia). unfold value. destruct (Nat.eqb_spec i j); [contradiction|reflexivity].
    + intros i j Hj D. rewrite Eo by (unfold done in *; lia). apply I2; unfold done in *; lia.
    + intros i j Hj D. unfold m'. rewrite set_row by (unfold done in D; lia). apply (I3 i j Hj). unfold done in *. lia.
    + rewrite andb_true_iff, I4. split.
      * intros [H1 H2] i D. destruct (Nat.eq_dec i r) as [->|Ni].
        -- rewrite Er by (auto; unfold done; lia). exact H2.
        -- rewrite Er by auto. apply H1. unfold done in *. lia.
      * intros H. split.
        -- intros i D. rewrite <- Er by (auto; unfold done in *; lia). apply H. unfold done in *. lia.
        -- rewrite <- Er by (auto; unfold done; lia). apply H. unfold done. lia.
  - set (x := div (res m r c) (m c c)). set (m' := fl_set (fl_set m c r zero) r c x).
    assert (Eo : forall i j, (j <= i)%nat -> (i <> r \/ j <> c) -> m' i j = m i j).
    { intros i j Hj N. transitivity (fl_set m c r zero i j).
      - unfold m'. destruct N as [N|N]; [apply set_row|apply set_col]; exact N.
      - destruct (Nat.eq_dec i c) as [->|Nc]; [apply set_col; lia|apply set_row; exact Nc]. }
    pose proof (E m' Eo) as Er. clear E. split; [|split; [|split]].
    + intros i j Hj D. unfold value. rewrite Er by auto. destruct (Nat.eq_dec i r) as [->|Ni]; [destruct (Nat.eq_dec j c) as [->|Nj]|].
      * destruct (Nat.eqb_spec r c); [contradiction|]. rewrite (Eo c c) by lia. unfold m'. now rewrite set_same.
      * destruct (Nat.eqb_spec r j); [unfold done in D; lia|]. rewrite !Eo by (unfold done in *; lia). rewrite I1 by (unfold done in *; lia). unfold value.
        destruct (Nat.eqb_spec r j); [contradiction|reflexivity].
      * destruct (Nat.eqb_spec i j) as [<-|N]; rewrite !Eo by (unfold done in *; lia).
        -- rewrite I1 by (unfold done in *; lia). unfold value. now rewrite Nat.eqb_refl.
        -- rewrite I1 by (unfold done in *; lia). unfold value. destruct (Nat.eqb_spec i j); [contradiction|reflexivity].
    + intros i j Hj D. rewrite Eo by (unfold done in *; lia). apply I2; unfold done in *; lia.
    + intros i j Hj D. unfold m'. rewrite set_row by (unfold done in D; lia).
      destruct (Nat.eq_dec i r) as [->|Ni]; [destruct (Nat.eq_dec j c) as [->|Nj]|].
      * apply set_same.
      * rewrite set_row by auto. apply (I3 r j Hj). unfold done in *. lia.
      * rewrite set_col by auto. apply (I3 i j Hj). unfold done in *. lia.
    + rewrite I4. split; intros H i D.
      * rewrite Er by (auto; unfold done in *; lia). apply H. unfold done in *. lia.
      * rewrite <- Er by (auto; unfold done in *; lia). apply H. unfold done in *. lia.
Qed.
Lemma inv_row r s c : (c <= S r)%nat -> inv r 0 s -> inv r c (fold_left (fl_chol_elem r) (seq 0 c) s).
Proof. intros Hc I. induction c as [|c IH]; [exact I|]. rewrite seq_S, fold_left_app. cbn [fold_left Nat.add]. apply inv_step; [lia|]. apply IH. lia. Qed.
Lemma inv_next r s : inv r (S r) s -> inv (S r) 0 s.
Proof.
  destruct s as [m ok]. intros (I1 & I2 & I3 & I4).
  assert (D : forall i j, (j <= i)%nat -> done r (S r) i j <-> done (S r) 0 i j) by (intros i j H; unfold done; lia).
  split; [|split; [|split]].
  - intros i j Hj H. apply I1; auto. now apply D.
  - intros i j Hj H. apply I2; auto. rewrite D; auto.
  - intros i j Hj H. apply (I3 i j); auto. apply D; auto. lia.
  - rewrite I4. split; intros H i Hi; apply H; apply D; auto.
Qed.
Lemma inv_run r : inv r 0 (fold_left fl_chol_row (seq 0 r) (A, true)).
Proof.
  induction r as [|r IH].
  - cbn. split; [|split; [|split]]; try (intros; unfold done in *; lia); [reflexivity|]. split; [|reflexivity]. intros _ i H. unfold done in H. lia.
  - rewrite seq_S, fold_left_app. cbn [fold_left Nat.add]. apply inv_next. unfold fl_chol_row. apply inv_row; [lia|exact IH].
Qed.
End Inv.
(** ** Only the lower triangle is read *)
Definition agree (n : nat) (s s' : matrix * bool) : Prop := snd s = snd s' /\ forall i j, (j <= i < n)%nat -> fst s i j = fst s' i j.
Lemma agree_elem n r s s' c : (c <= r < n)%nat -> agree n s s' -> agree n (fl_chol_elem r s c) (fl_chol_elem r s' c).
Proof.
  intros Hc. destruct s as [m ok], s' as [m' ok']. intros [E1 E2]. cbn [fst snd] in *. subst ok'. unfold fl_chol_elem.
  assert (R : fl_residue m r c = fl_residue m' r c). { rewrite !residue_less, E2 by auto. apply less_ext. intros k Hk. now rewrite !E2 by lia. }
  rewrite R. destruct (Nat.eqb_spec r c) as [<-|N]; (split; [reflexivity|]); cbn [fst]; intros i j Hj.
  - unfold fl_set. destruct (_ && _)%bool; auto.
  - rewrite (E2 c c) by lia. unfold fl_set. destruct (_ && _)%bool; [reflexivity|]. destruct (_ && _)%bool; auto.
Qed.
Lemma agree_row n r s s' : (r < n)%nat -> agree n s s' -> agree n (fl_chol_row s r) (fl_chol_row s' r).
Proof.
  intros Hr. unfold fl_chol_row. assert (G : forall l, (forall c, In c l -> (c <= r)%nat) -> forall s s', agree n s s' -> agree n (fold_left (fl_chol_elem r) l s) (fold_left (fl_chol_elem r) l s')).
  { induction l as [|c l IH]; intros H t t' Hs; [exact Hs|]. cbn [fold_left]. apply IH; [intros; apply H; now right|]. apply agree_elem; [split; [apply H; now left|exact Hr]|exact Hs]. }
  apply G. intros c Hc. apply in_seq in Hc. lia.
Qed.
Lemma agree_run n l : (forall r, In r l -> (r < n)%nat) -> forall s s', agree n s s' -> agree n (fold_left fl_chol_row l s) (fold_left fl_chol_row l s').
Proof. induction l as [|r l IH]; intros L s s' H; [exact H|]. cbn [fold_left]. apply IH; [intros; apply L; now right|]. apply agree_row; [apply L; now left|exact H]. Qed.
Lemma upper_zero (A : matrix) n i j : (i < j < n)%nat -> fst (fl_cholesky A n) i j = zero.
Proof. intros H. pose proof (inv_run A n) as I. unfold fl_cholesky. destruct (fold_left fl_chol_row (seq 0 n) (A, true)) as [m ok]. destruct I as (_ & _ & I & _). apply (I j i); [lia|]. left. lia. Qed.
Lemma lower_only (A A' : matrix) n : (forall i j, (j <= i < n)%nat -> A i j = A' i j) -> snd (fl_cholesky A n) = snd (fl_cholesky A' n) /\ forall i j, (i < n)%nat -> (j < n)%nat -> fst (fl_cholesky A n) i j = fst (fl_cholesky A' n) i j.
Proof.
  intros H. assert (G : agree n (fl_cholesky A n) (fl_cholesky A' n)). { apply agree_run; [intros r L; apply in_seq in L; lia|]. split; [reflexivity|exact H]. }
  split; [exact (proj1 G)|]. intros i j I J. destruct (le_lt_dec j i) as [L|L]; [apply (proj2 G); lia|]. now rewrite !upper_zero by lia.
Qed.
(** ** Success means numbers *)
Lemma square_sign (v : float) : match mul v v with B754_nan => is_nan v = true | x => Bsign x = false /\ (is_finite x = true -> is_finite v = true) end.
Proof.
  destruct v as [s|s| |s m e H]; [cbn; destruct s; now split|cbn; destruct s; now split|reflexivity|]. set (v := B754_finite s m e H). pose proof (Bmult_correct prec emax _ _ mode_NE v v) as C. unfold fl_mul. destruct (Rlt_bool _ _).
  - destruct C as (_ & C2 & C3). rewrite xorb_nilpotent in C3. destruct (Bmult mode_NE v v) as [x|x| |x y z w]; (discriminate C2 || (split; [apply C3; reflexivity|reflexivity])).
  - rewrite xorb_nilpotent in C. destruct (Bmult mode_NE v v) as [x|x| |x y z w]; cbn in C; try discriminate. injection C as ->. now split.
Qed.
Lemma less_squares k (v : nat -> float) s : is_finite s = true -> let x := less k v v s in x = B754_nan \/ x = B754_infinity true \/ (is_finite x = true /\ forall i, (i < k)%nat -> is_finite (v i) = true).
Proof.
  intros Fs. induction k as [|k IH]; cbv zeta in *; cbn [less]; [right; right; split; [exact Fs|intros; lia]|]. pose proof (square_sign (v k)) as Q. set (y := mul (v k) (v k)) in *. set (x := less k v v s) in *. clearbody x y. destruct IH as [->|[->|(Fx & F)]].
  - left. reflexivity.
  - destruct y as [b|b| |b m e H]; cbn in Q; [right; left; reflexivity| |left; reflexivity|right; left; reflexivity]. destruct Q as (-> & _). right. left. reflexivity.
  - destruct (is_finite y) eqn:Fy.
    + assert (Qs : Bsign y = false /\ is_finite (v k) = true) by (destruct y; try discriminate; destruct Q as (Q1 & Q2); (split; [exact Q1|exact (Q2 eq_refl)])). destruct Qs as (Sy & Fv). pose proof (Bminus_correct prec emax _ _ mode_NE x y Fx Fy) as C. unfold fl_sub. destruct (Rlt_bool _ _).
      * destruct C as (_ & C & _). right. right. split; [exact C|]. intros i I. destruct (Nat.eq_dec i k) as [->|N]; [exact Fv|apply F; lia].
      * destruct C as (C & S). rewrite Sy in S. cbn in S. rewrite S in C. right. left. destruct (Bminus mode_NE x y); cbn in C; try discriminate. injection C as ->. reflexivity.
    + destruct y as [b|b| |b m e H]; try discriminate.
      * cbn in Q. destruct Q as (-> & _). right. left. destruct x; (reflexivity || discriminate).
      * left. destruct x; (reflexivity || discriminate).
Qed.
Lemma less_accum k (v w : nat -> float) s : less k v w s = fl_accum k (fun i => neg (v i)) w s.
Proof. induction k as [|k IH]; [reflexivity|]. cbn [less fl_accum]. rewrite IH. apply sub_mul. Qed.
Lemma less_accurate k (v w : nat -> float) s : numbers k v -> numbers k w -> is_finite (less k v w s) = true ->
  Rabs (B2R (less k v w s) - (B2R s - exact_dot k v w)) <= product_error_bound prec emax k (Rabs (B2R s) + sum_of_sizes k v w).
Proof.
  intros Fv Fw F. rewrite less_accum in *. assert (Fn : numbers k (fun i => neg (v i))) by (intros i I; unfold fl_neg; rewrite is_finite_Bopp; now apply Fv). destruct (accum_accurate prec emax k (fun i => neg (v i)) w s Fn Fw F) as (_ & H).
  replace (exact_dot k (fun i => neg (v i)) w) with (- exact_dot k v w) in H. 2:{ unfold exact_dot. clear. induction k as [|k IH]; cbn [total]; [ring|]. rewrite <- IH. unfold fl_neg. rewrite B2R_Bopp. ring. }
  replace (sum_of_sizes k (fun i => neg (v i)) w) with (sum_of_sizes k v w) in H; [exact H|]. unfold sum_of_sizes. clear. induction k as [|k IH]; cbn [total]; [reflexivity|]. rewrite IH. unfold fl_neg. rewrite B2R_Bopp, Ropp_mult_distr_l_reverse, Rabs_Ropp. reflexivity.
Qed.
Lemma positive_finite (x : float) : ltb zero x = true -> x <> B754_nan /\ x <> B754_infinity true /\ (is_finite x = true -> 0 < B2R x).
Proof.
  intros H. split; [intros ->; discriminate|]. split; [intros ->; discriminate|]. intros F. destruct (lit_zero prec emax) as (Fz & Vz). unfold fl_ltb in H. rewrite Bltb_correct in H by assumption. rewrite Vz in H. destruct (Rlt_bool_spec 0 (B2R x)); [assumption|discriminate].
Qed.
Lemma sqrt_accurate (x : float) : (2 <= prec)%Z -> is_finite x = true -> 0 < B2R x -> is_finite (fl_sqrt prec emax x) = true /\ exists d, Rabs d <= u /\ B2R (fl_sqrt prec emax x) = sqrt (B2R x) * (1 + d).
Proof.
  intros P2 F P. destruct (sqrt_runs prec emax x F ltac:(lra)) as (Fs & V). split; [exact Fs|]. rewrite V. set (y := sqrt (B2R x)). assert (Y : 0 < y) by (now apply sqrt_lt_R0).
  assert (L : pw (emin' + prec - 1) <= Rabs y).
  { rewrite Rabs_pos_eq by lra. assert (B : pw emin' <= B2R x). { pose proof (abs_B2R_ge_emin prec emax) as G. rewrite <- (Rabs_pos_eq (B2R x)) by lra. destruct x as [s|s| |s m e H]; cbn in P; try lra. apply (G (B754_finite s m e H)). reflexivity. }
    assert (Q : pw (emin' + prec - 1) * pw (emin' + prec - 1) <= B2R x). { eapply Rle_trans; [|exact B]. rewrite <- bpow_plus. apply bpow_le. unfold FmaSpec.emin. pose proof (@prec_lt_emax prec emax He). lia. }
    rewrite <- (sqrt_square (pw (emin' + prec - 1))) by apply bpow_ge_0. apply sqrt_le_1_alt. exact Q. }
  pose proof (error_le_half_ulp radix2 fexp' (fun t => negb (Z.even t)) y) as G. change (round radix2 fexp' (Znearest (fun t => negb (Z.even t))) y) with (RNE y) in G. pose proof (ulp_relative prec emax y L) as G2. rewrite (Rabs_pos_eq y) in G2 by lra.
  exists ((RNE y - y) / y). split; [|field; lra]. unfold Rdiv. rewrite Rabs_mult, (Rabs_pos_eq (/ y)) by (left; now apply Rinv_0_lt_compat). apply (Rmult_le_reg_r y); [exact Y|]. rewrite Rmult_assoc, Rinv_l by lra. lra.
Qed.
Lemma quotient_finite (x y : float) : is_finite y = true -> 0 < B2R y -> is_finite (div x y) = true -> is_finite x = true /\ B2R (div x y) = RNE (B2R x / B2R y).
Proof.
  intros Fy Y F. assert (Fx : is_finite x = true). { destruct x as [s|s| |s m e H]; try reflexivity; destruct y as [s'|s'| |s' m' e' H']; cbn in *; try discriminate; lra. } split; [exact Fx|].
  pose proof (Bdiv_correct prec emax _ _ mode_NE x y ltac:(lra)) as C. unfold fl_div in *. destruct (Rlt_bool _ _); [exact (proj1 C)|]. apply overflow_infinite in C. congruence.
Qed.
Lemma bound_split j sz d : cholesky_bound prec emax j sz d = product_error_bound prec emax j sz + (st * st - 1) * (sz + product_error_bound prec emax j sz) + d * h.
Proof. unfold cholesky_bound, product_error_bound. replace (j + 3)%nat with (j + 1 + 2)%nat by lia. rewrite (pow_add st (j + 1) 2). cbn [pow]. ring. Qed.
Lemma two_steps : 0 <= st * st - 1.
Proof. pose proof (bpow_gt_0 radix2 (- prec)). unfold step. replace ((1 + u) * (1 + u) - 1) with (2 * u + u * u) by ring. assert (0 <= u * u) by (apply Rmult_le_pos; lra). lra. Qed.
(** The rows below q have positive residues. *)
Section Result.
Variables (A L : matrix) (n q : nat).
Hypothesis P2 : (2 <= prec)%Z.
Hypothesis Q : (q <= n)%nat.
Hypothesis FA : forall i, (i < q)%nat -> is_finite (A i i) = true.
Hypothesis LV : forall i j, (j <= i < n)%nat -> L i j = value A L i j.
Hypothesis LP : forall i, (i < q)%nat -> ltb zero (res A L i i) = true.
Lemma diagonal_residue i : (i < q)%nat -> is_finite (res A L i i) = true /\ 0 < B2R (res A L i i) /\ forall k, (k < i)%nat -> is_finite (L i k) = true.
Proof.
  intros H. pose proof (LP i H) as G. apply positive_finite in G. destruct G as (N & M & P). destruct (less_squares i (L i) (A i i) (FA i H)) as [G|[G|(F & G)]]; [now elim N|now elim M|]. split; [exact F|]. split; [apply P; exact F|exact G].
Qed.
Lemma diagonal_value i : (i < q)%nat -> is_finite (L i i) = true /\ exists d, Rabs d <= u /\ B2R (L i i) = sqrt (B2R (res A L i i)) * (1 + d).
Proof. intros H. destruct (diagonal_residue i H) as (F & P & _). rewrite (LV i i) by lia. unfold value. rewrite Nat.eqb_refl. now apply sqrt_accurate. Qed.
Lemma u_half : 0 < u <= / 4. Proof. split; [apply bpow_gt_0|]. change (/ 4) with (pw (- (2))). apply bpow_le. lia. Qed.
Lemma diagonal_positive i : (i < q)%nat -> 0 < B2R (L i i).
Proof.
  intros H. destruct (diagonal_residue i H) as (F & P & _). destruct (diagonal_value i H) as (_ & d & D & ->). pose proof u_half as U. apply Rabs_le_inv in D. apply Rmult_lt_0_compat; [now apply sqrt_lt_R0|lra].
Qed.
Lemma lower_finite i j : (j <= i < q)%nat -> is_finite (L i j) = true.
Proof. intros I. destruct (Nat.eq_dec i j) as [->|N]; [apply diagonal_value; lia|apply (diagonal_residue i); lia]. Qed.
Lemma backward i j : (j <= i < n)%nat -> (j < q)%nat -> (forall k, (k <= j)%nat -> is_finite (L i k) = true) ->
  Rabs (B2R (A i j) - exact_dot (S j) (L i) (L j)) <= cholesky_bound prec emax j (Rabs (B2R (A i j)) + sum_of_sizes j (L i) (L j)) (B2R (L j j)).
Proof.
  intros H HQ FI. pose proof u_half as U. pose proof (diagonal_positive j HQ) as DP. assert (H0 : 0 < h) by apply bpow_gt_0. set (sz := Rabs (B2R (A i j)) + sum_of_sizes j (L i) (L j)). set (s := res A L i j).
  assert (SZ : 0 <= sz) by (unfold sz; pose proof (Rabs_pos (B2R (A i j))); assert (0 <= sum_of_sizes j (L i) (L j)) by (apply total_nonneg; intros; apply Rabs_pos); lra).
  assert (Fs : is_finite s = true /\ Rabs (B2R (L i j) * B2R (L j j) - B2R s) <= (st * st - 1) * Rabs (B2R s) + B2R (L j j) * h).
  { assert (SU : st * st - 1 = 2 * u + u * u) by (unfold step; ring). assert (UU : 0 <= u * u) by (apply Rmult_le_pos; lra). assert (DH : 0 <= B2R (L j j) * h) by (apply Rmult_le_pos; lra). destruct (Nat.eq_dec i j) as [E|N].
    - subst i. destruct (diagonal_residue j HQ) as (F & P & _). split; [exact F|]. destruct (diagonal_value j HQ) as (_ & d & D & V). rewrite V. fold s in P, V |- *. rewrite V in DH.
      replace (sqrt (B2R s) * (1 + d) * (sqrt (B2R s) * (1 + d)) - B2R s) with ((sqrt (B2R s) * sqrt (B2R s)) * ((1 + d) * (1 + d)) - B2R s) by ring. rewrite sqrt_sqrt by lra. replace (B2R s * ((1 + d) * (1 + d)) - B2R s) with ((2 * d + d * d) * B2R s) by ring.
      rewrite Rabs_mult. assert (Rabs (2 * d + d * d) <= st * st - 1). { rewrite SU. eapply Rle_trans; [apply Rabs_triang|]. rewrite !Rabs_mult, (Rabs_pos_eq 2) by lra. assert (Rabs d * Rabs d <= u * u) by (apply Rmult_le_compat; try apply Rabs_pos; assumption). lra. }
      assert (Rabs (2 * d + d * d) * Rabs (B2R s) <= (st * st - 1) * Rabs (B2R s)) by (apply Rmult_le_compat_r; [apply Rabs_pos|assumption]). lra.
    - pose proof (FI j (le_n j)) as F. rewrite (LV i j H) in F |- *. unfold value in F |- *. apply Nat.eqb_neq in N. rewrite N in F |- *. destruct (quotient_finite _ _ (lower_finite j j ltac:(lia)) DP F) as (Fs & V). fold s in Fs, V |- *. split; [exact Fs|]. rewrite V.
      set (y := B2R (L j j)) in *. destruct (rn_model prec emax (B2R s / y)) as (d & e & D & E & ->). replace ((B2R s / y * (1 + d) + e) * y - B2R s) with (d * B2R s + e * y) by (field; lra). eapply Rle_trans; [apply Rabs_triang|]. rewrite !Rabs_mult, (Rabs_pos_eq y) by lra.
      pose proof (Rabs_pos (B2R s)) as Ps. assert (Rabs d * Rabs (B2R s) <= (st * st - 1) * Rabs (B2R s)) by (apply Rmult_le_compat_r; lra). assert (Rabs e * y <= y * h) by (rewrite Rmult_comm; apply Rmult_le_compat_l; lra). lra. }
  destruct Fs as (Fs & E2).
  pose proof (less_accurate j (L i) (L j) (A i j) ltac:(intros k K; apply FI; lia) ltac:(intros k K; apply lower_finite; lia) Fs) as E1. change (less j (L i) (L j) (A i j)) with s in E1. fold sz in E1.
  rewrite bound_split. set (PB := product_error_bound prec emax j sz) in *. set (S0 := B2R (A i j) - exact_dot j (L i) (L j)) in *.
  assert (A0 : Rabs S0 <= sz). { unfold S0, sz. unfold Rminus. eapply Rle_trans; [apply Rabs_triang|]. rewrite Rabs_Ropp. apply Rplus_le_compat_l. apply total_abs. }
  assert (As : Rabs (B2R s) <= sz + PB). { replace (B2R s) with (S0 + (B2R s - S0)) by ring. eapply Rle_trans; [apply Rabs_triang|]. lra. }
  pose proof two_steps as SS.
  replace (exact_dot (S j) (L i) (L j)) with (exact_dot j (L i) (L j) + B2R (L i j) * B2R (L j j)) by reflexivity.
  replace (B2R (A i j) - (exact_dot j (L i) (L j) + B2R (L i j) * B2R (L j j))) with (- (B2R s - S0) - (B2R (L i j) * B2R (L j j) - B2R s)) by (unfold S0; ring).
  unfold Rminus at 1. eapply Rle_trans; [apply Rabs_triang|]. rewrite !Rabs_Ropp.
  assert (E3 : (st * st - 1) * Rabs (B2R s) <= (st * st - 1) * (sz + PB)) by (apply Rmult_le_compat_l; assumption). lra.
Qed.
End Result.
Lemma equations (A : matrix) n : let L := fst (fl_cholesky A n) in (forall i j, (j <= i < n)%nat -> L i j = value A L i j) /\ (snd (fl_cholesky A n) = true <-> forall i, (i < n)%nat -> ltb zero (res A L i i) = true).
Proof.
  pose proof (inv_run A n) as I. unfold fl_cholesky. destruct (fold_left fl_chol_row (seq 0 n) (A, true)) as [m ok]. cbn [fst snd]. destruct I as (I1 & _ & _ & I4). split; [intros i j H; apply I1; unfold done; lia|]. rewrite I4. split; intros H i Hi; apply H; unfold done in *; lia.
Qed.
Lemma success (A : matrix) n : (2 <= prec)%Z -> (forall i j, (j <= i < n)%nat -> is_finite (A i j) = true) -> snd (fl_cholesky A n) = true -> let L := fst (fl_cholesky A n) in
  (forall i j, (i < n)%nat -> (j < n)%nat -> is_finite (L i j) = true) /\ (forall i, (i < n)%nat -> 0 < B2R (L i i)) /\ (forall i j, (i < j < n)%nat -> B2R (L i j) = 0) /\
  (forall i j, (j <= i < n)%nat -> Rabs (B2R (A i j) - exact_dot (S j) (L i) (L j)) <= cholesky_bound prec emax j (Rabs (B2R (A i j)) + sum_of_sizes j (L i) (L j)) (B2R (L j j))).
Proof.
  intros P2 FA OK L. destruct (equations A n) as (LV & LP). fold L in LV, LP. pose proof (proj1 LP OK) as LQ. clear OK LP. rename LQ into OK. assert (FD : forall i, (i < n)%nat -> is_finite (A i i) = true) by (intros i I; apply FA; lia). assert (Lf : forall i j, (j <= i < n)%nat -> is_finite (L i j) = true) by (intros i j H; apply (lower_finite A L n n P2 (le_n n) FD LV OK); lia).
  split; [|split; [|split]].
  - intros i j I J. destruct (le_lt_dec j i) as [H|H]; [apply Lf; lia|]. unfold L. rewrite upper_zero by lia. exact (proj1 (lit_zero prec emax)).
  - intros i I. apply (diagonal_positive A L n n P2 (le_n n) FD LV OK). exact I.
  - intros i j H. unfold L. rewrite upper_zero by lia. exact (proj2 (lit_zero prec emax)).
  - intros i j H. apply (backward A L n n P2 (le_n n) FD LV OK); [lia|lia|]. intros k K. apply Lf. lia.
Qed.
End Chol.
