From Coq Require Import Reals ZArith Lia Lra Bool.
From Flocq Require Import Core Relative Plus_error Mult_error Operations BinarySingleNaN.
From Verif Require Import FmaModel FmaSpec FmaProofs FquadModel FquadProofs FquadMore FvecModel FvecSpec FvecProofs FvecMore FmtxModel FmtxSpec FmtxProofs.
Open Scope R_scope.

Section Acc.
Variable prec emax : Z.
Context {Hp : Prec_gt_0 prec} {He : Prec_lt_emax prec emax}.
Notation float := (binary_float prec emax).
Notation pw := (bpow radix2).
Notation emin' := (FmaSpec.emin prec emax).
Notation fexp' := (FLT_exp emin' prec).
Notation RNE := (rn fexp' (fun t => negb (Z.even t))).
Notation FT := (generic_format radix2 fexp').
Notation u := (pw (- prec)).
Notation st := (step prec).
Notation h := (pw (emin' - 1)).
Notation add := (fl_add prec emax).
Notation mul := (fl_mul prec emax).
Notation zero := (fl_lit prec emax 0 0).

Lemma sum_model x y : FT x -> FT y -> exists e, Rabs e <= u /\ RNE (x + y) = (x + y) * (1 + e).
Proof.
  intros Fx Fy. destruct (FLT_plus_error_N_ex radix2 emin' prec (fun t => negb (Z.even t)) x y Fx Fy) as (e & E & R). exists e. split; [|exact R].
  eapply Rle_trans; [exact E|]. rewrite u_ro_u. pose proof (bpow_gt_0 radix2 (- prec)) as U.
  apply (Rmult_le_reg_r (1 + u)); [lra|]. unfold Rdiv. rewrite Rmult_assoc, Rinv_l by lra. assert (0 <= u * u) by (apply Rmult_le_pos; lra). lra.
Qed.
Lemma accum_accurate k (v w : nat -> float) s : numbers k v -> numbers k w -> is_finite (fl_accum k v w s) = true ->
  is_finite s = true /\ Rabs (B2R (fl_accum k v w s) - (B2R s + exact_dot k v w)) <= product_error_bound prec emax k (Rabs (B2R s) + sum_of_sizes k v w).
Proof.
  unfold exact_dot, sum_of_sizes, product_error_bound. assert (H0 : 0 < h) by apply bpow_gt_0. pose proof (bpow_gt_0 radix2 (- prec)) as U. assert (SG : 1 < st) by (unfold step; lra). assert (SU : st = 1 + u) by reflexivity.
  induction k as [|k IH]; intros Fv Fw F.
  - cbn [fl_accum total pow INR Nat.add] in *. split; [exact F|]. rewrite !Rplus_0_r, Rminus_diag_eq, Rabs_R0 by reflexivity. pose proof (Rabs_pos (B2R s)). assert (0 <= (st * 1 - 1) * Rabs (B2R s)) by (apply Rmult_le_pos; lra). lra.
  - cbn [fl_accum total Nat.add pow] in *. destruct (plus_finite prec emax _ _ F) as (Fk & Fm & V). destruct IH as (Fs & IH); [intros i I; apply Fv; lia|intros i I; apply Fw; lia|exact Fk|]. split; [exact Fs|].
    pose proof (mult_finite prec emax _ _ (Fv k ltac:(lia)) (Fw k ltac:(lia)) Fm) as VM. rewrite V. destruct (sum_model _ _ (b2r_format prec emax (fl_accum k v w s)) (b2r_format prec emax (mul (v k) (w k)))) as (d & D & ->). rewrite VM. clear V VM.
    set (a := B2R (fl_accum k v w s)) in *. set (x := B2R (v k) * B2R (w k)). destruct (rn_model prec emax x) as (d' & e & D' & E & ->). rewrite S_INR.
    set (S := total k (fun i => B2R (v i) * B2R (w i))) in *. set (A := total k (fun i => Rabs (B2R (v i) * B2R (w i)))) in *. set (s0 := B2R s) in *. set (A' := Rabs s0 + A) in *.
    assert (PK : 1 <= st ^ (k + 1)) by (apply pow_R1_Rle; lra). set (p := st ^ (k + 1)) in *.
    assert (SA : Rabs (s0 + S) <= A'). { eapply Rle_trans; [apply Rabs_triang|]. pose proof (total_abs k (fun i => B2R (v i) * B2R (w i))) as T. cbv beta in T. fold S A in T. unfold A'. lra. }
    assert (X0 : 0 <= Rabs x) by apply Rabs_pos.
    assert (D1 : Rabs (1 + d) <= st). { unfold step. eapply Rle_trans; [apply Rabs_triang|]. rewrite Rabs_R1. lra. }
    replace ((a + (x * (1 + d') + e)) * (1 + d) - (s0 + (S + x))) with ((a - (s0 + S)) * (1 + d) + (d * (s0 + S + x) + (d' * x + e) * (1 + d))) by ring.
    assert (B1 : Rabs ((a - (s0 + S)) * (1 + d)) <= ((p - 1) * A' + INR k * p * h) * st) by (rewrite Rabs_mult; apply Rmult_le_compat; try apply Rabs_pos; assumption).
    assert (B2 : Rabs (d * (s0 + S + x)) <= u * (A' + Rabs x)). { rewrite Rabs_mult. apply Rmult_le_compat; try apply Rabs_pos; [exact D|]. eapply Rle_trans; [apply Rabs_triang|]. lra. }
    assert (B3 : Rabs ((d' * x + e) * (1 + d)) <= (u * Rabs x + h) * st).
    { rewrite Rabs_mult. apply Rmult_le_compat; try apply Rabs_pos; [|exact D1]. eapply Rle_trans; [apply Rabs_triang|]. rewrite Rabs_mult. assert (Rabs d' * Rabs x <= u * Rabs x) by (apply Rmult_le_compat_r; assumption). lra. }
    eapply Rle_trans; [apply Rabs_triang|]. pose proof (Rabs_triang (d * (s0 + S + x)) ((d' * x + e) * (1 + d))) as B4.
    replace (Rabs s0 + (A + Rabs x)) with (A' + Rabs x) by (unfold A'; ring).
    assert (PS : st <= p). { unfold p. rewrite <- (pow_1 st) at 1. apply Rle_pow; [lra|lia]. }
    assert (G1 : ((p - 1) * A' + INR k * p * h) * st + (u * (A' + Rabs x) + (u * Rabs x + h) * st) <= (st * p - 1) * (A' + Rabs x) + (INR k + 1) * (st * p) * h).
    { assert (M2 : 0 <= st * (p - st) * Rabs x) by (apply Rmult_le_pos; [apply Rmult_le_pos; lra|exact X0]).
      assert (M3 : st * h <= st * p * h). { apply Rmult_le_compat_r; [lra|]. rewrite <- (Rmult_1_r st) at 1. apply Rmult_le_compat_l; lra. }
      assert (M4 : u * Rabs x + u * Rabs x * st = (st * st - 1) * Rabs x) by (rewrite SU; ring).
      replace ((st * p - 1) * (A' + Rabs x) + (INR k + 1) * (st * p) * h) with ((p - 1) * A' * st + INR k * p * h * st + ((st - 1) * A' + (st * st - 1) * Rabs x + st * (p - st) * Rabs x + st * p * h)) by ring.
      replace (st - 1) with u by (rewrite SU; ring). lra. }
    lra.
Qed.
(** *** No overflow *)
Hypothesis P2 : (2 <= prec)%Z.
Lemma sizes_nonneg k (v w : nat -> float) : 0 <= sum_of_sizes k v w. Proof. apply total_nonneg. intros; apply Rabs_pos. Qed.
Lemma accum_runs K (v w : nat -> float) s : (Z.of_nat K < 2 ^ (prec - 1))%Z -> numbers K v -> numbers K w -> is_finite s = true -> Rabs (B2R s) + sum_of_sizes K v w <= pw (emax - 3) ->
  forall k, (k <= K)%nat -> is_finite (fl_accum k v w s) = true.
Proof.
  intros KB Fv Fw Fs A. pose proof (He : (prec < emax)%Z) as PE. induction k as [|k IH]; intros KK; [exact Fs|]. specialize (IH ltac:(lia)). cbn [fl_accum].
  destruct (accum_accurate k v w s ltac:(intros i I; apply Fv; lia) ltac:(intros i I; apply Fw; lia) IH) as (_ & E). unfold product_error_bound in E.
  assert (SK : sum_of_sizes (Datatypes.S k) v w <= sum_of_sizes K v w) by (apply total_prefix; [lia|]; intros; apply Rabs_pos). unfold sum_of_sizes in SK at 1. cbn [total] in SK. fold (sum_of_sizes k v w) in SK. pose proof (sizes_nonneg k v w) as S0.
  set (x := B2R (v k) * B2R (w k)) in *. assert (XB : Rabs x <= pw (emax - 3)) by (pose proof (Rabs_pos (B2R s)); lra).
  assert (MB : Rabs (RNE x) <= pw (emax - 3)) by (apply (rn_bound prec emax); [unfold FmaSpec.emin; lia|exact XB]).
  destruct (mult_runs prec emax (v k) (w k) (Fv k ltac:(lia)) (Fw k ltac:(lia))) as (Fm & Vm). { fold x. eapply Rle_lt_trans; [exact MB|]. apply bpow_lt. lia. } fold x in Vm.
  assert (ST : st ^ (k + 1) <= 2) by (apply (pow_small prec P2); lia). assert (S1 : 1 <= st ^ (k + 1)) by (apply (pow_ge prec P2)).
  assert (TA : Rabs (exact_dot k v w) <= sum_of_sizes k v w) by apply total_abs.
  assert (TINY : INR k * st ^ (k + 1) * h <= pw (emax - 3)).
  { apply Rle_trans with (pw (prec - 1) * 2 * h).
    - apply Rmult_le_compat_r; [apply bpow_ge_0|]. apply Rmult_le_compat; [apply pos_INR|lra| |exact ST]. rewrite INR_IZR_INZ. replace (pw (prec - 1)) with (IZR (2 ^ (prec - 1))) by (apply (IZR_Zpower radix2); lia). apply IZR_le. lia.
    - change 2 with (pw 1). rewrite <- !bpow_plus. apply bpow_le. unfold FmaSpec.emin. lia. }
  set (Q := Rabs (B2R s) + sum_of_sizes k v w) in *. assert (Q0 : 0 <= Q) by (pose proof (Rabs_pos (B2R s)); unfold Q; lra).
  assert (QB : (st ^ (k + 1) - 1) * Q <= Q). { rewrite <- (Rmult_1_l Q) at 2. apply Rmult_le_compat_r; lra. }
  assert (V : Rabs (B2R (fl_accum k v w s)) <= 2 * Q + pw (emax - 3)).
  { replace (B2R (fl_accum k v w s)) with (B2R (fl_accum k v w s) - (B2R s + exact_dot k v w) + (B2R s + exact_dot k v w)) by ring. eapply Rle_trans; [apply Rabs_triang|]. pose proof (Rabs_triang (B2R s) (exact_dot k v w)). unfold Q in *. lra. }
  assert (SUM : Rabs (B2R (fl_accum k v w s) + B2R (mul (v k) (w k))) <= pw (emax - 1)).
  { eapply Rle_trans; [apply Rabs_triang|]. rewrite Vm. replace (pw (emax - 1)) with (4 * pw (emax - 3)) by (change 4 with (pw 2); rewrite <- bpow_plus; f_equal; lia). unfold Q in *. pose proof (Rabs_pos x). lra. }
  apply (plus_runs prec emax _ _ IH Fm). eapply Rle_lt_trans; [apply (rn_bound prec emax _ (emax - 1))|apply bpow_lt; lia]; [unfold FmaSpec.emin; lia|exact SUM].
Qed.
(** *** Integers *)
Lemma integer_format m : Rabs (IZR m) <= pw prec -> FT (IZR m).
Proof.
  intros B. pose proof (prec_pos prec) as PP. pose proof (He : (prec < emax)%Z) as PE. destruct (Rle_lt_or_eq_dec _ _ B) as [L|E].
  - apply generic_format_FLT. exists (Defs.Float radix2 m 0); [unfold F2R; cbn; ring| |cbn [Fexp]; unfold FmaSpec.emin; lia]. cbn [Fnum]. apply lt_IZR. rewrite abs_IZR. replace (IZR (radix2 ^ prec)) with (pw prec) by (symmetry; apply IZR_Zpower; lia). exact L.
  - assert (E' : IZR m = pw prec \/ IZR m = - pw prec) by (revert E; unfold Rabs; destruct (Rcase_abs (IZR m)); lra). destruct E' as [-> | ->]; [|apply generic_format_opp]; apply generic_format_FLT_bpow; auto; unfold FmaSpec.emin; lia.
Qed.
Lemma integer_exact k (v w : nat -> float) s : integral s -> (forall i, (i < k)%nat -> integral (v i) /\ integral (w i)) -> Rabs (B2R s) + sum_of_sizes k v w <= pw prec ->
  is_finite (fl_accum k v w s) = true /\ B2R (fl_accum k v w s) = B2R s + exact_dot k v w /\ exists m, B2R (fl_accum k v w s) = IZR m.
Proof.
  pose proof (He : (prec < emax)%Z) as PE. unfold sum_of_sizes, exact_dot. intros (Fs & ms & Is) I. induction k as [|k IH]; intros B; cbn [fl_accum total] in *; [rewrite Rplus_0_r; eauto|].
  destruct (I k ltac:(lia)) as ((Fv & mv & Iv) & (Fw & mw & Iw)). assert (IH' := IH ltac:(intros; apply I; lia)). clear IH. pose proof (Rabs_pos (B2R (v k) * B2R (w k))) as X0. destruct IH' as (Fk & Vk & mk & Ik); [lra|].
  set (x := B2R (v k) * B2R (w k)) in *. set (T := total k (fun i => B2R (v i) * B2R (w i))) in *. assert (T0 : Rabs T <= total k (fun i => Rabs (B2R (v i) * B2R (w i)))) by apply total_abs. assert (Ix : x = IZR (mv * mw)) by (unfold x; rewrite Iv, Iw, mult_IZR; reflexivity).
  assert (Bx : Rabs x <= pw prec) by (pose proof (Rabs_pos (B2R s)); pose proof (Rabs_pos T); lra).
  assert (Rx : RNE x = x) by (apply rn_id; rewrite Ix in *; now apply integer_format). destruct (mult_runs prec emax (v k) (w k) Fv Fw) as (Fm & Vm). { fold x. rewrite Rx. eapply Rle_lt_trans; [exact Bx|]. now apply bpow_lt. } fold x in Vm. rewrite Rx in Vm.
  assert (Sum : B2R (fl_accum k v w s) + x = IZR (mk + mv * mw)) by (rewrite Ik, Ix, plus_IZR; reflexivity).
  assert (Bs : Rabs (B2R (fl_accum k v w s) + x) <= pw prec). { rewrite Vk. eapply Rle_trans; [apply Rabs_triang|]. pose proof (Rabs_triang (B2R s) T). lra. }
  assert (Rs : RNE (B2R (fl_accum k v w s) + x) = B2R (fl_accum k v w s) + x) by (apply rn_id; rewrite Sum in *; now apply integer_format).
  destruct (plus_runs prec emax _ _ Fk Fm) as (Fa & Va). { rewrite Vm, Rs. eapply Rle_lt_trans; [exact Bs|]. now apply bpow_lt. } rewrite Vm, Rs in Va. split; [exact Fa|]. split; [rewrite Va, Vk; ring|]. exists (mk + mv * mw)%Z. now rewrite Va.
Qed.
End Acc.
