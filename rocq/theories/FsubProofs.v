From Coq Require Import Reals ZArith Lia Lra Bool List.
From Flocq Require Import Core BinarySingleNaN Relative Plus_error.
From Verif Require Import FmaModel FmaSpec FmaProofs FquadModel FquadProofs FquadMore FvecModel FvecSpec FvecProofs FvecMore FvecAcc FsolveProofs FsolveMore FprojModel FgsWit FonModel FonProofs FsubModel.
Import ListNotations.
Open Scope R_scope.

Section Sub.
Variable prec emax : Z.
Context {Hp : Prec_gt_0 prec} {He : Prec_lt_emax prec emax}.
Notation float := (binary_float prec emax).
Notation vector := (nat -> float).
Notation u := (bpow radix2 (- prec)).
Notation st := (step prec).
Notation emin' := (FmaSpec.emin prec emax).
Notation fexp' := (FLT_exp emin' prec).
Notation RNE := (rn fexp' (fun t => negb (Z.even t))).
Lemma sum_ahead (x y : float) : is_finite (fl_add prec emax x y) = true -> is_finite x = true /\ is_finite y = true /\ Rabs (B2R (fl_add prec emax x y) - (B2R x + B2R y)) <= u * Rabs (B2R x + B2R y).
Proof.
  intros F. destruct (plus_finite prec emax x y F) as (Fx & Fy & V). split; [exact Fx|]. split; [exact Fy|]. rewrite V.
  destruct (FLT_plus_error_N_ex radix2 emin' prec (fun t => negb (Z.even t)) (B2R x) (B2R y) ltac:(apply b2r_format) ltac:(apply b2r_format)) as (e & E & R). change (round radix2 fexp' (Znearest (fun t => negb (Z.even t))) (B2R x + B2R y)) with (RNE (B2R x + B2R y)) in R. rewrite R.
  replace ((B2R x + B2R y) * (1 + e) - (B2R x + B2R y)) with (e * (B2R x + B2R y)) by ring. rewrite Rabs_mult. apply Rmult_le_compat_r; [apply Rabs_pos|]. eapply Rle_trans; [exact E|]. rewrite u_ro_u. assert (U : 0 < u) by apply bpow_gt_0.
  apply (Rmult_le_reg_r (1 + u)); [lra|]. unfold Rdiv. rewrite Rmult_assoc, Rinv_l by lra. nra.
Qed.
Lemma subspace_sum N n (B : nat -> vector) (x : vector) k : let o := fl_project_to_orthogonal_subspace N n B x k in is_finite o = true ->
  (forall i, (i < n)%nat -> is_finite (fl_project_on N x (B i) k) = true) /\
  Rabs (B2R o - total n (fun i => B2R (fl_project_on N x (B i) k))) <= (st ^ n - 1) * total n (fun i => Rabs (B2R (fl_project_on N x (B i) k))).
Proof.
  unfold fl_project_to_orthogonal_subspace. induction n as [|n IH]; intros F.
  - split; [intros; lia|]. cbn [seq fold_left total pow]. rewrite (proj2 (lit_zero prec emax)), Rminus_0_r, Rabs_R0. lra.
  - rewrite seq_S, fold_left_app in *. cbn [fold_left Nat.add] in *. cbv zeta in F |- *. set (s := fold_left _ (seq 0 n) _) in *. cbv zeta in IH. destruct (sum_ahead _ _ F) as (Fs & Fp & A). destruct (IH Fs) as (I1 & I2). split; [intros i I; destruct (Nat.eq_dec i n) as [->|NE]; [exact Fp|apply I1; lia]|].
    cbn [total pow]. set (p := B2R (fl_project_on N x (B n) k)) in *. set (t := total n (fun i => B2R (fl_project_on N x (B i) k))) in *. set (z := total n (fun i => Rabs (B2R (fl_project_on N x (B i) k)))) in *. set (r := B2R (fl_add prec emax (s k) (fl_project_on N x (B n) k))) in *. set (q := st ^ n) in *.
    assert (Q : 1 <= q) by (apply pow_R1_Rle, step_ge). assert (U : 0 < u) by apply bpow_gt_0. assert (Z0 : 0 <= z) by (apply total_nonneg; intros; apply Rabs_pos). assert (T : Rabs t <= z) by (apply total_abs). pose proof (Rabs_pos p) as P0.
    assert (SZ : Rabs (B2R (s k) + p) <= q * z + Rabs p). { eapply Rle_trans; [apply Rabs_triang|]. replace (B2R (s k)) with ((B2R (s k) - t) + t) by ring. pose proof (Rabs_triang (B2R (s k) - t) t). lra. }
    replace (r - (t + p)) with ((r - (B2R (s k) + p)) + (B2R (s k) - t)) by ring. eapply Rle_trans; [apply Rabs_triang|]. pose proof (Rmult_le_compat_l u _ _ (Rlt_le _ _ U) SZ) as M.
    assert (G : u * Rabs p <= (st * q - 1) * Rabs p). { apply Rmult_le_compat_r; [exact P0|]. unfold step. nra. }
    replace ((st * q - 1) * (z + Rabs p)) with ((q - 1) * z + u * (q * z) + (st * q - 1) * Rabs p) by (unfold step; ring). lra.
Qed.
Lemma subspace_spec N n (B : nat -> vector) (x : vector) k : let r := fl_project_to_subspace N n B x in is_finite (fst r k) = true ->
  snd r = fl_orthonormalize N n B /\
  Rabs (B2R (fst r k) - total n (fun i => B2R (fl_project_on N x (snd r i) k))) <= (st ^ n - 1) * total n (fun i => Rabs (B2R (fl_project_on N x (snd r i) k))).
Proof. intros r F. split; [reflexivity|]. exact (proj2 (subspace_sum N n (fl_orthonormalize N n B) x k F)). Qed.
End Sub.
(** (0, 1, 1), in the plane of (1, 1, 1) and (1 + 2^-52, 1, 1). *)
Definition in_plane : nat -> binary_float 53 1024 := vector3 (dbl 0 0) (dbl 1 0) (dbl 1 0).
Lemma plane_lost : (exists a b, forall k, (k < 3)%nat -> B2R (in_plane k) = a * B2R (close 0 k) + b * B2R (close 1 k)) /\ B2R (in_plane 0%nat) = 0 /\ / 2 < B2R (fst (fl_project_to_subspace 3 2 close in_plane) 0%nat).
Proof.
  destruct (dbl_int 0 ltac:(lia)) as (_ & Z). destruct (dbl_int 1 ltac:(lia)) as (_ & O1). destruct close_dots as (A & (C & D & E) & _). split; [|split; [exact Z|]].
  - exists (1 + 4503599627370496), (-4503599627370496). assert (P : bpow radix2 (-52) = / 4503599627370496) by (cbn; lra). intros [|[|[|k]]] K; [| | |lia]; rewrite A, ?C, ?D, ?E; cbn [in_plane vector3]; rewrite ?Z, ?O1, ?P; lra.
  - assert (W : B2R (dbl 1 (-1)) = / 2) by (rewrite (dbl_pow (-1)) by lia; cbn; lra). rewrite <- W.
    assert (G : forall x : binary_float 53 1024, is_finite (dbl 1 (-1)) && is_finite x && Bltb (dbl 1 (-1)) x = true -> B2R (dbl 1 (-1)) < B2R x). { intros x H. apply andb_prop in H. destruct H as (F & L). apply andb_prop in F. destruct F as (F1 & F2). rewrite Bltb_correct in L by assumption. revert L. case Rlt_bool_spec; [auto|discriminate]. }
    apply G. vm_compute. reflexivity.
Qed.
Lemma plain_subspace : forall k, (k < 3)%nat -> is_finite (fl_project_to_orthogonal_subspace 3 2 close in_plane k) = true.
Proof. intros [|[|[|k]]] K; [vm_compute; reflexivity|vm_compute; reflexivity|vm_compute; reflexivity|lia]. Qed.
