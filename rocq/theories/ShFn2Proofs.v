(** Lemmas on spherical harmonics along directions, rotated zonal functions and the batch Legendre evaluation. *)
From Coq Require Import Reals ZArith Arith List Lra Lia Bool.
From Verif Require Import Vec3Model QuatProofs Vec3Proofs PerlinSpec PerlinProofs BasisModel BasisSpec BasisProofs ZonalModel ZonalSpec ZonalProofs ShModel ShSpec ShProofs ShFnProofs.
Import ListNotations.
Open Scope R_scope.

Lemma dir_is d : d <> zero3 -> let x := vz d / mag3 d in let a := atan2 (vy (unit3 d)) (vx (unit3 d)) in
  -1 <= x <= 1 /\ sqrt (1 - x * x) * cos a = vx d / mag3 d /\ sqrt (1 - x * x) * sin a = vy d / mag3 d.
Proof.
  intros H x a. pose proof (mag_pos d H) as M. pose proof (mag_sq d) as Q. unfold mag2_3 in Q.
  set (ux := vx d / mag3 d) in *. set (uy := vy d / mag3 d) in *.
  assert (U : ux * ux + uy * uy + x * x = 1).
  { unfold ux, uy, x. apply (Rmult_eq_reg_r (mag3 d * mag3 d)); [|nra]. transitivity (vx d * vx d + vy d * vy d + vz d * vz d); [field; lra|]. rewrite Q. unfold dot3. ring. }
  split; [split; nra|].
  assert (W : sqrt (1 - x * x) = sqrt (uy * uy + (ux * ux + 0))) by (f_equal; lra).
  destruct (Req_dec ux 0) as [Zx|Nx].
  - destruct (Req_dec uy 0) as [Zy|Ny].
    + rewrite W, Zx, Zy. replace (0 * 0 + (0 * 0 + 0)) with 0 by ring. rewrite sqrt_0. lra.
    + destruct (atan2_polar ux uy (or_intror Ny)) as (C & S & _). unfold a, unit3. cbn [vx vy]. fold ux uy. rewrite W. now split.
  - destruct (atan2_polar ux uy (or_introl Nx)) as (C & S & _). unfold a, unit3. cbn [vx vy]. fold ux uy. rewrite W. now split.
Qed.
Lemma angles_phi d x phi : d <> zero3 -> at_angles d x phi -> let a := atan2 (vy (unit3 d)) (vx (unit3 d)) in
  vz (unit3 d) = x /\ -1 <= x <= 1 /\ sqrt (1 - x * x) * cos a = sqrt (1 - x * x) * cos phi /\ sqrt (1 - x * x) * sin a = sqrt (1 - x * x) * sin phi.
Proof.
  intros H (A & B & C) a. pose proof (mag_pos d H) as M. destruct (dir_is d H) as (X & D & E). fold a in D, E.
  assert (Ex : vz d / mag3 d = x) by (rewrite C; field; lra). rewrite Ex in *. split; [exact Ex|]. split; [exact X|].
  rewrite D, E, A, B. split; field; lra.
Qed.
Lemma eval_dir_is s d x phi : d <> zero3 -> at_angles d x phi -> sh_eval_dir s d = Some (sh_fn (shn s) (shc s) x phi).
Proof.
  intros H A. destruct (angles_phi d x phi H A) as (E & X & C & S). unfold sh_eval_dir. cbv zeta. rewrite E, eval_raw_is by trivial. f_equal. now apply sh_fn_phi.
Qed.
Lemma Yi_phi i x a b : -1 <= x <= 1 -> sqrt (1 - x * x) * cos a = sqrt (1 - x * x) * cos b -> sqrt (1 - x * x) * sin a = sqrt (1 - x * x) * sin b -> Yi i x a = Yi i x b.
Proof. intros. rewrite !Yi_sgn. apply Y_phi; trivial. exact (sub_le i). Qed.
Lemma project_dir_is s d val x phi : d <> zero3 -> at_angles d x phi -> exists c, sh_project_dir d val s = Some (mkSh (shn s) c) /\
  forall i, (i < shn s * shn s)%nat -> c i = shc s i + val * Yi i x phi.
Proof.
  intros H A. destruct (angles_phi d x phi H A) as (E & X & C & S). unfold sh_project_dir. cbv zeta. rewrite E.
  destruct (project_raw_is s x (atan2 (vy (unit3 d)) (vx (unit3 d))) val X) as (c & F & G). exists c. split; [exact F|].
  intros i I. rewrite G by trivial. do 2 f_equal. now apply Yi_phi.
Qed.
Lemma angles_exist d : d <> zero3 -> exists x phi, -1 <= x <= 1 /\ at_angles d x phi.
Proof.
  intros H. destruct (dir_is d H) as (X & C & S). pose proof (mag_pos d H). exists (vz d / mag3 d), (atan2 (vy (unit3 d)) (vx (unit3 d))). split; [exact X|].
  unfold at_angles. rewrite !Rmult_assoc, C, S. repeat split; field; lra.
Qed.
(** ** Rotated zonal functions *)
Lemma axis_is st z d x phi : (sh_bands st z <= zn z)%nat -> d <> zero3 -> at_angles d x phi -> exists c, sh_of_zonal_axis st z d = Some (mkSh (sh_bands st z) c) /\
  forall i, (i < sh_bands st z * sh_bands st z)%nat -> c i = zc z (ban i) * band_factor (ban i) * Yi i x phi.
Proof.
  intros N H A. unfold sh_of_zonal_axis. cbv zeta. set (n := sh_bands st z) in *.
  destruct (project_dir_is (sh_new n) d 1 x phi H A) as (c & E & C). rewrite E. cbn [shn shc sh_new] in *.
  set (h := fun l v => v * (zc z l * band_factor l)).
  assert (G : forall L c, (forall l, In l L -> (l < zn z)%nat) -> fold_left (fun c l => fold_left (fun c j => match c, zget z l with
        | Some c, Some k => Some (upd c (l * l + j)%nat (c (l * l + j)%nat * (k * band_factor l)))
        | _, _ => None end) (seq 0 (2 * l + 1)) c) L (Some c) = Some (fold_left (fun c l => fold_left (fun c j => upd c (l * l + j)%nat (h l (c (l * l + j)%nat))) (seq 0 (2 * l + 1)) c) L c)).
  { induction L as [|l L IH]; intros c0 HL; [reflexivity|]. cbn [fold_left]. rewrite zget_in by (apply HL; now left).
    rewrite (fold_some (fun c j => Some (upd c (l * l + j)%nat (c (l * l + j)%nat * (zc z l * band_factor l)))) (fun c j => upd c (l * l + j)%nat (h l (c (l * l + j)%nat)))); [apply IH; intros; apply HL; now right|].
    intros. reflexivity. }
  rewrite G by (intros l L; apply in_seq in L; lia). eexists. split; [reflexivity|].
  intros i I. rewrite (band_all h). rewrite (proj2 (Nat.ltb_lt (ban i) n)) by now apply ban_lt. unfold h. rewrite C by trivial. ring.
Qed.
Lemma P_1 l : P l 1 = 1.
Proof. apply P_at_1. Qed.
Lemma Pv_pole m l x : (0 < m)%nat -> x * x = 1 -> Pv m l x = 0.
Proof. intros M X. unfold Pv. rewrite X. replace (1 - 1) with 0 by ring. rewrite sqrt_0, pow_ne_zero by lia. ring. Qed.
Lemma Y_pole l m phi : (Z.abs_nat m <= l)%nat -> Y l m 1 phi = if (m =? 0)%Z then K l 0 else 0.
Proof.
  intros H. destruct (Z.eqb_spec m 0) as [->|N].
  - rewrite Y_0 by lra. rewrite P_1. ring.
  - rewrite Y_in by (trivial; lra). rewrite Pv_pole by (lia || lra). ring.
Qed.
(** ** The integral of a function *)
Lemma fn_total n c : (1 <= n)%nat -> sphere_integral (sh_fn n c) (c 0%nat * sqrt (4 * PI)).
Proof.
  intros N. assert (Ps : 0 < sqrt (4 * PI)) by (apply sqrt_lt_R0; pose proof PI_RGT_0; lra).
  eapply sphere_ext; [|rewrite Rmult_comm; apply (sphere_scal (sqrt (4 * PI)) _ _ (coeff_integral n c 0 ltac:(nia)))].
  intros x phi X. cbv beta. rewrite Yi_sgn. change (ban 0) with 0%nat. change (sgn 0) with 0%Z. rewrite Y_0 by trivial. rewrite K_00. change (P 0 x) with 1. field. lra.
Qed.
(** ** The batch evaluation *)
Lemma set2_is l m v c i : (m <= l)%nat -> sh_set2 l m v c i = if (ban i =? l)%nat && (sub i =? m)%nat then v else c i.
Proof.
  intros H. unfold sh_set2. destruct (Nat.eq_dec i (ixp l m)) as [->|N1].
  - rewrite upd_eq. destruct (proj1 (ixp_eq l m (ixp l m) H) eq_refl) as [B S0]. unfold sub. rewrite B, S0, Zabs2Nat.id, !Nat.eqb_refl. reflexivity.
  - rewrite upd_neq by trivial. destruct (Nat.eq_dec i (ixn l m)) as [->|N2].
    + rewrite upd_eq. destruct (proj1 (ixn_eq l m (ixn l m) H) eq_refl) as [B S0]. unfold sub. rewrite B, S0. replace (Z.abs_nat (- Z.of_nat m)) with m by lia. rewrite !Nat.eqb_refl. reflexivity.
    + rewrite upd_neq by trivial. destruct (Nat.eqb_spec (ban i) l) as [B|]; [|reflexivity]. destruct (Nat.eqb_spec (sub i) m) as [S0|]; [|reflexivity]. exfalso. unfold sub in S0.
      destruct (Z_le_gt_dec 0 (sgn i)); [apply N1; apply ixp_eq; [lia|]|apply N2; apply ixn_eq; [lia|]]; (split; [exact B|lia]).
Qed.
Lemma fill_loop m x c0 : forall k, exists c, fold_left (fun '(pmm0, pmm1, c) l_i =>
        let pmi := assoc_next l_i m x pmm1 pmm0 in (pmm1, pmi, sh_set2 l_i m pmi c)) (seq (m + 2) k) (Pv m m x, Pv m (S m) x, c0) = (Pv m (m + k) x, Pv m (S (m + k)) x, c) /\
  forall i, c i = if (sub i =? m)%nat && (m + 2 <=? ban i)%nat && (ban i <? m + 2 + k)%nat then Pv m (ban i) x else c0 i.
Proof.
  induction k as [|k (c & E & C)].
  - exists c0. cbn [seq fold_left]. rewrite Nat.add_0_r. split; [reflexivity|]. intros i. destruct (Nat.leb_spec (m + 2) (ban i)), (Nat.ltb_spec (ban i) (m + 2 + 0)); try lia; now rewrite ?andb_false_r.
  - rewrite seq_S, fold_left_app, E. cbn [fold_left]. cbv zeta. replace (m + 2 + k)%nat with (S (S (m + k))) by lia. rewrite <- Pv_next by lia.
    replace (m + S k)%nat with (S (m + k)) by lia. eexists. split; [reflexivity|]. intros i. rewrite set2_is by lia. rewrite C.
    destruct (Nat.eqb_spec (sub i) m); [|now rewrite andb_false_r]. rewrite andb_true_r. cbn [andb].
    destruct (Nat.eqb_spec (ban i) (S (S (m + k)))) as [->|].
    + destruct (Nat.leb_spec (m + 2) (S (S (m + k)))), (Nat.ltb_spec (S (S (m + k))) (m + 2 + S k)); try lia. reflexivity.
    + destruct (Nat.leb_spec (m + 2) (ban i)), (Nat.ltb_spec (ban i) (m + 2 + k)), (Nat.ltb_spec (ban i) (m + 2 + S k)); try lia; reflexivity.
Qed.
Lemma fill_is m x s : (m < shn s)%nat -> -1 <= x <= 1 -> exists c, sh_fill m x s = Some (mkSh (shn s) c) /\
  forall i, (i < shn s * shn s)%nat -> c i = if (sub i =? m)%nat then Pv m (ban i) x else shc s i.
Proof.
  intros M X. unfold sh_fill. cbv zeta. destruct (Nat.leb_spec (shn s) m); [lia|]. rewrite mm_in by trivial.
  assert (G : forall i, (i < shn s * shn s)%nat -> (sub i <= ban i < shn s)%nat) by (intros i I; split; [apply sub_le|now apply ban_lt]).
  destruct (Nat.eqb_spec m (shn s - 1)) as [E1|N1].
  - eexists. split; [reflexivity|]. intros i I. specialize (G i I). rewrite set2_is by lia. destruct (Nat.eqb_spec (sub i) m); [|now rewrite andb_false_r]. rewrite andb_true_r.
    destruct (Nat.eqb_spec (ban i) m) as [->|]; [reflexivity|lia].
  - rewrite <- Pv_m1. destruct (Nat.eqb_spec m (shn s - 2)) as [E2|N2].
    + eexists. split; [reflexivity|]. intros i I. specialize (G i I). rewrite !set2_is by lia. destruct (Nat.eqb_spec (sub i) m); [|now rewrite !andb_false_r]. rewrite !andb_true_r.
      destruct (Nat.eqb_spec (ban i) (m + 1)) as [->|]; [f_equal; lia|]. destruct (Nat.eqb_spec (ban i) m) as [->|]; [reflexivity|lia].
    + destruct (fill_loop m x (sh_set2 (m + 1) m (Pv m (S m) x) (sh_set2 m m (Pv m m x) (shc s))) (shn s - (m + 2))) as (c & E & C).
      cbv zeta in E. rewrite E. exists c. split; [reflexivity|]. intros i I. specialize (G i I). rewrite C, !set2_is by lia. destruct (Nat.eqb_spec (sub i) m); [|now rewrite !andb_false_r]. rewrite !andb_true_r. cbn [andb].
      rewrite (proj2 (Nat.ltb_lt (ban i) (m + 2 + (shn s - (m + 2))))) by lia. rewrite andb_true_r.
      destruct (Nat.leb_spec (m + 2) (ban i)); [reflexivity|]. destruct (Nat.eqb_spec (ban i) (m + 1)) as [->|]; [f_equal; lia|]. destruct (Nat.eqb_spec (ban i) m) as [->|]; [reflexivity|lia].
Qed.
Lemma zonal_of_sh_none s : (1 <= shn s)%nat -> zonal_of_sh s = None.
Proof.
  intros H. unfold zonal_of_sh. destruct (shn s) as [|n]; [lia|]. cbn [seq fold_left]. cbv zeta. destruct (Rlt_dec ((2 * INR 0 - 1) / (4 * PI)) 0) as [_|N].
  - assert (G : forall l, fold_left (fun c l => match c with
      | Some c => if Rlt_dec ((2 * INR l - 1) / (4 * PI)) 0 then None else Some (upd c l (shc s (ixp l 0) * sqrt ((2 * INR l - 1) / (4 * PI))))
      | None => None end) l (@None (nat -> R)) = None) by (induction l; trivial). now rewrite G.
  - exfalso. apply N. cbn [INR]. pose proof PI_RGT_0. unfold Rdiv. assert (0 < / (4 * PI)) by (apply Rinv_0_lt_compat; lra). nra.
Qed.
