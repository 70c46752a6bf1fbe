From Coq Require Import Reals Arith List Lra Lia Bool.
From Verif Require Import VecNModel PerlinSpec PerlinProofs BasisModel BasisSpec BasisProofs ZonalModel ZonalSpec.
Import ListNotations.
Open Scope R_scope.

Lemma zget_in z i : (i < zn z)%nat -> zget z i = Some (zc z i).
Proof. intros H. unfold zget. now rewrite (proj2 (Nat.ltb_lt _ _) H). Qed.
Lemma zget_out z i : (zn z <= i)%nat -> zget z i = None.
Proof. intros H. unfold zget. now rewrite (proj2 (Nat.ltb_ge _ _) H). Qed.
Lemma zset_in z i v : (i < zn z)%nat -> zset z i v = Some (mkZonal (zn z) (upd (zc z) i v)).
Proof. intros H. unfold zset. now rewrite (proj2 (Nat.ltb_lt _ _) H). Qed.
Lemma upd_eq c i v : upd c i v i = v. Proof. unfold upd. now rewrite Nat.eqb_refl. Qed.
Lemma upd_neq c i v j : j <> i -> upd c i v j = c j. Proof. intros H. unfold upd. now rewrite (proj2 (Nat.eqb_neq _ _) H). Qed.
Lemma bonnet_P i x : bonnet (S i) x (P (S i) x) (P i x) = P (S (S i)) x.
Proof. now rewrite P_SS. Qed.
(** ** dot *)
Lemma zdot_none a b l : fold_left (fun s i => match s, zget a i, zget b i with Some sum, Some x, Some y => Some (sum + x * y) | _, _, _ => None end) l (@None R) = None.
Proof. induction l; [reflexivity|]. cbn [fold_left]. exact IHl. Qed.
Lemma zdot_prefix a b k : (k <= zn a)%nat -> (k <= zn b)%nat ->
  fold_left (fun s i => match s, zget a i, zget b i with Some sum, Some x, Some y => Some (sum + x * y) | _, _, _ => None end) (seq 0 k) (Some 0)
  = Some (rsum k (fun i => zc a i * zc b i)).
Proof.
  induction k as [|k IH]; intros A B; [reflexivity|]. rewrite seq_S, fold_left_app, IH by lia. cbn [fold_left Nat.add rsum].
  now rewrite !zget_in by lia.
Qed.
Lemma zdot_is a b : zdot a b = if (zn a <=? zn b)%nat then Some (rsum (zn a) (fun i => zc a i * zc b i)) else None.
Proof.
  unfold zdot. destruct (Nat.leb_spec (zn a) (zn b)); [now apply zdot_prefix|].
  replace (zn a) with (zn b + S (zn a - zn b - 1))%nat at 1 by lia. rewrite seq_app, fold_left_app, zdot_prefix by lia.
  cbn [seq fold_left]. rewrite (zget_out b) by lia. destruct (zget a _); apply zdot_none.
Qed.
(** ** eval *)
Lemma zeval_loop z x k s0 : (k + 2 <= zn z)%nat -> fold_left (fun '(sum, p_0, p_1) i =>
        let p_i := bonnet i x p_1 p_0 in
        (match sum, zget z (i + 1) with Some s, Some c => Some (s + c * p_i) | _, _ => None end, p_1, p_i)) (seq 1 k) (Some s0, 1, x)
  = (Some (s0 + rsum k (fun l => zc z (l + 2) * P (l + 2) x)), P k x, P (S k) x).
Proof.
  induction k as [|k IH]; intros H.
  - cbn. now rewrite Rplus_0_r.
  - rewrite seq_S, fold_left_app, IH by lia. cbn [fold_left Nat.add rsum]. cbv zeta. rewrite bonnet_P, zget_in by lia.
    replace (S (k + 1)) with (k + 2)%nat by lia. replace (S (S k)) with (k + 2)%nat by lia. rewrite Rplus_assoc. reflexivity.
Qed.
Lemma rsum_shift n f : rsum (S n) f = f 0%nat + rsum n (fun i => f (S i)).
Proof. induction n as [|n IH]; [cbn; ring|]. change (rsum (S (S n)) f) with (rsum (S n) f + f (S n)). rewrite IH. cbn [rsum]. ring. Qed.
Lemma zeval_is z x : (1 <= zn z)%nat -> zeval z x = Some (zonal_fn (zn z) (zc z) x).
Proof.
  intros H. unfold zeval. rewrite zget_in by lia. unfold zonal_fn. destruct (Nat.ltb_spec 1 (zn z)).
  - rewrite zget_in by lia. rewrite zeval_loop by lia. f_equal.
    replace (zn z) with (S (S (zn z - 1 - 1))) at 2 by lia. rewrite !rsum_shift, !legendre_P, P_0, P_1.
    rewrite (rsum_ext _ (fun l => zc z (l + 2) * P (l + 2) x) (fun i => zc z (S (S i)) * legendre (S (S i)) x)); [ring|].
    intros i _. rewrite legendre_P. now replace (i + 2)%nat with (S (S i)) by lia.
  - replace (zn z - 1 - 1)%nat with 0%nat by lia. cbn [seq fold_left]. replace (zn z) with 1%nat by lia. cbn [rsum]. rewrite legendre_P, P_0. f_equal. ring.
Qed.
(** ** spot *)
Lemma spot_loop z x k : (k < zn z)%nat -> exists c, fold_left (fun '(z, p_0, p_1) i =>
        let k := (2 * INR i + 1) / 2 in
        let p_i := bonnet i x p_1 p_0 in
        (match z with Some z => zset z i (- k * (p_i - p_0) / (2 * INR i + 1)) | None => None end, p_1, p_i)) (seq 1 k) (Some z, 1, x)
  = (Some (mkZonal (zn z) c), P k x, P (S k) x) /\ c 0%nat = zc z 0%nat /\ (forall j, (k < j)%nat -> c j = zc z j) /\
  forall j, (1 <= j <= k)%nat -> c j = (P (j - 1) x - P (S j) x) / 2.
Proof.
  induction k as [|k IH]; intros H.
  - exists (zc z). cbn. split; [now destruct z|]. split; [reflexivity|]. split; [reflexivity|]. intros; lia.
  - destruct IH as (c & E & C0 & CH & CL); [lia|]. exists (upd c (S k) ((P k x - P (S (S k)) x) / 2)).
    rewrite seq_S, fold_left_app, E. cbn [fold_left Nat.add]. cbv zeta. rewrite bonnet_P.
    split; [|split; [|split]].
    + rewrite zset_in by (cbn; lia). cbn [zn zc]. f_equal. f_equal. f_equal. f_equal. f_equal.
      pose proof (pos_INR (S k)). field. lra.
    + rewrite upd_neq by lia. exact C0.
    + intros j J. rewrite upd_neq by lia. apply CH. lia.
    + intros j J. destruct (Nat.eq_dec j (S k)) as [->|N]; [rewrite upd_eq; now replace (S k - 1)%nat with k by lia|].
      rewrite upd_neq by trivial. apply CL. lia.
Qed.
Lemma P_int_x_1 l x : integral (P l) x 1 (match l with O => 1 - x | S l => (P l x - P (S (S l)) x) / (2 * INR l + 3) end).
Proof.
  destruct l as [|l].
  - exists (fun x => x). split; [eapply deriv_ext; [exact deriv_id|reflexivity|]; intros; cbv beta; now rewrite P_0|reflexivity].
  - eexists. split; [exact (P_integral l)|]. cbv beta. rewrite !P_at_1. pose proof (pos_INR l). field. lra.
Qed.
Definition clamp1 (x : R) : R := Rmin 1 (Rmax (-1) x).
Lemma clamp1_is x : std_min 1 (std_max (-1) x) = clamp1 x.
Proof.
  unfold clamp1, std_min, std_max. destruct (Rlt_dec (-1) x).
  - rewrite (Rmax_right (-1) x) by lra. destruct (Rlt_dec x 1); [rewrite Rmin_right|rewrite Rmin_left]; lra.
  - rewrite (Rmax_left (-1) x) by lra. destruct (Rlt_dec (-1) 1); [rewrite Rmin_right|rewrite Rmin_left]; lra.
Qed.
Lemma spot_is a z : (1 <= zn z)%nat -> exists c, generate_spot a z = Some (mkZonal (zn z) c) /\
  forall l, (l < zn z)%nat -> zonal_coefficient (fun _ => 1) (clamp1 a) 1 l (c l).
Proof.
  intros H. unfold generate_spot. rewrite clamp1_is. set (x := clamp1 a). cbv zeta. rewrite zset_in by lia.
  destruct (spot_loop (mkZonal (zn z) (upd (zc z) 0 ((2 - x - 1) / 2))) x (zn z - 1)) as (c & E & C0 & _ & CL); [cbn; lia|].
  cbn [zn] in *. rewrite E. exists c. split; [reflexivity|]. intros l L. destruct l as [|l].
  - exists (1 - x). split; [eapply integral_ext; [|exact (P_int_x_1 0 x)]; intros; cbv beta; rewrite legendre_P; ring|].
    rewrite C0. cbn [zc]. rewrite upd_eq. cbn [INR]. field.
  - exists ((P l x - P (S (S l)) x) / (2 * INR l + 3)). split; [eapply integral_ext; [|exact (P_int_x_1 (S l) x)]; intros; cbv beta; rewrite legendre_P; ring|].
    rewrite CL by lia. replace (S l - 1)%nat with l by lia. rewrite S_INR. pose proof (pos_INR l). field. lra.
Qed.
(** ** Lambertian *)
Lemma P_even_0 k : P (2 * k) 0 = (-1) ^ k * (INR (fact (2 * k)) / (4 ^ k * (INR (fact k) * INR (fact k)))).
Proof.
  induction k as [|k IH]; [cbn; field|].
  replace (2 * S k)%nat with (S (S (2 * k))) by lia. pose proof (bonnet_eq (2 * k) 0) as B. rewrite IH in B.
  assert (I2 : INR (2 * k) = 2 * INR k) by (rewrite mult_INR; reflexivity).
  rewrite (fact_simpl (S (2 * k))), (fact_simpl (2 * k)), (fact_simpl k), !mult_INR.
  rewrite (S_INR (S (2 * k))), (S_INR (2 * k)), (S_INR k). rewrite I2 in *. cbn [pow].
  pose proof (pos_INR k). pose proof (INR_fact_neq_0 k). pose proof (INR_fact_neq_0 (2 * k)).
  assert (4 ^ k <> 0) by (apply pow_nonzero; lra).
  apply (Rmult_eq_reg_l (2 * INR k + 2)); [|lra]. rewrite B.
  field. repeat split; trivial; lra.
Qed.
Lemma P_odd_0 k : P (2 * k + 1) 0 = 0.
Proof.
  assert (E : P (2 * k + 1) (- 0) = (-1) ^ (2 * k + 1) * P (2 * k + 1) 0) by apply P_parity.
  rewrite Ropp_0 in E. rewrite pow_add, pow_1_even in E. lra.
Qed.
(** The integral of x P(n) from 0 to 1. *)
Lemma xP_integral n : n <> 1%nat -> integral (fun x => x * P n x) 0 1 (- P n 0 / ((INR n + 2) * (INR n - 1))).
Proof.
  intros H. assert (N1 : INR n - 1 <> 0) by (intros E; apply H, INR_eq; cbn; lra). pose proof (pos_INR n) as Pn.
  exists (fun x => - / ((INR n + 2) * (INR n - 1)) * ((1 + (-1) * (x * x)) * (x * D 1 n x + (-1) * P n x))). split.
  - eapply deriv_ext; [exact (deriv_scal (- / ((INR n + 2) * (INR n - 1))) _ _ (deriv_mult _ _ _ _ (deriv_plus _ _ _ _ (deriv_const 1) (deriv_scal (-1) _ _ (deriv_mult _ _ _ _ deriv_id deriv_id)))
      (deriv_plus _ _ _ _ (deriv_mult _ _ _ _ deriv_id (D_deriv 1 n)) (deriv_scal (-1) _ _ (D1_deriv n)))))|reflexivity|].
    intros x. cbv beta. pose proof (legendre_ode n x) as E.
    transitivity (- / ((INR n + 2) * (INR n - 1)) * (- x * ((x * x - 1) * D 2 n x + 2 * x * D 1 n x) + 2 * x * P n x)); [ring|].
    rewrite E. field. split; lra.
  - field. split; lra.
Qed.
Lemma binom_loop k j : fold_left (fun '(a, b) i => (a * INR (i + k), b * INR i)) (seq 1 j) (1, 1) = (INR (fact (j + k)) / INR (fact k), INR (fact j)).
Proof.
  induction j as [|j IH].
  - cbn. f_equal. field. apply INR_fact_neq_0.
  - rewrite seq_S, fold_left_app, IH. cbn [fold_left Nat.add]. rewrite !fact_simpl, !mult_INR, !S_INR, !plus_INR. f_equal; [|ring].
    field. apply INR_fact_neq_0.
Qed.
Lemma lambert_band_is k : lambert_band (2 + 2 * k) = (2 * INR (2 + 2 * k) + 1) / 2 * (- P (2 + 2 * k) 0 / ((INR (2 + 2 * k) + 2) * (INR (2 + 2 * k) - 1))).
Proof.
  assert (DV : ((2 + 2 * k) / 2 = S k)%nat) by (symmetry; apply (Nat.div_unique _ _ _ 0); lia). unfold lambert_band. rewrite DV.
  rewrite binom_loop. cbv zeta beta iota.
  replace (2 + 2 * k)%nat with (2 * S k)%nat by lia. rewrite P_even_0. replace (S k + S k)%nat with (2 * S k)%nat by lia.
  rewrite pow_mult. replace (2 ^ 2) with 4 by ring.
  assert (N1 : INR (2 * S k) - 1 <> 0) by (rewrite mult_INR, (S_INR k); change (INR 2) with 2; pose proof (pos_INR k); lra).
  assert (N2 : INR (2 * S k) + 2 <> 0) by (pose proof (pos_INR (2 * S k)); lra).
  pose proof (INR_fact_neq_0 (S k)). assert (4 ^ S k <> 0) by (apply pow_nonzero; lra).
  assert (Q : (2 * S k) mod 4 = if Nat.even (S k) then 0%nat else 2%nat).
  { destruct (Nat.even (S k)) eqn:E.
    - apply Nat.even_spec in E as [q E]. rewrite E. symmetry. apply Nat.mod_unique with q; lia.
    - assert (O : Nat.odd (S k) = true) by (rewrite <- Nat.negb_even, E; reflexivity). apply Nat.odd_spec in O as [q O]. rewrite O. symmetry. apply Nat.mod_unique with q; lia. }
  rewrite Q. destruct (Nat.even (S k)) eqn:E.
  - assert (S1 : (-1) ^ S k = 1) by (apply Nat.even_spec in E as [q E]; rewrite E; apply pow_1_even).
    rewrite S1. cbn [Nat.ltb Nat.leb]. field. repeat split; trivial.
  - assert (O : Nat.odd (S k) = true) by (rewrite <- Nat.negb_even, E; reflexivity).
    assert (S1 : (-1) ^ S k = -1) by (apply Nat.odd_spec in O as [q O]; rewrite O, pow_add, pow_1_even; ring).
    rewrite S1. cbn [Nat.ltb Nat.leb]. field. repeat split; trivial.
Qed.
(** The band values: the coefficients of max(0, x). *)
Definition lambert_value (l : nat) : R :=
  match l with O => 1 / 4 | 1%nat => 1 / 2 | _ => if Nat.even l then lambert_band l else 0 end.
Lemma lambert_coefficient l : zonal_coefficient (fun x => x) 0 1 l (lambert_value l).
Proof.
  destruct l as [|[|l]].
  - exists (- P 0 0 / ((INR 0 + 2) * (INR 0 - 1))). split; [eapply integral_ext; [|apply xP_integral; lia]; intros; cbv beta; now rewrite legendre_P|]. rewrite P_0. cbn. field.
  - exists (1 / 3). split; [|cbn; field]. exists (fun x => x * x * x * / 3). split; [|field].
    eapply deriv_ext; [exact (deriv_mult _ _ _ _ (deriv_mult _ _ _ _ (deriv_mult _ _ _ _ deriv_id deriv_id) deriv_id) (deriv_const (/ 3)))|reflexivity|].
    intros x. cbv beta. rewrite legendre_P, P_1. field.
  - exists (- P (S (S l)) 0 / ((INR (S (S l)) + 2) * (INR (S (S l)) - 1))). split; [eapply integral_ext; [|apply xP_integral; lia]; intros; cbv beta; now rewrite legendre_P|].
    unfold lambert_value. destruct (Nat.even (S (S l))) eqn:E.
    + apply Nat.even_spec in E as [q E]. destruct q as [|q]; [lia|]. replace (S (S l)) with (2 + 2 * q)%nat by lia. apply lambert_band_is.
    + assert (O : Nat.odd (S (S l)) = true) by (rewrite <- Nat.negb_even, E; reflexivity). apply Nat.odd_spec in O as [q O]. rewrite O, P_odd_0. unfold Rdiv. ring.
Qed.
Lemma lambert_loop z k : (2 * k < zn z)%nat -> exists c, fold_left (fun z k => match z with Some z => zset z (2 + 2 * k) (lambert_band (2 + 2 * k)) | None => None end)
          (seq 0 k) (Some z) = Some (mkZonal (zn z) c) /\ forall j, c j = if (2 <=? j)%nat && (j <=? 2 * k)%nat && Nat.even j then lambert_band j else zc z j.
Proof.
  induction k as [|k IH]; intros H.
  - exists (zc z). split; [now destruct z|]. intros j. destruct (Nat.leb_spec 2 j), (Nat.leb_spec j (2 * 0)); try lia; reflexivity.
  - destruct IH as (c & E & C); [lia|]. rewrite seq_S, fold_left_app, E. cbn [fold_left Nat.add].
    rewrite zset_in by (cbn [zn]; lia). cbn [zn zc]. eexists. split; [reflexivity|]. intros j.
    destruct (Nat.eq_dec j (S (S (k + (k + 0))))) as [->|N].
    + rewrite upd_eq. destruct (Nat.leb_spec 2 (S (S (k + (k + 0))))), (Nat.leb_spec (S (S (k + (k + 0)))) (2 * S k)); try lia.
      replace (Nat.even (S (S (k + (k + 0))))) with true; [reflexivity|]. symmetry. apply Nat.even_spec. exists (S k). lia.
    + rewrite upd_neq by trivial. rewrite C. destruct (Nat.leb_spec 2 j), (Nat.leb_spec j (2 * k)), (Nat.leb_spec j (2 * S k)); try lia; try reflexivity.
      replace j with (2 * k + 1)%nat by lia. replace (Nat.even (2 * k + 1)) with false; [reflexivity|]. symmetry. rewrite <- Nat.negb_odd. replace (Nat.odd (2 * k + 1)) with true; [reflexivity|]. symmetry. apply Nat.odd_spec. exists k. lia.
Qed.
Definition bands_used (order n : nat) : nat := if (order <? 1)%nat then n else Nat.min order n.
Lemma even_mod j : Nat.even j = true -> exists q, j = (2 * q)%nat. Proof. intros E. now apply Nat.even_spec in E. Qed.
Lemma lambertian_is order z : (1 <= zn z)%nat -> exists c, generate_lambertian order z = Some (mkZonal (zn z) c) /\
  forall l, (l < zn z)%nat -> c l = if (l <? bands_used order (zn z))%nat || (l =? 1)%nat then lambert_value l else 0.
Proof.
  intros H. unfold generate_lambertian. fold (bands_used order (zn z)). set (ct := bands_used order (zn z)).
  assert (CT : (1 <= ct <= zn z)%nat) by (unfold ct, bands_used; destruct (Nat.ltb_spec order 1); lia).
  cbv zeta. rewrite zset_in by (cbn; lia). cbn [zn zc zclear]. destruct (Nat.ltb_spec 1 (zn z)).
  - rewrite zset_in by (cbn; lia). cbn [zn zc].
    assert (L2 : (2 * ((ct - 1) / 2) <= ct - 1)%nat) by (pose proof (Nat.div_mod (ct - 1) 2 ltac:(lia)); lia).
    assert (L3 : (ct - 1 < 2 * ((ct - 1) / 2) + 2)%nat) by (pose proof (Nat.div_mod (ct - 1) 2 ltac:(lia)); pose proof (Nat.mod_upper_bound (ct - 1) 2 ltac:(lia)); lia).
    destruct (lambert_loop (mkZonal (zn z) (upd (upd (fun _ => 0) 0 (1 / 4)) 1 (1 / 2))) ((ct - 1) / 2)) as (c & E & C); [cbn [zn]; lia|].
    cbn [zn] in E. rewrite E. exists c. split; [reflexivity|]. intros l L. rewrite C. cbn [zc].
    destruct l as [|[|l]].
    + rewrite (proj2 (Nat.ltb_lt 0 ct)) by lia. reflexivity.
    + cbn [Nat.leb andb]. cbn [Nat.eqb]. rewrite Bool.orb_true_r. reflexivity.
    + change (S (S l) =? 1)%nat with false. rewrite Bool.orb_false_r. change (2 <=? S (S l))%nat with true. cbn [andb].
      unfold lambert_value. destruct (Nat.even (S (S l))) eqn:Ev.
      * destruct (even_mod _ Ev) as [q Q]. rewrite Bool.andb_true_r.
        destruct (Nat.leb_spec (S (S l)) (2 * ((ct - 1) / 2))), (Nat.ltb_spec (S (S l)) ct); try lia; [reflexivity|].
        rewrite !upd_neq by lia. reflexivity.
      * rewrite Bool.andb_false_r. rewrite !upd_neq by lia. now destruct (S (S l) <? ct)%nat.
  - exists (upd (fun _ => 0) 0 (1 / 4)). split; [reflexivity|]. intros l L. assert (l = 0%nat) as -> by lia. destruct (Nat.ltb_spec 0 ct); [|lia]. cbn. unfold upd. cbn. lra.
Qed.
(** ** Integrals of zonal functions *)
Lemma integral_sum n (f : nat -> R -> R) a b (v : nat -> R) : (forall l, (l < n)%nat -> integral (f l) a b (v l)) -> integral (fun x => rsum n (fun l => f l x)) a b (rsum n v).
Proof.
  induction n as [|n IH]; intros H.
  - exists (fun _ => 0). split; [apply deriv_const|cbn; ring].
  - cbn [rsum]. pose proof (integral_lin 1 _ 1 _ _ _ _ _ (IH (fun l L => H l ltac:(lia))) (H n ltac:(lia))) as I.
    replace (1 * rsum n v + 1 * v n) with (rsum n v + v n) in I by ring. eapply integral_ext; [|exact I]. intros x; cbv beta; ring.
Qed.
Lemma integral_scal c f a b v : integral f a b v -> integral (fun x => c * f x) a b (c * v).
Proof. intros (F & HF & <-). exists (fun x => c * F x). split; [now apply deriv_scal|ring]. Qed.
Lemma P_product l k : integral (fun x => P l x * P k x) (-1) 1 (if (l =? k)%nat then 2 / (2 * INR l + 1) else 0).
Proof. destruct (Nat.eqb_spec l k) as [->|N]; [apply P_norm|now apply orthogonal_integral]. Qed.
(** The integral of the product of two zonal functions. *)
Lemma zonal_product n c d : zonal_integral (fun x => zonal_fn n c x * zonal_fn n d x) (rsum n (fun l => 4 * PI / (2 * INR l + 1) * (c l * d l))).
Proof.
  unfold zonal_integral.
  assert (I : integral (fun x => rsum n (fun l => rsum n (fun k => (2 * PI * c l * d k) * (P l x * P k x)))) (-1) 1
    (rsum n (fun l => rsum n (fun k => (2 * PI * c l * d k) * (if (l =? k)%nat then 2 / (2 * INR l + 1) else 0))))).
  { apply (integral_sum n (fun l x => rsum n (fun k => 2 * PI * c l * d k * (P l x * P k x)))). intros l L.
    apply (integral_sum n (fun k x => 2 * PI * c l * d k * (P l x * P k x))). intros k K. apply integral_scal, P_product. }
  replace (rsum n (fun l => 4 * PI / (2 * INR l + 1) * (c l * d l))) with (rsum n (fun l => rsum n (fun k => (2 * PI * c l * d k) * (if (l =? k)%nat then 2 / (2 * INR l + 1) else 0)))).
  - eapply integral_ext; [|exact I]. intros x. cbv beta. unfold zonal_fn.
    set (T := rsum n (fun l => d l * legendre l x)).
    transitivity (T * rsum n (fun i => 2 * PI * (c i * legendre i x))); [|rewrite rsum_scal; ring]. rewrite <- rsum_scal.
    apply rsum_ext. intros l _. unfold T. rewrite (Rmult_comm (rsum _ _)). rewrite <- rsum_scal. apply rsum_ext. intros k _. rewrite !legendre_P. ring.
  - apply rsum_ext. intros l L.
    rewrite (rsum_ext n _ (fun k => if (k =? l)%nat then 2 * PI * c l * d k * (2 / (2 * INR l + 1)) else 0)).
    + rewrite (rsum_one n l (fun k => 2 * PI * c l * d k * (2 / (2 * INR l + 1)))) by trivial. pose proof (pos_INR l). field. lra.
    + intros k _. rewrite (Nat.eqb_sym k l). destruct (l =? k)%nat; ring.
Qed.
Lemma zonal_total n c : (1 <= n)%nat -> zonal_integral (zonal_fn n c) (4 * PI * c 0%nat).
Proof.
  intros N. pose proof (zonal_product n c (fun l => if (l =? 0)%nat then 1 else 0)) as I.
  replace (rsum n _) with (4 * PI * c 0%nat) in I.
  - unfold zonal_integral in *. eapply integral_ext; [|exact I]. intros x. cbv beta. f_equal.
    replace (zonal_fn n (fun l => if (l =? 0)%nat then 1 else 0) x) with 1; [ring|].
    unfold zonal_fn. rewrite (rsum_ext n _ (fun i => if (i =? 0)%nat then legendre i x else 0)); [|intros i _; destruct (i =? 0)%nat; ring].
    rewrite (rsum_one n 0 (fun i => legendre i x)) by lia. reflexivity.
  - rewrite (rsum_ext n _ (fun i => if (i =? 0)%nat then 4 * PI / (2 * INR i + 1) * c i else 0)); [|intros i _; destruct (i =? 0)%nat; ring].
    rewrite (rsum_one n 0 (fun i => 4 * PI / (2 * INR i + 1) * c i)) by lia. cbn [INR]. field.
Qed.
Lemma zonal_integral_unique f v w : zonal_integral f v -> zonal_integral f w -> v = w.
Proof. apply integral_unique. Qed.
(** ** convolve *)
Lemma zconvolve_loop k z m : (m <= zn z)%nat -> (m <= zn k)%nat -> exists c, fold_left (fun z l => match z with
    | Some z => match zget z l, zget k l with Some c, Some k => zset z l (c * (band_factor l * k)) | _, _ => None end
    | None => None end) (seq 0 m) (Some z) = Some (mkZonal (zn z) c) /\ forall l, c l = if (l <? m)%nat then zc z l * (band_factor l * zc k l) else zc z l.
Proof.
  induction m as [|m IH]; intros A B.
  - exists (zc z). split; [now destruct z|reflexivity].
  - destruct IH as (c & E & C); [lia|lia|]. rewrite seq_S, fold_left_app, E. cbn [fold_left Nat.add]. rewrite !zget_in by (cbn; lia). rewrite zset_in by (cbn; lia).
    cbn [zn zc]. eexists. split; [reflexivity|]. intros l. destruct (Nat.eq_dec l m) as [->|N].
    + rewrite upd_eq, C. destruct (Nat.ltb_spec m m), (Nat.ltb_spec m (S m)); try lia. reflexivity.
    + rewrite upd_neq by trivial. rewrite C. destruct (Nat.ltb_spec l m), (Nat.ltb_spec l (S m)); try lia; reflexivity.
Qed.
Lemma zconvolve_none k l : fold_left (fun z l => match z with
    | Some z => match zget z l, zget k l with Some c, Some k => zset z l (c * (band_factor l * k)) | _, _ => None end
    | None => None end) l (@None zonal) = None.
Proof. induction l; [reflexivity|]. exact IHl. Qed.
Lemma zconvolve_is k z : (zn z <= zn k)%nat -> exists c, zconvolve k z = Some (mkZonal (zn z) c) /\ forall l, (l < zn z)%nat -> c l = zc z l * (band_factor l * zc k l).
Proof.
  intros H. destruct (zconvolve_loop k z (zn z) ltac:(lia) H) as (c & E & C). exists c. split; [exact E|]. intros l L. rewrite C. now rewrite (proj2 (Nat.ltb_lt _ _) L).
Qed.
Lemma zconvolve_short k z : (zn k < zn z)%nat -> zconvolve k z = None.
Proof.
  intros H. unfold zconvolve. replace (zn z) with (zn k + S (zn z - zn k - 1))%nat at 1 by lia. rewrite seq_app, fold_left_app.
  destruct (zconvolve_loop k z (zn k) ltac:(lia) ltac:(lia)) as (c & E & _). rewrite E. cbn [seq fold_left]. rewrite (zget_out k) by lia.
  destruct (zget _ _); apply zconvolve_none.
Qed.
Lemma band_factor_pos l : 0 < band_factor l.
Proof. apply sqrt_lt_R0. apply Rdiv_lt_0_compat; [pose proof PI_RGT_0; lra|pose proof (pos_INR l); lra]. Qed.
Lemma band_factor_sq l : band_factor l * band_factor l = 4 * PI / (2 * INR l + 1).
Proof. apply sqrt_sqrt. apply Rlt_le, Rdiv_lt_0_compat; [pose proof PI_RGT_0; lra|pose proof (pos_INR l); lra]. Qed.
(** ** diffuse *)
Lemma cpow_1 p m : m <> 0 -> cpow p m 1 = m.
Proof.
  intros H. unfold cpow. destruct (Rlt_dec 0 m).
  - rewrite Rmult_1_l. now apply exp_ln.
  - destruct (Rlt_dec m 0); [|lra]. rewrite !Rmult_1_l, cos_PI, exp_ln by lra. ring.
Qed.
Lemma cpow_0 p m : m <> 0 -> cpow p m 0 = 1.
Proof.
  intros H. unfold cpow. destruct (Rlt_dec 0 m).
  - rewrite Rmult_0_l. apply exp_0.
  - destruct (Rlt_dec m 0); [|lra]. rewrite !Rmult_0_l, cos_0, exp_0. ring.
Qed.
Lemma cpow_add p m s t : 0 < m -> cpow p m (s + t) = cpow p m s * cpow p m t.
Proof. intros H. unfold cpow. destruct (Rlt_dec 0 m); [|lra]. rewrite Rmult_plus_distr_r. apply exp_plus. Qed.
Lemma exp_nat n x : exp (INR n * x) = exp x ^ n.
Proof. induction n as [|n IH]; [cbn; rewrite Rmult_0_l; apply exp_0|]. rewrite S_INR, Rmult_plus_distr_r, exp_plus, IH, Rmult_1_l. cbn. ring. Qed.
Lemma cos_nat_PI n : cos (INR n * PI) = (-1) ^ n.
Proof.
  induction n as [|n IH]; [cbn; rewrite Rmult_0_l; apply cos_0|]. rewrite S_INR, Rmult_plus_distr_r, Rmult_1_l, neg_cos, IH. cbn. ring.
Qed.
Lemma cpow_nat p m n : m <> 0 -> cpow p m (INR n) = m ^ n.
Proof.
  intros H. unfold cpow. destruct (Rlt_dec 0 m).
  - now rewrite exp_nat, exp_ln.
  - destruct (Rlt_dec m 0); [|lra]. rewrite exp_nat, exp_ln, cos_nat_PI by lra. rewrite <- Rpow_mult_distr. f_equal. ring.
Qed.
(** ** project, normalize *)
Lemma zproject_loop x val z0 k : (k + 1 <= zn z0)%nat -> exists c p0 p1, fold_left (fun '(z, p_0, p_1) i =>
        let p_i := (2 * INR i + 1) * x * p_1 - INR i * p_0 / (INR i + 1) in
        (match z with Some z => zset z i (val * p_i) | None => None end, p_1, p_i))
      (seq 1 k) (Some z0, 1, x) = (Some (mkZonal (zn z0) c), p0, p1) /\ c 0%nat = zc z0 0%nat /\ ((1 <= k)%nat -> c 1%nat = val * (3 * x * x - 1 / 2)).
Proof.
  induction k as [|k IH]; intros H.
  - exists (zc z0), 1, x. split; [now destruct z0|]. split; [reflexivity|]. intros; lia.
  - destruct IH as (c & p0 & p1 & E & C0 & C1); [lia|]. rewrite seq_S, fold_left_app. destruct k as [|k].
    + cbn [seq fold_left Nat.add INR]. rewrite zset_in by lia. exists (upd (zc z0) 1 (val * (3 * x * x - 1 / 2))). eexists. eexists.
      split; [|split; [reflexivity|intros; apply upd_eq]]. f_equal. f_equal. f_equal. f_equal. f_equal. field.
    + rewrite E. cbn [fold_left Nat.add]. rewrite zset_in by (cbn; lia). cbn [zn zc]. eexists. eexists. eexists. split; [reflexivity|]. split; [rewrite upd_neq by lia; exact C0|].
      intros _. rewrite upd_neq by lia. apply C1. lia.
Qed.
Lemma zproject_is x val z : (2 <= zn z)%nat -> exists c, zproject x val z = Some (mkZonal (zn z) c) /\ c 0%nat = val /\ c 1%nat = val * (3 * x * x - 1 / 2).
Proof.
  intros H. unfold zproject. rewrite zset_in by lia. cbn [zn]. rewrite (proj2 (Nat.ltb_lt 1 (zn z))) by lia. rewrite zset_in by (cbn; lia). cbn [zn zc].
  match goal with |- context [fold_left _ _ (Some ?z0, 1, x)] => destruct (zproject_loop x val z0 (zn z - 1)) as (c & p0 & p1 & E & C0 & C1); [cbn [zn]; lia|] end.
  cbn [zn] in E. rewrite E. exists c. split; [reflexivity|]. split; [|apply C1; lia]. rewrite C0. cbn [zc]. rewrite upd_neq by lia. apply upd_eq.
Qed.
