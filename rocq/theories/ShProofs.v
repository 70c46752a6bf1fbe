From Coq Require Import Reals ZArith Arith List Lra Lia Bool.
From Verif Require Import Vec3Model Vec3Proofs PerlinSpec PerlinProofs BasisModel BasisSpec BasisProofs ZonalModel ZonalSpec ZonalProofs ShModel ShSpec.
Import ListNotations.
Open Scope R_scope.

(** ** The basis functions *)
Definition Pv (m l : nat) (x : R) : R := (-1) ^ m * sqrt (1 - x * x) ^ m * D m l x.
Definition K (l m : nat) : R := sqrt ((2 * INR l + 1) / (4 * PI) * (INR (fact (l - m)) / INR (fact (l + m)))).
Definition T (m : Z) (phi : R) : R :=
  if (0 <? m)%Z then sqrt 2 * cos (IZR m * phi) else if (m <? 0)%Z then sqrt 2 * sin (- IZR m * phi) else 1.
Lemma fact_pos n : 0 < INR (fact n). Proof. apply INR_fact_lt_0. Qed.
Lemma pow_half_in x m : -1 <= x <= 1 -> pow_half (1 - x * x) m = Some (sqrt (1 - x * x) ^ m).
Proof. intros H. unfold pow_half. destruct (Rlt_dec _ 0); [nra|reflexivity]. Qed.
Lemma assoc_in l m x : (m <= l)%nat -> -1 <= x <= 1 -> assoc_legendre l m x = Some (Pv m l x).
Proof.
  intros L X. destruct (assoc_defined l m x X) as [w W]. rewrite W. destruct (assoc_is l m x w L W) as (v & V & ->).
  rewrite pow_half_in in V by trivial. injection V as <-. reflexivity.
Qed.
Lemma mm_in m x : -1 <= x <= 1 -> legendre_mm m x = Some (Pv m m x).
Proof.
  intros X. pose proof (assoc_in m m x (le_n m) X) as E. unfold assoc_legendre in E. destruct (legendre_mm m x); [|discriminate]. now rewrite Nat.eqb_refl in E.
Qed.
Lemma Pv_m1 m x : Pv m (S m) x = x * (2 * INR m + 1) * Pv m m x.
Proof. unfold Pv. rewrite D_m1. ring. Qed.
Lemma Pv_next m l x : (m <= l)%nat -> Pv m (S (S l)) x = assoc_next (S (S l)) m x (Pv m (S l) x) (Pv m l x).
Proof.
  intros H. unfold assoc_next, Pv. pose proof (D_next m l x) as E. rewrite !S_INR.
  assert (NZ : INR l + 1 + 1 - INR m <> 0) by (apply le_INR in H; lra).
  apply (Rmult_eq_reg_l (INR l + 1 + 1 - INR m)); [|exact NZ].
  transitivity ((-1) ^ m * sqrt (1 - x * x) ^ m * ((INR l + 2 - INR m) * D m (S (S l)) x)); [ring|]. rewrite E. field. exact NZ.
Qed.
Lemma sh_z_prod l m : (m <= l)%nat -> forall k, (k <= 2 * m)%nat ->
  fold_left (fun z i => z * IZR (Z.of_nat l - Z.of_nat m + 1 + Z.of_nat i)) (seq 0 k) 1 = INR (fact (l - m + k)) / INR (fact (l - m)).
Proof.
  intros H. induction k as [|k IH]; intros Kk.
  - cbn [seq fold_left]. rewrite Nat.add_0_r. field. apply INR_fact_neq_0.
  - rewrite seq_S, fold_left_app, IH by lia. cbn [fold_left Nat.add]. rewrite Nat.add_succ_r, fact_simpl, mult_INR.
    replace (IZR (Z.of_nat l - Z.of_nat m + 1 + Z.of_nat k)) with (INR (S (l - m + k))); [field; apply INR_fact_neq_0|].
    rewrite INR_IZR_INZ. f_equal. lia.
Qed.
Lemma sh_z_is l m : (m <= l)%nat -> sh_z l m = INR (fact (l + m)) / INR (fact (l - m)).
Proof.
  intros H. unfold sh_z. destruct (Nat.eqb_spec l 0) as [->|N].
  - assert (m = 0%nat) as -> by lia. cbn. field.
  - rewrite sh_z_prod by lia. do 3 f_equal. lia.
Qed.
Lemma sh_z_pos l m : (m <= l)%nat -> 0 < sh_z l m.
Proof. intros H. rewrite sh_z_is by trivial. apply Rdiv_lt_0_compat; apply fact_pos. Qed.
Lemma sh_k_is l m : (m <= l)%nat -> sh_k l m = K l m.
Proof.
  intros H. unfold sh_k, K. rewrite sh_z_is by trivial. f_equal. pose proof (fact_pos (l + m)). pose proof (fact_pos (l - m)). pose proof PI_RGT_0. field. repeat split; lra.
Qed.
Lemma K_sq l m : K l m * K l m = (2 * INR l + 1) / (4 * PI) * (INR (fact (l - m)) / INR (fact (l + m))).
Proof.
  apply sqrt_sqrt. pose proof PI_RGT_0. pose proof (pos_INR l). apply Rlt_le. apply Rmult_lt_0_compat; apply Rdiv_lt_0_compat; try lra; apply fact_pos.
Qed.
Lemma sh_coeff_in l m x phi : (Z.abs_nat m <= l)%nat -> -1 <= x <= 1 -> sh_coeff l m x phi = Some (K l (Z.abs_nat m) * T m phi * Pv (Z.abs_nat m) l x).
Proof.
  intros H X. unfold sh_coeff. rewrite !assoc_in by (trivial; lia). pose proof (sh_z_pos l (Z.abs_nat m) H).
  destruct (Req_EM_T _ 0); [lra|]. f_equal.
  replace (1 / sh_z l (Z.abs_nat m) * ((2 * INR l + 1) / (4 * PI))) with (1 / sh_z l (Z.abs_nat m) * (2 * INR l + 1) / (4 * PI)) by (unfold Rdiv; ring).
  fold (sh_k l (Z.abs_nat m)). rewrite sh_k_is by trivial. unfold T.
  destruct (Z.ltb_spec 0 m); [ring|]. destruct (Z.ltb_spec m 0); [ring|]. assert (m = 0%Z) as -> by lia. cbn. ring.
Qed.
Lemma Y_in l m x phi : (Z.abs_nat m <= l)%nat -> -1 <= x <= 1 -> Y l m x phi = K l (Z.abs_nat m) * T m phi * Pv (Z.abs_nat m) l x.
Proof. intros H X. unfold Y. now rewrite sh_coeff_in. Qed.
Lemma abs_INR m : INR (Z.abs_nat m) = IZR (Z.abs m). Proof. rewrite INR_IZR_INZ. f_equal. lia. Qed.
Lemma T_harmonic l m x phi (p : R -> R) : p x = Pv (Z.abs_nat m) l x -> K l (Z.abs_nat m) * T m phi * Pv (Z.abs_nat m) l x = harmonic l m p x phi.
Proof.
  intros Q. unfold harmonic, T. fold (K l (Z.abs_nat m)). rewrite Q, abs_INR. destruct (Z.eqb_spec m 0) as [->|N]; [cbn; ring|].
  destruct (Z.ltb_spec 0 m); [rewrite Z.abs_eq by lia; ring|]. destruct (Z.ltb_spec m 0); [|lia]. rewrite Z.abs_neq by lia. rewrite opp_IZR. ring.
Qed.

(** ** Orthonormality *)
Lemma legendre_ode_m m l : forall x, (1 - x * x) * D (S (S m)) l x - 2 * (INR m + 1) * x * D (S m) l x + (INR l - INR m) * (INR l + INR m + 1) * D m l x = 0.
Proof.
  induction m as [|m IH]; intros x.
  - pose proof (legendre_ode l x) as E. rewrite D_0. cbn [INR]. lra.
  - pose (f := fun x => (1 + (-1) * (x * x)) * D (S (S m)) l x + ((-2 * (INR m + 1)) * (x * D (S m) l x) + ((INR l - INR m) * (INR l + INR m + 1)) * D m l x)).
    pose proof (deriv_plus _ _ _ _ (deriv_mult _ _ _ _ (deriv_plus _ _ _ _ (deriv_const 1) (deriv_scal (-1) _ _ (deriv_mult _ _ _ _ deriv_id deriv_id))) (D_deriv (S (S m)) l))
      (deriv_plus _ _ _ _ (deriv_scal (-2 * (INR m + 1)) _ _ (deriv_mult _ _ _ _ deriv_id (D_deriv (S m) l))) (deriv_scal ((INR l - INR m) * (INR l + INR m + 1)) _ _ (D_deriv m l)))) as Df.
    fold f in Df. assert (Z : deriv f (fun _ => 0)) by (eapply deriv_ext; [exact (deriv_const 0)| |reflexivity]; intros y; cbv beta; unfold f; rewrite <- (IH y); ring).
    pose proof (deriv_unique _ _ _ x Df Z) as E. cbv beta in E. rewrite S_INR. rewrite <- E. ring.
Qed.
Lemma deriv_pow_w m : deriv (fun x => (1 - x * x) ^ S m) (fun x => - (2 * (INR m + 1)) * x * (1 - x * x) ^ m).
Proof.
  assert (W : deriv (fun x => 1 - x * x) (fun x => - 2 * x)).
  { eapply deriv_ext; [exact (deriv_plus _ _ _ _ (deriv_const 1) (deriv_scal (-1) _ _ (deriv_mult _ _ _ _ deriv_id deriv_id)))| |]; intros; cbv beta; ring. }
  induction m as [|m IH].
  - eapply deriv_ext; [exact W| |]; intros; cbn; ring.
  - eapply deriv_ext; [exact (deriv_mult _ _ _ _ W IH)| |]; intros x; cbv beta; [reflexivity|]. rewrite S_INR. cbn [pow]. ring.
Qed.
Lemma assoc_product l k : forall m, (m <= l)%nat -> (m <= k)%nat -> integral (fun x => (1 - x * x) ^ m * (D m l x * D m k x)) (-1) 1
  (if (l =? k)%nat then 2 / (2 * INR l + 1) * (INR (fact (l + m)) / INR (fact (l - m))) else 0).
Proof.
  induction m as [|m IH]; intros L M.
  - replace (if (l =? k)%nat then _ else 0) with (if (l =? k)%nat then 2 / (2 * INR l + 1) else 0).
    + eapply integral_ext; [|exact (P_product l k)]. intros x. cbv beta. rewrite !D_0. cbn. ring.
    + destruct (l =? k)%nat; [|reflexivity]. rewrite Nat.add_0_r, Nat.sub_0_r. pose proof (pos_INR l). field. split; [apply INR_fact_neq_0|lra].
  - destruct (IH ltac:(lia) ltac:(lia)) as (G & DG & VG). set (q := (INR l - INR m) * (INR l + INR m + 1)).
    exists (fun x => (1 - x * x) ^ S m * (D (S m) l x * D m k x) + q * G x). split.
    + eapply deriv_ext; [exact (deriv_plus _ _ _ _ (deriv_mult _ _ _ _ (deriv_pow_w m) (deriv_mult _ _ _ _ (D_deriv (S m) l) (D_deriv m k))) (deriv_scal q _ _ DG))|reflexivity|].
      intros x. cbv beta. pose proof (legendre_ode_m m l x) as E. fold q in E.
      transitivity ((1 - x * x) ^ m * D m k x * ((1 - x * x) * D (S (S m)) l x - 2 * (INR m + 1) * x * D (S m) l x + q * D m l x) + (1 - x * x) ^ S m * (D (S m) l x * D (S m) k x)); [cbn [pow]; ring|].
      rewrite E. ring.
    + replace ((1 - 1 * 1) ^ S m) with 0 by (cbn [pow]; ring). replace ((1 - -1 * -1) ^ S m) with 0 by (cbn [pow]; ring).
      transitivity (q * (G 1 - G (-1))); [ring|]. rewrite VG. destruct (l =? k)%nat; [|ring].
      replace (l + S m)%nat with (S (l + m)) by lia. replace (l - m)%nat with (S (l - S m)) by lia. rewrite !fact_simpl, !mult_INR, !S_INR, plus_INR.
      assert (Q : INR (l - S m) = INR l - (INR m + 1)) by (rewrite minus_INR by lia; now rewrite S_INR). rewrite Q.
      assert (R2 : INR l - (INR m + 1) + 1 <> 0) by (apply le_INR in L; rewrite S_INR in L; lra).
      pose proof (pos_INR l). unfold q. field. repeat split; trivial; try (apply INR_fact_neq_0); lra.
Qed.
(** Trigonometric integrals over a full turn. *)
Lemma deriv_lin a : deriv (fun x => a * x) (fun _ => a).
Proof. eapply deriv_ext; [exact (deriv_scal a _ _ deriv_id)|reflexivity|]. intros; cbv beta; ring. Qed.
Lemma deriv_comp f f' a : deriv f f' -> deriv (fun x => f (a * x)) (fun x => a * f' (a * x)).
Proof.
  intros H x. rewrite Rmult_comm. apply (derivable_pt_lim_comp (fun x => a * x) f x a (f' (a * x))); [apply deriv_lin|apply H].
Qed.
Lemma deriv_sin : deriv sin cos. Proof. intros x. apply derivable_pt_lim_sin. Qed.
Lemma deriv_cos : deriv cos (fun x => - sin x). Proof. intros x. apply derivable_pt_lim_cos. Qed.
Lemma sin_2kPI (k : Z) : sin (IZR k * (2 * PI)) = 0.
Proof.
  apply sin_eq_0_1. exists (2 * k)%Z. rewrite mult_IZR. ring.
Qed.
Lemma cos_2nPI (n : nat) : cos (INR n * (2 * PI)) = 1.
Proof. replace (INR n * (2 * PI)) with (0 + 2 * INR n * PI) by ring. rewrite cos_period. apply cos_0. Qed.
Lemma cos_2kPI (k : Z) : cos (IZR k * (2 * PI)) = 1.
Proof.
  destruct (Z.le_ge_cases 0 k) as [H|H].
  - rewrite <- (Z2Nat.id k) by trivial. rewrite <- INR_IZR_INZ. apply cos_2nPI.
  - rewrite <- (Z.opp_involutive k), opp_IZR. rewrite Ropp_mult_distr_l_reverse, cos_neg. rewrite <- (Z2Nat.id (- k)) by lia. rewrite <- INR_IZR_INZ. apply cos_2nPI.
Qed.
Lemma int_cos (k : Z) : integral (fun x => cos (IZR k * x)) 0 (2 * PI) (if (k =? 0)%Z then 2 * PI else 0).
Proof.
  destruct (Z.eqb_spec k 0) as [->|N].
  - exists (fun x => x). split; [|ring]. eapply deriv_ext; [exact deriv_id|reflexivity|]. intros; cbv beta. rewrite Rmult_0_l, cos_0. reflexivity.
  - assert (IZR k <> 0) by (apply not_0_IZR; trivial). exists (fun x => / IZR k * sin (IZR k * x)). split.
    + eapply deriv_ext; [exact (deriv_scal (/ IZR k) _ _ (deriv_comp _ _ (IZR k) deriv_sin))|reflexivity|]. intros; cbv beta. field; trivial.
    + rewrite sin_2kPI, (Rmult_0_r (IZR k)), sin_0. ring.
Qed.
Lemma int_sin (k : Z) : integral (fun x => sin (IZR k * x)) 0 (2 * PI) 0.
Proof.
  destruct (Z.eq_dec k 0) as [->|N].
  - exists (fun x => 0). split; [|ring]. eapply deriv_ext; [exact (deriv_const 0)|reflexivity|]. intros; cbv beta. rewrite Rmult_0_l, sin_0. reflexivity.
  - assert (IZR k <> 0) by (apply not_0_IZR; trivial). exists (fun x => - / IZR k * cos (IZR k * x)). split.
    + eapply deriv_ext; [exact (deriv_scal (- / IZR k) _ _ (deriv_comp _ _ (IZR k) deriv_cos))|reflexivity|]. intros; cbv beta. field; trivial.
    + rewrite cos_2kPI, (Rmult_0_r (IZR k)), cos_0. ring.
Qed.
Lemma int2 c1 f c2 g v w u : integral f 0 (2 * PI) v -> integral g 0 (2 * PI) w -> u = c1 * v + c2 * w -> integral (fun x => c1 * f x + c2 * g x) 0 (2 * PI) u.
Proof. intros A B ->. now apply integral_lin. Qed.
Lemma int1 c f v u : integral f 0 (2 * PI) v -> u = c * v -> integral (fun x => c * f x) 0 (2 * PI) u.
Proof. intros A ->. now apply integral_scal. Qed.
Lemma sqrt2_sq : sqrt 2 * sqrt 2 = 2. Proof. apply sqrt_sqrt. lra. Qed.
Lemma T_product (m k : Z) : integral (fun phi => T m phi * T k phi) 0 (2 * PI) (if (m =? k)%Z then 2 * PI else 0).
Proof.
  pose proof PI_RGT_0. unfold T.
  assert (CC : forall a b x, sqrt 2 * cos (IZR a * x) * (sqrt 2 * cos (IZR b * x)) = 1 * cos (IZR (a - b) * x) + 1 * cos (IZR (a + b) * x)).
  { intros. rewrite minus_IZR, plus_IZR, Rmult_minus_distr_r, Rmult_plus_distr_r, cos_minus, cos_plus.
    transitivity (sqrt 2 * sqrt 2 * (cos (IZR a * x) * cos (IZR b * x))); [ring|]. rewrite sqrt2_sq. ring. }
  assert (SS : forall a b x, sqrt 2 * sin (- IZR a * x) * (sqrt 2 * sin (- IZR b * x)) = 1 * cos (IZR (a - b) * x) + (-1) * cos (IZR (a + b) * x)).
  { intros. rewrite minus_IZR, plus_IZR, Rmult_minus_distr_r, Rmult_plus_distr_r, cos_minus, cos_plus, !Ropp_mult_distr_l_reverse, !sin_neg.
    transitivity (sqrt 2 * sqrt 2 * (sin (IZR a * x) * sin (IZR b * x))); [ring|]. rewrite sqrt2_sq. ring. }
  assert (CS : forall a b x, sqrt 2 * cos (IZR a * x) * (sqrt 2 * sin (- IZR b * x)) = (-1) * sin (IZR (a + b) * x) + 1 * sin (IZR (a - b) * x)).
  { intros. rewrite minus_IZR, plus_IZR, Rmult_minus_distr_r, Rmult_plus_distr_r, sin_minus, sin_plus, !Ropp_mult_distr_l_reverse, !sin_neg.
    transitivity (- (sqrt 2 * sqrt 2) * (cos (IZR a * x) * sin (IZR b * x))); [ring|]. rewrite sqrt2_sq. ring. }
  destruct (Z.ltb_spec 0 m), (Z.ltb_spec 0 k); [| destruct (Z.ltb_spec k 0)|destruct (Z.ltb_spec m 0)|destruct (Z.ltb_spec m 0), (Z.ltb_spec k 0)].
  - eapply integral_ext; [intros x; symmetry; apply CC|]. eapply int2; [apply int_cos|apply int_cos|].
    destruct (Z.eqb_spec (m - k) 0), (Z.eqb_spec (m + k) 0), (Z.eqb_spec m k); try lia; ring.
  - eapply integral_ext; [intros x; symmetry; apply CS|]. eapply int2; [apply int_sin|apply int_sin|]. destruct (Z.eqb_spec m k); [lia|ring].
  - assert (k = 0%Z) as -> by lia. eapply integral_ext; [|eapply (int1 (sqrt 2)); [apply (int_cos m)|]]. { intros; cbv beta; ring. }
    destruct (Z.eqb_spec m 0); [lia|]. ring.
  - eapply integral_ext; [intros x; symmetry; rewrite (Rmult_comm (sqrt 2 * sin _)); apply CS|]. eapply int2; [apply int_sin|apply int_sin|]. destruct (Z.eqb_spec m k); [lia|ring].
  - assert (m = 0%Z) as -> by lia. eapply integral_ext; [|eapply (int1 (sqrt 2)); [apply (int_cos k)|]]. { intros; cbv beta; ring. }
    destruct (Z.eqb_spec k 0); [lia|]. destruct (Z.eqb_spec 0 k); [lia|]. ring.
  - eapply integral_ext; [intros x; symmetry; apply SS|]. eapply int2; [apply int_cos|apply int_cos|].
    destruct (Z.eqb_spec (m - k) 0), (Z.eqb_spec (m + k) 0), (Z.eqb_spec m k); try lia; ring.
  - assert (k = 0%Z) as -> by lia. eapply integral_ext; [|eapply (int1 (- sqrt 2)); [apply (int_sin m)|]]. { intros x; cbv beta. replace (- IZR m * x) with (- (IZR m * x)) by ring. rewrite sin_neg. ring. }
    destruct (Z.eqb_spec m 0); [lia|]. ring.
  - assert (m = 0%Z) as -> by lia. eapply integral_ext; [|eapply (int1 (- sqrt 2)); [apply (int_sin k)|]]. { intros x; cbv beta. replace (- IZR k * x) with (- (IZR k * x)) by ring. rewrite sin_neg. ring. }
    destruct (Z.eqb_spec 0 k); [lia|]. ring.
  - assert (m = 0%Z) as -> by lia. assert (k = 0%Z) as -> by lia. cbn. exists (fun x => x). split; [|ring]. eapply deriv_ext; [exact deriv_id|reflexivity|]. intros; cbv beta; ring.
Qed.
Lemma Pv_product m l k x : -1 <= x <= 1 -> Pv m l x * Pv m k x = (1 - x * x) ^ m * (D m l x * D m k x).
Proof.
  intros X. unfold Pv. transitivity ((((-1) * (-1)) ^ m) * (sqrt (1 - x * x) * sqrt (1 - x * x)) ^ m * (D m l x * D m k x)); [rewrite !Rpow_mult_distr; ring|].
  rewrite sqrt_sqrt by nra. replace (-1 * -1) with 1 by ring. rewrite pow1. ring.
Qed.
Lemma Y_orthonormal l m k n : (Z.abs_nat m <= l)%nat -> (Z.abs_nat n <= k)%nat ->
  sphere_integral (fun x phi => Y l m x phi * Y k n x phi) (if (l =? k)%nat && (m =? n)%Z then 1 else 0).
Proof.
  intros L M. destruct (Z.eqb_spec m n) as [->|N].
  - rewrite andb_true_r. set (a := Z.abs_nat n) in *.
    exists (fun x => (K l a * K k a * (2 * PI)) * ((1 - x * x) ^ a * (D a l x * D a k x))). split.
    + intros x X. replace (K l a * K k a * (2 * PI) * ((1 - x * x) ^ a * (D a l x * D a k x))) with ((K l a * K k a * ((1 - x * x) ^ a * (D a l x * D a k x))) * (2 * PI)) by ring.
      pose proof (T_product n n) as I. rewrite Z.eqb_refl in I. eapply integral_ext; [|exact (integral_scal (K l a * K k a * ((1 - x * x) ^ a * (D a l x * D a k x))) _ _ _ _ I)].
      intros phi. cbv beta. rewrite !Y_in by trivial. fold a. rewrite <- Pv_product by trivial. ring.
    + pose proof (integral_scal (K l a * K k a * (2 * PI)) _ _ _ _ (assoc_product l k a L M)) as I.
      destruct (Nat.eqb_spec l k) as [->|NE]; [|now rewrite Rmult_0_r in I].
      assert (Q : K k a * K k a * (2 * PI) * (2 / (2 * INR k + 1) * (INR (fact (k + a)) / INR (fact (k - a)))) = 1).
      { rewrite K_sq. pose proof (pos_INR k). pose proof PI_RGT_0. pose proof (INR_fact_neq_0 (k + a)). pose proof (INR_fact_neq_0 (k - a)). field. repeat split; trivial; lra. }
      rewrite Q in I. exact I.
  - rewrite andb_false_r. exists (fun _ => 0). split.
    + intros x X. pose proof (T_product m n) as I. destruct (Z.eqb_spec m n); [contradiction|].
      pose proof (integral_scal (K l (Z.abs_nat m) * K k (Z.abs_nat n) * (Pv (Z.abs_nat m) l x * Pv (Z.abs_nat n) k x)) _ _ _ _ I) as J. rewrite Rmult_0_r in J.
      eapply integral_ext; [|exact J]. intros phi. cbv beta. rewrite !Y_in by trivial. ring.
    + exists (fun _ => 0). split; [exact (deriv_const 0)|ring].
Qed.
(** Sums of integrals. *)
Lemma sphere_ext f g v : (forall x phi, -1 <= x <= 1 -> f x phi = g x phi) -> sphere_integral f v -> sphere_integral g v.
Proof. intros E (h & H & I). exists h. split; [|exact I]. intros x X. eapply integral_ext; [|exact (H x X)]. intros phi. now apply E. Qed.
Lemma sphere_scal c f v : sphere_integral f v -> sphere_integral (fun x phi => c * f x phi) (c * v).
Proof. intros (h & H & I). exists (fun x => c * h x). split; [|now apply integral_scal]. intros x X. apply (integral_scal c (f x)). now apply H. Qed.
Lemma sphere_plus f g v w : sphere_integral f v -> sphere_integral g w -> sphere_integral (fun x phi => f x phi + g x phi) (v + w).
Proof.
  intros (h & H & I) (k & Hk & J). exists (fun x => h x + k x). split.
  - intros x X. pose proof (integral_lin 1 _ 1 _ _ _ _ _ (H x X) (Hk x X)) as Q. replace (1 * h x + 1 * k x) with (h x + k x) in Q by ring.
    eapply integral_ext; [|exact Q]. intros; cbv beta; ring.
  - pose proof (integral_lin 1 _ 1 _ _ _ _ _ I J) as Q. replace (1 * v + 1 * w) with (v + w) in Q by ring. eapply integral_ext; [|exact Q]. intros; cbv beta; ring.
Qed.
Lemma sphere_zero : sphere_integral (fun _ _ => 0) 0.
Proof. exists (fun _ => 0). split; [intros x _|]; exists (fun _ => 0); (split; [exact (deriv_const 0)|ring]). Qed.
Lemma sphere_sum n (f : nat -> R -> R -> R) v : (forall i, (i < n)%nat -> sphere_integral (f i) (v i)) -> sphere_integral (fun x phi => rsum n (fun i => f i x phi)) (rsum n v).
Proof.
  induction n as [|n IH]; intros H; [exact sphere_zero|]. cbn [rsum]. apply (sphere_plus (fun x phi => rsum n (fun i => f i x phi)) (f n)); [apply IH; intros; apply H; lia|apply H; lia].
Qed.
(** The integral over the sphere is unique. *)
Lemma integral_unique_on f g a b v w : a < b -> (forall x, a <= x <= b -> f x = g x) -> integral f a b v -> integral g a b w -> v = w.
Proof.
  intros AB E (F & DF & <-) (G & DG & <-).
  set (h := fun x => F x - G x). assert (Dh : forall c, derivable_pt_lim h c (f c - g c)) by (intros c; apply derivable_pt_lim_minus; [apply DF|apply DG]).
  assert (pr : forall c, a < c < b -> derivable_pt h c) by (intros c _; exists (f c - g c); apply Dh).
  destruct (MVT_cor1 h a b (fun c => exist _ (f c - g c) (Dh c)) AB) as (c & Ec & Hc). cbn in Ec. rewrite (E c) in Ec by lra. unfold h in Ec. lra.
Qed.
Lemma sphere_unique f v w : sphere_integral f v -> sphere_integral f w -> v = w.
Proof.
  intros (g & G & I) (h & H & J). refine (integral_unique_on g h (-1) 1 v w _ _ I J); [lra|]. intros x X. exact (integral_unique _ _ _ _ _ (G x X) (H x X)).
Qed.
(** Flat indices. *)
Definition Yi (i : nat) (x phi : R) : R := let l := Nat.sqrt i in Y l (Z.of_nat i - Z.of_nat (l * l + l)) x phi.
Lemma sqrt_band l j : (j < 2 * l + 1)%nat -> Nat.sqrt (l * l + j) = l.
Proof. intros H. apply Nat.sqrt_unique. lia. Qed.
Lemma Yi_band l j x phi : (j < 2 * l + 1)%nat -> Yi (l * l + j) x phi = Y l (Z.of_nat j - Z.of_nat l) x phi.
Proof. intros H. unfold Yi. rewrite sqrt_band by trivial. cbv zeta. f_equal. lia. Qed.
Lemma rsum_bands n f : rsum (n * n) f = rsum n (fun l => rsum (2 * l + 1) (fun j => f (l * l + j)%nat)).
Proof. induction n as [|n IH]; [reflexivity|]. replace (S n * S n)%nat with (n * n + (2 * n + 1))%nat by lia. rewrite rsum_split, IH. reflexivity. Qed.
Lemma sh_fn_flat n c x phi : sh_fn n c x phi = rsum (n * n) (fun i => c i * Yi i x phi).
Proof. rewrite rsum_bands. unfold sh_fn. apply rsum_ext. intros l _. apply rsum_ext. intros j J. now rewrite Yi_band. Qed.
Lemma Yi_orthonormal i j : sphere_integral (fun x phi => Yi i x phi * Yi j x phi) (if (i =? j)%nat then 1 else 0).
Proof.
  unfold Yi. cbv zeta. set (l := Nat.sqrt i). set (k := Nat.sqrt j). pose proof (Nat.sqrt_spec i ltac:(lia)) as Si. pose proof (Nat.sqrt_spec j ltac:(lia)) as Sj. fold l in Si. fold k in Sj.
  pose proof (Y_orthonormal l (Z.of_nat i - Z.of_nat (l * l + l)) k (Z.of_nat j - Z.of_nat (k * k + k)) ltac:(lia) ltac:(lia)) as I.
  replace (if (i =? j)%nat then 1 else 0) with (if (l =? k)%nat && (Z.of_nat i - Z.of_nat (l * l + l) =? Z.of_nat j - Z.of_nat (k * k + k))%Z then 1 else 0); [exact I|].
  destruct (Nat.eqb_spec i j) as [E|N].
  - assert (l = k) as Q by (unfold l, k; now rewrite E). rewrite Q, E, Nat.eqb_refl, Z.eqb_refl. reflexivity.
  - destruct (Nat.eqb_spec l k) as [E|]; [|reflexivity]. rewrite E. destruct (Z.eqb_spec (Z.of_nat i - Z.of_nat (k * k + k)) (Z.of_nat j - Z.of_nat (k * k + k))); [lia|reflexivity].
Qed.
Lemma sh_parseval n c k d : sphere_integral (fun x phi => sh_fn n c x phi * sh_fn k d x phi) (rsum (Nat.min (n * n) (k * k)) (fun i => c i * d i)).
Proof.
  pose proof (sphere_sum (n * n) (fun i x phi => rsum (k * k) (fun j => (c i * d j) * (Yi i x phi * Yi j x phi))) (fun i => rsum (k * k) (fun j => (c i * d j) * (if (i =? j)%nat then 1 else 0)))) as I.
  assert (J : forall i, (i < n * n)%nat -> sphere_integral (fun x phi => rsum (k * k) (fun j => (c i * d j) * (Yi i x phi * Yi j x phi))) (rsum (k * k) (fun j => (c i * d j) * (if (i =? j)%nat then 1 else 0)))).
  { intros i _. apply (sphere_sum (k * k) (fun j x phi => (c i * d j) * (Yi i x phi * Yi j x phi))). intros j _. apply (sphere_scal (c i * d j)). apply Yi_orthonormal. }
  specialize (I J). clear J.
  replace (rsum (Nat.min (n * n) (k * k)) (fun i => c i * d i)) with (rsum (n * n) (fun i => rsum (k * k) (fun j => (c i * d j) * (if (i =? j)%nat then 1 else 0)))).
  - eapply sphere_ext; [|exact I]. intros x phi _. cbv beta. rewrite !sh_fn_flat. rewrite (Rmult_comm (rsum (n * n) _)), <- rsum_scal. apply rsum_ext. intros i _.
    rewrite (Rmult_comm (rsum (k * k) _)), <- rsum_scal. apply rsum_ext. intros j _. ring.
  - rewrite (rsum_ext (n * n) _ (fun i => if (i <? k * k)%nat then c i * d i else 0)).
    + destruct (Nat.le_ge_cases (n * n) (k * k)) as [H|H].
      * rewrite Nat.min_l by trivial. apply rsum_ext. intros i Hi. rewrite (proj2 (Nat.ltb_lt i (k * k))) by lia. reflexivity.
      * rewrite Nat.min_r by trivial. replace (n * n)%nat with (k * k + (n * n - k * k))%nat by lia. rewrite rsum_split.
        rewrite (rsum_ext (n * n - k * k) _ (fun _ => 0)); [rewrite rsum_zero|]. 
        -- rewrite Rplus_0_r. apply rsum_ext. intros i Hi. now rewrite (proj2 (Nat.ltb_lt i (k * k)) Hi).
        -- intros i _. now rewrite (proj2 (Nat.ltb_ge (k * k + i) (k * k))) by lia.
    + intros i _. destruct (Nat.ltb_spec i (k * k)).
      * rewrite (rsum_ext _ _ (fun j => if (j =? i)%nat then c i * d j else 0)); [now apply (rsum_one (k * k) i (fun j => c i * d j))|].
        intros j _. rewrite (Nat.eqb_sym i j). destruct (j =? i)%nat; ring.
      * rewrite (rsum_ext _ _ (fun _ => 0)); [apply rsum_zero|]. intros j Hj. destruct (Nat.eqb_spec i j); [lia|ring].
Qed.
