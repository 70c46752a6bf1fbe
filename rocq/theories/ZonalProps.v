(** C62: zonal harmonics. *)
From Coq Require Import Reals Arith List Lra Lia Bool.
From Verif Require Import VecNModel PerlinSpec PerlinProofs BasisModel BasisSpec BasisProofs ZonalModel ZonalSpec ZonalProofs.
Import ListNotations.
Open Scope R_scope.

(** eval(x) is the sum of the coefficients times the Legendre polynomials; with no band at all it reads out of bounds. *)
Theorem zonal_eval_spec z x : zeval z x = if (1 <=? zn z)%nat then Some (zonal_fn (zn z) (zc z) x) else None.
Proof.
  destruct (Nat.leb_spec 1 (zn z)); [now apply zeval_is|]. unfold zeval, zget. destruct (Nat.ltb_spec 0 (zn z)); [lia|reflexivity].
Qed.
Print Assumptions zonal_eval_spec.
(** The integral over the sphere is 4 pi times coefficient 0. *)
Theorem zonal_fn_integral n c v : (1 <= n)%nat -> (zonal_integral (zonal_fn n c) v <-> v = 4 * PI * c 0%nat).
Proof.
  intros N. split; [intros H; exact (zonal_integral_unique _ _ _ H (zonal_total n c N))|intros ->; now apply zonal_total].
Qed.
Print Assumptions zonal_fn_integral.
(** generate_lambertian: the coefficients are those of max(0, x), up to the requested number of bands (0 for all). *)
Theorem zonal_lambertian order z : (1 <= zn z)%nat -> exists z', generate_lambertian order z = Some z' /\ zn z' = zn z /\
  (forall l, (l < zn z)%nat -> (order = 0 \/ l < order)%nat -> zonal_coefficient (fun x => x) 0 1 l (zc z' l)) /\
  (forall l, (l < zn z)%nat -> (1 <= order <= l)%nat -> l <> 1%nat -> zc z' l = 0).
Proof.
  intros H. destruct (lambertian_is order z H) as (c & E & C). exists (mkZonal (zn z) c). split; [exact E|]. split; [reflexivity|]. cbn [zc].
  split; intros l L Q.
  - rewrite C by trivial. replace (l <? bands_used order (zn z))%nat with true; [apply lambert_coefficient|].
    symmetry. apply Nat.ltb_lt. unfold bands_used. destruct (Nat.ltb_spec order 1); lia.
  - intros N. rewrite C by trivial. rewrite (proj2 (Nat.eqb_neq _ _) N), orb_false_r.
    replace (l <? bands_used order (zn z))%nat with false; [reflexivity|]. symmetry. apply Nat.ltb_ge. unfold bands_used. destruct (Nat.ltb_spec order 1); lia.
Qed.
Print Assumptions zonal_lambertian.
(** Asked for one band, it fills two. *)
Theorem zonal_lambertian_order_refuted z : (2 <= zn z)%nat -> exists z', generate_lambertian 1 z = Some z' /\ zc z' 1%nat = 1 / 2.
Proof.
  intros H. destruct (lambertian_is 1 z ltac:(lia)) as (c & E & C). exists (mkZonal (zn z) c). split; [exact E|]. cbn [zc]. rewrite C by lia.
  cbn [Nat.eqb]. rewrite orb_true_r. reflexivity.
Qed.
Print Assumptions zonal_lambertian_order_refuted.
(** generate_spot: the coefficients are those of the function that is 1 where x is above the (clamped) cosine and 0 elsewhere. *)
Theorem zonal_spot cos_angle z : (1 <= zn z)%nat -> exists z', generate_spot cos_angle z = Some z' /\ zn z' = zn z /\
  forall l, (l < zn z)%nat -> zonal_coefficient (fun _ => 1) (Rmin 1 (Rmax (-1) cos_angle)) 1 l (zc z' l).
Proof. intros H. destruct (spot_is cos_angle z H) as (c & E & C). exists (mkZonal (zn z) c). repeat split; assumption. Qed.
Print Assumptions zonal_spot.
(** dot: the sum of products of coefficients when the other function has at least as many bands, and an out-of-bounds read
    otherwise. *)
Theorem zonal_dot_spec a b : (zn a <= zn b)%nat -> zdot a b = Some (rsum (zn a) (fun l => zc a l * zc b l)).
Proof. intros H. rewrite zdot_is. now rewrite (proj2 (Nat.leb_le _ _) H). Qed.
Print Assumptions zonal_dot_spec.
Theorem zonal_dot_bounds_refuted a b : (zn b < zn a)%nat -> zdot a b = None.
Proof. intros H. rewrite zdot_is. now rewrite (proj2 (Nat.leb_gt _ _) H). Qed.
Print Assumptions zonal_dot_bounds_refuted.
(** The integral of the product of two functions over the sphere weighs band l with 4 pi / (2 l + 1); dot does not, so it is
    not the inner product of the functions. *)
Theorem zonal_product_integral n c d : zonal_integral (fun x => zonal_fn n c x * zonal_fn n d x) (rsum n (fun l => 4 * PI / (2 * INR l + 1) * (c l * d l))).
Proof. exact (zonal_product n c d). Qed.
Print Assumptions zonal_product_integral.
Theorem zonal_dot_integral_refuted z : zn z = 1%nat -> zc z 0%nat <> 0 ->
  exists v, zdot z z = Some v /\ ~ zonal_integral (fun x => zonal_fn 1 (zc z) x * zonal_fn 1 (zc z) x) v.
Proof.
  intros N C. eexists. split; [apply zonal_dot_spec; lia|]. rewrite N. intros H.
  pose proof (zonal_integral_unique _ _ _ H (zonal_product 1 (zc z) (zc z))) as E. cbn in E. rewrite Rmult_0_r, Rplus_0_l, !Rplus_0_l in E.
  assert (Q : 0 < zc z 0%nat * zc z 0%nat) by (destruct (Rdichotomy _ _ C); nra).
  pose proof PI2_3_2. unfold Rdiv in E. assert (X : 1 = 4 * PI) by (apply (Rmult_eq_reg_r (zc z 0%nat * zc z 0%nat)); [lra|lra]). lra.
Qed.
Print Assumptions zonal_dot_integral_refuted.
(** convolve multiplies band l by sqrt(4 pi / (2 l + 1)) times the kernel's coefficient; a kernel with fewer bands is read out
    of bounds. *)
Theorem zonal_convolve_spec kernel z : (zn z <= zn kernel)%nat -> exists z', zconvolve kernel z = Some z' /\ zn z' = zn z /\
  forall l, (l < zn z)%nat -> zc z' l = zc z l * zc kernel l * sqrt (4 * PI / (2 * INR l + 1)).
Proof.
  intros H. destruct (zconvolve_is kernel z H) as (c & E & C). exists (mkZonal (zn z) c). split; [exact E|]. split; [reflexivity|]. intros l L. cbn [zc]. rewrite C by trivial.
  unfold band_factor. ring.
Qed.
Print Assumptions zonal_convolve_spec.
Theorem zonal_convolve_bounds_refuted kernel z : (zn kernel < zn z)%nat -> zconvolve kernel z = None.
Proof. exact (zconvolve_short kernel z). Qed.
Print Assumptions zonal_convolve_bounds_refuted.
(** The convolution of two zonal functions has, at the pole, the integral of their product; convolve misses it by a factor
    sqrt(4 pi / (2 l + 1)) in every band, here shown for functions of a single band. *)
Theorem zonal_convolve_refuted kernel z : zn z = 1%nat -> zn kernel = 1%nat -> zc z 0%nat <> 0 -> zc kernel 0%nat <> 0 ->
  exists z' v, zconvolve kernel z = Some z' /\ zeval z' 1 = Some v /\
  ~ zonal_integral (fun x => zonal_fn 1 (zc z) x * zonal_fn 1 (zc kernel) x) v.
Proof.
  intros N K C D. destruct (zconvolve_is kernel z ltac:(lia)) as (c & E & V). exists (mkZonal (zn z) c). eexists. split; [exact E|].
  split; [apply zeval_is; cbn; lia|]. cbn [zn zc]. rewrite N in *. intros H.
  pose proof (zonal_integral_unique _ _ _ H (zonal_product 1 (zc z) (zc kernel))) as Q. unfold zonal_fn in Q. cbn [rsum] in Q.
  rewrite (V 0%nat) in Q by lia. rewrite legendre_P, P_0 in Q. rewrite <- band_factor_sq in Q. pose proof (band_factor_sq 0) as S. pose proof (band_factor_pos 0) as Pz.
  assert (X : band_factor 0 = 1).
  { apply (Rmult_eq_reg_r (band_factor 0 * (zc z 0%nat * zc kernel 0%nat))); [lra|]. apply Rmult_integral_contrapositive. split; [lra|]. now apply Rmult_integral_contrapositive. }
  rewrite X in S. cbn [INR] in S. pose proof PI2_3_2. unfold Rdiv in S. rewrite Rmult_0_r, Rplus_0_l, Rinv_1 in S. lra.
Qed.
Print Assumptions zonal_convolve_refuted.
(** diffuse: once leaves a function with non-zero coefficients unchanged; zero times gives the function that convolve leaves
    everything unchanged with; n times multiplies as n convolutions do; and for positive coefficients the counts add. *)
Theorem zonal_diffuse_spec pow0 z l : (l < zn z)%nat -> zc z l <> 0 ->
  zc (zdiffuse pow0 1 z) l = zc z l /\
  (forall a, (zn a <= zn z)%nat -> exists a', zconvolve (zdiffuse pow0 0 z) a = Some a' /\ ((l < zn a)%nat -> zc a' l = zc a l)) /\
  (forall n, exists a, zconvolve z (zdiffuse pow0 (INR n) z) = Some a /\ zc a l = zc (zdiffuse pow0 (INR (S n)) z) l) /\
  (0 < zc z l -> forall s t, exists a, zconvolve (zdiffuse pow0 s z) (zdiffuse pow0 t z) = Some a /\ zc a l = zc (zdiffuse pow0 (s + t) z) l).
Proof.
  intros L C. pose proof (band_factor_pos l) as B.
  assert (NZ : band_factor l * zc z l <> 0) by (apply Rmult_integral_contrapositive; split; lra).
  assert (V : forall t, zc (zdiffuse pow0 t z) l = cpow pow0 (band_factor l * zc z l) t / band_factor l) by (intros; cbn [zdiffuse zc]; now rewrite (proj2 (Nat.ltb_lt _ _) L)).
  split; [|split; [|split]].
  - rewrite V, cpow_1 by trivial. field. lra.
  - intros a A. destruct (zconvolve_is (zdiffuse pow0 0 z) a A) as (c & E & Q). exists (mkZonal (zn a) c). split; [exact E|]. intros La. cbn [zc]. rewrite Q, V, cpow_0 by trivial. field. lra.
  - intros n. destruct (zconvolve_is z (zdiffuse pow0 (INR n) z)) as (c & E & Q); [cbn; lia|]. eexists. split; [exact E|]. cbn [zc]. rewrite Q by (cbn; trivial). rewrite !V, !cpow_nat by trivial.
    cbn [pow]. field. lra.
  - intros P0 s t. destruct (zconvolve_is (zdiffuse pow0 s z) (zdiffuse pow0 t z)) as (c & E & Q); [cbn; lia|]. eexists. split; [exact E|]. cbn [zc]. rewrite Q by (cbn; trivial). rewrite !V, cpow_add by (apply Rmult_lt_0_compat; trivial).
    field. lra.
Qed.
Print Assumptions zonal_diffuse_spec.
(** project: with two or more bands the value stored for band 1 is not val x, the coefficient of a sample of value val in the
    direction x, and nothing of the previous coefficients 0 and 1 remains. *)
Theorem zonal_project_refuted x val z : (2 <= zn z)%nat -> exists z', zproject x val z = Some z' /\ zc z' 0%nat = val /\
  zc z' 1%nat = val * (3 * x * x - 1 / 2) /\ (val <> 0 -> x = 0 -> zc z' 1%nat <> val * x).
Proof.
  intros H. destruct (zproject_is x val z H) as (c & E & C0 & C1). exists (mkZonal (zn z) c). cbn [zc]. repeat split; trivial.
  intros V -> Q. rewrite C1 in Q. lra.
Qed.
Print Assumptions zonal_project_refuted.
(** normalize promises an integral of 1; the integral of the result is that of the original divided by another coefficient, a
    function whose band 1 is zero keeps its integral, and a function with one band is read out of bounds. *)
Theorem zonal_normalize_refuted z : (1 <= zn z)%nat ->
  (zn z = 1%nat -> znormalize z = None) /\
  ((2 <= zn z)%nat -> zc z 1%nat = 0 -> znormalize z = Some z) /\
  ((2 <= zn z)%nat -> zc z 1%nat <> 0 -> exists z', znormalize z = Some z' /\ zn z' = zn z /\
     zonal_integral (zonal_fn (zn z') (zc z')) (4 * PI * zc z 0%nat / (zc z 1%nat * sqrt (4 * PI / 3)))).
Proof.
  intros N. assert (K : 0 < sqrt (4 * PI / 3)) by (apply sqrt_lt_R0; pose proof PI_RGT_0; lra). split; [|split].
  - intros E. unfold znormalize, zget. now rewrite E.
  - intros L C. unfold znormalize. rewrite zget_in by lia. rewrite C, Rmult_0_l. now destruct (Req_EM_T 0 0).
  - intros L C. unfold znormalize. rewrite zget_in by lia. destruct (Req_EM_T _ 0) as [Z|Z]; [apply Rmult_integral in Z; lra|].
    eexists. split; [reflexivity|]. split; [reflexivity|]. cbn [zn].
    apply zonal_fn_integral; [lia|]. cbn [zc Nat.eqb]. rewrite (proj2 (Nat.ltb_lt 0 (zn z))) by lia. field. split; lra.
Qed.
Print Assumptions zonal_normalize_refuted.
(** A concrete case: the Lambertian kernel with three bands is 1/4, 1/2, 5/16. *)
Example zonal_lambertian_3 : exists z, generate_lambertian 0 (zonal_new 3) = Some z /\ zc z 0%nat = 1 / 4 /\ zc z 1%nat = 1 / 2 /\ zc z 2%nat = 5 / 16.
Proof. eexists. split; [reflexivity|]. unfold upd. cbn. repeat split; try lra. Qed.
