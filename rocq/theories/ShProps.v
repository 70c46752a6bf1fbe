(** C63, C64: spherical harmonics. *)
From Coq Require Import Reals ZArith Arith List Lra Lia Bool.
From Verif Require Import Vec3Model QuatProofs PerlinSpec PerlinProofs BasisModel BasisSpec BasisProofs ZonalModel ZonalSpec ZonalProofs ShModel ShSpec ShProofs ShFnProofs ShFn2Proofs.
Import ListNotations.
Open Scope R_scope.

(** * C63: the basis *)
(** spherical_harmonic_coeff(l, m, cos, azi) is the normalised real harmonic of the textbooks. *)
Theorem sh_basis_function l m : (Z.abs_nat m <= l)%nat -> exists p, is_assoc l (Z.abs_nat m) p /\
  forall x phi, -1 <= x <= 1 -> sh_coeff l m x phi = Some (harmonic l m p x phi).
Proof.
  intros H. exists (Pv (Z.abs_nat m) l). split.
  - exists (D (Z.abs_nat m) l). split; [apply Rr_nth|]. intros x X. unfold Pv. now replace (1 - x ^ 2) with (1 - x * x) by ring.
  - intros x phi X. rewrite sh_coeff_in by trivial. f_equal. now apply T_harmonic.
Qed.
Print Assumptions sh_basis_function.
(** The basis is orthonormal: the integral over the sphere of the product of two of its functions is 1 or 0. *)
Theorem sh_basis_orthonormal l m k n : (Z.abs_nat m <= l)%nat -> (Z.abs_nat n <= k)%nat ->
  sphere_integral (fun x phi => Y l m x phi * Y k n x phi) (if (l =? k)%nat && (m =? n)%Z then 1 else 0).
Proof. exact (Y_orthonormal l m k n). Qed.
Print Assumptions sh_basis_orthonormal.
(** A function has one integral. *)
Theorem sphere_integral_unique f v w : sphere_integral f v -> sphere_integral f w -> v = w.
Proof. exact (sphere_unique f v w). Qed.
Print Assumptions sphere_integral_unique.
(** The batch Legendre evaluation stores the column P(l, m) in (l, m) and (l, -m) for every band that has them, leaves everything else
    alone, and asked for a column m beyond the bands it writes out of bounds. *)
Theorem sh_fill_column m x s : -1 <= x <= 1 ->
  if (m <? shn s)%nat then exists s', sh_fill m x s = Some s' /\ shn s' = shn s /\
    (forall l, (m <= l < shn s)%nat -> Some (shc s' (l * l + l + m)%nat) = assoc_legendre l m x /\ Some (shc s' (l * l + l - m)%nat) = assoc_legendre l m x) /\
    (forall l k, (l < shn s)%nat -> (k <= l)%nat -> k <> m -> shc s' (l * l + l + k)%nat = shc s (l * l + l + k)%nat /\ shc s' (l * l + l - k)%nat = shc s (l * l + l - k)%nat)
  else sh_fill m x s = None.
Proof.
  intros X. destruct (Nat.ltb_spec m (shn s)) as [M|M].
  - destruct (fill_is m x s M X) as (c & E & C). exists (mkSh (shn s) c). cbn [shn shc]. split; [exact E|]. split; [reflexivity|].
    assert (G : forall l k, (l < shn s)%nat -> (k <= l)%nat -> c (ixp l k) = (if (k =? m)%nat then Pv m l x else shc s (ixp l k)) /\ c (ixn l k) = if (k =? m)%nat then Pv m l x else shc s (ixn l k)).
    { intros l k L Q. assert ((ixp l k < shn s * shn s /\ ixn l k < shn s * shn s)%nat) as [A B] by (unfold ixp, ixn; nia). rewrite !C by trivial.
      destruct (proj1 (ixp_eq l k (ixp l k) Q) eq_refl) as [B1 S1]. destruct (proj1 (ixn_eq l k (ixn l k) Q) eq_refl) as [B2 S2]. unfold sub.
      rewrite B1, S1, B2, S2. replace (Z.abs_nat (Z.of_nat k)) with k by lia. replace (Z.abs_nat (- Z.of_nat k)) with k by lia. split; reflexivity. }
    split.
    + intros l L. rewrite assoc_in by (trivial; lia). destruct (G l m) as [A B]; [lia|lia|]. rewrite Nat.eqb_refl in A, B. unfold ixp, ixn in A, B. now rewrite A, B.
    + intros l k L Q N. destruct (G l k L Q) as [A B]. rewrite (proj2 (Nat.eqb_neq k m) N) in A, B. now split.
  - unfold sh_fill. destruct (Nat.leb_spec (shn s) m); [reflexivity|lia].
Qed.
Print Assumptions sh_fill_column.

(** * C64: functions on the sphere *)
(** eval(alt, azi) is the sum of the coefficients times the basis functions. *)
Theorem sh_eval_sum s alt azi : sh_eval s alt azi = Some (sh_fn (shn s) (shc s) (cos alt) azi).
Proof. unfold sh_eval. apply eval_raw_is. pose proof (COS_bound alt). lra. Qed.
Print Assumptions sh_eval_sum.
(** Every direction is a point of the sphere, and eval(d) is the value there, whatever angles and length describe d. *)
Theorem sh_eval_direction s d : d <> zero3 -> (exists x phi, -1 <= x <= 1 /\ at_angles d x phi) /\
  (forall x phi, at_angles d x phi -> sh_eval_dir s d = Some (sh_fn (shn s) (shc s) x phi)).
Proof. intros H. split; [exact (angles_exist d H)|]. intros x phi. exact (eval_dir_is s d x phi H). Qed.
Print Assumptions sh_eval_direction.
(** project adds val times each basis function to its coefficient. *)
Theorem sh_project_adds s d val x phi : d <> zero3 -> at_angles d x phi -> exists s', sh_project_dir d val s = Some s' /\ shn s' = shn s /\
  forall l m, (l < shn s)%nat -> (Z.abs m <= Z.of_nat l)%Z -> let i := Z.to_nat (Z.of_nat (l * l + l) + m) in shc s' i = shc s i + val * Y l m x phi.
Proof.
  intros H A. destruct (project_dir_is s d val x phi H A) as (c & E & C). exists (mkSh (shn s) c). split; [exact E|]. split; [reflexivity|].
  intros l m L M i. cbn [shc]. assert (Hi : i = (l * l + Z.to_nat (Z.of_nat l + m))%nat) by (unfold i; lia). rewrite C by (rewrite Hi; nia). do 2 f_equal.
  rewrite Hi, Yi_band by lia. f_equal. lia.
Qed.
Print Assumptions sh_project_adds.
(** A basis vector's inner product with a function evaluates the function. *)
Theorem sh_basis_dot s d : d <> zero3 -> exists b v, sh_basis (shn s) d = Some b /\ sh_eval_dir s d = Some v /\ sh_dot b s = v.
Proof.
  intros H. destruct (angles_exist d H) as (x & phi & X & A). unfold sh_basis. destruct (project_dir_is (sh_new (shn s)) d 1 x phi H A) as (c & E & C). rewrite E.
  eexists _, _. split; [reflexivity|]. split; [exact (eval_dir_is s d x phi H A)|]. rewrite sh_dot_is, sh_fn_flat. cbn [shn shc sh_new] in *. rewrite Nat.min_id.
  apply rsum_ext. intros i I. rewrite C by trivial. ring.
Qed.
Print Assumptions sh_basis_dot.
(** dot is the integral of the product of the functions. *)
Theorem sh_dot_integral a b : sphere_integral (fun x phi => sh_fn (shn a) (shc a) x phi * sh_fn (shn b) (shc b) x phi) (sh_dot a b).
Proof. rewrite sh_dot_is. apply sh_parseval. Qed.
Print Assumptions sh_dot_integral.
(** Each coefficient is the integral of the function times its basis function. *)
Theorem sh_coefficient_integral s l m : (l < shn s)%nat -> (Z.abs m <= Z.of_nat l)%Z ->
  sphere_integral (fun x phi => sh_fn (shn s) (shc s) x phi * Y l m x phi) (shc s (Z.to_nat (Z.of_nat (l * l + l) + m))).
Proof.
  intros L M. replace (Z.to_nat (Z.of_nat (l * l + l) + m)) with (l * l + Z.to_nat (Z.of_nat l + m))%nat by lia.
  eapply sphere_ext; [|apply (coeff_integral (shn s) (shc s) (l * l + Z.to_nat (Z.of_nat l + m))%nat); nia].
  intros x phi _. cbv beta. rewrite Yi_band by lia. do 2 f_equal. lia.
Qed.
Print Assumptions sh_coefficient_integral.
(** The integral of the function is coefficient 0 times sqrt(4 pi). *)
Theorem sh_total s v : (1 <= shn s)%nat -> (sphere_integral (sh_fn (shn s) (shc s)) v <-> v = shc s 0%nat * sqrt (4 * PI)).
Proof. intros N. split; [intros H; exact (sphere_unique _ _ _ H (fn_total _ _ N))|intros ->; now apply fn_total]. Qed.
Print Assumptions sh_total.
(** The arithmetic acts on the values: negation, product and quotient with a constant, and the sum when the other function has no more
    bands. *)
Theorem sh_pointwise s o k x phi : let f s := sh_fn (shn s) (shc s) x phi in
  f (sh_neg s) = - f s /\ f (sh_mul k s) = k * f s /\ (k <> 0 -> exists s', sh_div k s = Some s' /\ f s' = f s / k) /\
  ((shn o <= shn s)%nat -> f (sh_add o s) = f s + f o).
Proof.
  cbv zeta. assert (G : forall g a, (forall v, g v = a * v) -> sh_fn (shn (sh_map g s)) (shc (sh_map g s)) x phi = a * sh_fn (shn s) (shc s) x phi).
  { intros g a Hg. rewrite !sh_fn_flat, <- rsum_scal. cbn [shn shc sh_map]. apply rsum_ext. intros i I. rewrite (proj2 (Nat.ltb_lt _ _) I), Hg. ring. }
  split; [unfold sh_neg; rewrite (G _ (-1)) by (intros; ring); ring|]. split; [unfold sh_mul; now rewrite (G _ k) by (intros; ring)|]. split.
  - intros K0. unfold sh_div. destruct (Req_EM_T k 0); [contradiction|]. eexists. split; [reflexivity|]. rewrite (G _ (/ k)) by (intros; field; trivial). field; trivial.
  - intros L. rewrite !sh_fn_flat. cbn [shn shc sh_add]. assert (Q : (shn o * shn o <= shn s * shn s)%nat) by nia.
    rewrite Nat.min_l by trivial. rewrite (rsum_ext _ _ (fun i => shc s i * Yi i x phi + if (i <? shn o * shn o)%nat then shc o i * Yi i x phi else 0))
      by (intros i _; destruct (i <? shn o * shn o)%nat; ring).
    rewrite rsum_plus. f_equal. replace (shn s * shn s)%nat with (shn o * shn o + (shn s * shn s - shn o * shn o))%nat by lia. rewrite rsum_split.
    rewrite (rsum_ext (shn o * shn o) _ (fun i => shc o i * Yi i x phi)) by (intros i I; now rewrite (proj2 (Nat.ltb_lt _ _) I)).
    rewrite (rsum_ext (shn s * shn s - shn o * shn o) _ (fun _ => 0)) by (intros i _; rewrite (proj2 (Nat.ltb_ge _ _)) by lia; reflexivity).
    rewrite rsum_zero. ring.
Qed.
Print Assumptions sh_pointwise.
(** Adding a function with more bands drops the bands this one does not have. *)
Theorem sh_add_truncates s o x phi : (shn s <= shn o)%nat ->
  sh_fn (shn (sh_add o s)) (shc (sh_add o s)) x phi = sh_fn (shn s) (shc s) x phi + sh_fn (shn s) (shc o) x phi.
Proof.
  intros L. rewrite !sh_fn_flat, <- rsum_plus. cbn [shn shc sh_add]. apply rsum_ext. intros i I. rewrite Nat.min_r by nia. rewrite (proj2 (Nat.ltb_lt _ _) I). ring.
Qed.
Print Assumptions sh_add_truncates.
(** A spherical function made from a zonal one is the same function, up to the bands the type has room for; with more bands in the type
    than in the zonal function the constructor reads out of bounds. *)
Theorem sh_of_zonal_same st z : let n := sh_bands st z in
  if (n <=? zn z)%nat then exists s, sh_of_zonal st z = Some s /\ shn s = n /\
    forall x phi, -1 <= x <= 1 -> sh_fn (shn s) (shc s) x phi = zonal_fn n (zc z) x
  else sh_of_zonal st z = None.
Proof.
  intros n. destruct (Nat.leb_spec n (zn z)) as [L|L]; [|now apply of_zonal_short].
  destruct (of_zonal_is st z L) as (c & E & C). exists (mkSh n c). split; [exact E|]. split; [reflexivity|exact C].
Qed.
Print Assumptions sh_of_zonal_same.
(** convolve scales every band by the kernel's coefficient, and by 0 beyond the kernel's bands. *)
Theorem sh_convolve_scales z s : exists s', sh_convolve z s = Some s' /\ shn s' = shn s /\
  forall l j, (l < shn s)%nat -> (j <= 2 * l)%nat -> shc s' (l * l + j)%nat = if (l <? zn z)%nat then shc s (l * l + j)%nat * zc z l else 0.
Proof.
  destruct (convolve_is z s) as (c & E & C). exists (mkSh (shn s) c). split; [exact E|]. split; [reflexivity|]. cbn [shc]. intros l j L J.
  rewrite C by nia. now rewrite ban_of.
Qed.
Print Assumptions sh_convolve_scales.
(** A convolution integrates to the product of the integrals of the function and the kernel.  Unless one of them is zero, this one's
    result does not. *)
Theorem sh_convolve_refuted z s s' v w u : (1 <= shn s)%nat -> (1 <= zn z)%nat -> sh_convolve z s = Some s' ->
  sphere_integral (sh_fn (shn s) (shc s)) v -> sphere_integral (fun x _ => zonal_fn (zn z) (zc z) x) w -> v <> 0 -> w <> 0 ->
  ~ (sphere_integral (sh_fn (shn s') (shc s')) u /\ u = v * w).
Proof.
  intros N M E V W V0 W0 [U ->]. destruct (convolve_is z s) as (c & E' & C). rewrite E in E'. injection E' as ->. cbn [shn shc] in U.
  pose proof (sphere_unique _ _ _ V (fn_total _ _ N)) as ->. pose proof (sphere_unique _ _ _ U (fn_total _ _ N)) as Q.
  rewrite C in Q by nia. change (ban 0) with 0%nat in Q. rewrite (proj2 (Nat.ltb_lt 0 (zn z))) in Q by lia.
  destruct (of_zonal_is None z (le_n _)) as (d & E2 & C2). cbn [sh_bands] in *.
  assert (W2 : sphere_integral (fun x _ => zonal_fn (zn z) (zc z) x) (d 0%nat * sqrt (4 * PI))) by (eapply sphere_ext; [|apply (fn_total (zn z) d M)]; intros x phi X; cbv beta; now apply C2).
  pose proof (sphere_unique _ _ _ W W2) as ->.
  destruct (of_zonal_loop z (zn z) (le_n _)) as (d' & E3 & C3). unfold sh_of_zonal in E2. cbn [sh_bands] in E2. cbv zeta in E2. rewrite E3 in E2. injection E2 as <-.
  rewrite C3 in Q, W0. change (ban 0) with 0%nat in Q, W0. change (sub 0) with 0%nat in Q, W0. rewrite (proj2 (Nat.ltb_lt 0 (zn z))) in Q, W0 by lia. cbn [andb Nat.eqb] in Q, W0.
  assert (B : band_factor 0 = sqrt (4 * PI)) by (unfold band_factor; cbn [INR]; f_equal; field). rewrite B in *.
  pose proof PI2_1. pose proof PI_RGT_0. assert (S4 : sqrt (4 * PI) * sqrt (4 * PI) = 4 * PI) by (apply sqrt_sqrt; lra).
  assert (F : shc s 0%nat * zc z 0%nat * sqrt (4 * PI) * (4 * PI - 1) = 0).
  { assert (G : forall a b r p, r * r = p -> a * r * (b * r * r) = a * b * r -> a * b * r * (p - 1) = 0) by (intros a b r p <- Hq; lra). exact (G _ _ _ _ S4 Q). }
  apply Rmult_integral in F. destruct F as [F|F]; [|lra]. apply V0.
  apply (Rmult_eq_reg_l (zc z 0%nat)); [rewrite Rmult_0_r, <- F; ring|]. intros Z; apply W0; rewrite Z; ring.
Qed.
Print Assumptions sh_convolve_refuted.
(** normalize never changes the integral, so it makes it 1 only if it was. *)
Theorem sh_normalize_refuted s : (1 <= shn s)%nat -> exists s', sh_normalize s = Some s' /\ shn s' = shn s /\
  forall v, sphere_integral (sh_fn (shn s) (shc s)) v -> sphere_integral (sh_fn (shn s') (shc s')) v.
Proof.
  intros N. unfold sh_normalize. destruct (Nat.eqb_spec (shn s) 0); [lia|]. cbv zeta. destruct (Req_EM_T (shc s 0%nat) 0) as [Z|Z].
  - exists s. split; [reflexivity|]. split; [reflexivity|trivial].
  - eexists. split; [reflexivity|]. split; [reflexivity|]. intros v V. pose proof (sphere_unique _ _ _ V (fn_total _ _ N)) as ->. cbn [shn shc].
    pose proof (fn_total (shn s) (fun i => if (1 <=? i)%nat && (i <? shn s * shn s)%nat then shc s i / shc s 0%nat else shc s i) N) as H. exact H.
Qed.
Print Assumptions sh_normalize_refuted.
(** What it does: it divides every coefficient but coefficient 0 by coefficient 0. *)
Theorem sh_normalize_spec s : (1 <= shn s)%nat -> exists s', sh_normalize s = Some s' /\ shn s' = shn s /\
  forall i, (i < shn s * shn s)%nat -> shc s' i = if (i =? 0)%nat then shc s i else if Req_EM_T (shc s 0%nat) 0 then shc s i else shc s i / shc s 0%nat.
Proof.
  intros N. unfold sh_normalize. destruct (Nat.eqb_spec (shn s) 0); [lia|]. cbv zeta. destruct (Req_EM_T (shc s 0%nat) 0) as [Z|Z].
  - exists s. split; [reflexivity|]. split; [reflexivity|]. intros i _. now destruct (i =? 0)%nat.
  - eexists. split; [reflexivity|]. split; [reflexivity|]. intros i I. cbn [shc]. rewrite (proj2 (Nat.ltb_lt _ _) I). destruct i; reflexivity.
Qed.
Print Assumptions sh_normalize_spec.
(** += k does not add k to the function, but k / sqrt(4 pi). *)
Theorem sh_add_const_refuted s k : (1 <= shn s)%nat -> exists s', sh_add_const k s = Some s' /\ shn s' = shn s /\
  forall x phi, -1 <= x <= 1 -> sh_fn (shn s') (shc s') x phi = sh_fn (shn s) (shc s) x phi + k / sqrt (4 * PI) /\
    (k <> 0 -> sh_fn (shn s') (shc s') x phi <> sh_fn (shn s) (shc s) x phi + k).
Proof.
  intros N. unfold sh_add_const. destruct (Nat.eqb_spec (shn s) 0); [lia|]. eexists. split; [reflexivity|]. split; [reflexivity|]. cbn [shn shc].
  intros x phi X. pose proof PI2_1 as P2. pose proof PI_RGT_0. assert (S4 : sqrt (4 * PI) * sqrt (4 * PI) = 4 * PI) by (apply sqrt_sqrt; lra).
  assert (Ps : 0 < sqrt (4 * PI)) by (apply sqrt_lt_R0; lra).
  assert (E : sh_fn (shn s) (upd (shc s) 0 (shc s 0%nat + k)) x phi = sh_fn (shn s) (shc s) x phi + k / sqrt (4 * PI)).
  { rewrite !sh_fn_flat. replace (shn s * shn s)%nat with (1 + (shn s * shn s - 1))%nat by nia. rewrite !rsum_split. cbn [rsum]. rewrite upd_eq.
    rewrite (rsum_ext _ (fun i => upd (shc s) 0 (shc s 0%nat + k) (1 + i)%nat * Yi (1 + i) x phi) (fun i => shc s (1 + i)%nat * Yi (1 + i) x phi)) by (intros i _; now rewrite upd_neq by lia).
    assert (Y0 : Yi 0 x phi = / sqrt (4 * PI)) by (rewrite Yi_sgn; change (ban 0) with 0%nat; change (sgn 0) with 0%Z; rewrite Y_0 by trivial; rewrite K_00; change (P 0 x) with 1; ring).
    rewrite Y0. unfold Rdiv. ring. }
  split; [exact E|]. rewrite E. intros K0 F. apply Rplus_eq_reg_l in F.
  assert (G : k * (sqrt (4 * PI) - 1) = 0) by (replace (k * (sqrt (4 * PI) - 1)) with (k * sqrt (4 * PI) - k) by ring; rewrite <- F at 1; field; lra).
  apply Rmult_integral in G. destruct G; [contradiction|]. nra.
Qed.
Print Assumptions sh_add_const_refuted.
(** A zonal function cannot be made from a spherical one: the first coefficient is the square root of a negative number. *)
Theorem zonal_of_sh_refuted s : (1 <= shn s)%nat -> zonal_of_sh s = None.
Proof. exact (zonal_of_sh_none s). Qed.
Print Assumptions zonal_of_sh_refuted.
(** A zonal function turned to a new axis has these coefficients ... *)
Theorem sh_of_zonal_axis_spec st z d x phi : (sh_bands st z <= zn z)%nat -> d <> zero3 -> at_angles d x phi ->
  exists s, sh_of_zonal_axis st z d = Some s /\ shn s = sh_bands st z /\
  forall l j, (l < shn s)%nat -> (j <= 2 * l)%nat -> shc s (l * l + j)%nat = zc z l * sqrt (4 * PI / (2 * INR l + 1)) * Y l (Z.of_nat j - Z.of_nat l) x phi.
Proof.
  intros N H A. destruct (axis_is st z d x phi N H A) as (c & E & C). eexists. split; [exact E|]. split; [reflexivity|]. cbn [shn shc]. intros l j L J.
  rewrite C by nia. rewrite ban_of, Yi_band by lia. reflexivity.
Qed.
Print Assumptions sh_of_zonal_axis_spec.
(** ... which lack a factor sqrt(4 pi / (2 l + 1)): the turned function does not have the integral of the original,
    whatever the axis. *)
Theorem sh_of_zonal_axis_refuted st z d s v w : (1 <= sh_bands st z <= zn z)%nat -> d <> zero3 -> sh_of_zonal_axis st z d = Some s ->
  sphere_integral (fun x _ => zonal_fn (sh_bands st z) (zc z) x) v -> v <> 0 -> sphere_integral (sh_fn (shn s) (shc s)) w -> w <> v.
Proof.
  intros [N1 N] H E V V0 W Q. destruct (angles_exist d H) as (x & phi & X & A). destruct (axis_is st z d x phi N H A) as (c & E' & C).
  rewrite E in E'. injection E' as ->. cbn [shn shc] in W. pose proof (sphere_unique _ _ _ W (fn_total _ _ N1)) as Ew.
  pose proof PI2_1. pose proof PI_RGT_0. assert (S4 : sqrt (4 * PI) * sqrt (4 * PI) = 4 * PI) by (apply sqrt_sqrt; lra). assert (Ps : 0 < sqrt (4 * PI)) by (apply sqrt_lt_R0; lra).
  assert (B : band_factor 0 = sqrt (4 * PI)) by (unfold band_factor; cbn [INR]; f_equal; field).
  assert (Vv : v = 4 * PI * zc z 0%nat).
  { destruct (of_zonal_loop z _ N) as (e & E1 & E2). destruct (of_zonal_is st z N) as (e' & E3 & E4). unfold sh_of_zonal in E3. cbv zeta in E3. rewrite E1 in E3. injection E3 as <-.
    assert (V2 : sphere_integral (fun x _ => zonal_fn (sh_bands st z) (zc z) x) (e 0%nat * sqrt (4 * PI))) by (eapply sphere_ext; [|apply (fn_total _ e N1)]; intros; cbv beta; now apply E4).
    rewrite (sphere_unique _ _ _ V V2), E2. change (ban 0) with 0%nat. change (sub 0) with 0%nat. rewrite (proj2 (Nat.ltb_lt 0 _)) by lia. cbn [andb Nat.eqb]. rewrite B, Rmult_assoc, S4. ring. }
  rewrite C in Ew by nia. rewrite Yi_sgn in Ew. change (ban 0) with 0%nat in Ew. change (sgn 0) with 0%Z in Ew. rewrite Y_0 in Ew by trivial.
  rewrite K_00, B in Ew. change (P 0 x) with 1 in Ew.
  assert (Ew' : w = zc z 0%nat * sqrt (4 * PI)) by (rewrite Ew; field; lra).
  assert (zc z 0%nat <> 0) by (intros Z; apply V0; rewrite Vv, Z; ring).
  assert (G2 : forall b r p, r * r = p -> b * r = p * b -> b * (r * (r - 1)) = 0) by (intros b r p <- Hq; lra).
  rewrite Ew', Vv in Q. pose proof (G2 _ _ _ S4 Q) as F.
  apply Rmult_integral in F. destruct F as [F|F]; [contradiction|]. apply Rmult_integral in F. destruct F; nra.
Qed.
Print Assumptions sh_of_zonal_axis_refuted.
Example sh_nontrivial : exists s, sh_of_zonal (Some 2%nat) (mkZonal 3 (fun l => INR l + 1)) = Some s /\ sh_fn (shn s) (shc s) (1/2) 5 = 2.
Proof.
  destruct (of_zonal_is (Some 2%nat) (mkZonal 3 (fun l => INR l + 1))) as (c & E & C); [cbn; lia|]. eexists. split; [exact E|]. cbn [shn shc]. rewrite C by lra.
  cbn. field.
Qed.
Example at_angles_exists : let d := V3 0 0 2 in d <> zero3 /\ at_angles d 1 0.
Proof.
  assert (M : mag3 (V3 0 0 2) = 2) by (unfold mag3, mag2_3, dot3; cbn; replace (2 * 2 + (0 * 0 + (0 * 0 + 0))) with (2 * 2) by ring; apply sqrt_square; lra).
  split; [intros H; injection H; lra|]. unfold at_angles. cbn [vx vy vz]. rewrite M. replace (1 - 1 * 1) with 0 by ring. rewrite sqrt_0. lra.
Qed.
