From Coq Require Import Reals ZArith Lia Lra Bool List.
From Flocq Require Import Core Relative Plus_error Mult_error Operations BinarySingleNaN.
From Verif Require Import FmaModel FmaSpec FmaProofs FquadModel FquadProofs FquadMore FvecModel FvecSpec FvecProofs FvecMore FmtxModel FmtxSpec FmtxProofs FmtxMore FboxModel FboxSpec.
Import ListNotations.
Open Scope R_scope.

Section Box.
Variable prec emax : Z.
Context {Hp : Prec_gt_0 prec} {He : Prec_lt_emax prec emax}.
Notation float := (binary_float prec emax).
Notation pw := (bpow radix2).
Notation emin' := (FmaSpec.emin prec emax).
Notation fexp' := (FLT_exp emin' prec).
Notation RNE := (rn fexp' (fun t => negb (Z.even t))).
Notation FT := (generic_format radix2 fexp').
Notation M := (pw emax).
Notation add := (fl_add prec emax).
Notation sub := (fl_sub prec emax).
Notation mul := (fl_mul prec emax).
Notation div := (fl_div prec emax).
Notation zero := (fl_lit prec emax 0 0).

Lemma finite_place (x : float) : is_finite x = true -> place x = B2R x. Proof. destruct x; try discriminate; reflexivity. Qed.
Lemma finite_not_nan (x : float) : is_finite x = true -> is_nan x = false. Proof. destruct x; try discriminate; reflexivity. Qed.
Lemma m_pos : 0 < M. Proof. apply bpow_gt_0. Qed.
Lemma place_range (x : float) : - M <= place x <= M.
Proof.
  pose proof m_pos. destruct x as [s|[|]| |s m e H']; try (cbn; lra). pose proof (abs_B2R_lt_emax prec emax (B754_finite s m e H')) as A. apply Rabs_lt_inv in A. unfold place. lra.
Qed.
Lemma finite_inside (x : float) : is_finite x = true -> - M < place x < M.
Proof. intros F. rewrite finite_place by exact F. pose proof (abs_B2R_lt_emax prec emax x) as A. apply Rabs_lt_inv in A. exact A. Qed.
Lemma below (x : float) : is_nan x = false -> place x <= - M -> x = B754_infinity true.
Proof. intros N L. destruct (is_finite x) eqn:F; [pose proof (finite_inside x F); lra|]. pose proof m_pos. destruct x as [s|[|]| |s m e H']; try discriminate; [reflexivity|cbn in L; lra]. Qed.
Lemma above (x : float) : is_nan x = false -> M <= place x -> x = B754_infinity false.
Proof. intros N L. destruct (is_finite x) eqn:F; [pose proof (finite_inside x F); lra|]. pose proof m_pos. destruct x as [s|[|]| |s m e H']; try discriminate; [cbn in L; lra|reflexivity]. Qed.
Lemma ltb_place (x y : float) : is_nan x = false -> is_nan y = false -> fl_ltb prec emax x y = Rlt_bool (place x) (place y).
Proof.
  intros Nx Ny. pose proof m_pos as MP. destruct (is_finite x) eqn:Fx, (is_finite y) eqn:Fy.
  - rewrite !finite_place by assumption. now apply Bltb_correct.
  - destruct y as [s|s| |s m e H']; try discriminate. pose proof (finite_inside x Fx) as B. destruct (finite_ltb_inf prec emax x s Fx) as (_ & ->). destruct s; cbn [negb place]; symmetry; [apply Rlt_bool_false|apply Rlt_bool_true]; lra.
  - destruct x as [s|s| |s m e H']; try discriminate. pose proof (finite_inside y Fy) as B. destruct (finite_ltb_inf prec emax y s Fy) as (-> & _). destruct s; cbn [place]; symmetry; [apply Rlt_bool_true|apply Rlt_bool_false]; lra.
  - destruct x as [s|s| |s m e H'], y as [t|t| |t m' e' H'']; try discriminate. destruct s, t; cbn; symmetry; try (apply Rlt_bool_false; lra); apply Rlt_bool_true; lra.
Qed.
Lemma min_place (x y : float) : is_nan x = false -> is_nan y = false -> is_nan (fl_min prec emax x y) = false /\ place (fl_min prec emax x y) = Rmin (place x) (place y).
Proof.
  intros Nx Ny. unfold fl_min. rewrite ltb_place by assumption. destruct (Rlt_bool_spec (place y) (place x)); split; try assumption; [rewrite Rmin_right|rewrite Rmin_left]; auto; lra.
Qed.
Lemma max_place (x y : float) : is_nan x = false -> is_nan y = false -> is_nan (fl_max prec emax x y) = false /\ place (fl_max prec emax x y) = Rmax (place x) (place y).
Proof.
  intros Nx Ny. unfold fl_max. rewrite ltb_place by assumption. destruct (Rlt_bool_spec (place x) (place y)); split; try assumption; [rewrite Rmax_right|rewrite Rmax_left]; auto; lra.
Qed.
(** *** Results clamped to the range *)
Definition cl (r : R) : R := Rmax (- M) (Rmin M r).
Lemma cl_mono r s : r <= s -> cl r <= cl s. Proof. intros H. unfold cl. apply Rle_max_compat_l. now apply Rle_min_compat_l. Qed.
Lemma cl_id r : Rabs r <= M -> cl r = r. Proof. intros H. apply Rabs_le_inv in H. unfold cl. rewrite Rmin_right by lra. apply Rmax_right. lra. Qed.
Lemma cl_hi r : M <= r -> cl r = M. Proof. intros H. pose proof m_pos. unfold cl. rewrite Rmin_left by lra. apply Rmax_right. lra. Qed.
Lemma cl_lo r : r <= - M -> cl r = - M. Proof. intros H. pose proof m_pos. unfold cl. rewrite Rmin_right by lra. apply Rmax_left. lra. Qed.
Lemma rne_mono x y : x <= y -> RNE x <= RNE y. Proof. apply (rn_le emin' prec). Qed.
Lemma rne_zero : RNE 0 = 0. Proof. apply rn_zero. Qed.
Lemma clamped_result (r : float) (x : R) (s : bool) : (if Rlt_bool (Rabs (RNE x)) M then B2R r = RNE x /\ is_finite r = true else B2SF r = binary_overflow prec emax mode_NE s) -> (s = true -> x <= 0) -> (s = false -> 0 <= x) ->
  is_nan r = false /\ place r = cl (RNE x).
Proof.
  intros H S1 S0. pose proof m_pos as MP. destruct (Rlt_bool_spec (Rabs (RNE x)) M) as [L|L].
  - destruct H as (V & F). split; [now apply finite_not_nan|]. rewrite finite_place, V by exact F. symmetry. apply cl_id. lra.
  - cbn in H. destruct r as [t|t| |t m e H']; try discriminate. injection H as ->. split; [reflexivity|]. cbn [place]. destruct s.
    + pose proof (rne_mono x 0 (S1 eq_refl)) as B. rewrite rne_zero in B. symmetry. apply cl_lo. rewrite Rabs_left1 in L by exact B. lra.
    + pose proof (rne_mono 0 x (S0 eq_refl)) as B. rewrite rne_zero in B. symmetry. apply cl_hi. rewrite Rabs_pos_eq in L by exact B. lra.
Qed.
Lemma sign_neg (x : float) : is_finite x = true -> Bsign x = true -> B2R x <= 0.
Proof. intros F S. rewrite (sg_abs prec emax x F). unfold sg. rewrite S. pose proof (Rabs_pos (B2R x)). lra. Qed.
Lemma sign_pos (x : float) : is_finite x = true -> Bsign x = false -> 0 <= B2R x.
Proof. intros F S. rewrite (sg_abs prec emax x F). unfold sg. rewrite S. pose proof (Rabs_pos (B2R x)). lra. Qed.
Lemma add_place (x y : float) : is_finite x = true -> is_finite y = true -> is_nan (add x y) = false /\ place (add x y) = cl (RNE (B2R x + B2R y)).
Proof.
  intros Fx Fy. pose proof (Bplus_correct prec emax _ _ mode_NE x y Fx Fy) as H. destruct (Rlt_bool_spec (Rabs (RNE (B2R x + B2R y))) M) as [L|L].
  - apply (clamped_result _ _ (if Rle_dec (B2R x + B2R y) 0 then true else false)); [|destruct (Rle_dec _ _); (discriminate || auto)|destruct (Rle_dec _ _); (discriminate || lra)].
    destruct (plus_runs prec emax x y Fx Fy L) as (A & B). rewrite Rlt_bool_true by exact L. auto.
  - unfold SpecFloat.fexp in H. change (round radix2 _ _ (B2R x + B2R y)) with (RNE (B2R x + B2R y)) in H. rewrite Rlt_bool_false in H by exact L. destruct H as (V & S).
    apply (clamped_result _ _ (Bsign x)); [rewrite Rlt_bool_false by exact L; exact V| |].
    + intros E. pose proof (sign_neg x Fx E). rewrite S in E. pose proof (sign_neg y Fy E). lra.
    + intros E. pose proof (sign_pos x Fx E). rewrite S in E. pose proof (sign_pos y Fy E). lra.
Qed.
Lemma neg_finite (x : float) : is_finite x = true -> is_finite (fl_neg prec emax x) = true /\ B2R (fl_neg prec emax x) = - B2R x.
Proof. intros F. destruct (neg_runs prec emax x) as (A & B). rewrite A. auto. Qed.
Lemma sub_place (x y : float) : is_finite x = true -> is_finite y = true -> is_nan (sub x y) = false /\ place (sub x y) = cl (RNE (B2R x - B2R y)).
Proof. intros Fx Fy. rewrite <- sub_neg. destruct (neg_finite y Fy) as (A & B). destruct (add_place x _ Fx A) as (C & D). split; [exact C|]. rewrite D, B. reflexivity. Qed.
Lemma prod_sign (x y : float) : is_finite x = true -> is_finite y = true -> (xorb (Bsign x) (Bsign y) = true -> B2R x * B2R y <= 0) /\ (xorb (Bsign x) (Bsign y) = false -> 0 <= B2R x * B2R y).
Proof.
  intros Fx Fy. rewrite (sg_abs prec emax x Fx), (sg_abs prec emax y Fy). pose proof (Rmult_le_pos _ _ (Rabs_pos (B2R x)) (Rabs_pos (B2R y))) as P. unfold sg. destruct (Bsign x), (Bsign y); cbn [xorb]; split; intros E; try discriminate; nra.
Qed.
Lemma mul_place (x y : float) : is_finite x = true -> is_finite y = true -> is_nan (mul x y) = false /\ place (mul x y) = cl (RNE (B2R x * B2R y)).
Proof.
  intros Fx Fy. pose proof (Bmult_correct prec emax _ _ mode_NE x y) as H. destruct (prod_sign x y Fx Fy) as (S1 & S0).
  apply (clamped_result _ _ (xorb (Bsign x) (Bsign y))); auto. change (round radix2 _ _ (B2R x * B2R y)) with (RNE (B2R x * B2R y)) in H. destruct (Rlt_bool (Rabs (RNE (B2R x * B2R y))) M); [|exact H]. destruct H as (A & B & _). rewrite Fx, Fy in B. auto.
Qed.
Lemma div_place (x y : float) : is_finite x = true -> is_finite y = true -> B2R y <> 0 -> is_nan (div x y) = false /\ place (div x y) = cl (RNE (B2R x / B2R y)).
Proof.
  intros Fx Fy NZ. pose proof (Bdiv_correct prec emax _ _ mode_NE x y NZ) as H. destruct (prod_sign x y Fx Fy) as (S1 & S0).
  assert (Q : B2R x / B2R y = B2R x * B2R y * (/ B2R y * / B2R y)) by (field; exact NZ). assert (P : 0 <= / B2R y * / B2R y) by apply Rle_0_sqr.
  apply (clamped_result _ _ (xorb (Bsign x) (Bsign y))).
  - change (round radix2 _ _ (B2R x / B2R y)) with (RNE (B2R x / B2R y)) in H. destruct (Rlt_bool (Rabs (RNE (B2R x / B2R y))) M); [|exact H]. destruct H as (A & B & _). rewrite Fx in B. auto.
  - intros E. specialize (S1 E). rewrite Q. rewrite <- (Rmult_0_l (/ B2R y * / B2R y)). now apply Rmult_le_compat_r.
  - intros E. specialize (S0 E). rewrite Q. now apply Rmult_le_pos.
Qed.
(** *** Sums are monotonic *)
Lemma finite_cases (x : float) : is_nan x = false -> is_finite x = true \/ x = B754_infinity true \/ x = B754_infinity false.
Proof. destruct x as [s|[|]| |s m e H']; auto; discriminate. Qed.
Lemma add_below (x y p q : float) : is_nan x = false -> is_nan y = false -> is_finite p = true -> is_finite q = true -> place x <= place p -> place y <= place q -> is_nan (add x y) = false /\ place (add x y) <= place (add p q).
Proof.
  intros Nx Ny Fp Fq X Y. pose proof (finite_inside p Fp) as IP. pose proof (finite_inside q Fq) as IQ. destruct (add_place p q Fp Fq) as (_ & V). pose proof (place_range (add p q)) as G.
  destruct (finite_cases x Nx) as [Fx|[-> | ->]]; [|destruct (finite_cases y Ny) as [Fy|[-> | ->]]|cbn in X; lra].
  - destruct (finite_cases y Ny) as [Fy|[-> | ->]]; [|split; [destruct x; (discriminate || reflexivity)|]|cbn in Y; lra].
    + destruct (add_place x y Fx Fy) as (A & B). split; [exact A|]. rewrite B, V. apply cl_mono, rne_mono. rewrite !finite_place in X, Y by assumption. lra.
    + assert (E : add x (B754_infinity true) = B754_infinity true) by (destruct x; (discriminate || reflexivity)). rewrite E. cbn [place]. lra.
  - assert (E : add (B754_infinity true) y = B754_infinity true) by (destruct y; (discriminate || reflexivity)). rewrite E. split; [reflexivity|]. cbn [place]. lra.
  - split; [reflexivity|]. cbn. lra.
  - cbn in Y. lra.
Qed.
Lemma add_above (x y p q : float) : is_nan x = false -> is_nan y = false -> is_finite p = true -> is_finite q = true -> place p <= place x -> place q <= place y -> is_nan (add x y) = false /\ place (add p q) <= place (add x y).
Proof.
  intros Nx Ny Fp Fq X Y. pose proof (finite_inside p Fp) as IP. pose proof (finite_inside q Fq) as IQ. destruct (add_place p q Fp Fq) as (_ & V). pose proof (place_range (add p q)) as G.
  destruct (finite_cases x Nx) as [Fx|[-> | ->]]; [|cbn in X; lra|destruct (finite_cases y Ny) as [Fy|[-> | ->]]].
  - destruct (finite_cases y Ny) as [Fy|[-> | ->]]; [|cbn in Y; lra|split; [destruct x; (discriminate || reflexivity)|]].
    + destruct (add_place x y Fx Fy) as (A & B). split; [exact A|]. rewrite B, V. apply cl_mono, rne_mono. rewrite !finite_place in X, Y by assumption. lra.
    + assert (E : add x (B754_infinity false) = B754_infinity false) by (destruct x; (discriminate || reflexivity)). rewrite E. cbn [place]. lra.
  - assert (E : add (B754_infinity false) y = B754_infinity false) by (destruct y; (discriminate || reflexivity)). rewrite E. split; [reflexivity|]. cbn [place]. lra.
  - cbn in Y. lra.
  - split; [reflexivity|]. cbn. lra.
Qed.
Lemma between_products x y z a : x <= y <= z -> Rmin (x * a) (z * a) <= y * a <= Rmax (x * a) (z * a).
Proof.
  intros (A & B). destruct (Rle_lt_dec 0 a) as [P|P].
  - pose proof (Rmult_le_compat_r a _ _ P A). pose proof (Rmult_le_compat_r a _ _ P B). pose proof (Rmin_l (x * a) (z * a)). pose proof (Rmax_r (x * a) (z * a)). lra.
  - pose proof (Rmult_le_compat_neg_l a x y ltac:(lra) A). pose proof (Rmult_le_compat_neg_l a y z ltac:(lra) B). pose proof (Rmin_r (x * a) (z * a)). pose proof (Rmax_l (x * a) (z * a)). lra.
Qed.
Lemma mono_min f x y : (forall a b, a <= b -> f a <= f b) -> f (Rmin x y) = Rmin (f x) (f y).
Proof.
  intros Mo. destruct (Rle_lt_dec x y) as [L|L]; [rewrite (Rmin_left x y) by exact L|rewrite (Rmin_right x y) by lra]; symmetry; [apply Rmin_left|apply Rmin_right]; apply Mo; lra.
Qed.
Lemma mono_max f x y : (forall a b, a <= b -> f a <= f b) -> f (Rmax x y) = Rmax (f x) (f y).
Proof.
  intros Mo. destruct (Rle_lt_dec x y) as [L|L]; [rewrite (Rmax_right x y) by exact L|rewrite (Rmax_left x y) by lra]; symmetry; [apply Rmax_right|apply Rmax_left]; apply Mo; lra.
Qed.
Lemma clr_mono a b : a <= b -> cl (RNE a) <= cl (RNE b). Proof. intros H. apply cl_mono, rne_mono, H. Qed.

(** ** Boxes *)
Lemma contains_spec N b (p : nat -> float) : proper N b -> not_nan N p -> (fl_contains N b p = true <-> in_box N b p).
Proof.
  intros (NL & NH) NP. unfold fl_contains, in_box. rewrite forallb_forall. split; intros H i I.
  - specialize (H i ltac:(apply in_seq; lia)). cbv beta in H. rewrite !ltb_place in H by auto. apply negb_true_iff, orb_false_iff in H. destruct H as (A & B). split; [auto|]. destruct (Rlt_bool_spec (place (p i)) (place (fl_lo b i))); [discriminate|]. destruct (Rlt_bool_spec (place (fl_hi b i)) (place (p i))); [discriminate|]. lra.
  - apply in_seq in I. destruct (H i ltac:(lia)) as (_ & L). rewrite !ltb_place by (auto || (apply NL; lia) || (apply NH; lia) || (apply NP; lia)). rewrite !Rlt_bool_false by lra. reflexivity.
Qed.
Lemma contains_nan N (b : fl_box prec emax) : fl_contains N b (fun _ => B754_nan) = true.
Proof. unfold fl_contains. apply forallb_forall. intros i _. assert (E : forall x : float, fl_ltb prec emax B754_nan x = false /\ fl_ltb prec emax x B754_nan = false) by (intros x; destruct x as [s|s| |s m e H']; split; reflexivity). destruct (E (fl_lo b i)) as (-> & _), (E (fl_hi b i)) as (_ & ->). reflexivity. Qed.
Lemma empty_spec N (b : fl_box prec emax) : proper N b -> (fl_is_empty N b = true <-> ~ upright N b).
Proof.
  intros (NL & NH). unfold fl_is_empty, upright. split.
  - intros H U. apply existsb_exists in H. destruct H as (i & I & L). apply in_seq in I. rewrite ltb_place in L by ((apply NL; lia) || (apply NH; lia)). specialize (U i ltac:(lia)). rewrite Rlt_bool_false in L by lra. discriminate.
  - intros U. destruct (existsb _ _) eqn:E; [reflexivity|]. exfalso. apply U. intros i I. assert (X : fl_ltb prec emax (fl_hi b i) (fl_lo b i) = false). { destruct (fl_ltb prec emax (fl_hi b i) (fl_lo b i)) eqn:L; [|reflexivity]. assert (existsb (fun i => fl_ltb prec emax (fl_hi b i) (fl_lo b i)) (seq 0 N) = true) by (apply existsb_exists; exists i; split; [apply in_seq; lia|exact L]). congruence. }
    rewrite ltb_place in X by auto. destruct (Rlt_bool_spec (place (fl_hi b i)) (place (fl_lo b i))); [discriminate|lra].
Qed.
Lemma union_in N a b (p : nat -> float) : proper N a -> proper N b -> in_box N a p \/ in_box N b p -> in_box N (fl_union a b) p.
Proof.
  intros (A1 & A2) (B1 & B2) H i I. cbn [fl_union fl_lo fl_hi]. unfold fl_vmin, fl_vmax. destruct (min_place (fl_lo a i) (fl_lo b i)) as (_ & ->); auto. destruct (max_place (fl_hi a i) (fl_hi b i)) as (_ & ->); auto.
  pose proof (Rmin_l (place (fl_lo a i)) (place (fl_lo b i))). pose proof (Rmin_r (place (fl_lo a i)) (place (fl_lo b i))). pose proof (Rmax_l (place (fl_hi a i)) (place (fl_hi b i))). pose proof (Rmax_r (place (fl_hi a i)) (place (fl_hi b i))).
  destruct H as [H|H]; destruct (H i I) as (N' & L); (split; [exact N'|lra]).
Qed.
Lemma union_least N (a b c : fl_box prec emax) : proper N a -> proper N b -> proper N c -> (forall i, (i < N)%nat -> place (fl_lo c i) <= place (fl_lo a i) /\ place (fl_lo c i) <= place (fl_lo b i) /\ place (fl_hi a i) <= place (fl_hi c i) /\ place (fl_hi b i) <= place (fl_hi c i)) ->
  forall i, (i < N)%nat -> place (fl_lo c i) <= place (fl_lo (fl_union a b) i) /\ place (fl_hi (fl_union a b) i) <= place (fl_hi c i).
Proof.
  intros (A1 & A2) (B1 & B2) _ H i I. destruct (H i I) as (X1 & X2 & X3 & X4). cbn [fl_union fl_lo fl_hi]. unfold fl_vmin, fl_vmax. destruct (min_place (fl_lo a i) (fl_lo b i)) as (_ & ->); auto. destruct (max_place (fl_hi a i) (fl_hi b i)) as (_ & ->); auto. split; [now apply Rmin_glb|now apply Rmax_lub].
Qed.
Lemma intersection_in N a b (p : nat -> float) : proper N a -> proper N b -> (in_box N (fl_intersection a b) p <-> in_box N a p /\ in_box N b p).
Proof.
  intros (A1 & A2) (B1 & B2). unfold in_box. cbn [fl_intersection fl_lo fl_hi]. unfold fl_vmin, fl_vmax. split.
  - intros H. split; intros i I; destruct (H i I) as (N' & L); destruct (max_place (fl_lo a i) (fl_lo b i)) as (_ & E1); auto; destruct (min_place (fl_hi a i) (fl_hi b i)) as (_ & E2); auto; rewrite E1, E2 in L; (split; [exact N'|]);
      pose proof (Rmax_l (place (fl_lo a i)) (place (fl_lo b i))); pose proof (Rmax_r (place (fl_lo a i)) (place (fl_lo b i))); pose proof (Rmin_l (place (fl_hi a i)) (place (fl_hi b i))); pose proof (Rmin_r (place (fl_hi a i)) (place (fl_hi b i))); lra.
  - intros (HA & HB) i I. destruct (HA i I) as (N' & LA), (HB i I) as (_ & LB). destruct (max_place (fl_lo a i) (fl_lo b i)) as (_ & ->); auto. destruct (min_place (fl_hi a i) (fl_hi b i)) as (_ & ->); auto. split; [exact N'|]. split; [apply Rmax_lub; lra|apply Rmin_glb; lra].
Qed.
Lemma clip_place N b (p : nat -> float) i : proper N b -> (i < N)%nat -> is_nan (fl_clip b p i) = false /\
  (is_nan (p i) = false -> place (fl_clip b p i) = Rmin (place (fl_hi b i)) (Rmax (place (fl_lo b i)) (place (p i)))) /\ (is_nan (p i) = true -> place (fl_clip b p i) = Rmin (place (fl_hi b i)) (place (fl_lo b i))).
Proof.
  intros (NL & NH) I. unfold fl_clip, fl_vmin, fl_vmax. destruct (is_nan (p i)) eqn:E.
  - assert (X : fl_max prec emax (fl_lo b i) (p i) = fl_lo b i) by (unfold fl_max; destruct (p i) as [s|s| |s m e H']; try discriminate; destruct (fl_lo b i); reflexivity). rewrite X. destruct (min_place (fl_hi b i) (fl_lo b i)) as (A & B); auto. split; [exact A|]. split; [discriminate|auto].
  - destruct (max_place (fl_lo b i) (p i)) as (A & B); auto. destruct (min_place (fl_hi b i) _ (NH i I) A) as (C & D). split; [exact C|]. split; [intros _; now rewrite D, B|discriminate].
Qed.
Lemma translate_in N b (p t : nat -> float) : proper N b -> all_finite N p -> all_finite N t -> in_box N b p -> in_box N (fl_box_add b t) (fun i => add (p i) (t i)) /\ in_box N (fl_box_sub b t) (fun i => sub (p i) (t i)).
Proof.
  intros (NL & NH) Fp Ft H. split; intros i I; destruct (H i I) as (_ & L1 & L2); cbn [fl_box_add fl_box_sub fl_lo fl_hi].
  - destruct (add_below (fl_lo b i) (t i) (p i) (t i)) as (A & B); auto using finite_not_nan, Rle_refl. destruct (add_above (fl_hi b i) (t i) (p i) (t i)) as (C & D); auto using finite_not_nan, Rle_refl. destruct (add_place (p i) (t i)) as (E & _); auto.
  - rewrite <- !sub_neg. destruct (neg_finite (t i) (Ft i I)) as (Fn & _). destruct (add_below (fl_lo b i) (fl_neg prec emax (t i)) (p i) (fl_neg prec emax (t i))) as (A & B); auto using finite_not_nan, Rle_refl. destruct (add_above (fl_hi b i) (fl_neg prec emax (t i)) (p i) (fl_neg prec emax (t i))) as (C & D); auto using finite_not_nan, Rle_refl. destruct (add_place (p i) (fl_neg prec emax (t i))) as (E & _); auto.
Qed.
Lemma minkowski_in N a b (p q : nat -> float) : proper N a -> proper N b -> all_finite N p -> all_finite N q -> in_box N a p -> in_box N b q -> in_box N (fl_minkowski a b) (fun i => add (p i) (q i)).
Proof.
  intros (A1 & A2) (B1 & B2) Fp Fq HA HB i I. destruct (HA i I) as (_ & LA1 & LA2), (HB i I) as (_ & LB1 & LB2). cbn [fl_minkowski fl_lo fl_hi].
  destruct (add_below (fl_lo a i) (fl_lo b i) (p i) (q i)) as (X & Y); auto. destruct (add_above (fl_hi a i) (fl_hi b i) (p i) (q i)) as (Z & W); auto. destruct (add_place (p i) (q i)) as (E & _); auto.
Qed.
Lemma add_nonneg (x c : float) : is_nan x = false -> is_finite c = true -> 0 <= B2R c -> place x <= place (add x c) /\ is_nan (add x c) = false.
Proof.
  intros Nx Fc P. destruct (finite_cases x Nx) as [Fx|[-> | ->]].
  - destruct (add_place x c Fx Fc) as (A & ->). split; [|exact A]. rewrite finite_place by exact Fx. rewrite <- (cl_id (B2R x)) at 1 by (left; apply abs_B2R_lt_emax). apply cl_mono. rewrite <- (rne_exact prec emax x) at 1. apply rne_mono. lra.
  - assert (E : add (B754_infinity true) c = B754_infinity true) by (destruct c; (discriminate || reflexivity)). rewrite E. split; [lra|reflexivity].
  - assert (E : add (B754_infinity false) c = B754_infinity false) by (destruct c; (discriminate || reflexivity)). rewrite E. split; [lra|reflexivity].
Qed.
Lemma add_nonpos (x c : float) : is_nan x = false -> is_finite c = true -> B2R c <= 0 -> place (add x c) <= place x /\ is_nan (add x c) = false.
Proof.
  intros Nx Fc P. destruct (finite_cases x Nx) as [Fx|[-> | ->]].
  - destruct (add_place x c Fx Fc) as (A & ->). split; [|exact A]. rewrite finite_place by exact Fx. rewrite <- (cl_id (B2R x)) at 2 by (left; apply abs_B2R_lt_emax). apply cl_mono. rewrite <- (rne_exact prec emax x) at 2. apply rne_mono. lra.
  - assert (E : add (B754_infinity true) c = B754_infinity true) by (destruct c; (discriminate || reflexivity)). rewrite E. split; [lra|reflexivity].
  - assert (E : add (B754_infinity false) c = B754_infinity false) by (destruct c; (discriminate || reflexivity)). rewrite E. split; [lra|reflexivity].
Qed.
Lemma dilated_in N b (c p : nat -> float) : proper N b -> all_finite N c -> (forall i, (i < N)%nat -> 0 <= B2R (c i)) -> in_box N b p -> in_box N (fl_dilated b c) p.
Proof.
  intros (NL & NH) Fc P H i I. destruct (H i I) as (N' & L1 & L2). cbn [fl_dilated fl_lo fl_hi]. rewrite <- sub_neg. destruct (neg_finite (c i) (Fc i I)) as (Fn & Vn). specialize (P i I).
  destruct (add_nonneg (fl_hi b i) (c i)) as (X & _); auto. destruct (add_nonpos (fl_lo b i) (fl_neg prec emax (c i))) as (Y & _); auto; [lra|]. split; [exact N'|lra].
Qed.
Lemma span_in N (c1 c2 : nat -> float) (q : nat -> float) : not_nan N c1 -> not_nan N c2 -> not_nan N q -> (forall i, (i < N)%nat -> Rmin (place (c1 i)) (place (c2 i)) <= place (q i) <= Rmax (place (c1 i)) (place (c2 i))) -> in_box N (fl_spanning c1 c2) q.
Proof.
  intros N1 N2 NQ H i I. cbn [fl_spanning fl_lo fl_hi]. unfold fl_vmin, fl_vmax. destruct (min_place (c1 i) (c2 i)) as (_ & ->); auto. destruct (max_place (c1 i) (c2 i)) as (_ & ->); auto.
Qed.
Lemma scale_in N b (p a : nat -> float) : bounded_box N b -> all_finite N p -> all_finite N a -> in_box N b p -> in_box N (fl_box_mul b a) (fun i => mul (p i) (a i)).
Proof.
  intros (FL & FH) Fp Fa H. unfold fl_box_mul. apply span_in; try (intros i I; apply mul_place; auto). intros i I. destruct (H i I) as (_ & L). rewrite !finite_place in L by auto. pose proof (between_products _ _ _ (B2R (a i)) L) as B.
  destruct (mul_place (fl_lo b i) (a i)) as (_ & ->); auto. destruct (mul_place (fl_hi b i) (a i)) as (_ & ->); auto. destruct (mul_place (p i) (a i)) as (_ & ->); auto.
  rewrite <- (mono_min (fun x => cl (RNE x))), <- (mono_max (fun x => cl (RNE x))) by apply clr_mono. split; apply clr_mono; lra.
Qed.
Lemma shrink_in N b (p a : nat -> float) : bounded_box N b -> all_finite N p -> all_finite N a -> (forall i, (i < N)%nat -> B2R (a i) <> 0) -> in_box N b p -> in_box N (fl_box_div b a) (fun i => div (p i) (a i)).
Proof.
  intros (FL & FH) Fp Fa NZ H. unfold fl_box_div. apply span_in; try (intros i I; apply div_place; auto). intros i I. destruct (H i I) as (_ & L). rewrite !finite_place in L by auto. pose proof (between_products _ _ _ (/ B2R (a i)) L) as B.
  destruct (div_place (fl_lo b i) (a i)) as (_ & ->); auto. destruct (div_place (fl_hi b i) (a i)) as (_ & ->); auto. destruct (div_place (p i) (a i)) as (_ & ->); auto.
  rewrite <- (mono_min (fun x => cl (RNE x))), <- (mono_max (fun x => cl (RNE x))) by apply clr_mono. split; apply clr_mono; unfold Rdiv; lra.
Qed.
End Box.
