(** Lemmas for dual numbers. *)
From Coq Require Import Reals ZArith Lra Lia List Bool Arith.
From Verif Require Import Vec3Model DualModel DualSpec.
Import ListNotations.
Open Scope R_scope.

Lemma d_eq f t l l' : derivable_pt_lim f t l -> l = l' -> derivable_pt_lim f t l'.
Proof. now intros H <-. Qed.
Lemma d_near f g t l : (exists del, 0 < del /\ forall h, Rabs h < del -> g (t + h) = f (t + h)) -> derivable_pt_lim f t l -> derivable_pt_lim g t l.
Proof.
  intros (del & P & E) H. apply (derivable_pt_lim_locally_ext f g t (t - del) (t + del)); [lra| |exact H].
  intros z Hz. replace z with (t + (z - t)) by ring. symmetry. apply E. apply Rabs_def1; lra.
Qed.
Lemma d_continuous f t l : derivable_pt_lim f t l -> forall eps, 0 < eps -> exists del, 0 < del /\ forall h, Rabs h < del -> Rabs (f (t + h) - f t) < eps.
Proof.
  intros H eps P. assert (C : continuity_pt f t) by (apply derivable_continuous_pt; now exists l).
  destruct (C eps P) as (a & Ha & Q). exists a. split; [exact Ha|]. intros h Hh. destruct (Req_dec h 0) as [->|N].
  - rewrite Rplus_0_r, Rminus_diag_eq, Rabs_R0 by reflexivity. exact P.
  - apply (Q (t + h)). split; [split; [exact I|lra]|]. unfold dist, R_met, R_dist. cbn. replace (t + h - t) with h by ring. exact Hh.
Qed.
Lemma d_positive f t l : derivable_pt_lim f t l -> 0 < f t -> exists del, 0 < del /\ forall h, Rabs h < del -> 0 < f (t + h).
Proof.
  intros H P. destruct (d_continuous f t l H (f t) P) as (del & Pd & Q). exists del. split; [exact Pd|]. intros h Hh. specialize (Q h Hh).
  apply Rabs_def2 in Q. lra.
Qed.
Lemma d_negative f t l : derivable_pt_lim f t l -> f t < 0 -> exists del, 0 < del /\ forall h, Rabs h < del -> f (t + h) < 0.
Proof.
  intros H P. destruct (d_continuous f t l H (- f t) ltac:(lra)) as (del & Pd & Q). exists del. split; [exact Pd|]. intros h Hh. specialize (Q h Hh).
  apply Rabs_def2 in Q. lra.
Qed.
Lemma d_less f g t l m : derivable_pt_lim f t l -> derivable_pt_lim g t m -> f t < g t -> exists del, 0 < del /\ forall h, Rabs h < del -> f (t + h) < g (t + h).
Proof.
  intros F G L. destruct (d_negative (fun s => f s - g s) t (l - m) (derivable_pt_lim_minus f g t l m F G) ltac:(lra)) as (del & P & Q).
  exists del. split; [exact P|]. intros h Hh. specialize (Q h Hh). cbn in Q. lra.
Qed.

(** ** Partial real operations *)
Lemma div_some a b r : div_f a b = Some r -> b <> 0 /\ r = a / b.
Proof. unfold div_f. destruct (Req_EM_T b 0); [discriminate|]. intros E. injection E as <-. split; [assumption|reflexivity]. Qed.
Lemma log_some a r : log_f a = Some r -> 0 < a /\ r = ln a.
Proof. unfold log_f. destruct (Rlt_dec 0 a); [|discriminate]. intros E. injection E as <-. split; [assumption|reflexivity]. Qed.
Lemma sqrt_some a r : sqrt_f a = Some r -> 0 <= a /\ r = sqrt a.
Proof. unfold sqrt_f. destruct (Rle_dec 0 a); [|discriminate]. intros E. injection E as <-. split; [assumption|reflexivity]. Qed.
Lemma opt2_some a b d : opt2 a b = Some d -> a = Some (px d) /\ b = Some (dx d).
Proof. unfold opt2. destruct a, b; try discriminate. intros E. injection E as <-. split; reflexivity. Qed.
Lemma obind_some A B (o : option A) (f : A -> option B) r : obind o f = Some r -> exists a, o = Some a /\ f a = Some r.
Proof. destruct o; [|discriminate]. cbn. eauto. Qed.
Ltac opt := repeat match goal with
  | H : opt2 _ _ = Some _ |- _ => apply opt2_some in H; destruct H
  | H : div_f _ _ = Some _ |- _ => apply div_some in H; destruct H
  | H : log_f _ = Some _ |- _ => apply log_some in H; destruct H
  | H : sqrt_f _ = Some _ |- _ => apply sqrt_some in H; destruct H
  | H : obind _ _ = Some _ |- _ => apply obind_some in H; destruct H as (? & ? & ?)
  | H : Some _ = Some _ |- _ => injection H as H
  end.

(** ** One rule per operation *)
Lemma t_near g t k d : tracks k t d -> (exists del, 0 < del /\ forall h, Rabs h < del -> g (t + h) = k (t + h)) -> tracks g t d.
Proof.
  intros [V E] N. split; [|now apply (d_near k)]. destruct N as (del & P & Q). specialize (Q 0). rewrite Rplus_0_r, Rabs_R0 in Q. rewrite Q by exact P. exact V.
Qed.
Section Rules.
Variables (f g : R -> R) (t : R) (a b : dual).
Hypothesis (Fa : tracks f t a).
Lemma t_const c : tracks (fun _ => c) t (of_const c).
Proof. split; [reflexivity|]. apply derivable_pt_lim_const. Qed.
Lemma t_chain F l d : derivable_pt_lim F (px a) l -> px d = F (px a) -> dx d = l * dx a -> tracks (fun s => F (f s)) t d.
Proof.
  destruct Fa as [V E]. intros H X Y. split; [now rewrite V|]. rewrite Y. apply (derivable_pt_lim_comp f F t); [exact E|now rewrite V].
Qed.
Lemma t_adds c : tracks (fun s => f s + c) t (dadd_s a c).
Proof. apply (t_chain (fun x => x + c) 1); [|reflexivity|cbn; ring]. apply (d_eq _ _ _ _ (derivable_pt_lim_plus id (fun _ => c) (px a) 1 0 (derivable_pt_lim_id _) (derivable_pt_lim_const _ _))). ring. Qed.
Lemma t_sadd c : tracks (fun s => c + f s) t (s_dadd c a).
Proof. apply (t_chain (fun x => c + x) 1); [|reflexivity|cbn; ring]. apply (d_eq _ _ _ _ (derivable_pt_lim_plus (fun _ => c) id (px a) 0 1 (derivable_pt_lim_const _ _) (derivable_pt_lim_id _))). ring. Qed.
Lemma t_subs c : tracks (fun s => f s - c) t (dsub_s a c).
Proof. apply (t_chain (fun x => x - c) 1); [|reflexivity|cbn; ring]. apply (d_eq _ _ _ _ (derivable_pt_lim_minus id (fun _ => c) (px a) 1 0 (derivable_pt_lim_id _) (derivable_pt_lim_const _ _))). ring. Qed.
Lemma d_scal c x : derivable_pt_lim (fun x => c * x) x c.
Proof. apply (d_eq _ _ _ _ (derivable_pt_lim_scal id c x 1 (derivable_pt_lim_id _))). ring. Qed.
Lemma t_smul c : tracks (fun s => c * f s) t (s_dmul c a).
Proof. apply (t_chain (fun x => c * x) c); [apply d_scal|reflexivity|cbn; ring]. Qed.
Lemma t_muls c : tracks (fun s => f s * c) t (dmul_s a c).
Proof.
  apply (t_chain (fun x => x * c) c); [|reflexivity|cbn; ring]. apply (derivable_pt_lim_ext (fun x => c * x)); [intros; ring|apply d_scal].
Qed.
Lemma t_divs c d : ddiv_s a c = Some d -> tracks (fun s => f s / c) t d.
Proof.
  unfold ddiv_s. intros H. opt. apply (t_chain (fun x => x / c) (/ c)).
  - apply (derivable_pt_lim_ext (fun x => / c * x)); [intros; unfold Rdiv; ring|apply d_scal].
  - assumption.
  - match goal with E : dx d = _ |- _ => rewrite E end. unfold Rdiv. ring.
Qed.
Lemma t_neg : tracks (fun s => - f s) t (dneg a).
Proof. apply (t_chain (fun x => - x) (-1)); [|reflexivity|cbn; ring]. apply (d_eq _ _ _ _ (derivable_pt_lim_opp id (px a) 1 (derivable_pt_lim_id _))). ring. Qed.
Lemma t_sin : tracks (fun s => sin (f s)) t (dsin a).
Proof. apply (t_chain sin (cos (px a))); [apply derivable_pt_lim_sin|reflexivity|cbn; ring]. Qed.
Lemma t_cos : tracks (fun s => cos (f s)) t (dcos a).
Proof. apply (t_chain cos (- sin (px a))); [apply derivable_pt_lim_cos|reflexivity|cbn; ring]. Qed.
Lemma strict x r : arc_f r x <> None -> sqrt (1 - x * x) <> 0 -> -1 < x < 1.
Proof.
  unfold arc_f. destruct (Rle_dec (-1) x); [|congruence]. destruct (Rle_dec x 1); [|congruence]. intros _ N.
  destruct (Req_dec x 1) as [->|]; [exfalso; apply N; replace (1 - 1 * 1) with 0 by ring; apply sqrt_0|].
  destruct (Req_dec x (-1)) as [->|]; [exfalso; apply N; replace (1 - -1 * -1) with 0 by ring; apply sqrt_0|]. lra.
Qed.
Lemma arc_some F x r : arc_f F x = Some r -> r = F x.
Proof. unfold arc_f. destruct (Rle_dec (-1) x); [|discriminate]. destruct (Rle_dec x 1); [|discriminate]. congruence. Qed.
Lemma t_asin d : dasin a = Some d -> tracks (fun s => asin (f s)) t d.
Proof.
  unfold dasin. intros H. opt. subst. assert (R : -1 < px a < 1) by (apply (strict _ asin); [congruence|assumption]).
  apply (t_chain asin (1 / sqrt (1 - (px a)²))).
  - apply (derive_pt_eq_1 _ _ _ (derivable_pt_asin _ R)), derive_pt_asin.
  - now apply arc_some.
  - match goal with E : dx d = _ |- _ => rewrite E end. unfold Rsqr, Rdiv. ring.
Qed.
Lemma t_acos d : dacos a = Some d -> tracks (fun s => acos (f s)) t d.
Proof.
  unfold dacos. intros H. opt. subst. assert (R : -1 < px a < 1) by (apply (strict _ acos); [congruence|assumption]).
  apply (t_chain acos (-1 / sqrt (1 - (px a)²))).
  - apply (derive_pt_eq_1 _ _ _ (derivable_pt_acos _ R)), derive_pt_acos.
  - now apply arc_some.
  - match goal with E : dx d = _ |- _ => rewrite E end. unfold Rsqr, Rdiv. ring.
Qed.
Lemma t_atan d : datan a = Some d -> tracks (fun s => atan (f s)) t d.
Proof.
  unfold datan. intros H. opt. apply (t_chain atan (/ (1 + px a ^ 2))); [apply derivable_pt_lim_atan|symmetry; assumption|].
  match goal with E : dx d = _ |- _ => rewrite E end. unfold Rdiv. replace (px a * px a + 1) with (1 + px a ^ 2) by ring. ring.
Qed.
Lemma t_log d : dlog a = Some d -> tracks (fun s => ln (f s)) t d.
Proof.
  unfold dlog. intros H. opt. apply (t_chain ln (/ px a)); [now apply derivable_pt_lim_ln|assumption|].
  match goal with E : dx d = _ |- _ => rewrite E end. unfold Rdiv. ring.
Qed.
Lemma t_sqrt d : dsqrt a = Some d -> tracks (fun s => sqrt (f s)) t d.
Proof.
  unfold dsqrt. intros H. opt. subst. assert (P : 0 < px a).
  { destruct (Rle_lt_or_eq_dec 0 (px a)) as [|E]; [assumption|assumption|]. exfalso. rewrite <- E, sqrt_0 in *. lra. }
  apply (t_chain sqrt (/ (2 * sqrt (px a)))); [now apply derivable_pt_lim_sqrt|reflexivity|]. cbn [dx]. unfold Rdiv. ring.
Qed.
Lemma d_inv x : x <> 0 -> derivable_pt_lim Rinv x (- / (x * x)).
Proof.
  intros N. apply (derivable_pt_lim_ext (fun y => 1 / y)); [intros; unfold Rdiv; ring|].
  apply (d_eq _ _ _ _ (derivable_pt_lim_div (fun _ => 1) id x 0 1 (derivable_pt_lim_const _ _) (derivable_pt_lim_id _) N)). unfold id, Rsqr. field. exact N.
Qed.
Lemma t_sdiv c d : s_ddiv c a = Some d -> tracks (fun s => c / f s) t d.
Proof.
  unfold s_ddiv. intros H. opt. apply (t_chain (fun x => c / x) (c * - / (px a * px a))).
  - apply (derivable_pt_lim_scal Rinv c). now apply d_inv.
  - assumption.
  - match goal with E : dx d = _ |- _ => rewrite E end. field. assumption.
Qed.
(** Powers. *)
Lemma d_powerRZ x n : x <> 0 -> derivable_pt_lim (fun y => powerRZ y n) x (IZR n * powerRZ x n / x).
Proof.
  intros N.
  assert (G : forall k : nat, derivable_pt_lim (fun y => y ^ k) x (INR k * x ^ k / x)).
  { intros k. apply (d_eq _ _ _ _ (derivable_pt_lim_pow x k)). destruct k; [cbn; field; exact N|]. cbn [Init.Nat.pred pow]. field. exact N. }
  destruct n as [|p|p].
  - cbn. apply (d_eq _ _ _ _ (derivable_pt_lim_const 1 x)). unfold Rdiv. ring.
  - cbn. apply (d_eq _ _ _ _ (G (Pos.to_nat p))). rewrite INR_IZR_INZ, positive_nat_Z. reflexivity.
  - cbn. apply (d_eq _ _ _ _ (derivable_pt_lim_comp (fun y => y ^ Pos.to_nat p) Rinv x _ _ (G (Pos.to_nat p)) (d_inv _ (pow_nonzero _ _ N)))).
    rewrite INR_IZR_INZ, positive_nat_Z. change (Z.neg p) with (- Z.pos p)%Z. rewrite opp_IZR. field. split; [apply pow_nonzero|]; exact N.
Qed.
Lemma int_part_IZR z : Int_part (IZR z) = z.
Proof.
  apply eq_IZR. pose proof (base_Int_part (IZR z)) as [L G]. apply Rle_antisym; [exact L|].
  assert (IZR z < IZR (Int_part (IZR z)) + 1) by lra. apply IZR_le. rewrite <- plus_IZR in H. apply lt_IZR in H. lia.
Qed.
Lemma t_pows e d : dpow_s a e = Some d -> tracks (fun s => pow_r (f s) e) t d.
Proof.
  unfold dpow_s. intros H. opt. subst. rename x into v.
  match goal with N : px a <> 0 |- _ => rename N into NZ end.
  match goal with N : pow_f _ _ = _ |- _ => rename N into PW end.
  unfold pow_r. destruct (Req_EM_T (IZR (Int_part e)) e) as [E|E].
  - assert (V : v = powerRZ (px a) (Int_part e)).
    { unfold pow_f in PW. destruct (Rlt_dec 0 (px a)) as [P|_].
      - injection PW as <-. rewrite <- E at 1. symmetry. now apply powerRZ_Rpower.
      - destruct (Req_EM_T (px a) 0); [contradiction|]. unfold floor_f in PW. destruct (Req_EM_T (IZR (Int_part e)) e); [congruence|contradiction]. }
    apply (t_chain (fun y => powerRZ y (Int_part e)) (IZR (Int_part e) * powerRZ (px a) (Int_part e) / px a)); [now apply d_powerRZ|exact V|].
    cbn [dx]. rewrite V, E. field. exact NZ.
  - assert (P : 0 < px a /\ v = Rpower (px a) e).
    { unfold pow_f in PW. destruct (Rlt_dec 0 (px a)) as [P|_]; [split; [exact P|congruence]|].
      destruct (Req_EM_T (px a) 0); [contradiction|]. unfold floor_f in PW. destruct (Req_EM_T (IZR (Int_part e)) e); [contradiction|discriminate]. }
    destruct P as [P V]. apply (t_chain (fun y => Rpower y e) (e * Rpower (px a) (e - 1))); [now apply derivable_pt_lim_power|exact V|].
    cbn [dx]. rewrite V. replace (Rpower (px a) (e - 1)) with (Rpower (px a) e / px a); [field; exact NZ|].
    unfold Rminus. rewrite Rpower_plus, Rpower_Ropp, Rpower_1 by exact P. reflexivity.
Qed.
Lemma d_exp_base c x : 0 < c -> derivable_pt_lim (fun y => Rpower c y) x (ln c * Rpower c x).
Proof.
  intros P. unfold Rpower. apply (d_eq _ _ _ _ (derivable_pt_lim_comp (fun y => y * ln c) exp x (ln c) (exp (x * ln c))
    (derivable_pt_lim_ext (fun y => ln c * y) _ _ _ (fun y => Rmult_comm _ _) (d_scal (ln c) x)) (derivable_pt_lim_exp _))). ring.
Qed.
Lemma t_spow c d : s_dpow PRight c a = Some d -> tracks (fun s => Rpower c (f s)) t d.
Proof.
  unfold s_dpow. intros H. opt. subst. match goal with E : pow_f _ _ = _ |- _ => unfold pow_f in E; destruct (Rlt_dec 0 c); [injection E as <-|contradiction] end.
  apply (t_chain (fun y => Rpower c y) (ln c * Rpower c (px a))); [now apply d_exp_base|reflexivity|cbn; ring].
Qed.
Lemma t_abs P d : dabs P a = Some d -> px a <> 0 -> tracks (fun s => Rabs (f s)) t d.
Proof.
  intros H N. unfold dabs in H. destruct (Req_EM_T (px a) 0); [contradiction|]. cbn in H. injection H as <-.
  pose proof Fa as [V E]. destruct (Rlt_dec (px a) 0) as [L|L].
  - apply (t_near _ _ (fun s => - f s) (dneg a) t_neg). destruct (d_negative f t _ E ltac:(lra)) as (del & P' & Q). exists del. split; [exact P'|].
    intros h Hh. apply Rabs_left, Q, Hh.
  - assert (tracks f t (D (px a) (dx a))) by (split; [exact V|exact E]).
    apply (t_near _ _ f _ H). destruct (d_positive f t _ E ltac:(lra)) as (del & P' & Q). exists del. split; [exact P'|].
    intros h Hh. apply Rabs_pos_eq. left. apply Q, Hh.
Qed.
Lemma int_part_near x : (forall n, x <> IZR n) -> exists del, 0 < del /\ forall y, Rabs (y - x) < del -> Int_part y = Int_part x.
Proof.
  intros N. pose proof (base_Int_part x) as [L G]. pose proof (N (Int_part x)) as N1.
  exists (Rmin (x - IZR (Int_part x)) (IZR (Int_part x) + 1 - x)). split.
  - apply Rmin_glb_lt; lra.
  - intros y Hy. assert (H1 := Rlt_le_trans _ _ _ Hy (Rmin_l _ _)). assert (H2 := Rlt_le_trans _ _ _ Hy (Rmin_r _ _)).
    apply Rabs_def2 in H1. apply Rabs_def2 in H2. unfold Int_part at 1. rewrite <- (up_tech y (Int_part x)); [lia|lra|]. rewrite plus_IZR. lra.
Qed.
Lemma step_zero P x y r : step_dx P x y = Some r -> r = 0.
Proof. unfold step_dx. destruct P; try destruct (Req_EM_T x y); congruence. Qed.
Lemma t_floor P d : dfloor P a = Some d -> (forall n, px a <> IZR n) -> tracks (fun s => floor_f (f s)) t d.
Proof.
  unfold dfloor. intros H N. opt. match goal with E : step_dx _ _ _ = _ |- _ => apply step_zero in E end.
  pose proof Fa as [V E]. apply (t_near _ _ (fun _ => px d) d).
  - split; [reflexivity|]. match goal with Z : dx d = 0 |- _ => rewrite Z end. apply derivable_pt_lim_const.
  - destruct (int_part_near (px a) N) as (e0 & P0 & Q0). destruct (d_continuous f t _ E e0 P0) as (del & Pd & Q). exists del. split; [exact Pd|].
    intros h Hh. unfold floor_f in *. rewrite Q0; [congruence|]. rewrite <- V. apply Q, Hh.
Qed.
Lemma t_ceil P d : dceil P a = Some d -> (forall n, px a <> IZR n) -> tracks (fun s => ceil_f (f s)) t d.
Proof.
  unfold dceil. intros H N. opt. match goal with E : step_dx _ _ _ = _ |- _ => apply step_zero in E end.
  pose proof Fa as [V E]. apply (t_near _ _ (fun _ => px d) d).
  - split; [reflexivity|]. match goal with Z : dx d = 0 |- _ => rewrite Z end. apply derivable_pt_lim_const.
  - assert (N' : forall n, - px a <> IZR n) by (intros n E'; apply (N (- n)%Z); rewrite opp_IZR; lra).
    destruct (int_part_near (- px a) N') as (e0 & P0 & Q0). destruct (d_continuous f t _ E e0 P0) as (del & Pd & Q). exists del. split; [exact Pd|].
    intros h Hh. unfold ceil_f in *. rewrite Q0; [congruence|]. rewrite <- V. replace (- f (t + h) - - f t) with (- (f (t + h) - f t)) by ring. rewrite Rabs_Ropp. apply Q, Hh.
Qed.

(** Two operands. *)
Hypothesis (Gb : tracks g t b).
Lemma t_add : tracks (fun s => f s + g s) t (dadd a b).
Proof. destruct Fa as [V E], Gb as [W H]. split; [cbn; now rewrite V, W|]. exact (derivable_pt_lim_plus f g t _ _ E H). Qed.
Lemma t_sub : tracks (fun s => f s - g s) t (dsub a b).
Proof. destruct Fa as [V E], Gb as [W H]. split; [cbn; now rewrite V, W|]. exact (derivable_pt_lim_minus f g t _ _ E H). Qed.
Lemma t_mul : tracks (fun s => f s * g s) t (dmul a b).
Proof.
  destruct Fa as [V E], Gb as [W H]. split; [cbn; now rewrite V, W|]. apply (d_eq _ _ _ _ (derivable_pt_lim_mult f g t _ _ E H)). rewrite V, W. cbn. ring.
Qed.
Lemma t_div d : ddiv a b = Some d -> tracks (fun s => f s / g s) t d.
Proof.
  unfold ddiv. intros Q. opt. destruct Fa as [V E], Gb as [W G]. split; [now rewrite V, W|].
  apply (d_eq _ _ _ _ (derivable_pt_lim_div f g t _ _ E G ltac:(now rewrite W))). rewrite V, W. match goal with Z : dx d = _ |- _ => rewrite Z end. unfold Rsqr. field. assumption.
Qed.
Lemma t_min P d : dmin P a b = Some d -> px a <> px b -> tracks (fun s => Rmin (f s) (g s)) t d.
Proof.
  intros H N. unfold dmin in H. destruct (Req_EM_T (px a) (px b)); [contradiction|]. cbn in H. injection H as <-.
  pose proof Fa as [V E]. pose proof Gb as [W E']. destruct (Rle_dec (px a) (px b)) as [L|L].
  - apply (t_near _ _ f); [split; [exact V|exact E]|]. destruct (d_less f g t _ _ E E' ltac:(lra)) as (del & Pd & Q). exists del. split; [exact Pd|].
    intros h Hh. apply Rmin_left. left. apply Q, Hh.
  - apply (t_near _ _ g); [split; [exact W|exact E']|]. destruct (d_less g f t _ _ E' E ltac:(lra)) as (del & Pd & Q). exists del. split; [exact Pd|].
    intros h Hh. apply Rmin_right. left. apply Q, Hh.
Qed.
Lemma t_max d : dmax PRight a b = Some d -> px a <> px b -> tracks (fun s => Rmax (f s) (g s)) t d.
Proof.
  intros H N. unfold dmax in H. destruct (Req_EM_T (px a) (px b)); [contradiction|]. cbn in H. injection H as <-.
  pose proof Fa as [V E]. pose proof Gb as [W E']. destruct (Rle_dec (px b) (px a)) as [L|L].
  - apply (t_near _ _ f); [split; [exact V|exact E]|]. destruct (d_less g f t _ _ E' E ltac:(lra)) as (del & Pd & Q). exists del. split; [exact Pd|].
    intros h Hh. apply Rmax_left. left. apply Q, Hh.
  - apply (t_near _ _ g); [split; [exact W|exact E']|]. destruct (d_less f g t _ _ E E' ltac:(lra)) as (del & Pd & Q). exists del. split; [exact Pd|].
    intros h Hh. apply Rmax_right. left. apply Q, Hh.
Qed.
End Rules.

(** atan2 away from its branch cut. *)
Lemma atan2_right y x : 0 < x -> atan2 y x = atan (y / x).
Proof. intros H. unfold atan2. destruct (Rlt_dec 0 x); [reflexivity|contradiction]. Qed.
Lemma atan2_up y x : 0 < y -> atan2 y x = PI / 2 - atan (x / y).
Proof.
  intros H. unfold atan2. destruct (Rlt_dec 0 x) as [P|P].
  - rewrite <- atan_inv by (apply Rdiv_lt_0_compat; assumption). f_equal. field. lra.
  - destruct (Rlt_dec x 0) as [Q|Q].
    + destruct (Rle_dec 0 y); [|lra]. replace (y / x) with (- / (- x / y)) by (field; lra). rewrite atan_opp, atan_inv by (apply Rdiv_lt_0_compat; lra).
      replace (- x / y) with (- (x / y)) by (field; lra). rewrite atan_opp. lra.
    + assert (x = 0) by lra. subst. destruct (Rlt_dec 0 y); [|contradiction]. replace (0 / y) with 0 by (field; lra). rewrite atan_0. lra.
Qed.
Lemma atan2_down y x : y < 0 -> atan2 y x = - (PI / 2) - atan (x / y).
Proof.
  intros H. unfold atan2. destruct (Rlt_dec 0 x) as [P|P].
  - replace (y / x) with (- / (x / - y)) by (field; lra). rewrite atan_opp, atan_inv by (apply Rdiv_lt_0_compat; lra).
    replace (x / - y) with (- (x / y)) by (field; lra). rewrite atan_opp. lra.
  - destruct (Rlt_dec x 0) as [Q|Q].
    + destruct (Rle_dec 0 y); [lra|]. replace (y / x) with (/ (- x / - y)) by (field; lra). rewrite atan_inv by (apply Rdiv_lt_0_compat; lra).
      replace (- x / - y) with (x / y) by (field; lra). lra.
    + assert (x = 0) by lra. subst. destruct (Rlt_dec 0 y); [lra|]. destruct (Rlt_dec y 0); [|contradiction]. replace (0 / y) with 0 by (field; lra). rewrite atan_0. lra.
Qed.
Lemma t_atan2 f g t y x d : tracks f t y -> tracks g t x -> datan2 y x = Some d -> ~ (px y = 0 /\ px x <= 0) -> tracks (fun s => atan2 (f s) (g s)) t d.
Proof.
  intros [V E] [W H] Q N. unfold datan2 in Q. opt.
  match goal with Z : dx d = _ |- _ => rename Z into Dd end. match goal with Z : atan2 _ _ = px d |- _ => rename Z into Pd end.
  assert (C : 0 < px y \/ px y < 0 \/ (px y = 0 /\ 0 < px x)) by (destruct (Rtotal_order (px y) 0) as [?|[?|?]]; [right; left; lra|right; right; split; [lra|]|left; lra]; destruct (Rlt_dec 0 (px x)); [assumption|exfalso; apply N; split; lra]).
  split; [now rewrite V, W|]. rewrite Dd.
  assert (X : forall k u v e l m, derivable_pt_lim k t l -> derivable_pt_lim e t m -> k t = u -> e t = v -> v <> 0 -> u * u + v * v <> 0 ->
     derivable_pt_lim (fun s => atan (k s / e s)) t ((l * v - u * m) / (u * u + v * v))).
  { intros k u v e l m K M Ku Ev Nv Nq. subst u v. apply (d_eq _ _ _ _ (derivable_pt_lim_comp _ atan t _ _ (derivable_pt_lim_div k e t _ _ K M Nv) (derivable_pt_lim_atan _))).
    unfold div_fct, Rsqr. field. repeat split; try exact Nv; intros Z; apply Nq; rewrite <- Z; ring. }
  destruct C as [C|[C|[C1 C2]]].
  - assert (Np : px x * px x + px y * px y <> 0) by nra.
    apply (d_near (fun s => PI / 2 - atan (g s / f s))).
    + destruct (d_positive f t _ E ltac:(lra)) as (del & P & R). exists del. split; [exact P|]. intros h Hh. apply atan2_up, R, Hh.
    + apply (d_eq _ _ _ _ (derivable_pt_lim_minus (fun _ => PI / 2) _ t _ _ (derivable_pt_lim_const _ _) (X g _ _ f _ _ H E W V ltac:(lra) Np))). field. exact Np.
  - assert (Np : px x * px x + px y * px y <> 0) by nra.
    apply (d_near (fun s => - (PI / 2) - atan (g s / f s))).
    + destruct (d_negative f t _ E ltac:(lra)) as (del & P & R). exists del. split; [exact P|]. intros h Hh. apply atan2_down, R, Hh.
    + apply (d_eq _ _ _ _ (derivable_pt_lim_minus (fun _ => - (PI / 2)) _ t _ _ (derivable_pt_lim_const _ _) (X g _ _ f _ _ H E W V ltac:(lra) Np))). field. exact Np.
  - assert (Np : px y * px y + px x * px x <> 0) by nra.
    apply (d_near (fun s => atan (f s / g s))).
    + destruct (d_positive g t _ H ltac:(lra)) as (del & P & R). exists del. split; [exact P|]. intros h Hh. apply atan2_right, R, Hh.
    + apply (d_eq _ _ _ _ (X f _ _ g _ _ E H V W ltac:(lra) Np)). rewrite (Rplus_comm (px x * px x)). field. exact Np.
Qed.
Lemma t_fma f g k t a b c : tracks f t a -> tracks g t b -> tracks k t c -> tracks (fun s => f s * g s + k s) t (dfma a b c).
Proof. intros A B C. exact (t_add _ _ _ _ _ (t_mul _ _ _ _ _ A B) C). Qed.
Lemma t_sop f g k m t a b c d : tracks f t a -> tracks g t b -> tracks k t c -> tracks m t d -> tracks (fun s => f s * g s + k s * m s) t (dsum_of_products a b c d).
Proof. intros A B C D. exact (t_add _ _ _ _ _ (t_mul _ _ _ _ _ A B) (t_mul _ _ _ _ _ C D)). Qed.

(** ** Expressions and programs *)
Section Prog.
Variables (P : policy) (t : R).
Definition tracked (cur : nat -> R -> R) (env : nat -> dual) : Prop := forall i, tracks (cur i) t (env i).
Lemma deval_tracks e cur env d : tracked cur env -> deval P e env = Some d -> smooth P e (fun i => cur i t) -> tracks (fun s => sem e (fun i => cur i s)) t d.
Proof.
  intros T. revert d. induction e; intros d E S; cbn [deval sem smooth] in *; unfold lift1, lift2, ret1, ret2 in *; opt; subst;
    repeat match goal with H : _ /\ _ |- _ => destruct H end; 
    repeat match goal with IH : forall d, deval _ ?e _ = Some d -> _ -> _, H : deval _ ?e _ = Some ?x |- _ => specialize (IH x H ltac:(assumption)) end.
  - apply T.
  - apply t_const.
  - now apply t_add.
  - now apply t_adds.
  - now apply t_sadd.
  - now apply t_sub.
  - now apply t_subs.
  - now apply t_mul.
  - now apply t_muls.
  - now apply t_smul.
  - now apply (t_div _ _ _ x x0).
  - now apply (t_divs _ _ x).
  - now apply (t_sdiv _ _ x).
  - now apply t_neg.
  - now apply t_sin.
  - now apply t_cos.
  - now apply (t_asin _ _ x).
  - now apply (t_acos _ _ x).
  - now apply (t_atan _ _ x).
  - apply (t_atan2 _ _ _ x x0); trivial. rewrite <- (proj1 IHe1), <- (proj1 IHe2). assumption.
  - now apply (t_log _ _ x).
  - now apply (t_pows _ _ x).
  - match goal with Q : P = PRight, H : s_dpow P _ _ = _ |- _ => rewrite Q in H end. now apply (t_spow _ _ x).
  - now apply (t_sqrt _ _ x).
  - apply (t_abs _ _ x IHe P); trivial. now rewrite <- (proj1 IHe).
  - apply (t_ceil _ _ x IHe P); trivial. now rewrite <- (proj1 IHe).
  - apply (t_floor _ _ x IHe P); trivial. now rewrite <- (proj1 IHe).
  - apply (t_min _ _ _ x x0 IHe1 IHe2 P); trivial. now rewrite <- (proj1 IHe1), <- (proj1 IHe2).
  - match goal with Q : P = PRight, H : dmax P _ _ = _ |- _ => rewrite Q in H end. apply (t_max _ _ _ x x0 IHe1 IHe2); trivial. now rewrite <- (proj1 IHe1), <- (proj1 IHe2).
  - now apply t_fma.
  - now apply t_sop.
Qed.
Definition step_cur (cur : nat -> R -> R) (s : stmt) : nat -> R -> R := fun i u => run1 (fun k => cur k u) s i.
Lemma puts_tracked cur env i f d : tracked cur env -> tracks f t d -> tracked (fun k u => puts (fun j => cur j u) i (f u) k) (put env i d).
Proof. intros T F k. unfold puts, put. destruct (Nat.eqb_spec k i) as [->|]; [exact F|apply T]. Qed.
Lemma put_same st i d : put st i d i = d.
Proof. unfold put. now rewrite Nat.eqb_refl. Qed.
Lemma put_other st i j d : j <> i -> put st i d j = st j.
Proof. intros N. unfold put. destruct (Nat.eqb_spec j i); [contradiction|reflexivity]. Qed.
Lemma tracked_ext cur env env' : (forall i, env i = env' i) -> tracked cur env -> tracked cur env'.
Proof. intros E T i. rewrite <- E. apply T. Qed.
Lemma put_put st i d e k : put (put st i d) i e k = put st i e k.
Proof. unfold put. destruct (k =? i)%nat; reflexivity. Qed.
Lemma drun1_tracks cur env s env' : tracked cur env -> drun1 P env s = Some env' -> smooth1 P s (fun i => cur i t) -> tracked (step_cur cur s) env'.
Proof.
  intros T E S. unfold step_cur. destruct s; cbn [drun1 run1 smooth1] in *.
  - opt. subst. apply puts_tracked; [exact T|]. now apply (deval_tracks e cur env).
  - opt. subst. apply (puts_tracked cur env i (fun _ => c)); [exact T|apply t_const].
  - opt. subst. apply (tracked_ext _ (put env i (dadd (env i) (env j)))).
    + intros k. unfold add_assign, set_px, set_dx, dadd, put. rewrite Nat.eqb_refl. destruct (Nat.eqb_spec j i) as [->|]; destruct (k =? i)%nat; reflexivity.
    + apply (puts_tracked cur env i (fun u => cur i u + cur j u)); [exact T|]. now apply t_add.
  - opt. subst. apply (puts_tracked cur env i (fun u => cur i u + s)); [exact T|]. now apply t_adds.
  - opt. subst. apply (tracked_ext _ (put env i (dsub (env i) (env j)))).
    + intros k. unfold sub_assign, set_px, set_dx, dsub, put. rewrite Nat.eqb_refl. destruct (Nat.eqb_spec j i) as [->|]; destruct (k =? i)%nat; reflexivity.
    + apply (puts_tracked cur env i (fun u => cur i u - cur j u)); [exact T|]. now apply t_sub.
  - opt. subst. apply (puts_tracked cur env i (fun u => cur i u - s)); [exact T|]. now apply t_subs.
  - opt. subst. apply (tracked_ext _ (put env i (dmul (env i) (env j)))).
    + intros k. unfold mul_assign, set_px, set_dx, dmul, put. rewrite Nat.eqb_refl. destruct (Nat.eqb_spec j i); [congruence|]. destruct (k =? i)%nat; [|reflexivity]. f_equal. cbn. ring.
    + apply (puts_tracked cur env i (fun u => cur i u * cur j u)); [exact T|]. now apply t_mul.
  - unfold div_assign in E. opt. subst. unfold set_px, set_dx in *. rewrite !put_same in *. rewrite (put_other _ i j) in * by congruence. cbn [px dx] in *.
    match goal with |- tracked _ (put _ i (D _ ?dd)) => apply (tracked_ext _ (put env i (D (px (env i) / px (env j)) dd))) end.
    + intros k. now rewrite put_put.
    + apply (puts_tracked cur env i (fun u => cur i u / cur j u)); [exact T|]. apply (t_div _ _ _ (env i) (env j)); try apply T.
      unfold ddiv, div_f. destruct (Req_EM_T (px (env j)) 0); [contradiction|]. destruct (Req_EM_T (px (env j) * px (env j)) 0); [contradiction|]. reflexivity.
  - unfold div_assign_s in E. opt. subst. unfold set_px, set_dx in *. rewrite !put_same in *. cbn [px dx] in *.
    match goal with |- tracked _ (put _ i (D _ ?dd)) => apply (tracked_ext _ (put env i (D (px (env i) / s) dd))) end.
    + intros k. now rewrite put_put.
    + apply (puts_tracked cur env i (fun u => cur i u / s)); [exact T|]. apply (t_divs _ _ (env i)); try apply T.
      unfold ddiv_s, div_f. destruct (Req_EM_T s 0); [contradiction|]. reflexivity.
  - opt. subst. apply (puts_tracked cur env i (fun u => cur i u + 1)); [exact T|]. now apply t_adds.
  - opt. subst. apply (puts_tracked cur env i (fun u => cur i u - 1)); [exact T|]. now apply t_subs.
Qed.
Lemma drun_tracks p : forall cur env env', tracked cur env -> drun P p env = Some env' -> smooth_run P p (fun i => cur i t) ->
  tracked (fun i u => run p (fun k => cur k u) i) env'.
Proof.
  induction p as [|s p IH]; intros cur env env' T E S; cbn [drun smooth_run] in *.
  - injection E as <-. exact T.
  - apply obind_some in E. destruct E as (e1 & E1 & E2). destruct S as [S1 S2].
    exact (IH (step_cur cur s) e1 env' (drun1_tracks cur env s e1 T E1 S1) E2 S2).
Qed.
End Prog.
