(** Dual numbers: definedness, one-sided derivatives at kinks, and the rules that are wrong. *)
From Coq Require Import Reals ZArith Lra Lia List Bool Arith.
From Verif Require Import Vec3Model DualModel DualSpec DualProofs.
Import ListNotations.
Open Scope R_scope.

Lemma div_def a b : b <> 0 -> div_f a b = Some (a / b).
Proof. intros N. unfold div_f. destruct (Req_EM_T b 0); [contradiction|reflexivity]. Qed.
Lemma log_def a : 0 < a -> log_f a = Some (ln a).
Proof. intros N. unfold log_f. destruct (Rlt_dec 0 a); [reflexivity|contradiction]. Qed.
Lemma sqrt_def a : 0 <= a -> sqrt_f a = Some (sqrt a).
Proof. intros N. unfold sqrt_f. destruct (Rle_dec 0 a); [reflexivity|contradiction]. Qed.
Lemma arc_def F a : -1 < a < 1 -> arc_f F a = Some (F a).
Proof. intros N. unfold arc_f. destruct (Rle_dec (-1) a); [|lra]. destruct (Rle_dec a 1); [reflexivity|lra]. Qed.
Lemma arc_root a : -1 < a < 1 -> 0 < 1 - a * a.
Proof. nra. Qed.
Lemma pow_def b e : 0 < b \/ b <> 0 /\ (exists n, e = IZR n) -> exists v, pow_f b e = Some v.
Proof.
  intros H. unfold pow_f. destruct (Rlt_dec 0 b); [eauto|]. destruct H as [H|[N (z & ->)]]; [contradiction|].
  destruct (Req_EM_T b 0); [contradiction|]. unfold floor_f. rewrite int_part_IZR. destruct (Req_EM_T (IZR z) (IZR z)); [eauto|contradiction].
Qed.
Section Def.
Variables (P : policy) (t : R).
Lemma deval_defined e cur env : tracked t cur env -> smooth P e (fun i => cur i t) -> in_domain e (fun i => cur i t) ->
  exists d, deval P e env = Some d /\ tracks (fun s => sem e (fun i => cur i s)) t d.
Proof.
  intros T S Dm. enough (X : exists d, deval P e env = Some d) by (destruct X as [d E]; exists d; split; [exact E|exact (deval_tracks P t e cur env d T E S)]).
  induction e; cbn [deval smooth in_domain] in *; unfold lift1, lift2, ret1, ret2;
    repeat match goal with H : _ /\ _ |- _ => destruct H end;
    repeat match goal with IH : smooth P ?e _ -> in_domain ?e _ -> exists d, deval P ?e _ = Some d |- _ =>
      let d := fresh "d" in let E := fresh "E" in destruct (IH ltac:(assumption) ltac:(assumption)) as [d E]; clear IH; rewrite E; cbn [obind];
      let V := fresh "V" in assert (V := proj1 (deval_tracks P t e cur env d T E ltac:(assumption))); cbn beta in V end; eauto.
  - unfold ddiv. rewrite V in *. rewrite !div_def by (try assumption; apply Rmult_integral_contrapositive_currified; assumption). cbn. eauto.
  - unfold ddiv_s. rewrite !div_def by assumption. cbn. eauto.
  - unfold s_ddiv. rewrite V in *. rewrite !div_def by (try assumption; apply Rmult_integral_contrapositive_currified; assumption). cbn. eauto.
  - unfold dasin. rewrite V in *. pose proof (arc_root (px d0) (conj H0 H1)). rewrite arc_def, sqrt_def by lra. cbn [obind]. rewrite div_def; [cbn; eauto|]. apply Rgt_not_eq, sqrt_lt_R0. assumption.
  - unfold dacos. rewrite V in *. pose proof (arc_root (px d0) (conj H0 H1)). rewrite arc_def, sqrt_def by lra. cbn [obind]. rewrite div_def; [cbn; eauto|]. apply Rgt_not_eq, sqrt_lt_R0. assumption.
  - unfold datan. rewrite div_def by nra. cbn. eauto.
  - unfold datan2. rewrite V, V0 in *. rewrite div_def; [cbn; eauto|]. intros Z. assert (px d0 * px d0 = 0 /\ px d1 * px d1 = 0) as [Z1 Z2] by nra.
    match goal with H : ~ (_ /\ _ = 0) |- _ => apply H end. split; [apply Rmult_integral in Z1; now destruct Z1|apply Rmult_integral in Z2; now destruct Z2] || (split; [apply Rmult_integral in Z2; now destruct Z2|apply Rmult_integral in Z1; now destruct Z1]).
  - unfold dlog. rewrite V in *. rewrite log_def, div_def by lra. cbn. eauto.
  - unfold dpow_s. rewrite V in *. match goal with H : _ \/ _ |- _ => destruct (pow_def _ _ H) as [v ->]; cbn [obind]; assert (px d0 <> 0) by (destruct H as [|[? _]]; lra) end. rewrite div_def by assumption. cbn. eauto.
  - unfold s_dpow. match goal with H : 0 < _ |- _ => destruct (pow_def _ (px d0) (or_introl H)) as [v ->] end. cbn [obind]. rewrite log_def by assumption. cbn. eauto.
  - unfold dsqrt. rewrite V in *. rewrite sqrt_def by lra. cbn [obind]. rewrite div_def; [cbn; eauto|]. assert (0 < sqrt (px d0)) by now apply sqrt_lt_R0. lra.
  - unfold dabs. rewrite V in *. destruct (Req_EM_T (px d0) 0); [contradiction|]. cbn. eauto.
  - unfold dceil. rewrite V in *. assert (X : ceil_f (px d0) <> px d0) by (unfold ceil_f; rewrite <- opp_IZR; intros Z; eapply H0; symmetry; exact Z).
    unfold step_dx. destruct P; cbn; eauto; destruct (Req_EM_T (ceil_f (px d0)) (px d0)); try contradiction; cbn; eauto.
  - unfold dfloor. rewrite V in *. assert (X : floor_f (px d0) <> px d0) by (unfold floor_f; intros Z; eapply H0; symmetry; exact Z).
    unfold step_dx. destruct P; cbn; eauto; destruct (Req_EM_T (floor_f (px d0)) (px d0)); try contradiction; cbn; eauto.
  - unfold dmin. rewrite V, V0 in *. match goal with |- context [Req_EM_T ?a ?b] => destruct (Req_EM_T a b); [exfalso; congruence|] end. cbn. eauto.
  - unfold dmax. rewrite V, V0 in *. match goal with |- context [Req_EM_T ?a ?b] => destruct (Req_EM_T a b); [exfalso; congruence|] end. cbn. eauto.
Qed.
Lemma drun1_defined s cur env : tracked t cur env -> smooth1 P s (fun i => cur i t) -> in_domain1 s (fun i => cur i t) -> exists env', drun1 P env s = Some env'.
Proof.
  intros T S Dm. destruct s; cbn [drun1 smooth1 in_domain1] in *; eauto.
  - destruct (deval_defined e cur env T S Dm) as (d & -> & _). cbn. eauto.
  - rewrite (proj1 (T j)) in Dm. unfold div_assign. rewrite div_def by assumption. cbn [obind]. unfold set_px. rewrite !put_same, !(put_other _ i j) by congruence.
    rewrite div_def by (apply Rmult_integral_contrapositive_currified; assumption). cbn. eauto.
  - unfold div_assign_s. rewrite div_def by assumption. cbn [obind]. rewrite div_def by assumption. cbn. eauto.
Qed.
Lemma drun_defined p : forall cur env, tracked t cur env -> smooth_run P p (fun i => cur i t) -> in_domain_run p (fun i => cur i t) ->
  exists env', drun P p env = Some env' /\ tracked t (fun i u => run p (fun k => cur k u) i) env'.
Proof.
  induction p as [|s p IH]; intros cur env T S Dm; cbn [drun smooth_run in_domain_run] in *.
  - exists env. split; [reflexivity|exact T].
  - destruct S as [S1 S2], Dm as [D1 D2]. destruct (drun1_defined s cur env T S1 D1) as (e1 & E1).
    destruct (IH (step_cur cur s) e1 (drun1_tracks P t cur env s e1 T E1 S1) S2 D2) as (e2 & E2 & T2). exists e2. rewrite E1. split; [exact E2|exact T2].
Qed.
End Def.

(** ** One-sided derivatives *)
Lemma d_quot f t l : derivable_pt_lim f t l -> forall eps, 0 < eps -> exists del, 0 < del /\ forall h, h <> 0 -> Rabs h < del -> Rabs ((f (t + h) - f t) / h - l) < eps.
Proof. intros H eps P. destruct (H eps P) as [del Q]. exists del. split; [apply cond_pos|exact Q]. Qed.
Lemma min_close a b c d eps : Rabs (a - c) < eps -> Rabs (b - d) < eps -> Rabs (Rmin a b - Rmin c d) < eps.
Proof. intros H G. apply Rabs_def2 in H. apply Rabs_def2 in G. apply Rabs_def1; unfold Rmin; destruct (Rle_dec a b), (Rle_dec c d); lra. Qed.
Lemma max_close a b c d eps : Rabs (a - c) < eps -> Rabs (b - d) < eps -> Rabs (Rmax a b - Rmax c d) < eps.
Proof. intros H G. apply Rabs_def2 in H. apply Rabs_def2 in G. apply Rabs_def1; unfold Rmax; destruct (Rle_dec a b), (Rle_dec c d); lra. Qed.
Lemma min_scale a b c : 0 < c -> Rmin a b * c = Rmin (a * c) (b * c).
Proof. intros P. unfold Rmin. destruct (Rle_dec a b), (Rle_dec (a * c) (b * c)); trivial; nra. Qed.
Lemma max_scale a b c : 0 < c -> Rmax a b * c = Rmax (a * c) (b * c).
Proof. intros P. unfold Rmax. destruct (Rle_dec a b), (Rle_dec (a * c) (b * c)); trivial; nra. Qed.
Lemma min_scale_neg a b c : c < 0 -> Rmin a b * c = Rmax (a * c) (b * c).
Proof. intros P. unfold Rmin, Rmax. destruct (Rle_dec a b), (Rle_dec (a * c) (b * c)); trivial; nra. Qed.
Lemma max_scale_neg a b c : c < 0 -> Rmax a b * c = Rmin (a * c) (b * c).
Proof. intros P. unfold Rmin, Rmax. destruct (Rle_dec a b), (Rle_dec (a * c) (b * c)); trivial; nra. Qed.
Lemma min_shift a b c : Rmin a b - c = Rmin (a - c) (b - c).
Proof. unfold Rmin. destruct (Rle_dec a b), (Rle_dec (a - c) (b - c)); trivial; lra. Qed.
Lemma max_shift a b c : Rmax a b - c = Rmax (a - c) (b - c).
Proof. unfold Rmax. destruct (Rle_dec a b), (Rle_dec (a - c) (b - c)); trivial; lra. Qed.
Section Ties.
Variables (f g : R -> R) (t l m : R).
Hypotheses (F : derivable_pt_lim f t l) (G : derivable_pt_lim g t m) (E : f t = g t).
Lemma both eps : 0 < eps -> exists del, 0 < del /\ forall h, h <> 0 -> Rabs h < del -> Rabs ((f (t + h) - f t) * / h - l) < eps /\ Rabs ((g (t + h) - f t) * / h - m) < eps.
Proof.
  intros P. destruct (d_quot f t l F eps P) as (d1 & P1 & Q1). destruct (d_quot g t m G eps P) as (d2 & P2 & Q2). exists (Rmin d1 d2). split; [now apply Rmin_glb_lt|].
  intros h N H. split; [apply Q1; [exact N|exact (Rlt_le_trans _ _ _ H (Rmin_l _ _))]|rewrite E; apply Q2; [exact N|exact (Rlt_le_trans _ _ _ H (Rmin_r _ _))]].
Qed.
Lemma min_right : right_derivative (fun s => Rmin (f s) (g s)) t (Rmin l m).
Proof.
  intros eps P. destruct (both eps P) as (del & Pd & Q). exists del. split; [exact Pd|]. intros h H. destruct (Q h ltac:(lra) ltac:(apply Rabs_def1; lra)) as [A B].
  unfold Rdiv. rewrite <- E. rewrite (Rmin_left (f t) (f t)) by lra. rewrite min_shift, min_scale by (apply Rinv_0_lt_compat; lra). now apply min_close.
Qed.
Lemma min_left : left_derivative (fun s => Rmin (f s) (g s)) t (Rmax l m).
Proof.
  intros eps P. destruct (both eps P) as (del & Pd & Q). exists del. split; [exact Pd|]. intros h H. destruct (Q h ltac:(lra) ltac:(apply Rabs_def1; lra)) as [A B].
  unfold Rdiv. rewrite <- E. rewrite (Rmin_left (f t) (f t)) by lra. rewrite min_shift, min_scale_neg by (apply Rinv_lt_0_compat; lra). now apply max_close.
Qed.
Lemma max_right : right_derivative (fun s => Rmax (f s) (g s)) t (Rmax l m).
Proof.
  intros eps P. destruct (both eps P) as (del & Pd & Q). exists del. split; [exact Pd|]. intros h H. destruct (Q h ltac:(lra) ltac:(apply Rabs_def1; lra)) as [A B].
  unfold Rdiv. rewrite <- E. rewrite (Rmax_left (f t) (f t)) by lra. rewrite max_shift, max_scale by (apply Rinv_0_lt_compat; lra). now apply max_close.
Qed.
Lemma max_left : left_derivative (fun s => Rmax (f s) (g s)) t (Rmin l m).
Proof.
  intros eps P. destruct (both eps P) as (del & Pd & Q). exists del. split; [exact Pd|]. intros h H. destruct (Q h ltac:(lra) ltac:(apply Rabs_def1; lra)) as [A B].
  unfold Rdiv. rewrite <- E. rewrite (Rmax_left (f t) (f t)) by lra. rewrite max_shift, max_scale_neg by (apply Rinv_lt_0_compat; lra). now apply min_close.
Qed.
End Ties.
Lemma rd_ext f g t l : (forall s, f s = g s) -> right_derivative f t l -> right_derivative g t l.
Proof. intros E H eps P. destruct (H eps P) as (d & Pd & Q). exists d. split; [exact Pd|]. intros h Hh. rewrite <- !E. now apply Q. Qed.
Lemma ld_ext f g t l : (forall s, f s = g s) -> left_derivative f t l -> left_derivative g t l.
Proof. intros E H eps P. destruct (H eps P) as (d & Pd & Q). exists d. split; [exact Pd|]. intros h Hh. rewrite <- !E. now apply Q. Qed.
Lemma abs_max x : Rmax x (- x) = Rabs x.
Proof. unfold Rmax, Rabs. destruct (Rle_dec x (- x)), (Rcase_abs x); lra. Qed.
Lemma abs_sides f t a : tracks f t a -> px a = 0 -> right_derivative (fun s => Rabs (f s)) t (Rabs (dx a)) /\ left_derivative (fun s => Rabs (f s)) t (- Rabs (dx a)).
Proof.
  intros [V F] Z. rewrite Z in V. assert (E : f t = - f t) by lra. pose proof (derivable_pt_lim_opp f t _ F) as G. split.
  - apply (rd_ext (fun s => Rmax (f s) (- f s))); [intros; apply abs_max|]. rewrite <- abs_max. exact (max_right f (fun s => - f s) t _ _ F G E).
  - apply (ld_ext (fun s => Rmax (f s) (- f s))); [intros; apply abs_max|]. replace (- Rabs (dx a)) with (Rmin (dx a) (- dx a)); [exact (max_left f (fun s => - f s) t _ _ F G E)|].
    unfold Rmin, Rabs. destruct (Rle_dec (dx a) (- dx a)), (Rcase_abs (dx a)); lra.
Qed.
(** ** Ties *)
Lemma min_tie P f g t a b : tracks f t a -> tracks g t b -> px a = px b ->
  exists lo hi, left_derivative (fun s => Rmin (f s) (g s)) t lo /\ right_derivative (fun s => Rmin (f s) (g s)) t hi /\
    dmin P a b = obind (resolve P lo hi) (fun v => Some (D (px a) v)).
Proof.
  intros [V F] [W G] E. assert (X : f t = g t) by congruence. exists (Rmax (dx a) (dx b)), (Rmin (dx a) (dx b)).
  split; [now apply min_left|]. split; [now apply min_right|]. unfold dmin. destruct (Req_EM_T (px a) (px b)); [|contradiction]. destruct (Rle_dec (px a) (px b)); [reflexivity|lra].
Qed.
Lemma max_tie f g t a b : tracks f t a -> tracks g t b -> px a = px b ->
  exists lo hi, left_derivative (fun s => Rmax (f s) (g s)) t lo /\ right_derivative (fun s => Rmax (f s) (g s)) t hi /\
    dmax PRight a b = Some (D (px a) hi).
Proof.
  intros [V F] [W G] E. assert (X : f t = g t) by congruence. exists (Rmin (dx a) (dx b)), (Rmax (dx a) (dx b)).
  split; [now apply max_left|]. split; [now apply max_right|]. unfold dmax. destruct (Req_EM_T (px a) (px b)); [|contradiction]. destruct (Rle_dec (px b) (px a)); [reflexivity|lra].
Qed.
Lemma abs_tie P f t a : tracks f t a -> px a = 0 ->
  exists lo hi, left_derivative (fun s => Rabs (f s)) t lo /\ right_derivative (fun s => Rabs (f s)) t hi /\
    dabs P a = obind (if Rle_dec 0 (dx a) then resolve P lo hi else resolve P hi lo) (fun v => Some (D 0 v)).
Proof.
  intros F Z. destruct (abs_sides f t a F Z) as [Ri Le]. exists (- Rabs (dx a)), (Rabs (dx a)). split; [exact Le|]. split; [exact Ri|].
  unfold dabs. rewrite Z. destruct (Req_EM_T 0 0); [|contradiction]. destruct (Rlt_dec 0 0); [lra|].
  destruct (Rle_dec 0 (dx a)); [rewrite Rabs_pos_eq by assumption|rewrite Rabs_left, Ropp_involutive by lra]; reflexivity.
Qed.
(** ** The wrong rules *)
Lemma exp_wrong f t a l : tracks f t a -> derivable_pt_lim (fun s => exp (f s)) t l -> px (dexp a) = exp (f t) /\ dx (dexp a) = - l.
Proof.
  intros [V F] H. split; [now rewrite V|]. assert (G := derivable_pt_lim_comp f exp t _ _ F (derivable_pt_lim_exp _)). rewrite (uniqueness_limite _ _ _ _ H G), V. cbn. ring.
Qed.
Lemma d_tan x : cos x <> 0 -> derivable_pt_lim tan x (/ (cos x * cos x)).
Proof.
  intros N. unfold tan. apply (d_eq _ _ _ _ (derivable_pt_lim_div sin cos x _ _ (derivable_pt_lim_sin x) (derivable_pt_lim_cos x) N)).
  pose proof (sin2_cos2 x) as S. unfold Rsqr in *. replace (cos x * cos x - - sin x * sin x) with 1 by lra. field. exact N.
Qed.
Lemma tan_wrong f t a l : tracks f t a -> cos (f t) <> 0 -> derivable_pt_lim (fun s => tan (f s)) t l -> dtan a = Some (D (tan (f t)) (- l)).
Proof.
  intros [V F] N H. assert (G := derivable_pt_lim_comp f tan t _ _ F (d_tan _ N)). rewrite (uniqueness_limite _ _ _ _ H G), V in *. unfold dtan.
  rewrite !div_def by (try assumption; apply Rmult_integral_contrapositive_currified; assumption). cbn. unfold tan. do 2 f_equal. field. exact N.
Qed.
Lemma sdsub_wrong f t a c l : tracks f t a -> derivable_pt_lim (fun s => c - f s) t l -> s_dsub c a = D (c - f t) (- l).
Proof.
  intros [V F] H. assert (G := derivable_pt_lim_minus (fun _ => c) f t _ _ (derivable_pt_lim_const _ _) F). rewrite (uniqueness_limite _ _ _ _ H G), V. unfold s_dsub. f_equal. ring.
Qed.
Lemma d_rpower f g t l m : derivable_pt_lim f t l -> derivable_pt_lim g t m -> 0 < f t ->
  derivable_pt_lim (fun s => Rpower (f s) (g s)) t (Rpower (f t) (g t) * (l * g t / f t + m * ln (f t))).
Proof.
  intros F G P. unfold Rpower. assert (L := derivable_pt_lim_comp f ln t _ _ F (derivable_pt_lim_ln _ P)).
  apply (d_eq _ _ _ _ (derivable_pt_lim_comp (fun s => g s * ln (f s)) exp t _ _ (derivable_pt_lim_mult g (fun s => ln (f s)) t _ _ G L) (derivable_pt_lim_exp _))). unfold Rdiv. ring.
Qed.
Lemma pow_wrong f g t a b l : tracks f t a -> tracks g t b -> 0 < f t -> derivable_pt_lim (fun s => Rpower (f s) (g s)) t l ->
  (g t <> 0 -> dpow a b = Some (D (Rpower (f t) (g t)) (l + dx a * Rpower (f t) (g t) * (1 - g t / f t)))) /\ (g t = 0 -> dpow a b = None).
Proof.
  intros [V F] [W G] P H. rewrite (uniqueness_limite _ _ _ _ H (d_rpower f g t _ _ F G P)). unfold dpow. rewrite V, W in *. unfold pow_f. destruct (Rlt_dec 0 (px a)); [|contradiction]. cbn [obind]. split.
  - intros N. rewrite div_def by assumption. cbn [obind]. rewrite log_def by assumption. cbn [obind]. do 2 f_equal. field. split; lra.
  - intros N. unfold div_f. destruct (Req_EM_T (px b) 0); [reflexivity|contradiction].
Qed.
Lemma nondefault P d : P <> PRight -> px (from_default P d) = dx d /\ dx (from_default P d) = dx d.
Proof. intros N. destruct P; try contradiction; split; reflexivity. Qed.
Lemma max_wrong P a b d : P <> PRight -> dmax P a b = Some d -> px d = dx d.
Proof. intros N H. unfold dmax in H. apply obind_some in H. destruct H as (v & _ & H). injection H as <-. destruct (nondefault P (D (if Rle_dec (px b) (px a) then px a else px b) v) N) as [-> ->]. reflexivity. Qed.
Lemma max_wrong_exact P a b : P <> PRight -> px a < px b -> dmax P a b = Some (D (dx b) (dx b)).
Proof.
  intros N H. unfold dmax. destruct (Req_EM_T (px a) (px b)); [lra|]. destruct (Rle_dec (px b) (px a)); [lra|]. cbn. destruct P; try contradiction; reflexivity.
Qed.
Lemma spow_wrong P c a : P <> PRight -> 0 < c -> s_dpow P c a = Some (D (dx a * Rpower c (px a) * ln c) (dx a * Rpower c (px a) * ln c)).
Proof.
  intros N H. unfold s_dpow, pow_f. destruct (Rlt_dec 0 c); [|contradiction]. cbn [obind]. rewrite log_def by assumption. cbn. destruct P; try contradiction; reflexivity.
Qed.
Lemma mul_self_wrong st i f t : tracks f t (st i) ->
  px (mul_assign st i i i) = f t * f t /\ dx (mul_assign st i i i) = dx (st i) * (f t + f t * f t) /\ derivable_pt_lim (fun s => f s * f s) t (2 * f t * dx (st i)).
Proof.
  intros F. unfold mul_assign, set_px, set_dx. rewrite !put_same. cbn [px dx]. destruct F as [V F]. rewrite V. split; [reflexivity|]. split; [ring|].
  apply (d_eq _ _ _ _ (derivable_pt_lim_mult f f t _ _ F F)). rewrite V. ring.
Qed.
Lemma div_self_wrong st i f t : tracks f t (st i) -> f t <> 0 ->
  (exists st', div_assign st i i = Some st' /\ px (st' i) = 1 /\ dx (st' i) = dx (st i) * (1 - f t)) /\ derivable_pt_lim (fun s => f s / f s) t 0.
Proof.
  intros [V F] N. split.
  - unfold div_assign. rewrite V in *. rewrite div_def by assumption. cbn [obind]. unfold set_px. rewrite !put_same. cbn [px dx]. 
    assert (Q : px (st i) / px (st i) = 1) by (field; exact N). rewrite Q. rewrite div_def by lra. cbn [obind]. eexists. split; [reflexivity|]. unfold set_dx. rewrite !put_same. cbn [px dx]. split; [reflexivity|field].
  - apply (d_eq _ _ _ _ (derivable_pt_lim_div f f t _ _ F F N)). unfold Rsqr. field. exact N.
Qed.
Lemma pows_zero_wrong f t a (n : nat) : tracks f t a -> f t = 0 -> (1 <= n)%nat ->
  dpow_s a (INR n) = None /\ exists l, derivable_pt_lim (fun s => f s ^ n) t l.
Proof.
  intros [V F] Z L. split.
  - unfold dpow_s, pow_f. rewrite <- V, Z. destruct (Rlt_dec 0 0); [lra|]. destruct (Req_EM_T 0 0); [|contradiction]. destruct (Rlt_dec 0 (INR n)) as [_|Q]; [|exfalso; apply Q, lt_0_INR; lia].
    cbn [obind]. unfold div_f. destruct (Req_EM_T 0 0); [reflexivity|contradiction].
  - eexists. apply (derivable_pt_lim_comp f (fun y => y ^ n) t _ _ F (derivable_pt_lim_pow _ _)).
Qed.
