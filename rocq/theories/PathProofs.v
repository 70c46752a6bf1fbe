From Coq Require Import Reals ZArith Arith List Lra Lia.
From Verif Require Import VecNModel RayModel PathModel PathSpec.
Open Scope R_scope.

Definition trunc (t : R) : nat := Z.to_nat (Int_part t).
Lemma to_size_in t : in_domain t -> to_size_t t = Some (trunc t).
Proof. intros [A B]. unfold to_size_t. destruct (Rle_dec t (-1)); [lra|]. destruct (Rle_dec _ t); [lra|reflexivity]. Qed.
Lemma to_size_out t : ~ in_domain t -> to_size_t t = None.
Proof. unfold in_domain, to_size_t. intros H. destruct (Rle_dec t (-1)); trivial. destruct (Rle_dec _ t); trivial. exfalso. apply H. lra. Qed.
Lemma trunc_spec t : 0 <= t -> INR (trunc t) <= t < INR (trunc t) + 1.
Proof.
  intros H. unfold trunc. destruct (base_Int_part t) as [A B].
  assert (0 <= Int_part t)%Z. { apply Zlt_succ_le. apply lt_IZR. unfold Z.succ. rewrite plus_IZR. lra. }
  rewrite INR_IZR_INZ, Z2Nat.id by trivial. lra.
Qed.
Lemma nat_eq_between (a b : nat) t : INR a <= t < INR a + 1 -> INR b <= t < INR b + 1 -> a = b.
Proof.
  intros A B. assert (INR a < INR (S b)) by (rewrite S_INR; lra). assert (INR b < INR (S a)) by (rewrite S_INR; lra).
  apply INR_lt in H, H0. lia.
Qed.
Lemma trunc_uniq n t : INR n <= t < INR n + 1 -> trunc t = n.
Proof. intros H. apply (nat_eq_between _ _ t); trivial. apply trunc_spec. pose proof (pos_INR n). lra. Qed.
Lemma trunc_neg t : -1 < t < 0 -> trunc t = 0%nat.
Proof. intros H. unfold trunc. destruct (base_Int_part t) as [A B]. assert (Int_part t < 0)%Z by (apply lt_IZR; lra). destruct (Int_part t); try lia; reflexivity. Qed.

(** The pieces: 0 before the first knot, k between knots k-1 and k, [length] after the last; with derivatives j = 0, 1, 2. *)
Definition kn (knots : list ray) (k : nat) : ray := nth k knots ray_default.
Definition ease1 (s : R) : R := 30 * s ^ 4 - 60 * s ^ 3 + 30 * s ^ 2.
Definition ease2 (s : R) : R := 120 * s ^ 3 - 180 * s ^ 2 + 60 * s.
Definition ease3 (s : R) : R := 360 * s ^ 2 - 360 * s + 60.
Definition lin (r : ray) (i : nat) (j : nat) (s : R) : R :=
  match j with 0%nat => origin r i + direction r i * s | 1%nat => direction r i | _ => 0 end.
Definition seg (a b : ray) (i : nat) (j : nat) (s : R) : R :=
  let d := lin b i 0 (s - 1) - lin a i 0 s in let d1 := direction b i - direction a i in
  match j with
  | 0%nat => lin a i 0 s + ease s * d
  | 1%nat => direction a i + ease1 s * d + ease s * d1
  | 2%nat => ease2 s * d + 2 * ease1 s * d1
  | _ => ease3 s * d + 3 * ease2 s * d1
  end.
Definition piece (knots : list ray) (i k j : nat) (t : R) : R :=
  if (k =? 0)%nat then lin (kn knots 0) i j t
  else if (k =? length knots)%nat then lin (kn knots (k - 1)) i j (t - INR (k - 1))
  else seg (kn knots (k - 1)) (kn knots k) i j (t - INR (k - 1)).
Definition idx (sz : nat) (t : R) : nat := if Rlt_dec t 0 then 0%nat else Nat.min (S (trunc t)) sz.
Definition fj (knots : list ray) (i j : nat) (t : R) : R := piece knots i (idx (length knots) t) j t.

Lemma nth_error_kn knots k : (k < length knots)%nat -> nth_error knots k = Some (kn knots k).
Proof. intros H. unfold kn. apply nth_error_nth'. exact H. Qed.
Lemma eval_piece knots t : knots <> nil -> in_domain t -> exists v, path_eval knots t = Some v /\ forall i, v i = fj knots i 0 t.
Proof.
  intros NE D. unfold path_eval. rewrite (to_size_in t D). cbv zeta.
  assert (L : (1 <= length knots)%nat) by (destruct knots; [congruence|cbn; lia]).
  destruct (Nat.ltb_spec (length knots) 1); [lia|].
  unfold fj, idx. destruct (Rlt_dec t 0).
  - rewrite nth_error_kn by lia. eexists; split; [reflexivity|]. intros i. reflexivity.
  - destruct (Nat.leb_spec (length knots - 1) (trunc t)).
    + rewrite nth_error_kn by lia. eexists; split; [reflexivity|]. intros i.
      replace (Nat.min (S (trunc t)) (length knots)) with (length knots) by lia.
      unfold piece. destruct (Nat.eqb_spec (length knots) 0); [lia|]. rewrite Nat.eqb_refl.
      unfold at_multiple, vec_add, vec_scale, lin. rewrite minus_INR by lia. cbn [INR]. f_equal. f_equal. lra.
    + rewrite !nth_error_kn by lia. eexists; split; [reflexivity|]. intros i.
      replace (Nat.min (S (trunc t)) (length knots)) with (S (trunc t)) by lia.
      unfold piece. destruct (Nat.eqb_spec (S (trunc t)) (length knots)); [lia|].
      change (S (trunc t) =? 0)%nat with false. cbv iota. replace (S (trunc t) - 1)%nat with (trunc t) by lia.
      replace (trunc t + 1)%nat with (S (trunc t)) by lia.
      unfold seg, vec_mix, at_multiple, vec_add, vec_scale, lin. ring.
Qed.
Lemma eval_empty t : in_domain t -> path_eval nil t = Some (fun _ => 0).
Proof. intros D. unfold path_eval. rewrite (to_size_in t D). reflexivity. Qed.
Lemma eval_out knots t : ~ in_domain t -> path_eval knots t = None.
Proof. intros D. unfold path_eval. now rewrite (to_size_out t D). Qed.

(** Derivatives of the pieces. *)
Lemma d_ease s : derivable_pt_lim ease s (ease1 s).
Proof.
  assert (derivable_pt_lim (fun s => 6 * s ^ 5 - 15 * s ^ 4 + 10 * s ^ 3) s (6 * (5 * s ^ 4) - 15 * (4 * s ^ 3) + 10 * (3 * s ^ 2))).
  { apply (derivable_pt_lim_plus (fun s => 6 * s ^ 5 - 15 * s ^ 4) (fun s => 10 * s ^ 3)).
    - apply (derivable_pt_lim_minus (fun s => 6 * s ^ 5) (fun s => 15 * s ^ 4)); apply derivable_pt_lim_scal.
      + replace 5 with (INR 5) by (cbn; lra). apply (derivable_pt_lim_pow s 5).
      + replace 4 with (INR 4) by (cbn; lra). apply (derivable_pt_lim_pow s 4).
    - apply derivable_pt_lim_scal. replace 3 with (INR 3) by (cbn; lra). apply (derivable_pt_lim_pow s 3). }
  replace (ease1 s) with (6 * (5 * s ^ 4) - 15 * (4 * s ^ 3) + 10 * (3 * s ^ 2)) by (unfold ease1; ring).
  intros eps He. destruct (H eps He) as [d Hd]. exists d. intros h A B. specialize (Hd h A B).
  replace (ease (s + h) - ease s) with (6 * (s + h) ^ 5 - 15 * (s + h) ^ 4 + 10 * (s + h) ^ 3 - (6 * s ^ 5 - 15 * s ^ 4 + 10 * s ^ 3)) by (unfold ease; ring).
  exact Hd.
Qed.
Lemma d_ease1 s : derivable_pt_lim ease1 s (ease2 s).
Proof.
  replace (ease2 s) with (30 * (INR 4 * s ^ 3) - 60 * (INR 3 * s ^ 2) + 30 * (INR 2 * s ^ 1)) by (unfold ease2; cbn [INR]; ring).
  apply (derivable_pt_lim_plus (fun s => 30 * s ^ 4 - 60 * s ^ 3) (fun s => 30 * s ^ 2)).
  - apply (derivable_pt_lim_minus (fun s => 30 * s ^ 4) (fun s => 60 * s ^ 3)); apply derivable_pt_lim_scal.
    + apply (derivable_pt_lim_pow s 4).
    + apply (derivable_pt_lim_pow s 3).
  - apply derivable_pt_lim_scal. apply (derivable_pt_lim_pow s 2).
Qed.
Lemma d_ease2 s : derivable_pt_lim ease2 s (ease3 s).
Proof.
  replace (ease3 s) with (120 * (INR 3 * s ^ 2) - 180 * (INR 2 * s ^ 1) + 60 * (INR 1 * s ^ 0)) by (unfold ease3; cbn [INR]; ring).
  assert (E : forall s, ease2 s = 120 * s ^ 3 - 180 * s ^ 2 + 60 * s ^ 1) by (intros; unfold ease2; ring).
  assert (derivable_pt_lim (fun s => 120 * s ^ 3 - 180 * s ^ 2 + 60 * s ^ 1) s (120 * (INR 3 * s ^ 2) - 180 * (INR 2 * s ^ 1) + 60 * (INR 1 * s ^ 0))).
  { apply (derivable_pt_lim_plus (fun s => 120 * s ^ 3 - 180 * s ^ 2) (fun s => 60 * s ^ 1)).
    - apply (derivable_pt_lim_minus (fun s => 120 * s ^ 3) (fun s => 180 * s ^ 2)); apply derivable_pt_lim_scal.
      + apply (derivable_pt_lim_pow s 3).
      + apply (derivable_pt_lim_pow s 2).
    - apply derivable_pt_lim_scal. apply (derivable_pt_lim_pow s 1). }
  intros eps He. destruct (H eps He) as [d Hd]. exists d. intros h A B. specialize (Hd h A B). now rewrite !E.
Qed.
Lemma d_affine a b t : derivable_pt_lim (fun u => a + b * u) t b.
Proof.
  intros eps He. exists (mkposreal 1 Rlt_0_1). intros h A B.
  replace ((a + b * (t + h) - (a + b * t)) / h - b) with 0 by (field; trivial). rewrite Rabs_R0. trivial.
Qed.
Lemma d_shift f c t l : derivable_pt_lim f (t - c) l -> derivable_pt_lim (fun u => f (u - c)) t l.
Proof.
  intros H eps He. destruct (H eps He) as [d Hd]. exists d. intros h A B. replace (t + h - c) with (t - c + h) by ring. now apply Hd.
Qed.
Lemma d_eq f g t l m : (forall u, f u = g u) -> l = m -> derivable_pt_lim g t m -> derivable_pt_lim f t l.
Proof. intros E -> H eps He. destruct (H eps He) as [d Hd]. exists d. intros h A B. rewrite !E. now apply Hd. Qed.
Lemma d_lin r i j s : (j <= 2)%nat -> derivable_pt_lim (lin r i j) s (lin r i (S j) s).
Proof.
  intros H. destruct j as [|[|j]]; cbn [lin].
  - apply d_affine.
  - apply derivable_pt_lim_const.
  - apply derivable_pt_lim_const.
Qed.
Lemma d_seg a b i j s : (j <= 2)%nat -> derivable_pt_lim (seg a b i j) s (seg a b i (S j) s).
Proof.
  intros H. set (d := fun s => lin b i 0 (s - 1) - lin a i 0 s). set (d1 := direction b i - direction a i).
  assert (Dd : derivable_pt_lim d s d1).
  { eapply (d_eq _ (fun s => (origin b i - direction b i - origin a i) + d1 * s)); [|reflexivity|apply d_affine].
    intros u. unfold d, d1, lin. ring. }
  assert (L : derivable_pt_lim (lin a i 0) s (direction a i)) by apply d_affine.
  destruct j as [|[|[|j]]]; [| | |lia].
  - eapply (d_eq _ (fun s => lin a i 0 s + ease s * d s) _ _ (direction a i + (ease1 s * d s + ease s * d1))).
    + intros u. reflexivity.
    + unfold seg. fold d1. unfold d. ring.
    + apply derivable_pt_lim_plus; trivial. apply derivable_pt_lim_mult; trivial. apply d_ease.
  - eapply (d_eq _ (fun s => (direction a i + ease1 s * d s) + d1 * ease s) _ _ ((0 + (ease2 s * d s + ease1 s * d1)) + d1 * ease1 s)).
    + intros u. unfold seg. fold d1. unfold d. ring.
    + unfold seg. fold d1. unfold d. ring.
    + apply (derivable_pt_lim_plus (fun s => direction a i + ease1 s * d s) (fun s => d1 * ease s)).
      * apply (derivable_pt_lim_plus (fun _ => direction a i) (fun s => ease1 s * d s)); [apply derivable_pt_lim_const|].
        apply derivable_pt_lim_mult; trivial. apply d_ease1.
      * apply derivable_pt_lim_scal. apply d_ease.
  - eapply (d_eq _ (fun s => ease2 s * d s + (2 * d1) * ease1 s) _ _ ((ease3 s * d s + ease2 s * d1) + (2 * d1) * ease2 s)).
    + intros u. unfold seg. fold d1. unfold d. ring.
    + unfold seg. fold d1. unfold d. ring.
    + apply (derivable_pt_lim_plus (fun s => ease2 s * d s) (fun s => (2 * d1) * ease1 s)).
      * apply derivable_pt_lim_mult; trivial. apply d_ease2.
      * apply derivable_pt_lim_scal. apply d_ease1.
Qed.
Lemma d_piece knots i k j t : (j <= 2)%nat -> derivable_pt_lim (piece knots i k j) t (piece knots i k (S j) t).
Proof.
  intros H. unfold piece. destruct (k =? 0)%nat; [now apply d_lin|].
  destruct (k =? length knots)%nat; apply d_shift; [now apply d_lin|now apply d_seg].
Qed.
(** Pieces k and k+1 meet at parameter k, with both derivatives. *)
Definition knot_value (r : ray) (i j : nat) : R := match j with 0%nat => origin r i | 1%nat => direction r i | _ => 0 end.
Lemma ease_0 : ease 0 = 0. Proof. unfold ease. ring. Qed.
Lemma ease_1 : ease 1 = 1. Proof. unfold ease. ring. Qed.
Lemma ease1_0 : ease1 0 = 0. Proof. unfold ease1. ring. Qed.
Lemma ease1_1 : ease1 1 = 0. Proof. unfold ease1. ring. Qed.
Lemma ease2_0 : ease2 0 = 0. Proof. unfold ease2. ring. Qed.
Lemma ease2_1 : ease2 1 = 0. Proof. unfold ease2. ring. Qed.
Lemma piece_right knots i k j : (k < length knots)%nat -> (j <= 2)%nat -> piece knots i (S k) j (INR k) = knot_value (kn knots k) i j.
Proof.
  intros K J. unfold piece. change (S k =? 0)%nat with false. cbv iota. replace (S k - 1)%nat with k by lia.
  replace (INR k - INR k) with 0 by ring.
  destruct (S k =? length knots)%nat; destruct j as [|[|[|j]]]; try lia; unfold seg, lin, knot_value;
    rewrite ?ease_0, ?ease1_0, ?ease2_0; ring.
Qed.
Lemma piece_left knots i k j : (k < length knots)%nat -> (j <= 2)%nat -> piece knots i k j (INR k) = knot_value (kn knots k) i j.
Proof.
  intros K J. unfold piece. destruct (Nat.eqb_spec k 0) as [->|Z].
  - cbn [INR]. destruct j as [|[|[|j]]]; try lia; unfold lin, knot_value; ring.
  - destruct (Nat.eqb_spec k (length knots)); [lia|].
    replace (INR k - INR (k - 1)) with 1 by (rewrite minus_INR by lia; cbn [INR]; ring).
    destruct j as [|[|[|j]]]; try lia; unfold seg, lin, knot_value; rewrite ?ease_1, ?ease1_1, ?ease2_1; ring.
Qed.
(** Around every parameter the curve is one piece on the left and one on the right. *)
Lemma idx_local sz t : exists e k l, 0 < e /\ (forall u, t - e < u < t -> idx sz u = k) /\ (forall u, t <= u < t + e -> idx sz u = l) /\
  (k = l \/ (l = S k /\ t = INR k /\ (k < sz)%nat)).
Proof.
  destruct (Rlt_dec t 0) as [Ng|Nn].
  - exists (- t), 0%nat, 0%nat. repeat split; try lra; try (now left); intros u U; unfold idx; destruct (Rlt_dec u 0); trivial; lra.
  - assert (P : 0 <= t) by lra. destruct (trunc_spec t P) as [A B]. set (n := trunc t) in *.
    destruct (Req_dec t (INR n)) as [E|E].
    + exists 1. destruct n as [|n].
      * exists 0%nat, (Nat.min 1 sz). cbn [INR] in *. split; [lra|]. split; [|split].
        -- intros u U. unfold idx. destruct (Rlt_dec u 0); trivial. lra.
        -- intros u U. unfold idx. destruct (Rlt_dec u 0); [lra|]. rewrite (trunc_uniq 0) by (cbn; lra). reflexivity.
        -- destruct sz; [left; reflexivity|right]. repeat split; trivial; lia.
      * exists (Nat.min (S n) sz), (Nat.min (S (S n)) sz). split; [lra|].
        rewrite S_INR in *. split; [|split].
        -- intros u U. unfold idx. pose proof (pos_INR n). destruct (Rlt_dec u 0); [lra|]. rewrite (trunc_uniq n) by lra. reflexivity.
        -- intros u U. unfold idx. pose proof (pos_INR n). destruct (Rlt_dec u 0); [lra|]. rewrite (trunc_uniq (S n)) by (rewrite S_INR; lra). reflexivity.
        -- destruct (le_lt_dec sz (S n)); [left; lia|right]. replace (Nat.min (S n) sz) with (S n) by lia.
           split; [lia|]. split; [rewrite S_INR; lra|trivial].
    + exists (Rmin (t - INR n) (INR n + 1 - t)), (Nat.min (S n) sz), (Nat.min (S n) sz).
      pose proof (Rmin_l (t - INR n) (INR n + 1 - t)). pose proof (Rmin_r (t - INR n) (INR n + 1 - t)). pose proof (pos_INR n).
      split; [apply Rmin_glb_lt; lra|]. split; [|split; [|now left]]; intros u U; unfold idx; (destruct (Rlt_dec u 0); [lra|]); rewrite (trunc_uniq n) by lra; reflexivity.
Qed.
Lemma fj_local knots i t : exists e k l, 0 < e /\ (forall u j, t - e < u < t -> fj knots i j u = piece knots i k j u) /\
  (forall u j, t <= u < t + e -> fj knots i j u = piece knots i l j u) /\ (forall j, (j <= 2)%nat -> piece knots i k j t = piece knots i l j t).
Proof.
  destruct (idx_local (length knots) t) as (e & k & l & E & L & R & D). exists e, k, l. split; [trivial|].
  split; [|split].
  - intros u j U. unfold fj. now rewrite (L u U).
  - intros u j U. unfold fj. now rewrite (R u U).
  - intros j J. destruct D as [->|(-> & -> & K)]; trivial. now rewrite piece_right, piece_left.
Qed.
Lemma fj_deriv knots i j t : (j <= 1)%nat -> derivable_pt_lim (fj knots i j) t (fj knots i (S j) t).
Proof.
  intros J. destruct (fj_local knots i t) as (e & k & l & E & L & R & M). intros eps He.
  destruct (d_piece knots i k j t ltac:(lia) eps He) as [d1 H1]. destruct (d_piece knots i l j t ltac:(lia) eps He) as [d2 H2].
  assert (Dp : 0 < Rmin e (Rmin d1 d2)) by (repeat apply Rmin_glb_lt; trivial; apply cond_pos).
  exists (mkposreal _ Dp). intros h A B. cbn in B.
  pose proof (Rmin_l e (Rmin d1 d2)). pose proof (Rmin_r e (Rmin d1 d2)). pose proof (Rmin_l d1 d2). pose proof (Rmin_r d1 d2).
  rewrite (R t j), (R t (S j)) by lra.
  destruct (Rlt_dec h 0).
  - rewrite Rabs_left in B by trivial. rewrite (L (t + h)) by lra. rewrite <- (M j), <- (M (S j)) by lia. apply H1; trivial. rewrite Rabs_left by trivial. lra.
  - assert (0 < h) by lra. rewrite Rabs_right in B by lra. rewrite (R (t + h)) by lra. apply H2; trivial. rewrite Rabs_right by lra. lra.
Qed.
Lemma fj_cont knots i t : continuity_pt (fj knots i 2) t.
Proof.
  destruct (fj_local knots i t) as (e & k & l & E & L & R & M).
  assert (Ck : forall k, continuity_pt (piece knots i k 2) t).
  { intros q. apply derivable_continuous_pt. exists (piece knots i q 3 t). apply d_piece. lia. }
  intros eps He. destruct (Ck k eps He) as (d1 & P1 & H1). destruct (Ck l eps He) as (d2 & P2 & H2).
  exists (Rmin e (Rmin d1 d2)). split; [repeat apply Rmin_glb_lt; trivial|].
  intros x [[_ Nx] Dx]. cbn in *. unfold R_dist in *.
  pose proof (Rmin_l e (Rmin d1 d2)). pose proof (Rmin_r e (Rmin d1 d2)). pose proof (Rmin_l d1 d2). pose proof (Rmin_r d1 d2).
  rewrite (R t 2%nat) by lra. assert (Q := Dx). apply Rabs_def2 in Q.
  destruct (Rlt_dec x t).
  - rewrite (L x) by lra. rewrite <- (M 2%nat) by lia. apply H1. split; [now split|]. lra.
  - rewrite (R x) by lra. apply H2. split; [now split|]. lra.
Qed.
Definition vel knots t i := match knots with nil => 0 | _ => fj knots i 1 t end.
Definition acc knots t i := match knots with nil => 0 | _ => fj knots i 2 t end.
Lemma coord_fj knots i t : knots <> nil -> in_domain t -> coord knots i t = fj knots i 0 t.
Proof. intros N D. unfold coord. destruct (eval_piece knots t N D) as (v & -> & E). apply E. Qed.
Lemma d_local f g t l : in_domain t -> (forall u, in_domain u -> f u = g u) -> derivable_pt_lim g t l -> derivable_pt_lim f t l.
Proof.
  intros D E H eps He. destruct (H eps He) as [d Hd]. set (e := Rmin (t + 1) (IZR (2 ^ 64) - t)).
  assert (Pe : 0 < e) by (destruct D; apply Rmin_glb_lt; lra).
  assert (Dp : 0 < Rmin e d) by (apply Rmin_glb_lt; [trivial|apply cond_pos]).
  exists (mkposreal _ Dp). intros h A B. cbn in B.
  pose proof (Rmin_l e d). pose proof (Rmin_r e d).
  pose proof (Rmin_l (t + 1) (IZR (2 ^ 64) - t)). pose proof (Rmin_r (t + 1) (IZR (2 ^ 64) - t)). fold e in H2, H3.
  assert (Q := B). apply Rabs_def2 in Q. rewrite !E; trivial; [apply Hd; trivial; lra|].
  unfold in_domain. lra.
Qed.
Lemma curve_C2 knots : C2_curve knots (vel knots) (acc knots).
Proof.
  intros t i D. destruct knots as [|r ks] eqn:K.
  - split; [|split].
    + apply (d_local _ (fun _ => 0)); trivial; [|apply derivable_pt_lim_const]. intros u U. unfold coord. now rewrite eval_empty.
    + apply derivable_pt_lim_const.
    + apply continuity_pt_const. intros x y. reflexivity.
  - rewrite <- K. assert (N : knots <> nil) by congruence.
    assert (V : forall u, vel knots u i = fj knots i 1 u) by (intros; rewrite K; reflexivity).
    assert (A : forall u, acc knots u i = fj knots i 2 u) by (intros; rewrite K; reflexivity).
    split; [|split].
    + apply (d_local _ (fj knots i 0)); trivial; [intros; now apply coord_fj|]. rewrite V. apply fj_deriv. lia.
    + eapply d_eq; [exact V|apply A|]. apply fj_deriv. lia.
    + intros eps He. destruct (fj_cont knots i t eps He) as (d & P & H). exists d. split; trivial. intros x Hx. cbn in *. rewrite !A. now apply H.
Qed.
Lemma fj_knot knots i k j : (k < length knots)%nat -> (j <= 2)%nat -> fj knots i j (INR k) = knot_value (kn knots k) i j.
Proof.
  intros K J. unfold fj, idx. pose proof (pos_INR k). destruct (Rlt_dec (INR k) 0); [lra|].
  rewrite (trunc_uniq k) by lra. replace (Nat.min (S k) (length knots)) with (S k) by lia. now apply piece_right.
Qed.
Lemma ease_range s : 0 <= s <= 1 -> 0 <= ease s <= 1.
Proof.
  intros [A B]. unfold ease. split.
  - apply Rmult_le_pos; [repeat apply Rmult_le_pos; trivial|]. nra.
  - assert (1 - s * s * s * (s * (s * 6 - 15) + 10) = (1 - s) * (1 - s) * (1 - s) * (1 + 3 * s + 6 * (s * s))) by ring.
    assert (0 <= (1 - s) * (1 - s) * (1 - s) * (1 + 3 * s + 6 * (s * s))).
    { apply Rmult_le_pos; [repeat apply Rmult_le_pos; lra|]. nra. }
    lra.
Qed.
Lemma eval_seg knots k t : (S k < length knots)%nat -> INR k <= t < INR k + 1 -> in_domain t ->
  exists v, path_eval knots t = Some v /\ forall i, v i = (1 - ease (t - INR k)) * at_multiple (kn knots k) (t - INR k) i + ease (t - INR k) * at_multiple (kn knots (S k)) (t - INR k - 1) i.
Proof.
  intros K T D. destruct (eval_piece knots t ltac:(destruct knots; [cbn in K; lia|congruence]) D) as (v & E & V).
  exists v. split; trivial. intros i. rewrite V. unfold fj, idx. pose proof (pos_INR k). destruct (Rlt_dec t 0); [lra|].
  rewrite (trunc_uniq k) by lra. replace (Nat.min (S k) (length knots)) with (S k) by lia.
  unfold piece. destruct (Nat.eqb_spec (S k) (length knots)); [lia|]. change (S k =? 0)%nat with false. cbv iota. replace (S k - 1)%nat with k by lia.
  unfold seg, at_multiple, vec_add, vec_scale, lin. ring.
Qed.
Lemma eval_before knots t : knots <> nil -> -1 < t <= 0 -> exists v, path_eval knots t = Some v /\ forall i, v i = at_multiple (kn knots 0) t i.
Proof.
  intros N T. assert (D : in_domain t).
  { split; [lra|]. apply Rle_lt_trans with 0; [lra|]. apply (IZR_lt 0). reflexivity. }
  destruct (eval_piece knots t N D) as (v & E & V). exists v. split; trivial. intros i. rewrite V.
  destruct (Req_dec t 0) as [->|Z].
  - change 0 with (INR 0). rewrite fj_knot; [|destruct knots; [congruence|cbn; lia]|lia]. cbn [INR]. unfold knot_value, at_multiple, vec_add, vec_scale. ring.
  - unfold fj, idx. destruct (Rlt_dec t 0); [reflexivity|lra].
Qed.
Lemma eval_after knots t : knots <> nil -> INR (length knots - 1) <= t -> in_domain t -> exists v, path_eval knots t = Some v /\ forall i, v i = at_multiple (kn knots (length knots - 1)) (t - INR (length knots - 1)) i.
Proof.
  intros N T D. destruct (eval_piece knots t N D) as (v & E & V). exists v. split; trivial. intros i. rewrite V.
  pose proof (pos_INR (length knots - 1)). assert (L : (1 <= length knots)%nat) by (destruct knots; [congruence|cbn; lia]).
  unfold fj, idx. destruct (Rlt_dec t 0); [lra|].
  assert (length knots - 1 < S (trunc t))%nat. { apply INR_lt. rewrite S_INR. destruct (trunc_spec t); lra. }
  replace (Nat.min (S (trunc t)) (length knots)) with (length knots) by lia. unfold piece. rewrite Nat.eqb_refl.
  destruct (Nat.eqb_spec (length knots) 0); [lia|]. reflexivity.
Qed.

Lemma nth_kn knots k r : nth_error knots k = Some r -> kn knots k = r.
Proof. intros H. unfold kn. now apply nth_error_nth. Qed.
Lemma eval_in knots t : in_domain t -> exists v, path_eval knots t = Some v.
Proof.
  intros D. destruct knots as [|r ks] eqn:K.
  - rewrite eval_empty by trivial. eauto.
  - rewrite <- K. destruct (eval_piece knots t ltac:(congruence) D) as (v & E & _). eauto.
Qed.
Lemma eval_append knots p v t : knots <> nil -> t <= INR (length knots - 1) -> in_domain t ->
  forall i, coord (append_knot knots p v) i t = coord knots i t.
Proof.
  intros N T D i. assert (L : (1 <= length knots)%nat) by (destruct knots; [congruence|cbn; lia]).
  set (ks := append_knot knots p v). assert (LK : length ks = S (length knots)) by (unfold ks, append_knot; rewrite app_length; cbn; lia).
  assert (N2 : ks <> nil) by (intros Q; rewrite Q in LK; cbn in LK; lia).
  assert (KN : forall k, (k < length knots)%nat -> kn ks k = kn knots k) by (intros; unfold ks, append_knot, kn; now apply app_nth1).
  rewrite !coord_fj by trivial. unfold fj, idx. destruct (Rlt_dec t 0) as [Ng|Nn].
  - unfold piece. cbn [Nat.eqb]. now rewrite KN by lia.
  - destruct (trunc_spec t ltac:(lra)) as [A B]. set (n := trunc t) in *.
    assert (n <= length knots - 1)%nat by (apply INR_le; lra).
    destruct (Nat.eq_dec n (length knots - 1)) as [E|E].
    + assert (Tn : t = INR n) by (rewrite E in A |- *; lra). rewrite Tn.
      rewrite !Nat.min_l by lia. rewrite !piece_right by lia. now rewrite KN by lia.
    + rewrite !Nat.min_l by lia. unfold piece. destruct (Nat.eqb_spec (S n) (length ks)); [lia|]. destruct (Nat.eqb_spec (S n) (length knots)); [lia|].
      change (S n =? 0)%nat with false. cbv iota. now rewrite !KN by lia.
Qed.
