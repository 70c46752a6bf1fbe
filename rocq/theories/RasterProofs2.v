From Coq Require Import ZArith QArith Lia ZifyBool Psatz.
From Verif Require Import RasterModel.
Open Scope Z_scope.

Lemma truncQ_floor q n : (0 <= q)%Q -> (truncQ q = n <-> (inject_Z n <= q /\ q < inject_Z n + 1)%Q).
Proof.
  intros H. destruct q as [a b]. unfold truncQ, Qle, Qlt, inject_Z in *. cbn [Qnum Qden Qplus] in *.
  rewrite Z.quot_div_nonneg by lia. rewrite ?Z.mul_1_r, ?Pos.mul_1_r in *.
  pose proof (Z.div_mod a (Zpos b) ltac:(lia)). pose proof (Z.mod_pos_bound a (Zpos b) ltac:(lia)).
  split; [intros <-|intros H2]; nia.
Qed.

(** Grid coordinate of sample [i] of a raster with the default domain. *)
Lemma to_grid_default ext i : 2 <= ext ->
  (to_grid ext (fst (default_domain ext)) (snd (default_domain ext)) (inject_Z i) ==
   inject_Z (i * ext) / inject_Z (ext - 1))%Q.
Proof.
  intros H. unfold to_grid, default_domain. cbn [fst snd].
  assert (N : ~ (inject_Z ext - 1 - 0 == 0)%Q).
  { intros E. unfold Qeq, inject_Z in E. cbn in E. lia. }
  unfold Zminus. rewrite inject_Z_plus, inject_Z_mult. change (inject_Z (- (1))) with (- (1))%Q.
  generalize dependent (inject_Z ext). generalize (inject_Z i). intros a e N. field. intros E. apply N. transitivity (e + - (1))%Q; [ring|exact E].
Qed.

Lemma Qdiv_le a b c : 0 < b -> ((inject_Z c <= inject_Z a / inject_Z b)%Q <-> c * b <= a).
Proof.
  intros H. assert (P : (0 < inject_Z b)%Q) by (unfold Qlt, inject_Z; cbn; lia). split; intros L.
  - apply (Qmult_le_r _ _ _ P) in L. unfold Qdiv in L. rewrite <- Qmult_assoc, (Qmult_comm (/ _)), Qmult_inv_r, Qmult_1_r in L
      by (intros E; rewrite E in P; discriminate).
    rewrite <- inject_Z_mult in L. now rewrite <- Zle_Qle in L.
  - apply (Qmult_le_r _ _ _ P). unfold Qdiv. rewrite <- Qmult_assoc, (Qmult_comm (/ _)), Qmult_inv_r, Qmult_1_r
      by (intros E; rewrite E in P; discriminate).
    rewrite <- inject_Z_mult. now rewrite <- Zle_Qle.
Qed.

Lemma nearest_default ext i : 2 <= ext -> 0 <= i < ext ->
  (nearest_cell ext (fst (default_domain ext)) (snd (default_domain ext)) (inject_Z i) = i <-> 2 * i < ext - 1).
Proof.
  intros H Hi. unfold nearest_cell.
  set (g := to_grid _ _ _ _). assert (E : (g == inject_Z (i * ext) / inject_Z (ext - 1))%Q) by now apply to_grid_default.
  clearbody g.
  assert (E2 : (g + (1 # 2) == inject_Z (2 * (i * ext) + (ext - 1)) / inject_Z (2 * (ext - 1)))%Q).
  { rewrite E. rewrite inject_Z_plus, !inject_Z_mult. change (inject_Z 2) with 2%Q. field.
    intros X. unfold Qeq, inject_Z in X. cbn in X. lia. }
  set (g2 := (g + (1 # 2))%Q) in *. clearbody g2.
  assert (P : (0 <= g2)%Q). { rewrite E2. change 0%Q with (inject_Z 0). apply Qdiv_le; nia. }
  rewrite (truncQ_floor _ _ P).
  assert (A : (inject_Z i <= g2)%Q <-> i * (2 * (ext - 1)) <= 2 * (i * ext) + (ext - 1)) by (rewrite E2; apply Qdiv_le; lia).
  assert (B : (inject_Z (i + 1) <= g2)%Q <-> (i + 1) * (2 * (ext - 1)) <= 2 * (i * ext) + (ext - 1)) by (rewrite E2; apply Qdiv_le; lia).
  rewrite inject_Z_plus in B. change (inject_Z 1) with 1%Q in B. split.
  - intros [_ L]. apply Qlt_not_le in L. rewrite B in L. nia.
  - intros L. split; [apply A; nia|]. apply Qnot_le_lt. rewrite B. nia.
Qed.

(** The two ends of the domain. *)
Lemma to_grid_ends ext lo hi : ~ (lo == hi)%Q -> (to_grid ext lo hi lo == 0)%Q /\ (to_grid ext lo hi hi == inject_Z ext)%Q.
Proof.
  intros H. unfold to_grid. assert (N : ~ (hi - lo == 0)%Q).
  { intros E. apply H. rewrite <- (Qplus_0_l lo), <- E. ring. }
  split; field; auto.
Qed.

(** Below the domain truncation rounds the wrong way: the interpolation weight is negative. *)
Lemma linear_negative ext lo hi pt : (to_grid ext lo hi pt < 0)%Q ->
  (snd (linear_cell ext lo hi pt) <= 0)%Q.
Proof.
  unfold linear_cell. set (g := to_grid _ _ _ _). intros H. cbn [snd]. clearbody g.
  destruct g as [a b]. unfold truncQ, Qlt, Qle in *. cbn in *.
  assert (a < 0) by lia. pose proof (Z.quot_rem a (Zpos b) ltac:(lia)). pose proof (Z.rem_bound_abs a (Zpos b) ltac:(lia)).
  pose proof (Z.rem_sign_mul a (Zpos b) ltac:(lia)). rewrite ?Z.mul_1_r, ?Pos.mul_1_r. nia.
Qed.
