From Coq Require Import Reals ZArith Lia Lra Bool List.
From Flocq Require Import Core BinarySingleNaN.
From Verif Require Import PermModel.
From Verif Require Import FmaModel FmaSpec FmaProofs FquadModel FquadProofs FquadMore FvecModel FvecSpec FvecProofs FvecMore FvecAcc FsolveProofs FsolveMore FlsysProofs ForthProofs FprojModel FprojSpec FprojProofs FgsModel FgsSpec.
Import ListNotations.
Open Scope R_scope.

Section Gs.
Variable prec emax : Z.
Context {Hp : Prec_gt_0 prec} {He : Prec_lt_emax prec emax}.
Notation float := (binary_float prec emax).
Notation vector := (nat -> float).
Notation u := (bpow radix2 (- prec)).
Lemma step_error N (x a : vector) : let p := fl_project_on N x a in let y := fl_vsub prec emax x p in
  (forall i, (i < N)%nat -> is_finite (a i) = true /\ is_finite (y i) = true) -> is_finite (fl_mag2 N a) = true -> B2R (fl_mag2 N a) <> 0 ->
  Rabs (exact_dot N y a * exact_dot N a a) <= ortho_step_bound N x a p y.
Proof.
  intros p y F FM NZ.
  assert (V : forall i, (i < N)%nat -> is_finite (x i) = true /\ is_finite (p i) = true /\ Rabs (B2R (y i) - (B2R (x i) - B2R (p i))) <= u * Rabs (B2R (y i))).
  { intros i I. destruct (F i I) as (_ & Fy). destruct (sub_finite prec emax _ _ Fy) as (Fx & Fp & E). change (fl_sub prec emax (x i) (p i)) with (y i) in E. split; [exact Fx|]. split; [exact Fp|].
    destruct (sum_back prec emax (B2R (x i)) (- B2R (p i)) ltac:(apply b2r_format) ltac:(apply generic_format_opp, b2r_format)) as (e & Ee & R). rewrite <- E in R.
    replace (B2R (y i) - (B2R (x i) - B2R (p i))) with (- (e * B2R (y i))) by (unfold Rminus at 2; rewrite R; ring). rewrite Rabs_Ropp, Rabs_mult. apply Rmult_le_compat_r; [apply Rabs_pos|exact Ee]. }
  assert (FF : forall i, (i < N)%nat -> is_finite (x i) = true /\ is_finite (a i) = true) by (intros i I; split; [apply V; exact I|apply F; exact I]).
  pose proof (fun k (K : (k < N)%nat) => project_error prec emax N x a FF FM NZ k (proj1 (proj2 (V k K)))) as P. cbv zeta in P. fold p in P. set (E := exact_dot N a a) in *. assert (E0 : 0 <= E) by apply self_nonneg.
  assert (D1 : Rabs (exact_dot N y a * E - (exact_dot N x a - total N (fun k => B2R (p k) * B2R (a k))) * E) <= u * sum_of_sizes N y a * E).
  { rewrite <- Rmult_minus_distr_r, Rabs_mult, (Rabs_pos_eq E E0). apply Rmult_le_compat_r; [exact E0|]. unfold sum_of_sizes. rewrite <- total_const_l.
    replace (exact_dot N x a - total N (fun k => B2R (p k) * B2R (a k))) with (total N (fun k => (B2R (x k) - B2R (p k)) * B2R (a k))).
    - apply total_near. intros i I. rewrite <- Rmult_minus_distr_r, !Rabs_mult. destruct (V i I) as (_ & _ & W). pose proof (Rmult_le_compat_r (Rabs (B2R (a i))) _ _ (Rabs_pos _) W). lra.
    - unfold exact_dot. rewrite (total_ext N _ (fun k => 1 * (B2R (x k) * B2R (a k)) + (-1) * (B2R (p k) * B2R (a k)))) by (intros; ring). rewrite total_lin. ring. }
  assert (D2 : Rabs ((exact_dot N x a - total N (fun k => B2R (p k) * B2R (a k))) * E) <= total N (fun k => Rabs (B2R (a k)) * project_bound N x a p k)).
  { replace ((exact_dot N x a - total N (fun k => B2R (p k) * B2R (a k))) * E) with (total N (fun k => B2R (a k) * (B2R (a k) * exact_dot N x a)) - total N (fun k => B2R (a k) * (B2R (p k) * E))).
    - apply total_near. intros k K. rewrite <- Rmult_minus_distr_l, Rabs_mult. apply Rmult_le_compat_l; [apply Rabs_pos|]. rewrite Rabs_minus_sym. exact (P k K).
    - rewrite (total_ext N (fun k => B2R (a k) * (B2R (a k) * exact_dot N x a)) (fun k => B2R (a k) * B2R (a k) * exact_dot N x a)) by (intros; ring). rewrite (total_ext N (fun k => B2R (a k) * (B2R (p k) * E)) (fun k => B2R (p k) * B2R (a k) * E)) by (intros; ring). rewrite !total_scale. unfold E, exact_dot. ring. }
  unfold ortho_step_bound. fold E. replace (exact_dot N y a * E) with ((exact_dot N x a - total N (fun k => B2R (p k) * B2R (a k))) * E + (exact_dot N y a * E - (exact_dot N x a - total N (fun k => B2R (p k) * B2R (a k))) * E)) by ring.
  eapply Rle_trans; [apply Rabs_triang|]. apply Rplus_le_compat; assumption.
Qed.
Lemma inner_off N i js : forall (B : nat -> vector) k, k <> i -> fold_left (fl_ortho_step N i) js B k = B k.
Proof. induction js as [|j js IH]; intros B k K; [reflexivity|]. cbn [fold_left]. rewrite IH by exact K. unfold fl_ortho_step. now apply upd_off. Qed.
Notation outer N B m := (fold_left (fun B i => fold_left (fl_ortho_step N i) (seq 0 i) B) (seq 1 m) B).
Lemma outer_next N (B : nat -> vector) m : outer N B (S m) = fold_left (fl_ortho_step N (S m)) (seq 0 (S m)) (outer N B m).
Proof. rewrite seq_S, fold_left_app. reflexivity. Qed.
Lemma outer_settled N (B : nat -> vector) k m : (k <= m)%nat -> outer N B m k = outer N B k k.
Proof. induction m as [|m IH]; intros L; [now replace k with 0%nat by lia|]. destruct (Nat.eq_dec k (S m)) as [->|NE]; [reflexivity|]. rewrite outer_next, inner_off by exact NE. apply IH. lia. Qed.
Lemma outer_later N (B : nat -> vector) k m : (m < k)%nat -> outer N B m k = B k.
Proof. induction m as [|m IH]; intros L; [reflexivity|]. rewrite outer_next, inner_off by lia. apply IH. lia. Qed.
Lemma kept N n (B : nat -> vector) k : k = 0%nat \/ (n <= k)%nat -> fl_orthogonalize N n B k = B k.
Proof. intros [->|L]; unfold fl_orthogonalize; [now rewrite outer_settled by lia|]. destruct (Nat.eq_dec k 0) as [->|NZ]; [now rewrite outer_settled by lia|]. apply outer_later. lia. Qed.
Lemma consecutive N n (B : nat -> vector) i : (S i < n)%nat -> let Q := fl_orthogonalize N n B in exists x, Q (S i) = fl_vsub prec emax x (fl_project_on N x (Q i)) /\ (i = 0%nat -> x = B 1%nat).
Proof.
  intros L Q. unfold Q, fl_orthogonalize. rewrite (outer_settled N B (S i)), (outer_settled N B i) by lia. rewrite (outer_next N B i), seq_S, fold_left_app. cbn [fold_left Nat.add]. set (G := fold_left (fl_ortho_step N (S i)) (seq 0 i) (outer N B i)).
  exists (G (S i)). split; [unfold fl_ortho_step; rewrite upd_at; unfold G at 3; rewrite inner_off by lia; reflexivity|]. intros ->. reflexivity.
Qed.
Lemma neighbours N n (B : nat -> vector) i : (S i < n)%nat -> let Q := fl_orthogonalize N n B in
  (forall k, (k < N)%nat -> is_finite (Q i k) = true /\ is_finite (Q (S i) k) = true) -> is_finite (fl_mag2 N (Q i)) = true -> B2R (fl_mag2 N (Q i)) <> 0 ->
  exists x, Q (S i) = fl_vsub prec emax x (fl_project_on N x (Q i)) /\ (i = 0%nat -> x = B 1%nat) /\
    Rabs (exact_dot N (Q (S i)) (Q i) * exact_dot N (Q i) (Q i)) <= ortho_step_bound N x (Q i) (fl_project_on N x (Q i)) (Q (S i)).
Proof.
  intros L Q F FM NZ. destruct (consecutive N n B i L) as (x & E & X). fold Q in E. exists x. split; [exact E|]. split; [exact X|]. rewrite E. apply step_error; [|exact FM|exact NZ]. intros k K. rewrite <- E. now apply F.
Qed.
Lemma chain N n (B : nat -> vector) i : (i < n)%nat -> let Q := fl_orthogonalize N n B in
  exists x : nat -> vector, x 0%nat = B i /\ x i = Q i /\ forall j, (j < i)%nat -> x (S j) = fl_vsub prec emax (x j) (fl_project_on N (x j) (Q j)).
Proof.
  intros L Q. destruct i as [|i]; [exists (fun _ => B 0%nat); split; [reflexivity|]; split; [symmetry; apply kept; now left|intros; lia]|].
  exists (fun j => fold_left (fl_ortho_step N (S i)) (seq 0 j) (outer N B i) (S i)). split; [apply outer_later; lia|]. unfold Q, fl_orthogonalize. split; [rewrite (outer_settled N B (S i)) by lia; now rewrite outer_next|].
  intros j J. rewrite seq_S, fold_left_app. cbn [fold_left Nat.add]. unfold fl_ortho_step at 1. rewrite upd_at. rewrite (inner_off N (S i) (seq 0 j) _ j) by lia. rewrite (outer_settled N B j i), (outer_settled N B j (n - 1)) by lia. reflexivity.
Qed.
End Gs.
