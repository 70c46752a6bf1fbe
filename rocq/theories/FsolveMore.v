From Coq Require Import Reals ZArith Lia Lra Bool List.
From Flocq Require Import Core BinarySingleNaN.
From Verif Require Import FmaModel FmaSpec FmaProofs FquadModel FquadMore FvecModel FvecSpec FvecProofs FvecMore FvecAcc FcholModel FsolveModel FsolveSpec FsolveProofs.
Import ListNotations.
Open Scope R_scope.

Lemma total_lin n f g a b : total n (fun k => a * f k + b * g k) = a * total n f + b * total n g.
Proof. induction n as [|n IH]; cbn [total]; [ring|]. rewrite IH. ring. Qed.
Lemma total_zero n f : (forall k, (k < n)%nat -> f k = 0) -> total n f = 0.
Proof. induction n as [|n IH]; cbn [total]; intros H; [reflexivity|]. rewrite IH, H by (intros; try apply H; lia). ring. Qed.
Lemma over_ext cs f g : (forall c, In c cs -> f c = g c) -> over cs f = over cs g.
Proof. induction cs as [|c cs IH]; intros H; [reflexivity|]. rewrite !over_cons, (H c) by now left. rewrite IH by (intros; apply H; now right). reflexivity. Qed.
Lemma total_split n r f : (r < n)%nat -> total n f = total r f + (f r + over (above r n) f).
Proof.
  intros H. rewrite <- !over_seq. unfold above. rewrite over_rev. replace n with (r + S (n - S r))%nat at 1 by lia. rewrite seq_app, over_app. cbn [seq Nat.add]. rewrite over_cons. reflexivity.
Qed.
(** The two substitutions together. *)
Lemma combine n (G h N b : R) (l y U F d : nat -> R) : 1 <= G -> 0 <= h -> 0 <= N ->
  (forall k, (k < n)%nat -> Rabs (U k) <= F k /\ Rabs (y k - U k) <= (G - 1) * F k + d k * G * h) ->
  Rabs (b - total n (fun k => l k * y k)) <= (G - 1) * total n (fun k => Rabs (l k) * Rabs (y k)) + N * G * h ->
  Rabs (b - total n (fun k => l k * U k)) <= (G * G - 1) * total n (fun k => Rabs (l k) * F k) + G * G * h * (N + total n (fun k => Rabs (l k) * d k)).
Proof.
  intros G1 H0 N0 HU HB. pose proof (total_near n (fun k => l k * y k) (fun k => l k * U k) (fun k => Rabs (l k) * ((G - 1) * F k + d k * G * h))) as T1. cbv beta in T1.
  assert (T : Rabs (total n (fun k => l k * y k) - total n (fun k => l k * U k)) <= total n (fun k => Rabs (l k) * ((G - 1) * F k + d k * G * h))).
  { apply T1. intros k K. replace (l k * y k - l k * U k) with (l k * (y k - U k)) by ring. rewrite Rabs_mult. apply Rmult_le_compat_l; [apply Rabs_pos|]. now apply HU. }
  assert (Y : (G - 1) * total n (fun k => Rabs (l k) * Rabs (y k)) <= (G - 1) * total n (fun k => Rabs (l k) * (G * F k + d k * G * h))).
  { apply Rmult_le_compat_l; [lra|]. apply total_le. intros k K. apply Rmult_le_compat_l; [apply Rabs_pos|]. destruct (HU k K) as (A & B). replace (y k) with ((y k - U k) + U k) by ring. eapply Rle_trans; [apply Rabs_triang|]. lra. }
  assert (E : total n (fun k => Rabs (l k) * ((G - 1) * F k + d k * G * h)) + (G - 1) * total n (fun k => Rabs (l k) * (G * F k + d k * G * h)) = (G * G - 1) * total n (fun k => Rabs (l k) * F k) + G * G * h * total n (fun k => Rabs (l k) * d k)).
  { rewrite (total_ext n (fun k => Rabs (l k) * ((G - 1) * F k + d k * G * h)) (fun k => (G - 1) * (Rabs (l k) * F k) + G * h * (Rabs (l k) * d k))) by (intros; ring).
    rewrite (total_ext n (fun k => Rabs (l k) * (G * F k + d k * G * h)) (fun k => G * (Rabs (l k) * F k) + G * h * (Rabs (l k) * d k))) by (intros; ring). rewrite !total_lin. ring. }
  assert (NG : N * G * h <= G * G * h * N). { replace (G * G * h * N) with (N * G * h * G) by ring. rewrite <- (Rmult_1_r (N * G * h)) at 1. apply Rmult_le_compat_l; [|exact G1]. apply Rmult_le_pos; [apply Rmult_le_pos; lra|lra]. }
  replace (b - total n (fun k => l k * U k)) with ((b - total n (fun k => l k * y k)) + (total n (fun k => l k * y k) - total n (fun k => l k * U k))) by ring.
  eapply Rle_trans; [apply Rabs_triang|]. rewrite Rmult_plus_distr_l. lra.
Qed.

Section Solve.
Variable prec emax : Z.
Context {Hp : Prec_gt_0 prec} {He : Prec_lt_emax prec emax}.
Notation float := (binary_float prec emax).
Notation matrix := (nat -> nat -> float).
Notation pw := (bpow radix2).
Notation u := (pw (- prec)).
Notation st := (step prec).
Notation h := (pw (FmaSpec.emin prec emax - 1)).
Notation div := (fl_div prec emax).
Lemma step_ge : 1 <= st. Proof. pose proof (bpow_gt_0 radix2 (- prec)). unfold step. lra. Qed.
Lemma upper_row (lu : matrix) n (x : nat -> float) r : (r < n)%nat -> total n (fun c => upper_part lu r c * B2R (x c)) = B2R (x r) * B2R (lu r r) + over (above r n) (fun c => B2R (x c) * B2R (lu r c)).
Proof.
  intros R. rewrite (total_split n r) by exact R. rewrite total_zero by (intros k K; unfold upper_part; destruct (Nat.ltb_spec k r); [ring|lia]). unfold upper_part at 1. rewrite Nat.ltb_irrefl.
  rewrite (over_ext _ _ (fun c => B2R (x c) * B2R (lu r c))) by (intros c C; apply in_above in C; unfold upper_part; destruct (Nat.ltb_spec c r); [lia|ring]). ring.
Qed.
Lemma upper_row_size (lu : matrix) n (x : nat -> float) r : (r < n)%nat -> total n (fun c => Rabs (upper_part lu r c * B2R (x c))) = Rabs (B2R (x r) * B2R (lu r r)) + over (above r n) (fun c => Rabs (B2R (x c) * B2R (lu r c))).
Proof.
  intros R. rewrite (total_split n r) by exact R. rewrite total_zero by (intros k K; unfold upper_part; destruct (Nat.ltb_spec k r); [rewrite Rmult_0_l; apply Rabs_R0|lia]). unfold upper_part at 1. rewrite Nat.ltb_irrefl.
  rewrite (over_ext _ _ (fun c => Rabs (B2R (x c) * B2R (lu r c)))) by (intros c C; apply in_above in C; unfold upper_part; destruct (Nat.ltb_spec c r); [lia|f_equal; ring]). rewrite Rplus_0_l. do 2 f_equal. ring.
Qed.
Lemma lower_row (lu : matrix) n (f : nat -> R) r : (r < n)%nat -> total n (fun c => lower_part lu r c * f c) = f r + total r (fun c => f c * B2R (lu r c)).
Proof.
  intros R. rewrite (total_split n r) by exact R. unfold lower_part at 2. rewrite Nat.ltb_irrefl, Nat.eqb_refl.
  rewrite (over_ext _ _ (fun c => 0 * 0)) by (intros c C; apply in_above in C; unfold lower_part; destruct (Nat.ltb_spec c r); [lia|]; destruct (Nat.eqb_spec c r); [lia|ring]).
  rewrite (total_ext r (fun c => lower_part lu r c * f c) (fun c => f c * B2R (lu r c))) by (intros c C; unfold lower_part; destruct (Nat.ltb_spec c r); [ring|lia]).
  assert (Z : over (above r n) (fun _ => 0 * 0) = 0) by (induction (above r n) as [|a l IH]; [reflexivity|]; rewrite over_cons, IH; ring). rewrite Z. ring.
Qed.
Lemma lower_row_size (lu : matrix) n (f : nat -> R) r : (r < n)%nat -> total n (fun c => Rabs (lower_part lu r c) * Rabs (f c)) = Rabs (f r) + total r (fun c => Rabs (f c * B2R (lu r c))).
Proof.
  intros R. rewrite (total_split n r) by exact R. unfold lower_part at 2. rewrite Nat.ltb_irrefl, Nat.eqb_refl, Rabs_R1.
  rewrite (over_ext _ _ (fun c => 0 * 0)) by (intros c C; apply in_above in C; unfold lower_part; destruct (Nat.ltb_spec c r); [lia|]; destruct (Nat.eqb_spec c r); [lia|rewrite Rabs_R0; ring]).
  rewrite (total_ext r (fun c => Rabs (lower_part lu r c) * Rabs (f c)) (fun c => Rabs (f c * B2R (lu r c)))) by (intros c C; unfold lower_part; destruct (Nat.ltb_spec c r); [rewrite Rabs_mult; ring|lia]).
  assert (Z : over (above r n) (fun _ => 0 * 0) = 0) by (induction (above r n) as [|a l IH]; [reflexivity|]; rewrite over_cons, IH; ring). rewrite Z. ring.
Qed.
Lemma back_error (lu : matrix) n (x : nat -> float) (y : float) r : (r < n)%nat -> is_finite (lu r r) = true -> is_finite (x r) = true -> x r = div (red prec emax (lu r) x (above r n) y) (lu r r) ->
  B2R (lu r r) <> 0 /\ is_finite y = true /\ Rabs (B2R y - total n (fun c => upper_part lu r c * B2R (x c))) <= (st ^ n - 1) * total n (fun c => Rabs (upper_part lu r c * B2R (x c))) + (INR n + Rabs (B2R (lu r r))) * st ^ n * h.
Proof.
  intros R Fd Fx E. rewrite E in Fx. destruct (div_accurate prec emax _ _ Fd Fx) as (NZ & Ft & D). destruct (red_accurate prec emax (lu r) x (above r n) y Ft) as (Fy & _ & A). rewrite <- E in D. split; [exact NZ|]. split; [exact Fy|].
  rewrite upper_row, upper_row_size by exact R. set (t := B2R (red prec emax (lu r) x (above r n) y)) in *. set (z := B2R (x r) * B2R (lu r r)) in *. set (k := B2R (lu r r)) in *. set (T := over (above r n) (fun c => B2R (x c) * B2R (lu r c))) in *. set (Z := over (above r n) (fun c => Rabs (B2R (x c) * B2R (lu r c)))) in *.
  assert (Z0 : 0 <= Z) by (apply over_nonneg; intros; apply Rabs_pos). assert (L : length (above r n) = (n - S r)%nat) by (unfold above; now rewrite rev_length, seq_length). rewrite L in A.
  pose proof step_ge as S1. assert (P1 : st ^ S (n - S r) <= st ^ n) by (apply Rle_pow; [exact S1|lia]). assert (P0 : 1 <= st ^ (n - S r)) by (apply pow_R1_Rle; exact S1). cbn [pow] in P1.
  assert (NI : INR (n - S r) <= INR n) by (apply le_INR; lia). pose proof (pos_INR (n - S r)) as N0. set (N := INR n) in *. set (M := INR (n - S r)) in *. set (p := st ^ (n - S r)) in *. set (G := st ^ n) in *. assert (H0 : 0 < h) by apply bpow_gt_0. pose proof (bpow_gt_0 radix2 (- prec)) as U.
  assert (PG : p <= G). { assert (1 * p <= st * p) by (apply Rmult_le_compat_r; lra). lra. }
  assert (At : Rabs t <= st * Rabs z + Rabs k * h). { replace t with ((t - z) + z) by ring. eapply Rle_trans; [apply Rabs_triang|]. unfold step. lra. }
  replace (B2R y - (z + T)) with ((B2R y - (t + T)) + (t - z)) by ring. eapply Rle_trans; [apply Rabs_triang|].
  assert (B1 : (p - 1) * (Rabs t + Z) <= (p - 1) * (st * Rabs z + Rabs k * h + Z)) by (apply Rmult_le_compat_l; lra).
  assert (B2 : (st * p - 1) * Rabs z <= (G - 1) * Rabs z) by (apply Rmult_le_compat_r; [apply Rabs_pos|lra]).
  assert (B3 : (p - 1) * Z <= (G - 1) * Z) by (apply Rmult_le_compat_r; lra).
  assert (KH : 0 <= Rabs k * h) by (apply Rmult_le_pos; [apply Rabs_pos|lra]). assert (B4 : p * (Rabs k * h) <= G * (Rabs k * h)) by (apply Rmult_le_compat_r; lra).
  assert (B5 : M * p * h <= N * G * h) by (apply Rmult_le_compat_r; [lra|]; apply Rmult_le_compat; lra).
  replace ((G - 1) * (Rabs z + Z) + (N + Rabs k) * G * h) with ((G - 1) * Rabs z + (G - 1) * Z + G * (Rabs k * h) + N * G * h) by ring.
  replace ((p - 1) * (st * Rabs z + Rabs k * h + Z)) with ((st * p - 1) * Rabs z - u * Rabs z + (p * (Rabs k * h) - Rabs k * h) + (p - 1) * Z) in B1 by (unfold step; ring). lra.
Qed.
Lemma forward_error (lu : matrix) n (y : nat -> float) (b : float) r : (r < n)%nat -> is_finite (y r) = true -> y r = red prec emax (lu r) y (seq 0 r) b ->
  Rabs (B2R b - total n (fun c => lower_part lu r c * B2R (y c))) <= (st ^ n - 1) * total n (fun c => Rabs (lower_part lu r c) * Rabs (B2R (y c))) + INR n * st ^ n * h.
Proof.
  intros R F E. rewrite E in F. destruct (red_accurate prec emax (lu r) y (seq 0 r) b F) as (_ & _ & A). rewrite <- E in A. rewrite !over_seq, seq_length in A.
  rewrite (lower_row lu n (fun c => B2R (y c))), (lower_row_size lu n (fun c => B2R (y c))) by exact R. eapply Rle_trans; [exact A|]. pose proof step_ge as S1. assert (P1 : st ^ r <= st ^ n) by (apply Rle_pow; [exact S1|lia]). assert (P0 : 1 <= st ^ r) by (apply pow_R1_Rle; exact S1). assert (NI : INR r <= INR n) by (apply le_INR; lia). assert (H0 : 0 < h) by apply bpow_gt_0. pose proof (pos_INR r).
  apply Rplus_le_compat.
  - apply Rmult_le_compat_r; [|lra]. pose proof (Rabs_pos (B2R (y r))). assert (0 <= total r (fun c => Rabs (B2R (y c) * B2R (lu r c)))) by (apply total_nonneg; intros; apply Rabs_pos). lra.
  - apply Rmult_le_compat_r; [lra|]. apply Rmult_le_compat; lra.
Qed.
Lemma solved (lu B : matrix) n m i : (i < m)%nat -> (forall r, (r < n)%nat -> is_finite (lu r r) = true) -> let X := fl_backsolve_lu lu n m 0 B in (forall r, (r < n)%nat -> is_finite (X r i) = true) ->
  forall r, (r < n)%nat -> B2R (lu r r) <> 0 /\ Rabs (B2R (B r i) - lu_times n lu (fun c => X c i) r) <= solve_bound n lu (fun c => X c i) r.
Proof.
  intros I Fl X FX. unfold X, fl_backsolve_lu in *. destruct (forward_loop prec emax lu m B (n - 1)) as (_ & FL). set (Y := fold_left _ (seq 1 (n - 1)) B) in *.
  assert (BE : forall r, (r < n)%nat -> B2R (lu r r) <> 0 /\ is_finite (Y r i) = true /\ Rabs (B2R (Y r i) - total n (fun c => upper_part lu r c * B2R (X c i))) <= (st ^ n - 1) * total n (fun c => Rabs (upper_part lu r c * B2R (X c i))) + (INR n + Rabs (B2R (lu r r))) * st ^ n * h).
  { intros r R. apply (back_error lu n (fun c => X c i)); [exact R|now apply Fl|now apply FX|]. apply (backward_loop prec emax lu n m 0 Y r i); [lia|exact I]. }
  intros r R. split; [now apply BE|]. unfold lu_times, solve_bound, lu_size. replace (2 * n)%nat with (n + n)%nat by lia. rewrite pow_add.
  apply (combine n (st ^ n) h (INR n) (B2R (B r i)) (lower_part lu r) (fun k => B2R (Y k i)) (fun k => total n (fun c => upper_part lu k c * B2R (X c i))) (fun k => total n (fun c => Rabs (upper_part lu k c * B2R (X c i)))) (fun k => INR n + Rabs (B2R (lu k k)))).
  - apply pow_R1_Rle. apply step_ge.
  - apply bpow_ge_0.
  - apply pos_INR.
  - intros k K. split; [apply total_abs|]. now apply BE.
  - apply (forward_error lu n (fun c => Y c i)); [exact R|now apply BE|]. apply FL; [lia|exact I].
Qed.
(** Each column is solved by itself. *)
Lemma columns (lu B B' : matrix) n m m' skip i i' : (skip <= n)%nat -> (i < m)%nat -> (i' < m')%nat -> (forall r, (r < n)%nat -> B r i = B' r i') -> forall r, (r < n)%nat -> fl_backsolve_lu lu n m skip B r i = fl_backsolve_lu lu n m' skip B' r i'.
Proof.
  intros K I I' H. unfold fl_backsolve_lu. destruct (forward_loop prec emax lu m B (n - 1)) as (_ & F). destruct (forward_loop prec emax lu m' B' (n - 1)) as (_ & F'). set (Y := fold_left _ (seq 1 (n - 1)) B) in *. set (Y' := fold_left _ (seq 1 (n - 1)) B') in *. clearbody Y Y'.
  assert (E : forall r, (r < n)%nat -> Y r i = Y' r i').
  { intros r. induction r as [r IH] using lt_wf_ind. intros R. rewrite F, F', H by lia. apply red_ext. intros c C. apply in_seq in C. apply IH; lia. }
  intros r R. destruct (le_lt_dec skip r) as [L|L]; [|rewrite !backward_same by lia; now apply E].
  remember (n - r)%nat as d eqn:D. revert r R L D. induction d as [d IH] using lt_wf_ind. intros r R L D. rewrite (backward_loop prec emax lu n m skip Y r i), (backward_loop prec emax lu n m' skip Y' r i') by lia. rewrite E by lia. f_equal. apply red_ext. intros c C. apply in_above in C. apply (IH (n - c)%nat); lia.
Qed.
End Solve.
