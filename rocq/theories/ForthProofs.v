From Coq Require Import Reals ZArith Lia Lra Bool List.
From Flocq Require Import Core BinarySingleNaN.
From Verif Require Import PermModel PermSpec PermProofs PermSignProofs.
From Verif Require Import FmaModel FmaSpec FmaProofs FquadModel FquadProofs FvecSpec FvecProofs FvecMore FvecAcc FsolveSpec FsolveProofs FsolveMore FpluModel FpluSpec FpluMore FlsysSpec FlsysProofs ForthModel ForthSpec.
Import ListNotations.
Open Scope R_scope.

Section Orth.
Variable prec emax : Z.
Context {Hp : Prec_gt_0 prec} {He : Prec_lt_emax prec emax}.
Notation float := (binary_float prec emax).
Notation matrix := (nat -> nat -> float).
Notation st := (step prec).
Notation h := (bpow radix2 (FmaSpec.emin prec emax - 1)).
Notation div := (fl_div prec emax).
Notation zero := (fl_lit prec emax 0 0). Notation one := (fl_lit prec emax 1 0).
Lemma upd_at {A} (f : nat -> A) i x : upd f i x i = x. Proof. unfold upd. now rewrite Nat.eqb_refl. Qed.
Lemma upd_off {A} (f : nat -> A) i x k : k <> i -> upd f i x k = f k. Proof. intros N. unfold upd. destruct (Nat.eqb_spec k i); [contradiction|reflexivity]. Qed.
Lemma sub_loop (m : matrix) r cs : ~ In r cs -> forall o : nat -> float,
  let o1 := fold_left (fun (o : nat -> float) c => upd o r (fl_sub prec emax (o r) (fl_mul prec emax (o c) (m r c)))) cs o in
  o1 r = red prec emax (m r) o cs (o r) /\ forall k, k <> r -> o1 k = o k.
Proof.
  induction cs as [|c cs IH]; intros N o; [split; reflexivity|]. cbn [fold_left]. set (o' := upd o r _). destruct (IH (fun H => N (or_intror H)) o') as (E1 & E2). split.
  - etransitivity; [exact E1|]. unfold red at 2. cbn [fold_left]. fold (red prec emax (m r) o cs (fl_sub prec emax (o r) (fl_mul prec emax (o c) (m r c)))). unfold o' at 2. rewrite upd_at. apply red_ext. intros k K. unfold o'. apply upd_off. intros ->. apply N. now right.
  - intros k K. etransitivity; [now apply E2|]. unfold o'. now apply upd_off.
Qed.
Lemma row_spec N (m : matrix) o r : fl_orthogonal_row N m o r r = div (red prec emax (m r) o (above r N) (o r)) (m r r) /\ forall k, k <> r -> fl_orthogonal_row N m o r k = o k.
Proof.
  unfold fl_orthogonal_row. fold (above r N). destruct (sub_loop m r (above r N) ltac:(rewrite in_above; lia) o) as (E1 & E2). cbv zeta in E1, E2. split; [rewrite upd_at; now rewrite E1|]. intros k K. rewrite upd_off by exact K. now apply E2.
Qed.
Lemma loop_spec N (m : matrix) : (0 < N)%nat -> let o := fl_orthogonal_loop N m in o (N - 1)%nat = one /\ forall r, (r < N - 1)%nat -> o r = div (red prec emax (m r) o (above r N) zero) (m r r).
Proof.
  intros P o. set (o0 := upd (fun _ => zero) (N - 1) one : nat -> float).
  assert (G : forall k, (k <= N - 1)%nat -> let f := fold_left (fl_orthogonal_row N m) (rev (seq (N - 1 - k) k)) o0 in
    (forall r, (r < N - 1 - k)%nat -> f r = zero) /\ f (N - 1)%nat = one /\ forall r, (N - 1 - k <= r < N - 1)%nat -> f r = div (red prec emax (m r) f (above r N) zero) (m r r)).
  { induction k as [|k IH]; intros K f.
    - unfold f. cbn [seq rev fold_left]. split; [intros r R; unfold o0; rewrite upd_off by lia; reflexivity|]. split; [apply upd_at|]. intros; lia.
    - unfold f. replace (seq (N - 1 - S k) (S k)) with ((N - 1 - S k)%nat :: seq (N - 1 - k) k) by (cbn [seq]; do 2 f_equal; lia). cbn [rev]. rewrite fold_left_app. cbn [fold_left].
      destruct (IH ltac:(lia)) as (I1 & I2 & I3). set (g := fold_left (fl_orthogonal_row N m) (rev (seq (N - 1 - k) k)) o0) in *. set (q := (N - 1 - S k)%nat). destruct (row_spec N m g q) as (R1 & R2). split; [|split].
      + intros r R. rewrite R2 by lia. apply I1. lia.
      + rewrite R2 by lia. exact I2.
      + intros r R. destruct (Nat.eq_dec r q) as [->|NE].
        * etransitivity; [exact R1|]. rewrite (I1 q) by lia. f_equal. apply red_ext. intros c C. apply in_above in C. symmetry. apply R2. lia.
        * etransitivity; [now apply R2|]. rewrite (I3 r) by lia. f_equal. apply red_ext. intros c C. apply in_above in C. symmetry. apply R2. lia. }
  destruct (G (N - 1)%nat (le_n _)) as (_ & G2 & G3). rewrite Nat.sub_diag in G2, G3. split; [exact G2|]. intros r R. apply G3. lia.
Qed.
Lemma orthogonal_small N (v : matrix) : (2 <= N)%nat -> let d := fl_decomp_plu v (N - 1) N in let o := fl_orthogonal N v in fl_degenerate d = 0%nat ->
  (forall r c, (r < N - 1)%nat -> (c < N)%nat -> is_finite (fl_lu d r c) = true) -> (forall c, (c < N)%nat -> is_finite (o c) = true) ->
  exists p, is_perm (N - 1) p /\ forall r, (r < N - 1)%nat -> B2R (fl_lu d r r) <> 0 /\ Rabs (row_times N v (fun c => B2R (o c)) (p r)) <= ortho_bound N (fl_lu d) o r.
Proof.
  intros HN d o D FL FO. assert (EO : o = fl_orthogonal_loop N (fl_lu d)) by (unfold o, fl_orthogonal; fold d; now rewrite D). clearbody o. subst o.
  destruct (decomposed prec emax v (N - 1) N ltac:(lia) FL) as (_ & (k & P & _) & Q & _). fold d in P, Q. exists (fl_reorder d). split; [exact (by_swaps_perm _ _ _ P)|]. destruct (loop_spec N (fl_lu d) ltac:(lia)) as (_ & E). cbv zeta in E. set (lu := fl_lu d) in *. set (o := fl_orthogonal_loop N lu) in *. clearbody o.
  assert (BE : forall r, (r < N - 1)%nat -> B2R (lu r r) <> 0 /\ Rabs (total N (fun c => upper_part lu r c * B2R (o c))) <= (st ^ N - 1) * total N (fun c => Rabs (upper_part lu r c * B2R (o c))) + st ^ N * h * (INR N + Rabs (B2R (lu r r)))).
  { intros r R. destruct (back_error prec emax lu N o zero r ltac:(lia) ltac:(apply FL; lia) ltac:(apply FO; lia) (E r R)) as (NZ & _ & B). split; [exact NZ|]. rewrite (proj2 (lit_zero prec emax)), Rminus_0_l, Rabs_Ropp in B. lra. }
  intros r R. split; [now apply BE|]. unfold ortho_bound, row_times.
  assert (LU : total N (fun c => lu_product (N - 1) lu r c * B2R (o c)) = total (N - 1) (fun q => lower_part lu r q * total N (fun c => upper_part lu q c * B2R (o c)))).
  { unfold lu_product. rewrite (total_ext N _ (fun c => total (N - 1) (fun q => lower_part lu r q * upper_part lu q c * B2R (o c)))) by (intros c _; now rewrite <- total_scale). rewrite total_exchange. apply total_ext. intros q _. rewrite <- total_const_l. apply total_ext. intros; ring. }
  assert (T : Rabs (total N (fun c => B2R (v (fl_reorder d r) c) * B2R (o c)) - total N (fun c => lu_product (N - 1) lu r c * B2R (o c))) <= total N (fun c => plu_bound (N - 1) lu r c * Rabs (B2R (o c)))).
  { apply total_near. intros c C. rewrite <- Rmult_minus_distr_r, Rabs_mult. apply Rmult_le_compat_r; [apply Rabs_pos|]. now apply Q. }
  assert (T2 : Rabs (total N (fun c => lu_product (N - 1) lu r c * B2R (o c))) <= total (N - 1) (fun k => Rabs (lower_part lu r k) * ((st ^ N - 1) * total N (fun c => Rabs (upper_part lu k c * B2R (o c))) + st ^ N * h * (INR N + Rabs (B2R (lu k k)))))).
  { rewrite LU. eapply Rle_trans; [apply total_abs|]. apply total_le. intros q Lq. rewrite Rabs_mult. apply Rmult_le_compat_l; [apply Rabs_pos|]. now apply BE. }
  match goal with |- Rabs ?y <= _ => replace y with (total N (fun c => lu_product (N - 1) lu r c * B2R (o c)) + (y - total N (fun c => lu_product (N - 1) lu r c * B2R (o c)))) by ring end.
  eapply Rle_trans; [apply Rabs_triang|]. apply Rplus_le_compat; assumption.
Qed.
Lemma orthogonal_last N (v : matrix) : (3 <= emax)%Z -> (2 <= N)%nat -> fl_degenerate (fl_decomp_plu v (N - 1) N) = 0%nat -> B2R (fl_orthogonal N v (N - 1)%nat) = 1.
Proof. intros HE HN D. unfold fl_orthogonal. rewrite D. cbn [Nat.ltb Nat.leb]. destruct (loop_spec N (fl_lu (fl_decomp_plu v (N - 1) N)) ltac:(lia)) as (E & _). cbv zeta in E. rewrite E. exact (proj2 (lit_unit prec emax 1 (or_introl eq_refl) HE)). Qed.
Lemma orthogonal_zero N (v : matrix) : fl_degenerate (fl_decomp_plu v (N - 1) N) <> 0%nat -> forall c, fl_orthogonal N v c = zero.
Proof. intros D c. unfold fl_orthogonal. destruct (Nat.ltb_spec 0 (fl_degenerate (fl_decomp_plu v (N - 1) N))); [reflexivity|lia]. Qed.
End Orth.
