From Coq Require Import Reals ZArith Lia Lra Bool List.
From Flocq Require Import Core BinarySingleNaN.
From Verif Require Import PermModel PermSpec PermProofs PermSignProofs.
From Verif Require Import FmaModel FmaSpec FmaProofs FquadModel FquadProofs FvecSpec FvecProofs FvecMore FvecAcc FsolveSpec FsolveProofs FsolveMore FpluModel FpluSpec FpluMore FlsysSpec FlsysProofs ForthProofs FnullModel FnullSpec.
Import ListNotations.
Open Scope R_scope.
Lemma total_flat n m f : (n <= m)%nat -> (forall c, (n <= c < m)%nat -> f c = 0) -> total m f = total n f.
Proof. induction m as [|m IH]; intros L H; [now replace n with 0%nat by lia|]. destruct (Nat.eq_dec n (S m)) as [->|NE]; [reflexivity|]. cbn [total]. rewrite (H m) by lia. rewrite IH by (try (intros; apply H); lia). ring. Qed.
Lemma total_single n q N f : (n <= q < N)%nat -> (forall c, (n <= c < N)%nat -> c <> q -> f c = 0) -> total N f = total n f + f q.
Proof.
  intros L H. rewrite (total_split N q) by lia. rewrite (total_flat n q) by (try (intros; apply H); lia). rewrite (over_ext _ _ (fun _ => 0)) by (intros c C; apply in_above in C; apply H; lia).
  assert (Z : over (above q N) (fun _ => 0) = 0) by (induction (above q N) as [|a l IH]; [reflexivity|]; rewrite over_cons, IH; ring). rewrite Z. ring.
Qed.

Section Null.
Variable prec emax : Z.
Context {Hp : Prec_gt_0 prec} {He : Prec_lt_emax prec emax}.
Notation float := (binary_float prec emax).
Notation matrix := (nat -> nat -> float).
Notation u := (bpow radix2 (- prec)).
Notation st := (step prec).
Notation h := (bpow radix2 (FmaSpec.emin prec emax - 1)).
Notation div := (fl_div prec emax).
Notation neg := (fl_neg prec emax).
Notation zero := (fl_lit prec emax 0 0). Notation one := (fl_lit prec emax 1 0).
Notation red := (red prec emax).
Definition below (r n : nat) : list nat := seq (S r) (n - S r).
Lemma in_below r n c : In c (below r n) <-> (r < c < n)%nat. Proof. unfold below. rewrite in_seq. lia. Qed.
Lemma red_row (x x' row : nat -> float) cs : (forall c, In c cs -> x c = x' c) -> forall s, red x row cs s = red x' row cs s.
Proof. unfold FsolveProofs.red. induction cs as [|c cs IH]; intros H s; [reflexivity|]. cbn [fold_left]. rewrite (H c) by now left. apply IH. intros; apply H; now right. Qed.
Lemma up_loop (V : matrix) r cs : ~ In r cs -> forall x : nat -> float,
  let x1 := fold_left (fun (x : nat -> float) c => upd x r (fl_sub prec emax (x r) (fl_mul prec emax (V r c) (x c)))) cs x in
  x1 r = red x (V r) cs (x r) /\ forall k, k <> r -> x1 k = x k.
Proof.
  induction cs as [|c cs IH]; intros N x; [split; reflexivity|]. cbn [fold_left]. set (x' := upd x r _). destruct (IH (fun H => N (or_intror H)) x') as (E1 & E2). split.
  - etransitivity; [exact E1|]. unfold FsolveProofs.red at 2. cbn [fold_left]. fold (red x (V r) cs (fl_sub prec emax (x r) (fl_mul prec emax (V r c) (x c)))). unfold x' at 2. rewrite upd_at. apply red_row. intros k K. unfold x'. apply upd_off. intros ->. apply N. now right.
  - intros k K. etransitivity; [now apply E2|]. unfold x'. now apply upd_off.
Qed.
Lemma null_row_spec n b (V : matrix) x r : fl_null_row n b V x r r = div (red x (V r) (below r n) (neg (V r (n + b)%nat))) (V r r) /\ forall k, k <> r -> fl_null_row n b V x r k = x k.
Proof.
  unfold fl_null_row. fold (below r n). destruct (up_loop V r (below r n) ltac:(rewrite in_below; lia) (upd x r (neg (V r (n + b)%nat)))) as (E1 & E2). cbv zeta in E1, E2. split.
  - rewrite upd_at, E1, upd_at. f_equal. apply red_row. intros c C. apply in_below in C. apply upd_off. lia.
  - intros k K. rewrite upd_off by exact K. rewrite E2 by exact K. now apply upd_off.
Qed.
Lemma null_vector_spec n (V : matrix) b : let x := fl_null_vector n V b in x (n + b)%nat = one /\ (forall c, (n <= c)%nat -> c <> (n + b)%nat -> x c = zero) /\
  forall r, (r < n)%nat -> x r = div (red x (V r) (below r n) (neg (V r (n + b)%nat))) (V r r).
Proof.
  intros x. set (x0 := upd (fun _ => zero) (b + n) one : nat -> float).
  assert (G : forall k, (k <= n)%nat -> let f := fold_left (fl_null_row n b V) (rev (seq (n - k) k)) x0 in
    (forall c, (n <= c)%nat -> f c = x0 c) /\ forall r, (n - k <= r < n)%nat -> f r = div (red f (V r) (below r n) (neg (V r (n + b)%nat))) (V r r)).
  { induction k as [|k IH]; intros K f.
    - unfold f. cbn [seq rev fold_left]. split; [reflexivity|]. intros; lia.
    - unfold f. replace (seq (n - S k) (S k)) with ((n - S k)%nat :: seq (n - k) k) by (cbn [seq]; do 2 f_equal; lia). cbn [rev]. rewrite fold_left_app. cbn [fold_left].
      destruct (IH ltac:(lia)) as (I1 & I2). set (g := fold_left (fl_null_row n b V) (rev (seq (n - k) k)) x0) in *. set (q := (n - S k)%nat). destruct (null_row_spec n b V g q) as (R1 & R2). split.
      + intros c C. rewrite R2 by lia. now apply I1.
      + intros r R. destruct (Nat.eq_dec r q) as [->|NE].
        * etransitivity; [exact R1|]. f_equal. apply red_row. intros c C. apply in_below in C. symmetry. apply R2. lia.
        * etransitivity; [now apply R2|]. rewrite (I2 r) by lia. f_equal. apply red_row. intros c C. apply in_below in C. symmetry. apply R2. lia. }
  destruct (G n (le_n _)) as (G1 & G2). rewrite Nat.sub_diag in G1, G2. fold x0 in x. change (fold_left (fl_null_row n b V) (rev (seq 0 n)) x0) with x in *. split; [|split].
  - rewrite G1 by lia. unfold x0. replace (n + b)%nat with (b + n)%nat by lia. apply upd_at.
  - intros c C D. rewrite G1 by lia. unfold x0. rewrite upd_off by lia. reflexivity.
  - intros r R. apply G2. lia.
Qed.
Lemma up_error (lu : matrix) n (x : nat -> float) (y : float) r : (r < n)%nat -> is_finite (lu r r) = true -> is_finite (x r) = true -> x r = div (red x (lu r) (below r n) y) (lu r r) ->
  B2R (lu r r) <> 0 /\ Rabs (B2R y - total n (fun c => upper_part lu r c * B2R (x c))) <= (st ^ n - 1) * total n (fun c => Rabs (upper_part lu r c * B2R (x c))) + (INR n + Rabs (B2R (lu r r))) * st ^ n * h.
Proof.
  intros R Fd Fx E. rewrite E in Fx. destruct (div_accurate prec emax _ _ Fd Fx) as (NZ & Ft & D). destruct (red_accurate prec emax x (lu r) (below r n) y Ft) as (Fy & _ & A). rewrite <- E in D. split; [exact NZ|].
  rewrite (over_ext _ (fun c => B2R (lu r c) * B2R (x c)) (fun c => B2R (x c) * B2R (lu r c))), (over_ext _ (fun c => Rabs (B2R (lu r c) * B2R (x c))) (fun c => Rabs (B2R (x c) * B2R (lu r c)))), <- !(over_rev (below r n)) in A by (intros; rewrite Rmult_comm; reflexivity). change (rev (below r n)) with (above r n) in A.
  rewrite upper_row, upper_row_size by exact R. set (t := B2R (red x (lu r) (below r n) y)) in *. set (z := B2R (x r) * B2R (lu r r)) in *. set (k := B2R (lu r r)) in *. set (T := over (above r n) (fun c => B2R (x c) * B2R (lu r c))) in *. set (Z := over (above r n) (fun c => Rabs (B2R (x c) * B2R (lu r c)))) in *.
  assert (Z0 : 0 <= Z) by (apply over_nonneg; intros; apply Rabs_pos). assert (L : length (below r n) = (n - S r)%nat) by (unfold below; now rewrite seq_length). rewrite L in A.
  pose proof (step_ge prec) as S1. assert (P1 : st ^ S (n - S r) <= st ^ n) by (apply Rle_pow; [exact S1|lia]). assert (P0 : 1 <= st ^ (n - S r)) by (apply pow_R1_Rle; exact S1). cbn [pow] in P1.
  assert (NI : INR (n - S r) <= INR n) by (apply le_INR; lia). pose proof (pos_INR (n - S r)) as N0. set (N := INR n) in *. set (M := INR (n - S r)) in *. set (p := st ^ (n - S r)) in *. set (G := st ^ n) in *. assert (H0 : 0 < h) by apply bpow_gt_0. pose proof (bpow_gt_0 radix2 (- prec)) as U.
  assert (PG : p <= G). { assert (1 * p <= st * p) by (apply Rmult_le_compat_r; lra). lra. }
  assert (At : Rabs t <= st * Rabs z + Rabs k * h). { replace t with ((t - z) + z) by ring. eapply Rle_trans; [apply Rabs_triang|]. unfold step. lra. }
  replace (B2R y - (z + T)) with ((B2R y - (t + T)) + (t - z)) by ring. eapply Rle_trans; [apply Rabs_triang|].
  assert (B1 : (p - 1) * (Rabs t + Z) <= (p - 1) * (st * Rabs z + Rabs k * h + Z)) by (apply Rmult_le_compat_l; lra).
  assert (B2 : (st * p - 1) * Rabs z <= (G - 1) * Rabs z) by (apply Rmult_le_compat_r; [apply Rabs_pos|lra]).
  assert (B3 : (p - 1) * Z <= (G - 1) * Z) by (apply Rmult_le_compat_r; lra).
  assert (KH : 0 <= Rabs k * h) by (apply Rmult_le_pos; [apply Rabs_pos|lra]). assert (B4 : p * (Rabs k * h) <= G * (Rabs k * h)) by (apply Rmult_le_compat_r; lra).
  assert (B5 : M * p * h <= N * G * h) by (apply Rmult_le_compat_r; [lra|]; apply Rmult_le_compat; lra).
  replace ((G - 1) * (Rabs z + Z) + (N + Rabs k) * G * h) with ((G - 1) * Rabs z + (G - 1) * Z + G * (Rabs k * h) + N * G * h) by ring.
  replace ((p - 1) * (st * Rabs z + Rabs k * h + Z)) with ((st * p - 1) * Rabs z - u * Rabs z + (p * (Rabs k * h) - Rabs k * h) + (p - 1) * Z) in B1 by (unfold step; ring). lra.
Qed.
Lemma nullspace_small N n (v : matrix) : (3 <= emax)%Z -> (n + 2 <= N)%nat -> let d := fl_decomp_plu v n N in let X := snd (fl_nullspace N n v) in fst (fl_nullspace N n v) = true ->
  (forall r c, (r < n)%nat -> (c < N)%nat -> is_finite (fl_lu d r c) = true) ->
  exists p, is_perm n p /\ forall b, (b < N - n)%nat -> (forall c, (c < N)%nat -> is_finite (X b c) = true) ->
    forall r, (r < n)%nat -> B2R (fl_lu d r r) <> 0 /\ Rabs (row_times N v (fun c => B2R (X b c)) (p r)) <= null_bound N n (fl_lu d) (X b) r.
Proof.
  intros HE HN d X FG FL. assert (EX : X = fl_null_vector n (fl_lu d)). { unfold X. revert FG. unfold fl_nullspace. fold d. destruct (Nat.ltb 0 (fl_degenerate d)); cbn [fst snd]; [discriminate|reflexivity]. } clearbody X. subst X. clear FG.
  destruct (decomposed prec emax v n N ltac:(lia) FL) as (_ & (k & P & _) & Q & _). fold d in P, Q. exists (fl_reorder d). split; [exact (by_swaps_perm _ _ _ P)|]. intros b Hb FO.
  destruct (null_vector_spec n (fl_lu d) b) as (E1 & E0 & E). cbv zeta in E1, E0, E. set (lu := fl_lu d) in *. set (o := fl_null_vector n lu b) in *. clearbody o.
  assert (BE : forall r, (r < n)%nat -> B2R (lu r r) <> 0 /\ Rabs (total N (fun c => upper_part lu r c * B2R (o c))) <= (st ^ n - 1) * total n (fun c => Rabs (upper_part lu r c * B2R (o c))) + st ^ n * h * (INR n + Rabs (B2R (lu r r)))).
  { intros r R. destruct (up_error lu n o _ r R ltac:(apply FL; lia) ltac:(apply FO; lia) (E r R)) as (NZ & B). split; [exact NZ|].
    rewrite (total_single n (n + b) N) by (first [lia|intros c C D; rewrite E0 by lia; rewrite (proj2 (lit_zero prec emax)); ring]).
    rewrite E1, (proj2 (lit_unit prec emax 1 (or_introl eq_refl) HE)), Rmult_1_r. unfold fl_neg in B. rewrite B2R_Bopp in B. unfold upper_part at 2. destruct (Nat.ltb_spec (n + b) r); [lia|].
    match type of B with Rabs (- ?a - ?t) <= _ => replace (- a - t) with (- (t + a)) in B by ring end. rewrite Rabs_Ropp in B. lra. }
  intros r R. split; [now apply BE|]. unfold null_bound, row_times.
  assert (LU : total N (fun c => lu_product n lu r c * B2R (o c)) = total n (fun q => lower_part lu r q * total N (fun c => upper_part lu q c * B2R (o c)))).
  { unfold lu_product. rewrite (total_ext N _ (fun c => total n (fun q => lower_part lu r q * upper_part lu q c * B2R (o c)))) by (intros c _; now rewrite <- total_scale). rewrite total_exchange. apply total_ext. intros q _. rewrite <- total_const_l. apply total_ext. intros; ring. }
  assert (T : Rabs (total N (fun c => B2R (v (fl_reorder d r) c) * B2R (o c)) - total N (fun c => lu_product n lu r c * B2R (o c))) <= total N (fun c => plu_bound n lu r c * Rabs (B2R (o c)))).
  { apply total_near. intros c C. rewrite <- Rmult_minus_distr_r, Rabs_mult. apply Rmult_le_compat_r; [apply Rabs_pos|]. now apply Q. }
  assert (T2 : Rabs (total N (fun c => lu_product n lu r c * B2R (o c))) <= total n (fun k => Rabs (lower_part lu r k) * ((st ^ n - 1) * total n (fun c => Rabs (upper_part lu k c * B2R (o c))) + st ^ n * h * (INR n + Rabs (B2R (lu k k)))))).
  { rewrite LU. eapply Rle_trans; [apply total_abs|]. apply total_le. intros q Lq. rewrite Rabs_mult. apply Rmult_le_compat_l; [apply Rabs_pos|]. now apply BE. }
  match goal with |- Rabs ?y <= _ => replace y with (total N (fun c => lu_product n lu r c * B2R (o c)) + (y - total N (fun c => lu_product n lu r c * B2R (o c)))) by ring end.
  eapply Rle_trans; [apply Rabs_triang|]. apply Rplus_le_compat; assumption.
Qed.
Lemma nullspace_unit N n (v : matrix) : (3 <= emax)%Z -> (n + 2 <= N)%nat -> fst (fl_nullspace N n v) = true ->
  forall b c, (n <= c < N)%nat -> (b < N - n)%nat -> B2R (snd (fl_nullspace N n v) b c) = if Nat.eqb c (n + b) then 1 else 0.
Proof.
  intros HE HN. unfold fl_nullspace. destruct (Nat.ltb 0 (fl_degenerate (fl_decomp_plu v n N))); cbn [fst snd]; [discriminate|]. intros _ b c C B. destruct (null_vector_spec n (fl_lu (fl_decomp_plu v n N)) b) as (E1 & E0 & _). cbv zeta in E1, E0. destruct (Nat.eqb_spec c (n + b)) as [->|D].
  - rewrite E1. exact (proj2 (lit_unit prec emax 1 (or_introl eq_refl) HE)).
  - rewrite E0 by lia. exact (proj2 (lit_zero prec emax)).
Qed.
Lemma nullspace_false N n (v : matrix) : fst (fl_nullspace N n v) = false -> forall b c, B2R (snd (fl_nullspace N n v) b c) = 0.
Proof. unfold fl_nullspace. destruct (Nat.ltb 0 (fl_degenerate (fl_decomp_plu v n N))); cbn [fst snd]; [|discriminate]. intros _ b c. exact (proj2 (lit_zero prec emax)). Qed.
End Null.
