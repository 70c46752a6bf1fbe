From Coq Require Import Reals ZArith Lia Lra Bool List.
From Flocq Require Import Core BinarySingleNaN.
From Verif Require Import PermModel PermSpec PermProofs PermCycleProofs PermSignProofs.
From Verif Require Import FmaModel FmaSpec FmaProofs FquadModel FquadProofs FvecSpec FvecProofs FvecMore FcholModel FcholProofs FsolveModel FsolveSpec FsolveProofs FsolveMore FpluModel FpluSpec FpluMore FlsysModel FlsysSpec FlsysProofs FinvnModel.
Open Scope R_scope.

Section Inv.
Variable prec emax : Z.
Context {Hp : Prec_gt_0 prec} {He : Prec_lt_emax prec emax}.
Notation float := (binary_float prec emax).
Notation matrix := (nat -> nat -> float).
Lemma write_perm_spec n p r c : (r < n)%nat -> fl_write_perm n p r c = if Nat.eqb c (p r) then fl_lit prec emax 1 0 else fl_lit prec emax 0 0.
Proof.
  unfold fl_write_perm. assert (G : forall k, fold_left (fun (o : matrix) i => fl_set o i (p i) (fl_lit prec emax 1 0)) (seq 0 k) (fun _ _ => fl_lit prec emax 0 0) r c = if (Nat.ltb r k && Nat.eqb c (p r))%bool then fl_lit prec emax 1 0 else fl_lit prec emax 0 0).
  { induction k as [|k IH]; [reflexivity|]. rewrite seq_S, fold_left_app. cbn [fold_left Nat.add]. destruct (Nat.eq_dec r k) as [->|N].
    - replace (Nat.ltb k (S k)) with true by (symmetry; apply Nat.ltb_lt; lia). cbn [andb]. destruct (Nat.eqb_spec c (p k)) as [->|M]; [apply set_same|]. rewrite set_col by auto. rewrite IH, Nat.ltb_irrefl. reflexivity.
    - rewrite set_row by auto. rewrite IH. destruct (Nat.ltb_spec r k), (Nat.ltb_spec r (S k)); try lia; reflexivity. }
  intros R. rewrite G. destruct (Nat.ltb_spec r n); [reflexivity|lia].
Qed.
Lemma inverted (out A X : matrix) n : (3 <= emax)%Z -> fl_invNxN out A n = (true, X) -> let lu := fl_lu (fl_decomp_plu A n n) in
  (forall r c, (r < n)%nat -> (c < n)%nat -> is_finite (lu r c) = true) -> (forall r c, (r < n)%nat -> (c < n)%nat -> is_finite (X r c) = true) ->
  exists p, is_perm n p /\ forall r i, (r < n)%nat -> (i < n)%nat ->
    Rabs ((if Nat.eqb (p r) i then 1 else 0) - row_times n A (fun c => B2R (X c i)) (p r)) <= system_bound n lu (fun c => X c i) r.
Proof.
  intros HE H lu FL FX. unfold fl_invNxN in H. set (d := fl_decomp_plu A n n) in *. destruct (Nat.ltb 0 (fl_degenerate d)); [discriminate|]. injection H as <-. set (B1 := fl_write_perm n (fl_reorder d)) in *.
  destruct (decomposed prec emax A n n (le_n n) FL) as (_ & (k & P & _) & Q & _). fold d in P, Q. exists (fl_reorder d). split; [exact (by_swaps_perm _ _ _ P)|]. intros r i R I.
  destruct (solved prec emax (fl_lu d) B1 n n i I ltac:(intros q Lq; now apply FL) ltac:(intros q Lq; now apply FX) r R) as (_ & G).
  assert (V : B2R (B1 r i) = if Nat.eqb (fl_reorder d r) i then 1 else 0). { unfold B1. rewrite write_perm_spec by exact R. rewrite Nat.eqb_sym. destruct (Nat.eqb _ _); [exact (proj2 (lit_unit prec emax 1 (or_introl eq_refl) HE))|exact (proj2 (lit_zero prec emax))]. }
  rewrite V in G. rewrite (lu_times_product prec emax) in G. set (x := fun c => fl_backsolve_lu (fl_lu d) n n 0 B1 c i) in *. change (fun c => B2R (fl_backsolve_lu (fl_lu d) n n 0 B1 c i)) with (fun c => B2R (x c)). unfold system_bound, row_times, lu.
  assert (T : Rabs (total n (fun c => lu_product n (fl_lu d) r c * B2R (x c)) - total n (fun c => B2R (A (fl_reorder d r) c) * B2R (x c))) <= total n (fun c => plu_bound n (fl_lu d) r c * Rabs (B2R (x c)))).
  { apply FvecAcc.total_near. intros c C. rewrite <- Rmult_minus_distr_r, Rabs_mult. apply Rmult_le_compat_r; [apply Rabs_pos|]. rewrite Rabs_minus_sym. now apply Q. }
  match goal with |- Rabs (?b - ?y) <= _ => replace (b - y) with ((b - total n (fun c => lu_product n (fl_lu d) r c * B2R (x c))) + (total n (fun c => lu_product n (fl_lu d) r c * B2R (x c)) - y)) by ring end.
  eapply Rle_trans; [apply Rabs_triang|]. apply Rplus_le_compat; assumption.
Qed.
Lemma inverted_pivots (out A X : matrix) n : fl_invNxN out A n = (true, X) -> let lu := fl_lu (fl_decomp_plu A n n) in
  (forall r, (r < n)%nat -> is_finite (lu r r) = true) -> forall i, (i < n)%nat -> (forall r, (r < n)%nat -> is_finite (X r i) = true) -> forall r, (r < n)%nat -> B2R (lu r r) <> 0.
Proof.
  intros H lu FL i I FX r R. unfold fl_invNxN in H. set (d := fl_decomp_plu A n n) in *. destruct (Nat.ltb 0 (fl_degenerate d)); [discriminate|]. injection H as <-.
  exact (proj1 (solved prec emax (fl_lu d) _ n n i I FL FX r R)).
Qed.
Lemma inv_flag (out A : matrix) n : fst (fl_invNxN out A n) = Nat.eqb (fl_degenerate (fl_decomp_plu A n n)) 0.
Proof. unfold fl_invNxN. destruct (fl_degenerate (fl_decomp_plu A n n)); reflexivity. Qed.
Lemma inv_refused (out A X : matrix) n : fl_invNxN out A n = (false, X) -> X = out.
Proof. unfold fl_invNxN. destruct (Nat.ltb _ _); [congruence|discriminate]. Qed.
Lemma inv_output (out out' A : matrix) n X : fl_invNxN out A n = (true, X) -> fl_invNxN out' A n = (true, X).
Proof. unfold fl_invNxN. destruct (Nat.ltb _ _); [discriminate|auto]. Qed.
End Inv.
