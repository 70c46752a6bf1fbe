From Coq Require Import Reals ZArith Lia Lra Bool List.
From Flocq Require Import Core BinarySingleNaN.
From Verif Require Import PermModel PermSpec PermProofs PermCycleProofs PermSignProofs.
From Verif Require Import FmaModel FmaSpec FmaProofs FquadModel FvecSpec FvecMore FcholModel FsolveModel FsolveSpec FsolveProofs FsolveMore FpluModel FpluSpec FpluMore FlsysModel FlsysSpec.
Open Scope R_scope.

Lemma total_plus n f g : total n (fun k => f k + g k) = total n f + total n g.
Proof. induction n as [|n IH]; cbn [total]; [ring|rewrite IH; ring]. Qed.
Lemma total_const_l n f c : total n (fun k => c * f k) = c * total n f.
Proof. induction n as [|n IH]; cbn [total]; [ring|rewrite IH; ring]. Qed.
Lemma total_exchange n m (f : nat -> nat -> R) : total n (fun k => total m (fun c => f k c)) = total m (fun c => total n (fun k => f k c)).
Proof. induction n as [|n IH]; cbn [total]; [symmetry; now apply total_zero|]. rewrite IH, <- total_plus. reflexivity. Qed.

Section Sys.
Variable prec emax : Z.
Context {Hp : Prec_gt_0 prec} {He : Prec_lt_emax prec emax}.
Notation float := (binary_float prec emax).
Notation matrix := (nat -> nat -> float).
Lemma lu_times_product n (lu : matrix) x r : lu_times n lu x r = total n (fun c => lu_product n lu r c * B2R (x c)).
Proof.
  unfold lu_times, lu_product. rewrite (total_ext n _ (fun k => total n (fun c => lower_part lu r k * upper_part lu k c * B2R (x c)))) by (intros k _; rewrite <- total_const_l; apply total_ext; intros; ring).
  rewrite total_exchange. apply total_ext. intros c _. now rewrite <- total_scale.
Qed.
Lemma answered (A : matrix) n m skip B : let d := fl_decomp_plu A n n in exists X,
  fl_linear_solve A n m skip B = Some (Nat.eqb (fl_degenerate d) 0, fl_lu d, X) /\
  (fl_degenerate d = 0%nat -> exists B1 : matrix, (forall r i, (r < n)%nat -> B1 r i = B (fl_reorder d r) i) /\ X = fl_backsolve_lu (fl_lu d) n m skip B1) /\
  (fl_degenerate d <> 0%nat -> X = B).
Proof.
  intros d. unfold fl_linear_solve. fold d. destruct (Nat.ltb_spec 0 (fl_degenerate d)) as [L|L].
  - exists B. destruct (Nat.eqb_spec (fl_degenerate d) 0); [lia|]. split; [reflexivity|]. split; [lia|reflexivity].
  - destruct (ordered prec emax A n n) as (k & S0 & _). fold d in S0. destruct (apply_ok n (fl_reorder d) B (by_swaps_perm _ _ _ S0)) as (p' & B1 & E & V & _). unfold destructive_apply_permutation. rewrite E. eexists. destruct (Nat.eqb_spec (fl_degenerate d) 0); [|lia]. split; [reflexivity|]. split; [|lia].
    intros _. exists B1. split; [|reflexivity]. intros r i R. now rewrite V.
Qed.
Lemma system_solved (A B lu X : matrix) n m i : (i < m)%nat -> fl_linear_solve A n m 0 B = Some (true, lu, X) ->
  (forall r c, (r < n)%nat -> (c < n)%nat -> is_finite (lu r c) = true) -> (forall r, (r < n)%nat -> is_finite (X r i) = true) ->
  exists p, is_perm n p /\ forall r, (r < n)%nat -> B2R (lu r r) <> 0 /\ Rabs (B2R (B (p r) i) - row_times n A (fun c => B2R (X c i)) (p r)) <= system_bound n lu (fun c => X c i) r.
Proof.
  intros I H FL FX. destruct (answered A n m 0 B) as (X' & E & E1 & _). rewrite E in H. injection H as D <- <-. apply Nat.eqb_eq in D. destruct (E1 D) as (B1 & V & ->). set (d := fl_decomp_plu A n n) in *.
  destruct (decomposed prec emax A n n (le_n n) FL) as (_ & (k & P & _) & Q & _). fold d in P, Q. exists (fl_reorder d). split; [exact (by_swaps_perm _ _ _ P)|]. intros r R.
  destruct (solved prec emax (fl_lu d) B1 n m i I ltac:(intros q Lq; now apply FL) FX r R) as (NZ & G). split; [exact NZ|]. rewrite V in G by exact R. rewrite lu_times_product in G. set (x := fun c => fl_backsolve_lu (fl_lu d) n m 0 B1 c i) in *. change (fun c => B2R (fl_backsolve_lu (fl_lu d) n m 0 B1 c i)) with (fun c => B2R (x c)). unfold system_bound, row_times.
  assert (T : Rabs (total n (fun c => lu_product n (fl_lu d) r c * B2R (x c)) - total n (fun c => B2R (A (fl_reorder d r) c) * B2R (x c))) <= total n (fun c => plu_bound n (fl_lu d) r c * Rabs (B2R (x c)))).
  { apply FvecAcc.total_near. intros c C. rewrite <- Rmult_minus_distr_r, Rabs_mult. apply Rmult_le_compat_r; [apply Rabs_pos|]. rewrite Rabs_minus_sym. now apply Q. }
  match goal with |- Rabs (?b - ?y) <= _ => replace (b - y) with ((b - total n (fun c => lu_product n (fl_lu d) r c * B2R (x c))) + (total n (fun c => lu_product n (fl_lu d) r c * B2R (x c)) - y)) by ring end.
  eapply Rle_trans; [apply Rabs_triang|]. apply Rplus_le_compat; assumption.
Qed.
Lemma system_flag (A : matrix) n m skip B : exists X, fl_linear_solve A n m skip B = Some (Nat.eqb (fl_degenerate (fl_decomp_plu A n n)) 0, fl_lu (fl_decomp_plu A n n), X).
Proof. destruct (answered A n m skip B) as (X & E & _). eauto. Qed.
Lemma system_left (A B lu X : matrix) n m skip f : fl_linear_solve A n m skip B = Some (f, lu, X) -> lu = fl_lu (fl_decomp_plu A n n).
Proof. intros H. destruct (answered A n m skip B) as (X' & E & _). rewrite E in H. congruence. Qed.
Lemma system_refused (A B lu X : matrix) n m skip : fl_linear_solve A n m skip B = Some (false, lu, X) -> X = B.
Proof. intros H. destruct (answered A n m skip B) as (X' & E & _ & E2). rewrite E in H. injection H as D _ <-. apply Nat.eqb_neq in D. now apply E2. Qed.
Lemma system_skip (A B lu X lu' X' : matrix) n m skip r i : (skip <= r < n)%nat -> (i < m)%nat -> fl_linear_solve A n m skip B = Some (true, lu, X) -> fl_linear_solve A n m 0 B = Some (true, lu', X') -> lu = lu' /\ X r i = X' r i.
Proof.
  intros R I H H'. destruct (answered A n m skip B) as (Y & E & E1 & _). destruct (answered A n m 0 B) as (Y' & E' & E1' & _). rewrite E in H. rewrite E' in H'. injection H as D <- <-. injection H' as _ <- <-. split; [reflexivity|]. apply Nat.eqb_eq in D. destruct (E1 D) as (B1 & V & ->). destruct (E1' D) as (B1' & V' & ->).
  rewrite (skipping prec emax) by exact R. apply (columns prec emax); [lia|exact I|exact I| |lia]. intros q L. now rewrite V, V'.
Qed.
Lemma system_columns (A B B' lu X lu' X' : matrix) n m m' skip i i' : (skip <= n)%nat -> (i < m)%nat -> (i' < m')%nat -> (forall r, (r < n)%nat -> B r i = B' r i') ->
  fl_linear_solve A n m skip B = Some (true, lu, X) -> fl_linear_solve A n m' skip B' = Some (true, lu', X') -> forall r, (r < n)%nat -> X r i = X' r i'.
Proof.
  intros K I I' HB H H' r R. destruct (answered A n m skip B) as (Y & E & E1 & _). destruct (answered A n m' skip B') as (Y' & E' & E1' & _). rewrite E in H. rewrite E' in H'. injection H as D <- <-. injection H' as _ <- <-. apply Nat.eqb_eq in D. destruct (E1 D) as (B1 & V & ->). destruct (E1' D) as (B1' & V' & ->).
  apply (columns prec emax); try assumption. intros q L. rewrite V, V' by exact L. apply HB. destruct (ordered prec emax A n n) as (k & P & _). now apply (by_swaps_perm _ _ _ P).
Qed.
End Sys.
