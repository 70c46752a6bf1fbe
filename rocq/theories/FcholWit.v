From Coq Require Import Reals ZArith Lia Lra Bool List.
From Flocq Require Import Core BinarySingleNaN.
From Verif Require Import Fld FldLemmas RFld RLinSpec.
From Verif Require Import FmaModel FmaSpec FmaProofs FquadModel FquadSpec FquadProofs FquadMore FvecModel FvecSpec FvecProofs FvecMore FmtxSpec FinvSpec FcholModel FcholSpec FcholProofs.
Open Scope R_scope.
Notation pw := (bpow radix2).
Notation float := (binary_float 53 1024).
Lemma form2 (A : nat -> nat -> R) v : quadratic_form 2 A v = v 0%nat * A 0%nat 0%nat * v 0%nat + v 0%nat * A 0%nat 1%nat * v 1%nat + (v 1%nat * A 1%nat 0%nat * v 0%nat + v 1%nat * A 1%nat 1%nat * v 1%nat).
Proof. unfold quadratic_form. cbn [sum]. unR. ring. Qed.
Lemma definite2 (A : nat -> nat -> R) : A 0%nat 1%nat = A 1%nat 0%nat -> 0 < A 0%nat 0%nat -> 0 < A 0%nat 0%nat * A 1%nat 1%nat - A 0%nat 1%nat * A 0%nat 1%nat -> positive_definite 2 A.
Proof.
  intros S P D v (i & I & NZ). rewrite form2, <- S. set (a := A 0%nat 0%nat) in *. set (b := A 0%nat 1%nat) in *. set (c := A 1%nat 1%nat) in *. set (x := v 0%nat) in *. set (y := v 1%nat) in *.
  apply (Rmult_lt_reg_l a); [exact P|]. rewrite Rmult_0_r. replace (a * (x * a * x + x * b * y + (y * b * x + y * c * y))) with ((a * x + b * y) * (a * x + b * y) + (a * c - b * b) * (y * y)) by ring.
  pose proof (Rle_0_sqr (a * x + b * y)) as Q. unfold Rsqr in Q. destruct (Req_dec y 0) as [Y|Y].
  - assert (X : x <> 0) by (destruct i as [|[|i]]; [exact NZ|contradiction|lia]). rewrite Y. replace ((a * x + b * 0) * (a * x + b * 0) + (a * c - b * b) * (0 * 0)) with ((a * x) * (a * x)) by ring. assert (G : a * x <> 0) by (apply Rmult_integral_contrapositive_currified; [lra|exact X]). pose proof (Rsqr_pos_lt _ G) as G2. unfold Rsqr in G2. exact G2.
  - pose proof (Rsqr_pos_lt _ Y) as G2. unfold Rsqr in G2. pose proof (Rmult_lt_0_compat _ _ D G2). lra.
Qed.
(** ** A singular matrix that is decomposed *)
Definition flat : nat -> nat -> float := matrix2 (dbl 7 0) (dbl 77 0) (dbl 77 0) (dbl 847 0).
Lemma singular_accepted : (forall i j, is_finite (flat i j) = true) /\ symmetric 2 (real_matrix flat) /\ ~ positive_definite 2 (real_matrix flat) /\ snd (fl_cholesky flat 2) = true.
Proof.
  destruct (dbl_int 7 ltac:(lia)) as (F1 & V1). destruct (dbl_int 77 ltac:(lia)) as (F2 & V2). destruct (dbl_int 847 ltac:(lia)) as (F3 & V3).
  split; [intros [|i] [|j]; assumption|]. split; [intros [|[|i]] [|[|j]] I J; (reflexivity || lia)|]. split; [|vm_compute; reflexivity].
  intros PD. assert (Q : 0 < quadratic_form 2 (real_matrix flat) (fun i => match i with O => - 11 | _ => 1 end)) by (apply PD; exists 1%nat; split; [lia|lra]). rewrite form2 in Q. unfold real_matrix, flat, matrix2 in Q. rewrite V1, V2, V3 in Q. lra.
Qed.
(** ** A positive definite matrix that is refused *)
Definition steep : nat -> nat -> float := matrix2 (dbl 1 0) (dbl (2 ^ 52 + 2 ^ 26 - 1) 0) (dbl (2 ^ 52 + 2 ^ 26 - 1) 0) (dbl (2 ^ 52 + 2 ^ 27 - 1) 52).
Lemma steep_values : (forall i j, is_finite (steep i j) = true) /\ B2R (steep 0%nat 0%nat) = 1 /\ B2R (steep 0%nat 1%nat) = IZR (2 ^ 52 + 2 ^ 26 - 1) /\ B2R (steep 1%nat 0%nat) = IZR (2 ^ 52 + 2 ^ 26 - 1) /\ B2R (steep 1%nat 1%nat) = IZR ((2 ^ 52 + 2 ^ 27 - 1) * 2 ^ 52).
Proof.
  destruct (dbl_int 1 ltac:(lia)) as (F1 & V1). destruct (dbl_int (2 ^ 52 + 2 ^ 26 - 1) ltac:(lia)) as (F2 & V2). destruct (dbl_runs (2 ^ 52 + 2 ^ 27 - 1) 52 ltac:(lia) ltac:(lia)) as (F3 & V3).
  split; [intros [|i] [|j]; assumption|]. split; [exact V1|]. split; [exact V2|]. split; [exact V2|]. unfold steep, matrix2. rewrite V3, mult_IZR. reflexivity.
Qed.
Lemma definite_refused : (forall i j, is_finite (steep i j) = true) /\ symmetric 2 (real_matrix steep) /\ positive_definite 2 (real_matrix steep) /\ snd (fl_cholesky steep 2) = false.
Proof.
  destruct steep_values as (F & V0 & V1 & V2 & V3). split; [exact F|]. split; [intros [|[|i]] [|[|j]] I J; (reflexivity || lia)|]. split; [|vm_compute; reflexivity].
  apply definite2; unfold real_matrix; rewrite ?V0, ?V1, ?V2, ?V3; [reflexivity|lra|]. rewrite <- !mult_IZR, <- minus_IZR. apply (IZR_lt 0). lia.
Qed.
(** ** Satisfiable hypotheses *)
Lemma failure_example : (forall a b, (b <= a < 2)%nat -> is_finite (steep a b) = true) /\ snd (fl_cholesky steep 1) = true /\ snd (fl_cholesky steep 2) = false /\ (forall k, (k < 1)%nat -> is_finite (fst (fl_cholesky steep 2) 1%nat k) = true) /\
  Rabs (B2R (steep 1%nat 1%nat)) + sum_of_sizes 1 (fst (fl_cholesky steep 2) 1%nat) (fst (fl_cholesky steep 2) 1%nat) <= pw (1024 - 3).
Proof.
  destruct steep_values as (F & V0 & V1 & V2 & V3). split; [intros; apply F|]. split; [vm_compute; reflexivity|]. split; [vm_compute; reflexivity|]. split; [intros k K; replace k with 0%nat by lia; vm_compute; reflexivity|].
  unfold sum_of_sizes. cbn [total]. assert (E : fst (fl_cholesky steep 2) 1%nat 0%nat = dbl (2 ^ 52 + 2 ^ 26 - 1) 0) by (apply B2SF_inj; vm_compute; reflexivity). rewrite E. destruct (dbl_int (2 ^ 52 + 2 ^ 26 - 1) ltac:(lia)) as (_ & V). rewrite V, V3, <- mult_IZR, <- !abs_IZR, Rplus_0_l, <- plus_IZR.
  apply Rle_trans with (IZR (2 ^ 110)); [apply IZR_le; lia|]. change (IZR (2 ^ 110)) with (pw 110). apply bpow_le. lia.
Qed.
Definition plain : nat -> nat -> float := matrix2 (dbl 4 0) (dbl 2 0) (dbl 2 0) (dbl 10 0).
Lemma success_example : (forall i j, (j <= i < 2)%nat -> is_finite (plain i j) = true) /\ snd (fl_cholesky plain 2) = true.
Proof. split; [|vm_compute; reflexivity]. intros [|i] [|j] _; vm_compute; reflexivity. Qed.
