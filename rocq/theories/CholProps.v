(** Property C32: Cholesky decomposition. *)
From Coq Require Import Reals Lra Lia Arith List Bool.
From Verif Require Import Fld RFld LinSpec RLinSpec CholModel CholProofs.
Import ListNotations.
Open Scope R_scope.

(** On a symmetric matrix the decomposition succeeds exactly when the matrix is positive definite. *)
Theorem cholesky_decides (A : mtx R_field) n : symmetric n A -> (snd (cholesky A n) = true <-> positive_definite n A).
Proof.
  intros S. split; [|exact (complete A n S)]. intros H. destruct (cholesky A n) as [m ok] eqn:E. exact (proj2 (proj2 (proj2 (success A n m ok E S H)))).
Qed.
Print Assumptions cholesky_decides.
(** The result is lower triangular with positive diagonal and M M^T = A. *)
Theorem cholesky_factors (A : mtx R_field) n : symmetric n A -> snd (cholesky A n) = true ->
  let m := fst (cholesky A n) in
  (forall i, (i < n)%nat -> 0 < m i i) /\ (forall i j, (i < j < n)%nat -> m i j = 0) /\
  (forall i j, (i < n)%nat -> (j < n)%nat -> mmul n m (fun r c => m c r) i j = A i j).
Proof.
  intros S H. destruct (cholesky A n) as [m ok] eqn:E. destruct (success A n m ok E S H) as (H1 & H2 & H3 & _). exact (conj H1 (conj H2 H3)).
Qed.
Print Assumptions cholesky_factors.
(** A non-square matrix is refused. *)
Theorem cholesky_square (A : mtx R_field) rows cols : rows <> cols -> cholesky_matrix A rows cols = (A, false).
Proof. intros N. unfold cholesky_matrix. destruct (Nat.eqb_spec rows cols); [contradiction|reflexivity]. Qed.
Print Assumptions cholesky_square.
(** Only the lower triangle is read, so a matrix that is not positive definite can be accepted when it is not symmetric. *)
Theorem cholesky_asymmetric_refuted n : (2 <= n)%nat -> exists A : mtx R_field, ~ positive_definite n A /\ snd (cholesky A n) = true.
Proof. intros H. exists (skewed 4). exact (conj (skewed_not_pd n H) (skewed_accepted n 4)). Qed.
Print Assumptions cholesky_asymmetric_refuted.
(** The hypotheses are met by a non-trivial matrix. *)
Example cholesky_example : let A := (fun r c => if (r =? c)%nat then 2 else 1) : mtx R_field in symmetric 2 A /\ positive_definite 2 A.
Proof.
  split; [intros r c _ _; now rewrite Nat.eqb_sym|]. intros v (i & Hi & Vi). unfold quadratic_form. cbn. unR.
  assert (v 0%nat <> 0 \/ v 1%nat <> 0) as H by (destruct i as [|[|]]; [auto|auto|lia]).
  replace (0 + (0 + v 0%nat * 2 * v 0%nat + v 0%nat * 1 * v 1%nat) + (0 + v 1%nat * 1 * v 0%nat + v 1%nat * 2 * v 1%nat))
    with (v 0%nat * v 0%nat + v 1%nat * v 1%nat + (v 0%nat + v 1%nat) * (v 0%nat + v 1%nat)) by ring.
  pose proof (Rle_0_sqr (v 0%nat + v 1%nat)). pose proof (Rle_0_sqr (v 0%nat)). pose proof (Rle_0_sqr (v 1%nat)). unfold Rsqr in *.
  destruct H as [H|H]; apply Rsqr_pos_lt in H; unfold Rsqr in H; lra.
Qed.
