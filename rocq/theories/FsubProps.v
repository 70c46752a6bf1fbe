(** Projections to subspaces in floating point: the error of the sum of projections, and a vector of the subspace that is not kept. *)
From Coq Require Import Reals ZArith Lia Lra.
From Flocq Require Import Core BinarySingleNaN.
From Verif Require Import FmaModel FmaSpec FmaProofs FquadModel FvecModel FvecSpec FprojModel FgsWit FonModel FsubModel FsubProofs.
Open Scope R_scope.

Section Props.
Variable prec emax : Z.
Context {Hp : Prec_gt_0 prec} {He : Prec_lt_emax prec emax}.
Notation float := (binary_float prec emax).
Notation vector := (nat -> float).

(** If an element of the result is a number, so are those of the projections on all basis vectors (C107), and it is their sum up to n roundings. *)
Theorem flsub_sum (N n : nat) (B : nat -> vector) (x : vector) (k : nat) : let o := fl_project_to_orthogonal_subspace N n B x k in is_finite o = true ->
  (forall i, (i < n)%nat -> is_finite (fl_project_on N x (B i) k) = true) /\
  Rabs (B2R o - total n (fun i => B2R (fl_project_on N x (B i) k))) <= (step prec ^ n - 1) * total n (fun i => Rabs (B2R (fl_project_on N x (B i) k))).
Proof. exact (subspace_sum prec emax N n B x k). Qed.
Print Assumptions flsub_sum.

(** project_to_subspace leaves the orthonormal basis of C109 in the array, and its result is the sum of the projections on that up to n roundings. *)
Theorem flsub_basis (N n : nat) (B : nat -> vector) (x : vector) (k : nat) : let r := fl_project_to_subspace N n B x in is_finite (fst r k) = true ->
  snd r = fl_orthonormalize N n B /\
  Rabs (B2R (fst r k) - total n (fun i => B2R (fl_project_on N x (snd r i) k))) <= (step prec ^ n - 1) * total n (fun i => Rabs (B2R (fl_project_on N x (snd r i) k))).
Proof. exact (subspace_spec prec emax N n B x k). Qed.
Print Assumptions flsub_basis.
End Props.

(** In doubles, a vector of the subspace is not its own projection: in the plane of (1, 1, 1) and (1 + 2^-52, 1, 1), the first element of (0, 1, 1) becomes greater than 1/2. *)
Theorem flsub_inside_refuted : exists (B : nat -> nat -> binary_float 53 1024) x, (exists a b, forall k, (k < 3)%nat -> B2R (x k) = a * B2R (B 0%nat k) + b * B2R (B 1%nat k)) /\
  B2R (x 0%nat) = 0 /\ / 2 < B2R (fst (fl_project_to_subspace 3 2 B x) 0%nat).
Proof. exact (ex_intro _ _ (ex_intro _ _ plane_lost)). Qed.
Print Assumptions flsub_inside_refuted.

(** The hypothesis can be met. *)
Example flsub_applies : forall k, (k < 3)%nat -> is_finite (fl_project_to_orthogonal_subspace 3 2 close in_plane k) = true.
Proof. exact plain_subspace. Qed.
