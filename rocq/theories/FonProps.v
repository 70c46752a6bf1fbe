(** Orthonormal bases in floating point: the lengths, the two-dimensional overload, and how far from orthonormal the result may be. *)
From Coq Require Import Reals ZArith Lia Lra.
From Flocq Require Import Core BinarySingleNaN.
From Verif Require Import FmaModel FmaSpec FmaProofs FquadModel FvecModel FvecSpec FvecMore FgsModel FgsWit FonModel FonProofs.
Open Scope R_scope.

Section Props.
Variable prec emax : Z.
Context {Hp : Prec_gt_0 prec} {He : Prec_lt_emax prec emax}.
Notation float := (binary_float prec emax).
Notation vector := (nat -> float).

(** In two dimensions orthogonalize is exact: the first vector is kept, the second is orthogonal to it, has its length, and is to its left. *)
Theorem flon_plane (B : nat -> vector) : let Q := fl_orthogonalize_any 2 2 B in Q 0%nat = B 0%nat /\ exact_dot 2 (Q 1%nat) (Q 0%nat) = 0 /\ exact_dot 2 (Q 1%nat) (Q 1%nat) = exact_dot 2 (B 0%nat) (B 0%nat) /\
  B2R (Q 0%nat 0%nat) * B2R (Q 1%nat 1%nat) - B2R (Q 0%nat 1%nat) * B2R (Q 1%nat 0%nat) = exact_dot 2 (B 0%nat) (B 0%nat).
Proof. exact (plane prec emax B). Qed.
Print Assumptions flon_plane.

(** Any other number of vectors of two dimensions is left alone; in the other dimensions Gram-Schmidt (C108) is run. *)
Theorem flon_overloads (N n : nat) (B : nat -> vector) : (N <> 2%nat -> fl_orthogonalize_any N n B = fl_orthogonalize N n B) /\ (n <> 2%nat -> fl_orthogonalize_any 2 n B = B).
Proof. exact (conj (other prec emax N n B) (plane_one prec emax n B)). Qed.
Print Assumptions flon_overloads.

(** orthonormalize divides the first n vectors that orthogonalize leaves by their lengths. *)
Theorem flon_unit (N n : nat) (B : nat -> vector) : forall i, fl_orthonormalize N n B i = if Nat.ltb i n then fl_unit N (fl_orthogonalize_any N n B i) else fl_orthogonalize_any N n B i.
Proof. exact (scaled prec emax N n B). Qed.
Print Assumptions flon_unit.

(** So the squared lengths are 1 up to N + 4 roundings, unless squares underflow or overflow or nothing is left of a vector. *)
Theorem flon_length (N n : nat) (B : nat -> vector) (i : nat) : (4 <= prec)%Z -> (8 <= emax)%Z -> (Z.of_nat N <= 2 ^ (prec - 1))%Z -> (i < n)%nat ->
  safe_vector N (fl_orthogonalize_any N n B i) -> exact_dot N (fl_orthogonalize_any N n B i) (fl_orthogonalize_any N n B i) <> 0 ->
  within_factor prec (N + 4) (exact_dot N (fl_orthonormalize N n B i) (fl_orthonormalize N n B i)) 1.
Proof. exact (scaled_length prec emax N n B i). Qed.
Print Assumptions flon_length.
End Props.

(** In doubles, the orthonormal basis made of (1, 1, 1) and (1 + 2^-52, 1, 1) has (1, 0, 0) as its second vector; the dot product with the first is above 1/2. *)
Theorem flon_orthogonal_refuted : exists B : nat -> nat -> binary_float 53 1024, (B2R (B 0%nat 0%nat) <> B2R (B 1%nat 0%nat) /\ B2R (B 0%nat 1%nat) = B2R (B 1%nat 1%nat) /\ B2R (B 0%nat 1%nat) = 1) /\
  let R := fl_orthonormalize 3 2 B in / 2 < exact_dot 3 (R 1%nat) (R 0%nat).
Proof. exact (ex_intro _ _ close_on). Qed.
Print Assumptions flon_orthogonal_refuted.

(** Dependent vectors become NaNs. *)
Theorem flon_dependent_refuted : exists B : nat -> nat -> binary_float 53 1024, (forall k, (k < 3)%nat -> B2R (B 1%nat k) = 2 * B2R (B 0%nat k)) /\ forall k, (k < 3)%nat -> is_nan (fl_orthonormalize 3 2 B 1 k) = true.
Proof. exact (ex_intro _ _ parallel_on). Qed.
Print Assumptions flon_dependent_refuted.

(** The hypotheses of the lengths can be met: by (1, -2), and by what is left after it. *)
Example flon_applies : let v := vector2 (dbl 1 0) (dbl (-2) 0) in let Q := fl_orthogonalize_any 2 2 (fun _ => v) in
  safe_vector 2 (Q 0%nat) /\ exact_dot 2 (Q 0%nat) (Q 0%nat) <> 0 /\ exact_dot 2 (Q 1%nat) (Q 1%nat) <> 0.
Proof.
  intros v Q. destruct example_safe as (S1 & E). destruct (flon_plane 53 1024 (fun _ => v)) as (Q0 & _ & Q1 & _). fold Q in Q0, Q1. rewrite Q1, Q0. split; [exact S1|]. change (exact_dot 2 v v = 5) in E. rewrite E. lra.
Qed.
