(** Inverses of matrices of any size. *)
From Coq Require Import Reals ZArith.
From Flocq Require Import Core BinarySingleNaN.
From Verif Require Import FvecSpec FlsysSpec.
Open Scope R_scope.
(** A X = I, where X has real elements. *)
Definition right_inverse {prec emax : Z} (n : nat) (A : nat -> nat -> binary_float prec emax) (X : nat -> nat -> R) : Prop :=
  forall r i, (r < n)%nat -> (i < n)%nat -> row_times n A (fun c => X c i) r = if Nat.eqb r i then 1 else 0.
