(** Exact vector operations, and the sizes of errors. *)
From Coq Require Import Reals ZArith.
From Flocq Require Import Core BinarySingleNaN.
From Verif Require Import FmaSpec.
Open Scope R_scope.

(** The sum of f 0, ..., f (N - 1). *)
Fixpoint total (N : nat) (f : nat -> R) : R := match N with O => 0 | S i => total i f + f i end.

Section Spec.
Context {prec emax : Z}.
Notation float := (binary_float prec emax).
(** The exact dot product, and the sum of the absolute values of its terms. *)
Definition exact_dot (N : nat) (v w : nat -> float) : R := total N (fun i => B2R (v i) * B2R (w i)).
Definition sum_of_sizes (N : nat) (v w : nat -> float) : R := total N (fun i => Rabs (B2R (v i) * B2R (w i))).
(** The greatest factor a single rounding may introduce, and its powers. *)
Definition step : R := 1 + bpow radix2 (- prec).
(** x and y agree up to k roundings: each is at most the other times step^k. *)
Definition within_factor (k : nat) (x y : R) : Prop := x <= y * step ^ k /\ y <= x * step ^ k.
(** All elements are numbers; the squares of the non-zero ones do not underflow, and the sum of the squares is far from overflow. *)
Definition safe_vector (N : nat) (v : nat -> float) : Prop :=
  (forall i, (i < N)%nat -> is_finite (v i) = true /\ (B2R (v i) = 0 \/ bpow radix2 (emin prec emax + prec - 1) <= B2R (v i) * B2R (v i))) /\
  exact_dot N v v <= bpow radix2 (emax - 4).
(** The exact squared distance. *)
Definition exact_dist2 (N : nat) (v w : nat -> float) : R := total N (fun i => (B2R (v i) - B2R (w i)) * (B2R (v i) - B2R (w i))).
(** The elements multiplied by m, and those of the result m v / |v| (here squared), neither underflow nor overflow. *)
Definition safe_scaling (N : nat) (v : nat -> float) (m : float) : Prop := forall i, (i < N)%nat ->
  let p := B2R m * B2R (v i) in let q := p * p / exact_dot N v v in
  (p = 0 \/ bpow radix2 (emin prec emax + prec - 1) <= Rabs p <= bpow radix2 (emax - 1)) /\
  (q = 0 \/ bpow radix2 (emin prec emax + prec + 1) * bpow radix2 (emin prec emax + prec + 1) <= q <= bpow radix2 (emax - 3) * bpow radix2 (emax - 3)).
End Spec.
Arguments exact_dist2 {prec emax}. Arguments safe_scaling {prec emax}.
Arguments step prec : clear implicits. Arguments within_factor prec k x y : clear implicits.
(** The exact cross product. *)
Definition exact_cross {prec emax : Z} (a b : nat -> binary_float prec emax) (i : nat) : R := match i with
  | 0%nat => B2R (a 1%nat) * B2R (b 2%nat) - B2R (a 2%nat) * B2R (b 1%nat)
  | 1%nat => B2R (a 2%nat) * B2R (b 0%nat) - B2R (a 0%nat) * B2R (b 2%nat)
  | _ => B2R (a 0%nat) * B2R (b 1%nat) - B2R (a 1%nat) * B2R (b 0%nat)
  end.
(** The elements of both vectors are numbers, and no product of an element of one and an element of the other overflows or loses bits
    to underflow. *)
Definition safe_products {prec emax : Z} (a b : nat -> binary_float prec emax) : Prop :=
  forall i j, (i < 3)%nat -> (j < 3)%nat -> is_finite (a i) = true /\ is_finite (b j) = true /\
    Rabs (B2R (a i) * B2R (b j)) <= bpow radix2 (emax - 3) /\ not_tiny prec emax (B2R (a i) * B2R (b j)).
(** A vector of two elements. *)
Definition vector2 {T : Type} (x y : T) (i : nat) : T := match i with O => x | _ => y end.
