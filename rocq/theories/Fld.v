(** Fields with decidable equality, finite sums, and matrices as functions. *)
From Coq Require Import Arith Lia List Bool Field Ring QArith Qcanon.
Import ListNotations.
Local Close Scope Q_scope.
Local Close Scope Qc_scope.
Open Scope nat_scope.

Record field : Type := mkField {
  car :> Type;
  f0 : car; f1 : car;
  fadd : car -> car -> car; fmul : car -> car -> car; fsub : car -> car -> car; fopp : car -> car;
  fdiv : car -> car -> car; finv : car -> car;
  fth : field_theory f0 f1 fadd fmul fsub fopp fdiv finv (@eq car);
  feq_dec : forall x y : car, {x = y} + {x <> y}
}.
Arguments f0 {f}. Arguments f1 {f}. Arguments fadd {f}. Arguments fmul {f}. Arguments fsub {f}. Arguments fopp {f}.
Arguments fdiv {f}. Arguments finv {f}. Arguments feq_dec {f}.
Declare Scope fld_scope.
Delimit Scope fld_scope with F.
Bind Scope fld_scope with car.
Notation "0" := f0 : fld_scope.
Notation "1" := f1 : fld_scope.
Infix "+" := fadd : fld_scope.
Infix "*" := fmul : fld_scope.
Infix "-" := fsub : fld_scope.
Infix "/" := fdiv : fld_scope.
Notation "- x" := (fopp x) : fld_scope.

(** Exact rational arithmetic, for computed witnesses. *)
Definition Qc_field : field := mkField Qc (Q2Qc 0) (Q2Qc 1) Qcplus Qcmult Qcminus Qcopp Qcdiv Qcinv Qcft Qc_eq_dec.

(** Matrices and vectors: total functions; the shape is a separate argument. *)
Definition mtx (K : field) : Type := nat -> nat -> K.
(** Sum of f(0) .. f(n-1). *)
Fixpoint sum {K : field} (n : nat) (f : nat -> K) : K := match n with O => 0%F | S n' => (sum n' f + f n')%F end.
(** Row-by-column product over inner dimension [k]. *)
Definition mmul {K : field} (k : nat) (A B : mtx K) : mtx K := fun r c => sum k (fun j => (A r j * B j c)%F).
Definition delta {K : field} (i j : nat) : K := if i =? j then 1%F else 0%F.
(** Product of f(0) .. f(n-1). *)
Fixpoint prod {K : field} (n : nat) (f : nat -> K) : K := match n with O => 1%F | S n' => (prod n' f * f n')%F end.
