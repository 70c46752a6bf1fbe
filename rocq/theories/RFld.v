(** The reals as a field. *)
From Coq Require Import Reals RealField.
From Verif Require Import Fld.
Definition R_field : field := mkField R 0%R 1%R Rplus Rmult Rminus Ropp Rdiv Rinv Rfield Req_EM_T.
(** Rewrite the record's operations as those of the reals. *)
Ltac unR := repeat first [progress change (@fadd R_field) with Rplus in * | progress change (@fmul R_field) with Rmult in *
  | progress change (@fsub R_field) with Rminus in * | progress change (@fopp R_field) with Ropp in * | progress change (@fdiv R_field) with Rdiv in *
  | progress change (@finv R_field) with Rinv in * | progress change (@f0 R_field) with 0%R in * | progress change (@f1 R_field) with 1%R in *
  | progress change (car R_field) with R in *].
