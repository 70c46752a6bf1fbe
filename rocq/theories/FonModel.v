(** Orthonormal bases in floating point (see FgsModel.v; OrthoModel.v has the exact arithmetic). *)
From Coq Require Import Reals ZArith List Bool.
From Flocq Require Import Core BinarySingleNaN.
From Verif Require Import PermModel FmaModel FvecModel FgsModel.

Section Model.
Variable prec emax : Z.
Context {Hprec : Prec_gt_0 prec} {Hemax : Prec_lt_emax prec emax}.
Notation float := (binary_float prec emax).
Notation vector := (nat -> float).
(** Vec2.h:118-120 and Orthogonal.h:200-204: the overload of orthogonalize for two dimensions. *)
Definition fl_left_perpendicular (v : vector) : vector := fun k => match k with O => fl_neg prec emax (v 1%nat) | _ => v 0%nat end.
Definition fl_orthogonalize2 (n : nat) (B : nat -> vector) : nat -> vector := if Nat.eqb n 2 then upd B 1%nat (fl_left_perpendicular (B 0%nat)) else B.
(** Overload resolution: the more specialised template is called for two-dimensional vectors. *)
Definition fl_orthogonalize_any (N n : nat) (B : nat -> vector) : nat -> vector := if Nat.eqb N 2 then fl_orthogonalize2 n B else fl_orthogonalize N n B.
(** Orthogonal.h:216-221: orthonormalize; basis[i] /= basis[i].mag() (VecBase.h:449-454, the magnitude is passed by value). *)
Definition fl_orthonormalize (N n : nat) (B : nat -> vector) : nat -> vector :=
  fold_left (fun (B : nat -> vector) i => upd B i (let m := fl_mag N (B i) in fun k => fl_div prec emax (B i k) m)) (seq 0 n) (fl_orthogonalize_any N n B).
End Model.
Arguments fl_left_perpendicular {prec emax}. Arguments fl_orthogonalize2 {prec emax}. Arguments fl_orthogonalize_any {prec emax Hprec Hemax}. Arguments fl_orthonormalize {prec emax Hprec Hemax}.
