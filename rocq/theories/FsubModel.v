(** Projections to subspaces in floating point (see FprojModel.v and FonModel.v; OrthoModel.v has the exact arithmetic). *)
From Coq Require Import Reals ZArith List.
From Flocq Require Import Core BinarySingleNaN.
From Verif Require Import FmaModel FquadModel FvecModel FprojModel FonModel.

Section Model.
Variable prec emax : Z.
Context {Hprec : Prec_gt_0 prec} {Hemax : Prec_lt_emax prec emax}.
Notation float := (binary_float prec emax).
Notation vector := (nat -> float).
(** Orthogonal.h:230-236: project_to_orthogonal_subspace; a vector is zero when constructed, += adds element by element (VecBase.h:420-425). *)
Definition fl_project_to_orthogonal_subspace (N n : nat) (B : nat -> vector) (x : vector) : vector :=
  fold_left (fun (out : vector) i => let p := fl_project_on N x (B i) in fun k => fl_add prec emax (out k) (p k)) (seq 0 n) (fun _ => fl_lit prec emax 0 0).
(** Orthogonal.h:245-249: project_to_subspace; the result, and what is left in the array of basis vectors. *)
Definition fl_project_to_subspace (N n : nat) (B : nat -> vector) (x : vector) : vector * (nat -> vector) :=
  let B' := fl_orthonormalize N n B in (fl_project_to_orthogonal_subspace N n B' x, B').
End Model.
Arguments fl_project_to_orthogonal_subspace {prec emax Hprec Hemax}. Arguments fl_project_to_subspace {prec emax Hprec Hemax}.
