(** Model of geomc/linalg/Cholesky.h over the reals (exact arithmetic). *)
From Coq Require Import Reals Arith List Bool.
From Verif Require Import Fld RFld PluModel.
Import ListNotations.
Open Scope R_scope.

(** Cholesky.h:43-46: the element less the already known products. *)
Definition chol_residue (m : mtx R_field) (r c : nat) : R :=
  fold_left (fun s k => s - m r k * m c k) (seq 0 c) (m r c).
(** Cholesky.h:42-56: one element; the state is the matrix and the flag.  std::sqrt of a negative number is NaN in the
    code and 0 here: by then the flag is already false, and nothing is claimed of the matrix. *)
Definition chol_elem (r : nat) (st : mtx R_field * bool) (c : nat) : mtx R_field * bool :=
  let (m, ok) := st in
  let s := chol_residue m r c in
  if (r =? c)%nat then (upd2 m r c (sqrt s), ok && (if Rlt_dec 0 s then true else false))
  else (upd2 (upd2 m c r 0%R) r c (s / m c c)%R, ok).
(** Cholesky.h:41. *)
Definition chol_row (st : mtx R_field * bool) (r : nat) : mtx R_field * bool := fold_left (chol_elem r) (seq 0 (S r)) st.
(** Cholesky.h:37-59. *)
Definition cholesky (m : mtx R_field) (n : nat) : mtx R_field * bool := fold_left chol_row (seq 0 n) (m, true).
(** Cholesky.h:80-87: the matrix version refuses a non-square matrix. *)
Definition cholesky_matrix (m : mtx R_field) (rows cols : nat) : mtx R_field * bool :=
  if (rows =? cols)%nat then cholesky m rows else (m, false).
