(** Model of geomc/linalg/Orthogonal.h over the reals, and of the vector operations it uses.
    A vector of dimension N is a function on the naturals read below N; an array of vectors is a function to vectors. *)
From Coq Require Import Reals Arith List Bool.
From Verif Require Import Fld RFld PermModel PluModel.
Import ListNotations.
Open Scope R_scope.

(** vecdetail/VecBase.h [dot] and 575-582 [mag2]: multiply_add accumulation from zero. *)
Definition vdot (N : nat) (u v : nat -> R) : R := fold_left (fun s i => u i * v i + s) (seq 0 N) 0.
(** VecBase.h:565-567. *)
Definition mag (N : nat) (v : nat -> R) : R := sqrt (vdot N v v).
(** VecBase.h:630-633 [project_on]. *)
Definition project_on (N : nat) (x axis : nat -> R) : nat -> R :=
  let m2 := vdot N axis axis in if Req_EM_T m2 0 then axis else fun k => axis k * vdot N x axis / m2.
(** Orthogonal.h:193: basis[i] -= basis[i].project_on(basis[j]). *)
Definition ortho_step (N i : nat) (B : nat -> nat -> R) (j : nat) : nat -> nat -> R :=
  upd B i (fun k => B i k - project_on N (B i) (B j) k).
(** Orthogonal.h:188-196 [orthogonalize]. *)
Definition orthogonalize (N n : nat) (B : nat -> nat -> R) : nat -> nat -> R :=
  fold_left (fun B i => fold_left (ortho_step N i) (seq 0 i) B) (seq 1 (n - 1)) B.
(** Vec2.h:118-120 and Orthogonal.h:200-204: the two-dimensional overload. *)
Definition left_perpendicular (v : nat -> R) : nat -> R := fun k => if (k =? 0)%nat then - v 1%nat else v 0%nat.
Definition orthogonalize2 (n : nat) (B : nat -> nat -> R) : nat -> nat -> R :=
  if (n =? 2)%nat then upd B 1%nat (left_perpendicular (B 0%nat)) else B.
(** Overload resolution: the more specialised template is called for two-dimensional vectors. *)
Definition orthogonalize_any (N n : nat) (B : nat -> nat -> R) : nat -> nat -> R :=
  if (N =? 2)%nat then orthogonalize2 n B else orthogonalize N n B.
(** Orthogonal.h:216-221 [orthonormalize]: each vector divided by its magnitude. *)
Definition orthonormalize (N n : nat) (B : nat -> nat -> R) : nat -> nat -> R :=
  fold_left (fun B i => upd B i (fun k => B i k / mag N (B i))) (seq 0 n) (orthogonalize_any N n B).
(** Orthogonal.h:232-238 [project_to_orthogonal_subspace]; Vec's default constructor is zero. *)
Definition project_to_orthogonal_subspace (N n : nat) (B : nat -> nat -> R) (x : nat -> R) : nat -> R :=
  fold_left (fun out i => fun k => out k + project_on N x (B i) k) (seq 0 n) (fun _ => 0).
(** Orthogonal.h:248-251 [project_to_subspace]. *)
Definition project_to_subspace (N n : nat) (B : nat -> nat -> R) (x : nat -> R) : nat -> R :=
  project_to_orthogonal_subspace N n (orthonormalize N n B) x.

(** ** Null vectors, over any field *)
Section Null.
Context {K : field}.
Variable bigger : K -> K -> bool.
Local Open Scope fld_scope.
(** Orthogonal.h:69-94 [orthogonal] for N-1 vectors (the rows of [v]) of dimension N; [None] stands for a division by a
    zero pivot, which the code does not check. *)
Definition orthogonal_row (N : nat) (m : mtx K) (oo : option (nat -> K)) (r : nat) : option (nat -> K) :=
  match oo with
  | None => None
  | Some o => let o1 := fold_left (fun (o : nat -> K) c => upd o r (o r - o c * m r c)) (rev (seq (S r) (N - 1 - r))) o in
              if feq_dec (m r r) 0 then None else Some (upd o1 r (o1 r / m r r))
  end.
Definition orthogonal (N : nat) (v : mtx K) : option (nat -> K) :=
  let d := decomp_plu bigger v (N - 1) N in
  if (0 <? pd d)%nat then Some (fun _ => 0)
  else fold_left (orthogonal_row N (pm d)) (rev (seq 0 (N - 1))) (Some (upd (fun _ => 0) (N - 1)%nat 1)).
(** Orthogonal.h:98-100 and 104-106: the overloads for three and two dimensions. *)
Definition orthogonal3 (v : mtx K) : nat -> K := fun k =>
  if (k =? 0)%nat then v 0%nat 1%nat * v 1%nat 2%nat - v 0%nat 2%nat * v 1%nat 1%nat
  else if (k =? 1)%nat then v 0%nat 2%nat * v 1%nat 0%nat - v 0%nat 0%nat * v 1%nat 2%nat
  else v 0%nat 0%nat * v 1%nat 1%nat - v 0%nat 1%nat * v 1%nat 0%nat.
Definition orthogonal2 (v : mtx K) : nat -> K := fun k => if (k =? 0)%nat then - v 0%nat 1%nat else v 0%nat 0%nat.
(** Orthogonal.h:162-170: back substitution for null vector [b]; [X] has one null vector per column. *)
Definition null_row (n b : nat) (V : mtx K) (oX : option (mtx K)) (r : nat) : option (mtx K) :=
  match oX with
  | None => None
  | Some X => let X1 := fold_left (fun (X : mtx K) c => upd2 X r b (X r b - V r c * X c b)) (seq (S r) (n - S r)) (upd2 X r b (- V r (n + b)%nat)) in
              if feq_dec (V r r) 0 then None else Some (upd2 X1 r b (X1 r b / V r r))
  end.
Definition null_vec (n : nat) (V : mtx K) (oX : option (mtx K)) (b : nat) : option (mtx K) :=
  fold_left (null_row n b V) (rev (seq 0 n)) (match oX with Some X => Some (upd2 X (b + n)%nat b 1) | None => None end).
(** Orthogonal.h:132-174 [nullspace] for n <= N - 2 vectors (the other cases delegate to [orthogonal] or do nothing):
    result flag and the null vectors, as columns; [None] for an unchecked division by zero. *)
Definition nullspace (N n : nat) (bases : mtx K) : option (bool * mtx K) :=
  let d := decomp_plu bigger bases n N in
  if (0 <? pd d)%nat then Some (false, fun _ _ => 0)
  else match fold_left (null_vec n (pm d)) (seq 0 (N - n)) (Some (fun _ _ => 0)) with
       | Some X => Some (true, X)
       | None => None
       end.
(** The overload selected for dimension N. *)
Definition orthogonal_any (N : nat) (v : mtx K) : option (nat -> K) :=
  if (N =? 3)%nat then Some (orthogonal3 v) else if (N =? 2)%nat then Some (orthogonal2 v) else orthogonal N v.
(** Orthogonal.h:132-138: the whole of [nullspace]; [out] is the previous content of the output array. *)
Definition nullspace_any (N n : nat) (bases out : mtx K) : option (bool * mtx K) :=
  if (N <=? n)%nat then Some (true, out)
  else if (N - n =? 1)%nat then
    match orthogonal_any N bases with Some o => Some (true, fun r b => if (b =? 0)%nat then o r else out r b) | None => None end
  else nullspace N n bases.
End Null.
