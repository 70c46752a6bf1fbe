(** Model of geomc/shape/Simplex.h over exact reals, without the projection functions (see SimplexProjModel).  A simplex is its array of
    vertices and their number.  [None] is a division by zero (no number in C++) or an access out of bounds.
    [bigger] is the comparison by which the decompositions choose pivots. *)
From Coq Require Import List Reals Arith Bool.
From Verif Require Import Fld RFld PluModel DetInvModel OrthoModel AffineModel VecNModel RayModel Ord RectModel RectArithModel SphereModel.
Import ListNotations.
Open Scope R_scope.

(** Simplex.h:91-93. *)
Record simplex : Type := mkSimplex { sx_n : nat; sx_pts : nat -> vec }.
Section Simplex.
Variable N : nat.
(** Simplex.h:97: vectors are zero by default. *)
Definition simplex_empty : simplex := mkSimplex 0 (fun _ _ => 0).
(** Simplex.h:100-102, 104-108: [verts] holds the vertices given; the list version keeps at most N + 1. *)
Definition simplex_of (verts : nat -> vec) (n : nat) : simplex := mkSimplex n (fun j => if (j <? n)%nat then verts j else fun _ => 0).
Definition simplex_of_list (verts : list vec) : simplex := simplex_of (fun j => nth j verts (fun _ => 0)) (Nat.min (length verts) (N + 1)).
(** Simplex.h:110-117. *)
Definition standard_simplex : simplex :=
  mkSimplex (N + 1) (fun j i => if ((1 <=? j) && (j <? N + 1) && (i =? j - 1))%nat then 1 else 0).
(** Simplex.h:136-144. *)
Definition simplex_eq (s other : simplex) : bool :=
  if (sx_n other =? sx_n s)%nat then forallb (fun j => vec_eq N (sx_pts s j) (sx_pts other j)) (seq 0 (sx_n s)) else false.
(** Simplex.h:202-207; also 158-162 and 172-175. *)
Definition simplex_insert (s : simplex) (p : vec) : simplex :=
  if (sx_n s <? N + 1)%nat then mkSimplex (sx_n s + 1) (fun j => if (j =? sx_n s)%nat then p else sx_pts s j) else s.
(** Simplex.h:180-185 and 190-195. *)
Definition simplex_xf (s : simplex) (xf : xformR) : simplex :=
  mkSimplex (sx_n s) (fun j => if (j <? sx_n s)%nat then xf_apply N xf (sx_pts s j) else sx_pts s j).
Definition simplex_unxf (s : simplex) (xf : xformR) : simplex :=
  mkSimplex (sx_n s) (fun j => if (j <? sx_n s)%nat then xf_apply_inverse N xf (sx_pts s j) else sx_pts s j).
(** Simplex.h:506-509: the vertices after [i] move down; for [i] < n. *)
Definition simplex_exclude (s : simplex) (i : nat) : simplex :=
  mkSimplex (sx_n s - 1) (fun j => if ((i <=? j) && (j <? sx_n s - 1))%nat then sx_pts s (j + 1)%nat else sx_pts s j).
(** Simplex.h:515-523: the loop, with [c] the number of vertices copied so far. *)
Definition simplex_excluded (s : simplex) (i : nat) : simplex :=
  let r := fold_left (fun (r : nat * (nat -> vec)) j => if (i =? j)%nat then r else (fst r + 1, fun k => if (k =? fst r)%nat then sx_pts s j else snd r k)%nat)
    (seq 0 (sx_n s)) (0%nat, fun _ _ => 0) in
  mkSimplex (sx_n s - 1) (snd r).
(** Simplex.h:525-536. *)
Definition simplex_support (s : simplex) (d : vec) : vec :=
  fst (fold_left (fun (om : vec * R) j => let t := dot N (sx_pts s j) d in if Rlt_dec (snd om) t then (sx_pts s j, t) else om)
    (seq 1 (sx_n s - 1)) (sx_pts s 0%nat, dot N (sx_pts s 0%nat) d)).

(** ** Functions that solve linear systems *)
Variable bigger : R_field -> R_field -> bool.
(** linear_solve (LUDecomp.h:390-401), with division by a zero pivot made visible (without degenerate rows only the last pivot can be zero). *)
Definition checked_solve (A : mtx R_field) (n m skip : nat) (X : mtx R_field) : option (bool * mtx R_field) :=
  match linear_solve bigger A n m skip X with
  | Some (true, X') =>
      if forallb (fun k => if Req_EM_T (pm (decomp_plu bigger A n n) k k) 0 then false else true) (seq 0 n) then Some (true, X') else None
  | r => r
  end.
(** linear_solve for vectors (LUDecomp.h:419-443): by the inverse below dimension 5. *)
Definition vec_solve (n : nat) (bases : nat -> vec) (m skip : nat) (X : mtx R_field) : option (bool * mtx R_field) :=
  if (n <? 5)%nat then Some (linear_solve_inv bigger n (fun k => bases (k / n)%nat (k mod n)%nat) (fun _ => 0) X)
  else checked_solve (fun r c => bases c r) n m skip X.
(** Simplex.h:441-446 and 322-326: non-negative coordinates whose sum is at most 1. *)
Fixpoint coords_inside (is : list nat) (x : nat -> R) (sum : R) : bool :=
  match is with
  | [] => true
  | i :: is => let sum := sum + x i in
      if (if Rlt_dec (x i) 0 then true else if Rlt_dec 1 sum then true else false) then false else coords_inside is x sum
  end.
(** Simplex.h:420-447: contains; the first unknown is not solved for. *)
Definition simplex_contains (s : simplex) (p : vec) : option bool :=
  if (sx_n s <? N + 1)%nat then Some false
  else
    let m : mtx R_field := fun r c => if (r =? 0)%nat then 1 else sx_pts s c (r - 1)%nat in
    let x : mtx R_field := fun r _ => if (r =? 0)%nat then 1 else p (r - 1)%nat in
    match checked_solve m (N + 1) 1 1 x with
    | None => None
    | Some (false, _) => Some false
    | Some (true, x) => Some (coords_inside (seq 1 N) (fun i => x i 0%nat) 0)
    end.
(** Simplex.h:238-256: weight [i] of the point at [s] is [p i + s * k i]; the loop ends when the interval has no interior. *)
Fixpoint weights_interval (is : list nat) (p k : nat -> R) (iv : interval) : interval :=
  match is with
  | [] => iv
  | i :: is =>
      if ext_ltb (lo iv 0%nat) (hi iv 0%nat) then
        if Req_EM_T (k i) 0 then if Rlt_dec (p i) 0 then iv_empty else if Rlt_dec 1 (p i) then iv_empty else weights_interval is p k iv
        else weights_interval is p k (inter iv (iv_between (- p i / k i) ((1 - p i) / k i)))
      else iv
  end.
(** Simplex.h:554-589 (trace_simplex), called without [uv]: [Some false] for a miss; a hit reads the solution past its end. *)
Definition trace_simplex (verts : nat -> vec) (r : ray) : option bool :=
  let bases := fun i => if (i <? N - 1)%nat then vec_sub (verts (i + 1)%nat) (verts 0%nat) else vec_neg (direction r) in
  match vec_solve N bases 1 (N - 1) (fun i _ => vec_sub (origin r) (verts 0%nat) i : R_field) with
  | None => None
  | Some (false, _) => Some false
  | Some (true, x) =>
      let sum := fold_left (fun (s : option R) i => match s with None => None | Some s => if Rlt_dec (x i 0%nat) 0 then None else Some (s + x i 0%nat) end) (seq 0 (N - 1)) (Some 0) in
      match sum with
      | None => Some false
      | Some sum => if Rlt_dec 1 sum then Some false else None
      end
  end.
(** Simplex.h:221-266: intersect. *)
Definition simplex_ray (s : simplex) (r : ray) : option interval :=
  if (sx_n s =? N + 1)%nat then
    let m : nat -> vec := fun j i => if (i <? N)%nat then sx_pts s j i else 1 in
    let B : mtx R_field := fun i j => if (i <? N)%nat then (if (j =? 0)%nat then origin r i else direction r i) else if (j =? 0)%nat then 1 else 0 in
    match vec_solve (N + 1) m 2 0 B with
    | None => None
    | Some (true, B) => Some (weights_interval (seq 0 (N + 1)) (fun i => B i 0%nat) (fun i => B i 1%nat) (mk_interval NInf PInf))
    | Some (false, _) => Some iv_empty
    end
  else if (sx_n s =? N)%nat then
    match trace_simplex (sx_pts s) r with Some false => Some iv_empty | _ => None end
  else Some iv_empty.
(** Simplex.h:279-342: is_facing; [params] is null. *)
Definition simplex_is_facing (s : simplex) (p : vec) : option bool :=
  match sx_n s with
  | 0%nat => Some false
  | 1%nat => Some true
  | 2%nat =>
      let v := vec_sub (sx_pts s 1%nat) (sx_pts s 0%nat) in
      match VecNModel.div_opt (dot N v (vec_sub p (sx_pts s 0%nat))) (VecNModel.mag2 N v) with
      | None => None
      | Some d => Some (Rleb 0 d && Rleb d 1)
      end
  | n =>
      let n_bases := (n - 1)%nat in
      let n_null := (N - n_bases)%nat in
      let bases := fun i => vec_sub (sx_pts s (i + 1)%nat) (sx_pts s 0%nat) in
      match nullspace_any bigger N n_bases (fun r c => bases r c : R_field) (fun _ _ => 0 : R_field) with
      | None => None
      | Some (_, null) =>
          let null_bases : nat -> vec := fun j => if (j <? n_null)%nat then fun i => null i j else bases (j - n_null)%nat in
          match vec_solve N null_bases 1 n_null (fun i _ => vec_sub p (sx_pts s 0%nat) i : R_field) with
          | None => None
          | Some (false, _) => Some false
          | Some (true, x) => Some (coords_inside (seq n_null (n_bases - n_null)) (fun i => x i 0%nat) 0)
          end
      end
  end.
(** Simplex.h:350-366: volume. *)
Definition simplex_volume (s : simplex) : R :=
  if (sx_n s <? N + 1)%nat then 0
  else
    let k := fold_left (fun k i => k * INR i) (seq 1 N) 1 in
    let m : nat -> R_field := fun q => vec_sub (sx_pts s (q / N + 1)%nat) (sx_pts s 0%nat) (q mod N)%nat in
    if (N =? 2)%nat then det2x2_buf m / 2 else if (N =? 3)%nat then det3x3_buf m / 6 else det_destructive bigger m N / k.
(** Simplex.h:377-406: measure; the array of bases is zero beyond the [n - 1] computed, yet [n] of them enter the product. *)
Definition simplex_measure (s : simplex) : R :=
  let n := sx_n s in
  let e := fun i => vec_sub (sx_pts s (i + 1)%nat) (sx_pts s 0%nat) in
  if (n =? 2)%nat then VecNModel.mag N (e 0%nat)
  else if ((N =? 3) && (n =? 3))%nat then
    VecNModel.mag 3 (orthogonal3 (K := R_field) (fun r c => e r c)) / 2
  else if (n =? N + 1)%nat then simplex_volume s
  else
    let bases := fun i => if (i <? n - 1)%nat then e i else fun _ => 0 in
    let k := fold_left (fun k i => k * INR i) (seq 1 (n - 1)) 1 in
    sqrt (Rabs (det_destructive bigger (fun q => dot N (bases (q / n)%nat) (bases (q mod n)%nat) : R_field) n)) / k.
End Simplex.
