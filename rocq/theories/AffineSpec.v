(** Specification vocabulary for affine transforms. *)
From Coq Require Import Arith Reals.
From Verif Require Import Fld RFld LinSpec DetInvModel Vec3Model Vec2Model QuatModel AffineModel.
Open Scope nat_scope.

Section S.
Variable K : field.
Local Open Scope fld_scope.
(** Equal in the first N coordinates. *)
Definition agree (N : nat) (p q : nat -> K) : Prop := forall i, (i < N)%nat -> p i = q i.
(** The bottom row of a homogeneous matrix is 0 .. 0 1. *)
Definition affine_row (N : nat) (m : mtx K) : Prop := forall c, (c <= N)%nat -> m N c = delta N c.
(** A transform carries its true inverse. *)
Definition sound (N : nat) (xf : xform K) : Prop :=
  affine_row N (xmat xf) /\ affine_row N (xinv xf) /\ inverse_of (S N) (xmat xf) (xinv xf).
(** Linear part times point plus translation. *)
Definition maps (N : nat) (m : mtx K) (p : nat -> K) : nat -> K := fun i => sum N (fun c => m i c * p c) + m i N.
Definition inner (N : nat) (a b : nat -> K) : K := sum N (fun i => a i * b i).
(** [xf] and its inverse undo each other on every point. *)
Definition round_trips (N : nat) (xf : xform K) : Prop :=
  forall p, agree N (xf_apply_inverse N xf (xf_apply N xf p)) p /\ agree N (xf_apply N xf (xf_apply_inverse N xf p)) p.
End S.
Arguments agree {K}. Arguments affine_row {K}. Arguments sound {K}. Arguments maps {K}. Arguments inner {K}. Arguments round_trips {K}.

(** Triples and pairs as coordinate functions, and back. *)
Definition of3 (p : v3) : nat -> R_field := fun i => match i with 0 => vx p | 1 => vy p | _ => vz p end.
Definition to3 (f : nat -> R_field) : v3 := V3 (f 0) (f 1) (f 2).
Definition of2 (p : v2) : nat -> R_field := fun i => match i with 0 => ux p | _ => uy p end.
Definition to2 (f : nat -> R_field) : v2 := V2 (f 0) (f 1).

(** Every transform of N-dimensional space the API can build (resizing and dividing an object by itself in place aside). *)
Inductive built (bigger : R_field -> R_field -> bool) : nat -> xformR -> Prop :=
| b_identity N : built bigger N xf_identity
| b_translation N (t : nat -> R_field) : built bigger N (xf_translation N t)
| b_scale N (s : nat -> R_field) : (forall i, i < N -> s i <> 0%R) -> built bigger N (xf_scale N s)
| b_transformation N row_major (m : nat -> R_field) : ~ singular N (stored row_major N m) -> built bigger N (xf_transformation bigger N row_major m)
| b_rotation axis t : axis <> zero3 -> built bigger 3 (rotation axis t)
| b_rotation_about axis center t : axis <> zero3 -> built bigger 3 (rotation_about axis center t)
| b_rotation_quat q : q <> Q4 0 0 0 0 -> built bigger 3 (rotation_quat q)
| b_rotation_x t : built bigger 3 (rotation_x t)
| b_rotation_y t : built bigger 3 (rotation_y t)
| b_rotation_z t : built bigger 3 (rotation_z t)
| b_rotation_2d t : built bigger 2 (rotation_2d t)
| b_align dir to : mag2_3 dir = 1%R -> mag2_3 to = 1%R -> built bigger 3 (direction_align dir to)
| b_then N a b : built bigger N a -> built bigger N b -> built bigger N (xf_then N a b)
| b_then_inverse N a b : built bigger N a -> built bigger N b -> built bigger N (xf_then_inverse N a b)
| b_mul N a b : built bigger N a -> built bigger N b -> built bigger N (xf_mul N a b)
| b_div N a b : built bigger N a -> built bigger N b -> built bigger N (xf_div N a b)
| b_mul_assign N a b : built bigger N a -> built bigger N b -> built bigger N (xf_mul_assign N a b)
| b_div_assign N a b : built bigger N a -> built bigger N b -> built bigger N (xf_div_assign false N a b)
| b_inverse N a : built bigger N a -> built bigger N (xf_inverse a).
