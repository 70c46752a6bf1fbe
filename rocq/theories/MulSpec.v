(** Specification vocabulary for matrix products. *)
From Coq Require Import Arith.
From Verif Require Import Fld PermModel PermSpec LinSpec MulModel.
Open Scope nat_scope.

(** The 0/1 matrix a permutation matrix stands for: row r has its 1 in column src(r). *)
Definition perm_mtx {K : field} (p : pmat) : mtx K := fun r c => if src p r =? c then 1%F else 0%F.
(** A permutation matrix whose two maps are inverse to each other (what every public constructor and setter establishes). *)
Definition wf_perm (n : nat) (p : pmat) : Prop := inverse_maps n (src p) (dst p).
(** An address belongs to a matrix view's storage. *)
Definition inside (m : view) (x : nat) : Prop := vbase m <= x < vbase m + vsize m.
(** Two views share no storage. *)
Definition apart (a b : view) : Prop := vbase a + vsize a <= vbase b \/ vbase b + vsize b <= vbase a.
(** View [a] lies entirely within view [b]. *)
Definition within (a b : view) : Prop := vbase b <= vbase a /\ vbase a + vsize a <= vbase b + vsize b.
