(** What a user of a path relies on, in terms of the curve t |-> eval(t). *)
From Coq Require Import Reals List.
From Verif Require Import VecNModel RayModel PathModel.
Open Scope R_scope.

(** The parameters at which a floating point number can be converted to an index. *)
Definition in_domain (t : R) : Prop := -1 < t < IZR (2 ^ 64).
(** Coordinate i of the curve. *)
Definition coord (knots : list ray) (i : nat) (t : R) : R :=
  match path_eval knots t with Some v => v i | None => 0 end.
(** [vel] and [acc] are the first and second derivatives of the curve on its domain, and [acc] is continuous there. *)
Definition C2_curve (knots : list ray) (vel acc : R -> vec) : Prop :=
  forall t i, in_domain t ->
    derivable_pt_lim (coord knots i) t (vel t i) /\
    derivable_pt_lim (fun u => vel u i) t (acc t i) /\
    continuity_pt (fun u => acc u i) t.
(** A point q of the segment between two points a and b. *)
Definition between (a b q : vec) : Prop := exists w, 0 <= w <= 1 /\ forall i, q i = (1 - w) * a i + w * b i.
