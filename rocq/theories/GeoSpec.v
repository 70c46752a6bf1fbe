(** Specification vocabulary for three-dimensional geometry. *)
From Coq Require Import Reals.
From Verif Require Import Vec3Model.
Open Scope R_scope.
(** Rodrigues' formula: [p] turned by [theta] counter-clockwise about the unit vector [k]. *)
Definition rodrigues (k : v3) (theta : R) (p : v3) : v3 :=
  add3 (add3 (scale3 (cos theta) p) (scale3 (sin theta) (cross3 k p))) (scale3 (dot3 k p * (1 - cos theta)) k).
Definition is_unit (v : v3) : Prop := mag2_3 v = 1.
(** Preserves lengths and angles, and handedness. *)
Definition is_rotation (f : v3 -> v3) : Prop :=
  (forall a b, dot3 (f a) (f b) = dot3 a b) /\ (forall a b, cross3 (f a) (f b) = f (cross3 a b)) /\
  (forall s a b, f (add3 (scale3 s a) b) = add3 (scale3 s (f a)) (f b)).
