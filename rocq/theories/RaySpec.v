(** Points of a ray and of the line that carries it. *)
From Coq Require Import Reals.
From Verif Require Import VecNSpec RayModel.
Open Scope R_scope.

Definition on_line (N : nat) (r : ray) (q : nat -> R) : Prop := exists s, same N q (fun i => origin r i + s * direction r i).
Definition on_ray (N : nat) (r : ray) (q : nat -> R) : Prop := exists s, 0 <= s /\ same N q (fun i => origin r i + s * direction r i).
(** [x] is the square of the distance from [p] to the line: it is attained, and no point of the line is nearer. *)
Definition line_distance2 (N : nat) (r : ray) (p : nat -> R) (x : R) : Prop :=
  (exists q, on_line N r q /\ x = Rsqr (distance N p q)) /\ forall q, on_line N r q -> x <= Rsqr (distance N p q).
