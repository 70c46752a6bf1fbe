(** What a transformed shape is: the image of the shape under [p -> A p + t], read off the homogeneous matrix [m]. *)
From Coq Require Import Reals.
From Verif Require Import PerlinSpec VecNSpec ShapeSpec.
Open Scope R_scope.
Definition image (N : nat) (m : nat -> nat -> R) (X : region) : region := fun p =>
  exists q, X q /\ forall i, (i < N)%nat -> p i = rsum N (fun c => m i c * q c) + m i N.
