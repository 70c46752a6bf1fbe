(** Construction of Perlin noise (PerlinNoise.h:57-72, PerlinDetail.h), with the sampler of SamplerModel.v: [u k] is the k-th number that rand<T>() returns. *)
From Coq Require Import List Reals ZArith Arith.
From Verif Require Import VecNModel SamplerModel PerlinModel.
Import ListNotations.
Open Scope R_scope.

(** PerlinNoise.h:43-48: the table of gradients and the permutation, which does not exist in one dimension. *)
Record perlin : Type := mkPerlin { pn_gradients : list vec; pn_p : option (list nat) }.
Section Init.
Variable u : nat -> R.
(** PerlinDetail.h:30-33 and 42-44: the loop over the gradients, [n] of them to come, from the random numbers at [k] and after; RandomTools.h:133-143: unit().
    [None] if [fuel] points were outside the ball, or for the direction of the zero vector. *)
Fixpoint perlin_gradients (N fuel n k : nat) : option (list vec * nat) :=
  match n with
  | O => Some ([], k)
  | S n =>
      match (if (N =? 1)%nat then Some (fun _ => rand_in (-1) 1 (u k), (k + 1)%nat)
             else match solidball u N fuel k with
                  | None => None
                  | Some (v, k') => match unit_vec N v with Some g => Some (g, k') | None => None end
                  end) with
      | None => None
      | Some (g, k') => match perlin_gradients N fuel n k' with Some (gs, k'') => Some (g :: gs, k'') | None => None end
      end
  end.
(** PerlinDetail.h:28-36 and 41-45; PerlinNoise.h:20: 256 gradients; [c i] is what rand(256 - i) returns. *)
Definition perlin_init (N fuel k : nat) (c : nat -> nat) : option perlin :=
  match perlin_gradients N fuel 256 k with
  | None => None
  | Some (gs, _) =>
      if (N =? 1)%nat then Some (mkPerlin gs None)
      else match permute c (seq 0 256) with Some p => Some (mkPerlin gs (Some p)) | None => None end
  end.
End Init.
(** PerlinNoise.h:213: gradients[idx], for an index below 256. *)
Definition perlin_table (o : perlin) (idx : Z) : nat -> R := nth (Z.to_nat idx) (pn_gradients o) (fun _ => 0).
(** PerlinNoise.h:81-111: eval of the object, with wrap-around integer arithmetic; [f_x] is the uninitialised array. *)
Definition perlin_eval (N : nat) (o : perlin) (f_x : nat -> R) (pt : nat -> R) : option R := eval wrap N (perlin_table o) f_x pt.
