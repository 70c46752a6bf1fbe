(** C89: what the constructors of Perlin noise build, and the range of the noise. *)
From Coq Require Import List Reals ZArith Permutation Lra Lia.
From Verif Require Import VecNModel SamplerModel PerlinModel PerlinInitModel PerlinSpec VecNSpec SamplerSpec PerlinInitProofs PerlinHashProofs.
Open Scope R_scope.

(** The object has 256 gradients: directions of length 1, or numbers between -1 and 1 in one dimension. *)
Theorem perlin_construction u N fuel k c o : unit_numbers u -> choices 256 c -> perlin_init u N fuel k c = Some o ->
  List.length (pn_gradients o) = 256%nat /\ (forall g, In g (pn_gradients o) -> length N g <= 1 /\ (N <> 1%nat -> length N g = 1)) /\
  (N <> 1%nat -> exists p, pn_p o = Some p /\ Permutation (seq 0 256) p) /\ (N = 1%nat -> pn_p o = None).
Proof. exact (init_ok u N fuel k c o). Qed.
Print Assumptions perlin_construction.
Example perlin_construction_example : exists o, perlin_init (fun _ => 1 / 4) 2 1 0 (fun _ => 0%nat) = Some o /\ unit_numbers (fun _ => 1 / 4) /\ choices 256 (fun _ => 0%nat).
Proof. destruct init_2d as (o & E). exists o. split; [exact E|]. split; [intros k; lra|intros i I; lia]. Qed.

(** In one dimension the gradients are the next 256 numbers, scaled to [-1, 1]. *)
Theorem perlin_construction_line u fuel k c : exists o, perlin_init u 1 fuel k c = Some o /\ forall i j, (0 <= i < 256)%Z -> perlin_table o i j = 2 * u (k + Z.to_nat i)%nat - 1.
Proof. destruct (init_1d u fuel k c) as (o & E & T). exists o. split; [exact E|]. intros i j I. rewrite T by exact I. unfold rand_in. lra. Qed.
Print Assumptions perlin_construction_line.

(** Every value of the noise lies within half the root of the dimension. *)
Theorem perlin_range u N fuel k c o f x : unit_numbers u -> choices 256 c -> perlin_init u N fuel k c = Some o -> in_range N x ->
  exists v, perlin_eval N o f x = Some v /\ - (sqrt (INR N) / 2) <= v <= sqrt (INR N) / 2.
Proof.
  intros U C H X. destruct (eval_range u N fuel k c o f x U C H X) as (v & E & B). exists v. split; [exact E|]. pose proof (Rle_abs v). pose proof (Rle_abs (- v)). rewrite Rabs_Ropp in *. lra.
Qed.
Print Assumptions perlin_range.
Example perlin_range_example : in_range 2 (fun _ => 5 / 2).
Proof. intros i _. replace (Int_part (5 / 2)) with 2%Z by (symmetry; apply int_part_is; lra). lia. Qed.

(** The same for any table of gradients that are not longer than 1. *)
Theorem perlin_range_table N gr x : (forall i, (0 <= i < 256)%Z -> length N (gr i) <= 1) -> Rabs (noise (lattice_gradient gr N) N x) <= sqrt (INR N) / 2.
Proof. exact (noise_range N gr x). Qed.
Print Assumptions perlin_range_table.
Example perlin_range_table_example : length 2 (fun i => if (i =? 0)%nat then 3 / 5 else 4 / 5) <= 1.
Proof.
  unfold length, inner. cbn. replace (0 + 3 / 5 * (3 / 5) + 4 / 5 * (4 / 5)) with 1 by field. rewrite sqrt_1. lra.
Qed.

(** The bound is attained: a constructed one-dimensional noise has the value 1/2. *)
Theorem perlin_range_attained : exists u c o x, unit_numbers u /\ choices 256 c /\ perlin_init u 1 1 0 c = Some o /\ in_range 1 x /\ forall f, perlin_eval 1 o f x = Some (1 / 2).
Proof. exact range_attained. Qed.
Print Assumptions perlin_range_attained.

(** A random point at the center has no direction: the construction then divides by zero. *)
Theorem perlin_construction_refuted u N fuel k c : N <> 1%nat -> (forall i, u i = 1 / 2) -> perlin_init u N (S fuel) k c = None.
Proof. exact (init_center u N fuel k c). Qed.
Print Assumptions perlin_construction_refuted.
