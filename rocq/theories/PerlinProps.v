(** Perlin noise: property C40. *)
From Coq Require Import Reals ZArith Lra Lia List Bool Arith.
From Verif Require Import PerlinModel PerlinSpec PerlinProofs PerlinDiffProofs PerlinHashProofs.
Import ListNotations.
Open Scope R_scope.

(** With wrap-around integer arithmetic every evaluation in range is defined, whatever the scratch array held, and returns the
    blend of the corner planes. *)
Theorem eval_is_noise : forall N gradients scratch x, in_range N x ->
  eval wrap N gradients scratch x = Some (noise (lattice_gradient gradients N) N x).
Proof. exact (fun N gr f x H => eval_general wrap N gr x H (fun c _ => corners_wrap N gr x c) f). Qed.
Print Assumptions eval_is_noise.

(** For two or more dimensions [gradient] returns the same value and the total derivative of the noise: everywhere, cell
    boundaries included. *)
Theorem gradient_is_derivative : forall N gradients scratch scratch' x, N <> 1%nat -> in_range N x ->
  exists w, gradient wrap N gradients scratch scratch' x = Some (noise (lattice_gradient gradients N) N x, w) /\
    has_gradient N (noise (lattice_gradient gradients N) N) x w.
Proof. exact (fun N gr f df x N1 H => gradient_general wrap N gr x H (fun c _ => corners_wrap N gr x c) f df N1). Qed.
Print Assumptions gradient_is_derivative.
(** In particular its products with directions are the directional derivatives. *)
Theorem gradient_directional : forall N gradients scratch scratch' x (v : nat -> R), N <> 1%nat -> in_range N x ->
  exists n w, gradient wrap N gradients scratch scratch' x = Some (n, w) /\
    derivable_pt_lim (fun s => noise (lattice_gradient gradients N) N (fun i => x i + s * v i)) 0 (rsum N (fun i => w i * v i)).
Proof.
  intros N gr f df x v N1 H. destruct (gradient_is_derivative N gr f df x N1 H) as (w & E & D). exists (noise (lattice_gradient gr N) N x), w. split; [exact E|]. now apply hg_directional.
Qed.
Print Assumptions gradient_directional.
(** The noise is differentiable and continuous everywhere in every dimension. *)
Theorem noise_continuous : forall N gradients x, continuous_at N (noise (lattice_gradient gradients N) N) x.
Proof.
  intros N gr x. apply (hg_continuous N _ x (cellW (lattice_gradient gr N) N x)). apply (hg_fext N x (cellV (lattice_gradient gr N) N)); [apply cellV_noise, lattice_gradient_ext|]. apply hg_noise, lattice_gradient_ext.
Qed.
Print Assumptions noise_continuous.
(** On a face shared by cells, each of them gives the same value. *)
Theorem cells_agree : forall N gradients p x, in_cell N p x -> blend (lattice_gradient gradients N) N p x = noise (lattice_gradient gradients N) N x.
Proof.
  intros N gr p x H. rewrite <- (V_blend _ _ (lattice_gradient_ext gr N)), <- (cellV_noise _ _ (lattice_gradient_ext gr N)). apply V_agree; [apply lattice_gradient_ext|exact H|apply floor_in_cell].
Qed.
Print Assumptions cells_agree.
Theorem zero_at_lattice_points : forall N gradients (z : nat -> Z), noise (lattice_gradient gradients N) N (fun i => IZR (z i)) = 0.
Proof. exact (fun N gr z => noise_lattice gr N z). Qed.
Print Assumptions zero_at_lattice_points.
(** The value is bounded by the planes of the corners of the cell. *)
Theorem noise_bounded : forall N gradients x M,
  (forall c, (c < 2 ^ N)%nat -> Rabs (plane (lattice_gradient gradients N) N (cell_corner (lattice_floor x) c) x) <= M) -> Rabs (noise (lattice_gradient gradients N) N x) <= M.
Proof. exact (fun N gr x M => noise_bound gr N x M). Qed.
Print Assumptions noise_bounded.

(** ** Violations *)
(** By the language's rules, every evaluation in two or more dimensions overflows a signed integer. *)
Theorem eval_overflow_refuted : forall N gradients scratch x, (2 <= N)%nat -> eval chk N gradients scratch x = None.
Proof. intros [|[|n]] gr f x L; [lia|lia|apply strict_2d]. Qed.
Print Assumptions eval_overflow_refuted.
(** In one dimension, every evaluation outside [-1, 1). *)
Theorem eval_overflow_1d_refuted : forall gradients scratch x,
  eval chk 1 gradients scratch x = if Z.eqb (Int_part (x 0%nat)) (-1) || Z.eqb (Int_part (x 0%nat)) 0 then Some (noise (lattice_gradient gradients 1) 1 x) else None.
Proof. exact strict_1d. Qed.
Print Assumptions eval_overflow_1d_refuted.
(** The one-dimensional gradient reads an uninitialised scalar. *)
Theorem gradient_1d_refuted : forall ar gradients scratch scratch' x, gradient ar 1 gradients scratch scratch' x = None.
Proof.
  intros ar gr f df x. unfold gradient. destruct (to_grid 1 (floor_pt x)); [|reflexivity]. cbn [bind]. match goal with |- bind ?o _ = None => destruct o; reflexivity end.
Qed.
Print Assumptions gradient_1d_refuted.
(** The hash was meant to avoid a period of 256; the noise repeats under every shift whose weighted sum is a multiple of 256. *)
Theorem noise_repeats_refuted : forall N gradients (d : nat -> Z) x, (shift_hash N d mod 256 = 0)%Z ->
  noise (lattice_gradient gradients N) N (fun i => x i + IZR (d i)) = noise (lattice_gradient gradients N) N x.
Proof. exact (fun N gr d x => noise_shift gr N d x). Qed.
Print Assumptions noise_repeats_refuted.
Theorem noise_repeats_1d_refuted : forall gradients x, noise (lattice_gradient gradients 1) 1 (fun i => x i + 256) = noise (lattice_gradient gradients 1) 1 x.
Proof. exact (fun gr x => noise_shift gr 1 (fun _ => 256%Z) x eq_refl). Qed.
Print Assumptions noise_repeats_1d_refuted.
Theorem noise_repeats_2d_refuted : forall gradients x,
  noise (lattice_gradient gradients 2) 2 (fun i => x i + IZR (if Nat.eqb i 0 then 17 else 3)) = noise (lattice_gradient gradients 2) 2 x.
Proof. exact (fun gr x => noise_shift gr 2 (fun i => if Nat.eqb i 0 then 17 else 3)%Z x eq_refl). Qed.
Print Assumptions noise_repeats_2d_refuted.

(** ** Cases meeting the hypotheses *)
Example in_range_case : in_range 3 (fun i => INR i + / 2).
Proof.
  intros i L. assert (E : Int_part (INR i + / 2) = Z.of_nat i) by (apply int_part_is; rewrite <- INR_IZR_INZ; lra). rewrite E. lia.
Qed.
Example on_a_face : in_cell 2 (fun _ => 0%Z) (fun i => if Nat.eqb i 0 then 1 else / 2) /\ in_cell 2 (fun i => if Nat.eqb i 0 then 1 else 0)%Z (fun i => if Nat.eqb i 0 then 1 else / 2).
Proof. split; intros i L; destruct i; cbn; lra. Qed.
(** The noise is not constant. *)
Example noise_value : noise (lattice_gradient (fun i _ => IZR (i - 100)) 1) 1 (fun _ => / 2) <> 0.
Proof.
  unfold noise, blend, weight, plane, lattice_floor, cell_corner. assert (E : Int_part (/ 2) = 0%Z) by (apply int_part_is; lra). rewrite E. cbn [rsum rprod Nat.pow Nat.mul Nat.add].
  unfold lattice_gradient, lattice_hash. cbn. unfold ease. lra.
Qed.
