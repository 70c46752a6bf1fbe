(** C20 and C44: rasters. *)
From Coq Require Import ZArith List Bool QArith Sorting.Sorted.
From Verif Require Import Mem GridModel GridSpec RasterModel RasterSpec RasterProofs RasterProofs2.
Import ListNotations.
Open Scope Z_scope.

(** C20: every integer coordinate is mapped into [0, extent), inside the raster unchanged, and outside as the
    edge behaviour says. *)
Theorem edge_behaviours e max : edge_ok e max ->
  exists f, (forall c, edge_coord e c max = Ok (f c)) /\ (forall c, 0 <= f c < max) /\
    match e with
    | EClamp => is_clamp f max | EPeriodic => is_periodic f max | EMirror => is_mirror f max | EConstant => True
    end.
Proof. exact (edges_ok e max). Qed.
Print Assumptions edge_behaviours.

(** The reflection laws leave no choice. *)
Theorem mirror_laws_determine f g max : 2 <= max -> is_mirror f max -> is_mirror g max -> forall c, f c = g c.
Proof. exact (mirror_unique f g max). Qed.
Print Assumptions mirror_laws_determine.

(** Mirroring on an axis with a single sample divides by zero. *)
Theorem mirror_single_sample_refuted c : edge_coord EMirror c 1 = Fault DivByZero.
Proof. exact eq_refl. Qed.
Print Assumptions mirror_single_sample_refuted.

(** The flat index is a bijection from the grid points to [0, number of cells). *)
Theorem raster_index_bijective ext : Forall (fun e => 0 < e) ext ->
  exists rk, (forall c, flat_index EConstant ext c 1 0 = Ok (rk c)) /\
  (forall c, in_grid ext c -> 0 <= rk c < array_product ext) /\
  (forall c c', in_grid ext c -> in_grid ext c' -> rk c = rk c' -> c = c') /\
  (forall k, 0 <= k < array_product ext -> exists c, in_grid ext c /\ rk c = k).
Proof.
  exact (fun F => ex_intro _ (fun c => 0 + 1 * rank ext c) (conj (fun c => flat_const ext c 1 0)
    (conj (raster_bij_range ext) (conj (raster_bij_inj ext) (raster_bij_surj ext F))))).
Qed.
Print Assumptions raster_index_bijective.

(** Sampling at any coordinate returns the datum at the coordinate's image under the edge behaviour, without
    leaving the buffer. *)
Theorem sample_any_coordinate (O : Type) (r : raster O) e c :
  raster_ok r -> Forall (edge_ok e) (r_extent r) -> length c = length (r_extent r) ->
  exists c' v, in_grid (r_extent r) c' /\
    Forall2 (fun m xy => edge_coord e (fst xy) m = Ok (snd xy)) (r_extent r) (combine c c') /\
    r_sample e r c = Ok v /\ r_sample EConstant r c' = Ok v.
Proof. exact (sample_edge_ok O r e c). Qed.
Print Assumptions sample_any_coordinate.

(** Inside the raster all edge behaviours agree. *)
Theorem sample_inside (O : Type) (r : raster O) c : raster_ok r -> in_grid (r_extent r) c ->
  exists v, r_sample EConstant r c = Ok v /\ length v = r_chan r /\
    forall e, Forall (edge_ok e) (r_extent r) -> r_sample e r c = Ok v.
Proof. exact (sample_const_ok O r c). Qed.
Print Assumptions sample_inside.

(** set() changes the addressed sample only; outside the raster it does nothing. *)
Theorem raster_set (O : Type) (r : raster O) c v : raster_ok r -> in_grid (r_extent r) c -> length v = r_chan r ->
  exists r', r_set r c v = Ok r' /\ raster_ok r' /\ r_extent r' = r_extent r /\ r_chan r' = r_chan r /\ r_abyss r' = r_abyss r /\
    r_sample EConstant r' c = Ok v /\
    (forall c', in_grid (r_extent r) c' -> c' <> c -> r_sample EConstant r' c' = r_sample EConstant r c').
Proof. exact (set_ok O r c v). Qed.
Print Assumptions raster_set.
Theorem raster_set_outside (O : Type) (r : raster O) c v :
  length c = length (r_extent r) -> ~ in_grid (r_extent r) c -> r_set r c v = Ok r.
Proof. exact (set_outside O r c v). Qed.
Print Assumptions raster_set_outside.

(** A new raster holds zeros. *)
Theorem raster_new (O : Type) (zero : O) dims n : Forall (fun e => 0 < e) dims -> raster_ok (r_new zero dims n) /\
  forall c, in_grid dims c -> r_sample EConstant (r_new zero dims n) c = Ok (repeat zero n).
Proof. exact (new_ok O zero dims n). Qed.
Print Assumptions raster_new.

(** A raster built from existing data holds the values of the cells, the first dimension consecutive and the channels of a cell adjacent; further
    values are not used. *)
Theorem raster_of_data (O : Type) (zero : O) dims n src : Forall (fun e => 0 < e) dims -> array_product dims * Z.of_nat n <= Z.of_nat (length src) ->
  raster_ok (r_of_data zero dims n src) /\
  forall c, in_grid dims c -> exists v, r_sample EConstant (r_of_data zero dims n src) c = Ok v /\ length v = n /\
    forall k, (k < n)%nat -> nth_error v k = nth_error src (Z.to_nat (cell_number dims c) * n + k).
Proof. exact (of_data_ok O zero dims n src). Qed.
Print Assumptions raster_of_data.

(** Outside the raster the constant mode returns the abyss value; with one channel that is an uninitialised
    read until setAbyss() is called. *)
Theorem constant_outside (O : Type) (r : raster O) c v : length c = length (r_extent r) -> ~ in_grid (r_extent r) c ->
  r_sample EConstant (r_set_abyss r v) c = Ok v.
Proof. exact (const_outside O (r_set_abyss r v) c). Qed.
Print Assumptions constant_outside.
Theorem constant_outside_refuted (O : Type) (zero : O) dims c : length c = length dims -> ~ in_grid dims c ->
  r_sample EConstant (r_new zero dims 1) c = Fault DeadRead.
Proof. exact (const_outside O (r_new zero dims 1) c). Qed.
Print Assumptions constant_outside_refuted.

(** copy() delivers the samples of a region in first-dimension-consecutive order, volume() many. *)
Theorem raster_copy (O : Type) (r : raster O) e lo hi : raster_ok r -> Forall (edge_ok e) (r_extent r) ->
  nonempty_box lo hi -> lo <> [] -> length lo = length (r_extent r) ->
  exists vs pts, (forall fuel, (length pts <= fuel)%nat -> r_copy fuel e r lo hi = Some (Ok vs)) /\
    Forall2 (fun p v => r_sample e r p = Ok v) pts vs /\
    Z.of_nat (length vs) = volume lo hi /\ NoDup pts /\ (forall p, In p pts <-> in_box lo hi p) /\
    StronglySorted before pts.
Proof. exact (copy_ok O r e lo hi). Qed.
Print Assumptions raster_copy.

Example raster_example : let r := r_of_data 0 [3; 2] 1 [10; 11; 12; 20; 21; 22] in
  raster_ok r /\ Forall (edge_ok EMirror) (r_extent r) /\
  r_sample EMirror r [-1; 3] = Ok [21] /\ r_sample EPeriodic r [-1; 3] = Ok [22] /\
  r_sample EClamp r [-1; 3] = Ok [20] /\
  r_copy 9 EClamp r [1; 0] [3; 1] = Some (Ok [[11]; [12]; [12]; [21]; [22]; [22]]).
Proof.
  cbv zeta. split; [split; [repeat constructor|reflexivity]|].
  split; [repeat constructor; unfold Z.le; cbn; discriminate|]. repeat split; vm_compute; reflexivity.
Qed.

(** C44: the ends of the domain map to grid coordinates 0 and extent, although the samples end at
    extent - 1. *)
Theorem domain_to_grid ext lo hi : ~ (lo == hi)%Q ->
  (to_grid ext lo hi lo == 0)%Q /\ (to_grid ext lo hi hi == inject_Z ext)%Q.
Proof. exact (to_grid_ends ext lo hi). Qed.
Print Assumptions domain_to_grid.

(** C44: so in the default domain, nearest-neighbour sampling at the position of sample i returns sample i only
    in the first half of the raster. *)
Theorem nearest_sample_refuted ext i : 2 <= ext -> 0 <= i < ext ->
  (nearest_cell ext (fst (default_domain ext)) (snd (default_domain ext)) (inject_Z i) = i <-> 2 * i < ext - 1).
Proof. exact (nearest_default ext i). Qed.
Print Assumptions nearest_sample_refuted.
Example nearest_sample_example : nearest_cell 5 0 4 (inject_Z 3) = 4.
Proof. reflexivity. Qed.

(** C44: for coordinates below the domain the base cell of linear and cubic interpolation is rounded up, so the
    interpolation parameter is never positive (an extrapolation). *)
Theorem linear_parameter_refuted ext lo hi pt : (to_grid ext lo hi pt < 0)%Q ->
  (snd (linear_cell ext lo hi pt) <= 0)%Q.
Proof. exact (linear_negative ext lo hi pt). Qed.
Print Assumptions linear_parameter_refuted.
