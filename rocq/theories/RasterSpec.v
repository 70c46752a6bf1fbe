(** What the edge behaviours mean, and which rasters are well formed. *)
From Coq Require Import ZArith List Bool.
From Verif Require Import Mem RasterModel.
Import ListNotations.
Open Scope Z_scope.

(** [f] extends the identity of [0, max) to all integers by repetition of the border ... *)
Definition is_clamp (f : Z -> Z) (max : Z) : Prop :=
  (forall c, 0 <= c < max -> f c = c) /\ (forall c, c < 0 -> f c = 0) /\ (forall c, max <= c -> f c = max - 1).
(** ... by repetition of the image ... *)
Definition is_periodic (f : Z -> Z) (max : Z) : Prop :=
  (forall c, 0 <= c < max -> f c = c) /\ (forall c, f (c + max) = f c).
(** ... by reflection about the first and the last sample. *)
Definition is_mirror (f : Z -> Z) (max : Z) : Prop :=
  (forall c, 0 <= c < max -> f c = c) /\ (forall c, f (- c) = f c) /\ (forall c, f (max - 1 + c) = f (max - 1 - c)).

(** Positive extents; [n] channels; data for every cell. *)
Definition raster_ok {O} (r : raster O) : Prop :=
  Forall (fun e => 0 < e) (r_extent r) /\
  Z.of_nat (length (r_data r)) = array_product (r_extent r) * Z.of_nat (r_chan r).

(** A grid point of the raster. *)
Definition in_grid (extent c : list Z) : Prop := Forall2 (fun e x => 0 <= x < e) extent c.

(** Extents on which an edge behaviour is defined (the mirror mode narrows to a 32-bit int). *)
Definition edge_ok (e : edge) (m : Z) : Prop :=
  match e with
  | EClamp | EPeriodic => 0 < m
  | EMirror => 2 <= m <= 2 ^ 31
  | EConstant => False
  end.

(** The number of a grid point in the order with the first dimension consecutive. *)
Fixpoint cell_number (extent c : list Z) : Z :=
  match extent, c with e :: extent', x :: c' => x + e * cell_number extent' c' | _, _ => 0 end.
