(** Boxes of floating-point numbers. *)
From Coq Require Import Reals ZArith Lia Lra.
From Flocq Require Import Core BinarySingleNaN.
From Verif Require Import FmaModel FmaSpec FmaProofs FquadModel FvecModel FvecSpec FmtxSpec FboxModel FboxSpec FboxProofs FboxMore FboxWit.
Open Scope R_scope.

Section Props.
Variable prec emax : Z.
Context {Hp : Prec_gt_0 prec} {He : Prec_lt_emax prec emax}.
Notation float := (binary_float prec emax).
Notation point := (nat -> float).
Notation box := (fl_box prec emax).

(** contains tests exactly whether the point lies between the extremes, infinite ones included ... *)
Theorem flbox_contains : forall (N : nat) (b : box) (p : point), proper N b -> not_nan N p -> (fl_contains N b p = true <-> in_box N b p).
Proof. exact (contains_spec prec emax). Qed.
Print Assumptions flbox_contains.

(** ... but the point of NaNs is contained in every box, also in empty ones. *)
Theorem flbox_contains_nan_refuted : forall (N : nat) (b : box), fl_contains N b (fun _ => B754_nan) = true.
Proof. exact (contains_nan prec emax). Qed.
Print Assumptions flbox_contains_nan_refuted.

Theorem flbox_is_empty : forall (N : nat) (b : box), proper N b -> (fl_is_empty N b = true <-> ~ upright N b).
Proof. exact (empty_spec prec emax). Qed.
Print Assumptions flbox_is_empty.

(** The default box is empty, and its union with a box of numbers is that box. *)
Theorem flbox_default_identity : forall (N : nat) (b : box) (i : nat), (3 <= prec)%Z -> bounded_box N b -> (i < N)%nat -> fl_is_empty N (@fl_default_box prec emax Hp He) = true /\
  same_number (fl_lo (fl_union fl_default_box b) i) (fl_lo b i) /\ same_number (fl_hi (fl_union fl_default_box b) i) (fl_hi b i) /\
  same_number (fl_lo (fl_union b fl_default_box) i) (fl_lo b i) /\ same_number (fl_hi (fl_union b fl_default_box) i) (fl_hi b i).
Proof. intros N b i P3 B I. split; [apply (default_empty prec emax P3); lia|exact (default_union prec emax P3 N b i B I)]. Qed.
Print Assumptions flbox_default_identity.

(** The union contains both boxes, and no box containing both is smaller. *)
Theorem flbox_union : forall (N : nat) (a b : box), proper N a -> proper N b ->
  (forall p, in_box N a p \/ in_box N b p -> in_box N (fl_union a b) p) /\
  forall c : box, proper N c -> (forall i, (i < N)%nat -> place (fl_lo c i) <= place (fl_lo a i) /\ place (fl_lo c i) <= place (fl_lo b i) /\ place (fl_hi a i) <= place (fl_hi c i) /\ place (fl_hi b i) <= place (fl_hi c i)) ->
  forall i, (i < N)%nat -> place (fl_lo c i) <= place (fl_lo (fl_union a b) i) /\ place (fl_hi (fl_union a b) i) <= place (fl_hi c i).
Proof. intros N a b A B. split; [intros p; exact (union_in prec emax N a b p A B)|intros c C; exact (union_least prec emax N a b c A B C)]. Qed.
Print Assumptions flbox_union.

Theorem flbox_intersection : forall (N : nat) (a b : box) (p : point), proper N a -> proper N b -> (in_box N (fl_intersection a b) p <-> in_box N a p /\ in_box N b p).
Proof. exact (intersection_in prec emax). Qed.
Print Assumptions flbox_intersection.

(** The box spanned by two corners contains exactly what lies between them on each axis, in whichever order they come. *)
Theorem flbox_spanning : forall (N : nat) (c1 c2 p : point), not_nan N c1 -> not_nan N c2 -> not_nan N p ->
  (in_box N (fl_spanning c1 c2) p <-> forall i, (i < N)%nat -> Rmin (place (c1 i)) (place (c2 i)) <= place (p i) <= Rmax (place (c1 i)) (place (c2 i))).
Proof.
  intros N c1 c2 p N1 N2 NP. split; [|exact (span_in prec emax N c1 c2 p N1 N2 NP)]. intros H i I. destruct (H i I) as (_ & L).
  cbn [fl_spanning fl_lo fl_hi] in L. unfold fl_vmin, fl_vmax in L. destruct (min_place prec emax (c1 i) (c2 i)) as (_ & E1); auto. destruct (max_place prec emax (c1 i) (c2 i)) as (_ & E2); auto. rewrite <- E1, <- E2. exact L.
Qed.
Print Assumptions flbox_spanning.

(** clip gives the place of the box nearest to the point; NaN coordinates are moved into a non-empty box too. *)
Theorem flbox_clip : forall (N : nat) (b : box) (p : point) (i : nat), proper N b -> (i < N)%nat -> is_nan (fl_clip b p i) = false /\
  (is_nan (p i) = false -> place (fl_clip b p i) = Rmin (place (fl_hi b i)) (Rmax (place (fl_lo b i)) (place (p i)))) /\
  (is_nan (p i) = true -> place (fl_clip b p i) = Rmin (place (fl_hi b i)) (place (fl_lo b i))).
Proof. exact (clip_place prec emax). Qed.
Print Assumptions flbox_clip.

(** A box moved by a vector contains the moved points of the box, all sums rounded. *)
Theorem flbox_translate : forall (N : nat) (b : box) (p t : point), proper N b -> all_finite N p -> all_finite N t -> in_box N b p ->
  in_box N (fl_box_add b t) (fun i => fl_add prec emax (p i) (t i)) /\ in_box N (fl_box_sub b t) (fun i => fl_sub prec emax (p i) (t i)).
Proof. exact (translate_in prec emax). Qed.
Print Assumptions flbox_translate.

(** A scaled box contains the scaled points, also for negative factors. *)
Theorem flbox_scale : forall (N : nat) (b : box) (p a : point), bounded_box N b -> all_finite N p -> all_finite N a -> in_box N b p ->
  in_box N (fl_box_mul b a) (fun i => fl_mul prec emax (p i) (a i)) /\
  ((forall i, (i < N)%nat -> B2R (a i) <> 0) -> in_box N (fl_box_div b a) (fun i => fl_div prec emax (p i) (a i))).
Proof. intros N b p a B P A H. split; [exact (scale_in prec emax N b p a B P A H)|intros Z; exact (shrink_in prec emax N b p a B P A Z H)]. Qed.
Print Assumptions flbox_scale.

Theorem flbox_minkowski : forall (N : nat) (a b : box) (p q : point), proper N a -> proper N b -> all_finite N p -> all_finite N q -> in_box N a p -> in_box N b q ->
  in_box N (fl_minkowski a b) (fun i => fl_add prec emax (p i) (q i)).
Proof. exact (minkowski_in prec emax). Qed.
Print Assumptions flbox_minkowski.

(** A dilated box contains the box it was made from. *)
Theorem flbox_dilated : forall (N : nat) (b : box) (c p : point), proper N b -> all_finite N c -> (forall i, (i < N)%nat -> 0 <= B2R (c i)) -> in_box N b p -> in_box N (fl_dilated b c) p.
Proof. exact (dilated_in prec emax). Qed.
Print Assumptions flbox_dilated.

(** The center is in the box and near the middle, unless the sum of the extremes overflows ... *)
Theorem flbox_center : forall (b : box) (i : nat), (2 <= prec)%Z -> is_finite (fl_add prec emax (fl_hi b i) (fl_lo b i)) = true -> place (fl_lo b i) <= place (fl_hi b i) ->
  is_finite (fl_center b i) = true /\ B2R (fl_lo b i) <= B2R (fl_center b i) <= B2R (fl_hi b i) /\
  let mid := (B2R (fl_lo b i) + B2R (fl_hi b i)) / 2 in Rabs (B2R (fl_center b i) - mid) <= (step prec ^ 2 - 1) * Rabs mid + bpow radix2 (FmaSpec.emin prec emax - 1).
Proof. intros b i P2 F L. destruct (center_in prec emax P2 b i F L) as (A & B). split; [exact A|]. split; [exact B|]. exact (center_accurate prec emax P2 b i F). Qed.
Print Assumptions flbox_center.

(** ... in which case it is infinite and outside the box. *)
Theorem flbox_center_refuted : forall (b : box) (i : nat), (2 <= prec)%Z -> is_finite (fl_lo b i) = true -> is_finite (fl_hi b i) = true -> is_finite (fl_add prec emax (fl_hi b i) (fl_lo b i)) = false ->
  is_finite (fl_center b i) = false /\ (place (fl_center b i) < place (fl_lo b i) \/ place (fl_hi b i) < place (fl_center b i)).
Proof. exact (fun b i P2 => center_overflow prec emax P2 b i). Qed.
Print Assumptions flbox_center_refuted.

(** The dimensions have the sign of the exact ones, are zero only for coinciding extremes, and have one rounding error. *)
Theorem flbox_dimensions : forall (b : box) (i : nat), (2 <= prec)%Z -> is_finite (fl_lo b i) = true -> is_finite (fl_hi b i) = true ->
  (0 < place (fl_dimensions b i) <-> place (fl_lo b i) < place (fl_hi b i)) /\ (place (fl_dimensions b i) = 0 <-> place (fl_lo b i) = place (fl_hi b i)) /\
  (is_finite (fl_dimensions b i) = true -> Rabs (B2R (fl_dimensions b i) - (B2R (fl_hi b i) - B2R (fl_lo b i))) <= bpow radix2 (- prec) * Rabs (B2R (fl_hi b i) - B2R (fl_lo b i))).
Proof. intros b i P2 Fl Fh. destruct (dims_sign prec emax P2 b i Fl Fh) as (A & B). split; [exact A|]. split; [exact B|]. exact (dims_accurate prec emax b i Fl Fh). Qed.
Print Assumptions flbox_dimensions.

(** A box made about a center contains it, also for negative dimensions, and its extremes are half the dimensions away. *)
Theorem flbox_from_center : forall (N : nat) (c dims : point), (2 <= prec)%Z -> all_finite N c -> all_finite N dims -> in_box N (fl_from_center c dims) c /\
  forall i, (i < N)%nat -> 0 <= B2R (dims i) -> is_finite (fl_lo (fl_from_center c dims) i) = true -> is_finite (fl_hi (fl_from_center c dims) i) = true ->
  let err := (step prec ^ 2 - 1) * (Rabs (B2R (c i)) + B2R (dims i) / 2) + step prec * bpow radix2 (FmaSpec.emin prec emax - 1) in
  Rabs (B2R (fl_lo (fl_from_center c dims) i) - (B2R (c i) - B2R (dims i) / 2)) <= err /\ Rabs (B2R (fl_hi (fl_from_center c dims) i) - (B2R (c i) + B2R (dims i) / 2)) <= err.
Proof. intros N c dims P2 C D. split; [exact (from_center_in prec emax P2 N c dims C D)|]. intros i I P L H. exact (from_center_accurate prec emax P2 c dims i (C i I) (D i I) P L H). Qed.
Print Assumptions flbox_from_center.

(** unmap takes points of the box to [0, 1], the extremes to 0 and 1 exactly, and other points near their exact parameters. *)
Theorem flbox_unmap : forall (b : box) (p : point) (i : nat), (3 <= prec)%Z -> is_finite (p i) = true -> is_finite (fl_sub prec emax (fl_hi b i) (fl_lo b i)) = true -> is_finite (fl_lo b i) = true -> is_finite (fl_hi b i) = true ->
  B2R (fl_lo b i) <= B2R (p i) <= B2R (fl_hi b i) -> B2R (fl_lo b i) < B2R (fl_hi b i) ->
  is_finite (fl_unmap b p i) = true /\ 0 <= B2R (fl_unmap b p i) <= 1 /\ B2R (fl_unmap b (fl_lo b) i) = 0 /\ B2R (fl_unmap b (fl_hi b) i) = 1 /\
  let q := (B2R (p i) - B2R (fl_lo b i)) / (B2R (fl_hi b i) - B2R (fl_lo b i)) in Rabs (B2R (fl_unmap b p i) - q) <= 4 * bpow radix2 (- prec) * q + bpow radix2 (FmaSpec.emin prec emax - 1).
Proof.
  intros b p i P3 Fp F Fl Fh L12 L. destruct (unmap_value prec emax P3 b p i Fp F Fl Fh L12 L) as (_ & _ & A & B & C). rewrite <- B in C. destruct (unmap_ends prec emax P3 b i F Fl Fh L) as (D & E).
  split; [exact A|]. split; [exact C|]. split; [exact D|]. split; [exact E|]. exact (unmap_accurate prec emax P3 b p i Fp F Fl Fh L12 L).
Qed.
Print Assumptions flbox_unmap.

(** remap takes 0 and 1 to the extremes, and other parameters near their exact points ... *)
Theorem flbox_remap : forall (b : box) (s : point) (i : nat), (3 <= prec)%Z -> is_finite (fl_lo b i) = true -> is_finite (fl_hi b i) = true -> is_finite (s i) = true ->
  (B2R (s i) = 0 -> same_number (fl_remap b s i) (fl_lo b i)) /\ (B2R (s i) = 1 -> same_number (fl_remap b s i) (fl_hi b i)) /\
  (0 <= B2R (s i) <= 1 -> is_finite (fl_remap b s i) = true -> let A := (1 - B2R (s i)) * B2R (fl_lo b i) in let B := B2R (s i) * B2R (fl_hi b i) in
   Rabs (B2R (fl_remap b s i) - (A + B)) <= (step prec ^ 3 - 1) * (Rabs A + Rabs B) + 2 * step prec * bpow radix2 (FmaSpec.emin prec emax - 1)).
Proof. intros b s i P3 Fl Fh Fs. destruct (remap_ends prec emax P3 b s i Fl Fh Fs) as (A & B). split; [exact A|]. split; [exact B|]. exact (remap_accurate prec emax P3 b s i Fl Fh Fs). Qed.
Print Assumptions flbox_remap.

(** A ray from a point of the box meets it at parameter 0, whatever the rounding and overflow on the way. *)
Theorem flbox_ray_inside : forall (N : nat) (b : box) (o d : point), bounded_box N b -> all_finite N o -> all_finite N d -> in_box N b o ->
  exists l r, fl_box_ray N b o d = Some (l, r) /\ is_nan l = false /\ is_nan r = false /\ place l <= 0 <= place r.
Proof. exact (ray_inside prec emax). Qed.
Print Assumptions flbox_ray_inside.

(** The interval of a ray holds the parameters between the rounded passages of the planes of every axis. *)
Theorem flbox_ray_interval : forall (N : nat) (b : box) (o d : point), bounded_box N b -> all_finite N o -> all_finite N d ->
  (forall i, (i < N)%nat -> is_finite (fl_sub prec emax (fl_lo b i) (o i)) = true /\ is_finite (fl_sub prec emax (fl_hi b i) (o i)) = true) ->
  match fl_box_ray N b o d with
  | None => exists i, (i < N)%nat /\ B2R (d i) = 0 /\ ~ (B2R (fl_lo b i) <= B2R (o i) <= B2R (fl_hi b i))
  | Some (l, r) => is_nan l = false /\ is_nan r = false /\ (forall i, (i < N)%nat -> B2R (d i) = 0 -> B2R (fl_lo b i) <= B2R (o i) <= B2R (fl_hi b i)) /\
      forall t, (place l <= t <= place r <-> - bpow radix2 emax <= t <= bpow radix2 emax /\ forall i, (i < N)%nat -> B2R (d i) <> 0 ->
        let near := passes (fl_lo b i) (o i) (d i) in let far := passes (fl_hi b i) (o i) (d i) in Rmin near far <= t <= Rmax near far)
  end.
Proof. exact (ray_interval prec emax). Qed.
Print Assumptions flbox_ray_interval.
End Props.

(** ... but not always inside the box: a parameter of [0, 1] is taken beyond the upper extreme. *)
Theorem flbox_remap_outside_refuted : exists (b : fl_box 53 1024) (s : nat -> binary_float 53 1024), bounded_box 1 b /\ upright 1 b /\ is_finite (s 0%nat) = true /\ 0 <= B2R (s 0%nat) <= 1 /\
  is_finite (fl_remap b s 0%nat) = true /\ B2R (fl_hi b 0%nat) < B2R (fl_remap b s 0%nat).
Proof. exists w_box, (fun _ => w_s). split; [split; intros i _; apply FquadMore.dbl_runs; lia|]. split; [intros i _; apply Rle_refl|]. exact remap_outside. Qed.
Print Assumptions flbox_remap_outside_refuted.

(** Concrete boxes and points. *)
Example flbox_example : let b := fl_mkBox (fun _ => dbl (-3) 0) (fun i => dbl (Z.of_nat i) 0) in let p := fun _ : nat => dbl (-1) 0 in
  bounded_box 3 b /\ all_finite 3 p /\ in_box 3 b p /\ upright 3 b /\ ~ in_box 3 b (fun _ => dbl 1 0).
Proof. exact box_example. Qed.
Example flbox_width_example : let b := fl_mkBox (fun _ : nat => dbl (-3) 0) (fun _ => dbl 5 0) in is_finite (fl_add 53 1024 (fl_hi b 0%nat) (fl_lo b 0%nat)) = true /\ is_finite (fl_sub 53 1024 (fl_hi b 0%nat) (fl_lo b 0%nat)) = true /\
  B2R (fl_lo b 0%nat) < B2R (fl_hi b 0%nat) /\ B2R (fl_center b 0%nat) = 1 /\ B2R (fl_dimensions b 0%nat) = 8 /\ B2R (fl_unmap b (fl_center b) 0%nat) = / 2.
Proof. exact width_example. Qed.
Example flbox_overflow_example : let b := fl_mkBox (fun _ : nat => dbl 4503599627370496 971) (fun _ => dbl 4503599627370496 971) in is_finite (fl_lo b 0%nat) = true /\ is_finite (fl_hi b 0%nat) = true /\ is_finite (fl_add 53 1024 (fl_hi b 0%nat) (fl_lo b 0%nat)) = false.
Proof. exact overflow_example. Qed.
