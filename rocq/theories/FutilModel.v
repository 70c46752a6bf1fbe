(** Scalar helpers of Utils.h on floating-point numbers (see FmaModel.v for the numbers and operators; RealUtilModel.v has the functions on
    the reals). *)
From Coq Require Import Reals ZArith Bool.
From Flocq Require Import Core BinarySingleNaN.
From Verif Require Import FmaModel FquadModel FvecModel.

Section Model.
Variable prec emax : Z.
Context {Hprec : Prec_gt_0 prec} {Hemax : Prec_lt_emax prec emax}.
Notation float := (binary_float prec emax).
(** Utils.h:87-90: clamp. *)
Definition fl_clamp (v lo hi : float) : float := fl_max prec emax lo (fl_min prec emax hi v).
(** VecBase.h:786-792: clamp of a vector; only elements below N are written. *)
Definition fl_vclamp (v lo hi : nat -> float) : nat -> float := fun i => fl_min prec emax (fl_max prec emax (v i) (lo i)) (hi i).
(** Utils.h:115-126: interp_linear, of numbers of one type. [p + blocksize] is the array shifted. *)
Fixpoint fl_interp_linear (dim : nat) (s p : nat -> float) : float :=
  match dim with
  | O => fl_mix (s 0%nat) (p 0%nat) (p 1%nat)
  | S next_dim => match next_dim with
    | O => fl_mix (s 0%nat) (p 0%nat) (p 1%nat)
    | S _ => fl_mix (s next_dim) (fl_interp_linear next_dim s p) (fl_interp_linear next_dim s (fun i => p (2 ^ next_dim + i)%nat))
    end
  end.
(** Utils.h:223-230, 248-255: ceil_div and floor_div; std::ceil and std::floor round to an integer upwards and downwards. *)
Definition fl_ceil_div (a b : float) : float := Bnearbyint mode_UP (fl_div prec emax a b).
Definition fl_floor_div (a b : float) : float := Bnearbyint mode_DN (fl_div prec emax a b).
(** Utils.h:235-238: snap. *)
Definition fl_snap (a b : float) : float := fl_mul prec emax b (fl_ceil_div a b).
(** Utils.h:200-214: angle_to; [turn] is 2 * M_PI rounded to the type. *)
Definition fl_angle_to (turn radians_0 radians_1 : float) : float :=
  let a0 := fl_positive_mod radians_0 turn in
  let a1 := fl_positive_mod radians_1 turn in
  let da := fl_sub prec emax a1 a0 in
  let db := fl_sub prec emax a1 (fl_add prec emax a0 turn) in
  let dc := fl_sub prec emax a1 (fl_sub prec emax a0 turn) in
  let err := if fl_ltb prec emax (Babs da) (Babs db) then da else db in
  if fl_ltb prec emax (Babs err) (Babs dc) then err else dc.
End Model.
Arguments fl_clamp {prec emax}. Arguments fl_vclamp {prec emax}. Arguments fl_interp_linear {prec emax Hprec Hemax}.
Arguments fl_ceil_div {prec emax Hprec Hemax}. Arguments fl_floor_div {prec emax Hprec Hemax}. Arguments fl_snap {prec emax Hprec Hemax}.
Arguments fl_angle_to {prec emax Hprec Hemax}.
(** Utils.h:201: the constant turn for doubles; M_PI, the double nearest pi, is 7074237752028440 * 2^-51. *)
Definition dbl_turn : binary_float 53 1024 := @fl_lit 53 1024 eq_refl eq_refl 7074237752028440 (-50).
