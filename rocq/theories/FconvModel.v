(** Conversion of angles and cubic interpolation of floating-point numbers (see FmaModel.v for the numbers and operators; RealUtilModel.v has the
    functions on the reals). The literals of Utils.h are doubles, so the numbers here are doubles, or of a wider type; for [float]s the code calculates
    with doubles and rounds the result. *)
From Coq Require Import Reals ZArith Bool.
From Flocq Require Import Core BinarySingleNaN.
From Verif Require Import FmaModel FquadModel.

Section Model.
Variable prec emax : Z.
Context {Hprec : Prec_gt_0 prec} {Hemax : Prec_lt_emax prec emax}.
Notation float := (binary_float prec emax).
(** Utils.h:135-141: interp_cubic in one dimension; 0.5 * s * (...) is (0.5 * s) * (...). *)
Definition fl_cubic1 (s p0 p1 p2 p3 : float) : float :=
  let add := fl_add prec emax in let sub := fl_sub prec emax in let mul := fl_mul prec emax in
  add p1 (mul (mul (fl_lit prec emax 1 (-1)) s)
    (add (sub p2 p0)
      (mul s (add (sub (add (sub (mul (fl_lit prec emax 2 0) p0) (mul (fl_lit prec emax 5 0) p1)) (mul (fl_lit prec emax 4 0) p2)) p3)
        (mul s (sub (add (mul (fl_lit prec emax 3 0) (sub p1 p2)) p3) p0)))))).
(** Utils.h:152-166: interp_cubic in several dimensions; [p + blocksize] is the array shifted. *)
Fixpoint fl_interp_cubic (dim : nat) (s p : nat -> float) : float :=
  match dim with
  | O => fl_cubic1 (s 0%nat) (p 0%nat) (p 1%nat) (p 2%nat) (p 3%nat)
  | S next_dim => match next_dim with
    | O => fl_cubic1 (s 0%nat) (p 0%nat) (p 1%nat) (p 2%nat) (p 3%nat)
    | S _ =>
      let blocksize := (2 ^ (2 * next_dim))%nat in
      fl_cubic1 (s next_dim) (fl_interp_cubic next_dim s p) (fl_interp_cubic next_dim s (fun i => p (blocksize + i)%nat))
        (fl_interp_cubic next_dim s (fun i => p (2 * blocksize + i)%nat)) (fl_interp_cubic next_dim s (fun i => p (3 * blocksize + i)%nat))
    end
  end.
End Model.
Arguments fl_cubic1 {prec emax Hprec Hemax}. Arguments fl_interp_cubic {prec emax Hprec Hemax}.

Notation dbl_lit := (@fl_lit 53 1024 eq_refl eq_refl).
(** The macro M_PI of <cmath>: the double 7074237752028440 * 2^-51. *)
Definition m_pi : binary_float 53 1024 := dbl_lit 7074237752028440 (-51).
(** Utils.h:267-270: radians, of doubles. *)
Definition fl_radians (degrees : binary_float 53 1024) : binary_float 53 1024 :=
  @fl_div 53 1024 eq_refl eq_refl (@fl_mul 53 1024 eq_refl eq_refl degrees m_pi) (dbl_lit 180 0).
(** Utils.h:275-278: degrees, of doubles. *)
Definition fl_degrees (radians : binary_float 53 1024) : binary_float 53 1024 :=
  @fl_div 53 1024 eq_refl eq_refl (@fl_mul 53 1024 eq_refl eq_refl radians (dbl_lit 180 0)) m_pi.
