(** Floating-point arithmetic of Utils.h, on the IEEE 754 numbers of Flocq: [prec] bits of mantissa and exponents below [emax] (float:
    24 and 128, double: 53 and 1024, x87 long double: 64 and 16384), with infinities and NaN, rounding to nearest even. *)
From Coq Require Import Reals ZArith.
From Flocq Require Import Core BinarySingleNaN.
Open Scope R_scope.

Section Model.
Variable prec emax : Z.
Context {Hprec : Prec_gt_0 prec} {Hemax : Prec_lt_emax prec emax}.
Notation float := (binary_float prec emax).
(** The operators and std::fma. *)
Definition fl_add (x y : float) : float := Bplus mode_NE x y.
Definition fl_sub (x y : float) : float := Bminus mode_NE x y.
Definition fl_mul (x y : float) : float := Bmult mode_NE x y.
Definition fl_div (x y : float) : float := Bdiv mode_NE x y.
Definition fl_fma (x y z : float) : float := Bfma mode_NE x y z.
Definition fl_neg (x : float) : float := Bopp x.
Definition fl_one : float := Bone.

(** functiondetail/UtilDetail.h:72-77, Utils.h:43-46 *)
Definition fl_diff_of_products (a b c d : float) : float :=
  let cd := fl_mul c d in
  let err := fl_fma (fl_neg c) d cd in
  let x := fl_fma a b (fl_neg cd) in
  fl_add x err.
(** functiondetail/UtilDetail.h:79-84, Utils.h:58-61 *)
Definition fl_sum_of_products (a b c d : float) : float :=
  let cd := fl_mul c d in
  let err := fl_fma c d (fl_neg cd) in
  let x := fl_fma a b cd in
  fl_add x err.
(** functiondetail/UtilDetail.h:86-88, Utils.h:73-76 *)
Definition fl_multiply_add (a b c : float) : float := fl_fma a b c.
(** Utils.h:99-104: mix, of arguments of one floating-point type. *)
Definition fl_mix (t a b : float) : float := fl_sum_of_products (fl_sub fl_one t) a t b.
(** Utils.h:28-32: positive_mod of floating-point numbers; std::floor rounds towards minus infinity (and is exact). *)
Definition fl_positive_mod (a b : float) : float := fl_sub a (fl_mul b (Bnearbyint mode_DN (fl_div a b))).
End Model.
Arguments fl_diff_of_products {prec emax Hprec Hemax}. Arguments fl_sum_of_products {prec emax Hprec Hemax}. Arguments fl_multiply_add {prec emax Hprec Hemax}.
Arguments fl_mix {prec emax Hprec Hemax}. Arguments fl_positive_mod {prec emax Hprec Hemax}.
