(** Random floating-point numbers of a range (RandModel.v has the generators and the bit patterns, FmaModel.v the numbers). *)
From Coq Require Import Reals ZArith Bool.
From Flocq Require Import Core BinarySingleNaN.
From Verif Require Import FmaModel FquadModel RandModel.

Section Model.
Variable prec emax : Z.
Context {Hprec : Prec_gt_0 prec} {Hemax : Prec_lt_emax prec emax}.
Notation float := (binary_float prec emax).
(** Random.cpp:151, 181: the number whose bit pattern this is; the sign bit is 0, and the pattern is not that of an infinity or NaN. *)
Definition fl_of_bits (bits : Z) : float :=
  let e := (bits / 2 ^ (prec - 1))%Z in
  let m := (bits mod 2 ^ (prec - 1))%Z in
  if (e =? 0)%Z then fl_lit prec emax m (3 - emax - prec) else fl_lit prec emax (2 ^ (prec - 1) + m) (3 - emax - prec + e - 1).
(** Random.cpp:258-260, 263-265: rand(hi), where [r] is the result of rand(). *)
Definition fl_rand_below (hi r : float) : float := fl_mul prec emax hi r.
(** Random.cpp:287-289, 292-294: rand(lo, hi). *)
Definition fl_rand_range (lo hi r : float) : float := fl_add prec emax (fl_mul prec emax (fl_sub prec emax hi lo) r) lo.
End Model.
Arguments fl_of_bits {prec emax Hprec Hemax}. Arguments fl_rand_below {prec emax Hprec Hemax}. Arguments fl_rand_range {prec emax Hprec Hemax}.

(** The methods, for any generator of words. *)
Section Calls.
Variable S : Type.
Variable next32 : S -> Z * S.
Notation flt := (binary_float 24 128).
Notation dbl := (binary_float 53 1024).
Let F1 : Prec_gt_0 24 := eq_refl. Let F2 : Prec_lt_emax 24 128 := eq_refl. Let D1 : Prec_gt_0 53 := eq_refl. Let D2 : Prec_lt_emax 53 1024 := eq_refl.
(** Random.cpp:126-152, 155-182 *)
Definition rand_float (g : rng S) : flt * rng S := let (b, g) := r_float_bits S next32 g in (@fl_of_bits 24 128 F1 F2 b, g).
Definition rand_double (g : rng S) : dbl * rng S := let (b, g) := r_double_bits S next32 g in (@fl_of_bits 53 1024 D1 D2 b, g).
(** Random.cpp:258-260, 263-265 *)
Definition rand_float_below (hi : flt) (g : rng S) : flt * rng S := let (r, g) := rand_float g in (@fl_rand_below 24 128 F1 F2 hi r, g).
Definition rand_double_below (hi : dbl) (g : rng S) : dbl * rng S := let (r, g) := rand_double g in (@fl_rand_below 53 1024 D1 D2 hi r, g).
(** Random.cpp:287-289, 292-294 *)
Definition rand_float_range (lo hi : flt) (g : rng S) : flt * rng S := let (r, g) := rand_float g in (@fl_rand_range 24 128 F1 F2 lo hi r, g).
Definition rand_double_range (lo hi : dbl) (g : rng S) : dbl * rng S := let (r, g) := rand_double g in (@fl_rand_range 53 1024 D1 D2 lo hi r, g).
End Calls.
