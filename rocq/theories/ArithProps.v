(** C08, C09, C10: integer helpers. *)
From Coq Require Import ZArith Bool Lia.
From Verif Require Import Mem ArithModel ArithSpec ArithProofs.
Open Scope Z_scope.

(** C08.  For every signed width and all representable operands (nonzero divisor, quotient
    representable), positive_mod returns the residue that has the divisor's sign unless the
    intermediate sum overflows, which is undefined behaviour. *)
Theorem positive_mod_signed :
  forall w a b, 2 <= w -> smin w <= a <= smax w -> smin w <= b <= smax w -> b <> 0 ->
  ~ (a = smin w /\ b = -1) ->
  positive_mod_s w a b = if in_signed w (Z.rem a b + b) then Ok (a mod b) else Fault OtherUB.
Proof. exact positive_mod_s_spec. Qed.
Print Assumptions positive_mod_signed.

(** In particular it is always right when twice the divisor is at most 2^(w-1) ... *)
Theorem positive_mod_signed_half :
  forall w a b, 2 <= w -> smin w <= a <= smax w -> 0 < b -> 2 * b <= smax w + 1 ->
  positive_mod_s w a b = Ok (a mod b).
Proof. exact positive_mod_s_ok. Qed.
Print Assumptions positive_mod_signed_half.

Example positive_mod_signed_ex :
  positive_mod_s 32 (-7) 3 = Ok 2 /\ positive_mod_s 32 7 (-3) = Ok (-2) /\
  positive_mod_s 64 (-1) 256 = Ok 255.
Proof. vm_compute. auto. Qed.

(** ... and every larger positive divisor has a dividend that overflows. *)
Theorem positive_mod_signed_overflow_refuted :
  forall w b, 2 <= w -> smax w + 1 < 2 * b -> b <= smax w ->
  positive_mod_s w (b - 1) b = Fault OtherUB.
Proof. exact positive_mod_s_overflow. Qed.
Print Assumptions positive_mod_signed_overflow_refuted.

Theorem positive_mod_unsigned :
  forall w a b, 0 <= w -> 0 <= a < 2 ^ w -> 0 < b -> 2 * b <= 2 ^ w ->
  positive_mod_u w a b = Ok (a mod b).
Proof. exact positive_mod_u_ok. Qed.
Print Assumptions positive_mod_unsigned.

Theorem positive_mod_unsigned_refuted :
  forall w b, 0 <= w -> 2 ^ w < 2 * b - 1 -> b < 2 ^ w ->
  exists r, positive_mod_u w (b - 1) b = Ok r /\ r <> (b - 1) mod b.
Proof. exact positive_mod_u_bad. Qed.
Print Assumptions positive_mod_unsigned_refuted.

Example positive_mod_unsigned_ex :
  2 ^ 32 < 2 * (2 ^ 31 + 5) - 1 < 2 * 2 ^ 32 /\ positive_mod_u 32 10 3 = Ok 1.
Proof. vm_compute. auto. Qed.

(** C09.  For a positive divisor and no overflow in the sum, ceil_div is the ceiling exactly when the
    dividend is above -b or one more than a multiple of b; floor_div is the floor exactly when the
    dividend is at least -b or a multiple of b. *)
Theorem ceil_div_correct_iff :
  forall w, 2 <= w -> forall a b, smin w <= a <= smax w -> 0 < b <= smax w -> a + b <= smax w ->
  exists q, ceil_div_s w a b = Ok q /\ (is_ceil a b q <-> (0 < a + b \/ (b | a - 1))).
Proof. exact ceil_div_s_iff. Qed.
Print Assumptions ceil_div_correct_iff.

Theorem floor_div_correct_iff :
  forall w, 2 <= w -> forall a b, smin w <= a <= smax w -> 0 < b <= smax w -> a + b <= smax w ->
  exists q, floor_div_s w a b = Ok q /\ (is_floor a b q <-> (0 <= a + b \/ (b | a))).
Proof. exact floor_div_s_iff. Qed.
Print Assumptions floor_div_correct_iff.

Theorem ceil_floor_div_refuted :
  (ceil_div_s 32 (-4) 3 = Ok 0 /\ is_ceil (-4) 3 (-1)) /\
  (floor_div_s 32 (-5) 3 = Ok (-1) /\ is_floor (-5) 3 (-2)) /\
  (* negative divisor: 6 / -3 is -2 *)
  (ceil_div_s 32 6 (-3) = Ok 0).
Proof. vm_compute. repeat split; congruence. Qed.
Print Assumptions ceil_floor_div_refuted.

Theorem snap_next_multiple :
  forall w, 2 <= w -> forall a b, smin w <= a <= smax w -> 0 < b <= smax w -> a + b <= smax w ->
  0 < a + b -> Z.quot (a + b - 1) b * b <= smax w ->
  exists r, snap_s w a b = Ok r /\ (b | r) /\ a <= r < a + b.
Proof. exact snap_s_ok. Qed.
Print Assumptions snap_next_multiple.

Theorem ceil_div_unsigned :
  forall w a b, 0 <= w -> 0 <= a -> 0 < b -> a + b < 2 ^ w ->
  exists q, ceil_div_u w a b = Ok q /\ is_ceil a b q.
Proof. exact ceil_div_u_ok. Qed.
Print Assumptions ceil_div_unsigned.

Theorem floor_div_unsigned :
  forall w a b, 0 <= w -> 0 <= a -> 0 < b -> a + b < 2 ^ w ->
  exists q, floor_div_u w a b = Ok q /\ is_floor a b q.
Proof. exact floor_div_u_ok. Qed.
Print Assumptions floor_div_unsigned.

Example div_ex : ceil_div_s 32 7 3 = Ok 3 /\ floor_div_s 32 (-3) 3 = Ok (-1) /\ snap_s 32 7 4 = Ok 8
  /\ ceil_div_u 32 8 3 = Ok 3 /\ floor_div_u 32 8 3 = Ok 2.
Proof. vm_compute. auto. Qed.

(** C10. *)
Theorem is_power_of_two_signed :
  forall w x, 2 <= w -> smin w <= x <= smax w ->
  exists r, is_power_of_two_s w x = Ok r /\ (r = true <-> power_of_two x).
Proof. exact is_power_of_two_s_ok. Qed.
Print Assumptions is_power_of_two_signed.

Theorem is_power_of_two_unsigned :
  forall w x, 0 <= w -> 0 <= x < 2 ^ w -> is_power_of_two_u w x = true <-> power_of_two x.
Proof. exact is_power_of_two_u_ok. Qed.
Print Assumptions is_power_of_two_unsigned.

Example is_power_of_two_ex : is_power_of_two_s 32 (-2147483648) = Ok false /\
  is_power_of_two_s 32 4096 = Ok true /\ is_power_of_two_u 64 (2 ^ 63) = true /\
  is_power_of_two_u 64 0 = false.
Proof. vm_compute. auto. Qed.
