(** Model of the integer helpers of geomc/function/Utils.h.

    [width] is the number of bits of the (already promoted) integer type.  Signed arithmetic that leaves
    the representable range, and division by zero, are [Fault OtherUB] / [Fault DivByZero]; unsigned
    arithmetic wraps. *)
From Coq Require Import ZArith Bool.
From Verif Require Import Mem.
Open Scope Z_scope.
Open Scope res_scope.

Section Signed.
Variable width : Z.

Definition smin : Z := - 2 ^ (width - 1).
Definition smax : Z := 2 ^ (width - 1) - 1.
Definition in_signed (x : Z) : bool := (smin <=? x) && (x <=? smax).

(** Result of a signed operation whose mathematical value is [x]. *)
Definition s_ret (x : Z) : res Z := if in_signed x then Ok x else Fault OtherUB.

Definition s_add (a b : Z) : res Z := s_ret (a + b).
Definition s_sub (a b : Z) : res Z := s_ret (a - b).
Definition s_mul (a b : Z) : res Z := s_ret (a * b).
(** Quotient truncates towards zero; the remainder is undefined when the quotient overflows. *)
Definition s_quot (a b : Z) : res Z :=
  if b =? 0 then Fault DivByZero else s_ret (Z.quot a b).
Definition s_rem (a b : Z) : res Z :=
  if b =? 0 then Fault DivByZero else
  let* _ := s_ret (Z.quot a b) in Ok (Z.rem a b).

(** Utils.h:23-26 [positive_mod] for a signed integer type: [(a % b + b) % b]. *)
Definition positive_mod_s (a b : Z) : res Z :=
  let* r := s_rem a b in
  let* t := s_add r b in
  s_rem t b.

(** Utils.h:221-228 [ceil_div], integral branch: [(a + b - 1) / b]. *)
Definition ceil_div_s (a b : Z) : res Z :=
  let* t := s_add a b in
  let* u := s_sub t 1 in
  s_quot u b.

(** Utils.h:237-240 [snap]: [b * ceil_div(a, b)]. *)
Definition snap_s (a b : Z) : res Z :=
  let* c := ceil_div_s a b in s_mul b c.

(** Utils.h:245-252 [floor_div], integral branch: [(a + b) / b - 1]. *)
Definition floor_div_s (a b : Z) : res Z :=
  let* t := s_add a b in
  let* q := s_quot t b in
  s_sub q 1.

(** Utils.h:254-257 [is_power_of_two]: the second conjunct is evaluated only when the first holds. *)
Definition is_power_of_two_s (x : Z) : res bool :=
  if 0 <? x then let* y := s_sub x 1 in Ok (Z.land x y =? 0) else Ok false.

End Signed.

Section Unsigned.
Variable width : Z.
Definition umod : Z := 2 ^ width.
Definition wrap (x : Z) : Z := x mod umod.

Definition u_rem (a b : Z) : res Z := if b =? 0 then Fault DivByZero else Ok (a mod b).
Definition u_quot (a b : Z) : res Z := if b =? 0 then Fault DivByZero else Ok (a / b).

(** The same functions instantiated at an unsigned type. *)
Definition positive_mod_u (a b : Z) : res Z :=
  let* r := u_rem a b in u_rem (wrap (r + b)) b.
Definition ceil_div_u (a b : Z) : res Z := u_quot (wrap (wrap (a + b) - 1)) b.
Definition floor_div_u (a b : Z) : res Z :=
  let* q := u_quot (wrap (a + b)) b in Ok (wrap (q - 1)).
Definition is_power_of_two_u (x : Z) : bool := (0 <? x) && (Z.land x (wrap (x - 1)) =? 0).
End Unsigned.
