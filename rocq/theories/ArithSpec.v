(** Floor and ceiling of an exact quotient with positive divisor. *)
From Coq Require Import ZArith.
Open Scope Z_scope.

Definition is_floor (a b q : Z) : Prop := q * b <= a < (q + 1) * b.
Definition is_ceil (a b q : Z) : Prop := (q - 1) * b < a <= q * b.

Definition power_of_two (x : Z) : Prop := exists k, 0 <= k /\ x = 2 ^ k.
