(** Fixed-width unsigned words, represented by their value in [0, 2^w). *)
From Coq Require Import ZArith Bool.
Open Scope Z_scope.

Section Word.
Variable w : Z.
Definition word (x : Z) : Prop := 0 <= x < 2 ^ w.
Definition norm (x : Z) : Z := x mod 2 ^ w.
Definition wadd (x y : Z) : Z := norm (x + y).
Definition wsub (x y : Z) : Z := norm (x - y).
Definition wmul (x y : Z) : Z := norm (x * y).
Definition wxor (x y : Z) : Z := Z.lxor x y.
Definition wand (x y : Z) : Z := Z.land x y.
Definition wor (x y : Z) : Z := Z.lor x y.
Definition wnot (x : Z) : Z := 2 ^ w - 1 - x.
Definition wshl (x k : Z) : Z := norm (Z.shiftl x k).
Definition wshr (x k : Z) : Z := Z.shiftr x k.
(** std::rotl for 0 < k < w. *)
Definition wrotl (x k : Z) : Z := Z.lor (wshl x k) (wshr x (w - k)).
End Word.
