(** What it means for matrices in memory to have given elements. *)
From Coq Require Import ZArith.
From Verif Require Import Mem Fld LayoutModel FlatModel PermModel.
Open Scope Z_scope.

Section Spec.
Context {K : field}.
(** A position of a matrix of a shape. *)
Definition within (rows cols r c : Z) : Prop := 0 <= r < rows /\ 0 <= c < cols.
(** The matrix's element at each position (r, c) is f(r, c), as operator() tells. *)
Definition holds (mem : memory K) (m : flat) (f : Z -> Z -> K) : Prop := forall r c, within (f_rows m) (f_cols m) r c -> f_get mem m r c = Ok (f r c).
Definition shows (mem : memory K) (s : operand K) (f : Z -> Z -> K) : Prop := forall r c, within (o_rows s) (o_cols s) r c -> o_get mem s r c = Ok (f r c).
Definition diag_holds (mem : memory K) (d : diag) (f : Z -> Z -> K) : Prop := forall r c, within (d_rows d) (d_cols d) r c -> d_get mem d r c = Ok (f r c).
(** The addresses of a matrix's storage; nothing outside it changes from [mem] to [mem']. *)
Definition owns (m : flat) (a : Z) : Prop := f_base m <= a < f_base m + f_size m.
Definition only (m : flat) (mem mem' : memory K) : Prop := forall a, ~ owns m a -> mem' a = mem a.
Definition diag_owns (d : diag) (a : Z) : Prop := d_base d <= a < d_base d + d_len d.
Definition diag_only (d : diag) (mem mem' : memory K) : Prop := forall a, ~ diag_owns d a -> mem' a = mem a.
(** The operand is the destination itself, or none of its elements is stored in the destination. *)
Definition clear_of (s : operand K) (d : flat) : Prop :=
  s = Flat d \/ forall mem mem', only d mem mem' -> forall r c, within (o_rows s) (o_cols s) r c -> o_get mem' s r c = o_get mem s r c.
Definition diag_clear_of (s d : diag) : Prop := s = d \/ forall a, diag_owns s a -> ~ diag_owns d a.
Definition same_shape (s : operand K) (d : flat) : Prop := o_rows s = f_rows d /\ o_cols s = f_cols d.
(** A diagonal matrix as its constructor makes it. *)
Definition diag_ok (d : diag) : Prop := 0 <= d_rows d /\ 0 <= d_cols d /\ d_len d = Z.min (d_rows d) (d_cols d).
(** A shape whose fixed dimensions, if any, are those at run time. *)
Definition shape_ok (s : shape) (rows cols : Z) : Prop :=
  s_rows s = rows /\ s_cols s = cols /\ (s_rowdim s = 0 \/ s_rowdim s = rows) /\ (s_coldim s = 0 \/ s_coldim s = cols).
Definition identity (r c : Z) : K := if r =? c then f1 else f0.
(** A destination ends with the elements f and nothing else changed. *)
Definition becomes (d : flat) (mem : memory K) (result : res (memory K)) (f : Z -> Z -> K) : Prop :=
  exists mem', result = Ok mem' /\ holds mem' d f /\ only d mem mem'.
Definition diag_becomes (d : diag) (mem : memory K) (result : res (memory K)) (f : Z -> Z -> K) : Prop :=
  exists mem', result = Ok mem' /\ diag_holds mem' d f /\ diag_only d mem mem'.
End Spec.
