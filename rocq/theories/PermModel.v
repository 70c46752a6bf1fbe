(** Model of geomc/linalg/mtxtypes/PermutationMatrix.h and of detail::destructive_apply_permutation
    (geomc/linalg/LUDecomp.h).  An index array of length [n] is a function on the naturals; entries at [n] and
    beyond are not part of the array.  Indices are taken to be in range, which holds whenever the arrays hold
    permutations (that they always do is a theorem). *)
From Coq Require Import ZArith List Bool Arith.
From Verif Require Import Mem.
Import ListNotations.
Open Scope nat_scope.

(** Array element assignment [f[i] = x]. *)
Definition upd {A : Type} (f : nat -> A) (i : nat) (x : A) : nat -> A := fun j => if j =? i then x else f j.
(** std::swap(f[a], f[b]). *)
Definition swap {A : Type} (f : nat -> A) (a b : nat) : nat -> A := upd (upd f a (f b)) b (f a).

(** PermutationMatrix.h:30-80, 107-111: source map, destination map and cached sign (0 = not computed). *)
Record pmat : Type := mkP { src : nat -> nat; dst : nat -> nat; psign : Z }.

(** [for (i = 0; i < n; i++) inv[p[i]] = i]. *)
Definition fill_inverse (n : nat) (p inv : nat -> nat) : nat -> nat :=
  fold_left (fun inv i => upd inv (p i) i) (seq 0 n) inv.
(** std::copy(p, p + n, a). *)
Definition copy_n (n : nat) (p a : nat -> nat) : nat -> nat := fun i => if i <? n then p i else a i.

(** PermutationMatrix.h:253-262 (and 320-322, the alias setColDestinations). *)
Definition set_row_sources (n : nat) (m : pmat) (p : nat -> nat) : pmat :=
  let s := copy_n n p (src m) in mkP s (fill_inverse n s (dst m)) 0.
(** PermutationMatrix.h:276-285 (and 300-302, the alias setRowDestinations). *)
Definition set_col_sources (n : nat) (m : pmat) (p : nat -> nat) : pmat :=
  let d := copy_n n p (dst m) in mkP (fill_inverse n d (src m)) d 0.
(** PermutationMatrix.h:335-344. *)
Definition swap_rows (m : pmat) (a b : nat) : pmat :=
  let d1 := upd (dst m) (src m a) b in
  let d2 := upd d1 (src m b) a in
  mkP (swap (src m) a b) d2 (psign m * -1).
(** PermutationMatrix.h:354-363. *)
Definition swap_cols (m : pmat) (a b : nat) : pmat :=
  let s1 := upd (src m) (dst m a) b in
  let s2 := upd s1 (dst m b) a in
  mkP s2 (swap (dst m) a b) (psign m * -1).
(** PermutationMatrix.h:371-373. *)
Definition pelem (m : pmat) (row col : nat) : bool := src m row =? col.
(** PermutationMatrix.h:378-386, 121-131: identity; also the constructors. *)
Definition set_identity (n : nat) (m : pmat) : pmat := mkP (copy_n n (fun i => i) (src m)) (copy_n n (fun i => i) (dst m)) 1.
(** PermutationMatrix.h:391-393: swaps the two pointers. *)
Definition ptranspose (m : pmat) : pmat := mkP (dst m) (src m) (psign m).
(** PermutationMatrix.h:145-161: sign().  When the sign is not cached it is computed and stored, but control then
    flows off the end of a value-returning function: undefined behaviour. *)
Definition sign (m : pmat) : res Z := if (psign m =? 0)%Z then Fault OtherUB else Ok (psign m).

(** PermutationMatrix.h:452-468 [permutation_apply].  The inner do-while loop from position [i]; [fuel] bounds the
    number of rounds ([None]: bound exceeded). *)
Fixpoint apply_cycle {A : Type} (fuel i cur next : nat) (p : nat -> nat) (v : nat -> A) : option ((nat -> nat) * (nat -> A)) :=
  match fuel with
  | O => None
  | S fuel' =>
      let v1 := swap v cur next in
      let cur1 := next in
      let next1 := p next in
      let p1 := upd p cur1 cur1 in
      if next1 =? i then Some (p1, v1) else apply_cycle fuel' i cur1 next1 p1 v1
  end.
Fixpoint apply_from {A : Type} (n : nat) (is : list nat) (p : nat -> nat) (v : nat -> A) : option ((nat -> nat) * (nat -> A)) :=
  match is with
  | [] => Some (p, v)
  | i :: is' =>
      if p i =? i then apply_from n is' p v
      else match apply_cycle n i i (p i) p v with
           | Some (p', v') => apply_from n is' p' v'
           | None => None
           end
  end.
Definition permutation_apply {A : Type} (p : nat -> nat) (n : nat) (v : nat -> A) : option ((nat -> nat) * (nat -> A)) :=
  apply_from n (seq 0 n) p v.
(** LUDecomp.h:36-66 [destructive_apply_permutation] is the same loop with matrix rows as elements: the inner loop
    over [j] swaps the [m] entries of two rows. *)
Definition destructive_apply_permutation {A : Type} (p : nat -> nat) (M : nat -> nat -> A) (n : nat) :
  option ((nat -> nat) * (nat -> nat -> A)) := permutation_apply p n M.

(** PermutationMatrix.h:478-497 [permutation_sign]. *)
Fixpoint sign_cycle (fuel i cur : nat) (p : nat -> nat) (odd : bool) : option ((nat -> nat) * bool) :=
  match fuel with
  | O => None
  | S fuel' =>
      let next := p cur in
      let odd1 := negb odd in
      let p1 := upd p cur cur in
      if next =? i then Some (p1, odd1) else sign_cycle fuel' i next p1 odd1
  end.
Fixpoint sign_from (n : nat) (is : list nat) (p : nat -> nat) (odd : bool) : option ((nat -> nat) * bool) :=
  match is with
  | [] => Some (p, odd)
  | i :: is' =>
      if p i =? i then sign_from n is' p odd
      else match sign_cycle n i i p odd with
           | Some (p', odd') => sign_from n is' p' odd'
           | None => None
           end
  end.
(** Result: the array afterwards and the returned sign. *)
Definition permutation_sign (p : nat -> nat) (n : nat) : option ((nat -> nat) * Z) :=
  match sign_from n (seq 0 n) p false with
  | Some (p', odd) => Some (p', if odd then (-1)%Z else 1%Z)
  | None => None
  end.

(** PermutationMatrix.h:423-437 [_compute_sign] (private, not called anywhere): [buf] marks visited positions. *)
Fixpoint mark_cycle (fuel j : nat) (p : nat -> nat) (buf : nat -> bool) (odd : bool) : option ((nat -> bool) * bool) :=
  match fuel with
  | O => None
  | S fuel' => if buf j then Some (buf, odd) else mark_cycle fuel' (p j) p (upd buf j true) (negb odd)
  end.
Fixpoint compute_from (n : nat) (is : list nat) (p : nat -> nat) (buf : nat -> bool) (odd : bool) : option bool :=
  match is with
  | [] => Some odd
  | i :: is' =>
      if buf i then compute_from n is' p buf odd
      else match mark_cycle (S n) (p i) p (upd buf i true) odd with
           | Some (buf', odd') => compute_from n is' p buf' odd'
           | None => None
           end
  end.
Definition compute_sign (p : nat -> nat) (n : nat) : option bool :=
  compute_from n (seq 0 n) p (fun _ => false) false.
