(** Model of geomc/Deque.h: a ring buffer over raw storage with a small inline array.

    Simplifications: element constructors, moves and destructors do not throw and allocation succeeds;
    [index_t] arithmetic is unbounded.  Element values are an arbitrary type [A] with a boolean
    equality [eqb] standing for the element's [operator==]. *)
From Coq Require Import ZArith List Bool.
From Verif Require Import Mem.
Import ListNotations.
Open Scope Z_scope.
Open Scope res_scope.

Section Deque.
Context {A : Type}.
Variable eqb : A -> A -> bool.
(** Template parameter [N], the inline capacity (Deque.h:32). *)
Variable N : Z.

Notation mem := (mem A).

(** The data members (Deque.h:50-54).  [inl] names the array [_buf], [data] is where [_data] points. *)
Record deque : Type := mkDeque { inl : nat; data : nat; cap : Z; head : Z; size : Z }.

(** Deque.h:393-400 [item]: slot of the [i]th element. *)
Definition item (d : deque) (i : Z) : res Z := c_rem (head d + i) (cap d).

(** Utils.h:24-26 [positive_mod] on integers. *)
Definition positive_mod (a b : Z) : res Z :=
  let* r := c_rem a b in c_rem (r + b) b.

(** Deque.h:212-227 [operator[]]: slot designated by index [i]. *)
Definition index_slot (d : deque) (i : Z) : res Z :=
  let* j := positive_mod i (size d) in item d j.

(** Deque.h:59-63 default constructor.  The inline array comes into existence with the object. *)
Definition new_default (m : mem) : mem * deque :=
  let (b, m1) := alloc m Inl N in
  (m1, mkDeque b b N 0 0).

(** [new storage_t[n]] with a possibly negative count is undefined (throws); counts used by the class
    are positive because they are guarded by [> N]. *)
Definition new_storage (m : mem) (inlb : nat) (want_heap : bool) (n : Z) : nat * mem :=
  if want_heap then alloc m Heap n else (inlb, m).

(** Deque.h:66-70 constructor with initial capacity. *)
Definition new_cap (m : mem) (c : Z) : mem * deque :=
  let (b, m1) := alloc m Inl N in
  let (dat, m2) := new_storage m1 b (N <? c) c in
  (m2, mkDeque b dat (Z.max c N) 0 0).

(** Loop of Deque.h:83-87: copy a sequence into slots i, i+1, ... *)
Fixpoint construct_seq (m : mem) (b : nat) (i : Z) (l : list A) : res mem :=
  match l with
  | [] => Ok m
  | v :: l' => let* m1 := construct m b i v in construct_seq m1 b (i + 1) l'
  end.

(** Deque.h:77-88 constructor from a sequence of [count] items. *)
Definition new_seq (m : mem) (l : list A) : res (mem * deque) :=
  let count := Z.of_nat (length l) in
  let (b, m1) := alloc m Inl N in
  let (dat, m2) := new_storage m1 b (N <? count) count in
  let* m3 := construct_seq m2 dat 0 l in
  Ok (m3, mkDeque b dat (Z.max count N) 0 count).

(** Loop of Deque.h:97-101: copy-construct [other[i]] into slot [i], for [n] more items. *)
Fixpoint copy_items (m : mem) (b : nat) (other : deque) (i : Z) (n : nat) : res mem :=
  match n with
  | O => Ok m
  | S n' =>
      let* s := index_slot other i in
      let* v := load m (data other) s in
      let* m1 := construct m b i v in
      copy_items m1 b other (i + 1) n'
  end.

(** Deque.h:91-102 copy constructor. *)
Definition copy_ctor (m : mem) (other : deque) : res (mem * deque) :=
  let (b, m1) := alloc m Inl N in
  let (dat, m2) := new_storage m1 b (N <? size other) (cap other) in
  let* m3 := copy_items m2 dat other 0 (Z.to_nat (size other)) in
  Ok (m3, mkDeque b dat (Z.max (cap other) N) 0 (size other)).

(** Loop of Deque.h:113-117 (and 190-196): move [other[i]] into slot [i] of [b] and destroy it. *)
Fixpoint move_items (m : mem) (b : nat) (other : deque) (i : Z) (n : nat) : res mem :=
  match n with
  | O => Ok m
  | S n' =>
      let* s := index_slot other i in
      let* (v, m1) := move_out m (data other) s in
      let* m2 := construct m1 b i v in
      let* s' := index_slot other i in
      let* m3 := destroy m2 (data other) s' in
      move_items m3 b other (i + 1) n'
  end.

(** Deque.h:105-126 move constructor.  Returns memory, the new deque and the emptied source. *)
Definition move_ctor (m : mem) (other : deque) : res (mem * deque * deque) :=
  let (b, m1) := alloc m Inl N in
  let dyn := N <? cap other in
  let dat := if dyn then data other else b in
  let hd := if dyn then head other else 0 in
  let* (m2, other1) :=
    (if cap other <=? N then
       let* m2 := move_items m1 dat other 0 (Z.to_nat (size other)) in Ok (m2, other)
     else Ok (m1, mkDeque (inl other) (inl other) N (head other) (size other))) in
  Ok (m2, mkDeque b dat (cap other) hd (size other),
      mkDeque (inl other1) (data other1) (cap other1) 0 0).

(** Loop of Deque.h:130-132 (also 169-171, 342-344): destroy items [i .. i+n). *)
Fixpoint destroy_items (m : mem) (d : deque) (i : Z) (n : nat) : res mem :=
  match n with
  | O => Ok m
  | S n' =>
      let* s := item d i in
      let* m1 := destroy m (data d) s in
      destroy_items m1 d (i + 1) n'
  end.

(** Deque.h:129-139 destructor, followed by the end of the inline array's lifetime. *)
Definition dtor (m : mem) (d : deque) : res mem :=
  let* m1 := destroy_items m d 0 (Z.to_nat (size d)) in
  let* m2 := (if (N <? cap d) && (0 <? cap d) then release m1 Heap (data d) else Ok m1) in
  release m2 Inl (inl d).

(** Loop of Deque.h:360-366: move item i to slot i of the new array and destroy the source. *)
Fixpoint reserve_items (m : mem) (d : deque) (arr : nat) (i : Z) (n : nat) : res mem :=
  match n with
  | O => Ok m
  | S n' =>
      let* s := item d i in
      let* (v, m1) := move_out m (data d) s in
      let* m2 := construct m1 arr i v in
      let* s' := item d i in
      let* m3 := destroy m2 (data d) s' in
      reserve_items m3 d arr (i + 1) n'
  end.

(** Deque.h:354-376 [reserve]. *)
Definition reserve (m : mem) (d : deque) (new_cap : Z) : res (mem * deque) :=
  if cap d <? new_cap then
    let resize_to := Z.max (cap d * 2) new_cap in
    let (arr, m1) := alloc m Heap resize_to in
    let* m2 := reserve_items m1 d arr 0 (Z.to_nat (size d)) in
    let* m3 := (if N <? cap d then release m2 Heap (data d) else Ok m2) in
    Ok (m3, mkDeque (inl d) arr resize_to 0 (size d))
  else Ok (m, d).

(** Deque.h:263-270 [push_back] of a value that does not live inside the deque. *)
Definition push_back (m : mem) (d : deque) (v : A) : res (mem * deque) :=
  let* (m1, d1) := reserve m d (size d + 1) in
  let* s := item d1 (size d1) in
  let* m2 := construct m1 (data d1) s v in
  Ok (m2, mkDeque (inl d1) (data d1) (cap d1) (head d1) (size d1 + 1)).

(** Deque.h:263-270 called as [d.push_back(d[i])]: the argument is a reference into the deque's own
    storage, taken before [reserve] runs and read after it. *)
Definition push_back_ref (m : mem) (d : deque) (i : Z) : res (mem * deque) :=
  let* r := index_slot d i in
  let refb := data d in
  let* (m1, d1) := reserve m d (size d + 1) in
  let* s := item d1 (size d1) in
  let* v := load m1 refb r in
  let* m2 := construct m1 (data d1) s v in
  Ok (m2, mkDeque (inl d1) (data d1) (cap d1) (head d1) (size d1 + 1)).

(** Deque.h:279-288 [push_front]. *)
Definition push_front (m : mem) (d : deque) (v : A) : res (mem * deque) :=
  let* (m1, d1) := reserve m d (size d + 1) in
  let n := cap d1 in
  let* h := c_rem (head d1 + n - 1) n in
  let* m2 := construct m1 (data d1) h v in
  Ok (m2, mkDeque (inl d1) (data d1) (cap d1) h (size d1 + 1)).

(** Deque.h:295-305 [pop_front]. *)
Definition pop_front (m : mem) (d : deque) : res (mem * deque * option A) :=
  if size d =? 0 then Ok (m, d, None) else
  let old := head d in
  let* h := c_rem (head d + 1) (cap d) in
  let* (v, m1) := move_out m (data d) old in
  let* m2 := destroy m1 (data d) old in
  Ok (m2, mkDeque (inl d) (data d) (cap d) h (size d - 1), Some v).

(** Deque.h:308-317 [pop_back]. *)
Definition pop_back (m : mem) (d : deque) : res (mem * deque * option A) :=
  if size d =? 0 then Ok (m, d, None) else
  let* i := c_rem (head d + size d - 1) (cap d) in
  let* (v, m1) := move_out m (data d) i in
  let* m2 := destroy m1 (data d) i in
  Ok (m2, mkDeque (inl d) (data d) (cap d) (head d) (size d - 1), Some v).

(** Deque.h:320-327 [front]. *)
Definition front (m : mem) (d : deque) : res A := load m (data d) (head d).

(** Deque.h:330-337 [back]. *)
Definition back (m : mem) (d : deque) : res A :=
  let* s := item d (size d - 1) in load m (data d) s.

(** Deque.h:212-227 [operator[]] used for reading. *)
Definition get (m : mem) (d : deque) (i : Z) : res A :=
  let* s := index_slot d i in load m (data d) s.

(** Deque.h:212-215 [operator[]] used as the target of an assignment. *)
Definition set (m : mem) (d : deque) (i : Z) (v : A) : res mem :=
  let* s := index_slot d i in assign m (data d) s v.

(** Deque.h:340-347 [clear]. *)
Definition clear (m : mem) (d : deque) : res (mem * deque) :=
  let* m1 := destroy_items m d 0 (Z.to_nat (size d)) in
  Ok (m1, mkDeque (inl d) (data d) (cap d) 0 0).

(** Loop of Deque.h:148-150: assign [other[i]] to [this[i]]. *)
Fixpoint assign_items (m : mem) (d other : deque) (i : Z) (n : nat) : res mem :=
  match n with
  | O => Ok m
  | S n' =>
      let* so := index_slot other i in
      let* v := load m (data other) so in
      let* s := index_slot d i in
      let* m1 := assign m (data d) s v in
      assign_items m1 d other (i + 1) n'
  end.

(** Loop of Deque.h:152-155: copy-construct items past the old size. *)
Fixpoint extend_items (m : mem) (d other : deque) (i : Z) (n : nat) : res mem :=
  match n with
  | O => Ok m
  | S n' =>
      let* s := item d i in
      let* so := index_slot other i in
      let* v := load m (data other) so in
      let* m1 := construct m (data d) s v in
      extend_items m1 d other (i + 1) n'
  end.

(** Deque.h:142-164 copy assignment [d = other].  When both names denote the same object pass
    the same record twice: nothing is reallocated in that case ([reserve(size)] is a no-op). *)
Definition copy_assign (m : mem) (d other : deque) : res (mem * deque) :=
  let old_size := size d in
  let new_size := size other in
  let n := Z.min old_size new_size in
  let* (m1, d1) := reserve m d new_size in
  let* m2 := assign_items m1 d1 other 0 (Z.to_nat n) in
  let* m3 := extend_items m2 d1 other n (Z.to_nat (new_size - n)) in
  let* m4 := destroy_items m3 d1 n (Z.to_nat (old_size - n)) in
  Ok (m4, mkDeque (inl d1) (data d1) (cap d1) (head d1) new_size).

(** Deque.h:167-203 move assignment between two distinct objects. *)
Definition move_assign (m : mem) (d other : deque) : res (mem * deque * deque) :=
  let* m1 := destroy_items m d 0 (Z.to_nat (size d)) in
  if N <? cap other then
    let* m2 := (if N <? cap d then release m1 Heap (data d) else Ok m1) in
    Ok (m2, mkDeque (inl d) (data other) (cap other) (head other) (size other),
        mkDeque (inl other) (inl other) N 0 0)
  else
    let* m2 := move_items m1 (data d) other 0 (Z.to_nat (size other)) in
    Ok (m2, mkDeque (inl d) (data d) (cap d) 0 (size other),
        mkDeque (inl other) (data other) (cap other) 0 0).

(** Deque.h:167-203 with [&other == this]: every write to a member of [*this] is a write to [other]. *)
Definition move_assign_self (m : mem) (d : deque) : res (mem * deque) :=
  let* m1 := destroy_items m d 0 (Z.to_nat (size d)) in
  if N <? cap d then
    let* m2 := release m1 Heap (data d) in
    (* _data = other._data; ...; other._data = other._buf; other._capacity = N; then sizes *)
    Ok (m2, mkDeque (inl d) (inl d) N 0 0)
  else
    let d0 := mkDeque (inl d) (data d) (cap d) 0 (size d) in
    let* m2 := move_items m1 (data d0) d0 0 (Z.to_nat (size d0)) in
    Ok (m2, mkDeque (inl d0) (data d0) (cap d0) 0 0).

(** Deque.h:234-241 [operator==]; the same object compares equal without looking at the items. *)
Fixpoint equal_items (m : mem) (d other : deque) (i : Z) (n : nat) : res bool :=
  match n with
  | O => Ok true
  | S n' =>
      let* s := index_slot d i in
      let* so := index_slot other i in
      let* v := load m (data d) s in
      let* w := load m (data other) so in
      if eqb v w then equal_items m d other (i + 1) n' else Ok false
  end.

Definition equal (m : mem) (same : bool) (d other : deque) : res bool :=
  if same then Ok true
  else if negb (size d =? size other) then Ok false
  else equal_items m d other 0 (Z.to_nat (size d)).

(** ** Programs over any number of deque variables. *)

Inductive op : Type :=
| ONew (x : nat) | ONewCap (x : nat) (c : Z) | ONewSeq (x : nat) (l : list A)
| OCopyNew (x y : nat)      (* Deque x(y) *)
| OMoveNew (x y : nat)      (* Deque x(std::move(y)) *)
| ODestroy (x : nat)
| OCopyAssign (x y : nat)   (* x = y *)
| OMoveAssign (x y : nat)   (* x = std::move(y) *)
| OPushBack (x : nat) (v : A) | OPushFront (x : nat) (v : A)
| OPushBackRef (x : nat) (i : Z)   (* x.push_back(x[i]) *)
| OPopBack (x : nat) | OPopFront (x : nat)
| OClear (x : nat) | OReserve (x : nat) (c : Z)
| OGet (x : nat) (i : Z) | OSet (x : nat) (i : Z) (v : A)
| OFront (x : nat) | OBack (x : nat) | OSize (x : nat) | OCapacity (x : nat)
| OEqual (x y : nat).

Inductive out : Type :=
| OutUnit | OutVal (v : A) | OutOpt (v : option A) | OutInt (n : Z) | OutBool (b : bool).

Record world : Type := mkWorld { wmem : mem; env : nat -> option deque }.

Definition world0 : world := mkWorld mem0 (fun _ => None).

Definition upd {B} (f : nat -> option B) (x : nat) (v : option B) : nat -> option B :=
  fun y => if Nat.eqb y x then v else f y.

Definition lookup (w : world) (x : nat) : res deque :=
  match env w x with Some d => Ok d | None => Fault NotAlive end.

(** Declaring a variable that already exists is not a program. *)
Definition fresh (w : world) (x : nat) : res unit :=
  match env w x with Some _ => Fault NotAlive | None => Ok tt end.

Definition step (w : world) (o : op) : res (world * out) :=
  match o with
  | ONew x =>
      let* _ := fresh w x in
      let (m, d) := new_default (wmem w) in
      Ok (mkWorld m (upd (env w) x (Some d)), OutUnit)
  | ONewCap x c =>
      let* _ := fresh w x in
      let (m, d) := new_cap (wmem w) c in
      Ok (mkWorld m (upd (env w) x (Some d)), OutUnit)
  | ONewSeq x l =>
      let* _ := fresh w x in
      let* (m, d) := new_seq (wmem w) l in
      Ok (mkWorld m (upd (env w) x (Some d)), OutUnit)
  | OCopyNew x y =>
      let* _ := fresh w x in
      let* dy := lookup w y in
      let* (m, d) := copy_ctor (wmem w) dy in
      Ok (mkWorld m (upd (env w) x (Some d)), OutUnit)
  | OMoveNew x y =>
      let* _ := fresh w x in
      let* dy := lookup w y in
      let* (m, d, dy') := move_ctor (wmem w) dy in
      Ok (mkWorld m (upd (upd (env w) y (Some dy')) x (Some d)), OutUnit)
  | ODestroy x =>
      let* d := lookup w x in
      let* m := dtor (wmem w) d in
      Ok (mkWorld m (upd (env w) x None), OutUnit)
  | OCopyAssign x y =>
      let* d := lookup w x in
      let* dy := lookup w y in
      let* (m, d') := copy_assign (wmem w) d dy in
      Ok (mkWorld m (upd (env w) x (Some d')), OutUnit)
  | OMoveAssign x y =>
      let* d := lookup w x in
      let* dy := lookup w y in
      if Nat.eqb x y then
        let* (m, d') := move_assign_self (wmem w) d in
        Ok (mkWorld m (upd (env w) x (Some d')), OutUnit)
      else
        let* (m, d', dy') := move_assign (wmem w) d dy in
        Ok (mkWorld m (upd (upd (env w) y (Some dy')) x (Some d')), OutUnit)
  | OPushBack x v =>
      let* d := lookup w x in
      let* (m, d') := push_back (wmem w) d v in
      Ok (mkWorld m (upd (env w) x (Some d')), OutUnit)
  | OPushFront x v =>
      let* d := lookup w x in
      let* (m, d') := push_front (wmem w) d v in
      Ok (mkWorld m (upd (env w) x (Some d')), OutUnit)
  | OPushBackRef x i =>
      let* d := lookup w x in
      let* (m, d') := push_back_ref (wmem w) d i in
      Ok (mkWorld m (upd (env w) x (Some d')), OutUnit)
  | OPopBack x =>
      let* d := lookup w x in
      let* (m, d', v) := pop_back (wmem w) d in
      Ok (mkWorld m (upd (env w) x (Some d')), OutOpt v)
  | OPopFront x =>
      let* d := lookup w x in
      let* (m, d', v) := pop_front (wmem w) d in
      Ok (mkWorld m (upd (env w) x (Some d')), OutOpt v)
  | OClear x =>
      let* d := lookup w x in
      let* (m, d') := clear (wmem w) d in
      Ok (mkWorld m (upd (env w) x (Some d')), OutUnit)
  | OReserve x c =>
      let* d := lookup w x in
      let* (m, d') := reserve (wmem w) d c in
      Ok (mkWorld m (upd (env w) x (Some d')), OutUnit)
  | OGet x i =>
      let* d := lookup w x in
      let* v := get (wmem w) d i in Ok (w, OutVal v)
  | OSet x i v =>
      let* d := lookup w x in
      let* m := set (wmem w) d i v in Ok (mkWorld m (env w), OutUnit)
  | OFront x =>
      let* d := lookup w x in
      let* v := front (wmem w) d in Ok (w, OutVal v)
  | OBack x =>
      let* d := lookup w x in
      let* v := back (wmem w) d in Ok (w, OutVal v)
  | OSize x => let* d := lookup w x in Ok (w, OutInt (size d))
  | OCapacity x => let* d := lookup w x in Ok (w, OutInt (cap d))
  | OEqual x y =>
      let* d := lookup w x in
      let* dy := lookup w y in
      let* b := equal (wmem w) (Nat.eqb x y) d dy in Ok (w, OutBool b)
  end.

(** Run a whole program, collecting the outputs. *)
Fixpoint run (w : world) (p : list op) : res (world * list out) :=
  match p with
  | [] => Ok (w, [])
  | o :: p' =>
      let* (w1, r) := step w o in
      let* (w2, rs) := run w1 p' in
      Ok (w2, r :: rs)
  end.

End Deque.
Arguments op : clear implicits.
Arguments out : clear implicits.
Arguments world : clear implicits.
