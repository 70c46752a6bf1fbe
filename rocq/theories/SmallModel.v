(** Model of geomc/SmallStorage.h: a growable array with a small inline buffer.

    Simplifications: element constructors, moves and destructors do not throw and allocation succeeds;
    [size_t] arithmetic is unbounded.  The destructor loops skipped for trivially destructible element
    types (SmallStorage.h:42, 306) are modelled as run for every type. *)
From Coq Require Import ZArith List Bool.
From Verif Require Import Mem DequeModel.
Import ListNotations.
Open Scope Z_scope.
Open Scope res_scope.

Section Small.
Context {A : Type}.
Variable eqb : A -> A -> bool.
(** Template parameter [N], the inline capacity (SmallStorage.h:30). *)
Variable N : Z.

Notation mem := (mem A).

(** Data members (SmallStorage.h:36-39). *)
Record small : Type := mkSmall { s_inl : nat; s_data : nat; s_cap : Z; s_size : Z }.

(** SmallStorage.h:41-47 [_destroy]; also the loops 308-310. *)
Fixpoint destroy_range (m : mem) (b : nat) (i : Z) (n : nat) : res mem :=
  match n with
  | O => Ok m
  | S n' => let* m1 := destroy m b i in destroy_range m1 b (i + 1) n'
  end.

(** Loops SmallStorage.h:54-57, 147-151, 185-188: move slot i of [src] to slot i of [dst], destroying the
    source. *)
Fixpoint move_range (m : mem) (src dst : nat) (i : Z) (n : nat) : res mem :=
  match n with
  | O => Ok m
  | S n' =>
      let* (v, m1) := move_out m src i in
      let* m2 := construct m1 dst i v in
      let* m3 := destroy m2 src i in
      move_range m3 src dst (i + 1) n'
  end.

(** Loops SmallStorage.h:132-135, 211-213: copy slot i of [src] into slot i of [dst]. *)
Fixpoint copy_range (m : mem) (src dst : nat) (i : Z) (n : nat) : res mem :=
  match n with
  | O => Ok m
  | S n' =>
      let* v := load m src i in
      let* m1 := construct m dst i v in
      copy_range m1 src dst (i + 1) n'
  end.

(** Loops SmallStorage.h:85-88, 120-122, 303-305: construct copies of one value. *)
Fixpoint fill_range (m : mem) (b : nat) (v : A) (i : Z) (n : nat) : res mem :=
  match n with
  | O => Ok m
  | S n' => let* m1 := construct m b i v in fill_range m1 b v (i + 1) n'
  end.

(** SmallStorage.h:49-62 [_ensure_capacity].  The loop bound is the requested [n], as in the code. *)
Definition ensure_capacity (m : mem) (s : small) (n : Z) : res (mem * small) :=
  if s_cap s <? n then
    let new_capacity := Z.max n (s_cap s * 2) in
    let (new_data, m1) := alloc m Heap new_capacity in
    let* m2 := move_range m1 (s_data s) new_data 0 (Z.to_nat n) in
    let* m3 := (if N <? s_cap s then release m2 Heap (s_data s) else Ok m2) in
    Ok (m3, mkSmall (s_inl s) new_data new_capacity (s_size s))
  else Ok (m, s).

(** SmallStorage.h:77 default constructor. *)
Definition s_new (m : mem) : mem * small :=
  let (b, m1) := alloc m Inl N in (m1, mkSmall b b N 0).

(** SmallStorage.h:80-89 ([n] default-constructed items, [v] the default value) and 115-123 ([count]
    copies of a value). *)
Definition s_new_fill (m : mem) (v : A) (n : Z) : res (mem * small) :=
  let (b, m1) := alloc m Inl N in
  let (dat, m2) := new_storage m1 b (N <? n) n in
  let* m3 := fill_range m2 dat v 0 (Z.to_nat n) in
  Ok (m3, mkSmall b dat (Z.max n N) n).

(** SmallStorage.h:92-101 (initializer list; its items are const, so "moving" them copies) and 104-112
    (array of items). *)
Definition s_new_seq (m : mem) (l : list A) : res (mem * small) :=
  let n := Z.of_nat (length l) in
  let (b, m1) := alloc m Inl N in
  let (dat, m2) := new_storage m1 b (N <? Z.max n N) n in
  let* m3 := construct_seq m2 dat 0 l in
  Ok (m3, mkSmall b dat (Z.max n N) n).

(** SmallStorage.h:126-136 copy constructor. *)
Definition s_copy_ctor (m : mem) (o : small) : res (mem * small) :=
  let c := Z.max (s_size o) N in
  let (b, m1) := alloc m Inl N in
  let (dat, m2) := new_storage m1 b (N <? c) (s_size o) in
  let* m3 := copy_range m2 (s_data o) dat 0 (Z.to_nat (s_size o)) in
  Ok (m3, mkSmall b dat c (s_size o)).

(** SmallStorage.h:139-159 move constructor: memory, new container, source afterwards. *)
Definition s_move_ctor (m : mem) (o : small) : res (mem * small * small) :=
  let (b, m1) := alloc m Inl N in
  let dat := if N <? s_cap o then s_data o else b in
  if s_cap o <=? N then
    let* m2 := move_range m1 (s_data o) dat 0 (Z.to_nat (s_size o)) in
    Ok (m2, mkSmall b dat (s_cap o) (s_size o), o)
  else
    Ok (m1, mkSmall b dat (s_cap o) (s_size o), mkSmall (s_inl o) (s_inl o) N 0).

(** SmallStorage.h:162-167 destructor, then the end of the inline array's lifetime. *)
Definition s_dtor (m : mem) (s : small) : res mem :=
  let* m1 := destroy_range m (s_data s) 0 (Z.to_nat (s_size s)) in
  let* m2 := (if N <? s_cap s then release m1 Heap (s_data s) else Ok m1) in
  release m2 Inl (s_inl s).

(** SmallStorage.h:170-192 move assignment between distinct containers. *)
Definition s_move_assign (m : mem) (s o : small) : res (mem * small * small) :=
  let* m1 := destroy_range m (s_data s) 0 (Z.to_nat (s_size s)) in
  let* m2 := (if N <? s_cap s then release m1 Heap (s_data s) else Ok m1) in
  let* (m3, dat) :=
    (if N <? s_cap o then Ok (m2, s_data o)
     else let* m3 := move_range m2 (s_data o) (s_inl s) 0 (Z.to_nat (s_size o)) in Ok (m3, s_inl s)) in
  Ok (m3, mkSmall (s_inl s) dat (s_cap o) (s_size o), mkSmall (s_inl o) (s_inl o) N 0).

(** The same code when both sides are one object: every field of [other] is a field of [*this]. *)
Definition s_move_assign_self (m : mem) (s : small) : res (mem * small) :=
  let* m1 := destroy_range m (s_data s) 0 (Z.to_nat (s_size s)) in
  let* m2 := (if N <? s_cap s then release m1 Heap (s_data s) else Ok m1) in
  let* m3 := (if N <? s_cap s then Ok m2
              else move_range m2 (s_inl s) (s_inl s) 0 (Z.to_nat (s_size s))) in
  Ok (m3, mkSmall (s_inl s) (s_inl s) N 0).

(** SmallStorage.h:195-216 copy assignment ([same]: [&other == this]). *)
Definition s_copy_assign (m : mem) (same : bool) (s o : small) : res (mem * small) :=
  if same then Ok (m, s) else
  let* m1 := destroy_range m (s_data s) 0 (Z.to_nat (s_size s)) in
  let* (m2, s2) :=
    (if s_cap s <? s_size o then
       let* m2 := (if N <? s_cap s then release m1 Heap (s_data s) else Ok m1) in
       let c := Z.min (s_cap o) (2 * s_size o) in
       let (dat, m3) := alloc m2 Heap c in
       Ok (m3, mkSmall (s_inl s) dat c (s_size s))
     else Ok (m1, s)) in
  let* m4 := copy_range m2 (s_data o) (s_data s2) 0 (Z.to_nat (s_size o)) in
  Ok (m4, mkSmall (s_inl s2) (s_data s2) (s_cap s2) (s_size o)).

(** SmallStorage.h:219-226 [operator[]], used to read and to assign. *)
Definition s_get (m : mem) (s : small) (i : Z) : res A := load m (s_data s) i.
Definition s_set (m : mem) (s : small) (i : Z) (v : A) : res mem := assign m (s_data s) i v.

(** SmallStorage.h:235-241 [push_back] (and 245-251 [emplace_back] of a value). *)
Definition s_push_back (m : mem) (s : small) (v : A) : res (mem * small) :=
  let* (m1, s1) := ensure_capacity m s (s_size s + 1) in
  let* m2 := construct m1 (s_data s1) (s_size s1) v in
  Ok (m2, mkSmall (s_inl s1) (s_data s1) (s_cap s1) (s_size s1 + 1)).

(** SmallStorage.h:254-261 [pop_back]. *)
Definition s_pop_back (m : mem) (s : small) : res (mem * small * option A) :=
  if s_size s =? 0 then Ok (m, s, None) else
  let* (v, m1) := move_out m (s_data s) (s_size s - 1) in
  let* m2 := destroy m1 (s_data s) (s_size s - 1) in
  Ok (m2, mkSmall (s_inl s) (s_data s) (s_cap s) (s_size s - 1), Some v).

(** SmallStorage.h:264-281 [back], [front]. *)
Definition s_back (m : mem) (s : small) : res A := load m (s_data s) (s_size s - 1).
Definition s_front (m : mem) (s : small) : res A := load m (s_data s) 0.

(** SmallStorage.h:299-313 [resize(count, args)]; [v] is the value the arguments construct. *)
Definition s_resize (m : mem) (s : small) (count : Z) (v : A) : res (mem * small) :=
  if s_size s <? count then
    let* (m1, s1) := ensure_capacity m s count in
    let* m2 := fill_range m1 (s_data s1) v (s_size s1) (Z.to_nat (count - s_size s1)) in
    Ok (m2, mkSmall (s_inl s1) (s_data s1) (s_cap s1) count)
  else
    let* m1 := destroy_range m (s_data s) count (Z.to_nat (s_size s - count)) in
    Ok (m1, mkSmall (s_inl s) (s_data s) (s_cap s) count).

(** SmallStorage.h:331-334 [clear]. *)
Definition s_clear (m : mem) (s : small) : res (mem * small) :=
  let* m1 := destroy_range m (s_data s) 0 (Z.to_nat (s_size s)) in
  Ok (m1, mkSmall (s_inl s) (s_data s) (s_cap s) 0).

(** SmallStorage.h:337-344 [operator==]. *)
Fixpoint s_equal_items (m : mem) (s o : small) (i : Z) (n : nat) : res bool :=
  match n with
  | O => Ok true
  | S n' =>
      let* a := load m (s_data s) i in
      let* b := load m (s_data o) i in
      if eqb a b then s_equal_items m s o (i + 1) n' else Ok false
  end.

Definition s_equal (m : mem) (s o : small) : res bool :=
  if Nat.eqb (s_data s) (s_data o) then Ok true else
  if negb (s_size s =? s_size o) then Ok false else
  s_equal_items m s o 0 (Z.to_nat (s_size s)).

(** ** Programs over named containers *)

Inductive sop : Type :=
| SNew (x : nat) | SNewFill (x : nat) (v : A) (n : Z) | SNewSeq (x : nat) (l : list A)
| SCopyNew (x y : nat) | SMoveNew (x y : nat) | SDestroy (x : nat)
| SCopyAssign (x y : nat) | SMoveAssign (x y : nat)
| SPushBack (x : nat) (v : A) | SPopBack (x : nat)
| SResize (x : nat) (n : Z) (v : A) | SReserve (x : nat) (n : Z) | SClear (x : nat)
| SGet (x : nat) (i : Z) | SSet (x : nat) (i : Z) (v : A)
| SFront (x : nat) | SBack (x : nat) | SSize (x : nat) | SCapacity (x : nat) | SEqual (x y : nat).

Record sworld : Type := mkSWorld { sw_mem : mem; sw_env : nat -> option small }.

Definition sworld0 : sworld := mkSWorld mem0 (fun _ => None).

Definition s_lookup (w : sworld) (x : nat) : res small :=
  match sw_env w x with Some d => Ok d | None => Fault NotAlive end.

Definition s_fresh (w : sworld) (x : nat) : res unit :=
  match sw_env w x with Some _ => Fault NotAlive | None => Ok tt end.

Definition s_step (w : sworld) (o : sop) : res (sworld * out A) :=
  let setx x ms := Ok (mkSWorld (fst ms) (upd (sw_env w) x (Some (snd ms))), OutUnit) in
  match o with
  | SNew x => let* _ := s_fresh w x in setx x (s_new (sw_mem w))
  | SNewFill x v n => let* _ := s_fresh w x in let* ms := s_new_fill (sw_mem w) v n in setx x ms
  | SNewSeq x l => let* _ := s_fresh w x in let* ms := s_new_seq (sw_mem w) l in setx x ms
  | SCopyNew x y =>
      let* _ := s_fresh w x in let* sy := s_lookup w y in
      let* ms := s_copy_ctor (sw_mem w) sy in setx x ms
  | SMoveNew x y =>
      let* _ := s_fresh w x in let* sy := s_lookup w y in
      let* (m, s, sy') := s_move_ctor (sw_mem w) sy in
      Ok (mkSWorld m (upd (upd (sw_env w) y (Some sy')) x (Some s)), OutUnit)
  | SDestroy x =>
      let* s := s_lookup w x in
      let* m := s_dtor (sw_mem w) s in Ok (mkSWorld m (upd (sw_env w) x None), OutUnit)
  | SCopyAssign x y =>
      let* s := s_lookup w x in let* sy := s_lookup w y in
      let* ms := s_copy_assign (sw_mem w) (Nat.eqb x y) s sy in setx x ms
  | SMoveAssign x y =>
      let* s := s_lookup w x in let* sy := s_lookup w y in
      if Nat.eqb x y then
        let* ms := s_move_assign_self (sw_mem w) s in setx x ms
      else
        let* (m, s', sy') := s_move_assign (sw_mem w) s sy in
        Ok (mkSWorld m (upd (upd (sw_env w) y (Some sy')) x (Some s')), OutUnit)
  | SPushBack x v => let* s := s_lookup w x in let* ms := s_push_back (sw_mem w) s v in setx x ms
  | SPopBack x =>
      let* s := s_lookup w x in
      let* (m, s', v) := s_pop_back (sw_mem w) s in
      Ok (mkSWorld m (upd (sw_env w) x (Some s')), OutOpt v)
  | SResize x n v => let* s := s_lookup w x in let* ms := s_resize (sw_mem w) s n v in setx x ms
  | SReserve x n => let* s := s_lookup w x in let* ms := ensure_capacity (sw_mem w) s n in setx x ms
  | SClear x => let* s := s_lookup w x in let* ms := s_clear (sw_mem w) s in setx x ms
  | SGet x i => let* s := s_lookup w x in let* v := s_get (sw_mem w) s i in Ok (w, OutVal v)
  | SSet x i v =>
      let* s := s_lookup w x in
      let* m := s_set (sw_mem w) s i v in Ok (mkSWorld m (sw_env w), OutUnit)
  | SFront x => let* s := s_lookup w x in let* v := s_front (sw_mem w) s in Ok (w, OutVal v)
  | SBack x => let* s := s_lookup w x in let* v := s_back (sw_mem w) s in Ok (w, OutVal v)
  | SSize x => let* s := s_lookup w x in Ok (w, OutInt (s_size s))
  | SCapacity x => let* s := s_lookup w x in Ok (w, OutInt (s_cap s))
  | SEqual x y =>
      let* s := s_lookup w x in let* sy := s_lookup w y in
      let* b := s_equal (sw_mem w) s sy in Ok (w, OutBool b)
  end.

Fixpoint s_run (w : sworld) (p : list sop) : res (sworld * list (out A)) :=
  match p with
  | [] => Ok (w, [])
  | o :: p' =>
      let* (w1, r) := s_step w o in
      let* (w2, rs) := s_run w1 p' in
      Ok (w2, r :: rs)
  end.

End Small.
Arguments sop : clear implicits.
Arguments sworld : clear implicits.
