(** Model of UniqueStorage (geomc/Storage.h:211-312), the dynamically sized specialisation, together
    with the bounds behaviour of the statically sized one.

    Simplifications: [new T[n]] fills the array with one default value [dflt] (for class types the
    default-constructed value; for primitive types the indeterminate initial contents are represented
    by an arbitrary but fixed value).  A negative element count is an error (the real [new] throws).
    Allocation never fails. *)
From Coq Require Import ZArith List Bool.
From Verif Require Import Mem DequeModel.
Import ListNotations.
Open Scope Z_scope.
Open Scope res_scope.

Section Unique.
Context {A : Type}.
Variable dflt : A.

(** The heap: named arrays. *)
Record uheap : Type := mkHeap { arr : nat -> option (list A); nxt : nat }.

Definition h_upd (h : uheap) (b : nat) (v : option (list A)) : uheap :=
  mkHeap (upd (arr h) b v) (nxt h).

(** [new T[n]]. *)
Definition h_new (h : uheap) (n : Z) : res (nat * uheap) :=
  if n <? 0 then Fault OtherUB
  else Ok (nxt h, mkHeap (upd (arr h) (nxt h) (Some (repeat dflt (Z.to_nat n)))) (S (nxt h))).

(** [delete[] p] where p is not null. *)
Definition h_del (h : uheap) (b : nat) : res uheap :=
  match arr h b with None => Fault UseAfterFree | Some _ => Ok (h_upd h b None) end.

(** [p[i]] as a value. *)
Definition h_get (h : uheap) (p : option nat) (i : Z) : res A :=
  match p with
  | None => Fault NullDeref
  | Some b =>
      match arr h b with
      | None => Fault UseAfterFree
      | Some l =>
          if i <? 0 then Fault OutOfBounds else
          match nth_error l (Z.to_nat i) with Some v => Ok v | None => Fault OutOfBounds end
      end
  end.

Fixpoint list_set (l : list A) (i : nat) (v : A) : list A :=
  match l, i with
  | [], _ => []
  | _ :: l', O => v :: l'
  | x :: l', S i' => x :: list_set l' i' v
  end.

(** [p[i] = v]. *)
Definition h_set (h : uheap) (p : option nat) (i : Z) (v : A) : res uheap :=
  match p with
  | None => Fault NullDeref
  | Some b =>
      match arr h b with
      | None => Fault UseAfterFree
      | Some l =>
          if (0 <=? i) && (i <? Z.of_nat (length l)) then Ok (h_upd h b (Some (list_set l (Z.to_nat i) v)))
          else Fault OutOfBounds
      end
  end.

(** [std::copy(src + i, src + i + n, dst + i)] between two arrays. *)
Fixpoint h_copy (h : uheap) (src dst : option nat) (i : Z) (n : nat) : res uheap :=
  match n with
  | O => Ok h
  | S k =>
      let* v := h_get h src i in
      let* h1 := h_set h dst i v in
      h_copy h1 src dst (i + 1) k
  end.

(** [std::copy] from the caller's data. *)
Fixpoint h_fill (h : uheap) (dst : option nat) (i : Z) (l : list A) : res uheap :=
  match l with
  | [] => Ok h
  | v :: l' => let* h1 := h_set h dst i v in h_fill h1 dst (i + 1) l'
  end.

(** Storage.h:245-246 data members. *)
Record ustore : Type := mkU { u_data : option nat; u_sz : Z }.

(** Storage.h:248-250. *)
Definition u_new (h : uheap) (n : Z) : res (uheap * ustore) :=
  let* (b, h1) := h_new h n in Ok (h1, mkU (Some b) n).

(** Storage.h:252-256 and 258-262: from [n] caller elements, all of which exist. *)
Definition u_new_from (h : uheap) (l : list A) : res (uheap * ustore) :=
  let* (b, h1) := h_new h (Z.of_nat (length l)) in
  let* h2 := h_fill h1 (Some b) 0 l in
  Ok (h2, mkU (Some b) (Z.of_nat (length l))).

(** Storage.h:265-270 move constructor: new object and emptied source. *)
Definition u_move_new (other : ustore) : ustore * ustore := (other, mkU None 0).

(** Storage.h:273-277 copy constructor. *)
Definition u_copy_new (h : uheap) (other : ustore) : res (uheap * ustore) :=
  let* (b, h1) := h_new h (u_sz other) in
  let* h2 := h_copy h1 (u_data other) (Some b) 0 (Z.to_nat (u_sz other)) in
  Ok (h2, mkU (Some b) (u_sz other)).

(** [if (data) delete [] data]. *)
Definition u_release (h : uheap) (d : option nat) : res uheap :=
  match d with None => Ok h | Some b => h_del h b end.

(** Storage.h:279-281 destructor. *)
Definition u_dtor (h : uheap) (u : ustore) : res uheap := u_release h (u_data u).

(** Storage.h:284-291 move assignment, distinct objects. *)
Definition u_move_assign (h : uheap) (u other : ustore) : res (uheap * ustore * ustore) :=
  let* h1 := u_release h (u_data u) in Ok (h1, other, mkU None 0).

(** The same with [&other == this]: the last two writes win. *)
Definition u_move_assign_self (h : uheap) (u : ustore) : res (uheap * ustore) :=
  let* h1 := u_release h (u_data u) in Ok (h1, mkU None 0).

(** Storage.h:294-303 copy assignment, distinct objects ([&other == this] returns at once). *)
Definition u_copy_assign (h : uheap) (u other : ustore) : res (uheap * ustore) :=
  let* (h1, d) :=
    (if negb (u_sz u =? u_sz other) then
       let* h1 := u_release h (u_data u) in
       let* (b, h2) := h_new h1 (u_sz other) in Ok (h2, Some b)
     else Ok (h, u_data u)) in
  let* h2 := h_copy h1 (u_data other) d 0 (Z.to_nat (u_sz other)) in
  Ok (h2, mkU d (u_sz other)).

(** Programs over any number of UniqueStorage variables. *)
Inductive uop : Type :=
| UNew (x : nat) (n : Z) | UNewFrom (x : nat) (l : list A)
| UCopyNew (x y : nat) | UMoveNew (x y : nat) | UDestroy (x : nat)
| UCopyAssign (x y : nat) | UMoveAssign (x y : nat)
| UGet (x : nat) (i : Z) | USet (x : nat) (i : Z) (v : A) | USize (x : nat).

Record uworld : Type := mkUW { u_heap : uheap; u_env : nat -> option ustore }.
Definition uworld0 : uworld := mkUW (mkHeap (fun _ => None) O) (fun _ => None).

Definition u_lookup (w : uworld) (x : nat) : res ustore :=
  match u_env w x with Some d => Ok d | None => Fault NotAlive end.
Definition u_fresh (w : uworld) (x : nat) : res unit :=
  match u_env w x with Some _ => Fault NotAlive | None => Ok tt end.

Definition u_step (w : uworld) (o : uop) : res (uworld * out A) :=
  match o with
  | UNew x n =>
      let* _ := u_fresh w x in
      let* (h, u) := u_new (u_heap w) n in
      Ok (mkUW h (upd (u_env w) x (Some u)), OutUnit)
  | UNewFrom x l =>
      let* _ := u_fresh w x in
      let* (h, u) := u_new_from (u_heap w) l in
      Ok (mkUW h (upd (u_env w) x (Some u)), OutUnit)
  | UCopyNew x y =>
      let* _ := u_fresh w x in
      let* o := u_lookup w y in
      let* (h, u) := u_copy_new (u_heap w) o in
      Ok (mkUW h (upd (u_env w) x (Some u)), OutUnit)
  | UMoveNew x y =>
      let* _ := u_fresh w x in
      let* o := u_lookup w y in
      let (u, o') := u_move_new o in
      Ok (mkUW (u_heap w) (upd (upd (u_env w) y (Some o')) x (Some u)), OutUnit)
  | UDestroy x =>
      let* u := u_lookup w x in
      let* h := u_dtor (u_heap w) u in
      Ok (mkUW h (upd (u_env w) x None), OutUnit)
  | UCopyAssign x y =>
      let* u := u_lookup w x in
      let* o := u_lookup w y in
      if Nat.eqb x y then Ok (w, OutUnit) else
      let* (h, u') := u_copy_assign (u_heap w) u o in
      Ok (mkUW h (upd (u_env w) x (Some u')), OutUnit)
  | UMoveAssign x y =>
      let* u := u_lookup w x in
      let* o := u_lookup w y in
      if Nat.eqb x y then
        let* (h, u') := u_move_assign_self (u_heap w) u in
        Ok (mkUW h (upd (u_env w) x (Some u')), OutUnit)
      else
        let* (hu, o') := u_move_assign (u_heap w) u o in
        let (h, u') := hu in
        Ok (mkUW h (upd (upd (u_env w) y (Some o')) x (Some u')), OutUnit)
  | UGet x i =>
      let* u := u_lookup w x in
      let* v := h_get (u_heap w) (u_data u) i in Ok (w, OutVal v)
  | USet x i v =>
      let* u := u_lookup w x in
      let* h := h_set (u_heap w) (u_data u) i v in
      Ok (mkUW h (u_env w), OutUnit)
  | USize x =>
      let* u := u_lookup w x in Ok (w, OutInt (u_sz u))
  end.

Fixpoint u_run (w : uworld) (p : list uop) : res (uworld * list (out A)) :=
  match p with
  | [] => Ok (w, [])
  | o :: p' =>
      let* (w1, r) := u_step w o in
      let* (w2, rs) := u_run w1 p' in Ok (w2, r :: rs)
  end.

(** Storage.h:220-222: statically sized UniqueStorage<T,N>(n, srcdata): the member array has N slots
    and n elements are copied. *)
Definition u_static_from (N : Z) (l : list A) : res (list A) :=
  let h := mkHeap (fun b => if Nat.eqb b 0 then Some (repeat dflt (Z.to_nat N)) else None) 1 in
  let* h1 := h_fill h (Some 0%nat) 0 l in
  match arr h1 0%nat with Some r => Ok r | None => Fault OtherUB end.

End Unique.
Arguments uop : clear implicits.
