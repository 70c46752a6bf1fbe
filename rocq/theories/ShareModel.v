(** Model of geomc/Storage.h:76-457: arrays held by Storage, SizedStorage, UniqueStorage, WrappedStorage and GenericStorage.

    Every array is a block of memory, whether it is a member of an object, comes from [new[]] or belongs to the caller; a block is gone
    when the object, or the last owner, is destroyed.  boost::shared_array is modelled by its documented behaviour: a pointer and a
    count of the objects that share it, with the move operations that leave a null pointer.  As in UniqueModel.v, [new T[n]] fills the
    array with one default value, never fails, and a negative count is an error. *)
From Coq Require Import ZArith List Bool.
From Verif Require Import Mem DequeModel UniqueModel.
Import ListNotations.
Open Scope Z_scope.
Open Scope res_scope.

(** The types of storage: [KShared]: Storage<T,0> (141-152) and SizedStorage<T,0> (178-189); [KLocal N]: Storage<T,N>, SizedStorage<T,N>
    and UniqueStorage<T,N>, all with a member array of N elements (112-139, 167-176, 211-241); [KUnique]: UniqueStorage<T,0> (244-312);
    [KWrapped]: WrappedStorage<T,N> (336-357), with N if it is fixed.  [KCaller]: an array of the caller's, deleted by the caller.
    GenericStorage (387-457) is one of these, by policy. *)
Inductive skind : Type := KShared | KLocal (N : Z) | KUnique | KWrapped (fixed : option Z) | KCaller.
Definition kind_eqb (a b : skind) : bool :=
  match a, b with
  | KShared, KShared | KUnique, KUnique | KCaller, KCaller | KWrapped None, KWrapped None => true
  | KLocal m, KLocal n => m =? n
  | KWrapped (Some m), KWrapped (Some n) => m =? n
  | _, _ => false
  end.
(** A storage object: where its array is, and what size() returns (Storage<T,0> has no such member). *)
Record sval : Type := mkV { v_kind : skind; v_ptr : option nat; v_size : Z }.
Definition owns (v : sval) (b : nat) : bool :=
  match v_kind v, v_ptr v with KWrapped _, _ => false | _, Some c => Nat.eqb c b | _, None => false end.

(** The objects there are, by name. *)
Definition senv : Type := list (nat * sval).
Definition var (e : senv) (x : nat) : option sval := match find (fun p => Nat.eqb (fst p) x) e with Some p => Some (snd p) | None => None end.
Definition unbind (e : senv) (x : nat) : senv := filter (fun p => negb (Nat.eqb (fst p) x)) e.
Definition bindv (e : senv) (x : nat) (v : sval) : senv := (x, v) :: unbind e x.

Section Share.
Context {A : Type}.
Variable dflt : A.

(** [LocalFrom uniq x N n src]: Storage<T,N>(n, src), or with [uniq] UniqueStorage<T,N>(n, src), which is also what construction from
    an initializer_list of n elements does (for either policy).  [src]: the elements there are at the pointer given.
    [Wrap x fixed n y]: WrappedStorage(n, y.get()).  [WrapNull]: GenericStorage<T,N,STORAGE_WRAPPED>(n). *)
Inductive sop : Type :=
| New (k : skind) (x : nat) (n : Z) | NewFrom (k : skind) (x : nat) (n : Z) (src : list A)
| LocalFrom (uniq : bool) (x : nat) (N n : Z) (src : list A)
| Wrap (x : nat) (fixed : option Z) (n : Z) (y : nat) | WrapNull (x : nat) (fixed : option Z) (n : Z)
| Copy (x y : nat) | Move (x y : nat) | Assign (x y : nat) | MoveAssign (x y : nat) | Destroy (x : nat)
| Get (x : nat) (i : Z) | Set_ (x : nat) (i : Z) (v : A) | Size (x : nat).

(** The heap, the counts of shared_array, and the objects. *)
Record sworld : Type := mkW { w_heap : @uheap A; w_uses : nat -> nat; w_env : senv }.
Definition sworld0 : sworld := mkW (mkHeap (fun _ => None) O) (fun _ => O) [].
Definition s_lookup (w : sworld) (x : nat) : res sval := match var (w_env w) x with Some v => Ok v | None => Fault NotAlive end.
Definition s_fresh (w : sworld) (x : nat) : res unit := match var (w_env w) x with Some _ => Fault NotAlive | None => Ok tt end.
Definition set_uses (u : nat -> nat) (b n : nat) : nat -> nat := fun c => if Nat.eqb c b then n else u c.

(** shared_array: construction from a new array, copying, and the end of one owner. *)
Definition first_use (k : skind) (u : nat -> nat) (b : nat) : nat -> nat := match k with KShared => set_uses u b 1 | _ => u end.
Definition acquire (u : nat -> nat) (p : option nat) : nat -> nat := match p with None => u | Some b => set_uses u b (S (u b)) end.
Definition drop (h : @uheap A) (u : nat -> nat) (p : option nat) : res (@uheap A * (nat -> nat)) :=
  match p with
  | None => Ok (h, u)
  | Some b =>
      match u b with
      | O => Fault OtherUB
      | S O => let* h := h_del h b in Ok (h, set_uses u b 0)
      | S k => Ok (h, set_uses u b k)
      end
  end.

(** The elements src[0] ... src[n - 1]. *)
Definition read_source (n : Z) (src : list A) : res (list A) :=
  if (0 <=? n) && (n <=? Z.of_nat (length src)) then Ok (firstn (Z.to_nat n) src) else Fault OutOfBounds.
(** 78-82 and 86-91: Dimension<N>::set and get. *)
Definition dimension (fixed : option Z) (n : Z) : Z := match fixed with Some N => N | None => n end.
(** A new array with the elements of another one. *)
Definition clone (h : @uheap A) (p : option nat) (n : Z) : res (nat * @uheap A) :=
  let* (b, h) := h_new dflt h n in let* h := h_copy h p (Some b) 0 (Z.to_nat n) in Ok (b, h).
(** Destructors: shared_array's; the end of a member array; 279-281 (UniqueStorage); none (WrappedStorage); delete[] by the caller. *)
Definition finish (h : @uheap A) (u : nat -> nat) (v : sval) : res (@uheap A * (nat -> nat)) :=
  match v_kind v with
  | KShared => drop h u (v_ptr v)
  | KLocal _ | KUnique | KCaller => let* h := u_release h (v_ptr v) in Ok (h, u)
  | KWrapped _ => Ok (h, u)
  end.
Definition null_shared (v : sval) : sval := mkV (v_kind v) None (v_size v).
Definition null_unique : sval := mkV KUnique None 0.

Definition s_step (w : sworld) (o : sop) : res (sworld * out A) :=
  let h := w_heap w in let u := w_uses w in let e := w_env w in
  match o with
  | New k x n => (* 119, 144-145, 172, 183-185, 219, 248-250 *)
      let* _ := s_fresh w x in
      match k with
      | KWrapped _ => Fault OtherUB
      | KLocal N => let* (b, h) := h_new dflt h N in Ok (mkW h u (bindv e x (mkV k (Some b) N)), OutUnit)
      | _ => let* (b, h) := h_new dflt h n in Ok (mkW h (first_use k u b) (bindv e x (mkV k (Some b) n)), OutUnit)
      end
  | NewFrom k x n src => (* 146-149, 252-256 *)
      let* _ := s_fresh w x in
      match k with
      | KWrapped _ | KLocal _ => Fault OtherUB
      | _ =>
          let* (b, h) := h_new dflt h n in
          let* l := read_source n src in
          let* h := h_fill h (Some b) 0 l in
          Ok (mkW h (first_use k u b) (bindv e x (mkV k (Some b) n)), OutUnit)
      end
  | LocalFrom uniq x N n src => (* 121 and 123; 220-228, 405-407, 453-455 *)
      let* _ := s_fresh w x in
      let* (b, h) := h_new dflt h N in
      let* l := read_source (if uniq then n else N) src in
      let* h := h_fill h (Some b) 0 l in
      Ok (mkW h u (bindv e x (mkV (KLocal N) (Some b) N)), OutUnit)
  | Wrap x fixed n y => (* 341-344, 437 *)
      let* _ := s_fresh w x in
      let* v := s_lookup w y in
      Ok (mkW h u (bindv e x (mkV (KWrapped fixed) (v_ptr v) (dimension fixed n))), OutUnit)
  | WrapNull x fixed n => (* 439 *)
      let* _ := s_fresh w x in
      Ok (mkW h u (bindv e x (mkV (KWrapped fixed) None (dimension fixed 0))), OutUnit)
  | Copy x y => (* 273-277; otherwise the implicit one *)
      let* _ := s_fresh w x in
      let* v := s_lookup w y in
      match v_kind v with
      | KShared => Ok (mkW h (acquire u (v_ptr v)) (bindv e x v), OutUnit)
      | KLocal _ | KUnique => let* (b, h) := clone h (v_ptr v) (v_size v) in Ok (mkW h u (bindv e x (mkV (v_kind v) (Some b) (v_size v))), OutUnit)
      | KWrapped _ => Ok (mkW h u (bindv e x v), OutUnit)
      | KCaller => Fault OtherUB
      end
  | Move x y => (* 265-270; otherwise the implicit one *)
      let* _ := s_fresh w x in
      let* v := s_lookup w y in
      match v_kind v with
      | KShared => Ok (mkW h u (bindv (bindv e y (null_shared v)) x v), OutUnit)
      | KUnique => Ok (mkW h u (bindv (bindv e y null_unique) x v), OutUnit)
      | KLocal _ => let* (b, h) := clone h (v_ptr v) (v_size v) in Ok (mkW h u (bindv e x (mkV (v_kind v) (Some b) (v_size v))), OutUnit)
      | KWrapped _ => Ok (mkW h u (bindv e x v), OutUnit)
      | KCaller => Fault OtherUB
      end
  | Assign x y => (* 294-303; otherwise the implicit one *)
      let* a := s_lookup w x in
      let* v := s_lookup w y in
      if negb (kind_eqb (v_kind a) (v_kind v)) then Fault OtherUB else
      match v_kind v with
      | KShared => let* (h, u) := drop h (acquire u (v_ptr v)) (v_ptr a) in Ok (mkW h u (bindv e x v), OutUnit)
      | KLocal _ =>
          if Nat.eqb x y then Ok (w, OutUnit) else
          let* h := h_copy h (v_ptr v) (v_ptr a) 0 (Z.to_nat (v_size v)) in Ok (mkW h u e, OutUnit)
      | KUnique =>
          if Nat.eqb x y then Ok (w, OutUnit) else
          if negb (v_size a =? v_size v) then
            let* h := u_release h (v_ptr a) in
            let* (b, h) := clone h (v_ptr v) (v_size v) in
            Ok (mkW h u (bindv e x (mkV KUnique (Some b) (v_size v))), OutUnit)
          else let* h := h_copy h (v_ptr v) (v_ptr a) 0 (Z.to_nat (v_size v)) in Ok (mkW h u e, OutUnit)
      | KWrapped _ => Ok (mkW h u (bindv e x v), OutUnit)
      | KCaller => Fault OtherUB
      end
  | MoveAssign x y => (* 284-291; otherwise the implicit one *)
      let* a := s_lookup w x in
      let* v := s_lookup w y in
      if negb (kind_eqb (v_kind a) (v_kind v)) then Fault OtherUB else
      match v_kind v with
      | KShared => (* shared_array( move(r) ).swap( *this ) *)
          if Nat.eqb x y then Ok (w, OutUnit) else
          let* (h, u) := drop h u (v_ptr a) in Ok (mkW h u (bindv (bindv e y (null_shared v)) x v), OutUnit)
      | KLocal _ =>
          if Nat.eqb x y then Ok (w, OutUnit) else
          let* h := h_copy h (v_ptr v) (v_ptr a) 0 (Z.to_nat (v_size v)) in Ok (mkW h u e, OutUnit)
      | KUnique =>
          let* h := u_release h (v_ptr a) in
          if Nat.eqb x y then Ok (mkW h u (bindv e x null_unique), OutUnit)
          else Ok (mkW h u (bindv (bindv e y null_unique) x v), OutUnit)
      | KWrapped _ => Ok (mkW h u (bindv e x v), OutUnit)
      | KCaller => Fault OtherUB
      end
  | Destroy x =>
      let* v := s_lookup w x in
      let* (h, u) := finish h u v in Ok (mkW h u (unbind e x), OutUnit)
  | Get x i => let* v := s_lookup w x in let* a := h_get h (v_ptr v) i in Ok (w, OutVal a)
  | Set_ x i a => let* v := s_lookup w x in let* h := h_set h (v_ptr v) i a in Ok (mkW h u e, OutUnit)
  | Size x => let* v := s_lookup w x in Ok (w, OutInt (v_size v))
  end.
Fixpoint s_run (w : sworld) (p : list sop) : res (sworld * list (out A)) :=
  match p with
  | [] => Ok (w, [])
  | o :: p => let* (w, r) := s_step w o in let* (w, rs) := s_run w p in Ok (w, r :: rs)
  end.
End Share.
Arguments sop : clear implicits. Arguments sworld : clear implicits.
