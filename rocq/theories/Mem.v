(** Memory shared by the container models.

    A C++ container keeps raw storage in which objects are constructed, moved from and destroyed by
    hand.  The model makes each of these a checked action: every misuse is a distinct [fault], so that
    "undefined behaviour" and leaks are outcomes of the model, not assumptions. *)
From Coq Require Import ZArith List Bool.
Import ListNotations.
Open Scope Z_scope.

(** Ways a program can go wrong. *)
Inductive fault : Type :=
| OutOfBounds      (* access outside the storage array *)
| UseAfterFree     (* access to a released or never allocated array *)
| DeadRead         (* reading or assigning an object that is not alive *)
| MovedRead        (* reading an object that was moved from *)
| DoubleDestroy    (* running a destructor on storage holding no object *)
| Overwrite        (* placement-new over a live object (leaks it) *)
| BadFree          (* delete[] of something not obtained from new[] *)
| LeakedObject     (* releasing storage whose objects were not destroyed *)
| DivByZero        (* integer division or remainder by zero *)
| NotAlive         (* using a container variable that does not exist *)
| NullDeref        (* dereferencing a null pointer *)
| OtherUB.

Inductive res (A : Type) : Type :=
| Ok (a : A)
| Fault (f : fault).
Arguments Ok {A} a.
Arguments Fault {A} f.

Definition bind {A B} (x : res A) (k : A -> res B) : res B :=
  match x with Ok a => k a | Fault f => Fault f end.

Declare Scope res_scope.
Notation "'let*' x ':=' e 'in' k" := (bind e (fun x => k))
  (at level 200, x pattern, e at level 100, k at level 200, right associativity) : res_scope.
Open Scope res_scope.

Definition is_ok {A} (x : res A) : bool := match x with Ok _ => true | Fault _ => false end.

(** C++ [%] on integers: truncating remainder; by zero it is undefined. *)
Definition c_rem (a b : Z) : res Z := if b =? 0 then Fault DivByZero else Ok (Z.rem a b).

Section Memory.
Context {A : Type}.

(** One slot of raw storage. *)
Inductive cell : Type := Raw | Live (v : A) | Moved.

(** [Inl]: array member of an object; [Heap]: obtained from [new[]]. *)
Inductive kind : Type := Inl | Heap.

Record block : Type := mkBlock { bkind : kind; blen : Z; bat : Z -> cell }.

(** [next] is the next fresh block name. *)
Record mem : Type := mkMem { blk : nat -> option block; next : nat }.

Definition mem0 : mem := mkMem (fun _ => None) 0.

Definition set_blk (m : mem) (b : nat) (x : option block) : mem :=
  mkMem (fun c => if Nat.eqb c b then x else blk m c) (next m).

Definition set_cell (B : block) (i : Z) (c : cell) : block :=
  mkBlock (bkind B) (blen B) (fun j => if j =? i then c else bat B j).

(** Allocation of an array of [n] raw slots (always succeeds: memory exhaustion is not modelled). *)
Definition alloc (m : mem) (k : kind) (n : Z) : nat * mem :=
  (next m,
   mkMem (fun c => if Nat.eqb c (next m) then Some (mkBlock k n (fun _ => Raw)) else blk m c)
         (S (next m))).

Definition in_bounds (B : block) (i : Z) : bool := (0 <=? i) && (i <? blen B).

(** Look up slot [i] of block [b]. *)
Definition peek (m : mem) (b : nat) (i : Z) : res (block * cell) :=
  match blk m b with
  | None => Fault UseAfterFree
  | Some B => if in_bounds B i then Ok (B, bat B i) else Fault OutOfBounds
  end.

Definition put (m : mem) (b : nat) (B : block) (i : Z) (c : cell) : mem :=
  set_blk m b (Some (set_cell B i c)).

(** Read the object in a slot (lvalue-to-rvalue use, or the source of a copy). *)
Definition load (m : mem) (b : nat) (i : Z) : res A :=
  let* (_, c) := peek m b i in
  match c with Live v => Ok v | Moved => Fault MovedRead | Raw => Fault DeadRead end.

(** Placement-new of a value. *)
Definition construct (m : mem) (b : nat) (i : Z) (v : A) : res mem :=
  let* (B, c) := peek m b i in
  match c with Raw => Ok (put m b B i (Live v)) | _ => Fault Overwrite end.

(** Use a slot as the source of a move: yields the value, leaves a moved-from object. *)
Definition move_out (m : mem) (b : nat) (i : Z) : res (A * mem) :=
  let* (B, c) := peek m b i in
  match c with
  | Live v => Ok (v, put m b B i Moved)
  | Moved => Fault MovedRead
  | Raw => Fault DeadRead
  end.

(** Destructor call. *)
Definition destroy (m : mem) (b : nat) (i : Z) : res mem :=
  let* (B, c) := peek m b i in
  match c with Raw => Fault DoubleDestroy | _ => Ok (put m b B i Raw) end.

(** Assignment to an existing object. *)
Definition assign (m : mem) (b : nat) (i : Z) (v : A) : res mem :=
  let* (B, c) := peek m b i in
  match c with Raw => Fault DeadRead | _ => Ok (put m b B i (Live v)) end.

Definition is_raw (c : cell) : bool := match c with Raw => true | _ => false end.

(** All [n] slots from 0 are raw. *)
Fixpoint all_raw (f : Z -> cell) (n : nat) : bool :=
  match n with O => true | S k => is_raw (f (Z.of_nat k)) && all_raw f k end.

(** Release a block of the given kind ([delete[]] for [Heap], end of the owner's lifetime for [Inl]). *)
Definition release (m : mem) (k : kind) (b : nat) : res mem :=
  match blk m b with
  | None => Fault UseAfterFree
  | Some B =>
      match k, bkind B with
      | Heap, Heap | Inl, Inl =>
          if all_raw (bat B) (Z.to_nat (blen B)) then Ok (set_blk m b None) else Fault LeakedObject
      | _, _ => Fault BadFree
      end
  end.

End Memory.
Arguments cell : clear implicits.
Arguments block : clear implicits.
Arguments mem : clear implicits.
