(** Abstract specification of programs over deque variables: each variable is a plain list together
    with the capacity the API reports.  Nothing here mentions buffers, heads or memory. *)
From Coq Require Import ZArith List Bool.
From Verif Require Import DequeModel.
Import ListNotations.
Open Scope Z_scope.

Section Spec.
Context {A : Type}.
Variable eqb : A -> A -> bool.
Variable N : Z.

(** Contents, front first, and reported capacity. *)
Definition sdeque : Type := (list A * Z)%type.
Definition senv : Type := nat -> option sdeque.
Definition senv0 : senv := fun _ => None.

Definition len (l : list A) : Z := Z.of_nat (length l).

(** Capacity after making room for [need] items: doubling growth. *)
Definition grow (c need : Z) : Z := if c <? need then Z.max (c * 2) need else c.

(** Element at a wrapped-around index; [None] on the empty list. *)
Definition at_wrapped (l : list A) (i : Z) : option A :=
  match l with [] => None | _ => nth_error l (Z.to_nat (i mod len l)) end.

Fixpoint replace (l : list A) (k : nat) (v : A) : list A :=
  match l, k with
  | [], _ => []
  | _ :: l', O => v :: l'
  | a :: l', S k' => a :: replace l' k' v
  end.

Definition set_wrapped (l : list A) (i : Z) (v : A) : option (list A) :=
  match l with [] => None | _ => Some (replace l (Z.to_nat (i mod len l)) v) end.

Definition last_opt (l : list A) : option A :=
  match rev l with [] => None | v :: _ => Some v end.

Fixpoint list_eqb (l l' : list A) : bool :=
  match l, l' with
  | [], [] => true
  | a :: k, b :: k' => eqb a b && list_eqb k k'
  | _, _ => false
  end.

(** One operation on the abstract state.  [None]: the operation's precondition is not met. *)
Definition spec_step (s : senv) (o : op A) : option (senv * out A) :=
  match o with
  | ONew x =>
      match s x with
      | None => Some (upd s x (Some ([], N)), OutUnit) | _ => None end
  | ONewCap x c =>
      match s x with
      | None => Some (upd s x (Some ([], Z.max c N)), OutUnit) | _ => None end
  | ONewSeq x l =>
      match s x with
      | None => Some (upd s x (Some (l, Z.max (len l) N)), OutUnit) | _ => None end
  | OCopyNew x y =>
      (* guard: the source still reports its inline capacity, or holds more than that *)
      match s x, s y with
      | None, Some (l, c) =>
          if (c <=? N) || (N <? len l) then Some (upd s x (Some (l, c)), OutUnit) else None
      | _, _ => None end
  | OMoveNew x y =>
      match s x, s y with
      | None, Some (l, c) =>
          Some (upd (upd s y (Some ([], N))) x (Some (l, c)), OutUnit)
      | _, _ => None end
  | ODestroy x =>
      match s x with Some _ => Some (upd s x None, OutUnit) | None => None end
  | OCopyAssign x y =>
      match s x, s y with
      | Some (_, c), Some (l', _) => Some (upd s x (Some (l', grow c (len l'))), OutUnit)
      | _, _ => None end
  | OMoveAssign x y =>
      (* guard: not a self-move *)
      if Nat.eqb x y then None else
      match s x, s y with
      | Some (_, c), Some (l', c') =>
          Some (upd (upd s y (Some ([], N))) x (Some (l', if N <? c' then c' else c)), OutUnit)
      | _, _ => None end
  | OPushBack x v =>
      match s x with
      | Some (l, c) => Some (upd s x (Some (l ++ [v], grow c (len l + 1))), OutUnit)
      | None => None end
  | OPushFront x v =>
      match s x with
      | Some (l, c) => Some (upd s x (Some (v :: l, grow c (len l + 1))), OutUnit)
      | None => None end
  | OPushBackRef x i =>
      (* guard: there is room, so no reallocation happens *)
      match s x with
      | Some (l, c) =>
          if len l <? c then
            match at_wrapped l i with
            | Some v => Some (upd s x (Some (l ++ [v], c)), OutUnit)
            | None => None
            end
          else None
      | None => None end
  | OPopBack x =>
      match s x with
      | Some (l, c) => Some (upd s x (Some (removelast l, c)), OutOpt (last_opt l))
      | None => None end
  | OPopFront x =>
      match s x with
      | Some (l, c) => Some (upd s x (Some (tl l, c)), OutOpt (hd_error l))
      | None => None end
  | OClear x =>
      match s x with
      | Some (_, c) => Some (upd s x (Some ([], c)), OutUnit)
      | None => None end
  | OReserve x n =>
      match s x with
      | Some (l, c) => Some (upd s x (Some (l, grow c n)), OutUnit)
      | None => None end
  | OGet x i =>
      match s x with
      | Some (l, _) =>
          match at_wrapped l i with Some v => Some (s, OutVal v) | None => None end
      | None => None end
  | OSet x i v =>
      match s x with
      | Some (l, c) =>
          match set_wrapped l i v with
          | Some l' => Some (upd s x (Some (l', c)), OutUnit) | None => None end
      | None => None end
  | OFront x =>
      match s x with
      | Some (l, _) => match hd_error l with Some v => Some (s, OutVal v) | None => None end
      | None => None end
  | OBack x =>
      match s x with
      | Some (l, _) => match last_opt l with Some v => Some (s, OutVal v) | None => None end
      | None => None end
  | OSize x => match s x with Some (l, _) => Some (s, OutInt (len l)) | None => None end
  | OCapacity x => match s x with Some (_, c) => Some (s, OutInt c) | None => None end
  | OEqual x y =>
      match s x, s y with
      | Some (l, _), Some (l', _) =>
          Some (s, OutBool (if Nat.eqb x y then true else list_eqb l l'))
      | _, _ => None end
  end.

Fixpoint spec_run (s : senv) (p : list (op A)) : option (senv * list (out A)) :=
  match p with
  | [] => Some (s, [])
  | o :: p' =>
      match spec_step s o with
      | None => None
      | Some (s1, r) =>
          match spec_run s1 p' with
          | None => None
          | Some (s2, rs) => Some (s2, r :: rs)
          end
      end
  end.

(** The variables an operation may change. *)
Definition touches (o : op A) (x : nat) : bool :=
  match o with
  | ONew y | ONewCap y _ | ONewSeq y _ | OCopyNew y _ | ODestroy y | OCopyAssign y _
  | OPushBack y _ | OPushFront y _ | OPushBackRef y _ | OPopBack y | OPopFront y | OClear y
  | OReserve y _ | OSet y _ _ => Nat.eqb x y
  | OMoveNew y z | OMoveAssign y z => Nat.eqb x y || Nat.eqb x z
  | OGet _ _ | OFront _ | OBack _ | OSize _ | OCapacity _ | OEqual _ _ => false
  end.

End Spec.
