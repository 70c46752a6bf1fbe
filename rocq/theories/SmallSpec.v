(** Abstract specification of programs over SmallStorage variables: plain lists and reported
    capacities. *)
From Coq Require Import ZArith List Bool.
From Verif Require Import DequeModel DequeSpec SmallModel.
Import ListNotations.
Open Scope Z_scope.

Section Spec.
Context {A : Type}.
Variable eqb : A -> A -> bool.
Variable N : Z.

(** [None]: precondition unmet.  The guards "len l < c", "n <= c" on the operations that may need room
    say that no growth takes place; the guard on [SMoveNew] says the source is on the heap or empty. *)
Definition s_spec_step (s : @senv A) (o : sop A) : option (@senv A * out A) :=
  match o with
  | SNew x => match s x with None => Some (upd s x (Some ([], N)), OutUnit) | _ => None end
  | SNewFill x v n =>
      match s x with
      | None => if 0 <=? n then Some (upd s x (Some (repeat v (Z.to_nat n), Z.max n N)), OutUnit) else None
      | _ => None end
  | SNewSeq x l =>
      match s x with None => Some (upd s x (Some (l, Z.max (len l) N)), OutUnit) | _ => None end
  | SCopyNew x y =>
      match s x, s y with
      | None, Some (l, _) => Some (upd s x (Some (l, Z.max (len l) N)), OutUnit)
      | _, _ => None end
  | SMoveNew x y =>
      match s x, s y with
      | None, Some (l, c) =>
          if (N <? c) || (len l =? 0) then Some (upd (upd s y (Some ([], N))) x (Some (l, c)), OutUnit)
          else None
      | _, _ => None end
  | SDestroy x => match s x with Some _ => Some (upd s x None, OutUnit) | None => None end
  | SCopyAssign x y =>
      match s x, s y with
      | Some (l, c), Some (l', c') =>
          if Nat.eqb x y then Some (upd s x (Some (l, c)), OutUnit)
          else Some (upd s x (Some (l', if c <? len l' then Z.min c' (2 * len l') else c)), OutUnit)
      | _, _ => None end
  | SMoveAssign x y =>
      if Nat.eqb x y then None else
      match s x, s y with
      | Some (_, c), Some (l', c') =>
          Some (upd (upd s y (Some ([], N))) x (Some (l', c')), OutUnit)
      | _, _ => None end
  | SPushBack x v =>
      match s x with
      | Some (l, c) => if len l <? c then Some (upd s x (Some (l ++ [v], c)), OutUnit) else None
      | None => None end
  | SPopBack x =>
      match s x with
      | Some (l, c) => Some (upd s x (Some (removelast l, c)), OutOpt (last_opt l))
      | None => None end
  | SResize x n v =>
      match s x with
      | Some (l, c) =>
          if (0 <=? n) && (n <=? c) then
            Some (upd s x (Some (firstn (Z.to_nat n) l ++ repeat v (Z.to_nat (n - len l)), c)), OutUnit)
          else None
      | None => None end
  | SReserve x n =>
      match s x with
      | Some (l, c) => if n <=? c then Some (upd s x (Some (l, c)), OutUnit) else None
      | None => None end
  | SClear x =>
      match s x with Some (_, c) => Some (upd s x (Some ([], c)), OutUnit) | None => None end
  | SGet x i =>
      match s x with
      | Some (l, _) =>
          if (0 <=? i) && (i <? len l) then
            match nth_error l (Z.to_nat i) with Some v => Some (s, OutVal v) | None => None end
          else None
      | None => None end
  | SSet x i v =>
      match s x with
      | Some (l, c) =>
          if (0 <=? i) && (i <? len l) then Some (upd s x (Some (replace l (Z.to_nat i) v, c)), OutUnit)
          else None
      | None => None end
  | SFront x =>
      match s x with
      | Some (l, _) => match hd_error l with Some v => Some (s, OutVal v) | None => None end
      | None => None end
  | SBack x =>
      match s x with
      | Some (l, _) => match last_opt l with Some v => Some (s, OutVal v) | None => None end
      | None => None end
  | SSize x => match s x with Some (l, _) => Some (s, OutInt (len l)) | None => None end
  | SCapacity x => match s x with Some (_, c) => Some (s, OutInt c) | None => None end
  | SEqual x y =>
      match s x, s y with
      | Some (l, _), Some (l', _) =>
          Some (s, OutBool (if Nat.eqb x y then true else list_eqb eqb l l'))
      | _, _ => None end
  end.

Fixpoint s_spec_run (s : @senv A) (p : list (sop A)) : option (@senv A * list (out A)) :=
  match p with
  | [] => Some (s, [])
  | o :: p' =>
      match s_spec_step s o with
      | None => None
      | Some (s1, r) =>
          match s_spec_run s1 p' with
          | None => None
          | Some (s2, rs) => Some (s2, r :: rs)
          end
      end
  end.

End Spec.
