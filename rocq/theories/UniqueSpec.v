(** What a UniqueStorage variable is to its user: an array value of its own. *)
From Coq Require Import ZArith List Bool.
From Verif Require Import DequeModel UniqueModel.
Import ListNotations.
Open Scope Z_scope.

Section Spec.
Context {A : Type}.
Variable dflt : A.

Definition uspec_env := nat -> option (list A).

Definition u_spec_step (s : uspec_env) (o : uop A) : option (uspec_env * out A) :=
  match o with
  | UNew x n =>
      match s x with
      | None => if 0 <=? n then Some (upd s x (Some (repeat dflt (Z.to_nat n))), OutUnit) else None
      | Some _ => None end
  | UNewFrom x l => match s x with None => Some (upd s x (Some l), OutUnit) | Some _ => None end
  | UCopyNew x y =>
      match s x, s y with None, Some l => Some (upd s x (Some l), OutUnit) | _, _ => None end
  | UMoveNew x y =>
      match s x, s y with
      | None, Some l => Some (upd (upd s y (Some [])) x (Some l), OutUnit) | _, _ => None end
  | UDestroy x => match s x with Some _ => Some (upd s x None, OutUnit) | None => None end
  | UCopyAssign x y =>
      match s x, s y with Some _, Some l => Some (upd s x (Some l), OutUnit) | _, _ => None end
  | UMoveAssign x y =>
      match s x, s y with
      | Some _, Some l =>
          if Nat.eqb x y then Some (upd s x (Some []), OutUnit)
          else Some (upd (upd s y (Some [])) x (Some l), OutUnit)
      | _, _ => None end
  | UGet x i =>
      match s x with
      | Some l =>
          if i <? 0 then None else
          match nth_error l (Z.to_nat i) with Some v => Some (s, OutVal v) | None => None end
      | None => None end
  | USet x i v =>
      match s x with
      | Some l =>
          if (0 <=? i) && (i <? Z.of_nat (length l)) then
            Some (upd s x (Some (firstn (Z.to_nat i) l ++ v :: skipn (S (Z.to_nat i)) l)), OutUnit)
          else None
      | None => None end
  | USize x => match s x with Some l => Some (s, OutInt (Z.of_nat (length l))) | None => None end
  end.

Fixpoint u_spec_run (s : uspec_env) (p : list (uop A)) : option (uspec_env * list (out A)) :=
  match p with
  | [] => Some (s, [])
  | o :: p' =>
      match u_spec_step s o with
      | None => None
      | Some (s1, r) =>
          match u_spec_run s1 p' with None => None | Some (s2, rs) => Some (s2, r :: rs) end
      end
  end.

End Spec.
