(** What storage objects are to their user: names of arrays.  Arrays are never released here; whether one may still be used depends
    only on whether an object that owns it still exists. *)
From Coq Require Import ZArith List Bool.
From Verif Require Import DequeModel ShareModel.
Import ListNotations.
Open Scope Z_scope.

Section Spec.
Context {A : Type}.
Variable dflt : A.
Record sstate : Type := mkS { st_env : senv; st_array : nat -> list A; st_next : nat }.
Definition sstate0 : sstate := mkS [] (fun _ => []) O.
Definition owned (e : senv) (b : nat) : bool := existsb (fun p => owns (snd p) b) e.
(** The elements an object gives access to; [None]: its array is gone. *)
Definition contents (s : sstate) (v : sval) : option (list A) :=
  match v_ptr v with None => Some [] | Some b => if owned (st_env s) b then Some (st_array s b) else None end.
Definition set_array (f : nat -> list A) (b : nat) (l : list A) : nat -> list A := fun c => if Nat.eqb c b then l else f c.

(** The object x is made, with an array of its own. *)
Definition make (s : sstate) (x : nat) (k : skind) (l : list A) : sstate :=
  mkS (bindv (st_env s) x (mkV k (Some (st_next s)) (Z.of_nat (length l)))) (set_array (st_array s) (st_next s) l) (S (st_next s)).
Definition rename (s : sstate) (x : nat) (v : sval) : sstate := mkS (bindv (st_env s) x v) (st_array s) (st_next s).
Definition overwrite (s : sstate) (v : sval) (l : list A) : sstate :=
  match v_ptr v with None => s | Some b => mkS (st_env s) (set_array (st_array s) b l) (st_next s) end.
Definition replace_at (l : list A) (i : nat) (a : A) : list A := firstn i l ++ a :: skipn (S i) l.
Definition prefix (n : Z) (l : list A) : option (list A) := if (0 <=? n) && (n <=? Z.of_nat (length l)) then Some (firstn (Z.to_nat n) l) else None.

(** A step; [None]: the caller is at fault (or the program is not well typed). *)
Definition t_step (s : sstate) (o : sop A) : option (sstate * out A) :=
  let fresh x k := match var (st_env s) x with None => k | Some _ => None end in
  let object x k := match var (st_env s) x with None => None | Some v => k v end in
  let copied x v := match contents s v with Some l => Some (make s x (v_kind v) l, OutUnit) | None => None end in
  match o with
  | New k x n =>
      fresh x match k with
      | KWrapped _ => None
      | KLocal N => if 0 <=? N then Some (make s x k (repeat dflt (Z.to_nat N)), OutUnit) else None
      | _ => if 0 <=? n then Some (make s x k (repeat dflt (Z.to_nat n)), OutUnit) else None
      end
  | NewFrom k x n src =>
      fresh x match k with
      | KWrapped _ | KLocal _ => None
      | _ => match prefix n src with Some l => Some (make s x k l, OutUnit) | None => None end
      end
  (* A fixed array takes N elements from the source; or, with unique ownership, n, which must not be more than N. *)
  | LocalFrom uniq x N n src =>
      fresh x match prefix (if uniq then n else N) src with
      | Some l => if Z.of_nat (length l) <=? N then Some (make s x (KLocal N) (l ++ repeat dflt (Z.to_nat N - length l)), OutUnit) else None
      | None => None
      end
  | Wrap x fixed n y => fresh x (object y (fun v => Some (rename s x (mkV (KWrapped fixed) (v_ptr v) (match fixed with Some N => N | None => n end)), OutUnit)))
  | WrapNull x fixed n => fresh x (Some (rename s x (mkV (KWrapped fixed) None (match fixed with Some N => N | None => 0 end)), OutUnit))
  (* Shared and wrapped storage: the copy is another name of the array.  Otherwise it is an array of its own. *)
  | Copy x y =>
      fresh x (object y (fun v =>
        match v_kind v with KShared | KWrapped _ => Some (rename s x v, OutUnit) | KLocal _ | KUnique => copied x v | KCaller => None end))
  | Move x y =>
      fresh x (object y (fun v =>
        match v_kind v with
        | KShared => Some (rename (rename s y (mkV KShared None (v_size v))) x v, OutUnit)
        | KUnique => Some (rename (rename s y (mkV KUnique None 0)) x v, OutUnit)
        | KWrapped _ => Some (rename s x v, OutUnit)
        | KLocal _ => copied x v
        | KCaller => None
        end))
  | Assign x y =>
      object x (fun a => object y (fun v =>
        if negb (kind_eqb (v_kind a) (v_kind v)) then None else
        match v_kind v with
        | KShared | KWrapped _ => Some (rename s x v, OutUnit)
        | KLocal _ => match contents s v with Some l => Some (overwrite s a l, OutUnit) | None => None end
        | KUnique =>
            if Nat.eqb x y then Some (s, OutUnit) else
            match contents s v with
            | Some l => if v_size a =? v_size v then Some (overwrite s a l, OutUnit) else Some (make s x KUnique l, OutUnit)
            | None => None
            end
        | KCaller => None
        end))
  | MoveAssign x y =>
      object x (fun a => object y (fun v =>
        if negb (kind_eqb (v_kind a) (v_kind v)) then None else
        match v_kind v with
        | KShared => if Nat.eqb x y then Some (s, OutUnit) else Some (rename (rename s y (mkV KShared None (v_size v))) x v, OutUnit)
        | KUnique => if Nat.eqb x y then Some (rename s x (mkV KUnique None 0), OutUnit) else Some (rename (rename s y (mkV KUnique None 0)) x v, OutUnit)
        | KWrapped _ => Some (rename s x v, OutUnit)
        | KLocal _ => match contents s v with Some l => Some (overwrite s a l, OutUnit) | None => None end
        | KCaller => None
        end))
  | Destroy x => object x (fun _ => Some (mkS (unbind (st_env s) x) (st_array s) (st_next s), OutUnit))
  | Get x i =>
      object x (fun v =>
        match contents s v with
        | Some l => if i <? 0 then None else match nth_error l (Z.to_nat i) with Some a => Some (s, OutVal a) | None => None end
        | None => None
        end)
  | Set_ x i a =>
      object x (fun v =>
        match contents s v with
        | Some l => if (0 <=? i) && (i <? Z.of_nat (length l)) then Some (overwrite s v (replace_at l (Z.to_nat i) a), OutUnit) else None
        | None => None
        end)
  | Size x => object x (fun v => Some (s, OutInt (v_size v)))
  end.
Fixpoint t_run (s : sstate) (p : list (sop A)) : option (sstate * list (out A)) :=
  match p with
  | [] => Some (s, [])
  | o :: p => match t_step s o with None => None | Some (s, r) => match t_run s p with None => None | Some (s, rs) => Some (s, r :: rs) end end
  end.
End Spec.
Arguments sstate : clear implicits.
