(** C07: UniqueStorage variables are independent array values with one owner per buffer. *)
From Coq Require Import ZArith List Bool.
From Verif Require Import Mem DequeModel UniqueModel UniqueSpec UniqueProofs.
Import ListNotations.
Open Scope Z_scope.

(** Every program of constructions, copies, moves, assignments, reads, writes and destructions that
    respects the array sizes gives the outputs of the same program over list values (so a write to one
    variable is never seen through another), touches no freed or foreign memory, and once every
    variable is destroyed no array is left allocated. *)
Theorem unique_storage_refines_list :
  forall (A : Type) (dflt : A) (p : list (uop A)) s outs,
  u_spec_run dflt (fun _ => None) p = Some (s, outs) ->
  exists w, u_run dflt uworld0 p = Ok (w, outs) /\
    ((forall x, s x = None) -> forall b, arr (u_heap w) b = None).
Proof. exact @u_run_refines. Qed.
Print Assumptions unique_storage_refines_list.

Example unique_storage_ex :
  exists s, u_spec_run 0 (fun _ => None)
    [UNewFrom 0%nat [1; 2; 3]; UCopyNew 1%nat 0%nat; USet 1%nat 0 9; UGet 0%nat 0; UMoveNew 2%nat 0%nat;
     USize 0%nat; UGet 2%nat 2; UCopyAssign 1%nat 0%nat; USize 1%nat; UNew 3%nat 2; UMoveAssign 3%nat 2%nat;
     UDestroy 0%nat; UDestroy 1%nat; UDestroy 2%nat; UDestroy 3%nat]
  = Some (s, [OutUnit; OutUnit; OutUnit; OutVal 1; OutUnit; OutInt 0; OutVal 3; OutUnit; OutInt 0; OutUnit;
              OutUnit; OutUnit; OutUnit; OutUnit; OutUnit]).
Proof. eexists. vm_compute. reflexivity. Qed.

(** The statically sized variant copies exactly the given elements when they fit, and writes outside its
    array whenever they do not. *)
Theorem unique_storage_static_bounds :
  forall (A : Type) (dflt : A) (N : Z) (l : list A), 0 <= N ->
  u_static_from dflt N l =
    if Z.of_nat (length l) <=? N then Ok (l ++ repeat dflt (Z.to_nat N - length l)) else Fault OutOfBounds.
Proof. exact @u_static_ok. Qed.
Print Assumptions unique_storage_static_bounds.
