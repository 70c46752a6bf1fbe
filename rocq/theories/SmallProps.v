(** C05, C06: SmallStorage behaves as an array, and where it does not. *)
From Coq Require Import ZArith List Bool Lia.
From Verif Require Import Mem DequeModel DequeSpec SmallModel SmallSpec SmallProofs SmallProofs2.
Import ListNotations.
Open Scope Z_scope.

(** C05.  A program over any number of SmallStorage variables that never asks for growth and never
    move-constructs from a non-empty inline container produces exactly the outputs of the same program
    over lists, without touching a dead or foreign slot; when every variable has been destroyed, no
    allocation is left and (since the release of a live slot is a fault) every element was destroyed
    once. *)
Theorem small_refines_list :
  forall (A : Type) (eqb : A -> A -> bool) (N : Z), 0 <= N ->
  forall p s outs,
  s_spec_run eqb N senv0 p = Some (s, outs) ->
  exists w, s_run eqb N sworld0 p = Ok (w, outs) /\
    ((forall x, s x = None) -> forall b, blk (sw_mem w) b = None).
Proof. exact @s_run_refines. Qed.
Print Assumptions small_refines_list.

Example small_refines_ex :
  exists s, s_spec_run Z.eqb 4 senv0
    [SNewSeq 0%nat [1; 2]; SPushBack 0%nat 3; SCopyNew 1%nat 0%nat; SPopBack 0%nat; SResize 1%nat 4 9;
     SGet 1%nat 3; SEqual 0%nat 1%nat; SDestroy 0%nat; SDestroy 1%nat]
   = Some (s, [OutUnit; OutUnit; OutUnit; OutOpt (Some 3); OutUnit; OutVal 9; OutBool false; OutUnit;
               OutUnit]).
Proof. eexists. vm_compute. reflexivity. Qed.

(** C05, violated.  Whatever the container and however it was reached, a request for more than its
    capacity is undefined behaviour: the relocation loop runs past the live elements. *)
Theorem small_growth_refuted :
  forall (A : Type) (eqb : A -> A -> bool) (N : Z), 0 <= N ->
  forall p s outs x l c n,
  s_spec_run eqb N senv0 p = Some (s, outs) -> s x = Some (l, c) -> c < n ->
  s_run eqb N sworld0 (p ++ [SReserve x n]) =
    Fault (if Z.of_nat (length l) <? c then DeadRead else OutOfBounds).
Proof. exact @growth_undefined. Qed.
Print Assumptions small_growth_refuted.

Theorem small_push_full_refuted :
  forall (A : Type) (eqb : A -> A -> bool) (N : Z), 0 <= N ->
  forall p s outs x l c v,
  s_spec_run eqb N senv0 p = Some (s, outs) -> s x = Some (l, c) -> Z.of_nat (length l) = c ->
  s_run eqb N sworld0 (p ++ [SPushBack x v]) = Fault OutOfBounds.
Proof. exact @push_full_undefined. Qed.
Print Assumptions small_push_full_refuted.

Example small_growth_ex :
  exists s outs, s_spec_run Z.eqb 2 senv0 [SNew 0%nat; SPushBack 0%nat 1; SPushBack 0%nat 2] = Some (s, outs)
    /\ s 0%nat = Some ([1; 2], 2).
Proof. eexists _, _. split; reflexivity. Qed.

(** C06.  Moving (constructing when [x] does not exist, assigning when it does) transfers the elements,
    leaves the source empty, and both may then be destroyed; construction requires a source on the heap
    or empty. *)
Theorem small_move_transfers :
  forall (A : Type) (eqb : A -> A -> bool) (N : Z), 0 <= N ->
  forall p x y s outs l c i v,
  s_spec_run eqb N senv0 p = Some (s, outs) -> x <> y -> s y = Some (l, c) ->
  (s x = None -> N < c \/ l = []) -> nth_error l i = Some v ->
  exists w,
    s_run eqb N sworld0 (p ++ [match s x with None => SMoveNew x y | Some _ => SMoveAssign x y end;
                            SSize x; SSize y; SGet x (Z.of_nat i); SDestroy y; SDestroy x])
    = Ok (w, outs ++ [OutUnit; OutInt (Z.of_nat (length l)); OutInt 0; OutVal v; OutUnit; OutUnit]).
Proof. exact @s_move_transfers. Qed.
Print Assumptions small_move_transfers.

Example small_move_ex :
  exists s outs, s_spec_run Z.eqb 2 senv0 [SNewSeq 0%nat [5; 6; 7]; SNewSeq 1%nat [8]] = Some (s, outs) /\
    s 0%nat = Some ([5; 6; 7], 3) /\ s 1%nat = Some ([8], 2) /\ s 2%nat = None.
Proof. eexists _, _. split; [reflexivity|]. repeat split. Qed.

(** C06, violated.  After move construction from any non-empty inline container, destroying the source
    destroys an element a second time. *)
Theorem small_move_ctor_refuted :
  forall (A : Type) (eqb : A -> A -> bool) (N : Z), 0 <= N ->
  forall p s outs x y l c,
  s_spec_run eqb N senv0 p = Some (s, outs) -> s x = None -> s y = Some (l, c) ->
  c <= N -> l <> [] ->
  s_run eqb N sworld0 (p ++ [SMoveNew x y; SDestroy y]) = Fault DoubleDestroy.
Proof. exact @move_ctor_double_destroy. Qed.
Print Assumptions small_move_ctor_refuted.

Theorem small_self_move_refuted :
  s_run Z.eqb 2 sworld0 [SNew 0%nat; SPushBack 0%nat 1; SMoveAssign 0%nat 0%nat] = Fault DeadRead /\
  exists w, s_run Z.eqb 0 sworld0 [SNewSeq 0%nat [1; 2]; SMoveAssign 0%nat 0%nat; SSize 0%nat]
    = Ok (w, [OutUnit; OutUnit; OutInt 0]).
Proof. exact (conj s_self_move_inline s_self_move_heap). Qed.
Print Assumptions small_self_move_refuted.
