(** Property theorems for geom::Deque (C01-C04). *)
From Coq Require Import ZArith List Bool.
From Verif Require Import Mem DequeModel DequeSpec DequeProofs3.
Import ListNotations.
Open Scope Z_scope.

(** C01.  Any program over any number of deque variables whose operations meet the preconditions of the
    list specification runs without undefined behaviour and prints exactly the list outputs; if it ends
    with every deque destroyed, no block of memory is left allocated. *)
Theorem deque_refines_list :
  forall (A : Type) (eqb : A -> A -> bool) (N : Z), 0 <= N ->
  forall p s outs, spec_run eqb N senv0 p = Some (s, outs) ->
  exists w, run eqb N world0 p = Ok (w, outs) /\
    ((forall x, s x = None) -> forall b, blk (wmem w) b = None).
Proof. exact @run_refines. Qed.
Print Assumptions deque_refines_list.

(** A program exercising growth, wrap-around, copies and moves meets the hypotheses. *)
Example deque_refines_list_ex :
  exists s, spec_run Z.eqb 2 senv0
    [ONew 0%nat; OPushBack 0%nat 1; OPushFront 0%nat 2; OPushBack 0%nat 3; OPushFront 0%nat 4;
     OCopyNew 1%nat 0%nat; OPopFront 0%nat; OEqual 0%nat 1%nat; OMoveNew 2%nat 1%nat; OGet 2%nat (-1);
     OSize 1%nat; OCopyAssign 1%nat 0%nat; OBack 1%nat; ODestroy 0%nat; ODestroy 1%nat; ODestroy 2%nat]
  = Some (s, [OutUnit; OutUnit; OutUnit; OutUnit; OutUnit; OutUnit; OutOpt (Some 4); OutBool false;
              OutUnit; OutVal 3; OutInt 0; OutUnit; OutVal 3; OutUnit; OutUnit; OutUnit])
    /\ s 0%nat = None /\ s 1%nat = None /\ s 2%nat = None.
Proof. eexists. vm_compute. repeat split. Qed.

(** C02.  Indexing wraps around in both directions; on an empty deque it is undefined (the code divides
    by zero). *)
Theorem deque_index_wraps :
  forall (A : Type) (eqb : A -> A -> bool) (N : Z), 0 <= N ->
  forall p s outs x l c i,
  spec_run eqb N senv0 p = Some (s, outs) -> s x = Some (l, c) -> l <> [] ->
  exists w v, run eqb N world0 (p ++ [OGet x i]) = Ok (w, outs ++ [OutVal v]) /\
    nth_error l (Z.to_nat (i mod Z.of_nat (length l))) = Some v.
Proof. exact @index_wraps. Qed.
Print Assumptions deque_index_wraps.

Theorem deque_index_empty_undefined :
  forall (A : Type) (eqb : A -> A -> bool) (N : Z), 0 <= N ->
  forall p s outs x c i,
  spec_run eqb N senv0 p = Some (s, outs) -> s x = Some ([], c) ->
  run eqb N world0 (p ++ [OGet x i]) = Fault DivByZero.
Proof. exact @index_empty. Qed.
Print Assumptions deque_index_empty_undefined.

Example deque_index_ex :
  exists s outs, spec_run Z.eqb 2 senv0 [ONewSeq 0%nat [5; 6; 7]; OPopFront 0%nat; OPushBack 0%nat 8]
     = Some (s, outs) /\ s 0%nat = Some ([6; 7; 8], 3) /\
  exists w, run Z.eqb 2 world0 ([ONewSeq 0%nat [5; 6; 7]; OPopFront 0%nat; OPushBack 0%nat 8] ++
     [OGet 0%nat (-4)]) = Ok (w, outs ++ [OutVal 8]).
Proof. eexists _, _. split; [reflexivity|]. split; [reflexivity|]. eexists. vm_compute. reflexivity. Qed.

(** C03.  A copy has the contents of its source, and keeps them whatever is done afterwards to other
    deques (including the source).  Copy construction needs the guard: the source still has its inline
    capacity, or holds more than [N] items. *)
Theorem deque_copy_isolated :
  forall (A : Type) (eqb : A -> A -> bool) (N : Z), 0 <= N ->
  forall p x y q s outs l c s' outs' i,
  spec_run eqb N senv0 p = Some (s, outs) -> s x = None -> s y = Some (l, c) ->
  (c <= N \/ N < Z.of_nat (length l)) ->
  spec_run eqb N (upd s x (Some (l, c))) q = Some (s', outs') ->
  forallb (fun o => negb (touches o x)) q = true ->
  l <> [] ->
  exists w v, run eqb N world0 (p ++ [OCopyNew x y] ++ q ++ [OSize x; OGet x i])
    = Ok (w, outs ++ [OutUnit] ++ outs' ++ [OutInt (Z.of_nat (length l)); OutVal v]) /\
    nth_error l (Z.to_nat (i mod Z.of_nat (length l))) = Some v.
Proof. exact @copy_isolated. Qed.
Print Assumptions deque_copy_isolated.

Theorem deque_copy_assign_isolated :
  forall (A : Type) (eqb : A -> A -> bool) (N : Z), 0 <= N ->
  forall p x y q s outs lx cx l c s' outs' i,
  spec_run eqb N senv0 p = Some (s, outs) -> s x = Some (lx, cx) -> s y = Some (l, c) ->
  spec_run eqb N (upd s x (Some (l, grow cx (len l)))) q = Some (s', outs') ->
  forallb (fun o => negb (touches o x)) q = true ->
  l <> [] ->
  exists w v, run eqb N world0 (p ++ [OCopyAssign x y] ++ q ++ [OSize x; OGet x i])
    = Ok (w, outs ++ [OutUnit] ++ outs' ++ [OutInt (Z.of_nat (length l)); OutVal v]) /\
    nth_error l (Z.to_nat (i mod Z.of_nat (length l))) = Some v.
Proof. exact @copy_assign_isolated. Qed.
Print Assumptions deque_copy_assign_isolated.

Example deque_copy_ex :
  let p := [ONewSeq 0%nat [5; 6; 7]] in
  exists s outs, spec_run Z.eqb 2 senv0 p = Some (s, outs) /\ s 1%nat = None /\
    s 0%nat = Some ([5; 6; 7], 3) /\ 2 < Z.of_nat (length [5; 6; 7]) /\
    exists s' outs', spec_run Z.eqb 2 (upd s 1%nat (Some ([5; 6; 7], 3)))
      [OPushFront 0%nat 1; OSet 0%nat 2 9; ODestroy 0%nat] = Some (s', outs').
Proof. eexists _, _. split; [reflexivity|]. repeat split. eexists _, _. reflexivity. Qed.

(** Outside the guard the copy is broken: the source of [grown_then_shrunk] is a legitimate deque (its
    program runs), yet destroying the copy frees the inline buffer, and pushing onto the copy writes
    outside the inline buffer. *)
Theorem deque_copy_ctor_refuted :
  exists p s outs,
    spec_run Z.eqb 2 senv0 p = Some (s, outs) /\ s 0%nat = Some ([1; 2], 4) /\
    run Z.eqb 2 world0 (p ++ [OCopyNew 1%nat 0%nat; ODestroy 1%nat]) = Fault BadFree /\
    run Z.eqb 2 world0 (p ++ [OCopyNew 1%nat 0%nat; OPushBack 1%nat 7]) = Fault OutOfBounds.
Proof. exact copy_ctor_broken. Qed.
Print Assumptions deque_copy_ctor_refuted.

(** C04.  Moving (constructing when [x] does not exist yet, assigning when it does) transfers the
    sequence and leaves the source empty.  That the source stays usable, that every buffer has one owner
    and that nothing leaks is part of [deque_refines_list]. *)
Theorem deque_move_transfers :
  forall (A : Type) (eqb : A -> A -> bool) (N : Z), 0 <= N ->
  forall p x y s outs l c i,
  spec_run eqb N senv0 p = Some (s, outs) -> x <> y -> s y = Some (l, c) -> l <> [] ->
  exists w v,
    run eqb N world0 (p ++ [match s x with None => OMoveNew x y | Some _ => OMoveAssign x y end;
                            OSize x; OSize y; OGet x i])
    = Ok (w, outs ++ [OutUnit; OutInt (Z.of_nat (length l)); OutInt 0; OutVal v]) /\
    nth_error l (Z.to_nat (i mod Z.of_nat (length l))) = Some v.
Proof. exact @move_transfers. Qed.
Print Assumptions deque_move_transfers.

Example deque_move_ex :
  exists s outs, spec_run Z.eqb 2 senv0 [ONewSeq 0%nat [5; 6; 7]; ONewCap 1%nat 9] = Some (s, outs) /\
    s 0%nat = Some ([5; 6; 7], 3) /\ s 1%nat = Some ([], 9).
Proof. eexists _, _. split; [reflexivity|]. split; reflexivity. Qed.

(** Self-move-assignment reads dead objects when the buffer is inline, and silently drops the contents
    when it is on the heap. *)
Theorem deque_self_move_refuted :
  run Z.eqb 2 world0 [ONew 0%nat; OPushBack 0%nat 1; OMoveAssign 0%nat 0%nat] = Fault DeadRead /\
  exists w, run Z.eqb 0 world0 [ONewSeq 0%nat [1; 2]; OMoveAssign 0%nat 0%nat; OSize 0%nat]
    = Ok (w, [OutUnit; OutUnit; OutInt 0]).
Proof. exact (conj self_move_inline self_move_heap). Qed.
Print Assumptions deque_self_move_refuted.

(** Pushing a deque's own element onto a full deque reads it after it was moved away and destroyed
    (C41). *)
Theorem deque_push_own_element_refuted :
  exists l : list Z, l <> [] /\
    run Z.eqb 2 world0 [ONewSeq 0%nat l; OPushBackRef 0%nat 0] = Fault DeadRead.
Proof. exact push_own_broken. Qed.
Print Assumptions deque_push_own_element_refuted.

Theorem deque_push_own_element_with_room :
  forall (A : Type) (eqb : A -> A -> bool) (N : Z), 0 <= N ->
  forall p s outs x l c i,
  spec_run eqb N senv0 p = Some (s, outs) -> s x = Some (l, c) -> l <> [] ->
  Z.of_nat (length l) < c ->
  exists w v, run eqb N world0 (p ++ [OPushBackRef x i; OSize x; OBack x])
    = Ok (w, outs ++ [OutUnit; OutInt (Z.of_nat (length l) + 1); OutVal v]) /\
    nth_error l (Z.to_nat (i mod Z.of_nat (length l))) = Some v.
Proof. exact @push_own_room. Qed.
Print Assumptions deque_push_own_element_with_room.
