(** C83: storage objects by policy. *)
From Coq Require Import ZArith List Bool.
From Verif Require Import Mem DequeModel UniqueModel ShareModel ShareSpec ShareMore.
Import ListNotations.
Open Scope Z_scope.

Section Props.
Variable A : Type.
Variable dflt : A.

(** Every program of constructions, copies, moves, assignments, destructions, reads and writes over storage objects of all policies,
    and arrays of the caller, either is one the caller may not write, and runs into a fault, or gives the outputs the specification
    gives.  Then an array is in memory exactly as long as an object that owns it exists. *)
Theorem storage_policies (p : list (sop A)) :
  match t_run dflt sstate0 p with
  | Some (s, outs) => exists w, s_run dflt sworld0 p = Ok (w, outs) /\ w_env w = st_env s /\ forall b, arr (w_heap w) b = if owned (st_env s) b then Some (st_array s b) else None
  | None => exists f, s_run dflt sworld0 p = Fault f
  end.
Proof. exact (run_refines dflt p). Qed.
(** In any state a program reaches: a copy of shared storage is the same array, which lives on when the original is destroyed. *)
Theorem storage_shared_copy (p : list (sop A)) w outs x y v i a b : s_run dflt sworld0 p = Ok (w, outs) -> var (w_env w) x = None -> var (w_env w) y = Some v ->
  v_kind v = KShared -> s_step dflt w (Get y i) = Ok (w, OutVal a) ->
  (exists w', s_run dflt w [Copy x y; Set_ x i b; Get y i; Destroy y; Get x i] = Ok (w', [OutUnit; OutUnit; OutVal b; OutUnit; OutVal b])) /\
  (exists w', s_run dflt w [Copy x y; Set_ y i b; Get x i; Destroy x; Get y i] = Ok (w', [OutUnit; OutUnit; OutVal b; OutUnit; OutVal b])).
Proof. exact (shared_copy_alias dflt p w outs x y v i a b). Qed.
(** A copy of unique storage, or of storage of fixed size (even if the policy is to share), is an array of its own. *)
Theorem storage_own_copy (p : list (sop A)) w outs x y v i a b : s_run dflt sworld0 p = Ok (w, outs) -> var (w_env w) x = None -> var (w_env w) y = Some v ->
  (exists N, v_kind v = KLocal N) \/ v_kind v = KUnique -> s_step dflt w (Get y i) = Ok (w, OutVal a) ->
  (exists w', s_run dflt w [Copy x y; Set_ x i b; Get y i; Get x i] = Ok (w', [OutUnit; OutUnit; OutVal a; OutVal b])) /\
  (exists w', s_run dflt w [Copy x y; Set_ y i b; Get x i; Get y i] = Ok (w', [OutUnit; OutUnit; OutVal a; OutVal b])).
Proof. exact (own_copy_apart dflt p w outs x y v i a b). Qed.
(** Storage of fixed size N built from n elements: if it is to share it reads N elements even if there are fewer; if it is unique it
    writes n elements even if there is room for fewer. *)
Theorem storage_fixed_source_refuted N n src : 0 <= n -> n < N -> Z.of_nat (length src) = n -> s_run dflt sworld0 [LocalFrom false 0 N n src] = Fault OutOfBounds.
Proof. exact (fixed_source_short dflt N n src). Qed.
Theorem storage_fixed_overflow_refuted N n src : 0 <= N -> N < n -> n <= Z.of_nat (length src) -> s_run dflt sworld0 [LocalFrom true 0 N n src] = Fault OutOfBounds.
Proof. exact (fixed_source_long dflt N n src). Qed.
(** A SizedStorage that was moved from keeps its size but has no array. *)
Theorem storage_moved_size_refuted n i : 0 <= n ->
  (exists w, s_run dflt sworld0 [New KShared 0 n; Move 1 0; Size 0] = Ok (w, [OutUnit; OutUnit; OutInt n])) /\
  s_run dflt sworld0 [New KShared 0 n; Move 1 0; Get 0 i] = Fault NullDeref.
Proof. exact (moved_sized dflt n i). Qed.
(** Wrapped storage made from a size alone says it has the fixed size but has no array. *)
Theorem storage_wrapped_null_refuted N n i :
  (exists w, s_run dflt sworld0 [WrapNull 0 (Some N) n; Size 0] = Ok (w, [OutUnit; OutInt N])) /\
  (exists w, s_run dflt sworld0 [WrapNull 0 None n; Size 0] = Ok (w, [OutUnit; OutInt 0])) /\
  (forall fixed, s_run dflt sworld0 [WrapNull 0 fixed n; Get 0 i] = Fault NullDeref).
Proof. exact (wrapped_null dflt N n i). Qed.
End Props.

(** A program with objects of every kind; the shared array outlives its first owner, the wrapped one is the caller's. *)
Example storage_program : exists s, t_run 0 sstate0
  [NewFrom KShared 0 3 [1; 2; 3]; Copy 1 0; Destroy 0; Get 1 2; NewFrom KCaller 2 2 [5; 6]; Wrap 3 None 2 2; Set_ 3 0 9; Get 2 0; Size 3;
   LocalFrom true 4 3 2 [7; 8]; Copy 5 4; Set_ 5 1 0; Get 4 1; Get 4 2; NewFrom KUnique 6 2 [4; 4]; New KUnique 7 1; Assign 7 6; Size 7; MoveAssign 6 7; Size 7;
   Move 8 1; Assign 1 8; Get 1 0; MoveAssign 8 1; Destroy 1; Get 8 1; Destroy 3; Destroy 2; Destroy 4; Destroy 5; Destroy 6; Destroy 7; Destroy 8] =
  Some (s, [OutUnit; OutUnit; OutUnit; OutVal 3; OutUnit; OutUnit; OutUnit; OutVal 9; OutInt 2; OutUnit; OutUnit; OutUnit; OutVal 8; OutVal 0; OutUnit; OutUnit; OutUnit;
    OutInt 2; OutUnit; OutInt 0; OutUnit; OutUnit; OutVal 1; OutUnit; OutUnit; OutVal 2; OutUnit; OutUnit; OutUnit; OutUnit; OutUnit; OutUnit; OutUnit]) /\ st_env s = [].
Proof. eexists. vm_compute. split; reflexivity. Qed.
(** A wrapped array is not kept by its wrapper. *)
Example storage_wrapped_dangling : t_run 0 sstate0 [New KShared 0 2; Wrap 1 None 2 0; Destroy 0; Get 1 0] = None.
Proof. reflexivity. Qed.
(** The states of the theorems on copies. *)
Example storage_copy_met : exists w outs v a, s_run 0 sworld0 [NewFrom KShared 0 2 [1; 2]] = Ok (w, outs) /\ var (w_env w) 0 = Some v /\ v_kind v = KShared /\ s_step 0 w (Get 0 1) = Ok (w, OutVal a).
Proof. do 4 eexists. repeat split. Qed.

Print Assumptions storage_policies.
Print Assumptions storage_shared_copy.
Print Assumptions storage_own_copy.
Print Assumptions storage_fixed_source_refuted.
Print Assumptions storage_fixed_overflow_refuted.
Print Assumptions storage_moved_size_refuted.
Print Assumptions storage_wrapped_null_refuted.
