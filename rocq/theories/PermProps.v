(** Properties C25-C27: permutation matrices and permutation algorithms. *)
From Coq Require Import ZArith Lia List Bool Arith.
From Verif Require Import Mem PermModel PermSpec PermProofs PermCycleProofs PermSignProofs PermCacheProofs.
Import ListNotations.
Open Scope nat_scope.

(** * C25: the two index maps stay mutually inverse *)
(** For every history of valid operations, from construction over arbitrary memory. *)
Theorem permutation_matrix_inverse_maps n m0 os : Forall (pvalid n) os ->
  inverse_maps n (src (prun n m0 os)) (dst (prun n m0 os)).
Proof. exact (prun_ok n m0 os). Qed.
Print Assumptions permutation_matrix_inverse_maps.
(** Element (r,c) is 1 iff row r comes from source c, iff source c goes to row r; one 1 in every row and column. *)
Theorem permutation_matrix_elements n m0 os : Forall (pvalid n) os -> let m := prun n m0 os in
  (forall r c, r < n -> c < n -> (pelem m r c = true <-> src m r = c) /\ (pelem m r c = true <-> dst m c = r)) /\
  (forall r, r < n -> exists c, c < n /\ pelem m r c = true /\ forall c', c' < n -> pelem m r c' = true -> c' = c) /\
  (forall c, c < n -> exists r, r < n /\ pelem m r c = true /\ forall r', r' < n -> pelem m r' c = true -> r' = r).
Proof. intros V m. exact (pelem_ok n m (prun_ok n m0 os V)). Qed.
Print Assumptions permutation_matrix_elements.
(** Effect of each operation on the matrix elements. *)
Theorem permutation_matrix_operations n m0 os p a b : Forall (pvalid n) os -> is_perm n p -> a < n -> b < n ->
  let m := prun n m0 os in forall r c, r < n -> c < n ->
  pelem (set_row_sources n m p) r c = (p r =? c) /\
  pelem (set_col_sources n m p) r c = (p c =? r) /\
  pelem (swap_rows m a b) r c = pelem m (if r =? a then b else if r =? b then a else r) c /\
  pelem (swap_cols m a b) r c = pelem m r (if c =? a then b else if c =? b then a else c) /\
  pelem (ptranspose m) r c = pelem m c r /\
  pelem (set_identity n m) r c = (r =? c).
Proof. intros V P Ha Hb m r c Hr Hc. exact (ops_elements n m p a b (prun_ok n m0 os V) P Ha Hb r c Hr Hc). Qed.
Print Assumptions permutation_matrix_operations.
(** When every swap exchanges two different lines, sign() either returns the parity of the row permutation or is
    undefined; it is defined when the maps were never assigned. *)
Theorem permutation_matrix_sign n m0 os k : Forall (fun o => pvalid n o /\ proper o) os ->
  by_swaps n k (src (prun n m0 os)) ->
  sign (prun n m0 os) = Fault OtherUB \/ sign (prun n m0 os) = Ok (if Nat.odd k then (-1)%Z else 1%Z).
Proof.
  intros V S. unfold sign. destruct (cache_run n m0 os V) as [E|E]; [left; now rewrite E|].
  rewrite (E k S). right. unfold zsign. destruct (Nat.odd k); reflexivity.
Qed.
Print Assumptions permutation_matrix_sign.
Theorem permutation_matrix_sign_defined n m0 os k : Forall (fun o => pvalid n o /\ proper o) os -> Forall keeps os ->
  by_swaps n k (src (prun n m0 os)) -> sign (prun n m0 os) = Ok (if Nat.odd k then (-1)%Z else 1%Z).
Proof.
  intros V K S. pose proof (cache_set n os (set_identity n m0) ltac:(discriminate) K) as N. unfold prun in *. unfold sign.
  destruct (cache_run n m0 os V) as [E|E]; [contradiction|]. unfold prun in E. rewrite (E k S). unfold zsign. destruct (Nat.odd k); reflexivity.
Qed.
Print Assumptions permutation_matrix_sign_defined.
(** sign() is undefined (no return statement on that path) whenever the maps were assigned last. *)
Theorem permutation_matrix_sign_refuted n m p : sign (set_row_sources n m p) = Fault OtherUB /\ sign (set_col_sources n m p) = Fault OtherUB.
Proof. split; reflexivity. Qed.
Print Assumptions permutation_matrix_sign_refuted.
(** swap_rows(a,a) leaves the permutation alone but flips the sign that sign() reports. *)
Theorem permutation_matrix_swap_self_refuted n m0 os a : Forall (fun o => pvalid n o /\ proper o) os -> Forall keeps os -> a < n ->
  let m := prun n m0 os in
  (forall i, i < n -> src (swap_rows m a a) i = src m i /\ dst (swap_rows m a a) i = dst m i) /\
  exists z, sign m = Ok z /\ z <> 0%Z /\ sign (swap_rows m a a) = Ok (- z)%Z.
Proof.
  intros V K Ha m. assert (I : pinv n m) by (apply prun_ok; eapply Forall_impl; [|exact V]; cbn; tauto).
  destruct (swap_self n m a I Ha) as [A B]. split; [exact A|].
  pose proof (cache_set n os (set_identity n m0) ltac:(discriminate) K) as N. fold (prun n m0 os) in N. fold m in N.
  exists (psign m). unfold sign. rewrite B. destruct (Z.eqb_spec (psign m) 0); [contradiction|]. destruct (Z.eqb_spec (- psign m) 0); [lia|]. auto.
Qed.
Print Assumptions permutation_matrix_swap_self_refuted.
Example permutation_matrix_ex : let m := prun 3 (mkP (fun _ => 7) (fun _ => 9) 5) [PSwapRows 0 2; PSwapCols 0 1; PTranspose] in
  map (src m) [0;1;2] = [1;2;0] /\ map (dst m) [0;1;2] = [2;0;1] /\ sign m = Ok 1%Z.
Proof. vm_compute. auto. Qed.
Example permutation_matrix_set_ex : let m := prun 3 (mkP (fun _ => 7) (fun _ => 9) 5) [PSetRow (fun i => (i + 1) mod 3); PSwapRows 0 2] in
  map (src m) [0;1;2] = [0;2;1] /\ map (dst m) [0;1;2] = [0;2;1] /\ sign m = Fault OtherUB.
Proof. vm_compute. auto. Qed.

(** * C26: in-place application of a permutation *)
Theorem permutation_apply_correct {A} n p (v : nat -> A) : is_perm n p -> exists p' v',
  permutation_apply p n v = Some (p', v') /\ (forall i, i < n -> v' i = v (p i)) /\ (forall i, n <= i -> v' i = v i).
Proof. intros P. destruct (apply_ok n p v P) as (p' & v' & E & V & O & _). exists p', v'. auto. Qed.
Print Assumptions permutation_apply_correct.
(** The same for the matrix-row version used by the PLU solver. *)
Theorem destructive_apply_permutation_correct {A} n p (M : nat -> nat -> A) : is_perm n p -> exists p' M',
  destructive_apply_permutation p M n = Some (p', M') /\ (forall r c, r < n -> M' r c = M (p r) c).
Proof.
  intros P. destruct (apply_ok n p M P) as (p' & M' & E & V & _). exists p', M'. split; [exact E|]. intros r c Hr. now rewrite V.
Qed.
Print Assumptions destructive_apply_permutation_correct.
(** The documentation says the permutation array is left holding the identity: false of every non-identity permutation. *)
Theorem permutation_apply_identity_refuted {A} n p (v : nat -> A) p' v' : is_perm n p -> ~ is_identity n p ->
  permutation_apply p n v = Some (p', v') -> ~ is_identity n p'.
Proof. exact (apply_not_identity n p v p' v'). Qed.
Print Assumptions permutation_apply_identity_refuted.
Example permutation_apply_ex : match permutation_apply (fun i => nth i [2;0;1;4;3] i) 5 (fun i => i * 10) with
  | Some (p, v) => map p [0;1;2;3;4] = [2;1;2;4;4] /\ map v [0;1;2;3;4] = [20;0;10;40;30] | None => False end.
Proof. vm_compute. auto. Qed.

(** * C27: permutation_sign *)
(** Parity is well defined: every permutation is reached by some number of exchanges, always of the same parity. *)
Theorem parity_well_defined n p : is_perm n p -> exists k, by_swaps n k p /\ forall k', by_swaps n k' p -> Nat.odd k' = Nat.odd k.
Proof. intros P. destruct (by_swaps_exists n p P) as (k & H). exists k. split; [exact H|]. intros k' H'. exact (by_swaps_parity n k' k p H' H). Qed.
Print Assumptions parity_well_defined.
(** What permutation_sign returns: (-1) to the number of displaced entries; the array is reset to the identity. *)
Theorem permutation_sign_value n p : is_perm n p -> exists p',
  permutation_sign p n = Some (p', if Nat.odd (displaced n p) then (-1)%Z else 1%Z) /\ is_identity n p'.
Proof. exact (sign_ok n p). Qed.
Print Assumptions permutation_sign_value.
(** It is the sign of the permutation exactly when the number of cycles of length two or more is even. *)
Theorem permutation_sign_correct_iff n k p : by_swaps n k p -> exists p' z, permutation_sign p n = Some (p', z) /\
  (z = (if Nat.odd k then (-1)%Z else 1%Z) <-> Nat.even (nontrivial_cycles n p) = true).
Proof.
  intros S. destruct (sign_right n k p S) as (p' & E & _). eexists p', _. split; [exact E|]. unfold zsign.
  rewrite Nat.odd_add, <- Nat.negb_odd. destruct (Nat.odd k), (Nat.odd (nontrivial_cycles n p)); cbn; split; congruence.
Qed.
Print Assumptions permutation_sign_correct_iff.
(** Every single exchange has sign -1; permutation_sign says 1. *)
Theorem permutation_sign_refuted n a b : a < n -> b < n -> a <> b ->
  by_swaps n 1 (swap (fun i => i) a b) /\ exists p', permutation_sign (swap (fun i => i) a b) n = Some (p', 1%Z).
Proof.
  intros Ha Hb N. assert (Id : is_identity n (fun i => i)) by (intros i _; reflexivity).
  assert (S : by_swaps n 1 (swap (fun i => i) a b)).
  { apply (bs_swap n 0 (fun i => i) _ a b); auto; [now constructor|]. intros i _. unfold swap, upd.
    destruct (Nat.eqb_spec i b), (Nat.eqb_spec i a); congruence. }
  split; [exact S|]. destruct (sign_ok n _ (by_swaps_perm _ _ _ S)) as (p' & E & _). exists p'. rewrite E.
  rewrite (swap_nontrivial n (fun i => i) a b); auto. split; auto.
Qed.
Print Assumptions permutation_sign_refuted.
(** The algorithm in the (never called) member _compute_sign is right for every permutation. *)
Theorem compute_sign_correct n k p : by_swaps n k p -> compute_sign p n = Some (Nat.odd k).
Proof. intros S. rewrite (compute_ok n p (by_swaps_perm _ _ _ S)). f_equal. exact (followers_by_swaps n k p S). Qed.
Print Assumptions compute_sign_correct.
Example permutation_sign_ex :
  (match permutation_sign (fun i => nth i [2;0;1;4;3] i) 5 with Some (p, z) => map p [0;1;2;3;4] = [0;1;2;3;4] /\ z = (-1)%Z | None => False end) /\
  compute_sign (fun i => nth i [2;0;1;4;3] i) 5 = Some true /\ nontrivial_cycles 5 (fun i => nth i [2;0;1;4;3] i) = 2.
Proof. vm_compute. auto. Qed.
