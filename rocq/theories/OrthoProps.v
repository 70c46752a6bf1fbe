(** Property C33: Gram-Schmidt, projections, and vectors orthogonal to a given family. *)
From Coq Require Import Reals Lra Lia Arith List Bool QArith Qcanon.
From Verif Require Import Fld RFld LinSpec RLinSpec OrthoModel OrthoProofs NullProofs PluProps.
Import ListNotations.
Local Close Scope Q_scope.
Local Close Scope Qc_scope.
Open Scope R_scope.

(** orthogonalize: in the general case no hypothesis on the vectors is needed. *)
Theorem orthogonalize_orthogonal N n (V : nat -> nat -> R) : N <> 2%nat ->
  let B := orthogonalize_any N n V in
  (forall i j, (i < n)%nat -> (j < n)%nat -> i <> j -> rdot N (B i) (B j) = 0) /\
  (forall p x, in_span N p B x <-> in_span N p V x) /\ B 0%nat = V 0%nat.
Proof.
  intros D. cbn zeta. unfold orthogonalize_any. destruct (Nat.eqb_spec N 2); [contradiction|]. destruct (orthogonalize_gs N V n) as (R & F & P).
  exact (conj P (conj (proj1 R) F)).
Qed.
Print Assumptions orthogonalize_orthogonal.
(** With independent vectors the same holds for every dimension, and no result is zero. *)
Theorem orthogonalize_independent N n (V : nat -> nat -> R) : (n <= N)%nat -> independent N n V ->
  let B := orthogonalize_any N n V in
  (forall i j, (i < n)%nat -> (j < n)%nat -> i <> j -> rdot N (B i) (B j) = 0) /\
  (forall p x, (p <= n)%nat -> (in_span N p B x <-> in_span N p V x)) /\ B 0%nat = V 0%nat /\
  (forall i, (i < n)%nat -> 0 < rdot N (B i) (B i)).
Proof.
  intros H I. exact (conj (any_pairwise N n V H) (conj (fun p x => any_span N n V p x H I) (conj (any_first N n V) (fun i => any_nonzero N n V i H I)))).
Qed.
Print Assumptions orthogonalize_independent.
(** In two dimensions the second vector is replaced whatever it was, so the span of dependent vectors is not kept. *)
Theorem orthogonalize_2d_refuted : exists (V : nat -> nat -> R) (x : nat -> R), in_span 2 2 (orthogonalize_any 2 2 V) x /\ ~ in_span 2 2 V x.
Proof.
  exists (fun _ k => if (k =? 0)%nat then 1 else 0), (fun k => if (k =? 0)%nat then 0 else 1). split.
  - exists (fun j => if (j =? 0)%nat then 0 else 1). intros [|[|]] Hk; [| |lia]; cbn; ring.
  - intros [t Ht]. specialize (Ht 1%nat ltac:(lia)). cbn in Ht. lra.
Qed.
Print Assumptions orthogonalize_2d_refuted.
(** orthonormalize. *)
Theorem orthonormalize_orthonormal N n (V : nat -> nat -> R) : (n <= N)%nat -> independent N n V ->
  let B := orthonormalize N n V in
  (forall i j, (i < n)%nat -> (j < n)%nat -> rdot N (B i) (B j) = if (i =? j)%nat then 1 else 0) /\
  (forall p x, (p <= n)%nat -> (in_span N p B x <-> in_span N p V x)) /\
  (forall k, (0 < n)%nat -> B 0%nat k = V 0%nat k / mag N (V 0%nat)).
Proof.
  intros H I. exact (conj (fun i j => orthonormal N n V i j H I) (conj (fun p x => orthonormal_span N n V p x H I) (fun k P => orthonormal_first N n V k P))).
Qed.
Print Assumptions orthonormalize_orthonormal.
(** Projection onto the span of mutually orthogonal vectors: the foot of the perpendicular and the nearest point. *)
Theorem project_orthogonal_nearest N n (B : nat -> nat -> R) x :
  (forall i j, (i < n)%nat -> (j < n)%nat -> i <> j -> rdot N (B i) (B j) = 0) ->
  let y := project_to_orthogonal_subspace N n B x in
  in_span N n B y /\ (forall j, (j < n)%nat -> rdot N (fun k => x k - y k) (B j) = 0) /\
  (forall z, in_span N n B z -> rdot N (fun k => x k - y k) (fun k => x k - y k) <= rdot N (fun k => x k - z k) (fun k => x k - z k)).
Proof.
  intros P. destruct (projection_spec N n B x P) as [S O]. exact (conj S (conj O (fun z => foot_nearest N n B x _ z S O))).
Qed.
Print Assumptions project_orthogonal_nearest.
(** The same for any independent vectors. *)
Theorem project_subspace_nearest N n (V : nat -> nat -> R) x : (n <= N)%nat -> independent N n V ->
  let y := project_to_subspace N n V x in
  in_span N n V y /\ (forall j, (j < n)%nat -> rdot N (fun k => x k - y k) (V j) = 0) /\
  (forall z, in_span N n V z -> rdot N (fun k => x k - y k) (fun k => x k - y k) <= rdot N (fun k => x k - z k) (fun k => x k - z k)).
Proof.
  intros H I. destruct (subspace_spec N n V x H I) as [S O]. exact (conj S (conj O (fun z => foot_nearest N n V x _ z S O))).
Qed.
Print Assumptions project_subspace_nearest.

(** ** orthogonal and nullspace, over any field *)
Section Null.
Variable K : field.
Variable bigger : K -> K -> bool.
Hypothesis O : sane_order bigger.
Local Open Scope fld_scope.
(** Two and three dimensions: always orthogonal to the arguments, and non-zero exactly when they are independent. *)
Theorem orthogonal_low (N : nat) (v : mtx K) : N = 2%nat \/ N = 3%nat -> exists o, orthogonal_any bigger N v = Some o /\
  (forall j, (j < N - 1)%nat -> sum N (fun c => v j c * o c) = 0) /\
  (independent_rows N (N - 1) v <-> exists k, (k < N)%nat /\ o k <> 0).
Proof.
  intros [-> | ->]; eexists; (split; [reflexivity|]).
  - split; [|exact (left_independent K v)]. intros j Hj. replace j with 0%nat by (cbn in Hj; lia). exact (left_orthogonal K v).
  - exact (conj (cross_orthogonal K v) (cross_independent K v)).
Qed.
(** Higher dimensions: a correct non-zero answer exactly when the first N-1 components of the vectors form a nonsingular matrix;
    otherwise the zero vector, or a division by zero (None). *)
Theorem orthogonal_high (N : nat) (v : mtx K) : (4 <= N)%nat ->
  (~ singular (N - 1) v -> exists o, orthogonal_any bigger N v = Some o /\ o (N - 1)%nat = 1 /\
    forall j, (j < N - 1)%nat -> sum N (fun c => v j c * o c) = 0) /\
  (singular (N - 1) v -> orthogonal_any bigger N v = Some (fun _ => 0) \/ orthogonal_any bigger N v = None).
Proof.
  intros H. replace (orthogonal_any bigger N v) with (orthogonal bigger N v).
  - split; [apply (orthogonal_ok K bigger N v O); lia|exact (orthogonal_fails K bigger N v O)].
  - unfold orthogonal_any. destruct (Nat.eqb_spec N 3), (Nat.eqb_spec N 2); try lia. reflexivity.
Qed.
(** So independent vectors can be reported dependent, independent vectors can lead to a division by zero, and so can dependent ones. *)
Theorem orthogonal_high_refuted (N : nat) : (4 <= N)%nat ->
  (exists v : mtx K, independent_rows N (N - 1) v /\ orthogonal_any bigger N v = Some (fun _ => 0)) /\
  (exists v : mtx K, independent_rows N (N - 1) v /\ orthogonal_any bigger N v = None) /\
  (exists v : mtx K, ~ independent_rows N (N - 1) v /\ orthogonal_any bigger N v = None).
Proof.
  intros H. assert (E : forall v : mtx K, orthogonal_any bigger N v = orthogonal bigger N v).
  { intros v. unfold orthogonal_any. destruct (Nat.eqb_spec N 3), (Nat.eqb_spec N 2); try lia. reflexivity. }
  split; [|split].
  - exists (shifted K). rewrite E. split; [apply shifted_independent; lia|apply orthogonal_shifted; lia].
  - exists (late K (N - 1) (fun c => delta (N - 1) c)). rewrite E. split; [apply late_independent; lia|]. apply (orthogonal_late K bigger N _ O); [lia|].
    intros c Hc. unfold delta. destruct (Nat.eqb_spec (N - 1) c); [lia|reflexivity].
  - exists (late K (N - 1) (fun c => 0)). rewrite E. split; [apply late_dependent; lia|]. apply (orthogonal_late K bigger N _ O); [lia|reflexivity].
Qed.
(** nullspace for at most N-2 vectors: N-n independent vectors orthogonal to all of them (column b is the b-th), exactly
    when the first n components form a nonsingular matrix. *)
Theorem nullspace_general (N n : nat) (B out : mtx K) : (n + 2 <= N)%nat ->
  (~ singular n B -> exists X, nullspace_any bigger N n B out = Some (true, X) /\
    (forall b, (b < N - n)%nat -> forall j, (j < n)%nat -> sum N (fun c => B j c * X c b) = 0) /\
    (forall b b', (b < N - n)%nat -> (b' < N - n)%nat -> X (n + b')%nat b = delta b' b)) /\
  (singular n B -> nullspace_any bigger N n B out = Some (false, fun _ _ => 0) \/ nullspace_any bigger N n B out = None).
Proof.
  intros H. replace (nullspace_any bigger N n B out) with (nullspace bigger N n B).
  - split; [apply (nullspace_ok K bigger N n B O); lia|apply (nullspace_fails K bigger N n B O); lia].
  - unfold nullspace_any. destruct (Nat.leb_spec N n), (Nat.eqb_spec (N - n) 1); try lia. reflexivity.
Qed.
(** Independent vectors can be refused (n at least 2) or lead to a division by zero (n at least 1). *)
Theorem nullspace_refuted (N n : nat) (out : mtx K) : (n + 2 <= N)%nat ->
  ((2 <= n)%nat -> exists B : mtx K, independent_rows N n B /\ nullspace_any bigger N n B out = Some (false, fun _ _ => 0)) /\
  ((1 <= n)%nat -> exists B : mtx K, independent_rows N n B /\ nullspace_any bigger N n B out = None).
Proof.
  intros H. assert (E : forall B, nullspace_any bigger N n B out = nullspace bigger N n B).
  { intros B. unfold nullspace_any. destruct (Nat.leb_spec N n), (Nat.eqb_spec (N - n) 1); try lia. reflexivity. }
  split; intros Hn.
  - exists (shifted K). rewrite E. split; [apply shifted_independent; lia|apply nullspace_shifted; lia].
  - exists (late K n (fun c => delta n c)). rewrite E. split; [apply late_independent; lia|]. apply (nullspace_late K bigger N n _ O); [lia|].
    intros c Hc. unfold delta. destruct (Nat.eqb_spec n c); [lia|reflexivity].
Qed.
(** With N-1 vectors the function answers true even if they are dependent and the result is not a basis. *)
Theorem nullspace_last_refuted (N : nat) (out : mtx K) : (2 <= N)%nat -> exists B X : mtx K,
  ~ independent_rows N (N - 1) B /\ nullspace_any bigger N (N - 1) B out = Some (true, X) /\ forall k, (k < N)%nat -> X k 0%nat = 0.
Proof.
  intros H. destruct (nullspace_last_zero K bigger N out H) as (X & E & Z). exists (fun _ _ => 0), X. split; [apply zero_dependent; lia|exact (conj E Z)].
Qed.
End Null.
Print Assumptions orthogonal_low.
Print Assumptions orthogonal_high.
Print Assumptions orthogonal_high_refuted.
Print Assumptions nullspace_general.
Print Assumptions nullspace_refuted.
Print Assumptions nullspace_last_refuted.

(** ** The hypotheses are met *)
Example independent_example : independent 3 2 (fun j k => if (j =? 0)%nat then 1 else if (k =? 0)%nat then 1 else if (k =? 1)%nat then 2 else 0).
Proof.
  intros t Ht. pose proof (Ht 0%nat ltac:(lia)) as A. pose proof (Ht 1%nat ltac:(lia)) as B. cbn in A, B. intros [|[|]] Hj; [lra|lra|lia].
Qed.
Example orthogonal_example :
  option_map (fun o => map (fun k => this (o k)) [0;1;2;3]%nat) (orthogonal_any qbigger 4 (qm [[1;2;3;4];[0;1;1;1];[2;1;0;1]]%Z)) = Some [(-2#3); 1#3; (-4#3); 1#1]%Q.
Proof. vm_compute. reflexivity. Qed.
Example nullspace_example :
  option_map (fun p => (fst p, map (fun b => map (fun k => this (snd p k b)) [0;1;2;3]%nat) [0;1]%nat)) (nullspace_any qbigger 4 2 (qm [[1;2;3;4];[0;1;1;1]]%Z) (fun _ _ => 0%F))
  = Some (true, [[(-1#1); (-1#1); 1#1; 0#1]; [(-2#1); (-1#1); 0#1; 1#1]])%Q.
Proof. vm_compute. reflexivity. Qed.
