From Coq Require Import Reals ZArith Lia Lra Bool List.
From Flocq Require Import Core BinarySingleNaN.
From Verif Require Import FmaModel FmaSpec FmaProofs FquadModel FquadProofs FquadMore FvecModel FvecSpec FvecProofs FvecMore FmtxSpec FcholModel FsolveModel FsolveSpec.
Open Scope R_scope.
Notation pw := (bpow radix2).
Notation float := (binary_float 53 1024).
Definition column (x y : float) (r c : nat) : float := match r with O => x | _ => y end.
Lemma lu_times2 (lu : nat -> nat -> float) x : lu_times 2 lu x 0 = B2R (lu 0%nat 0%nat) * B2R (x 0%nat) + B2R (lu 0%nat 1%nat) * B2R (x 1%nat) /\
  lu_times 2 lu x 1 = B2R (lu 1%nat 0%nat) * (B2R (lu 0%nat 0%nat) * B2R (x 0%nat) + B2R (lu 0%nat 1%nat) * B2R (x 1%nat)) + B2R (lu 1%nat 1%nat) * B2R (x 1%nat).
Proof. unfold lu_times, lower_part, upper_part. cbn [total Nat.ltb Nat.leb Nat.eqb]. split; ring. Qed.
(** 2^600 x - 2^600 y = 0, y = 2^600 has the solution (2^600, 2^600). *)
Definition big_lu : nat -> nat -> float := matrix2 (dbl 1 600) (dbl (-1) 600) (dbl 0 0) (dbl 1 0).
Definition big_b := column (dbl 0 0) (dbl 1 600).
Definition big_x (r : nat) : float := dbl 1 600.
Lemma overflowing : (forall r c, is_finite (big_lu r c) = true) /\ (forall r, is_finite (big_b r 0%nat) = true) /\ (forall r, is_finite (big_x r) = true) /\ (forall r, B2R (big_lu r r) <> 0) /\
  (forall r, (r < 2)%nat -> lu_times 2 big_lu big_x r = B2R (big_b r 0%nat)) /\ fl_backsolve_lu big_lu 2 1 0 big_b 0%nat 0%nat = B754_infinity false.
Proof.
  destruct (dbl_runs 1 600 ltac:(lia) ltac:(lia)) as (F1 & V1). destruct (dbl_runs (-1) 600 ltac:(lia) ltac:(lia)) as (F2 & V2). destruct (dbl_int 0 ltac:(lia)) as (F3 & V3). destruct (dbl_int 1 ltac:(lia)) as (F4 & V4). pose proof (bpow_gt_0 radix2 600) as P.
  split; [intros [|r] [|c]; assumption|]. split; [intros [|r]; assumption|]. split; [intros r; exact F1|]. split; [intros [|r]; unfold big_lu, matrix2; rewrite ?V1, ?V4; lra|]. split.
  - destruct (lu_times2 big_lu big_x) as (A & B). intros [|[|r]] R; [rewrite A|rewrite B|lia]; unfold big_lu, big_x, big_b, matrix2, column; rewrite ?V1, ?V2, ?V3, ?V4; ring.
  - apply B2SF_inj. vm_compute. reflexivity.
Qed.
(** x = 2^27 + 1, (2^27 + 1) x + y = 2^54 + 2^28 has the solution y = -1. *)
Definition whole_lu : nat -> nat -> float := matrix2 (dbl 1 0) (dbl 0 0) (dbl (2 ^ 27 + 1) 0) (dbl 1 0).
Definition whole_b := column (dbl (2 ^ 27 + 1) 0) (dbl (2 ^ 26 + 1) 28).
Definition whole_x (r : nat) : float := match r with O => dbl (2 ^ 27 + 1) 0 | _ => dbl (-1) 0 end.
Lemma no_digits : (forall r c, is_finite (whole_lu r c) = true) /\ (forall r, is_finite (whole_b r 0%nat) = true) /\ (forall r, is_finite (whole_x r) = true) /\ (forall r, B2R (whole_lu r r) <> 0) /\
  (forall r, (r < 2)%nat -> lu_times 2 whole_lu whole_x r = B2R (whole_b r 0%nat)) /\ B2R (whole_x 1%nat) = -1 /\ B2R (fl_backsolve_lu whole_lu 2 1 0 whole_b 1%nat 0%nat) = 0.
Proof.
  destruct (dbl_int (2 ^ 27 + 1) ltac:(lia)) as (F1 & V1). destruct (dbl_runs (2 ^ 26 + 1) 28 ltac:(lia) ltac:(lia)) as (F2 & V2). destruct (dbl_int 0 ltac:(lia)) as (F3 & V3). destruct (dbl_int 1 ltac:(lia)) as (F4 & V4). destruct (dbl_int (-1) ltac:(lia)) as (F5 & V5).
  split; [intros [|r] [|c]; assumption|]. split; [intros [|r]; assumption|]. split; [intros [|r]; assumption|]. split; [intros [|r]; unfold whole_lu, matrix2; rewrite ?V1, ?V4; lra|]. split; [|split].
  - destruct (lu_times2 whole_lu whole_x) as (A & B). intros [|[|r]] R; [rewrite A|rewrite B|lia]; unfold whole_lu, whole_x, whole_b, matrix2, column; rewrite ?V1, ?V2, ?V3, ?V4, ?V5; [ring|]. change (pw 28) with (IZR (2 ^ 28)). rewrite <- ?mult_IZR, <- ?plus_IZR, <- ?mult_IZR, <- ?plus_IZR. apply f_equal. lia.
  - exact V5.
  - assert (E : fl_backsolve_lu whole_lu 2 1 0 whole_b 1%nat 0%nat = B754_zero false) by (apply B2SF_inj; vm_compute; reflexivity). rewrite E. reflexivity.
Qed.
(** Satisfiable hypotheses: 2 x + y = 5, (1/2) (2 x + y) + 3 y = 11. *)
Definition plain_lu : nat -> nat -> float := matrix2 (dbl 2 0) (dbl 1 0) (dbl 1 (-1)) (dbl 3 0).
Definition plain_b := column (dbl 5 0) (dbl 11 0).
Lemma solve_example : (forall r, (r < 2)%nat -> is_finite (plain_lu r r) = true) /\ forall r, (r < 2)%nat -> is_finite (fl_backsolve_lu plain_lu 2 1 0 plain_b r 0%nat) = true.
Proof. split; intros [|[|r]] R; try lia; vm_compute; reflexivity. Qed.
