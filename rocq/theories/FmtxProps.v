(** Products of matrices and affine transforms of floating-point numbers. *)
From Coq Require Import Reals ZArith Lia Lra.
From Flocq Require Import Core BinarySingleNaN.
From Verif Require Import FmaModel FmaSpec FmaProofs FquadModel FvecModel FvecSpec FvecMore FmtxModel FmtxSpec FmtxProofs FmtxMore FmtxWit.
Open Scope R_scope.

Section Props.
Variable prec emax : Z.
Context {Hp : Prec_gt_0 prec} {He : Prec_lt_emax prec emax}.
Notation float := (binary_float prec emax).
Notation vector := (nat -> float).
Notation matrix := (nat -> nat -> float).

(** Every element of a product whose value is a number is near the exact sum of products. *)
Theorem flmtx_mul_accurate : forall (inner : nat) (a b : matrix) (r c : nat), numbers inner (a r) -> numbers inner (fun n => b n c) -> is_finite (fl_mtx_mul inner a b r c) = true ->
  Rabs (B2R (fl_mtx_mul inner a b r c) - exact_dot inner (a r) (fun n => b n c)) <= product_error_bound prec emax inner (sum_of_sizes inner (a r) (fun n => b n c)).
Proof. intros inner a b r c Fa Fb F. exact (product_accurate prec emax inner (a r) (fun n => b n c) Fa Fb F). Qed.
Print Assumptions flmtx_mul_accurate.

(** The same, added to a destination. *)
Theorem flmtx_mul_acc_accurate : forall (inner : nat) (a b d : matrix) (r c : nat), numbers inner (a r) -> numbers inner (fun n => b n c) -> is_finite (fl_mtx_mul_acc inner a b d r c) = true ->
  is_finite (d r c) = true /\ Rabs (B2R (fl_mtx_mul_acc inner a b d r c) - (B2R (d r c) + exact_dot inner (a r) (fun n => b n c))) <=
    product_error_bound prec emax inner (Rabs (B2R (d r c)) + sum_of_sizes inner (a r) (fun n => b n c)).
Proof. intros inner a b d r c Fa Fb F. exact (accum_accurate prec emax inner (a r) (fun n => b n c) (d r c) Fa Fb F). Qed.
Print Assumptions flmtx_mul_acc_accurate.

(** Products of a matrix and a vector. *)
Theorem flmtx_vec_accurate : forall (inner : nat) (a : matrix) (v : vector) (r : nat), numbers inner (a r) -> numbers inner v -> is_finite (fl_mtx_vec inner a v r) = true ->
  Rabs (B2R (fl_mtx_vec inner a v r) - exact_dot inner (a r) v) <= product_error_bound prec emax inner (sum_of_sizes inner (a r) v).
Proof. intros inner a v r. exact (product_accurate prec emax inner (a r) v). Qed.
Print Assumptions flmtx_vec_accurate.

Theorem flmtx_vec_acc_accurate : forall (inner : nat) (a : matrix) (v d : vector) (r : nat), numbers inner (a r) -> numbers inner v -> is_finite (fl_mtx_vec_acc inner a v d r) = true ->
  is_finite (d r) = true /\ Rabs (B2R (fl_mtx_vec_acc inner a v d r) - (B2R (d r) + exact_dot inner (a r) v)) <= product_error_bound prec emax inner (Rabs (B2R (d r)) + sum_of_sizes inner (a r) v).
Proof. intros inner a v d r. exact (accum_accurate prec emax inner (a r) v (d r)). Qed.
Print Assumptions flmtx_vec_acc_accurate.

(** An element is a number unless the terms are huge. *)
Theorem flmtx_mul_finite : forall (inner : nat) (a b : matrix) (r c : nat), (2 <= prec)%Z -> (Z.of_nat inner < 2 ^ (prec - 1))%Z -> numbers inner (a r) -> numbers inner (fun n => b n c) ->
  sum_of_sizes inner (a r) (fun n => b n c) <= bpow radix2 (emax - 3) -> is_finite (fl_mtx_mul inner a b r c) = true.
Proof. intros inner a b r c P2 K Fa Fb S. exact (product_finite prec emax P2 inner (a r) (fun n => b n c) K Fa Fb S). Qed.
Print Assumptions flmtx_mul_finite.

(** Matrices of integers which are not too large are multiplied exactly. *)
Theorem flmtx_mul_integers : forall (inner : nat) (a b : matrix) (r c : nat), (2 <= prec)%Z -> (forall n, (n < inner)%nat -> integral (a r n) /\ integral (b n c)) -> sum_of_sizes inner (a r) (fun n => b n c) <= bpow radix2 prec ->
  is_finite (fl_mtx_mul inner a b r c) = true /\ B2R (fl_mtx_mul inner a b r c) = exact_dot inner (a r) (fun n => b n c).
Proof. intros inner a b r c P2 I S. exact (product_integers prec emax P2 inner (a r) (fun n => b n c) I S). Qed.
Print Assumptions flmtx_mul_integers.

(** The transpose of a product is the product of the transposes in the other order, and v M is (transpose M) v: bit for bit, for all
    elements (infinities and NaN included). *)
Theorem flmtx_mul_transpose : forall (inner : nat) (a b : matrix) (v : vector) (r c : nat),
  fl_mtx_mul inner (fun i j => b j i) (fun i j => a j i) c r = fl_mtx_mul inner a b r c /\ fl_vec_mtx inner v a c = fl_mtx_vec inner (fun i j => a j i) v c.
Proof. intros inner a b v r c. split; [apply accum_comm|reflexivity]. Qed.
Print Assumptions flmtx_mul_transpose.

(** Multiplication by the identity changes no number. *)
Theorem flmtx_identity : forall (inner : nat) (a : matrix) (v : vector) (r c : nat),
  ((c < inner)%nat -> numbers inner (a r) -> same_number (fl_mtx_mul inner a fl_delta r c) (a r c)) /\
  ((r < inner)%nat -> numbers inner (fun n => a n c) -> same_number (fl_mtx_mul inner fl_delta a r c) (a r c)) /\
  ((r < inner)%nat -> numbers inner v -> same_number (fl_mtx_vec inner fl_delta v r) (v r)).
Proof. intros inner a v r c. split; [apply times_identity|split; [apply identity_times|apply identity_vec]]. Qed.
Print Assumptions flmtx_identity.

(** But an infinite element makes all others of its row NaN. *)
Theorem flmtx_identity_refuted : forall (inner : nat) (a : matrix) (r c k : nat) (s : bool), (c < inner)%nat -> (k < inner)%nat -> k <> c -> a r k = B754_infinity s -> is_nan (fl_mtx_mul inner a fl_delta r c) = true.
Proof. intros inner a r c k s C K N E. now rewrite (times_identity_inf prec emax inner a r c k s). Qed.
Print Assumptions flmtx_identity_refuted.

(** A translation adds its vector to a point, with one rounding, its inverse subtracts it, and directions stay. *)
Theorem flxf_translation : forall (N : nat) (t p : vector) (i : nat), (i < N)%nat -> numbers N p ->
  same_number (fl_apply N (fl_translation N t) p i) (fl_add prec emax (p i) (t i)) /\ same_number (fl_apply_inverse N (fl_translation N t) p i) (fl_sub prec emax (p i) (t i)) /\
  same_number (fl_apply_vector N (fl_translation N t) p i) (p i).
Proof. intros N t p i I F. exact (translates prec emax N t p i I F). Qed.
Print Assumptions flxf_translation.

(** A scale multiplies each coordinate, with one rounding, and its inverse multiplies by the rounded reciprocal. *)
Theorem flxf_scale : forall (N : nat) (s p : vector) (i : nat), (i < N)%nat -> numbers N p ->
  same_number (fl_apply N (fl_scale N s) p i) (fl_mul prec emax (s i) (p i)) /\
  same_number (fl_apply_inverse N (fl_scale N s) p i) (fl_mul prec emax (fl_div prec emax (fl_one prec emax) (s i)) (p i)) /\
  same_number (fl_apply_vector N (fl_scale N s) p i) (fl_mul prec emax (s i) (p i)).
Proof. intros N s p i I F. exact (scales prec emax N s p i I F). Qed.
Print Assumptions flxf_scale.

(** The inverse of a translation undoes it when no coordinate overflows and the sums are exact. *)
Theorem flxf_translation_back : forall (N : nat) (t p : vector) (i : nat), (i < N)%nat -> numbers N p -> numbers N t -> (forall j, (j < N)%nat -> is_finite (fl_add prec emax (p j) (t j)) = true) ->
  B2R (fl_add prec emax (p i) (t i)) = B2R (p i) + B2R (t i) -> same_number (fl_apply_inverse N (fl_translation N t) (fl_apply N (fl_translation N t) p) i) (p i).
Proof. intros N t p i. exact (round_trip prec emax N t p i). Qed.
Print Assumptions flxf_translation_back.

(** A point with an infinite coordinate has no other coordinates after a translation. *)
Theorem flxf_translation_infinite_refuted : forall (N : nat) (t p : vector) (i k : nat) (s : bool), (i < N)%nat -> (k < N)%nat -> k <> i -> p k = B754_infinity s -> is_nan (fl_apply N (fl_translation N t) p i) = true.
Proof. intros N t p i k s I K D E. now rewrite (translate_inf prec emax N t p i k s). Qed.
Print Assumptions flxf_translation_infinite_refuted.

(** The error of a transformed point or direction. *)
Theorem flxf_apply_accurate : forall (N : nat) (xf : fl_xform prec emax) (p : vector) (i : nat), numbers (S N) (fl_mat xf i) -> numbers N p ->
  (is_finite (fl_apply N xf p i) = true ->
     Rabs (B2R (fl_apply N xf p i) - (exact_dot N (fl_mat xf i) p + B2R (fl_mat xf i N))) <= product_error_bound prec emax (S N) (sum_of_sizes N (fl_mat xf i) p + Rabs (B2R (fl_mat xf i N)))) /\
  (is_finite (fl_apply_vector N xf p i) = true ->
     Rabs (B2R (fl_apply_vector N xf p i) - exact_dot N (fl_mat xf i) p) <= product_error_bound prec emax N (sum_of_sizes N (fl_mat xf i) p)).
Proof.
  intros N xf p i Fm Fp. split; [exact (apply_accurate prec emax N (fl_mat xf) p i Fm Fp)|]. apply product_accurate; [intros j J; apply Fm; lia|exact Fp].
Qed.
Print Assumptions flxf_apply_accurate.

(** The same for the inverse transform of a point, and for normals, which use the columns of the inverse. *)
Theorem flxf_inverse_accurate : forall (N : nat) (xf : fl_xform prec emax) (p : vector) (i : nat), numbers N p ->
  (numbers (S N) (fl_inv xf i) -> is_finite (fl_apply_inverse N xf p i) = true ->
     Rabs (B2R (fl_apply_inverse N xf p i) - (exact_dot N (fl_inv xf i) p + B2R (fl_inv xf i N))) <= product_error_bound prec emax (S N) (sum_of_sizes N (fl_inv xf i) p + Rabs (B2R (fl_inv xf i N)))) /\
  (numbers N (fun j => fl_inv xf j i) -> is_finite (fl_apply_normal N xf p i) = true ->
     Rabs (B2R (fl_apply_normal N xf p i) - exact_dot N (fun j => fl_inv xf j i) p) <= product_error_bound prec emax N (sum_of_sizes N (fun j => fl_inv xf j i) p)).
Proof. intros N xf p i Fp. split; [intros Fm; exact (apply_accurate prec emax N (fl_inv xf) p i Fm Fp)|intros Fm; now apply product_accurate]. Qed.
Print Assumptions flxf_inverse_accurate.

(** The matrices of a composition: second after first, and the first's inverse after the second's. *)
Theorem flxf_composition_accurate : forall (N : nat) (first second : fl_xform prec emax) (r c : nat), let both := fl_then N first second in
  (numbers (S N) (fl_mat second r) -> numbers (S N) (fun n => fl_mat first n c) -> is_finite (fl_mat both r c) = true ->
     Rabs (B2R (fl_mat both r c) - exact_dot (S N) (fl_mat second r) (fun n => fl_mat first n c)) <= product_error_bound prec emax (S N) (sum_of_sizes (S N) (fl_mat second r) (fun n => fl_mat first n c))) /\
  (numbers (S N) (fl_inv first r) -> numbers (S N) (fun n => fl_inv second n c) -> is_finite (fl_inv both r c) = true ->
     Rabs (B2R (fl_inv both r c) - exact_dot (S N) (fl_inv first r) (fun n => fl_inv second n c)) <= product_error_bound prec emax (S N) (sum_of_sizes (S N) (fl_inv first r) (fun n => fl_inv second n c))).
Proof. intros N first second r c both. split; intros A B F; exact (product_accurate prec emax (S N) _ _ A B F). Qed.
Print Assumptions flxf_composition_accurate.
End Props.

(** Doubles: a point moved far away does not come back, and transforming by a composition is not transforming twice: moving -2^60 by
    2^60 and then by 1 gives 1, the composed transform gives 0. *)
Theorem flxf_translation_back_refuted : exists t p : nat -> binary_float 53 1024, numbers 1 t /\ numbers 1 p /\ B2R (p 0%nat) = 1 /\
  B2R (fl_apply_inverse 1 (fl_translation 1 t) (fl_apply 1 (fl_translation 1 t) p) 0%nat) = 0.
Proof. exact lost_translation. Qed.
Print Assumptions flxf_translation_back_refuted.

Theorem flxf_composition_refuted : exists (first second : fl_xform 53 1024) (p : nat -> binary_float 53 1024), numbers 1 p /\
  B2R (fl_apply 1 second (fl_apply 1 first p) 0%nat) = 1 /\ is_finite (fl_apply 1 (fl_then 1 first second) p 0%nat) = true /\ B2R (fl_apply 1 (fl_then 1 first second) p 0%nat) = 0.
Proof. exact lost_composition. Qed.
Print Assumptions flxf_composition_refuted.

(** The hypotheses can hold: the matrices of integers 1 2; 3 4 and 5 6; 7 8 multiply exactly, 19 22; 43 50; and a point of numbers with sums far from overflow. *)
Example flmtx_integers_example : let a := matrix2 (dbl 1 0) (dbl 2 0) (dbl 3 0) (dbl 4 0) in let b := matrix2 (dbl 5 0) (dbl 6 0) (dbl 7 0) (dbl 8 0) in
  (forall r n c, (n < 2)%nat -> integral (a r n) /\ integral (b n c)) /\ (forall r c, (r < 2)%nat -> (c < 2)%nat -> sum_of_sizes 2 (a r) (fun n => b n c) <= bpow radix2 53) /\
  B2R (fl_mtx_mul 2 a b 1%nat 1%nat) = 50.
Proof. exact integers_example. Qed.
Example flxf_translation_back_example : let p := fun _ : nat => dbl 3 0 in let t := fun _ : nat => dbl (-5) 0 in
  numbers 3 p /\ numbers 3 t /\ (forall j, (j < 3)%nat -> is_finite (fl_add 53 1024 (p j) (t j)) = true) /\ B2R (fl_add 53 1024 (p 1%nat) (t 1%nat)) = B2R (p 1%nat) + B2R (t 1%nat).
Proof. exact back_example. Qed.
