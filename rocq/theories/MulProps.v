(** Properties C34 (products by matrix type), C50 (products with shared storage) and C51 (transposes), over any field. *)
From Coq Require Import Arith Lia ZArith List Bool QArith Qcanon.
From Verif Require Import Mem Fld FldLemmas LinSpec PermModel PermSpec PluModel PluProps MulModel MulSpec MulProofs MulTransMore.
Import ListNotations.
Local Close Scope Q_scope.
Open Scope nat_scope.

(** * C34 *)
Theorem dense_product (K : field) rows inner cols (a b d : mtx K) r c : r < rows -> c < cols ->
  mul_dense rows inner cols a b d r c = mmul inner a b r c /\
  mul_acc rows inner cols a b d r c = (d r c + mmul inner a b r c)%F.
Proof. intros Hr Hc. exact (conj (mul_dense_ok K rows inner cols a b d r c Hr Hc) (mul_acc_ok K rows inner cols a b d r c Hr Hc)). Qed.
Print Assumptions dense_product.
Theorem matrix_vector_product (K : field) rows inner (a : mtx K) (v d : nat -> K) r : r < rows ->
  mul_mtx_vec rows inner a v d r = sum inner (fun k => a r k * v k)%F /\
  mul_acc_mtx_vec rows inner a v d r = (d r + sum inner (fun k => a r k * v k))%F.
Proof. intros Hr. exact (conj (mul_mtx_vec_ok K rows inner a v d r Hr) (mul_acc_mtx_vec_ok K rows inner a v d r Hr)). Qed.
Print Assumptions matrix_vector_product.
Theorem vector_matrix_product (K : field) inner cols (a : mtx K) (v d : nat -> K) c : c < cols ->
  mul_vec_mtx inner cols v a d c = sum inner (fun k => v k * a k c)%F /\
  mul_acc_vec_mtx inner cols v a d c = (d c + sum inner (fun k => v k * a k c))%F.
Proof. intros Hc. exact (conj (mul_vec_mtx_ok K inner cols a v d c Hc) (mul_acc_vec_mtx_ok K inner cols a v d c Hc)). Qed.
Print Assumptions vector_matrix_product.
(** matrix * (M x N diagonal matrix): the product when N <= M ... *)
Theorem matrix_diagonal_product (K : field) rows M N (a : mtx K) (v : nat -> K) (d : mtx K) : N <= M ->
  exists d', mul_mtx_diag rows M N a v d = Some d' /\ forall r c, r < rows -> c < N -> d' r c = mmul M a (diag v) r c.
Proof. exact (mul_mtx_diag_ok K rows M N a v d). Qed.
Print Assumptions matrix_diagonal_product.
(** ... and reads past the end of the diagonal for every wide diagonal matrix. *)
Theorem matrix_wide_diagonal_refuted (K : field) rows M N (a : mtx K) (v : nat -> K) (d : mtx K) : M < N -> 0 < rows ->
  mul_mtx_diag rows M N a v d = None.
Proof. exact (mul_mtx_diag_oob K rows M N a v d). Qed.
Print Assumptions matrix_wide_diagonal_refuted.
(** diagonal * matrix ignores the matrix: the square case always yields the square of the diagonal matrix. *)
Theorem diagonal_matrix_product_refuted (K : field) n (v : nat -> K) (b d : mtx K) :
  exists d', mul_diag_mtx n n n v b d = Some d' /\ (forall r c, r < n -> c < n -> d' r c = diag (fun k => v k * v k)%F r c) /\
  (0 < n -> v 0 <> 0%F -> b 0 0 <> v 0 -> d' 0 0 <> mmul n (diag v) b 0 0).
Proof. exact (mul_diag_mtx_wrong K n v b d). Qed.
Print Assumptions diagonal_matrix_product_refuted.
Theorem permutation_matrix_product (K : field) n cols p (b d : mtx K) r c : wf_perm n p -> r < n -> c < cols ->
  mul_perm_mtx n cols p b d r c = mmul n (perm_mtx p) b r c.
Proof. exact (mul_perm_mtx_ok K n cols p b d r c). Qed.
Print Assumptions permutation_matrix_product.
Theorem matrix_permutation_product (K : field) rows n p (a d : mtx K) r c : wf_perm n p -> r < rows -> c < n ->
  mul_mtx_perm rows n a p d r c = mmul n a (perm_mtx p) r c.
Proof. exact (mul_mtx_perm_ok K rows n p a d r c). Qed.
Print Assumptions matrix_permutation_product.
Theorem permutation_vector_product (K : field) n p (v d : nat -> K) i : wf_perm n p -> i < n ->
  mul_perm_vec n p v d i = sum n (fun k => perm_mtx p i k * v k)%F /\ mul_vec_perm n v p d i = sum n (fun k => v k * perm_mtx p k i)%F.
Proof. intros W H. exact (conj (mul_perm_vec_ok K n p v d i W H) (mul_vec_perm_ok K n p v d i W H)). Qed.
Print Assumptions permutation_vector_product.
(** permutation * permutation into a permutation matrix: a valid permutation matrix with the elements of the product. *)
Theorem permutation_product (K : field) n p q e : wf_perm n p -> wf_perm n q ->
  wf_perm n (mul_perm_perm n p q e) /\
  forall r c, r < n -> c < n -> perm_mtx (K := K) (mul_perm_perm n p q e) r c = mmul n (perm_mtx p) (perm_mtx q) r c.
Proof. intros P Q. exact (conj (mul_perm_perm_wf n p q e P Q) (fun r c => mul_perm_perm_ok K n p q e r c P Q)). Qed.
Print Assumptions permutation_product.
(** The sign is not updated: a product held in a new matrix reports +1 whatever its parity. *)
Theorem permutation_product_sign_refuted n p q e k :
  by_swaps n k (src (mul_perm_perm n p q (set_identity n e))) -> Nat.odd k = true ->
  sign (mul_perm_perm n p q (set_identity n e)) = Ok 1%Z /\
  sign (mul_perm_perm n p q (set_identity n e)) <> Ok (if Nat.odd k then (-1)%Z else 1%Z).
Proof. intros _ ->. split; [reflexivity|discriminate]. Qed.
Print Assumptions permutation_product_sign_refuted.
(** permutation * permutation into a dense matrix yields the transpose of the product, so it is wrong for every product
    that is not symmetric. *)
Theorem permutation_product_dense_refuted (K : field) n p q (d : mtx K) : wf_perm n p -> wf_perm n q ->
  (forall r c, r < n -> c < n -> mul_perm_perm_dense n p q d r c = mmul n (perm_mtx p) (perm_mtx q) c r) /\
  forall r c, r < n -> c < n -> mmul n (perm_mtx (K := K) p) (perm_mtx q) r c <> mmul n (perm_mtx p) (perm_mtx q) c r ->
    mul_perm_perm_dense n p q d r c <> mmul n (perm_mtx p) (perm_mtx q) r c.
Proof.
  intros P Q. split; [exact (fun r c => mul_perm_perm_dense_is K n p q d r c P Q)|].
  intros r c Hr Hc N. rewrite (mul_perm_perm_dense_is K n p q d r c P Q Hr Hc). congruence.
Qed.
Print Assumptions permutation_product_dense_refuted.
(** Hypotheses met: a three-cycle; its square is not symmetric. *)
Definition cyc : pmat := set_row_sources 3 (mkP (fun i => i) (fun i => i) 1%Z) (fun i => (i + 1) mod 3).
Example cyc_wf : wf_perm 3 cyc.
Proof. split; intros [|[|[|i]]] H; try lia; split; vm_compute; lia. Qed.
Example cyc_square : map (src (mul_perm_perm 3 cyc cyc cyc)) [0;1;2] = [2;0;1] /\
  map (fun r => this (mul_perm_perm_dense (K := Qc_field) 3 cyc cyc (fun _ _ => 0%F) r 1)) [0;1;2] = [1;0;0]%Q /\
  map (fun r => this (mmul (K := Qc_field) 3 (perm_mtx cyc) (perm_mtx cyc) r 1)) [0;1;2] = [0;0;1]%Q.
Proof. vm_compute. auto. Qed.
Definition swp : pmat := swap_rows (set_identity 3 (mkP (fun i => i) (fun i => i) 1%Z)) 0 1.
(** A transposition times the identity: odd, reported as even. *)
Example product_sign_example : by_swaps 3 1 (src (mul_perm_perm 3 swp (set_identity 3 swp) (set_identity 3 swp))).
Proof.
  apply (bs_swap 3 0 (fun i => i) _ 0 1); [apply bs_id; intros ? ?; reflexivity|lia|lia|lia|].
  intros [|[|[|i]]] H; try lia; reflexivity.
Qed.

(** * C50 *)
(** [mul(&d, a, b)] when the destination lies within an operand's storage, or is disjoint from both: the product of the
    operands' values before the call, and nothing outside the destination changes. *)
Theorem product_shared_storage (K : field) (mem : nat -> K) d a b : vcols a = vrows b -> vrows d = vrows a -> vcols d = vcols b ->
  within d a \/ within d b \/ (apart d a /\ apart d b) ->
  (forall r c, r < vrows d -> c < vcols d -> vget (mul_into mem d a b) d r c = mmul (vcols a) (vget mem a) (vget mem b) r c) /\
  (forall x, ~ inside d x -> mul_into mem d a b x = mem x).
Proof. exact (mul_into_ok K mem d a b). Qed.
Print Assumptions product_shared_storage.
(** Storage that overlaps in part is not detected, and the product is wrong. *)
Theorem product_overlap_refuted (K : field) : exists (mem : nat -> K) d a b,
  vcols a = vrows b /\ vrows d = vrows a /\ vcols d = vcols b /\ apart d b /\
  exists r c, r < vrows d /\ c < vcols d /\ vget (mul_into mem d a b) d r c <> mmul (vcols a) (vget mem a) (vget mem b) r c.
Proof. exact (mul_overlap_wrong K). Qed.
Print Assumptions product_overlap_refuted.
(** [mul_acc(&d, a, b)]: correct for disjoint storage; it has no protection, so d += d*b goes wrong. *)
Theorem accumulate_disjoint (K : field) (mem : nat -> K) d a b : vcols a = vrows b -> vrows d = vrows a -> vcols d = vcols b -> apart d a -> apart d b ->
  (forall r c, r < vrows d -> c < vcols d ->
     vget (mul_acc_into mem d a b) d r c = (vget mem d r c + mmul (vcols a) (vget mem a) (vget mem b) r c)%F) /\
  (forall x, ~ inside d x -> mul_acc_into mem d a b x = mem x).
Proof. exact (mul_acc_into_ok K mem d a b). Qed.
Print Assumptions accumulate_disjoint.
Theorem accumulate_shared_refuted (K : field) : exists (mem : nat -> K) d b,
  vcols d = vrows b /\ vcols d = vcols b /\ apart d b /\
  exists r c, r < vrows d /\ c < vcols d /\
    vget (mul_acc_into mem d d b) d r c <> (vget mem d r c + mmul (vcols d) (vget mem d) (vget mem b) r c)%F.
Proof. exact (mul_acc_alias_wrong K). Qed.
Print Assumptions accumulate_shared_refuted.

(** * C51 *)
(** Transposing a square matrix into itself. *)
Theorem transpose_in_place (K : field) (mem : nat -> K) m : vrows m = vcols m ->
  (forall r c, r < vrows m -> c < vcols m -> vget (transpose_same true mem m m) m r c = vget mem m c r) /\
  (forall x, ~ inside m x -> transpose_same true mem m m x = mem x).
Proof. exact (transpose_self_ok K mem m). Qed.
Print Assumptions transpose_in_place.
(** Same matrix type, distinct objects, same or disjoint storage. *)
Theorem transpose_same_type (K : field) (mem : nat -> K) d m : vrows d = vcols m -> vcols d = vrows m -> within d m \/ apart d m ->
  (forall r c, r < vrows d -> c < vcols d -> vget (transpose_same false mem d m) d r c = vget mem m c r) /\
  (forall x, ~ inside d x -> transpose_same false mem d m x = mem x).
Proof. exact (transpose_copy_ok K mem d m). Qed.
Print Assumptions transpose_same_type.
(** Different matrix types, disjoint storage. *)
Theorem transpose_other_type (K : field) (mem : nat -> K) d m : vrows d = vcols m -> vcols d = vrows m -> apart d m -> 0 < vsize d ->
  (forall r c, r < vrows d -> c < vcols d -> vget (transpose_any mem d m) d r c = vget mem m c r) /\
  (forall x, ~ inside d x -> transpose_any mem d m x = mem x).
Proof. exact (transpose_any_ok K mem d m). Qed.
Print Assumptions transpose_other_type.
(** Different matrix types (here 2x3 and 3x2) over the same storage: transposed through a temporary, then again in the
    shared storage. *)
Theorem transpose_shared_refuted (K : field) : exists (mem : nat -> K) d m,
  vrows d = vcols m /\ vcols d = vrows m /\ within d m /\ within m d /\
  exists r c, r < vrows d /\ c < vcols d /\ vget (transpose_any mem d m) d r c <> vget mem m c r.
Proof. exact (transpose_shared_wrong K). Qed.
Print Assumptions transpose_shared_refuted.
(** Over the same storage in the other layout, transposing moves nothing and is right. *)
Theorem transpose_shared_layouts (K : field) (mem : nat -> K) d m : vbase d = vbase m -> vrows d = vcols m -> vcols d = vrows m -> vrow_major d = negb (vrow_major m) ->
  (forall r c, r < vrows d -> c < vcols d -> vget (transpose_any mem d m) d r c = vget mem m c r) /\ (forall x, transpose_any mem d m x = mem x).
Proof. exact (transpose_layouts K mem d m). Qed.
Print Assumptions transpose_shared_layouts.
(** A square matrix, transposed through a different type over its own storage, gets its lower triangle mirrored instead. *)
Theorem transpose_shared_square_refuted (K : field) (mem : nat -> K) m : vrows m = vcols m ->
  (forall r c, r < vrows m -> c < vrows m -> vget (transpose_any mem m m) m r c = vget mem m (Nat.max r c) (Nat.min r c)) /\ (forall x, ~ inside m x -> transpose_any mem m m x = mem x).
Proof. exact (transpose_mirror K mem m). Qed.
Print Assumptions transpose_shared_square_refuted.

(** Hypotheses met: squaring a 2x2 matrix into its own storage; transposing. *)
Definition mem4 : nat -> Qc_field := fun x => nth x [qm [[1]]%Z 0 0; qm [[2]]%Z 0 0; qm [[3]]%Z 0 0; qm [[4]]%Z 0 0] 0%F.
Definition v22 : view := mkView 0 2 2 true.
Example square_in_place : within v22 v22 /\ map (fun x => this (mul_into mem4 v22 v22 v22 x)) [0;1;2;3;4] = [7;10;15;22;0]%Q.
Proof. split; [split; vm_compute; lia|vm_compute; reflexivity]. Qed.
Example transpose_example : map (fun x => this (transpose_same true mem4 v22 v22 x)) [0;1;2;3;4] = [1;3;2;4;0]%Q /\
  apart (mkView 4 2 2 false) v22 /\ map (fun x => this (transpose_any mem4 (mkView 4 2 2 false) v22 x)) [4;5;6;7] = [1;2;3;4]%Q.
Proof. split; [vm_compute; reflexivity|]. split; [right; vm_compute; lia|vm_compute; reflexivity]. Qed.
Example transpose_shared_example : map (fun x => this (transpose_any mem4 v22 v22 x)) [0;1;2;3;4] = [1;3;3;4;0]%Q.
Proof. vm_compute. reflexivity. Qed.
