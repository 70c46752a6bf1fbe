(** Dense and diagonal matrices in memory. *)
From Coq Require Import ZArith List Bool Lia QArith Qcanon.
From Verif Require Import Mem Fld PermModel PermSpec MulSpec LayoutModel FlatModel FlatSpec FlatProofs FlatMore.
Import ListNotations.
Open Scope Z_scope.
Open Scope res_scope.

Section Props.
Context {K : field}.
Implicit Types (mem : memory K) (m d : flat) (s a b : operand K) (f g : Z -> Z -> K).

(** Writing one element changes that element and no other. *)
Theorem flat_element mem m r c x : within (f_rows m) (f_cols m) r c ->
  exists mem', f_set mem m r c x = Ok mem' /\ f_get mem' m r c = Ok x /\
    (forall r' c', within (f_rows m) (f_cols m) r' c' -> (r', c') <> (r, c) -> f_get mem' m r' c' = f_get mem m r' c') /\ only m mem mem'.
Proof. exact (set_get mem m r c x). Qed.
(** A transposed view shows, and changes, the element at the swapped position. *)
Theorem flat_transposed_view mem m r c x :
  f_get mem (as_transpose m) c r = f_get mem m r c /\ f_set mem (as_transpose m) c r x = f_set mem m r c x /\
  f_rows (as_transpose m) = f_cols m /\ f_cols (as_transpose m) = f_rows m.
Proof. repeat split; [apply transpose_view|apply transpose_view_set]. Qed.
Theorem flat_zero mem m : becomes m mem (Ok (set_zero mem m)) (fun _ _ => f0).
Proof. exact (zero_ok mem m). Qed.
Theorem flat_times mem m k f : 0 <= f_rows m -> 0 <= f_cols m -> holds mem m f -> becomes m mem (scale_assign mem m k) (fun r c => fmul (f r c) k).
Proof. exact (scale_assign_ok mem m k f). Qed.

(** set_identity (and hence a new matrix) gives the identity exactly for these shapes; all others get ones elsewhere. *)
Theorem flat_identity_rows base R C mem : 0 < R -> 0 < C ->
  exists mem', set_identity mem (mkFlat base R C RowMajor) = Ok mem' /\ only (mkFlat base R C RowMajor) mem mem' /\ (holds mem' (mkFlat base R C RowMajor) identity <-> R <= C + 1).
Proof.
  intros A B. destruct (identity_cells mem (mkFlat base R C RowMajor) A B) as (mem' & E & O & _). exists mem'. split; [exact E|]. split; [exact O|].
  rewrite (identity_iff mem (mkFlat base R C RowMajor) mem' A B E). now apply right_row.
Qed.
Theorem flat_identity_cols base R C mem : 0 < R -> 0 < C ->
  exists mem', set_identity mem (mkFlat base R C ColMajor) = Ok mem' /\ only (mkFlat base R C ColMajor) mem mem' /\
    (holds mem' (mkFlat base R C ColMajor) identity <-> R = C \/ R = 1 \/ C = 1 /\ R = 2).
Proof.
  intros A B. destruct (identity_cells mem (mkFlat base R C ColMajor) A B) as (mem' & E & O & _). exists mem'. split; [exact E|]. split; [exact O|].
  rewrite (identity_iff mem (mkFlat base R C ColMajor) mem' A B E). now apply right_col.
Qed.
(** So a new matrix of a tall shape, or of a non-square shape stored by columns, is not an identity matrix. *)
Theorem flat_new_refuted base R C mem fixed : 0 < C -> (fixed = None \/ fixed = Some (R, C)) -> 
  (C + 1 < R -> exists mem', snd (new_matrix fixed base RowMajor R C mem) = Ok mem' /\ ~ holds mem' (fst (new_matrix fixed base RowMajor R C mem)) identity) /\
  (1 < R -> 1 < C -> R <> C -> exists mem', snd (new_matrix fixed base ColMajor R C mem) = Ok mem' /\ ~ holds mem' (fst (new_matrix fixed base ColMajor R C mem)) identity).
Proof.
  intros B F. assert (E : given_shape fixed R C = (R, C)) by (destruct F as [->| ->]; reflexivity). unfold new_matrix. rewrite E. cbn [fst snd]. split.
  - intros H. destruct (flat_identity_rows base R C mem ltac:(lia) B) as (mem' & G & _ & I). exists mem'. split; [exact G|]. rewrite I. lia.
  - intros H1 H2 H3. destruct (flat_identity_cols base R C mem ltac:(lia) B) as (mem' & G & _ & I). exists mem'. split; [exact G|]. rewrite I. lia.
Qed.
Theorem flat_new base n mem fixed L : 0 < n -> (fixed = None \/ fixed = Some (n, n)) ->
  let d := fst (new_matrix fixed base L n n mem) in f_rows d = n /\ f_cols d = n /\ f_layout d = L /\ becomes d mem (snd (new_matrix fixed base L n n mem)) identity.
Proof.
  intros A F. assert (E : given_shape fixed n n = (n, n)) by (destruct F as [->| ->]; reflexivity). unfold new_matrix. rewrite E. cbn [fst snd].
  do 3 (split; [reflexivity|]). destruct L.
  - destruct (flat_identity_rows base n n mem A A) as (mem' & G & O & I). exists mem'. split; [exact G|]. split; [apply I; lia|exact O].
  - destruct (flat_identity_cols base n n mem A A) as (mem' & G & O & I). exists mem'. split; [exact G|]. split; [apply I; lia|exact O].
Qed.

(** mtxcopy, from a matrix of any kind and layout: the destination takes the source's elements, or the shapes differ and it throws. *)
Theorem flat_copy sd ss mem d s f : shape_ok sd (f_rows d) (f_cols d) -> shape_ok ss (o_rows s) (o_cols s) -> clear_of s d -> shows mem s f -> 0 < f_rows d -> 0 < f_cols d ->
  (same_shape s d -> exists r, mtxcopy sd ss mem d s = Some r /\ becomes d mem r f) /\ (~ same_shape s d -> mtxcopy sd ss mem d s = None).
Proof. exact (mtxcopy_ok sd ss mem d s f). Qed.
(** Operands that are clear of a destination: the destination itself and matrices stored elsewhere. *)
Theorem flat_clear_cases m d (x : diag) : 0 < f_rows m -> 0 < f_cols m ->
  ((m = d \/ forall z, owns m z -> ~ owns d z) <-> clear_of (Flat m : operand K) d) /\ ((forall z, diag_owns x z -> ~ owns d z) -> clear_of (of_diag x : operand K) d).
Proof. intros A B. split; [split; [now apply flat_clear|now apply clear_flat]|apply of_diag_clear]. Qed.
(** But a matrix copied from its own transposed view does not become its transpose, unless it was symmetric. *)
Theorem flat_copy_own_view_refuted (x y z w : K) : y <> z ->
  let m := mkFlat 0 2 2 RowMajor in let mem := (fun i : Z => if i =? 0 then x else if i =? 1 then y else if i =? 2 then z else w) in
  exists mem', mtx_copy mem m (Flat (as_transpose m)) = Ok mem' /\ ~ (forall r c, within 2 2 r c -> f_get mem' m r c = f_get mem m c r).
Proof.
  intros N m mem. destruct (own_transpose_copy x y z w) as (mem' & E & G1 & G2). exists mem'. split; [exact E|]. intros H.
  specialize (H 1 0). assert (W : within 2 2 1 0) by (split; lia). specialize (H W). subst m mem. rewrite G2 in H. cbn in H. injection H as H. congruence.
Qed.
(** Construction from another matrix. *)
Theorem flat_construct fixed base L mem s f : let d := fst (construct fixed base L mem s) in
  (fixed = None \/ fixed = Some (o_rows s, o_cols s)) -> 0 < o_rows s -> 0 < o_cols s -> clear_of s d -> shows mem s f ->
  same_shape s d /\ f_layout d = L /\ becomes d mem (snd (construct fixed base L mem s)) f.
Proof. exact (construct_ok fixed base L mem s f). Qed.
(** A larger matrix given to the constructor of a fixed-size one is written past the end of the storage. *)
Theorem flat_construct_refuted fixed R C base L mem s f : fixed = Some (R, C) -> 0 < R -> 0 < C -> 0 < o_rows s -> 0 < o_cols s -> R * C < o_rows s * o_cols s -> shows mem s f ->
  (forall mem mem', only (mkFlat base R C L) mem mem' -> forall r c, within (o_rows s) (o_cols s) r c -> o_get mem' s r c = o_get mem s r c) ->
  snd (construct fixed base L mem s) = Fault OutOfBounds.
Proof. exact (construct_overflow fixed R C base L mem s f). Qed.
(** Construction from an array in row-major order, for row-major matrices; the others take it as column-major. *)
Theorem flat_from_array mem m (src : Z -> K) : only m mem (construct_array mem m src) /\
  (f_layout m = RowMajor -> holds (construct_array mem m src) m (fun r c => src (r * f_cols m + c))) /\
  (f_layout m = ColMajor -> holds (construct_array mem m src) m (fun r c => src (c * f_rows m + r))).
Proof. destruct (from_array mem m src) as (H & O). split; [exact O|]. split; intros E; rewrite E in H; exact H. Qed.
Theorem flat_from_array_refuted base R C mem : 2 <= R -> 2 <= C ->
  exists src : Z -> K, ~ holds (construct_array mem (mkFlat base R C ColMajor) src) (mkFlat base R C ColMajor) (fun r c => src (r * C + c)).
Proof. exact (from_array_wrong base R C mem). Qed.

(** Sums, differences and multiples, also when the destination is an operand. *)
Theorem flat_add mem d a b f g : clear_of a d -> clear_of b d -> same_shape a d -> same_shape b d -> shows mem a f -> shows mem b g -> 0 < f_rows d -> 0 < f_cols d ->
  becomes d mem (mtx_add mem d a b) (fun r c => fadd (f r c) (g r c)).
Proof. exact (zip_ok fadd mem d a b f g). Qed.
Theorem flat_sub mem d a b f g : clear_of a d -> clear_of b d -> same_shape a d -> same_shape b d -> shows mem a f -> shows mem b g -> 0 < f_rows d -> 0 < f_cols d ->
  becomes d mem (mtx_sub mem d a b) (fun r c => fsub (f r c) (g r c)).
Proof. exact (zip_ok fsub mem d a b f g). Qed.
Theorem flat_scale mem d k s f : clear_of s d -> same_shape s d -> shows mem s f -> 0 < f_rows d -> 0 < f_cols d -> becomes d mem (mtx_scale mem d k s) (fun r c => fmul k (f r c)).
Proof. exact (scale_ok mem d k s f). Qed.

(** The same for diagonal operands, into a dense matrix... *)
Theorem diag_into_dense mem d (a b : diag) k f g : diag_ok a -> diag_ok b -> (forall x, diag_owns a x -> ~ owns d x) -> (forall x, diag_owns b x -> ~ owns d x) ->
  0 < f_rows d -> 0 < f_cols d -> d_rows a = f_rows d -> d_cols a = f_cols d -> d_rows b = f_rows d -> d_cols b = f_cols d -> diag_holds mem a f -> diag_holds mem b g ->
  becomes d mem (diag_zip_dense fadd mem d a b) (fun r c => fadd (f r c) (g r c)) /\
  becomes d mem (diag_zip_dense fsub mem d a b) (fun r c => fsub (f r c) (g r c)) /\
  becomes d mem (diag_scale_dense mem d k a) (fun r c => fmul k (f r c)).
Proof.
  intros. split; [|split]; [apply diag_zip_dense_ok|apply diag_zip_dense_ok|apply diag_scale_dense_ok]; auto using zero_add, zero_sub, times_zero.
Qed.
(** ... and into a diagonal one, which may be an operand. *)
Theorem diag_into_diag mem (d a b : diag) k f g : diag_ok d -> diag_ok a -> diag_ok b -> diag_clear_of a d -> diag_clear_of b d ->
  d_rows a = d_rows d -> d_cols a = d_cols d -> d_rows b = d_rows d -> d_cols b = d_cols d -> diag_holds mem a f -> diag_holds mem b g ->
  diag_becomes d mem (diag_zip fadd mem d a b) (fun r c => fadd (f r c) (g r c)) /\
  diag_becomes d mem (diag_zip fsub mem d a b) (fun r c => fsub (f r c) (g r c)) /\
  diag_becomes d mem (diag_scale mem d k a) (fun r c => fmul k (f r c)) /\ diag_becomes d mem (diag_copy mem d a) f.
Proof.
  intros. split; [|split; [|split]]; [apply diag_zip_ok|apply diag_zip_ok|apply diag_scale_ok|apply diag_copy_ok]; auto using zero_add, zero_sub, times_zero.
Qed.
(** A new diagonal matrix is the identity; but the arguments of one of fixed dimensions, said to be ignored, must not be larger. *)
Theorem diag_new fixed base nrows ncols mem : 0 <= nrows -> 0 <= ncols -> (fixed = None \/ fixed = Some (nrows, ncols)) ->
  let d := fst (new_diag fixed base nrows ncols mem) in diag_ok d /\ d_rows d = nrows /\ d_cols d = ncols /\ diag_becomes d mem (snd (new_diag fixed base nrows ncols mem)) identity.
Proof. exact (new_diag_ok fixed base nrows ncols mem). Qed.
Theorem diag_new_refuted R C base nrows ncols mem : 0 <= R -> 0 <= C -> Z.min R C < Z.min nrows ncols -> snd (new_diag (Some (R, C)) base nrows ncols mem) = Fault OutOfBounds.
Proof. exact (new_diag_overflow R C base nrows ncols mem). Qed.

(** operator== : the same shape and the same elements. *)
Theorem flat_equal sa sb mem a b f g : shape_ok sa (o_rows a) (o_cols a) -> shape_ok sb (o_rows b) (o_cols b) -> 0 < o_rows a -> 0 < o_cols a -> shows mem a f -> shows mem b g ->
  exists e, equal_op sa sb mem a b = Ok e /\ (e = true <-> (o_rows a = o_rows b /\ o_cols a = o_cols b) /\ forall r c, within (o_rows a) (o_cols a) r c -> f r c = g r c).
Proof. exact (equal_op_ok sa sb mem a b f g). Qed.
Theorem diag_equal sa sb mem (a b : diag) f g : diag_ok a -> diag_ok b -> shape_ok sa (d_rows a) (d_cols a) -> shape_ok sb (d_rows b) (d_cols b) -> diag_holds mem a f -> diag_holds mem b g ->
  exists e, diag_equal_op sa sb mem a b = Ok e /\ (e = true <-> (d_rows a = d_rows b /\ d_cols a = d_cols b) /\ forall r c, within (d_rows a) (d_cols a) r c -> f r c = g r c).
Proof. exact (diag_equal_ok sa sb mem a b f g). Qed.
Theorem permutation_equal same n p q : wf_perm n p -> wf_perm n q -> (same = true -> forall i, (i < n)%nat -> src p i = src q i) ->
  (perm_equal same n p q = true <-> forall r c, (r < n)%nat -> (c < n)%nat -> (perm_mtx p r c : K) = perm_mtx q r c).
Proof. exact (perm_equal_ok K same n p q). Qed.

(** An empty matrix stored by rows has nothing to visit; asking one stored by columns for its first element divides by zero. *)
Theorem flat_empty base C : 0 <= C -> exists i e, f_begin (mkFlat base 0 C RowMajor) = Ok i /\ f_end (mkFlat base 0 C RowMajor) = Ok e /\ m_deref i = m_deref e.
Proof. intros H. do 2 eexists. split; [reflexivity|]. split; reflexivity. Qed.
Theorem flat_empty_refuted base C : 0 <= C -> f_begin (mkFlat base 0 C ColMajor) = Fault DivByZero.
Proof. intros H. reflexivity. Qed.
End Props.

Print Assumptions flat_element. Print Assumptions flat_transposed_view. Print Assumptions flat_zero. Print Assumptions flat_times.
Print Assumptions flat_identity_rows. Print Assumptions flat_identity_cols. Print Assumptions flat_new_refuted. Print Assumptions flat_new. Print Assumptions flat_copy.
Print Assumptions flat_clear_cases. Print Assumptions flat_copy_own_view_refuted. Print Assumptions flat_construct. Print Assumptions flat_construct_refuted.
Print Assumptions flat_from_array. Print Assumptions flat_from_array_refuted. Print Assumptions flat_add. Print Assumptions flat_sub. Print Assumptions flat_scale.
Print Assumptions diag_into_dense. Print Assumptions diag_into_diag. Print Assumptions diag_new. Print Assumptions diag_new_refuted. Print Assumptions flat_equal.
Print Assumptions diag_equal. Print Assumptions permutation_equal. Print Assumptions flat_empty. Print Assumptions flat_empty_refuted.

(** A 2x3 matrix stored by rows at 0, another stored by columns at 10, and a 2x3 diagonal at 20. *)
Definition some_memory : memory Qc_field := fun z : Z => Q2Qc (inject_Z z).
Definition by_rows : flat := mkFlat 0 2 3 RowMajor.
Definition by_cols : flat := mkFlat 10 2 3 ColMajor.
Definition a_diag : diag := mkDiag 20 2 2 3.
Definition elements (r : res (memory Qc_field)) (m : flat) : list (res Q) :=
  map (fun k => let* mem := r in let* x := f_get mem m (k / f_cols m) (k mod f_cols m) in Ok (this x)) (map Z.of_nat (seq 0 (Z.to_nat (f_size m)))).
Definition oks (l : list Z) : list (res Q) := map (fun z => Ok (inject_Z z)) l.
(** The hypotheses of the copy and sum theorems are met by matrices of different layouts. *)
Example flat_copy_met :
  shape_ok (mkShape 2 3 2 3) (f_rows by_rows) (f_cols by_rows) /\ shape_ok (mkShape 0 0 2 3) 2 3 /\ clear_of (Flat by_cols : operand Qc_field) by_rows /\
  same_shape (Flat by_cols : operand Qc_field) by_rows /\ shows some_memory (Flat by_cols) (fun r c => Q2Qc (inject_Z (10 + c * 2 + r))) /\
  clear_of (of_diag a_diag : operand Qc_field) by_rows /\ diag_ok a_diag /\
  diag_holds some_memory a_diag (fun r c => if r =? c then Q2Qc (inject_Z (20 + r)) else f0).
Proof.
  split; [cbn; repeat split; tauto|]. split; [cbn; repeat split; tauto|]. split; [apply flat_clear; cbn; [lia|lia|]; right; unfold owns, f_size; cbn; lia|].
  split; [split; reflexivity|]. split; [intros r c (R & C); cbn [o_rows o_cols o_get] in *|].
  { assert (W : within (f_rows by_cols) (f_cols by_cols) r c) by (split; assumption). rewrite (get_ix some_memory by_cols r c W). cbn [by_cols f_base f_layout f_rows f_cols ix]. unfold some_memory. do 3 f_equal. lia. }
  split; [apply of_diag_clear; unfold owns, diag_owns, f_size; cbn; lia|]. split; [unfold diag_ok; cbn; lia|].
  intros r c (R & C). cbn [a_diag d_rows d_cols] in *. unfold d_get. destruct (Z.eqb_spec r c) as [<-|N]; [|reflexivity]. unfold d_peek. cbn [a_diag d_base d_len]. now replace ((0 <=? r) && (r <? 2)) with true by lia.
Qed.
Example flat_values :
  elements (Ok some_memory) by_rows = oks [0; 1; 2; 3; 4; 5] /\ elements (Ok some_memory) by_cols = oks [10; 12; 14; 11; 13; 15] /\
  elements (mtx_copy some_memory by_rows (Flat by_cols)) by_rows = oks [10; 12; 14; 11; 13; 15] /\
  elements (mtx_add some_memory by_rows (Flat by_rows) (Flat by_cols)) by_rows = oks [10; 13; 16; 14; 17; 20] /\
  elements (mtx_sub some_memory by_cols (Flat by_cols) (of_diag a_diag)) by_cols = oks [-10; 12; 14; 11; -8; 15] /\
  elements (diag_zip_dense fadd some_memory by_rows a_diag a_diag) by_rows = oks [40; 0; 0; 0; 42; 0] /\
  elements (set_identity some_memory by_rows) by_rows = oks [1; 0; 0; 0; 1; 0] /\
  elements (set_identity some_memory by_cols) by_cols = oks [1; 0; 1; 0; 0; 0] /\
  elements (set_identity some_memory (mkFlat 0 4 2 RowMajor)) (mkFlat 0 4 2 RowMajor) = oks [1; 0; 0; 1; 0; 0; 1; 0].
Proof. vm_compute. repeat split; reflexivity. Qed.
Example flat_equal_values :
  equal_op (mkShape 0 0 2 3) (mkShape 2 3 2 3) some_memory (Flat by_rows) (Flat by_cols) = Ok false /\
  equal_op (mkShape 0 0 2 3) (mkShape 2 3 2 3) some_memory (Flat by_rows) (Flat by_rows) = Ok true /\
  equal_op (mkShape 0 0 2 3) (mkShape 0 0 3 2) some_memory (Flat by_rows) (Flat (as_transpose by_rows)) = Ok false /\
  snd (construct (Some (2, 2)) 30 RowMajor some_memory (Flat by_rows)) = Fault OutOfBounds.
Proof. vm_compute. repeat split; reflexivity. Qed.
