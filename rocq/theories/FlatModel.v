(** Model of geomc/linalg/mtxtypes/SimpleMatrix.h and DiagMatrix.h, and of geomc/linalg/mtxdetail/MatrixCopy.h, MatrixArithmetic.h and
    the equality functions of MatrixFunctionImpl.h, with the functions of geomc/linalg/Matrix.h that call them, over a field with
    exact arithmetic.  Memory is a function from addresses to elements, so that matrices may share storage; an access outside a
    matrix's own storage is a fault.  Stepping a pointer past the end of an array without using it is taken to be harmless. *)
From Coq Require Import ZArith List Bool.
From Verif Require Import Mem Fld PermModel LayoutModel GridModel.
Import ListNotations.
Open Scope Z_scope.
Open Scope res_scope.

Section Flat.
Variable K : field.
Definition memory : Type := Z -> K.
(** SimpleMatrix.h:98-125: FlatMatrixBase; where its storage begins, its shape and its layout. *)
Record flat : Type := mkFlat { f_base : Z; f_rows : Z; f_cols : Z; f_layout : layout }.
Definition f_size (m : flat) : Z := f_rows m * f_cols m.
Definition peek (mem : memory) (m : flat) (o : Z) : res K := if (0 <=? o) && (o <? f_size m) then Ok (mem (f_base m + o)) else Fault OutOfBounds.
Definition poke (mem : memory) (m : flat) (o : Z) (x : K) : res memory :=
  if (0 <=? o) && (o <? f_size m) then Ok (fun a => if a =? f_base m + o then x else mem a) else Fault OutOfBounds.
(** SimpleMatrix.h:444-458 (operator() ) and 467-472 (set). *)
Definition f_get (mem : memory) (m : flat) (r c : Z) : res K := peek mem m (ix (f_layout m) r c (f_rows m) (f_cols m)).
Definition f_set (mem : memory) (m : flat) (r c : Z) (x : K) : res memory := poke mem m (ix (f_layout m) r c (f_rows m) (f_cols m)) x.
(** SimpleMatrix.h:381-407: begin and end. *)
Definition f_begin (m : flat) : res mit := row_it (f_layout m) 0 (f_rows m) (f_cols m).
Definition f_end (m : flat) : res mit := let* b := f_begin m in m_advance b (f_rows m * f_cols m).
(** SimpleMatrix.h:489-495: as_transpose, a matrix over the same storage. *)
Definition other_layout (L : layout) : layout := match L with RowMajor => ColMajor | ColMajor => RowMajor end.
Definition as_transpose (m : flat) : flat := mkFlat (f_base m) (f_cols m) (f_rows m) (other_layout (f_layout m)).
(** SimpleMatrix.h:512-514: set_zero (std::fill over the array). *)
Definition fill (mem : memory) (m : flat) (x : K) : memory := fun a => if (f_base m <=? a) && (a <? f_base m + f_size m) then x else mem a.
Definition set_zero (mem : memory) (m : flat) : memory := fill mem m f0.
(** SimpleMatrix.h:501-507: set_identity; the loop of a pointer [p] over the array. *)
Fixpoint ones (fuel : nat) (m : flat) (p : Z) (mem : memory) : res memory :=
  if p <? f_size m then
    match fuel with
    | O => Fault OtherUB
    | S fuel => let* mem := poke mem m p f1 in ones fuel m (p + (f_cols m + 1)) mem
    end
  else Ok mem.
Definition set_identity (mem : memory) (m : flat) : res memory := ones (Z.to_nat (f_size m)) m 0 (set_zero mem m).
(** SimpleMatrix.h:313-324: operator*= by a scalar. *)
Fixpoint scale_array (n : nat) (m : flat) (i : Z) (k : K) (mem : memory) : res memory :=
  match n with
  | O => Ok mem
  | S n => let* x := peek mem m i in let* mem := poke mem m i (x * k)%F in scale_array n m (i + 1) k mem
  end.
Definition scale_assign (mem : memory) (m : flat) (k : K) : res memory := scale_array (Z.to_nat (f_rows m * f_cols m)) m 0 k mem.

(** ** Matrices that are read *)
(** DiagMatrix.h:38-47: the storage holds [d_len] elements. *)
Record diag : Type := mkDiag { d_base : Z; d_len : Z; d_rows : Z; d_cols : Z }.
Definition d_peek (mem : memory) (d : diag) (i : Z) : res K := if (0 <=? i) && (i <? d_len d) then Ok (mem (d_base d + i)) else Fault OutOfBounds.
Definition d_poke (mem : memory) (d : diag) (i : Z) (x : K) : res memory :=
  if (0 <=? i) && (i <? d_len d) then Ok (fun a => if a =? d_base d + i then x else mem a) else Fault OutOfBounds.
(** DiagMatrix.h:98-105: operator(). *)
Definition d_get (mem : memory) (d : diag) (r c : Z) : res K := if r =? c then d_peek mem d r else Ok f0.
(** DiagMatrix.h:107-113: set_identity and set_zero. *)
Definition diag_fill (mem : memory) (d : diag) (x : K) : memory := fun a => if (d_base d <=? a) && (a <? d_base d + d_len d) then x else mem a.

(** A matrix of any kind as an operand: a SimpleMatrix, or one that is visited with the iterators of MatrixBase. *)
Inductive operand : Type := Flat (m : flat) | Other (rows cols : Z) (at_ : memory -> Z -> Z -> res K).
Definition of_diag (d : diag) : operand := Other (d_rows d) (d_cols d) (fun mem r c => d_get mem d r c).
Definition o_rows (s : operand) : Z := match s with Flat m => f_rows m | Other r _ _ => r end.
Definition o_cols (s : operand) : Z := match s with Flat m => f_cols m | Other _ c _ => c end.
Definition o_get (mem : memory) (s : operand) (r c : Z) : res K := match s with Flat m => f_get mem m r c | Other _ _ g => g mem r c end.
(** Its const_iterator: SimpleMatrix.h:381-391, or MatrixBase.h:157-169 with MatrixIterator.h:62-66. *)
Inductive pos : Type := FlatPos (i : mit) | GridPos (g : grid_it).
Definition grid_pos (rows cols : Z) (pt : list Z) : grid_it := mkG false [0; 0] [rows - 1; cols - 1] pt.
Definition o_begin (s : operand) : res pos :=
  match s with Flat m => let* i := f_begin m in Ok (FlatPos i) | Other r c _ => Ok (GridPos (grid_pos r c [0; 0])) end.
Definition o_end (s : operand) : res pos :=
  match s with Flat m => let* i := f_end m in Ok (FlatPos i) | Other r c _ => Ok (GridPos (grid_pos r c [r; 0])) end.
(** MatrixLayout.h:62-65 or MatrixIterator.h:94-96 (increment); MatrixLayout.h:53-60 or MatrixIterator.h:90-92 (equal). *)
Definition p_next (p : pos) : res pos :=
  match p with FlatPos i => let* i := m_advance i 1 in Ok (FlatPos i) | GridPos g => Ok (GridPos (g_inc g)) end.
Definition p_same (p q : pos) : bool :=
  match p, q with FlatPos i, FlatPos j => m_deref i =? m_deref j | GridPos g, GridPos h => g_equal g h | _, _ => false end.
(** Dereferencing: MatrixLayout.h:77-79, MatrixIterator.h:110-114. *)
Definition p_read (mem : memory) (s : operand) (p : pos) : res K :=
  match s, p with
  | Flat m, FlatPos i => peek mem m (m_deref i)
  | Other _ _ g, GridPos i => match g_pt i with [r; c] => g mem r c | _ => Fault OtherUB end
  | _, _ => Fault OtherUB
  end.
Definition p_write (mem : memory) (m : flat) (i : mit) (x : K) : res memory := poke mem m (m_deref i) x.

(** ** Copying *)
(** MatrixCopy.h:18-20: _mtxcopy, that is std::copy(src.begin(), src.end(), into->begin()). *)
Fixpoint copy_loop (fuel : nat) (mem : memory) (d : flat) (di : mit) (s : operand) (i e : pos) : res memory :=
  if p_same i e then Ok mem
  else
    match fuel with
    | O => Fault OtherUB
    | S fuel =>
        let* x := p_read mem s i in
        let* mem := p_write mem d di x in
        let* i := p_next i in
        let* di := m_advance di 1 in
        copy_loop fuel mem d di s i e
    end.
Definition copy_generic (mem : memory) (d : flat) (s : operand) : res memory :=
  let* i := o_begin s in let* e := o_end s in let* di := f_begin d in
  copy_loop (Z.to_nat (o_rows s * o_cols s)) mem d di s i e.
(** MatrixCopy.h:36-46: SimpleMatrixes of one layout; the arrays are copied. *)
Fixpoint copy_array (n : nat) (mem : memory) (d s : flat) (o : Z) : res memory :=
  match n with
  | O => Ok mem
  | S n => let* x := peek mem s o in let* mem := poke mem d o x in copy_array n mem d s (o + 1)
  end.
Definition copy_same_layout (mem : memory) (d s : flat) : res memory := copy_array (Z.to_nat (f_size s)) mem d s 0.
Definition layout_eqb (a b : layout) : bool := match a, b with RowMajor, RowMajor | ColMajor, ColMajor => true | _, _ => false end.
Definition mtx_copy (mem : memory) (d : flat) (s : operand) : res memory :=
  match s with
  | Flat m => if layout_eqb (f_layout d) (f_layout m) then copy_same_layout mem d m else copy_generic mem d s
  | Other _ _ _ => copy_generic mem d s
  end.

(** ** Shapes *)
(** The template parameters ROWDIM and COLDIM (0: known at run time only) beside the shape at run time. *)
Record shape : Type := mkShape { s_rowdim : Z; s_coldim : Z; s_rows : Z; s_cols : Z }.
(** MatrixGlue.h:150-165: isStaticMatch and isMatch. *)
Definition static_match (a b : shape) : bool :=
  ((s_rowdim a =? s_rowdim b) || (s_rowdim a * s_rowdim b =? 0)) && ((s_coldim a =? s_coldim b) || (s_coldim a * s_coldim b =? 0)).
Definition is_match (a b : shape) : bool :=
  negb (((s_rowdim a * s_rowdim b =? 0) && negb (s_rows a =? s_rows b)) || ((s_coldim a * s_coldim b =? 0) && negb (s_cols a =? s_cols b))).
(** MatrixCopy.h:78-98: mtxcopy of two matrices.  [None]: a DimensionMismatchException is thrown, or the call does not compile. *)
Definition mtxcopy (sd ss : shape) (mem : memory) (d : flat) (s : operand) : option (res memory) :=
  if static_match sd ss && is_match sd ss then Some (mtx_copy mem d s) else None.
(** [fixed]: the dimensions that are template parameters, if both are (with neither otherwise; one alone is not modelled).
    Dimension<M>::set does nothing for such a dimension. *)
Definition given_shape (fixed : option (Z * Z)) (r c : Z) : Z * Z := match fixed with Some s => s | None => (r, c) end.
(** SimpleMatrix.h:269-275, 554-558: a new matrix from the arguments for its dimensions; its storage is at [base]. *)
Definition new_matrix (fixed : option (Z * Z)) (base : Z) (L : layout) (nrows ncols : Z) (mem : memory) : flat * res memory :=
  let m := mkFlat base (fst (given_shape fixed nrows ncols)) (snd (given_shape fixed nrows ncols)) L in (m, set_identity mem m).
(** SimpleMatrix.h:277-283, 571-579: construction from a matrix of any kind; there is no check that the shapes agree. *)
Definition construct (fixed : option (Z * Z)) (base : Z) (L : layout) (mem : memory) (s : operand) : flat * res memory :=
  let m := mkFlat base (fst (given_shape fixed (o_rows s) (o_cols s))) (snd (given_shape fixed (o_rows s) (o_cols s))) L in (m, copy_generic mem m s).
(** DiagMatrix.h:61-69: the length of the diagonal comes from the arguments even if they are to be ignored; the storage then has
    room for the smaller of the fixed dimensions. *)
Definition new_diag (fixed : option (Z * Z)) (base nrows ncols : Z) (mem : memory) : diag * res memory :=
  let s := given_shape fixed nrows ncols in
  let d := mkDiag base (if nrows <? ncols then nrows else ncols) (fst s) (snd s) in
  let room := if fst s <? snd s then fst s else snd s in
  (d, if d_len d <=? room then Ok (diag_fill mem d f1) else Fault OutOfBounds).
(** SimpleMatrix.h:247-265, 560-564: construction from an array. *)
Definition construct_array (mem : memory) (m : flat) (src_data : Z -> K) : memory :=
  fun a => if (f_base m <=? a) && (a <? f_base m + f_size m) then src_data (a - f_base m) else mem a.

(** ** Sums and multiples *)
(** MatrixArithmetic.h:31-49: add and sub ([f] is the operation). *)
Fixpoint zip_loop (f : K -> K -> K) (fuel : nat) (mem : memory) (d : flat) (di de : mit) (a : operand) (ai : pos) (b : operand) (bi : pos) : res memory :=
  if m_deref di =? m_deref de then Ok mem
  else
    match fuel with
    | O => Fault OtherUB
    | S fuel =>
        let* x := p_read mem a ai in
        let* y := p_read mem b bi in
        let* mem := p_write mem d di (f x y) in
        let* di := m_advance di 1 in
        let* ai := p_next ai in
        let* bi := p_next bi in
        zip_loop f fuel mem d di de a ai b bi
    end.
Definition zip (f : K -> K -> K) (mem : memory) (d : flat) (a b : operand) : res memory :=
  let* di := f_begin d in let* de := f_end d in let* ai := o_begin a in let* bi := o_begin b in
  zip_loop f (Z.to_nat (f_size d)) mem d di de a ai b bi.
Definition mtx_add (mem : memory) (d : flat) (a b : operand) : res memory := zip fadd mem d a b.
Definition mtx_sub (mem : memory) (d : flat) (a b : operand) : res memory := zip fsub mem d a b.
(** MatrixArithmetic.h:154-161: scale. *)
Fixpoint each_col (f : memory -> Z -> Z -> res memory) (n : nat) (r c : Z) (mem : memory) : res memory :=
  match n with O => Ok mem | S n => let* mem := f mem r c in each_col f n r (c + 1) mem end.
Fixpoint each_row (f : memory -> Z -> Z -> res memory) (n cols : nat) (r : Z) (mem : memory) : res memory :=
  match n with O => Ok mem | S n => let* mem := each_col f cols r 0 mem in each_row f n cols (r + 1) mem end.
Definition mtx_scale (mem : memory) (d : flat) (k : K) (s : operand) : res memory :=
  each_row (fun mem r c => let* x := o_get mem s r c in f_set mem d r c (k * x)%F) (Z.to_nat (o_rows s)) (Z.to_nat (o_cols s)) 0 mem.
(** MatrixArithmetic.h:70-92 and 170-178: two diagonal matrices, or one, into a matrix of another kind. *)
Fixpoint on_diagonal (f : memory -> Z -> res K) (n : nat) (i : Z) (d : flat) (mem : memory) : res memory :=
  match n with O => Ok mem | S n => let* x := f mem i in let* mem := f_set mem d i i x in on_diagonal f n (i + 1) d mem end.
Definition diag_zip_dense (f : K -> K -> K) (mem : memory) (d : flat) (a b : diag) : res memory :=
  on_diagonal (fun mem i => let* x := d_peek mem a i in let* y := d_peek mem b i in Ok (f x y)) (Z.to_nat (Z.min (d_rows a) (d_cols a))) 0 d (set_zero mem d).
Definition diag_scale_dense (mem : memory) (d : flat) (k : K) (a : diag) : res memory :=
  on_diagonal (fun mem i => let* x := d_peek mem a i in Ok (k * x)%F) (Z.to_nat (Z.min (d_rows a) (d_cols a))) 0 d (set_zero mem d).
(** MatrixArithmetic.h:97-117, 180-187 and MatrixCopy.h:30-34: into a diagonal matrix; the loop runs over the diagonal of [a]. *)
Fixpoint along_diagonal (f : memory -> Z -> res K) (n : nat) (i : Z) (d : diag) (mem : memory) : res memory :=
  match n with O => Ok mem | S n => let* x := f mem i in let* mem := d_poke mem d i x in along_diagonal f n (i + 1) d mem end.
Definition diag_zip (f : K -> K -> K) (mem : memory) (d a b : diag) : res memory :=
  along_diagonal (fun mem i => let* x := d_peek mem a i in let* y := d_peek mem b i in Ok (f x y)) (Z.to_nat (d_len a)) 0 d mem.
Definition diag_scale (mem : memory) (d : diag) (k : K) (a : diag) : res memory :=
  along_diagonal (fun mem i => let* x := d_peek mem a i in Ok (k * x)%F) (Z.to_nat (d_len a)) 0 d mem.
Definition diag_copy (mem : memory) (d a : diag) : res memory := along_diagonal (fun mem i => d_peek mem a i) (Z.to_nat (d_len a)) 0 d mem.

(** ** Equality *)
Definition keqb (x y : K) : bool := if feq_dec x y then true else false.
(** MatrixFunctionImpl.h:187-199.  (The overload of 201-216 for two SimpleMatrixes has a template parameter that no argument
    determines, so it is never chosen.) *)
Fixpoint equal_loop (fuel : nat) (mem : memory) (a : operand) (ai ae : pos) (b : operand) (bi : pos) : res bool :=
  if p_same ai ae then Ok true
  else
    match fuel with
    | O => Fault OtherUB
    | S fuel =>
        let* x := p_read mem a ai in
        let* y := p_read mem b bi in
        if keqb x y then let* ai := p_next ai in let* bi := p_next bi in equal_loop fuel mem a ai ae b bi else Ok false
    end.
Definition equal_generic (mem : memory) (a b : operand) : res bool :=
  let* ai := o_begin a in let* ae := o_end a in let* bi := o_begin b in equal_loop (Z.to_nat (o_rows a * o_cols a)) mem a ai ae b bi.
(** MatrixFunctionImpl.h:218-230: two diagonal matrices. *)
Fixpoint equal_diagonal (n : nat) (mem : memory) (a b : diag) (i : Z) : res bool :=
  match n with
  | O => Ok true
  | S n => let* x := d_peek mem a i in let* y := d_peek mem b i in if keqb x y then equal_diagonal n mem a b (i + 1) else Ok false
  end.
(** Matrix.h:1072-1097: operator==, around the function [test] for the kinds of its operands. *)
Definition op_equal (sa sb : shape) (test : res bool) : res bool :=
  if static_match sa sb then if is_match sa sb then test else Ok false else Ok false.
Definition equal_op (sa sb : shape) (mem : memory) (a b : operand) : res bool := op_equal sa sb (equal_generic mem a b).
Definition diag_equal_op (sa sb : shape) (mem : memory) (a b : diag) : res bool := op_equal sa sb (equal_diagonal (Z.to_nat (d_len a)) mem a b 0).
(** MatrixFunctionImpl.h:233-247: two permutation matrices of [n] rows ([same]: they are over the same array). *)
Definition perm_equal (same : bool) (n : nat) (a b : pmat) : bool :=
  if same then true else forallb (fun i => Nat.eqb (src a i) (src b i)) (seq 0 n).
End Flat.
Arguments peek {K}. Arguments poke {K}. Arguments f_get {K}. Arguments f_set {K}. Arguments fill {K}. Arguments set_zero {K}. Arguments set_identity {K}.
Arguments ones {K}. Arguments scale_array {K}. Arguments scale_assign {K}. Arguments d_peek {K}. Arguments d_poke {K}. Arguments d_get {K}. Arguments diag_fill {K}.
Arguments Flat {K}. Arguments Other {K}. Arguments of_diag {K}. Arguments o_rows {K}. Arguments o_cols {K}. Arguments o_get {K}. Arguments o_begin {K}.
Arguments o_end {K}. Arguments p_read {K}. Arguments p_write {K}. Arguments copy_loop {K}. Arguments copy_generic {K}. Arguments copy_array {K}.
Arguments copy_same_layout {K}. Arguments mtx_copy {K}. Arguments mtxcopy {K}. Arguments construct {K}. Arguments new_matrix {K}. Arguments new_diag {K}. Arguments construct_array {K}. Arguments zip_loop {K}.
Arguments zip {K}. Arguments mtx_add {K}. Arguments mtx_sub {K}. Arguments each_col {K}. Arguments each_row {K}. Arguments mtx_scale {K}.
Arguments on_diagonal {K}. Arguments diag_zip_dense {K}. Arguments diag_scale_dense {K}. Arguments along_diagonal {K}. Arguments diag_zip {K}.
Arguments diag_scale {K}. Arguments diag_copy {K}. Arguments keqb {K}. Arguments equal_loop {K}. Arguments equal_generic {K}. Arguments equal_diagonal {K}.
Arguments equal_op {K}. Arguments diag_equal_op {K}.
