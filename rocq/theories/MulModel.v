(** Model of the matrix products of geomc/linalg/mtxdetail/MatrixMult.h and of the aliasing rules of geomc/linalg/Matrix.h
    (mul, transpose), over a field with exact arithmetic. *)
From Coq Require Import Arith List Bool ZArith.
From Verif Require Import Mem Fld PermModel PluModel.
Import ListNotations.
Open Scope nat_scope.

Section Mul.
Variable K : field.
Local Open Scope fld_scope.

(** ** Products of distinct objects: the destination shares no memory with the operands *)
(** Accumulation loop: for (n = 0; n < k; n++) sum += f(n). *)
Definition accum (k : nat) (f : nat -> K) (s : K) : K := fold_left (fun s n => s + f n) (seq 0 k) s.
(** Double loop, rows outermost, d(r,c) = f(d(r,c), r, c). *)
Definition each (rows cols : nat) (f : K -> nat -> nat -> K) (d : mtx K) : mtx K :=
  fold_left (fun (d : mtx K) r => fold_left (fun (d : mtx K) c => upd2 d r c (f (d r c) r c)) (seq 0 cols) d) (seq 0 rows) d.
(** MatrixMult.h:56-67: a is rows x inner, b is inner x cols. *)
Definition mul_dense (rows inner cols : nat) (a b d : mtx K) : mtx K :=
  each rows cols (fun _ r c => accum inner (fun n => a r n * b n c) 0) d.
(** MatrixMult.h:70-81. *)
Definition mul_acc (rows inner cols : nat) (a b d : mtx K) : mtx K :=
  each rows cols (fun x r c => accum inner (fun n => a r n * b n c) x) d.
(** MatrixMult.h:94-101, matrix * diagonal: a is rows x M, b is a diagonal M x N matrix whose storage holds min(M,N)
    elements.  [None]: an element outside [a] or outside the diagonal's storage is read. *)
Definition mul_mtx_diag (rows M N : nat) (a : mtx K) (b : nat -> K) (d : mtx K) : option (mtx K) :=
  fold_left (fun od c => fold_left (fun od r => match od with
      | Some d => if ((c <? Nat.min M N) && (c <? M))%nat then Some (upd2 d r c (b c * a r c)) else None
      | None => None end) (seq 0 rows) od) (seq 0 N) (Some d).
(** MatrixMult.h:114-121, diagonal * matrix: a is a diagonal M x N matrix, b is N x cols, d is M x cols.  The loop reads
    the diagonal matrix itself again ([a(r,c)]) where the other operand is meant.  DiagMatrix.h:99-106 [operator()].  [None]: an access out of bounds. *)
Definition diag_at (a : nat -> K) (r c : nat) : K := if (r =? c)%nat then a r else 0.
Definition mul_diag_mtx (M N cols : nat) (a : nat -> K) (b d : mtx K) : option (mtx K) :=
  fold_left (fun od r => fold_left (fun od c => match od with
      | Some d => if ((r <? Nat.min M N) && (r <? M) && (c <? cols))%nat then Some (upd2 d r c (a r * diag_at a r c)) else None
      | None => None end) (seq 0 N) od) (seq 0 N) (Some d).
(** MatrixMult.h:185-204, matrix * column vector, and 207-216 for a matrix destination (column 0). *)
Definition mul_mtx_vec (rows inner : nat) (a : mtx K) (b d : nat -> K) : nat -> K :=
  fold_left (fun d r => upd d r (accum inner (fun c => a r c * b c) 0)) (seq 0 rows) d.
Definition mul_acc_mtx_vec (rows inner : nat) (a : mtx K) (b d : nat -> K) : nat -> K :=
  fold_left (fun d r => upd d r (accum inner (fun c => a r c * b c) (d r))) (seq 0 rows) d.
(** MatrixMult.h:238-257, row vector * matrix. *)
Definition mul_vec_mtx (inner cols : nat) (b : nat -> K) (a : mtx K) (d : nat -> K) : nat -> K :=
  fold_left (fun d c => upd d c (accum inner (fun r => a r c * b r) 0)) (seq 0 cols) d.
Definition mul_acc_vec_mtx (inner cols : nat) (b : nat -> K) (a : mtx K) (d : nat -> K) : nat -> K :=
  fold_left (fun d c => upd d c (accum inner (fun r => a r c * b r) (d c))) (seq 0 cols) d.
(** MatrixMult.h:295-302, matrix * permutation: columns copied. *)
Definition mul_mtx_perm (rows n : nat) (a : mtx K) (p : pmat) (d : mtx K) : mtx K :=
  fold_left (fun (d : mtx K) c => fold_left (fun (d : mtx K) r => upd2 d r c (a r (dst p c))) (seq 0 rows) d) (seq 0 n) d.
(** MatrixMult.h:316-323, permutation * matrix: rows copied. *)
Definition mul_perm_mtx (n cols : nat) (p : pmat) (b d : mtx K) : mtx K := each n cols (fun _ r c => b (src p r) c) d.
(** MatrixMult.h:334-343, permutation * permutation into a dense matrix. *)
Definition mul_perm_perm_dense (n : nat) (a b : pmat) (d : mtx K) : mtx K :=
  fold_left (fun (d : mtx K) i => upd2 d i (dst a (dst b i)) 1) (seq 0 n) (each n n (fun _ _ _ => 0) d).
(** MatrixMult.h:345-361, permutation * permutation into a permutation; [d] is the destination before. *)
Definition mul_perm_perm (n : nat) (a b d : pmat) : pmat :=
  mkP (fold_left (fun s i => upd s i (src b (src a i))) (seq 0 n) (src d))
      (fold_left (fun s i => upd s i (dst a (dst b i))) (seq 0 n) (dst d)) (psign d).
(** MatrixMult.h:372-377 and 396-401. *)
Definition mul_perm_vec (n : nat) (p : pmat) (b d : nat -> K) : nat -> K := fold_left (fun d i => upd d i (b (src p i))) (seq 0 n) d.
Definition mul_vec_perm (n : nat) (a : nat -> K) (p : pmat) (d : nat -> K) : nat -> K := fold_left (fun d i => upd d i (a (dst p i))) (seq 0 n) d.

(** ** Products and transposes in memory that may be shared *)
(** A matrix view of a buffer: SimpleMatrix / WrapperMatrix (mtxtypes/SimpleMatrix.h), position of the first element, shape, layout. *)
Record view : Type := mkView { vbase : nat; vrows : nat; vcols : nat; vrow_major : bool }.
Definition vaddr (m : view) (r c : nat) : nat :=
  (vbase m + (if vrow_major m then r * vcols m + c else c * vrows m + r))%nat.
Definition vget (mem : nat -> K) (m : view) (r c : nat) : K := mem (vaddr m r c).
Definition vset (mem : nat -> K) (m : view) (r c : nat) (x : K) : nat -> K := upd mem (vaddr m r c) x.
Definition vsize (m : view) : nat := (vrows m * vcols m)%nat.
(** SimpleMatrix.h:516-519 and Matrix.h:310-329 [mtx_aliases_storage]: each matrix has one storage token, its address range. *)
Definition aliases (a b : view) : bool :=
  negb ((vbase a <? vbase b)%nat || (vbase b + vsize b <? vbase a + vsize a)%nat).
(** Element loop over a view; the value may be computed from the memory as it is at that moment. *)
Definition write_cells (m : view) (f : (nat -> K) -> nat -> nat -> K) (cells : list (nat * nat)) (mem : nat -> K) : nat -> K :=
  fold_left (fun mem rc => vset mem m (fst rc) (snd rc) (f mem (fst rc) (snd rc))) cells mem.
Definition by_rows (rows cols : nat) : list (nat * nat) := list_prod (seq 0 rows) (seq 0 cols).
Definition by_cols (rows cols : nat) : list (nat * nat) := map (fun cr => (snd cr, fst cr)) (list_prod (seq 0 cols) (seq 0 rows)).
Definition vmul_at (a b : view) (mem : nat -> K) (r c : nat) : K := accum (vcols a) (fun n => vget mem a r n * vget mem b n c) 0.
(** Matrix.h:382-424 [mul(into, a, b)]: through a temporary when the aliasing check says so.  MatrixCopy.h:18-47 [_mtxcopy]
    visits corresponding elements. *)
Definition mul_into (mem : nat -> K) (d a b : view) : nat -> K :=
  if aliases d a || aliases d b then
    let tmp := each (vrows a) (vcols b) (fun _ r c => vmul_at a b mem r c) (fun _ _ => 0) in
    write_cells d (fun _ r c => tmp r c) (by_rows (vrows d) (vcols d)) mem
  else write_cells d (vmul_at a b) (by_rows (vrows a) (vcols b)) mem.
(** Matrix.h:427-458 [mul_acc(into, a, b)]: no aliasing check. *)
Definition mul_acc_into (mem : nat -> K) (d a b : view) : nat -> K :=
  write_cells d (fun mem r c => accum (vcols a) (fun n => vget mem a r n * vget mem b n c) (vget mem d r c)) (by_rows (vrows a) (vcols b)) mem.
(** Matrix.h:588-634 [transpose(into, m)] for matrices of the same type: [same] says whether both arguments are one object. *)
Definition swap_cells (mem : nat -> K) (m : view) (r c : nat) : nat -> K := swap mem (vaddr m r c) (vaddr m c r).
Definition transpose_same (same : bool) (mem : nat -> K) (d m : view) : nat -> K :=
  if same && (vrows m =? vcols m)%nat then
    fold_left (fun mem r => fold_left (fun mem c => swap_cells mem d r c) (seq 0 r) mem) (seq 0 (vrows m)) mem
  else if aliases d m then write_cells d (fun _ r c => vget mem m c r) (by_cols (vrows d) (vcols d)) mem
  else write_cells d (fun mem r c => vget mem m c r) (by_cols (vrows d) (vcols d)) mem.
(** Matrix.h:640-676 [transpose(into, m)] in general: after going through a temporary, control falls through to the direct
    transpose as well. *)
Definition transpose_any (mem : nat -> K) (d m : view) : nat -> K :=
  let direct mem := write_cells d (fun mem r c => vget mem m c r) (by_cols (vrows d) (vcols d)) mem in
  if aliases d m then direct (write_cells d (fun _ r c => vget mem m c r) (by_rows (vrows d) (vcols d)) mem) else direct mem.
End Mul.
Arguments accum {K}. Arguments each {K}. Arguments mul_dense {K}. Arguments mul_acc {K}. Arguments mul_mtx_diag {K}. Arguments mul_diag_mtx {K}.
Arguments mul_mtx_vec {K}. Arguments mul_acc_mtx_vec {K}. Arguments mul_vec_mtx {K}. Arguments mul_acc_vec_mtx {K}. Arguments mul_mtx_perm {K}.
Arguments mul_perm_mtx {K}. Arguments mul_perm_perm_dense {K}. Arguments mul_perm_vec {K}. Arguments mul_vec_perm {K}. Arguments diag_at {K}.
Arguments vget {K}. Arguments vset {K}. Arguments write_cells {K}. Arguments vmul_at {K}. Arguments mul_into {K}. Arguments mul_acc_into {K}. Arguments transpose_same {K}.
Arguments transpose_any {K}. Arguments swap_cells {K}.
