(** Model of geomc/linalg/mtxdetail/MatrixDet.h and MatrixInv.h: determinants and inverses of flat arrays.
    Elements range over a field with exact arithmetic.  Buffers are functions from index to element. *)
From Coq Require Import Arith List Bool.
From Verif Require Import Fld PermModel PluModel.
Import ListNotations.
Open Scope nat_scope.

Section M.
Variable K : field.
Variable bigger : K -> K -> bool.
Local Open Scope fld_scope.

(** function/functiondetail/UtilDetail.h [_ImplFMADot] for floating point types (70-90), std::fma(a,b,c) being a*b+c. *)
Definition fma (a b c : K) : K := a * b + c.
Definition diff_of_products (a b c d : K) : K := let cd := c * d in let err := fma (- c) d cd in let x := fma a b (- cd) in x + err.
Definition sum_of_products (a b c d : K) : K := let cd := c * d in let err := fma c d (- cd) in let x := fma a b cd in x + err.
(** MatrixDet.h:37-40. *)
Definition cofac (a b c d e f : K) : K := fma e f (diff_of_products a b c d).
(** MatrixDet.h:50-52 and 55-58 [det2x2]. *)
Definition det2x2 (a b c d : K) : K := diff_of_products a d b c.
(** MatrixDet.h:73-83 [det3x3] from parameters; 62-69 reads them from a buffer. *)
Definition det3x3 (a b c d e f g h i : K) : K := cofac a (det2x2 e f h i) b (det2x2 d f g i) c (det2x2 d e g h).
Definition det2x2_buf (m : nat -> K) : K := det2x2 (m 0%nat) (m 1%nat) (m 2%nat) (m 3%nat).
Definition det3x3_buf (m : nat -> K) : K :=
  det3x3 (m 0%nat) (m 1%nat) (m 2%nat) (m 3%nat) (m 4%nat) (m 5%nat) (m 6%nat) (m 7%nat) (m 8%nat).
(** MatrixDet.h:86-98 [det4x4].  (The reinterpret_cast at 88 drops const and is rejected by a compiler; modelled with the
    evident reading of the buffer.) *)
Definition det4x4 (a b c d e f g h i j k l m n o p : K) : K :=
  diff_of_products a (det3x3 f g h j k l n o p) b (det3x3 e g h i k l m o p) +
  diff_of_products c (det3x3 e f h i j l m n p) d (det3x3 e f g i j k m n o).
Definition det4x4_buf (m : nat -> K) : K :=
  det4x4 (m 0%nat) (m 1%nat) (m 2%nat) (m 3%nat) (m 4%nat) (m 5%nat) (m 6%nat) (m 7%nat)
         (m 8%nat) (m 9%nat) (m 10%nat) (m 11%nat) (m 12%nat) (m 13%nat) (m 14%nat) (m 15%nat).

(** The buffer after decomp_plu ran on it, row-major (decomp_plu's default): index k holds element (k / n, k mod n). *)
Definition plu_buffer (m : nat -> K) (n : nat) : plu_state K := decomp_plu bigger (fun r c => m (n * r + c)%nat) n n.
Definition flat (M : mtx K) (n : nat) : nat -> K := fun k => M (k / n)%nat (k mod n)%nat.
(** MatrixDet.h:115-126 [det_destructive]; the final loop is d *= m[i * i]. *)
Definition det_destructive (m : nat -> K) (n : nat) : K :=
  if (n =? 1)%nat then m 0%nat
  else let s := plu_buffer m n in
       if (0 <? pd s)%nat then 0
       else fold_left (fun d i => d * flat (pm s) n (i * i)%nat) (seq 0 n) (if pp s then - (1) else 1).
(** MatrixDet.h:139-152 [detNxN]. *)
Definition detNxN (m : nat -> K) (n : nat) : K :=
  let s := plu_buffer m n in
  if (0 <? pd s)%nat then 0
  else fold_left (fun d i => d * flat (pm s) n (i * i)%nat) (seq 0 n) (if pp s then - (1) else 1).
(** MatrixDet.h:201-209 det(DiagMatrix) on [rows] x [cols] with diagonal [d]. *)
Definition det_diag (d : nat -> K) (rows cols : nat) : K :=
  if (rows =? cols)%nat then fold_left (fun x i => x * d i) (seq 0 rows) 1 else 0.

Definition of_list (l : list K) : nat -> K := fun k => nth k l 0.
(** std::copy(inv, inv + n, out). *)
Definition copy_to (l : list K) (out : nat -> K) : nat -> K := fun k => if (k <? length l)%nat then nth k l 0 else out k.
(** MatrixInv.h:51-62 [inv2x2]: result flag and the output buffer. *)
Definition inv2x2 (out m : nat -> K) : bool * (nat -> K) :=
  let a := m 0%nat in let b := m 1%nat in let c := m 2%nat in let d := m 3%nat in
  let det := det2x2 a b c d in
  if feq_dec det 0 then (false, out)
  else (true, copy_to [d / det; - b / det; - c / det; a / det] out).
(** MatrixInv.h:77-104 [inv3x3]. *)
Definition inv3x3 (out m : nat -> K) : bool * (nat -> K) :=
  let a := m 0%nat in let b := m 1%nat in let c := m 2%nat in
  let d := m 3%nat in let e := m 4%nat in let f := m 5%nat in
  let g := m 6%nat in let h := m 7%nat in let i := m 8%nat in
  let p0 := det2x2 i h f e in let p1 := det2x2 i h c b in let p2 := det2x2 f e c b in
  let det := fma g p2 (det2x2 a d p1 p0) in
  if feq_dec det 0 then (false, out)
  else (true, copy_to
    [det2x2 i h f e / det; det2x2 h i b c / det; det2x2 f e c b / det;
     det2x2 g i d f / det; det2x2 i g c a / det; det2x2 d f a c / det;
     det2x2 h g e d / det; det2x2 g h a b / det; det2x2 e d b a / det] out).
(** MatrixInv.h:119-167 [inv4x4]. *)
Definition inv4x4 (out m : nat -> K) : bool * (nat -> K) :=
  let a := m 0%nat in let b := m 1%nat in let c := m 2%nat in let d := m 3%nat in
  let e := m 4%nat in let f := m 5%nat in let g := m 6%nat in let h := m 7%nat in
  let i := m 8%nat in let j := m 9%nat in let k := m 10%nat in let l := m 11%nat in
  let m' := m 12%nat in let n := m 13%nat in let o := m 14%nat in let p := m 15%nat in
  let s0 := det2x2 a b e f in let s1 := det2x2 a c e g in let s2 := det2x2 a d e h in
  let s3 := det2x2 b c f g in let s4 := det2x2 b d f h in let s5 := det2x2 c d g h in
  let c0 := det2x2 i j m' n in let c1 := det2x2 i k m' o in let c2 := det2x2 i l m' p in
  let c3 := det2x2 j k n o in let c4 := det2x2 j l n p in let c5 := det2x2 k l o p in
  let det := diff_of_products s0 c5 s1 c4 + diff_of_products s3 c2 s4 c1 + sum_of_products s2 c3 s5 c0 in
  if feq_dec det 0 then (false, out)
  else (true, copy_to
    [  cofac f c5 g c4 h c3 / det; - cofac b c5 c c4 d c3 / det;   cofac n s5 o s4 p s3 / det; - cofac j s5 k s4 l s3 / det;
     - cofac e c5 g c2 h c1 / det;   cofac a c5 c c2 d c1 / det; - cofac m' s5 o s2 p s1 / det;   cofac i s5 k s2 l s1 / det;
       cofac e c4 f c2 h c0 / det; - cofac a c4 b c2 d c0 / det;   cofac m' s4 n s2 p s0 / det; - cofac i s4 j s2 l s0 / det;
     - cofac e c3 f c1 g c0 / det;   cofac a c3 b c1 c c0 / det; - cofac m' s3 n s1 o s0 / det;   cofac i s3 j s1 k s0 / det] out).
(** MatrixInv.h:188-200 and 221-233 [invNxN]: the permuted identity is written to [out], then solved in place. *)
Definition write_perm (n : nat) (p : nat -> nat) : mtx K :=
  fold_left (fun (o : mtx K) i => upd2 o i (p i) 1) (seq 0 n) (fun _ _ => 0).
Definition invNxN (out m : nat -> K) (n : nat) : bool * (nat -> K) :=
  let s := plu_buffer m n in
  if (0 <? pd s)%nat then (false, out)
  else let X := backsolve_lu (pm s) n n 0 (write_perm n (pr s)) in
       (true, fun k => if (k <? n * n)%nat then flat X n k else out k).

(** MatrixFunctionImpl.h:29-49 [transpose_square_matrix]: swap (i,j) with (j,i) for i < j, in a row-major buffer. *)
Definition swap_at (b : nat -> K) (x y : nat) : nat -> K := fun k => if (k =? x)%nat then b y else if (k =? y)%nat then b x else b k.
Definition transpose_square (n : nat) (b : nat -> K) : nat -> K :=
  fold_left (fun b i => fold_left (fun b j => swap_at b (n * i + j)%nat (n * j + i)%nat) (seq (S i) (n - S i)) b) (seq 0 n) b.
(** MatrixInv.h:243-339 [_ImplMtxInvRaw]: invert matrix [m], stored with layout [lm], into [out], stored with layout [lo].
    For 2, 3 and 4 the buffer is inverted as it lies and the result transposed when the layouts differ (the 2x2 case
    swaps v[1] and v[2]); otherwise the source is first copied to a buffer of the destination's layout. *)
Definition relayout (lo lm : bool) (n : nat) (m : nat -> K) : nat -> K :=
  if Bool.eqb lo lm then m else fun k => m (n * (k mod n) + k / n)%nat.
Definition inv_raw (lo lm : bool) (n : nat) (out m : nat -> K) : bool * (nat -> K) :=
  let fixed (r : bool * (nat -> K)) := match r with
    | (true, o) => (true, if Bool.eqb lo lm then o else if (n =? 2)%nat then swap_at o 1 2 else transpose_square n o)
    | (false, o) => (false, o) end in
  if (n =? 2)%nat then fixed (inv2x2 out m)
  else if (n =? 3)%nat then fixed (inv3x3 out m)
  else if (n =? 4)%nat then fixed (inv4x4 out m)
  else invNxN out (relayout lo lm n m) n.
End M.
Arguments fma {K}. Arguments diff_of_products {K}. Arguments sum_of_products {K}. Arguments cofac {K}. Arguments det2x2 {K}. Arguments det3x3 {K}.
Arguments det2x2_buf {K}. Arguments det3x3_buf {K}. Arguments det4x4 {K}. Arguments det4x4_buf {K}. Arguments plu_buffer {K}. Arguments flat {K}.
Arguments det_destructive {K}. Arguments detNxN {K}. Arguments det_diag {K}. Arguments of_list {K}. Arguments copy_to {K}.
Arguments inv2x2 {K}. Arguments inv3x3 {K}. Arguments inv4x4 {K}. Arguments write_perm {K}. Arguments invNxN {K}. Arguments swap_at {K}.
Arguments transpose_square {K}. Arguments relayout {K}. Arguments inv_raw {K}.

(** LUDecomp.h:419-427, the branch N < 5 of the vector version of linear_solve: the basis vectors are the columns of a
    column-major matrix; it is inverted into a row-major one and applied to the right-hand sides (through a temporary,
    since destination and operand alias). *)
Definition linear_solve_inv {K : field} (bigger : K -> K -> bool) (n : nat) (bases out0 : nat -> K) (X : mtx K) : bool * mtx K :=
  match inv_raw bigger true false n out0 bases with
  | (true, b) => (true, fun r i => sum n (fun k => (b (n * r + k)%nat * X k i)%F))
  | (false, _) => (false, X)
  end.
