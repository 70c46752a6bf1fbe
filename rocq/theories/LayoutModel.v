(** Model of geomc/linalg/mtxdetail/MatrixLayout.h.  Pointers into the matrix buffer are offsets from its
    base; integer overflow of index_t is not modelled. *)
From Coq Require Import ZArith Bool.
From Verif Require Import Mem.
Open Scope Z_scope.
Open Scope res_scope.

Inductive layout : Type := RowMajor | ColMajor.

(** MatrixLayout.h:106-108 and 144-146 [FlatMatrixLayout::index]. *)
Definition ix (L : layout) (r c rows cols : Z) : Z :=
  match L with RowMajor => r * cols + c | ColMajor => c * rows + r end.

(** MatrixLayout.h:18-27 [TransposeIterator] (the base pointer is offset 0). *)
Record tit : Type := mkT { t_major : Z; t_minor : Z; t_i : Z; t_p : Z }.

(** MatrixLayout.h:44-51 [offs]. C++ integer division truncates. *)
Definition offs (major minor i : Z) : res Z :=
  let s := major * minor in
  if s =? 0 then Fault DivByZero else
  let j := Z.rem i s in
  let k := Z.quot i s in
  Ok (Z.rem j minor * major + Z.quot j minor + k * s).

(** MatrixLayout.h:36-41 constructor. *)
Definition t_new (major minor i : Z) : res tit :=
  let* p := offs major minor i in Ok (mkT major minor i p).
(** MatrixLayout.h:62-75 [increment], [decrement], [advance]. *)
Definition t_inc (t : tit) : res tit := t_new (t_major t) (t_minor t) (t_i t + 1).
Definition t_dec (t : tit) : res tit := t_new (t_major t) (t_minor t) (t_i t - 1).
Definition t_advance (t : tit) (dx : Z) : res tit := t_new (t_major t) (t_minor t) (t_i t + dx).
(** MatrixLayout.h:53-60 [equal]: comparison of addresses. *)
Definition t_equal (t u : tit) : bool := t_p t =? t_p u.
(** MatrixLayout.h:81-92 [distance_to], for an iterator over the same buffer. *)
Definition t_dist (t other : tit) : res Z :=
  let s := t_major t * t_minor t in
  if s =? 0 then Fault DivByZero else
  let q := t_p other in
  let j := Z.rem q s in
  let k := Z.quot q s in
  let o_i := Z.rem j (t_major t) * t_minor t + Z.quot j (t_major t) + k * s in
  Ok (o_i - t_i t).

(** A row or column iterator: a plain pointer along the consecutive axis, a TransposeIterator otherwise. *)
Inductive mit : Type := Ptr (p : Z) | Tr (t : tit).
(** MatrixLayout.h:110-133 (row-major) and 148-171 (column-major): [row] and [col]. *)
Definition row_it (L : layout) (r rows cols : Z) : res mit :=
  match L with
  | RowMajor => Ok (Ptr (r * cols))
  | ColMajor => let* t := t_new rows cols (r * cols) in Ok (Tr t)
  end.
Definition col_it (L : layout) (c rows cols : Z) : res mit :=
  match L with
  | RowMajor => let* t := t_new cols rows (c * rows) in Ok (Tr t)
  | ColMajor => Ok (Ptr (c * rows))
  end.
Definition m_advance (m : mit) (n : Z) : res mit :=
  match m with Ptr p => Ok (Ptr (p + n)) | Tr t => let* t := t_advance t n in Ok (Tr t) end.
(** The buffer offset an iterator refers to. *)
Definition m_deref (m : mit) : Z := match m with Ptr p => p | Tr t => t_p t end.
Definition m_dist (m other : mit) : res Z :=
  match m, other with
  | Ptr p, Ptr q => Ok (q - p)
  | Tr t, Tr u => t_dist t u
  | _, _ => Fault OtherUB
  end.
