(** Model of geomc/linalg/AffineTransform.h: a transform of N-dimensional space is a pair of (N+1) x (N+1) matrices.
    Exact arithmetic over a field; rotations over the reals. *)
From Coq Require Import Arith List Bool Reals.
From Verif Require Import Fld RFld LinSpec PermModel PluModel DetInvModel MulModel Vec3Model QuatModel.
Import ListNotations.
Open Scope nat_scope.

Record xform (K : field) : Type := mkXf { xmat : mtx K; xinv : mtx K }.
Arguments mkXf {K}. Arguments xmat {K}. Arguments xinv {K}.

Section Affine.
Variable K : field.
Local Open Scope fld_scope.
(** AffineTransform.h:88: both matrices default to the identity (SimpleMatrix.h default constructor). *)
Definition xf_identity : xform K := mkXf delta delta.
(** Homogeneous vector (p, 1). *)
Definition hom (N : nat) (p : nat -> K) : nat -> K := fun i => if (i <? N)%nat then p i else 1.
(** AffineTransform.h:216-220: apply(point). *)
Definition xf_apply (N : nat) (xf : xform K) (p : nat -> K) : nat -> K := mul_mtx_vec (S N) (S N) (xmat xf) (hom N p) (fun _ => 0).
(** AffineTransform.h:225-233: apply_vector. *)
Definition xf_apply_vector (N : nat) (xf : xform K) (v : nat -> K) : nat -> K := fun r => accum N (fun c => xmat xf r c * v c) 0.
(** AffineTransform.h:240-249: apply_normal. *)
Definition xf_apply_normal (N : nat) (xf : xform K) (n : nat -> K) : nat -> K := fun r => accum N (fun c => xinv xf c r * n c) 0.
(** AffineTransform.h:254-258, 263-271, 276-285. *)
Definition xf_apply_inverse (N : nat) (xf : xform K) (p : nat -> K) : nat -> K := mul_mtx_vec (S N) (S N) (xinv xf) (hom N p) (fun _ => 0).
Definition xf_apply_inverse_vector (N : nat) (xf : xform K) (v : nat -> K) : nat -> K := fun r => accum N (fun c => xinv xf r c * v c) 0.
Definition xf_apply_inverse_normal (N : nat) (xf : xform K) (n : nat -> K) : nat -> K := fun r => accum N (fun c => xmat xf c r * n c) 0.
(** Matrix product of two (N+1) x (N+1) matrices into a new matrix. *)
Definition hmul (N : nat) (a b : mtx K) : mtx K := mul_dense (S N) (S N) (S N) a b delta.
(** AffineTransform.h:292-297: this.apply(xf). *)
Definition xf_then (N : nat) (this xf : xform K) : xform K := mkXf (hmul N (xmat xf) (xmat this)) (hmul N (xinv this) (xinv xf)).
(** AffineTransform.h:304-309: this.apply_inverse(xf). *)
Definition xf_then_inverse (N : nat) (this xf : xform K) : xform K := mkXf (hmul N (xinv xf) (xmat this)) (hmul N (xinv this) (xmat xf)).
(** AffineTransform.h:314-319. *)
Definition xf_inverse (xf : xform K) : xform K := mkXf (xinv xf) (xmat xf).
(** AffineTransform.h:134-139 and 146-151: xf1 * xf2 and xf1 / xf2. *)
Definition xf_mul (N : nat) (xf1 xf2 : xform K) : xform K := xf_then N xf2 xf1.
Definition xf_div (N : nat) (xf1 xf2 : xform K) : xform K := xf_then_inverse N xf1 xf2.
(** AffineTransform.h:158-162 and 170-174: this *= xf and this /= xf (value of [this] afterwards).  [same]: the argument is
    [*this] itself, so that its matrix is already overwritten when the second statement reads it. *)
Definition xf_mul_assign (N : nat) (this xf : xform K) : xform K := mkXf (hmul N (xmat xf) (xmat this)) (hmul N (xinv this) (xinv xf)).
Definition xf_div_assign (same : bool) (N : nat) (this xf : xform K) : xform K :=
  let m := hmul N (xinv xf) (xmat this) in mkXf m (hmul N (xinv this) (if same then m else xmat xf)).
(** AffineTransform.h:176-191: resized<M>(); element types unchanged. *)
Definition xf_resized (N M : nat) (xf : xform K) : xform K :=
  let k := Nat.min M N in
  let copied := fold_left (fun (x : xform K) i =>
      let x1 := fold_left (fun (x : xform K) j => mkXf (upd2 (xmat x) i j (xmat xf i j)) (upd2 (xinv x) i j (xinv xf i j))) (seq 0 k) x in
      mkXf (upd2 (xmat x1) i M (xmat xf i N)) (xinv x1)) (seq 0 k) xf_identity in
  mkXf (upd2 (xmat copied) M M (xmat xf N N)) (xinv copied).
(** AffineTransform.h:782-790. *)
Definition xf_translation (N : nat) (tx : nat -> K) : xform K :=
  fold_left (fun (x : xform K) i => mkXf (upd2 (xmat x) i N (tx i)) (upd2 (xinv x) i N (- tx i))) (seq 0 N) xf_identity.
(** AffineTransform.h:798-806.  Division by zero is left to the field; theorems require non-zero factors. *)
Definition xf_scale (N : nat) (sx : nat -> K) : xform K :=
  fold_left (fun (x : xform K) i => mkXf (upd2 (xmat x) i i (sx i)) (upd2 (xinv x) i i (1 / sx i))) (seq 0 N) xf_identity.
(** AffineTransform.h:814-835, static dimension: [m] is the given matrix's storage, [lm] its layout (true: row-major).
    The result of [inv] is ignored; [m_inv] starts as the identity. *)
Definition xf_transformation (bigger : K -> K -> bool) (N : nat) (lm : bool) (m : nat -> K) : xform K :=
  let m_inv := snd (inv_raw bigger true lm N (fun k => delta (k / N) (k mod N)) m) in
  fold_left (fun (x : xform K) r => fold_left (fun (x : xform K) c =>
      mkXf (upd2 (xmat x) r c (stored lm N m r c)) (upd2 (xinv x) r c (stored true N m_inv r c))) (seq 0 N) x) (seq 0 N) xf_identity.
End Affine.
Arguments xf_identity {K}. Arguments hom {K}. Arguments xf_apply {K}. Arguments xf_apply_vector {K}. Arguments xf_apply_normal {K}.
Arguments xf_apply_inverse {K}. Arguments xf_apply_inverse_vector {K}. Arguments xf_apply_inverse_normal {K}. Arguments hmul {K}.
Arguments xf_then {K}. Arguments xf_then_inverse {K}. Arguments xf_inverse {K}. Arguments xf_mul {K}. Arguments xf_div {K}.
Arguments xf_mul_assign {K}. Arguments xf_div_assign {K}. Arguments xf_resized {K}. Arguments xf_translation {K}. Arguments xf_scale {K}.
Arguments xf_transformation {K}.

(** ** Rotations *)
Open Scope R_scope.
Definition xformR : Type := xform R_field.
(** Sixteen elements in row-major order. *)
Definition mat4 (l : list R) : mtx R_field := fun r c => nth (4 * r + c) l 0.
Definition mat3 (l : list R) : mtx R_field := fun r c => nth (3 * r + c) l 0.
(** Matrix.h:588-634 [transpose] between two distinct objects. *)
Definition mtranspose (m : mtx R_field) : mtx R_field := fun r c => m c r.
(** AffineTransform.h:339-353. *)
Definition rotmat (x y z theta : R) : mtx R_field :=
  let c := cos theta in let s := sin theta in let c_1 := 1 - c in
  mat4 [c + c_1*x*x;    c_1*x*y - s*z; c_1*x*z + s*y; 0;
        c_1*y*x + s*z;  c + c_1*y*y;   c_1*y*z - s*x; 0;
        c_1*z*x - s*y;  c_1*z*y + s*x; c + c_1*z*z;   0;
        0; 0; 0; 1].
(** AffineTransform.h:361-389. *)
Definition rotmat_quat (q : quat) : mtx R_field :=
  let x := qx q in let y := qy q in let z := qz q in let w := qw q in
  let x2 := x*x in let y2 := y*y in let z2 := z*z in let w2 := w*w in
  let twox := 2*x in let twoy := 2*y in let twoz := 2*z in
  let xy := twox * y in let xz := twox * z in let xw := twox * w in
  let yz := twoy * z in let yw := twoy * w in let zw := twoz * w in
  mat4 [w2 + x2 - y2 - z2; xy - zw; xz + yw; 0;
        xy + zw; w2 - x2 + y2 - z2; yz - xw; 0;
        xz - yw; yz + xw; w2 - x2 - y2 + z2; 0;
        0; 0; 0; 1].
(** AffineTransform.h:391-427. *)
Definition rotmat_point (x y z px py pz theta : R) : mtx R_field :=
  let c := cos theta in let s := sin theta in let c_1 := 1 - c in
  let x2 := x*x in let y2 := y*y in let z2 := z*z in
  let q0 := py * z - pz * y in let q1 := pz * x - px * z in let q2 := px * y - py * x in
  let s0 := py * y + pz * z in let s1 := px * x + pz * z in let s2 := px * x + py * y in
  let t0 := px * (y2 + z2) - x * s0 in let t1 := py * (x2 + z2) - y * s1 in let t2 := pz * (x2 + y2) - z * s2 in
  let u0 := t0 * c_1 + q0 * s in let u1 := t1 * c_1 + q1 * s in let u2 := t2 * c_1 + q2 * s in
  mat4 [x2 + c*(y2 + z2); x*y*c_1 - z*s; x*z*c_1 + y*s; u0;
        x*y*c_1 + z*s; y2 + c*(x2 + z2); y*z*c_1 - x*s; u1;
        x*z*c_1 - y*s; y*z*c_1 + x*s; z2 + c*(x2 + y2); u2;
        0; 0; 0; 1].
(** AffineTransform.h:589-635: matrix and inverse; the sine terms are added to one and subtracted from the other. *)
Definition rotmat_both (x y z px py pz theta : R) : xformR :=
  let c := cos theta in let s := sin theta in let c_1 := 1 - c in
  let x2 := x*x in let y2 := y*y in let z2 := z*z in
  let xyc := x*y*c_1 in let xzc := x*z*c_1 in let yzc := y*z*c_1 in
  let da := x2 + c*(y2 + z2) in let db := y2 + c*(x2 + z2) in let dc := z2 + c*(x2 + y2) in
  let fac := [da; xyc; xzc; (px*(y2 + z2) - x*(py*y + pz*z))*c_1;
              xyc; db; yzc; (py*(x2 + z2) - y*(px*x + pz*z))*c_1;
              xzc; yzc; dc; (pz*(x2 + y2) - z*(px*x + py*y))*c_1;
              0; 0; 0; 1] in
  let sterms := [0; - z*s; y*s; (py*z - pz*y)*s;
                 z*s; 0; - x*s; (pz*x - px*z)*s;
                 - y*s; x*s; 0; (px*y - py*x)*s] in
  mkXf (K := R_field) (mat4 (map (fun i => if (i <? 12)%nat then nth i fac 0 + nth i sterms 0 else nth i fac 0) (seq 0 16)))
       (mat4 (map (fun i => if (i <? 12)%nat then nth i fac 0 - nth i sterms 0 else nth i fac 0) (seq 0 16))).
(** AffineTransform.h:442-466 (and 468-491, 562-585 for 3x3: the same entries).  SimpleMatrix::set_identity on a square matrix. *)
Definition rotmat_direction_align (dir alignWith : v3) : mtx R_field :=
  let v := cross3 dir alignWith in
  let c := dot3 dir alignWith in
  if Req_EM_T (Rabs c) 1 then
    if Rlt_dec c 0 then mat4 [-1; 0; 0; 0;  0; 1; 0; 0;  0; 0; -1; 0;  0; 0; 0; 1]
    else mat4 [1; 0; 0; 0;  0; 1; 0; 0;  0; 0; 1; 0;  0; 0; 0; 1]
  else
    let k := (1 - c) / (1 - c * c) in
    mat4 [vx v*vx v*k + c;    vy v*vx v*k - vz v; vz v*vx v*k + vy v; 0;
          vx v*vy v*k + vz v; vy v*vy v*k + c;    vz v*vy v*k - vx v; 0;
          vx v*vz v*k - vy v; vy v*vz v*k + vx v; vz v*vz v*k + c;    0;
          0; 0; 0; 1].
(** AffineTransform.h:493-560. *)
Definition rotmat_x (theta : R) : mtx R_field := let c := cos theta in let s := sin theta in
  mat4 [1; 0; 0; 0;  0; c; -s; 0;  0; s; c; 0;  0; 0; 0; 1].
Definition rotmat_y (theta : R) : mtx R_field := let c := cos theta in let s := sin theta in
  mat4 [c; 0; s; 0;  0; 1; 0; 0;  -s; 0; c; 0;  0; 0; 0; 1].
Definition rotmat_z (theta : R) : mtx R_field := let c := cos theta in let s := sin theta in
  mat4 [c; -s; 0; 0;  s; c; 0; 0;  0; 0; 1; 0;  0; 0; 0; 1].
Definition with_transpose (m : mtx R_field) : xformR := mkXf (K := R_field) m (mtranspose m).
(** AffineTransform.h:660-667, 682-697, 705-712, 739-761, 770-776. *)
Definition rotation (axis : v3) (radians : R) : xformR := let a := unit3 axis in with_transpose (rotmat (vx a) (vy a) (vz a) radians).
Definition rotation_about (axis center : v3) (radians : R) : xformR :=
  let a := unit3 axis in rotmat_both (vx a) (vy a) (vz a) (vx center) (vy center) (vz center) radians.
(** Quat::unit, VecBase.h:538-545. *)
Definition qunit (q : quat) : quat := let n := qmag q in Q4 (qx q / n) (qy q / n) (qz q / n) (qw q / n).
Definition rotation_quat (q : quat) : xformR := with_transpose (rotmat_quat (qunit q)).
Definition rotation_x (theta : R) : xformR := with_transpose (rotmat_x theta).
Definition rotation_y (theta : R) : xformR := with_transpose (rotmat_y theta).
Definition rotation_z (theta : R) : xformR := with_transpose (rotmat_z theta).
Definition direction_align (dir align_with : v3) : xformR := with_transpose (rotmat_direction_align dir align_with).
(** AffineTransform.h:720-737. *)
Definition rotation_2d (radians : R) : xformR :=
  let s := sin radians in let c := cos radians in
  mkXf (K := R_field) (mat3 [c; -s; 0;  s; c; 0;  0; 0; 1]) (mat3 [c; s; 0;  -s; c; 0;  0; 0; 1]).
