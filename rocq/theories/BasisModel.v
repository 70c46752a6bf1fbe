(** Model of geomc/function/Basis.h: Legendre and Chebyshev polynomials, exact real arithmetic.  Orders are natural numbers
    (a negative order behaves as order 0 in the functions that test [n <= 0]); index arithmetic does not overflow.
    The overload that fills a SphericalHarmonics table is in ShModel. *)
From Coq Require Import Reals Arith List.
Import ListNotations.
Open Scope R_scope.

(** Basis.h:97, 119 and 123: the next polynomial, P(i + 1, x), from P(i, x) and P(i - 1, x). *)
Definition bonnet (i : nat) (x p_1 p_0 : R) : R := ((2 * INR i + 1) * x * p_1 - INR i * p_0) / (INR i + 1).
(** Basis.h:93-100 and 115-122: the loop, over (p_0, p_1, p_i). *)
Definition legendre_loop (n : nat) (x : R) : R * R * R :=
  fold_left (fun '(p_0, p_1, _) i => let p_i := bonnet i x p_1 p_0 in (p_1, p_i, p_i)) (seq 1 (n - 1)) (1, x, x).
(** Basis.h:91-102: legendre(n, x). *)
Definition legendre (n : nat) (x : R) : R :=
  match n with O => 1 | S _ => let '(_, _, p_i) := legendre_loop n x in p_i end.
(** Basis.h:113-125: legendre_integral(n, x). *)
Definition legendre_integral (n : nat) (x : R) : R :=
  match n with O => x + 1 | S _ =>
    let '(p_0, p_1, _) := legendre_loop n x in
    let p_i := bonnet n x p_1 p_0 in
    (p_i - p_0) / (2 * INR n + 1) end.
(** std::pow(b, m / 2.0): no number for a negative b and odd m. *)
Definition pow_half (b : R) (m : nat) : option R :=
  if Rlt_dec b 0 then if Nat.even m then Some (b ^ (m / 2)) else None else Some (sqrt b ^ m).
(** Basis.h:62-70: P(m, m, x). *)
Definition double_factorial (m : nat) : R := fold_left (fun p i => p * - (INR i * 2 - 1)) (seq 1 m) 1.
Definition legendre_mm (m : nat) (x : R) : option R :=
  match m with
  | O => Some 1
  | S _ => match pow_half (1 - x * x) m with Some w => Some (double_factorial m * w) | None => None end
  end.
(** Basis.h:75 and SphericalHarmonics.h:346-347, 397-398: P(i, m, x) from P(i - 1, m, x) and P(i - 2, m, x). *)
Definition assoc_next (i m : nat) (x pmm1 pmm0 : R) : R :=
  (x * (2 * INR i - 1) * pmm1 - (INR i + INR m - 1) * pmm0) / (INR i - INR m).
(** Basis.h:60-80: legendre(l, m, x). *)
Definition assoc_legendre (l m : nat) (x : R) : option R :=
  match legendre_mm m x with
  | None => None
  | Some pmm0 =>
    if (l =? m)%nat then Some pmm0 else
    let pmm1 := x * (2 * INR m + 1) * pmm0 in
    if (l =? m + 1)%nat then Some pmm1 else
    Some (snd (fold_left (fun '(pmm0, pmm1) i => (pmm1, assoc_next i m x pmm1 pmm0)) (seq (m + 2) (l + 1 - (m + 2))) (pmm0, pmm1)))
  end.
(** Basis.h:136-147: chebyshev(kind, n, x). *)
Definition chebyshev (kind n : nat) (x : R) : R :=
  match n with O => 1 | S _ =>
    let t_1 := INR kind * x in
    let '(_, _, t_i) := fold_left (fun '(t_0, t_1, _) (_ : nat) => let t_i := 2 * x * t_1 - t_0 in (t_1, t_i, t_i)) (seq 1 (n - 1)) (1, t_1, t_1) in
    t_i end.
