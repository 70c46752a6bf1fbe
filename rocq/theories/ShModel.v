(** Model of spherical_harmonic_coeff and the class SphericalHarmonics of geomc/function/SphericalHarmonics.h, of the constructor
    of ZonalHarmonics from one, and of the Basis.h overload of legendre that fills one; exact real arithmetic.
    The coefficient array has bands()^2 elements; coefficient (l, m) with l < bands() and |m| <= l is element l l + l + m.
    Not modelled: operator+ (lines 547-553), whose loop counter is not initialised and which returns nothing: every call is
    undefined behaviour. *)
From Coq Require Import Reals ZArith Arith List Bool.
From Verif Require Import Vec3Model BasisModel ZonalModel.
Import ListNotations.
Open Scope R_scope.

(** SphericalHarmonics.h:126-127, 355-356, 408-409: the product of the integers from l - m + 1 to l + m. *)
Definition sh_z (l m : nat) : R :=
  if (l =? 0)%nat then 1
  else fold_left (fun z i => z * IZR (Z.of_nat l - Z.of_nat m + 1 + Z.of_nat i)) (seq 0 (2 * m)) 1.
(** SphericalHarmonics.h:115-138: spherical_harmonic_coeff; [None] is no number. *)
Definition sh_coeff (l : nat) (m : Z) (cos_alt azi : R) : option R :=
  let m_a := Z.abs_nat m in
  match assoc_legendre l m_a cos_alt, assoc_legendre l 0 cos_alt with
  | Some P_lm, Some P_l0 =>
    let z := sh_z l m_a in
    if Req_EM_T z 0 then None else
    let k := sqrt ((1 / z) * ((2 * INR l + 1) / (4 * PI))) in
    Some (if (0 <? m)%Z then sqrt 2 * k * cos (IZR m * azi) * P_lm
          else if (m <? 0)%Z then sqrt 2 * k * sin (- IZR m * azi) * P_lm
          else k * P_l0)
  | _, _ => None
  end.

(** SphericalHarmonics.h:154-159. *)
Record sharm : Type := mkSh { shn : nat; shc : nat -> R }.
(** SphericalHarmonics.h:227-239: the element of coefficient (l, m) and, for 0 <= m, of (l, -m). *)
Definition ixp (l m : nat) : nat := (l * l + l + m)%nat.
Definition ixn (l m : nat) : nat := (l * l + l - m)%nat.
(** SphericalHarmonics.h:332-352 and 384-402: the Legendre value of band l_i from the two values before it; (pmm0, pmm1, P_lm).
    [pmm] is the value of lines 333-341 and 385-392, computed once at l_i = m. *)
Definition sh_column (m : nat) (x pmm pmm0 pmm1 : R) (l_i : nat) : R * R * R :=
  if (l_i =? m)%nat then (pmm, pmm1, pmm)
  else if (l_i =? m + 1)%nat then let pmm1 := x * (2 * INR m + 1) * pmm0 in (pmm0, pmm1, pmm1)
  else let pmi := assoc_next l_i m x pmm1 pmm0 in (pmm1, pmi, pmi).
(** SphericalHarmonics.h:359 and 412. *)
Definition sh_k (l m : nat) : R := sqrt ((1 / sh_z l m) * (2 * INR l + 1) / (4 * PI)).
(** SphericalHarmonics.h:318-369: _eval. *)
Definition sh_eval_raw (s : sharm) (x azi : R) : option R :=
  let l := shn s in
  fold_left (fun sum m => match sum, legendre_mm m x with
    | Some sum, Some pmm =>
      let c_ma := cos (INR m * azi) in
      let s_ma := sin (INR m * azi) in
      let '(_, _, sum) := fold_left (fun '(pmm0, pmm1, sum) l_i =>
          let '(pmm0, pmm1, P_lm) := sh_column m x pmm pmm0 pmm1 l_i in
          let k := sh_k l_i m in
          (pmm0, pmm1,
            if negb (m =? 0)%nat then
              sum + P_lm * sqrt 2 * k * c_ma * shc s (ixp l_i m) + P_lm * sqrt 2 * k * s_ma * shc s (ixn l_i m)
            else sum + P_lm * k * shc s (ixp l_i 0)))
        (seq m (l - m)) (1, 1, sum) in
      Some sum
    | _, _ => None
    end) (seq 0 l) (Some 0).
(** SphericalHarmonics.h:372-421: _project. *)
Definition sh_project_raw (x azi val : R) (s : sharm) : option sharm :=
  let l := shn s in
  match fold_left (fun c m => match c, legendre_mm m x with
    | Some c, Some pmm =>
      let c_ma := cos (INR m * azi) in
      let s_ma := sin (INR m * azi) in
      let '(_, _, c) := fold_left (fun '(pmm0, pmm1, c) l_i =>
          let '(pmm0, pmm1, P_lm) := sh_column m x pmm pmm0 pmm1 l_i in
          let k := sh_k l_i m in
          (pmm0, pmm1,
            if negb (m =? 0)%nat then
              let c := upd c (ixp l_i m) (c (ixp l_i m) + P_lm * sqrt 2 * k * c_ma * val) in
              upd c (ixn l_i m) (c (ixn l_i m) + P_lm * sqrt 2 * k * s_ma * val)
            else upd c (ixp l_i 0) (c (ixp l_i 0) + P_lm * k * val)))
        (seq m (l - m)) (1, 1, c) in
      Some c
    | _, _ => None
    end) (seq 0 l) (Some (shc s)) with
  | Some c => Some (mkSh l c)
  | None => None
  end.
(** SphericalHarmonics.h:445-447 and 480-482: eval and project at angles from the pole and around it. *)
Definition sh_eval (s : sharm) (alt azi : R) : option R := sh_eval_raw s (cos alt) azi.
Definition sh_project (alt azi val : R) (s : sharm) : option sharm := sh_project_raw (cos alt) azi val s.
(** SphericalHarmonics.h:433-436 and 463-466: eval and project in the direction of a vector, for a non-zero vector. *)
Definition sh_eval_dir (s : sharm) (d : v3) : option R := let d := unit3 d in sh_eval_raw s (vz d) (atan2 (vy d) (vx d)).
Definition sh_project_dir (d : v3) (val : R) (s : sharm) : option sharm := let d := unit3 d in sh_project_raw (vz d) (atan2 (vy d) (vx d)) val s.
(** SphericalHarmonics.h:488-490: clear; 177-180: the constructor from a number of bands. *)
Definition sh_new (n : nat) : sharm := mkSh n (fun _ => 0).
(** SphericalHarmonics.h:560-565: basis. *)
Definition sh_basis (n : nat) (d : v3) : option sharm := sh_project_dir d 1 (sh_new n).
(** SphericalHarmonics.h:274-281: dot. *)
Definition sh_dot (a b : sharm) : R :=
  fold_left (fun sum i => sum + shc a i * shc b i) (seq 0 (Nat.min (shn a * shn a) (shn b * shn b))) 0.
(** SphericalHarmonics.h:287-293: normalize. *)
Definition sh_normalize (s : sharm) : option sharm :=
  if (shn s =? 0)%nat then None else
  let nh := shc s 0%nat in
  if Req_EM_T nh 0 then Some s
  else Some (mkSh (shn s) (fun i => if (1 <=? i)%nat && (i <? shn s * shn s)%nat then shc s i / nh else shc s i)).
(** SphericalHarmonics.h:301-310: convolve, over the elements (l, m) of every band in turn. *)
Definition sh_convolve (z : zonal) (s : sharm) : option sharm :=
  match fold_left (fun c l => fold_left (fun c j => match c with
      | Some c => if (l <? zn z)%nat then match zget z l with Some k => Some (upd c (l * l + j)%nat (c (l * l + j)%nat * k)) | None => None end
                  else Some (upd c (l * l + j)%nat 0)
      | None => None end) (seq 0 (2 * l + 1)) c) (seq 0 (shn s)) (Some (shc s)) with
  | Some c => Some (mkSh (shn s) c)
  | None => None
  end.
(** SphericalHarmonics.h:495-542: negation (of the object itself), multiplication and division by a constant, adding a constant
    and adding a function. *)
Definition sh_map (f : R -> R) (s : sharm) : sharm := mkSh (shn s) (fun i => if (i <? shn s * shn s)%nat then f (shc s i) else shc s i).
Definition sh_neg (s : sharm) : sharm := sh_map Ropp s.
Definition sh_mul (k : R) (s : sharm) : sharm := sh_map (fun c => c * k) s.
Definition sh_div (k : R) (s : sharm) : option sharm := if Req_EM_T k 0 then None else Some (sh_map (fun c => c / k) s).
Definition sh_add_const (k : R) (s : sharm) : option sharm :=
  if (shn s =? 0)%nat then None else Some (mkSh (shn s) (upd (shc s) 0 (shc s 0%nat + k))).
Definition sh_add (o s : sharm) : sharm :=
  mkSh (shn s) (fun i => if (i <? Nat.min (shn o * shn o) (shn s * shn s))%nat then shc s i + shc o i else shc s i).
(** SphericalHarmonics.h:187-199: from a zonal function; [static] is the number of bands of the type, if fixed. *)
Definition sh_bands (static : option nat) (z : zonal) : nat := match static with Some b => b | None => zn z end.
Definition sh_of_zonal (static : option nat) (z : zonal) : option sharm :=
  let n := sh_bands static z in
  match fold_left (fun c l => match c, zget z l with Some c, Some p => Some (upd c (ixp l 0) (p * band_factor l)) | _, _ => None end)
    (seq 0 n) (Some (fun _ => 0)) with
  | Some c => Some (mkSh n c)
  | None => None
  end.
(** SphericalHarmonics.h:208-220: from a zonal function and a new axis. *)
Definition sh_of_zonal_axis (static : option nat) (z : zonal) (axis : v3) : option sharm :=
  let n := sh_bands static z in
  match sh_project_dir axis 1 (sh_new n) with
  | None => None
  | Some s =>
    match fold_left (fun c l => fold_left (fun c j => match c, zget z l with
        | Some c, Some k => Some (upd c (l * l + j)%nat (c (l * l + j)%nat * (k * band_factor l)))
        | _, _ => None end) (seq 0 (2 * l + 1)) c) (seq 0 n) (Some (shc s)) with
    | Some c => Some (mkSh n c)
    | None => None
    end
  end.
(** SphericalHarmonics.h:613-620: ZonalHarmonics from a SphericalHarmonics; the square root of a negative number is no number. *)
Definition zonal_of_sh (s : sharm) : option zonal :=
  match fold_left (fun c l => match c with
      | Some c => let q := (2 * INR l - 1) / (4 * PI) in if Rlt_dec q 0 then None else Some (upd c l (shc s (ixp l 0) * sqrt q))
      | None => None end) (seq 0 (shn s)) (Some (fun _ => 0)) with
  | Some c => Some (mkZonal (shn s) c)
  | None => None
  end.
(** Basis.h:29-50: legendre(sh, m, x), which stores the column m; [None] is an access out of bounds or no number. *)
Definition sh_set2 (l m : nat) (v : R) (c : nat -> R) : nat -> R := upd (upd c (ixn l m) v) (ixp l m) v.
Definition sh_fill (m : nat) (x : R) (s : sharm) : option sharm :=
  let l := shn s in
  if (l <=? m)%nat then None else
  match legendre_mm m x with
  | None => None
  | Some pmm0 =>
    let c := sh_set2 m m pmm0 (shc s) in
    if (m =? l - 1)%nat then Some (mkSh l c) else
    let pmm1 := x * (2 * INR m + 1) * pmm0 in
    let c := sh_set2 (m + 1) m pmm1 c in
    if (m =? l - 2)%nat then Some (mkSh l c) else
    let '(_, _, c) := fold_left (fun '(pmm0, pmm1, c) l_i =>
        let pmi := assoc_next l_i m x pmm1 pmm0 in (pmm1, pmi, sh_set2 l_i m pmi c))
      (seq (m + 2) (l - (m + 2))) (pmm0, pmm1, c) in
    Some (mkSh l c)
  end.
