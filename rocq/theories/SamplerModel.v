(** Model of geomc/random/RandomTools.h over exact reals.  [u k] is the k-th number that rand<T>() returns: between 0 and 1 (C43).
    M_PI is taken to be the exact number. *)
From Coq Require Import List Reals Arith.
From Verif Require Import Vec3Model QuatModel Vec2Model VecNModel Ord RectModel.
Import ListNotations.
Open Scope R_scope.

(** RandomTools.h:58-65 and 75-82: permute; the choices [c i] are what rand(len - i) returns.  [None] is an access out of bounds. *)
Definition set_nth {A} (l : list A) (i : nat) (x : A) : list A := firstn i l ++ x :: skipn (S i) l.
Definition permute_step {A} (c : nat -> nat) (objs : option (list A)) (i : nat) : option (list A) :=
  match objs with
  | None => None
  | Some objs =>
      let swap_idx := (c i + i)%nat in
      match nth_error objs swap_idx, nth_error objs i with
      | Some tmp, Some x => Some (set_nth (set_nth objs swap_idx x) i tmp)
      | _, _ => None
      end
  end.
Definition permute {A} (c : nat -> nat) (objs : list A) : option (list A) := fold_left (permute_step c) (seq 0 (length objs)) (Some objs).

(** std::pow(x, 1 / n) for x at least 0; also std::cbrt and std::sqrt (n = 3, 2). *)
Definition root (n : nat) (x : R) : R := if Req_EM_T x 0 then 0 else Rpower x (1 / INR n).
(** Random.cpp:258-265 and 287-294: rand(hi) and rand(lo, hi), from the result [x] of rand(). *)
Definition rand_below (hi x : R) : R := hi * x.
Definition rand_in (lo hi x : R) : R := (hi - lo) * x + lo.

Section Sampler.
Variable u : nat -> R.
(** RandomTools.h:136-139 and 165-167: one point of the cube, from the numbers at [k] and after. *)
Definition cube_point (N k : nat) : vec := fun i => if (i <? N)%nat then rand_in (-1) 1 (u (k + i)%nat) else 0.
(** RandomTools.h:162-170: solidball(); the point and the position in the stream after it.  [None] if [fuel] points were outside. *)
Fixpoint solidball (N fuel k : nat) : option (vec * nat) :=
  match fuel with
  | O => None
  | S fuel => let v := cube_point N k in if Rlt_dec 1 (mag2 N v) then solidball N fuel (k + N) else Some (v, (k + N)%nat)
  end.
(** RandomTools.h:133-143: unit(); [None] also for a division by zero. *)
Definition sample_unit (N fuel k : nat) : option vec := match solidball N fuel k with Some (v, _) => unit_vec N v | None => None end.
(** RandomTools.h:152-154. *)
Definition sample_unit_radius (N fuel k : nat) (radius : R) : option vec :=
  match sample_unit N fuel k with Some v => Some (vec_scale v radius) | None => None end.
(** RandomTools.h:180-181: the result, from a point [v] of the unit ball and the number [x]. *)
Definition ball_scaled (N : nat) (v : vec) (x radius : R) : vec := let r := root N x in vec_scale (vec_scale v r) radius.
(** RandomTools.h:179-182. *)
Definition solidball_radius (N fuel k : nat) (radius : R) : option vec :=
  match solidball N fuel (k + 1) with Some (v, _) => Some (ball_scaled N v (u k) radius) | None => None end.
(** RandomTools.h:194-197: [None] also for maxradius = 0. *)
Definition shell (N fuel k : nat) (minradius maxradius : R) : option vec :=
  match div_opt minradius maxradius with
  | None => None
  | Some q =>
      let radius := root N (rand_in q 1 (u k)) in
      match sample_unit N fuel (k + 1) with Some v => Some (vec_scale (vec_scale v radius) maxradius) | None => None end
  end.
(** RandomTools.h:204-210, 219-225 and 233-239; 311-318 and 386-390 (the order in which the arguments there are evaluated is unspecified: [k i] is the position used for coordinate [i]). *)
Definition sample_box (k : nat -> nat) : vec := fun i => u (k i).
Definition sample_box_in (lo hi : vec) (k : nat -> nat) : vec := fun i => rand_in (lo i) (hi i) (u (k i)).
Definition sample_rect (b : @rect R_ord) (k : nat -> nat) : vec := fun i => rand_in (lo b i) (hi b i) (u (k i)).
(** RandomTools.h:254-263. *)
Definition cap (half_angle : R) (k : nat) : v3 :=
  let min_h := cos half_angle in
  let h := rand_in min_h 1 (u k) in
  let r := sqrt (1 - h * h) in
  let theta := rand_below (2 * PI) (u (k + 1)%nat) in
  V3 (r * cos theta) (r * sin theta) h.
(** RandomTools.h:272-277. *)
Definition turn_to (dir v : v3) : v3 :=
  let axis := cross3 (V3 0 0 1) dir in
  if is_zero3 axis then v else rotate3 v axis (acos (vz dir / mag3 dir)).
Definition cap_about (dir : v3) (half_angle : R) (k : nat) : v3 := turn_to dir (cap half_angle k).
(** RandomTools.h:288-292. *)
Definition solidcap (dir : v3) (half_angle minR maxR : R) (k : nat) : option v3 :=
  match div_opt minR maxR with
  | None => None
  | Some q => let r := maxR * root 3 (rand_in q 1 (u k)) in Some (scale3 r (cap_about dir half_angle (k + 1)))
  end.
(** RandomTools.h:330-332 and 341-343. *)
Definition disk (fuel k : nat) : option vec := match solidball 2 fuel k with Some (v, _) => Some v | None => None end.
Definition disk_radius (fuel k : nat) (radius : R) : option vec := match solidball 2 fuel k with Some (v, _) => Some (vec_scale v radius) | None => None end.
(** RandomTools.h:299-306. *)
Definition oriented_disk (fuel k : nat) (normal : v3) (r : R) : option v3 :=
  match disk_radius fuel k r with
  | None => None
  | Some d => let d := resized 2 3 d in Some (turn_to normal (V3 (d 0%nat) (d 1%nat) (d 2%nat)))
  end.
(** RandomTools.h:356-359. *)
Definition arc (min_radians max_radians : R) (k : nat) : v2 :=
  let angle := rand_in min_radians max_radians (u k) in V2 (cos angle) (sin angle).
(** RandomTools.h:376-381. *)
Definition solidarc (min_radians max_radians min_radius max_radius : R) (k : nat) : option v2 :=
  let angle := rand_in min_radians max_radians (u k) in
  match div_opt min_radius max_radius with
  | None => None
  | Some q => let len := max_radius * sqrt (rand_in q 1 (u (k + 1)%nat)) in Some (from_polar (V2 len angle))
  end.
End Sampler.
