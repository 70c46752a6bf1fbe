(** Model of geomc/shape/Intersect.h over exact reals.  [None] is a result that is not a number. *)
From Coq Require Import Reals Arith Bool.
From Verif Require Import Fld RFld VecNModel SimplexModel SimplexProjModel.
Open Scope R_scope.

(** What a query leaves behind (Intersect.h:22-28, 36-39, 43): its answer, separation_axis, iterations, was_degenerate and simplex(). *)
Record gjk_result : Type := mkGjk { gj_hit : bool; gj_axis : vec; gj_iters : nat; gj_degenerate : bool; gj_simplex : simplex }.
Section Gjk.
Variable N : nat.
Variable bigger : R_field -> R_field -> bool.
(** The support functions of the two shapes. *)
Variables sa sb : vec -> option vec.
(** Uninitialised memory of the projection in each iteration, and the largest number. *)
Variables (inc0 : nat -> nat -> nat) (dmax : R).
(** Intersect.h:50-51 and 61-62. *)
Definition difference_support (d : vec) : option vec :=
  match sa d, sb (vec_neg d) with Some x, Some y => Some (vec_sub x y) | _, _ => None end.
(** Intersect.h:59-96: the loop; [axis] and [degenerate] are the separation_axis and was_degenerate so far. *)
Fixpoint gjk_loop (fuel max iters : nat) (cur : simplex) (d axis : vec) (degenerate : bool) : option gjk_result :=
  match fuel with
  | O => None
  | S fuel =>
      let iters := (iters + 1)%nat in
      match difference_support d with
      | None => None
      | Some a =>
          let k := dot N a d in
          let miss := if Rlt_dec k 0 then true else false in
          if miss || vec_eq N a (sx_pts cur (sx_n cur - 1)%nat) then Some (mkGjk (negb miss) (vec_neg (project_on N a d)) iters degenerate cur)
          else
            let cur := simplex_insert N cur a in
            match projection N bigger true true cur (fun _ => 0) (inc0 iters) dmax with
            | None => None
            | Some r =>
                let d := normal_direction N cur (fun _ => 0) r in
                let next := projected_face cur r in
                if (sx_n next =? N + 1)%nat || is_zero N d then Some (mkGjk true d iters (pr_degenerate r) next)
                else if (max <? iters)%nat || (if Req_EM_T (mag2 N d) 0 then true else false) then Some (mkGjk true axis iters (pr_degenerate r) next)
                else gjk_loop fuel max iters next d axis (pr_degenerate r)
            end
      end
  end.
(** Intersect.h:21, for N at least 2. *)
Definition gjk_max : nat := (10 * 2 ^ (N - 2))%nat.
(** Intersect.h:45-97: intersects, starting from the stored separation_axis and was_degenerate. *)
Definition gjk_query (axis : vec) (degenerate : bool) : option gjk_result :=
  match difference_support axis with
  | None => None
  | Some a => gjk_loop (S gjk_max) gjk_max 0 (simplex_insert N simplex_empty a) (vec_neg a) axis degenerate
  end.
(** Intersect.h:102-109: a new Intersector starts from unit_x (Intersect.h:23, 27). *)
Definition gjk_intersects : option bool :=
  match gjk_query (fun i => if (i =? 0)%nat then 1 else 0) false with Some r => Some (gj_hit r) | None => None end.
End Gjk.
