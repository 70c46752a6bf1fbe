(** Model of geomc/shape/shapedetail/SimplexProject.h over exact reals, and of the functions of Simplex.h that use it.
    [None] is a division by zero on the way to a face normal, or running out of fuel. *)
From Coq Require Import List Reals Arith Bool.
From Verif Require Import Fld RFld PluModel OrthoModel VecNModel SimplexModel.
Import ListNotations.
Open Scope R_scope.

(** SimplexProject.h:19-21: a face of [f_n] + 1 vertices; its bases [spanning][nullspace][normal] and the indices of its vertices, its origin last. *)
Record face : Type := mkFace { f_n : nat; f_bases : nat -> vec; f_inc : nat -> nat }.
(** SimplexProject.h:187-224. *)
Record presult : Type := mkRes { pr_face : face; pr_exists : bool; pr_point : vec; pr_d2 : R; pr_degenerate : bool; pr_contains : bool; pr_backfacing : bool }.
Section Proj.
Variable N : nat.
Variable bigger : R_field -> R_field -> bool.
(** SimplexProject.h:27-39: for a simplex with a vertex. *)
Definition face_of (s : simplex) (compute_nullspace : bool) : option face :=
  let n := (sx_n s - 1)%nat in
  let b := fun i => if (i <? n)%nat then vec_sub (sx_pts s i) (sx_pts s n) else fun _ => 0 in
  if ((n <? N)%nat && compute_nullspace)%bool then
    match nullspace_any bigger N n (fun r c => b r c : R_field) (fun _ _ => 0 : R_field) with
    | None => None
    | Some (_, X) => Some (mkFace n (fun j => if (j <? n)%nat then b j else if (j <? N)%nat then fun i => X i (j - n)%nat else fun _ => 0) (fun j => j))
    end
  else Some (mkFace n b (fun j => j)).
(** SimplexProject.h:45-51. *)
Definition f_normal (f : face) : vec := f_bases f (N - 1)%nat.
(** SimplexProject.h:69-113: for a face that is not a vertex. *)
Definition face_exclude (f : face) (i : nat) : option face :=
  let n := f_n f in
  let on := (n - 1)%nat in
  let '(bases, inc, ejected) :=
    if (i <? n)%nat then
      (fun j => if (j =? n - 1)%nat then f_normal f else if (j =? i)%nat then f_bases f (n - 1)%nat else f_bases f j,
       fun j => if (j =? n - 1)%nat then f_inc f n else if (j =? i)%nat then f_inc f (n - 1)%nat else f_inc f j,
       f_bases f i)
    else
      (fun j => if (j <? on)%nat then vec_sub (f_bases f j) (f_bases f (n - 1)%nat) else if (j <? N - 1)%nat then f_bases f (j + 1)%nat else fun _ => 0,
       f_inc f,
       vec_neg (f_bases f (n - 1)%nat)) in
  if (0 <? on)%nat then
    match orthogonal_any bigger N (fun r c => bases r c : R_field) with
    | None => None
    | Some o =>
        let o := if Rlt_dec (dot N o ejected) 0 then o else vec_neg o in
        Some (mkFace on (fun j => if (j =? N - 1)%nat then o else bases j) inc)
    end
  else Some (mkFace on (fun j => if (j =? N - 1)%nat then vec_neg ejected else bases j) inc).
(** SimplexProject.h:129-183. *)
Definition project_to_face (s : simplex) (f : face) (point to_p : vec) : vec :=
  if (f_n f =? 0)%nat then sx_pts s (f_inc f 0%nat)
  else if (f_n f =? 1)%nat then vec_add (project_on N to_p (f_bases f 0%nat)) (sx_pts s (f_inc f 1%nat))
  else if ((2 <? N) && (f_n f =? N - 1))%nat then vec_sub point (project_on N to_p (f_normal f))
  else if (f_n f =? N)%nat then point
  else if (3 <? N)%nat then
    let n_null := (N - f_n f)%nat in
    let proj_null := (n_null <? f_n f)%nat in
    let proj_basis := if proj_null then fun j => f_bases f (f_n f + j)%nat else f_bases f in
    let proj_n := if proj_null then n_null else f_n f in
    let proj_basis := if ((sx_n s <? N + 1)%nat || negb proj_null)%bool then orthogonalize_any N proj_n proj_basis else proj_basis in
    let out := fold_left (fun out i => vec_add out (project_on N to_p (proj_basis i))) (seq 0 proj_n) (fun _ => 0) in
    let out := if proj_null then vec_sub to_p out else out in
    vec_add out (sx_pts s (f_inc f (f_n f)))
  else fun _ => 0.
(** SimplexProject.h:209-222. *)
Definition pr_update (r : presult) (d2 : R) (point : vec) (f : face) (back : bool) : presult :=
  if (negb (pr_exists r)) || ((if Rlt_dec d2 (pr_d2 r) then true else false) && implb back (pr_backfacing r)) || (negb back && pr_backfacing r)
  then mkRes f true point d2 (pr_degenerate r) (pr_contains r) back else r.
(** SimplexProject.h:118-126: [clip] for ProjectionOp::CLIP, [skip] for SKIP_BACKFACE. *)
Variables (clip skip : bool) (s : simplex) (p : vec).
(** SimplexProject.h:262-330: whether the point is interior to the face, and the result so far. *)
Fixpoint find_face (fuel : nat) (f : face) (to_p : vec) (depth : nat) (r : presult) : option (bool * presult) :=
  match fuel with
  | O => None
  | S fuel =>
      let back := ((0 <? depth)%nat && (if Rlt_dec (dot N (f_normal f) to_p) 0 then true else false))%bool in
      let finish (all_inside : bool) (r : presult) : bool * presult :=
        (back,
         if all_inside then
           if (f_n f <? N)%nat then
             let q := project_to_face s f p to_p in pr_update r (dist2 N p q) q f back
           else
             let r := mkRes (pr_face r) (pr_exists r) (pr_point r) (pr_d2 r) (pr_degenerate r) true (pr_backfacing r) in
             if clip then pr_update r 0 p f true else r
         else r) in
      if (back && negb clip && (depth =? 1)%nat && (f_n f =? N - 1)%nat)%bool then Some (finish true r)
      else if back then Some (true, r)
      else if (f_n f =? 0)%nat then Some (false, pr_update r (VecNModel.mag2 N to_p) (sx_pts s (f_inc f 0%nat)) f false)
      else
        match fold_left (fun (st : option (bool * presult)) i =>
                match st with
                | None => None
                | Some (all_inside, r) =>
                    match face_exclude f i with
                    | None => None
                    | Some sub =>
                        let to_sub := if (i =? f_n f)%nat then vec_sub to_p (f_bases f (i - 1)%nat) else to_p in
                        if Req_EM_T (VecNModel.mag2 N (f_normal sub)) 0
                        then Some (all_inside, mkRes (pr_face r) (pr_exists r) (pr_point r) (pr_d2 r) true (pr_contains r) (pr_backfacing r))
                        else
                          match find_face fuel sub to_sub (depth + 1) r with
                          | None => None
                          | Some (interior, r) => Some (all_inside && interior, r)
                          end
                    end
                end) (seq 0 (f_n f + (if skip then 0 else 1))) (Some (true, r)) with
        | None => None
        | Some (all_inside, r) => Some (finish all_inside r)
        end
  end.
(** SimplexProject.h:235-249, for a simplex with a vertex; [inc0] and [dmax] are the indices and distance before any face is found. *)
Variables (inc0 : nat -> nat) (dmax : R).
Definition projection : option presult :=
  match face_of s (2 <? sx_n s)%nat with
  | None => None
  | Some f => match find_face (sx_n s) f (vec_sub p (sx_pts s (sx_n s - 1)%nat)) 0 (mkRes (mkFace 0 (fun _ _ => 0) inc0) false p dmax false false false) with
              | None => None
              | Some (_, r) => Some r
              end
  end.
(** SimplexProject.h:340-365: normal_direction. *)
Definition normal_direction (r : presult) : vec :=
  let f := pr_face r in
  let to_p := vec_sub p (sx_pts s (f_inc f (f_n f))) in
  if (f_n f =? 1)%nat then
    let v := f_bases f 0%nat in
    if (N =? 3)%nat then
      let c := orthogonal3 (K := R_field) (fun j => if (j =? 0)%nat then v else to_p) in
      orthogonal3 (K := R_field) (fun j => if (j =? 0)%nat then c else v)
    else if (N =? 2)%nat then
      let d : vec := fun i => if (i =? 0)%nat then v 1%nat else - v 0%nat in
      if Rlt_dec (dot N d to_p) 0 then vec_neg d else d
    else vec_sub p (pr_point r)
  else if ((2 <? N) && (f_n f =? N - 1))%nat then
    let normal := f_bases f (f_n f) in
    if Rlt_dec (dot N normal to_p) 0 then vec_neg normal else normal
  else vec_sub p (pr_point r).
(** SimplexProject.h:370-377: projected_face. *)
Definition projected_face (r : presult) : simplex :=
  let f := pr_face r in simplex_of (fun j => sx_pts s (f_inc f j)) (f_n f + 1).
End Proj.
(** Simplex.h:495-503: clip, and the face. *)
Definition simplex_clip N bigger s p inc0 dmax : option (vec * simplex) :=
  match projection N bigger true false s p inc0 dmax with Some r => Some (pr_point r, projected_face s r) | None => None end.
(** Simplex.h:471-479: project, and the face. *)
Definition simplex_project N bigger s p inc0 dmax : option (vec * simplex) :=
  match projection N bigger false false s p inc0 dmax with Some r => Some (pr_point r, projected_face s r) | None => None end.
(** Simplex.h:451-459: sdf, and the normal. *)
Definition simplex_sdf N bigger s p inc0 dmax : option (R * vec) :=
  match projection N bigger false false s p inc0 dmax with
  | Some r => Some (sqrt (pr_d2 r) * (if pr_contains r then -1 else 1), normal_direction N s p r)
  | None => None
  end.
(** Simplex.h:461-468: normal. *)
Definition simplex_normal N bigger s p inc0 dmax : option vec :=
  match projection N bigger false false s p inc0 dmax with Some r => Some (normal_direction N s p r) | None => None end.
