(** Expressions and programs over dual numbers, and what they compute over plain numbers. *)
From Coq Require Import Reals ZArith List Bool.
From Verif Require Import Vec3Model DualModel.
Import ListNotations.
Open Scope R_scope.

(** Expressions a user can write.  Scalars mix with duals on either side. *)
Inductive expr : Type :=
| EVar (i : nat) | EConst (c : R)
| EAdd (a b : expr) | EAddS (a : expr) (s : R) | ESAdd (s : R) (a : expr)
| ESub (a b : expr) | ESubS (a : expr) (s : R)
| EMul (a b : expr) | EMulS (a : expr) (s : R) | ESMul (s : R) (a : expr)
| EDiv (a b : expr) | EDivS (a : expr) (s : R) | ESDiv (s : R) (a : expr)
| ENeg (a : expr) | ESin (a : expr) | ECos (a : expr) | EAsin (a : expr) | EAcos (a : expr) | EAtan (a : expr) | EAtan2 (y x : expr)
| ELog (a : expr) | EPowS (a : expr) (e : R) | ESPow (b : R) (a : expr) | ESqrt (a : expr) | EAbs (a : expr)
| ECeil (a : expr) | EFloor (a : expr) | EMin (a b : expr) | EMax (a b : expr) | EFma (a b c : expr) | ESop (a b c d : expr).

(** The same expression over plain numbers. *)
Definition pow_r (b e : R) : R := if Req_EM_T (IZR (Int_part e)) e then powerRZ b (Int_part e) else Rpower b e.
Fixpoint sem (e : expr) (env : nat -> R) : R :=
  match e with
  | EVar i => env i | EConst c => c
  | EAdd a b => sem a env + sem b env | EAddS a s => sem a env + s | ESAdd s a => s + sem a env
  | ESub a b => sem a env - sem b env | ESubS a s => sem a env - s
  | EMul a b => sem a env * sem b env | EMulS a s => sem a env * s | ESMul s a => s * sem a env
  | EDiv a b => sem a env / sem b env | EDivS a s => sem a env / s | ESDiv s a => s / sem a env
  | ENeg a => - sem a env | ESin a => sin (sem a env) | ECos a => cos (sem a env)
  | EAsin a => asin (sem a env) | EAcos a => acos (sem a env) | EAtan a => atan (sem a env) | EAtan2 y x => atan2 (sem y env) (sem x env)
  | ELog a => ln (sem a env) | EPowS a e => pow_r (sem a env) e | ESPow b a => Rpower b (sem a env) | ESqrt a => sqrt (sem a env)
  | EAbs a => Rabs (sem a env) | ECeil a => ceil_f (sem a env) | EFloor a => floor_f (sem a env)
  | EMin a b => Rmin (sem a env) (sem b env) | EMax a b => Rmax (sem a env) (sem b env)
  | EFma a b c => sem a env * sem b env + sem c env
  | ESop a b c d => sem a env * sem b env + sem c env * sem d env
  end.
(** The expression evaluated with the library's duals under policy [P]; [None]: something was not a finite number. *)
Definition lift1 (f : dual -> option dual) (a : option dual) : option dual := obind a f.
Definition lift2 (f : dual -> dual -> option dual) (a b : option dual) : option dual := obind a (fun x => obind b (f x)).
Definition ret1 (f : dual -> dual) : dual -> option dual := fun a => Some (f a).
Definition ret2 (f : dual -> dual -> dual) : dual -> dual -> option dual := fun a b => Some (f a b).
Fixpoint deval (P : policy) (e : expr) (env : nat -> dual) : option dual :=
  match e with
  | EVar i => Some (env i) | EConst c => Some (of_const c)
  | EAdd a b => lift2 (ret2 dadd) (deval P a env) (deval P b env)
  | EAddS a s => lift1 (ret1 (fun x => dadd_s x s)) (deval P a env) | ESAdd s a => lift1 (ret1 (s_dadd s)) (deval P a env)
  | ESub a b => lift2 (ret2 dsub) (deval P a env) (deval P b env) | ESubS a s => lift1 (ret1 (fun x => dsub_s x s)) (deval P a env)
  | EMul a b => lift2 (ret2 dmul) (deval P a env) (deval P b env)
  | EMulS a s => lift1 (ret1 (fun x => dmul_s x s)) (deval P a env) | ESMul s a => lift1 (ret1 (s_dmul s)) (deval P a env)
  | EDiv a b => lift2 ddiv (deval P a env) (deval P b env)
  | EDivS a s => lift1 (fun x => ddiv_s x s) (deval P a env) | ESDiv s a => lift1 (s_ddiv s) (deval P a env)
  | ENeg a => lift1 (ret1 dneg) (deval P a env) | ESin a => lift1 (ret1 dsin) (deval P a env) | ECos a => lift1 (ret1 dcos) (deval P a env)
  | EAsin a => lift1 dasin (deval P a env) | EAcos a => lift1 dacos (deval P a env) | EAtan a => lift1 datan (deval P a env)
  | EAtan2 y x => lift2 datan2 (deval P y env) (deval P x env)
  | ELog a => lift1 dlog (deval P a env) | EPowS a e => lift1 (fun x => dpow_s x e) (deval P a env)
  | ESPow b a => lift1 (s_dpow P b) (deval P a env) | ESqrt a => lift1 dsqrt (deval P a env)
  | EAbs a => lift1 (dabs P) (deval P a env) | ECeil a => lift1 (dceil P) (deval P a env) | EFloor a => lift1 (dfloor P) (deval P a env)
  | EMin a b => lift2 (dmin P) (deval P a env) (deval P b env) | EMax a b => lift2 (dmax P) (deval P a env) (deval P b env)
  | EFma a b c => obind (deval P a env) (fun x => obind (deval P b env) (fun y => obind (deval P c env) (fun z => Some (dfma x y z))))
  | ESop a b c d => obind (deval P a env) (fun x => obind (deval P b env) (fun y => obind (deval P c env) (fun z => obind (deval P d env) (fun w => Some (dsum_of_products x y z w)))))
  end.
(** No kink is hit: |0|, equal arguments of min or max, rounding an integer, the branch cut of atan2; and the two functions
    that lose the value under a policy other than the default are not used under one. *)
Fixpoint smooth (P : policy) (e : expr) (env : nat -> R) : Prop :=
  match e with
  | EVar _ | EConst _ => True
  | EAdd a b | ESub a b | EMul a b | EDiv a b => smooth P a env /\ smooth P b env
  | EAddS a _ | ESAdd _ a | ESubS a _ | EMulS a _ | ESMul _ a | EDivS a _ | ESDiv _ a | ENeg a | ESin a | ECos a | EAsin a | EAcos a | EAtan a
  | ELog a | EPowS a _ | ESqrt a => smooth P a env
  | ESPow _ a => smooth P a env /\ P = PRight
  | EAtan2 y x => smooth P y env /\ smooth P x env /\ ~ (sem y env = 0 /\ sem x env <= 0)
  | EAbs a => smooth P a env /\ sem a env <> 0
  | ECeil a | EFloor a => smooth P a env /\ forall n, sem a env <> IZR n
  | EMin a b => smooth P a env /\ smooth P b env /\ sem a env <> sem b env
  | EMax a b => smooth P a env /\ smooth P b env /\ sem a env <> sem b env /\ P = PRight
  | EFma a b c => smooth P a env /\ smooth P b env /\ smooth P c env
  | ESop a b c d => smooth P a env /\ smooth P b env /\ smooth P c env /\ smooth P d env
  end.
(** A dual is the value and the derivative of a function at a point. *)
Definition tracks (f : R -> R) (t : R) (d : dual) : Prop := f t = px d /\ derivable_pt_lim f t (dx d).
(** One-sided derivatives. *)
Definition right_derivative (f : R -> R) (t l : R) : Prop :=
  forall eps, 0 < eps -> exists delta, 0 < delta /\ forall h, 0 < h < delta -> Rabs ((f (t + h) - f t) / h - l) < eps.
Definition left_derivative (f : R -> R) (t l : R) : Prop :=
  forall eps, 0 < eps -> exists delta, 0 < delta /\ forall h, - delta < h < 0 -> Rabs ((f (t + h) - f t) / h - l) < eps.

(** Programs: assignments and compound assignments between variables. *)
Inductive stmt : Type :=
| SSet (i : nat) (e : expr) | SConst (i : nat) (c : R) | SAdd (i j : nat) | SAddS (i : nat) (s : R) | SSub (i j : nat) | SSubS (i : nat) (s : R)
| SMul (i j : nat) | SDiv (i j : nat) | SDivS (i : nat) (s : R) | SIncr (i : nat) | SDecr (i : nat).
Definition puts {A} (st : nat -> A) (i : nat) (v : A) : nat -> A := fun k => if Nat.eqb k i then v else st k.
Definition run1 (st : nat -> R) (s : stmt) : nat -> R :=
  match s with
  | SSet i e => puts st i (sem e st) | SConst i c => puts st i c
  | SAdd i j => puts st i (st i + st j) | SAddS i s => puts st i (st i + s) | SSub i j => puts st i (st i - st j) | SSubS i s => puts st i (st i - s)
  | SMul i j => puts st i (st i * st j) | SDiv i j => puts st i (st i / st j) | SDivS i s => puts st i (st i / s)
  | SIncr i => puts st i (st i + 1) | SDecr i => puts st i (st i - 1)
  end.
Definition drun1 (P : policy) (st : store) (s : stmt) : option store :=
  match s with
  | SSet i e => obind (deval P e st) (fun d => Some (put st i d)) | SConst i c => Some (assign_const st i c)
  | SAdd i j => Some (add_assign st i j) | SAddS i s => Some (add_assign_s st i s) | SSub i j => Some (sub_assign st i j) | SSubS i s => Some (sub_assign_s st i s)
  | SMul i j => Some (mul_assign st i j) | SDiv i j => div_assign st i j | SDivS i s => div_assign_s st i s
  | SIncr i => Some (incr st i) | SDecr i => Some (decr st i)
  end.
Definition run (p : list stmt) (st : nat -> R) : nat -> R := fold_left run1 p st.
Fixpoint drun (P : policy) (p : list stmt) (st : store) : option store :=
  match p with [] => Some st | s :: p => obind (drun1 P st s) (drun P p) end.
(** Kink-free, and no variable is multiplied or divided by itself in place. *)
Definition smooth1 (P : policy) (s : stmt) (st : nat -> R) : Prop :=
  match s with SSet _ e => smooth P e st | SMul i j | SDiv i j => i <> j | _ => True end.
Fixpoint smooth_run (P : policy) (p : list stmt) (st : nat -> R) : Prop :=
  match p with [] => True | s :: p => smooth1 P s st /\ smooth_run P p (run1 st s) end.
(** The real operations of the expression are applied inside their domains of differentiability. *)
Fixpoint in_domain (e : expr) (env : nat -> R) : Prop :=
  match e with
  | EVar _ | EConst _ => True
  | EAdd a b | ESub a b | EMul a b | EMin a b | EMax a b => in_domain a env /\ in_domain b env
  | EAddS a _ | ESAdd _ a | ESubS a _ | EMulS a _ | ESMul _ a | ENeg a | ESin a | ECos a | EAtan a | EAbs a | ECeil a | EFloor a => in_domain a env
  | EDiv a b => in_domain a env /\ in_domain b env /\ sem b env <> 0
  | EDivS a s => in_domain a env /\ s <> 0
  | ESDiv _ a => in_domain a env /\ sem a env <> 0
  | EAsin a | EAcos a => in_domain a env /\ -1 < sem a env < 1
  | EAtan2 y x => in_domain y env /\ in_domain x env /\ ~ (sem y env = 0 /\ sem x env = 0)
  | ELog a | ESqrt a => in_domain a env /\ 0 < sem a env
  | EPowS a e => in_domain a env /\ (0 < sem a env \/ sem a env <> 0 /\ exists n, e = IZR n)
  | ESPow b a => in_domain a env /\ 0 < b
  | EFma a b c => in_domain a env /\ in_domain b env /\ in_domain c env
  | ESop a b c d => in_domain a env /\ in_domain b env /\ in_domain c env /\ in_domain d env
  end.
Definition in_domain1 (s : stmt) (st : nat -> R) : Prop :=
  match s with SSet _ e => in_domain e st | SDiv _ j => st j <> 0 | SDivS _ s => s <> 0 | _ => True end.
Fixpoint in_domain_run (p : list stmt) (st : nat -> R) : Prop :=
  match p with [] => True | s :: p => in_domain1 s st /\ in_domain_run p (run1 st s) end.
