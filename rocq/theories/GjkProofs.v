From Coq Require Import Reals Arith Bool Lra Lia List.
From Verif Require Import Fld RFld PluModel OrthoModel PerlinSpec PerlinProofs VecNModel VecNSpec VecNProofs ShapeSpec ShapeProofs OrientedProofs SimplexModel SimplexSpec SimplexProofs
  SimplexProjModel SimplexProjSpec SimplexProjProofs GjkModel GjkSpec SphereModel.
From Verif Require SphereProofs.
Import ListNotations.
Open Scope R_scope.

Notation origin := (fun _ : nat => 0).
Lemma inner_origin_l N x : vinner N origin x = 0.
Proof. unfold VecNSpec.inner. rewrite (rsum_ext _ _ (fun _ => 0)); [apply rsum_zero|intros; ring]. Qed.
Lemma to_origin N x : vinner N (vec_sub origin x) (vec_sub origin x) = vinner N x x.
Proof. unfold vec_sub. vlin N. Qed.
Lemma dist_origin N x : distance N origin x * distance N origin x = vinner N x x.
Proof. rewrite distance_sq. exact (to_origin N x). Qed.
(** The closest point of a hull to the origin. *)
Lemma nearest_sq N X x y : is_nearest N X origin x -> X y -> vinner N x x <= vinner N y y.
Proof. intros (_ & H) Y. specialize (H y Y). apply (proj1 (le_sq _ _ (distance_nonneg _ _ _) (distance_nonneg _ _ _))) in H. now rewrite !dist_origin in H. Qed.
Lemma hull_convex N k pts : convex (hull N k pts).
Proof.
  intros a b t (w & W & Sw & P) (v & V & Sv & Q) T. exists (fun j => (1 - t) * w j + t * v j). split; [|split].
  - intros j J. specialize (W j J). specialize (V j J). nra.
  - rewrite rsum_plus, !rsum_scal, Sw, Sv. ring.
  - intros i L. rewrite (P i L), (Q i L), <- !rsum_scal, <- rsum_plus. apply rsum_ext. intros; ring.
Qed.
Lemma variational N X q x : convex X -> is_nearest N X origin q -> X x -> vinner N q q <= vinner N x q.
Proof.
  intros Cv H Xx. apply Rnot_lt_le. intros C. pose proof H as (Xq & _). set (e := vinner N q q - vinner N x q) in *.
  set (M := vinner N x x - 2 * vinner N x q + vinner N q q). assert (0 <= M) as M0 by (unfold M; rewrite <- sq_sub; apply inner_nonneg).
  assert (forall t, 0 <= t <= 1 -> 0 <= t * (t * M - 2 * e)) as G.
  { intros t T. pose proof (nearest_sq N X q _ H (Cv q x t Xq Xx T)) as D.
    replace (vinner N (fun i => (1 - t) * q i + t * x i) (fun i => (1 - t) * q i + t * x i)) with (vinner N q q + t * (t * M - 2 * e)) in D; [lra|].
    unfold M, e. symmetry. transitivity (vinner N (fun i => q i + t * (x i - q i)) (fun i => q i + t * (x i - q i))); [apply inner_ext; intros i _; ring|]. rewrite sq_add_mul, sq_sub.
    rewrite (inner_sym N q (fun i => x i - q i)), inner_sub_l. ring. }
  assert (0 < e) as E0 by (unfold e; lra). set (t := e / (M + e)). assert (0 < t) as T0 by (apply Rdiv_lt_0_compat; lra).
  assert (t * (M + e) = e) as Te by (unfold t; field; lra). assert (t <= 1) as T1. { apply (Rmult_le_reg_r (M + e)); lra. }
  specialize (G t ltac:(lra)). clearbody t. assert (t * M <= e) by (pose proof (Rmult_le_pos t e ltac:(lra) ltac:(lra)); lra).
  pose proof (Rmult_lt_0_compat t (2 * e - t * M) T0 ltac:(lra)). lra.
Qed.
Lemma rsum_zero_terms n f : (forall j, (j < n)%nat -> 0 <= f j) -> rsum n f = 0 -> forall j, (j < n)%nat -> f j = 0.
Proof.
  induction n as [|n IH]; intros P S j J; [lia|]. cbn in S. pose proof (rsum_nonneg n f ltac:(intros; apply P; lia)). pose proof (P n ltac:(lia)).
  destruct (Nat.eq_dec j n) as [->|]; [lra|]. apply IH; [intros; apply P; lia|lra|lia].
Qed.
(** Vertices with a positive weight are as far in the direction of the closest point as that point. *)
Lemma tight N k pts q w : (forall j, (j < k)%nat -> 0 <= w j) -> rsum k w = 1 -> same N q (fun i => rsum k (fun j => w j * pts j i)) -> is_nearest N (hull N k pts) origin q ->
  forall j, (j < k)%nat -> 0 < w j -> vinner N (pts j) q = vinner N q q.
Proof.
  intros W S P H j J Wj. pose proof (fun i I => variational N _ q (pts i) (hull_convex N k pts) H (hull_vertex N k pts i I)) as V.
  assert (w j * (vinner N (pts j) q - vinner N q q) = 0) as Z.
  { apply (rsum_zero_terms k (fun i => w i * (vinner N (pts i) q - vinner N q q))); [intros i I; apply Rmult_le_pos; [now apply W|specialize (V i I); lra]| |exact J].
    rewrite (rsum_ext _ _ (fun i => w i * vinner N (pts i) q + (- vinner N q q) * w i)) by (intros; ring). rewrite rsum_plus, rsum_scal, S, <- (hull_inner N k pts w q q P). ring. }
  apply Rmult_integral in Z as [Z|Z]; lra.
Qed.
(** In a search that skips the face opposite the last vertex, that vertex stays the last one of every face. *)
Lemma exclude_root N bigger f i sub : (i < f_n f)%nat -> face_exclude N bigger f i = Some sub -> f_n sub = (f_n f - 1)%nat /\ f_inc sub (f_n sub) = f_inc f (f_n f).
Proof.
  intros I. unfold face_exclude. destruct (Nat.ltb_spec i (f_n f)); [|lia]. destruct (0 <? f_n f - 1)%nat.
  - destruct (orthogonal_any _ _ _); [|discriminate]. intros X. injection X as <-. cbn [f_n f_inc]. rewrite Nat.eqb_refl. now split.
  - intros X. injection X as <-. cbn [f_n f_inc]. rewrite Nat.eqb_refl. now split.
Qed.
Definition rooted (c : nat) (r : presult) : Prop := pr_exists r = true -> f_inc (pr_face r) (f_n (pr_face r)) = c.
Lemma update_rooted c r d q f b : rooted c r -> f_inc f (f_n f) = c -> rooted c (pr_update r d q f b).
Proof. intros R F. unfold pr_update. destruct (_ || _)%bool; [intros _; exact F|exact R]. Qed.
Lemma fold_none {A : Type} (body : option A -> nat -> option A) l : (forall i, body None i = None) -> fold_left body l None = None.
Proof. intros H. induction l as [|x l IH]; [reflexivity|]. cbn. now rewrite H. Qed.
Lemma find_rooted N bigger clip s p c : forall fuel f to_p depth r b r', f_inc f (f_n f) = c -> rooted c r ->
  find_face N bigger clip true s p fuel f to_p depth r = Some (b, r') -> rooted c r'.
Proof.
  induction fuel as [|fuel IH]; intros f to_p depth r b r' F R H; [discriminate|]. cbn [find_face] in H.
  match type of H with (if ?c then _ else _) = _ => destruct c end.
  { injection H as _ <-. destruct (f_n f <? N)%nat; [now apply update_rooted|]. destruct clip; [|exact R]. apply update_rooted; [exact R|exact F]. }
  match type of H with (if ?c then _ else _) = _ => destruct c end.
  { now injection H as _ <-. }
  destruct (Nat.eqb_spec (f_n f) 0) as [E|E].
  { injection H as _ <-. now apply update_rooted. }
  match type of H with match ?t with _ => _ end = _ => destruct t as [[ai rm]|] eqn:Ef end; [|discriminate].
  assert (rooted c rm) as Rm.
  { clear H. rewrite Nat.add_0_r in Ef. assert (forall i, In i (seq 0 (f_n f)) -> (i < f_n f)%nat) as Hi by (intros i Hi; apply in_seq in Hi; lia).
    match type of Ef with fold_left ?F _ _ = _ => set (body := F) in Ef end. revert Ef Hi. generalize (seq 0 (f_n f)) as l. 
    assert (forall l a0 r0, rooted c r0 -> fold_left body l (Some (a0, r0)) = Some (ai, rm) -> (forall i, In i l -> (i < f_n f)%nat) -> rooted c rm) as G.
    { induction l as [|i l IHl]; intros a0 r0 R0 Ef Hi; cbn [fold_left] in Ef; [now injection Ef as _ <-|]. unfold body at 2 in Ef.
      destruct (face_exclude N bigger f i) as [sub|] eqn:Es; [|rewrite fold_none in Ef; [discriminate|reflexivity]].
      destruct (exclude_root N bigger f i sub (Hi i (or_introl eq_refl)) Es) as (_ & Fs). rewrite F in Fs. cbv zeta in Ef.
      destruct (Req_EM_T _ 0).
      - refine (IHl _ _ _ Ef _); [exact R0|intros j J; apply Hi; now right].
      - destruct (find_face N bigger clip true s p fuel sub (if (i =? f_n f)%nat then vec_sub to_p (f_bases f (i - 1)) else to_p) (depth + 1) r0) as [[ii r1]|] eqn:E1; [|rewrite fold_none in Ef; [discriminate|reflexivity]].
        refine (IHl _ _ _ Ef _); [|intros j J; apply Hi; now right]. exact (IH _ _ _ _ _ _ Fs R0 E1). }
    intros l. exact (G l true r R). }
  injection H as _ <-. destruct ai; [|exact Rm]. destruct (f_n f <? N)%nat; [now apply update_rooted|]. destruct clip; [|exact Rm]. apply update_rooted; [exact Rm|exact F].
Qed.
Lemma projection_rooted N bigger clip s p inc0 dmax r : (1 <= sx_n s)%nat -> projection N bigger clip true s p inc0 dmax = Some r -> rooted (sx_n s - 1) r.
Proof.
  intros L. unfold projection. destruct (face_of N bigger s _) as [f|] eqn:E; [|discriminate].
  assert (f_inc f (f_n f) = (sx_n s - 1)%nat) as F.
  { unfold face_of in E. destruct (_ && _)%bool; [destruct (nullspace_any _ _ _ _ _) as [[? ?]|]; [|discriminate]|]; now injection E as <-. }
  destruct (find_face _ _ _ _ _ _ _ _ _ _ _) as [[b r1]|] eqn:Ef; [|discriminate]. intros X. injection X as <-. refine (find_rooted _ _ _ _ _ _ _ _ _ _ _ _ _ F _ Ef). intros X. discriminate.
Qed.

(** Affine coordinates are unique. *)
Lemma coords_unique N k pts w v (x : vec) : affinely_independent N k pts -> rsum k w = 1 -> rsum k v = 1 -> same N x (fun i => rsum k (fun j => w j * pts j i)) ->
  same N x (fun i => rsum k (fun j => v j * pts j i)) -> forall j, (j < k)%nat -> w j = v j.
Proof.
  intros A Sw Sv P Q j J. enough (w j - v j = 0) by lra. apply (A (fun j => w j - v j)); [|intros i L|exact J].
  - rewrite (rsum_ext _ _ (fun j => w j + (-1) * v j)) by (intros; ring). rewrite rsum_plus, rsum_scal, Sw, Sv. ring.
  - rewrite (rsum_ext _ _ (fun j => w j * pts j i + (-1) * (v j * pts j i))) by (intros; ring). rewrite rsum_plus, rsum_scal. rewrite <- (P i L), <- (Q i L). ring.
Qed.
(** ** One iteration: a point [a] beyond the closest point [q] of a simplex has been added. *)
Section Step.
Variable N : nat.
Hypothesis LN : N = 2%nat \/ N = 3%nat.
Variable bigger : R_field -> R_field -> bool.
Variables (inc0 : nat -> nat) (dmax : R).
Variables (m : nat) (s : simplex) (q : vec).
Hypothesis Sn : sx_n s = S m.
Hypothesis Lm : (1 <= m <= N)%nat.
Hypothesis Ai : affinely_independent N m (sx_pts s).
Hypothesis Hq : hull N m (sx_pts s) q.
Hypothesis Tq : forall j, (j < m)%nat -> vinner N (sx_pts s j) q = vinner N q q.
Hypothesis Pq : 0 < vinner N q q.
Hypothesis Ha : vinner N (sx_pts s m) q <= 0.
Lemma step_independent : affinely_independent N (S m) (sx_pts s).
Proof.
  intros w S1 P. assert (w m = 0) as Wm.
  { assert (vinner N origin q = rsum (S m) (fun j => w j * vinner N (sx_pts s j) q)) as E by (apply hull_inner; intros i L; symmetry; now apply P).
    rewrite inner_origin_l in E. cbn [rsum] in E, S1. rewrite (rsum_ext m _ (fun j => vinner N q q * w j)) in E by (intros j J; rewrite (Tq j J); ring). rewrite rsum_scal in E.
    replace (rsum m w) with (- w m) in E by lra. assert (w m * (vinner N q q - vinner N (sx_pts s m) q) = 0) as Z by lra. apply Rmult_integral in Z as [Z|Z]; [exact Z|lra]. }
  intros j J. destruct (Nat.eq_dec j m) as [->|D]; [exact Wm|]. apply (Ai w); [cbn in S1; lra|intros i L|lia]. specialize (P i L). cbn in P. rewrite Wm in P. lra.
Qed.
Lemma step_ls : (1 <= sx_n s <= N + 1)%nat.
Proof. lia. Qed.
Lemma step_ai : affinely_independent N (sx_n s) (sx_pts s).
Proof. rewrite Sn. exact step_independent. Qed.
Lemma step_nearest : exists x mu, is_nearest N (hull N (S m) (sx_pts s)) origin x /\ (forall j, (j < S m)%nat -> 0 <= mu j) /\ rsum (S m) mu = 1 /\
  same N x (fun i => rsum (S m) (fun j => mu j * sx_pts s j i)) /\ 0 < mu m.
Proof.
  destruct (clip_ok N LN bigger s origin step_ai step_ls inc0 dmax) as (x & fc & _ & H & _). rewrite Sn in H. pose proof H as ((mu & W & S1 & P) & _).
  exists x, mu. split; [exact H|]. split; [exact W|]. split; [exact S1|]. split; [exact P|]. pose proof (W m ltac:(lia)) as Wm. destruct (Rle_lt_or_eq_dec _ _ Wm) as [|E]; [assumption|exfalso].
  assert (vinner N x q = vinner N q q) as Xq.
  { rewrite (hull_inner N (S m) (sx_pts s) mu x q P). cbn [rsum] in *. rewrite (rsum_ext m _ (fun j => vinner N q q * mu j)) by (intros j J; rewrite (Tq j J); ring). rewrite rsum_scal, <- E.
    replace (rsum m mu) with 1 by lra. ring. }
  assert (hull N (S m) (sx_pts s) q) as Hq'. { apply (hull_sub N m (S m) (sx_pts s) (fun j => j)); [lia|exact Hq]. }
  pose proof (nearest_sq N _ x q H Hq') as Le. assert (same N x q) as Sq.
  { pose proof (inner_nonneg N (fun i => x i - q i)) as Nn. rewrite sq_sub, Xq in Nn. assert (vinner N (fun i => x i - q i) (fun i => x i - q i) = 0) as Z by (rewrite sq_sub, Xq; lra).
    apply inner_zero in Z. intros i L. specialize (Z i L). cbv beta in Z. lra. }
  pose proof (variational N _ x (sx_pts s m) (hull_convex N (S m) (sx_pts s)) H (hull_vertex N (S m) (sx_pts s) m ltac:(lia))) as V.
  rewrite (inner_ext N x q x q Sq Sq), (inner_ext N (sx_pts s m) _ x q (same_refl N _) Sq) in V. lra.
Qed.
(** The closest point is also the closest one among combinations in which the weight of [a] is arbitrary. *)
Lemma step_wedge x mu y : is_nearest N (hull N (S m) (sx_pts s)) origin x -> (forall j, (j < S m)%nat -> 0 <= mu j) -> rsum (S m) mu = 1 ->
  same N x (fun i => rsum (S m) (fun j => mu j * sx_pts s j i)) -> 0 < mu m -> wedge N m (S m) (sx_pts s) y -> vinner N y y <= vinner N x x -> same N y x.
Proof.
  intros H W S1 P Pm (w & Wp & Sw & Y) Le. assert (vinner N x x <= vinner N y x) as G.
  { rewrite (hull_inner N (S m) (sx_pts s) w y x Y). cbn [rsum] in *. rewrite (tight N (S m) (sx_pts s) x mu W S1 P H m ltac:(lia) Pm).
    apply Rle_trans with (rsum m (fun j => w j * vinner N x x) + w m * vinner N x x).
    - rewrite (rsum_ext m _ (fun j => vinner N x x * w j)) by (intros; ring). rewrite rsum_scal. replace (rsum m w) with (1 - w m) by lra. lra.
    - apply Rplus_le_compat_r. apply rsum_le. intros j J. apply Rmult_le_compat_l; [now apply Wp|].
      apply (variational N _ x (sx_pts s j) (hull_convex N (S m) (sx_pts s)) H). apply hull_vertex. lia. }
  assert (vinner N (fun i => y i - x i) (fun i => y i - x i) = 0) as Z by (pose proof (inner_nonneg N (fun i => y i - x i)) as Nn; rewrite sq_sub in *; lra).
  apply inner_zero in Z. intros i L. specialize (Z i L). cbv beta in Z. lra.
Qed.
Lemma step_front r : projection N bigger true true s origin inc0 dmax = Some r -> front_ok N s origin true (whole_s N s true) r -> (forall x, whole_s N s true x -> covers N origin r x) ->
  sx_n (projected_face s r) = S (f_n (pr_face r)) /\ (f_n (pr_face r) < N)%nat /\ chosen_from (sx_n (projected_face s r)) (sx_pts (projected_face s r)) (sx_n s) (sx_pts s) /\
  inside_hull N (sx_n (projected_face s r)) (sx_pts (projected_face s r)) (pr_point r) /\ is_nearest N (hull N (S m) (sx_pts s)) origin (pr_point r) /\
  sx_pts (projected_face s r) (f_n (pr_face r)) = sx_pts s m /\
  (f_n (pr_face r) = (N - 1)%nat -> ~ all_zero N (normal_direction N s origin r)) /\ (f_n (pr_face r) = 0%nat -> same N (normal_direction N s origin r) (fun i => 0 - pr_point r i)) /\
  (~ same N origin (pr_point r) -> exists k, 0 < k /\ same N (normal_direction N s origin r) (fun i => k * (0 - pr_point r i))).
Proof.
  intros Er Fo Co. destruct (front_closest N s origin true _ r Fo (whole_some N LN s step_ls true) Co) as (Cl & _ & Fn & la & T & Q & Pl).
  destruct Cl as (Ex & Sf & D2 & _ & Wp & Min). destruct step_nearest as (x & mu & H & W & S1 & P & Pm).
  unfold whole_s, scnt in Wp, Min. rewrite Sn in Wp, Min. replace (S m - 1)%nat with m in Wp, Min by lia.
  assert (wedge N m (S m) (sx_pts s) x) as Wx by (exists mu; split; [intros j J; apply W; lia|now split]).
  assert (same N (pr_point r) x) as Sx.
  { apply (step_wedge x mu); try assumption. specialize (Min x Wx). rewrite D2 in Min. unfold d2 in Min. now rewrite !to_origin in Min. }
  pose proof (projection_rooted N bigger true s origin inc0 dmax r ltac:(lia) Er Ex) as Rt. rewrite Sn in Rt. replace (S m - 1)%nat with m in Rt by lia.
  set (f := pr_face r) in *. pose proof (sf_inc N s f Sf) as Inc. pose proof (sf_inj N s f Sf) as Inj. rewrite Sn in Inc.
  assert (forall j, (j < S (f_n f))%nat -> la j = mu (f_inc f j)) as Lmu.
  { intros j J. rewrite <- (push_at (S (f_n f)) (f_inc f) la j Inj J). apply (coords_unique N (S m) (sx_pts s) _ _ x step_independent); [|exact S1| |exact P|now apply Inc].
    - rewrite push_total by exact Inc. apply (ft_sum _ _ _ _ _ T).
    - intros i L. rewrite (push_sum (S (f_n f)) (S m) (f_inc f) la (fun j => sx_pts s j i) Inc). rewrite <- (Sx i L), (Q i L). reflexivity. }
  assert (forall j, (j < S (f_n f))%nat -> 0 < la j) as Pos.
  { intros j J. destruct (Nat.eq_dec j (f_n f)) as [->|Dj]; [rewrite Lmu, Rt by lia; exact Pm|]. apply Pl. unfold cnt. lia. }
  split; [exact (face_count N LN s step_ls r)|]. split; [exact Fn|]. split; [now apply (face_chosen N LN s step_ls)|]. split; [exact (face_inside N LN s origin step_ls r la T Q Pos)|].
  split; [|split; [|]].
  - split.
    + exists mu. split; [exact W|]. split; [exact S1|]. intros i L. now rewrite (Sx i L), (P i L).
    + intros y Y. rewrite (distance_ext N origin origin (pr_point r) x (same_refl N _) Sx). now apply H.
  - rewrite (face_pts N LN s step_ls) by (fold f; lia). fold f. unfold vtx. now rewrite Rt.
  - destruct (normal_ok N LN s origin step_ai step_ls r la Sf Fn T Q) as (A & _ & C). split; [exact A|]. split; [|exact C].
    fold f. intros E0 i L. unfold normal_direction. fold f. rewrite E0. destruct LN as [-> | ->]; reflexivity.
Qed.
Lemma step_ok : exists r, projection N bigger true true s origin inc0 dmax = Some r /\
  ((sx_n (projected_face s r) = (N + 1)%nat /\ all_zero N (normal_direction N s origin r) /\ hull N (S m) (sx_pts s) origin) \/
   ((sx_n (projected_face s r) <= N)%nat /\ (1 <= sx_n (projected_face s r))%nat /\ chosen_from (sx_n (projected_face s r)) (sx_pts (projected_face s r)) (sx_n s) (sx_pts s) /\
    inside_hull N (sx_n (projected_face s r)) (sx_pts (projected_face s r)) (pr_point r) /\ is_nearest N (hull N (S m) (sx_pts s)) origin (pr_point r) /\
    sx_pts (projected_face s r) (sx_n (projected_face s r) - 1)%nat = sx_pts s m /\
    (sx_n (projected_face s r) = 1%nat -> same N (normal_direction N s origin r) (fun i => 0 - pr_point r i)) /\
    (~ same N origin (pr_point r) -> exists k, 0 < k /\ same N (normal_direction N s origin r) (fun i => k * (0 - pr_point r i))))).
Proof.
  assert (forall r, projection N bigger true true s origin inc0 dmax = Some r -> front_ok N s origin true (whole_s N s true) r -> (forall x, whole_s N s true x -> covers N origin r x) ->
    ((sx_n (projected_face s r) <= N)%nat /\ (1 <= sx_n (projected_face s r))%nat /\ chosen_from (sx_n (projected_face s r)) (sx_pts (projected_face s r)) (sx_n s) (sx_pts s) /\
    inside_hull N (sx_n (projected_face s r)) (sx_pts (projected_face s r)) (pr_point r) /\ is_nearest N (hull N (S m) (sx_pts s)) origin (pr_point r) /\
    sx_pts (projected_face s r) (sx_n (projected_face s r) - 1)%nat = sx_pts s m /\
    (sx_n (projected_face s r) = 1%nat -> same N (normal_direction N s origin r) (fun i => 0 - pr_point r i)) /\
    (~ same N origin (pr_point r) -> exists k, 0 < k /\ same N (normal_direction N s origin r) (fun i => k * (0 - pr_point r i))))) as G.
  { intros r Er Fo Co. destruct (step_front r Er Fo Co) as (E & Fn & A & B & C & D & _ & F & G). split; [lia|]. split; [lia|]. split; [exact A|]. split; [exact B|]. split; [exact C|].
    split; [rewrite E; replace (S (f_n (pr_face r)) - 1)%nat with (f_n (pr_face r)) by lia; exact D|]. split; [intros X; apply F; lia|exact G]. }
  destruct (Nat.eq_dec m N) as [Em|Em].
  - destruct (full_clip N LN bigger s origin step_ai step_ls inc0 dmax true ltac:(lia)) as (r & Er & [(_ & Ep & _ & (w & W & S1 & P) & Sf & _ & Fn & Fi)|(_ & A & B)]).
    + exists r. split; [exact Er|]. left. rewrite (face_count N LN s step_ls). split; [lia|]. split.
      * intros i L. unfold normal_direction. rewrite Fn, Ep. destruct LN as [-> | ->]; cbn; unfold vec_sub; ring.
      * unfold scnt in W. rewrite Sn in W, S1, P. replace (S m - 1)%nat with m in W by lia. exists w. split; [|now split].
        assert (0 < w m) as Wm.
        { pose proof (hull_inner N (S m) (sx_pts s) w origin q P) as E. rewrite inner_origin_l in E. cbn [rsum] in E, S1.
          rewrite (rsum_ext m _ (fun j => vinner N q q * w j)) in E by (intros j J; rewrite (Tq j J); ring). rewrite rsum_scal in E. replace (rsum m w) with (1 - w m) in E by lra.
          apply Rnot_le_lt. intros C. pose proof (Rmult_le_pos (- w m) (vinner N q q - vinner N (sx_pts s m) q) ltac:(lra) ltac:(lra)). lra. }
        intros j J. destruct (Nat.eq_dec j m) as [->|]; [lra|]. apply Rlt_le, W. lia.
    + exists r. split; [exact Er|]. right. now apply G.
  - destruct (flat_projection N LN bigger s origin step_ai step_ls inc0 dmax true true ltac:(lia)) as (r & Er & A & B & _). exists r. split; [exact Er|]. right. now apply G.
Qed.
End Step.

(** ** The answer that the shapes are apart *)
Lemma support_difference N A B sa sb d a x y : supports_of N A sa -> supports_of N B sb -> difference_support sa sb d = Some a -> A x -> B y ->
  vinner N x d - vinner N y d <= vinner N a d.
Proof.
  intros (HA & _) (HB & _). unfold difference_support. destruct (sa d) as [x0|] eqn:Ex; [|discriminate]. destruct (sb (vec_neg d)) as [y0|] eqn:Ey; [|discriminate]. intros X Ax By. injection X as <-.
  pose proof (proj2 (HA _ _ Ex) x Ax) as H1. pose proof (proj2 (HB _ _ Ey) y By) as H2. unfold vec_neg in H2. rewrite !inner_opp_r in H2. unfold vec_sub. rewrite inner_sub_l. lra.
Qed.
Lemma support_in N A B sa sb d a : supports_of N A sa -> supports_of N B sb -> difference_support sa sb d = Some a -> exists x y, A x /\ B y /\ a = vec_sub x y.
Proof.
  intros (HA & _) (HB & _). unfold difference_support. destruct (sa d) as [x0|] eqn:Ex; [|discriminate]. destruct (sb (vec_neg d)) as [y0|] eqn:Ey; [|discriminate]. intros X. injection X as <-.
  exists x0, y0. split; [apply (HA _ _ Ex)|]. split; [apply (HB _ _ Ey)|reflexivity].
Qed.
Lemma support_some N A B sa sb d : supports_of N A sa -> supports_of N B sb -> ~ all_zero N d -> exists a, difference_support sa sb d = Some a.
Proof.
  intros (_ & HA) (_ & HB) Z. unfold difference_support. destruct (sa d) as [x0|] eqn:Ex; [|now apply HA in Ex]. destruct (sb (vec_neg d)) as [y0|] eqn:Ey; [now eexists|].
  exfalso. apply (HB (vec_neg d)); [|exact Ey]. intros H. apply Z. intros i L. specialize (H i L). unfold vec_neg in H. lra.
Qed.
Lemma miss_axis N (A B : region) d a : (forall x y, A x -> B y -> vinner N x d - vinner N y d <= vinner N a d) -> vinner N a d < 0 -> separates N (vec_neg (project_on N a d)) A B.
Proof.
  intros H K. assert (~ all_zero N d) as Zd. { intros Z. assert (vinner N a d = 0); [|lra]. unfold VecNSpec.inner. rewrite (rsum_ext _ _ (fun _ => 0)); [apply rsum_zero|]. intros i L. rewrite (Z i L). ring. }
  pose proof (inner_self_pos N d Zd) as Pd. unfold project_on. rewrite VecNProofs.mag2_is, VecNProofs.dot_is. destruct (Req_EM_T (vinner N d d) 0) as [E|_]; [lra|].
  set (k := vinner N a d) in *. set (m := vinner N d d) in *. set (v := vec_neg (fun i => d i * k / m)). assert (same N v (fun i => (- k / m) * d i)) as Ev by (intros i _; unfold v, vec_neg; field; lra).
  assert (0 < - k / m) as Pt by (apply Rdiv_lt_0_compat; lra). set (t := - k / m) in *. assert (t * m = - k) as Tm by (unfold t; field; lra). clearbody t.
  assert (forall x, vinner N x v = t * vinner N x d) as Xv. { intros x. rewrite (inner_ext N x x v _ (same_refl N x) Ev), inner_sym, inner_mul_l, inner_sym. reflexivity. }
  split.
  - intros Z. apply Zd. intros i L. specialize (Z i L). rewrite (Ev i L) in Z. apply Rmult_integral in Z as [Z|Z]; [lra|exact Z].
  - intros x y Ax By. specialize (H x y Ax By). rewrite length_sq, !Xv. rewrite (inner_sym N v d), Xv. fold m.
    pose proof (Rmult_le_compat_l t _ _ ltac:(lra) H). rewrite Tm. lra.
Qed.
Lemma loop_miss N bigger A B sa sb inc0 dmax : supports_of N A sa -> supports_of N B sb -> forall fuel max iters cur d axis deg res,
  gjk_loop N bigger sa sb inc0 dmax fuel max iters cur d axis deg = Some res -> gj_hit res = false -> separates N (gj_axis res) A B.
Proof.
  intros HA HB. induction fuel as [|fuel IH]; intros max iters cur d axis deg res E H; [discriminate|]. cbn [gjk_loop] in E. cbv zeta in E.
  destruct (difference_support sa sb d) as [a|] eqn:Ea; [|discriminate]. destruct (Rlt_dec (dot N a d) 0) as [K|K].
  - cbn [orb] in E. injection E as <-. cbn [gj_axis]. apply miss_axis; [|now rewrite <- VecNProofs.dot_is]. intros x y Ax By. exact (support_difference N A B sa sb d a x y HA HB Ea Ax By).
  - destruct (vec_eq N a _); cbn [orb] in E; [injection E as <-; discriminate|]. destruct (projection _ _ _ _ _ _ _ _) as [r|]; [|discriminate].
    destruct ((_ =? _)%nat || _)%bool; [injection E as <-; discriminate|]. destruct ((_ <? _)%nat || _)%bool; [injection E as <-; discriminate|]. exact (IH _ _ _ _ _ _ _ E H).
Qed.
Lemma query_miss N bigger A B sa sb inc0 dmax axis deg res : supports_of N A sa -> supports_of N B sb -> gjk_query N bigger sa sb inc0 dmax axis deg = Some res -> gj_hit res = false -> separates N (gj_axis res) A B.
Proof. intros HA HB. unfold gjk_query. destruct (difference_support sa sb axis); [|discriminate]. now apply loop_miss. Qed.
Lemma separates_apart N v A B : separates N v A B -> apart N A B.
Proof.
  intros (Z & H) x y Ax By E. specialize (H x y Ax By). rewrite (inner_ext N x y v v E (same_refl N v)) in H. rewrite length_sq in H. pose proof (inner_self_pos N v Z). lra.
Qed.
Lemma query_touching N bigger A B sa sb inc0 dmax axis deg res : supports_of N A sa -> supports_of N B sb -> ~ apart N A B -> gjk_query N bigger sa sb inc0 dmax axis deg = Some res -> gj_hit res = true.
Proof.
  intros HA HB T E. destruct (gj_hit res) eqn:H; [reflexivity|]. destruct T. exact (separates_apart N _ A B (query_miss N bigger A B sa sb inc0 dmax axis deg res HA HB E H)).
Qed.
(** ** Shapes that are apart *)
Lemma hull_in_convex N k pts (X : region) : convex X -> respects N X -> (forall j, (j < k)%nat -> X (pts j)) -> forall x, hull N k pts x -> X x.
Proof.
  intros Cv Rs. enough (forall w, (forall j, (j < k)%nat -> X (pts j)) -> (forall j, (j < k)%nat -> 0 <= w j) -> rsum k w = 1 -> X (fun i => rsum k (fun j => w j * pts j i))) as G.
  { intros Hp x (w & W & S1 & P). apply (Rs _ _ (same_sym N _ _ P)). now apply G. }
  induction k as [|k IH]; intros w Hp W S1; [cbn in S1; lra|]. pose proof (rsum_nonneg k w ltac:(intros; apply W; lia)) as Nn. pose proof (W k ltac:(lia)) as Wk. cbn in S1.
  destruct (Req_dec (rsum k w) 0) as [Z|Z].
  - apply (Rs (pts k)); [|apply Hp; lia]. intros i L. cbn. rewrite (rsum_ext k _ (fun _ => 0)); [rewrite rsum_zero; replace (w k) with 1 by lra; ring|].
    intros j J. rewrite (rsum_zero_terms k w ltac:(intros; apply W; lia) Z j J). ring.
  - set (t := rsum k w) in *. apply (Rs (fun i => (1 - w k) * (fun i => rsum k (fun j => (w j / t) * pts j i)) i + w k * pts k i)).
    + intros i L. cbn. rewrite <- rsum_scal. f_equal. apply rsum_ext. intros j J. replace (1 - w k) with t by lra. field. exact Z.
    + apply Cv; [|apply Hp; lia|lra]. apply IH; [intros; apply Hp; lia| |].
      * intros j J. apply Rmult_le_pos; [apply W; lia|]. apply Rlt_le, Rinv_0_lt_compat. lra.
      * rewrite (rsum_ext k _ (fun j => / t * w j)) by (intros; unfold Rdiv; ring). rewrite rsum_scal. fold t. field. exact Z.
Qed.
Lemma independent_ext N k pts pts' : (forall j, (j < k)%nat -> pts j = pts' j) -> affinely_independent N k pts -> affinely_independent N k pts'.
Proof.
  intros E A w S P j J. apply (A w S); [|exact J]. intros i L. rewrite <- (P i L). apply rsum_ext. intros x X. now rewrite E.
Qed.
Section Apart.
Variable N : nat.
Hypothesis LN : N = 2%nat \/ N = 3%nat.
Variable bigger : R_field -> R_field -> bool.
Variables (A B : region) (sa sb : vec -> option vec).
Hypotheses (HA : supports_of N A sa) (HB : supports_of N B sb) (CA : convex A) (CB : convex B) (Ap : apart N A B).
Variables (inc0 : nat -> nat -> nat) (dmax : R).
Definition minkowski : region := fun z => exists x y, A x /\ B y /\ same N z (vec_sub x y).
Lemma minkowski_convex : convex minkowski.
Proof.
  intros p q t (x & y & Ax & By & P) (x' & y' & Ax' & By' & Q) T. exists (fun i => (1 - t) * x i + t * x' i), (fun i => (1 - t) * y i + t * y' i).
  split; [now apply CA|]. split; [now apply CB|]. intros i L. rewrite (P i L), (Q i L). unfold vec_sub. ring.
Qed.
Lemma minkowski_respects : respects N minkowski.
Proof. intros p q E (x & y & Ax & By & P). exists x, y. split; [exact Ax|]. split; [exact By|]. intros i L. now rewrite <- (E i L), (P i L). Qed.
Lemma no_origin k pts x : (forall j, (j < k)%nat -> minkowski (pts j)) -> hull N k pts x -> ~ same N origin x.
Proof.
  intros Hp Hx E. destruct (hull_in_convex N k pts minkowski minkowski_convex minkowski_respects Hp x Hx) as (a & b & Aa & Bb & P). apply (Ap a b Aa Bb). intros i L. specialize (P i L). rewrite <- (E i L) in P. unfold vec_sub in P. lra.
Qed.
Definition gjk_inv (cur : simplex) (d : vec) : Prop := (1 <= sx_n cur <= N)%nat /\ affinely_independent N (sx_n cur) (sx_pts cur) /\ (forall j, (j < sx_n cur)%nat -> minkowski (sx_pts cur j)) /\
  exists q k, hull N (sx_n cur) (sx_pts cur) q /\ (forall j, (j < sx_n cur)%nat -> vinner N (sx_pts cur j) q = vinner N q q) /\ 0 < vinner N q q /\ 0 < k /\ same N d (fun i => k * (0 - q i)).
Lemma loop_apart max : forall fuel iters cur d axis deg, (iters + S fuel = S max)%nat -> gjk_inv cur d ->
  exists res, gjk_loop N bigger sa sb inc0 dmax (S fuel) max iters cur d axis deg = Some res /\ (gj_hit res = false \/ gj_iters res = S max).
Proof.
  induction fuel as [|fuel IH]; intros iters cur d axis deg Ef (Ln & Ai & Mk & q & k & Hq & Tq & Pq & Pk & Ed).
  all: assert (~ all_zero N d) as Zd
    by (intros Z; assert (vinner N q q = 0); [apply inner_zero; intros i L; specialize (Z i L); rewrite (Ed i L) in Z; apply Rmult_integral in Z as [Z|Z]; lra|lra]).
  all: destruct (support_some N A B sa sb d HA HB Zd) as (a & Ea); cbn [gjk_loop]; cbv zeta; rewrite Ea.
  all: assert (dot N a d = - k * vinner N a q) as Dk
    by (rewrite VecNProofs.dot_is, (inner_ext N a a d (fun i => (- k) * q i) (same_refl N a)), inner_sym, inner_mul_l, inner_sym; [ring|intros i L; rewrite (Ed i L); ring]).
  all: destruct (Rlt_dec (dot N a d) 0) as [K|K]; [cbn [orb]; eexists; split; [reflexivity|now left]|].
  all: assert (vinner N a q <= 0) as Aq by (apply Rnot_lt_le; intros C; pose proof (Rmult_lt_0_compat k _ Pk C); lra).
  all: destruct (vec_eq N a (sx_pts cur (sx_n cur - 1)%nat)) eqn:Ve;
    [exfalso; apply vec_eq_spec in Ve; pose proof (Tq (sx_n cur - 1)%nat ltac:(lia)) as Tl; rewrite <- (inner_ext N a _ q q Ve (same_refl N q)) in Tl; lra|cbn [orb]].
  all: set (s := simplex_insert N cur a); assert (sx_n s = S (sx_n cur)) as Sn by (unfold s, simplex_insert; destruct (Nat.ltb_spec (sx_n cur) (N + 1)); cbn; lia).
  all: assert (forall j, (j < sx_n cur)%nat -> sx_pts cur j = sx_pts s j) as Pj
    by (intros j J; unfold s, simplex_insert; destruct (Nat.ltb_spec (sx_n cur) (N + 1)); [cbn; destruct (Nat.eqb_spec j (sx_n cur)); [lia|reflexivity]|lia]).
  all: assert (sx_pts s (sx_n cur) = a) as Pa by (unfold s, simplex_insert; destruct (Nat.ltb_spec (sx_n cur) (N + 1)); [cbn; now rewrite Nat.eqb_refl|lia]).
  all: assert (hull N (sx_n cur) (sx_pts s) q) as Hq' by (apply (hull_ext N _ (sx_pts cur)); [intros j J; rewrite (Pj j J); apply same_refl|exact Hq]).
  all: assert (forall j, (j < S (sx_n cur))%nat -> minkowski (sx_pts s j)) as Mk'
    by (intros j J; destruct (Nat.eq_dec j (sx_n cur)) as [->|]; [rewrite Pa; destruct (support_in N A B sa sb d a HA HB Ea) as (x & y & Ax & By & ->); exists x, y; repeat split; assumption|rewrite <- Pj by lia; apply Mk; lia]).
  all: destruct (step_ok N LN bigger (inc0 (iters + 1)%nat) dmax (sx_n cur) s q Sn Ln) as (r & Er & [(_ & _ & Ho)|(Rn & R1 & Ch & In & Nr & _ & _ & Dir)]);
    [exact (independent_ext N _ _ _ Pj Ai)|exact Hq'|intros j J; rewrite <- (Pj j J); now apply Tq|exact Pq|rewrite Pa; exact Aq|exfalso; exact (no_origin _ _ _ Mk' Ho (same_refl N _))|].
  all: rewrite Er; pose proof (no_origin _ _ _ Mk' (proj1 Nr)) as Zq; destruct (Dir Zq) as (k' & Pk' & Ed'); set (next := projected_face s r) in *; set (d' := normal_direction N s origin r) in *.
  all: assert (0 < vinner N (pr_point r) (pr_point r)) as Pq' by (apply inner_self_pos; intros Z; apply Zq; intros i L; symmetry; now apply Z).
  all: assert (~ all_zero N d') as Zd' by (intros Z; apply Zq; intros i L; specialize (Z i L); rewrite (Ed' i L) in Z; apply Rmult_integral in Z as [Z|Z]; lra).
  all: destruct (Nat.eqb_spec (sx_n next) (N + 1)); [lia|]; destruct (is_zero N d') eqn:Iz; [apply is_zero_spec in Iz; contradiction|]; cbn [orb].
  - destruct (Nat.ltb_spec max (iters + 1)); [|lia]. cbn [orb]. eexists. split; [reflexivity|]. right. cbn. lia.
  - destruct (Nat.ltb_spec max (iters + 1)); [lia|]. cbn [orb]. rewrite VecNProofs.mag2_is. destruct (Req_EM_T (vinner N d' d') 0) as [Z|_]; [apply inner_zero in Z; contradiction|].
    apply IH; [lia|]. split; [lia|]. destruct Ch as (m & M1 & M2 & M3). split; [|split].
    + apply (independent_ext N _ (fun j => sx_pts s (m j))); [intros j J; symmetry; now apply M3|]. apply (affinely_sub N _ (sx_n s) (sx_pts s) m M1 M2). rewrite Sn.
      apply (step_independent N LN (sx_n cur) s q); try assumption; [exact (independent_ext N _ _ _ Pj Ai)|intros j J; rewrite <- (Pj j J); now apply Tq|now rewrite Pa].
    + intros j J. rewrite (M3 j J). apply Mk'. specialize (M1 j J). lia.
    + destruct In as (w & W & S1 & P). exists (pr_point r), k'. assert (hull N (sx_n next) (sx_pts next) (pr_point r)) as Hn by (exists w; split; [intros j J; now apply Rlt_le, W|now split]).
      split; [exact Hn|]. split; [|split; [exact Pq'|split; [exact Pk'|exact Ed']]].
      intros j J. apply (tight N (sx_n next) (sx_pts next) (pr_point r) w); [intros i I; now apply Rlt_le, W|exact S1|exact P| |exact J|now apply W].
      split; [exact Hn|]. intros y Y. apply Nr. rewrite <- Sn. apply (hull_sub N (sx_n next) (sx_n s) (sx_pts s) m y M1). apply (hull_ext N _ (sx_pts next)); [intros i I; rewrite (M3 i I); apply same_refl|exact Y].
Qed.
Lemma query_apart axis deg : ~ all_zero N axis -> exists res, gjk_query N bigger sa sb inc0 dmax axis deg = Some res /\ (gj_hit res = false \/ gj_iters res = S (gjk_max N)).
Proof.
  intros Z. unfold gjk_query. destruct (support_some N A B sa sb axis HA HB Z) as (a & Ea). rewrite Ea. apply loop_apart; [lia|].
  assert (simplex_insert N simplex_empty a = mkSimplex 1 (fun j => if (j =? 0)%nat then a else origin)) as -> by (unfold simplex_insert, simplex_empty; cbn [sx_n]; destruct (Nat.ltb_spec 0 (N + 1)); [reflexivity|lia]).
  destruct (support_in N A B sa sb axis a HA HB Ea) as (x & y & Ax & By & ->). unfold gjk_inv. cbn [sx_n sx_pts].
  split; [lia|]. split; [|split].
  - intros w S1 _ j J. cbn in S1. assert (j = 0)%nat as -> by lia. lra.
  - intros j J. assert (j = 0)%nat as -> by lia. exists x, y. repeat split; assumption.
  - exists (vec_sub x y), 1. split; [|split; [|split; [|split; [lra|]]]].
    + exists (fun _ => 1). split; [intros; lra|]. split; [cbn; lra|]. intros i _. cbn. ring.
    + intros j J. assert (j = 0)%nat as -> by lia. reflexivity.
    + apply inner_self_pos. intros Zx. apply (Ap x y Ax By). intros i L. specialize (Zx i L). unfold vec_sub in Zx. lra.
    + intros i L. unfold vec_neg. ring.
Qed.
End Apart.
(** ** The loop always ends with an answer, if the support functions give numbers. *)
Lemma exclude_some N bigger f i : N = 2%nat \/ N = 3%nat -> exists sub, face_exclude N bigger f i = Some sub /\ f_n sub = (f_n f - 1)%nat.
Proof.
  intros LN. unfold face_exclude. destruct (i <? f_n f)%nat; destruct (0 <? f_n f - 1)%nat; try (eexists; split; [reflexivity|reflexivity]).
  all: unfold orthogonal_any; destruct LN as [-> | ->]; cbn [Nat.eqb]; eexists; split; reflexivity.
Qed.
Lemma find_some N bigger clip skip s p : N = 2%nat \/ N = 3%nat -> forall fuel f to_p depth r, (f_n f < fuel)%nat -> exists o, find_face N bigger clip skip s p fuel f to_p depth r = Some o.
Proof.
  intros LN. induction fuel as [|fuel IH]; intros f to_p depth r L; [lia|]. cbn [find_face].
  match goal with |- exists o, (if ?c then _ else _) = _ => destruct c end; [now eexists|].
  match goal with |- exists o, (if ?c then _ else _) = _ => destruct c end; [now eexists|].
  destruct (Nat.eqb_spec (f_n f) 0) as [E|E]; [now eexists|].
  match goal with |- exists o, match ?t with _ => _ end = _ => assert (exists o, t = Some o) as ([ai rm] & ->) end; [|now eexists].
  match goal with |- exists o, fold_left ?F _ _ = _ => set (body := F) end. generalize (seq 0 (f_n f + (if skip then 0 else 1))) as l. 
  assert (forall l st, exists o, fold_left body l (Some st) = Some o) as G; [|intros l; apply G].
  induction l as [|i l IHl]; intros [ai0 r0]; cbn [fold_left]; [now eexists|]. unfold body at 2. destruct (exclude_some N bigger f i LN) as (sub & -> & Es). cbv zeta.
  destruct (Req_EM_T _ 0); [apply IHl|]. destruct (IH sub (if (i =? f_n f)%nat then vec_sub to_p (f_bases f (i - 1)) else to_p) (depth + 1)%nat r0 ltac:(lia)) as ([ii r1] & ->). apply IHl.
Qed.
Lemma projection_some N bigger clip skip s p inc0 dmax : N = 2%nat \/ N = 3%nat -> (1 <= sx_n s)%nat -> exists r, projection N bigger clip skip s p inc0 dmax = Some r.
Proof.
  intros LN Ls. unfold projection. assert (exists f, face_of N bigger s (2 <? sx_n s)%nat = Some f /\ f_n f = (sx_n s - 1)%nat) as (f & -> & En).
  { unfold face_of. destruct (Nat.ltb_spec (sx_n s - 1) N); destruct (Nat.ltb_spec 2 (sx_n s)); cbn [andb]; try (eexists; split; reflexivity).
    assert (N = 3 /\ sx_n s = 3)%nat as (-> & ->) by lia. cbn. eexists. split; reflexivity. }
  destruct (find_some N bigger clip skip s p LN (sx_n s) f (vec_sub p (sx_pts s (sx_n s - 1)%nat)) 0%nat (mkRes (mkFace 0 (fun _ _ => 0) inc0) false p dmax false false false) ltac:(lia)) as ([b r] & ->). now eexists.
Qed.
Lemma insert_pos N s a : (1 <= sx_n s)%nat -> (1 <= sx_n (simplex_insert N s a))%nat.
Proof. intros L. unfold simplex_insert. destruct (sx_n s <? N + 1)%nat; cbn; lia. Qed.
Lemma loop_some N bigger sa sb inc0 dmax max : N = 2%nat \/ N = 3%nat -> (forall d, difference_support sa sb d <> None) -> forall fuel iters cur d axis deg, (iters + S fuel = S max)%nat -> (1 <= sx_n cur)%nat ->
  exists res, gjk_loop N bigger sa sb inc0 dmax (S fuel) max iters cur d axis deg = Some res /\ (gj_iters res <= S max)%nat.
Proof.
  intros LN Ds. induction fuel as [|fuel IH]; intros iters cur d axis deg E L.
  all: cbn [gjk_loop]; cbv zeta; destruct (difference_support sa sb d) as [a|] eqn:Ea; [|now apply Ds in Ea].
  all: match goal with |- exists o, (if ?c then _ else _) = _ /\ _ => destruct c end; [eexists; split; [reflexivity|cbn; lia]|].
  all: destruct (projection_some N bigger true true (simplex_insert N cur a) origin (inc0 (iters + 1)%nat) dmax LN ltac:(now apply insert_pos)) as (r & ->).
  all: match goal with |- exists o, (if ?c then _ else _) = _ /\ _ => destruct c end; [eexists; split; [reflexivity|cbn; lia]|].
  - destruct (Nat.ltb_spec max (iters + 1)); [|lia]. cbn [orb]. eexists. split; [reflexivity|cbn; lia].
  - match goal with |- exists o, (if ?c then _ else _) = _ /\ _ => destruct c end; [eexists; split; [reflexivity|cbn; lia]|]. apply IH; [lia|].
    unfold projected_face, simplex_of. cbn. lia.
Qed.
Lemma query_some N bigger sa sb inc0 dmax axis deg : N = 2%nat \/ N = 3%nat -> (forall d, sa d <> None) -> (forall d, sb d <> None) ->
  exists res, gjk_query N bigger sa sb inc0 dmax axis deg = Some res /\ (gj_iters res <= S (gjk_max N))%nat.
Proof.
  intros LN Sa Sb. assert (forall d, difference_support sa sb d <> None) as Ds.
  { intros d. unfold difference_support. destruct (sa d) eqn:E; [|now apply Sa in E]. destruct (sb (vec_neg d)) eqn:E'; [discriminate|now apply Sb in E']. }
  unfold gjk_query. destruct (difference_support sa sb axis) as [a|] eqn:Ea; [|now apply Ds in Ea]. apply loop_some; [exact LN|exact Ds|lia|]. 
  unfold simplex_insert, simplex_empty. cbn [sx_n]. destruct (Nat.ltb_spec 0 (N + 1)); cbn; lia.
Qed.
(** ** Too many iterations *)
Lemma support_unique N s d j0 : (j0 < sx_n s)%nat -> (forall j, (j < sx_n s)%nat -> j <> j0 -> vinner N (sx_pts s j) d < vinner N (sx_pts s j0) d) -> simplex_support N s d = sx_pts s j0.
Proof.
  intros L H. pose proof (support_scan N s d (sx_n s - 1)) as Sc. cbv zeta in Sc. destruct Sc as (_ & (j & J & E) & _). unfold simplex_support.
  pose proof (support_vertex N s d ltac:(lia)) as (_ & S). specialize (S (sx_pts s j0) (hull_vertex N _ (sx_pts s) j0 L)). unfold simplex_support in S. rewrite E in *. 
  destruct (Nat.eq_dec j j0) as [->|D]; [reflexivity|]. specialize (H j ltac:(lia) D). lra.
Qed.
(** The closest point lies between the last two vertices. *)
Lemma edge_face N (LN : N = 2%nat \/ N = 3%nat) (s next : simplex) m (x n : vec) h b : sx_n s = S (S m) -> affinely_independent N (S (S m)) (sx_pts s) ->
  chosen_from (sx_n next) (sx_pts next) (sx_n s) (sx_pts s) -> (1 <= sx_n next)%nat -> inside_hull N (sx_n next) (sx_pts next) x -> is_nearest N (hull N (S (S m)) (sx_pts s)) origin x ->
  sx_pts next (sx_n next - 1)%nat = sx_pts s (S m) -> sx_pts s m <> sx_pts s (S m) ->
  0 < vinner N n n -> (forall j, (j < S (S m))%nat -> vinner N (sx_pts s j) n <= - h) -> 0 < b < 1 ->
  same N (fun i => - h / vinner N n n * n i) (fun i => (1 - b) * sx_pts s m i + b * sx_pts s (S m) i) -> 0 <= h ->
  sx_n next = 2%nat /\ sx_pts next 0%nat = sx_pts s m /\ sx_pts next 1%nat = sx_pts s (S m) /\ same N x (fun i => - h / vinner N n n * n i).
Proof.
  intros Sn Ai (c & C1 & C2 & C3) Ln (w & W & S1 & P) Nr Last Df Pn Hn Hb Ex Ph. set (x0 := fun i => - h / vinner N n n * n i) in *. set (nn := vinner N n n) in *.
  set (mu := fun j => if (j =? m)%nat then 1 - b else if (j =? S m)%nat then b else 0).
  assert (rsum (S (S m)) mu = 1) as Smu.
  { cbn [rsum]. unfold mu at 2 3. rewrite Nat.eqb_refl, Nat.eqb_refl. destruct (Nat.eqb_spec (S m) m); [lia|]. rewrite (rsum_ext m _ (fun _ => 0)); [rewrite rsum_zero; ring|].
    intros j J. unfold mu. destruct (Nat.eqb_spec j m); [lia|]. destruct (Nat.eqb_spec j (S m)); [lia|reflexivity]. }
  assert (same N x0 (fun i => rsum (S (S m)) (fun j => mu j * sx_pts s j i))) as X0.
  { intros i L. rewrite (Ex i L). cbn [rsum]. unfold mu at 2 3. rewrite Nat.eqb_refl, Nat.eqb_refl. destruct (Nat.eqb_spec (S m) m); [lia|]. rewrite (rsum_ext m _ (fun _ => 0)); [rewrite rsum_zero; ring|].
    intros j J. unfold mu. destruct (Nat.eqb_spec j m); [lia|]. destruct (Nat.eqb_spec j (S m)); [lia|ring]. }
  assert (hull N (S (S m)) (sx_pts s) x0) as Hx0. { exists mu. split; [|now split]. intros j J. unfold mu. destruct (j =? m)%nat; [lra|]. destruct (j =? S m)%nat; lra. }
  pose proof (hull_bound N (S (S m)) (sx_pts s) n (- h) Hn x (proj1 Nr)) as Xn. pose proof (nearest_sq N _ x x0 Nr Hx0) as Le.
  assert (same N x x0) as Sx.
  { assert (vinner N x0 x0 = h * h / nn) as E0. { unfold x0. rewrite inner_mul_l, inner_sym, inner_mul_l. fold nn. field. lra. }
    assert (vinner N x x0 = - h / nn * vinner N x n) as E1 by (unfold x0; rewrite inner_sym, inner_mul_l, inner_sym; reflexivity).
    assert (h / nn * vinner N x n <= - (h * h / nn)) as E2.
    { replace (- (h * h / nn)) with (h / nn * (- h)) by (field; lra). apply Rmult_le_compat_l; [|exact Xn]. apply Rmult_le_pos; [exact Ph|]. now apply Rlt_le, Rinv_0_lt_compat. }
    assert (vinner N (fun i => x i - x0 i) (fun i => x i - x0 i) = 0) as Z.
    { pose proof (inner_nonneg N (fun i => x i - x0 i)) as Nn. rewrite sq_sub in *. rewrite E1, E0 in *. replace (- h / nn * vinner N x n) with (- (h / nn * vinner N x n)) in * by (field; lra). lra. }
    apply inner_zero in Z. intros i L. specialize (Z i L). cbv beta in Z. lra. }
  rewrite Sn in C1.
  assert (forall j, (j < S (S m))%nat -> push (sx_n next) c w j = mu j) as Cu.
  { apply (coords_unique N (S (S m)) (sx_pts s) _ _ x Ai); [rewrite push_total; assumption|exact Smu| |].
    - intros i L. rewrite (push_sum (sx_n next) (S (S m)) c w (fun j => sx_pts s j i) C1), (P i L). apply rsum_ext. intros j J. now rewrite (C3 j J).
    - intros i L. now rewrite (Sx i L), (X0 i L). }
  assert (forall j, (j < sx_n next)%nat -> c j = m \/ c j = S m) as Cj.
  { intros j J. pose proof (Cu (c j) (C1 j J)) as E. rewrite (push_at _ _ _ _ C2 J) in E. specialize (W j J). unfold mu in E. destruct (Nat.eqb_spec (c j) m); [now left|]. destruct (Nat.eqb_spec (c j) (S m)); [now right|lra]. }
  assert (sx_n next <> 1)%nat as N1.
  { intros E. pose proof (Cu m ltac:(lia)) as Em. pose proof (Cu (S m) ltac:(lia)) as Es. unfold push, mu in Em, Es. rewrite E in Em, Es. cbn [rsum] in Em, Es. rewrite Nat.eqb_refl in Em, Es.
    destruct (Nat.eqb_spec (S m) m); [lia|]. destruct (Nat.eqb_spec (c 0%nat) m), (Nat.eqb_spec (c 0%nat) (S m)); lia || lra. }
  assert (sx_n next = 2)%nat as N2.
  { destruct (Nat.eq_dec (sx_n next) 2) as [|D]; [assumption|]. pose proof (Cj 0%nat ltac:(lia)). pose proof (Cj 1%nat ltac:(lia)). pose proof (Cj 2%nat ltac:(lia)).
    pose proof (C2 0%nat 1%nat ltac:(lia) ltac:(lia)). pose proof (C2 0%nat 2%nat ltac:(lia) ltac:(lia)). pose proof (C2 1%nat 2%nat ltac:(lia) ltac:(lia)). lia. }
  split; [exact N2|]. rewrite N2 in *. cbn [Nat.sub] in Last. rewrite (C3 1%nat ltac:(lia)) in Last.
  assert (c 1%nat = S m) as Cb. { destruct (Cj 1%nat ltac:(lia)) as [E|E]; [|exact E]. rewrite E in Last. contradiction. }
  assert (c 0%nat = m) as Ca. { destruct (Cj 0%nat ltac:(lia)) as [E|E]; [exact E|]. pose proof (C2 0%nat 1%nat ltac:(lia) ltac:(lia)). lia. }
  rewrite (C3 0%nat ltac:(lia)), (C3 1%nat ltac:(lia)), Ca, Cb. split; [reflexivity|]. split; [reflexivity|exact Sx].
Qed.
Section Zigzag.
Variable eps : R.
Hypothesis Pe : 0 < eps <= (1 / 4) ^ 11.
Variable bigger : R_field -> R_field -> bool.
Variables (inc0 : nat -> nat -> nat) (dmax : R).
Notation X j := ((- 1 / 2) ^ j).
Notation poly := (mkSimplex 12 (zigzag eps)).
Notation sa := (fun d => Some (simplex_support 2 poly d)).
Notation sb := (fun d => Some (simplex_support 2 (mkSimplex 1 (fun _ => origin)) d)).
Definition Zg (j : nat) : vec := vec_sub (zigzag eps j) origin.
Lemma inner2 a b : vinner 2 a b = a 0%nat * b 0%nat + a 1%nat * b 1%nat.
Proof. unfold VecNSpec.inner. cbn. ring. Qed.
Lemma quarter j : (1 / 4) ^ j = X j * X j.
Proof. rewrite <- Rpow_mult_distr. f_equal. field. Qed.
Lemma X_S j : X (S j) = - X j / 2.
Proof. cbn. field. Qed.
Lemma X_sq_pos j : 0 < X j * X j.
Proof. rewrite <- quarter. apply pow_lt. lra. Qed.
Lemma X_decr i j : (i < j)%nat -> X j * X j < X i * X i.
Proof. induction 1 as [|j L IH]; rewrite X_S; [pose proof (X_sq_pos i); lra|pose proof (X_sq_pos j); lra]. Qed.
Lemma X_inj i j : X i = X j -> i = j.
Proof. intros E. destruct (Nat.lt_trichotomy i j) as [L|[L|L]]; [|exact L|]; apply X_decr in L; rewrite E in L; lra. Qed.
Lemma eps_le j : (j <= 11)%nat -> eps <= X j * X j.
Proof. intros J. destruct (Nat.eq_dec j 11) as [->|D]; [rewrite <- quarter; lra|]. pose proof (X_decr j 11 ltac:(lia)) as L. rewrite <- (quarter 11) in L. lra. Qed.
Lemma X_sq_le j : X j * X j <= 1.
Proof. destruct j as [|j]; [cbn; lra|]. pose proof (X_decr 0 (S j) ltac:(lia)) as L. change (X 0) with 1 in L. lra. Qed.
Lemma Zg0 j : Zg j 0%nat = X j.
Proof. unfold Zg, vec_sub, zigzag, pt2. ring. Qed.
Lemma Zg1 j : Zg j 1%nat = - eps - X j * X j.
Proof. unfold Zg, vec_sub, zigzag, pt2. rewrite quarter. ring. Qed.
Lemma zig0 j : zigzag eps j 0%nat = X j.
Proof. reflexivity. Qed.
Lemma zig1 j : zigzag eps j 1%nat = - eps - X j * X j.
Proof. unfold zigzag, pt2. now rewrite quarter. Qed.
Lemma zig_difference d j : simplex_support 2 poly d = zigzag eps j -> difference_support sa sb d = Some (Zg j).
Proof. intros E. unfold difference_support. rewrite E. reflexivity. Qed.
Lemma zig_support d K j0 : (j0 < 12)%nat -> 0 < K -> d 0%nat = K * (2 * X j0) -> d 1%nat = K -> simplex_support 2 poly d = zigzag eps j0.
Proof.
  intros J P D0 D1. apply (support_unique 2 poly d j0 J). cbn [sx_n sx_pts]. intros j _ Dj. rewrite !inner2, !zig0, !zig1, D0, D1.
  assert (X j - X j0 <> 0) as Nz by (intros E; apply Dj, X_inj; lra). pose proof (Rmult_lt_0_compat K _ P (Rlt_0_sqr _ Nz)) as G. unfold Rsqr in G. lra.
Qed.
Lemma X_low j : (2 <= j)%nat -> - 1 / 8 <= X j.
Proof.
  intros L. destruct (Nat.eq_dec j 2) as [->|D]; [cbn; lra|]. destruct (Nat.eq_dec j 3) as [->|D']; [cbn; lra|]. pose proof (X_decr 3 j ltac:(lia)) as G. replace (X 3) with (- 1 / 8) in G by (cbn; lra). 
  apply Rnot_lt_le. intros C. pose proof (Rmult_lt_0_compat (- 1 / 8 - X j) (1 / 8 - X j) ltac:(lra) ltac:(lra)). lra.
Qed.
Lemma zig_first : simplex_support 2 poly (fun i => if (i =? 0)%nat then 1 else 0) = zigzag eps 0.
Proof.
  apply (support_unique 2 poly _ 0); cbn [sx_n sx_pts]; [lia|]. intros j _ Dj. rewrite !inner2, !zig0. cbn [Nat.eqb]. pose proof (X_decr 0 j ltac:(lia)) as L. replace (X 0) with 1 in * by reflexivity.
  assert (X j < 1); [|lra]. apply Rnot_le_lt. intros C. pose proof (Rmult_le_pos (X j - 1) (X j + 1) ltac:(lra) ltac:(lra)). lra.
Qed.
Lemma eps_small : eps < 1 / 16.
Proof. pose proof (X_decr 2 11 ltac:(lia)) as L. rewrite <- (quarter 11) in L. replace (X 2) with (1 / 4) in L by (cbn; lra). lra. Qed.
Lemma zig_second : simplex_support 2 poly (vec_neg (Zg 0)) = zigzag eps 1.
Proof.
  pose proof eps_small as Es. apply (support_unique 2 poly _ 1); cbn [sx_n sx_pts]; [lia|]. intros j _ Dj. rewrite !inner2, !zig0, !zig1. unfold vec_neg. rewrite Zg0, Zg1. replace (X 1) with (- 1 / 2) by (cbn; lra). replace (X 0) with 1 by reflexivity.
  pose proof (X_sq_pos j) as Sp. destruct (Nat.eq_dec j 0) as [->|D]; [cbn; lra|]. pose proof (X_low j ltac:(lia)) as Lo.
  pose proof (Rmult_lt_0_compat eps (X j * X j) ltac:(lra) Sp). pose proof (Rmult_lt_0_compat eps 1 ltac:(lra) ltac:(lra)). lra.
Qed.
Definition zig_cur (i : nat) (cur : simplex) (d : vec) : Prop := sx_n cur = 2%nat /\ sx_pts cur 0%nat = Zg i /\ sx_pts cur 1%nat = Zg (S i) /\
  exists q k, hull 2 2 (sx_pts cur) q /\ (forall j, (j < 2)%nat -> vinner 2 (sx_pts cur j) q = vinner 2 q q) /\ 0 < vinner 2 q q /\ 0 < k /\ same 2 d (fun i => k * (0 - q i)).
Lemma Zg_neq i j : i <> j -> Zg i <> Zg j.
Proof. intros D E. apply D, X_inj. now rewrite <- !Zg0, E. Qed.
Lemma pair_independent pts i j : i <> j -> pts 0%nat = Zg i -> pts 1%nat = Zg j -> affinely_independent 2 2 pts.
Proof.
  intros D E0 E1 w S P. pose proof (P 0%nat ltac:(lia)) as P0. cbn in S, P0. rewrite E0, E1, !Zg0 in P0. assert (X i - X j <> 0) as Nz by (intros E; apply D, X_inj; lra).
  assert (w 0%nat * (X i - X j) = 0) as Z. { replace (w 1%nat) with (- w 0%nat) in P0 by lra. lra. }
  apply Rmult_integral in Z as [Z|Z]; [|contradiction]. intros x L. assert (x = 0 \/ x = 1)%nat as [->| ->] by lia; lra.
Qed.
(** The direction found for the edge between two vertices. *)
Lemma edge_direction i cur d : zig_cur i cur d -> exists K, 0 < K /\ d 0%nat = K * (2 * X (S (S i))) /\ d 1%nat = K.
Proof.
  intros (_ & E0 & E1 & q & k & (w & W & Sw & Q) & T & Pq & Pk & Ed). pose proof (T 0%nat ltac:(lia)) as T0. pose proof (T 1%nat ltac:(lia)) as T1. rewrite E0, inner2, Zg0, Zg1 in T0. rewrite E1, inner2, Zg0, Zg1 in T1.
  rewrite !X_S in *. assert (q 1%nat < 0) as Q1.
  { rewrite (Q 1%nat ltac:(lia)). cbn. rewrite E0, E1, !Zg1, !X_S. cbn in Sw. pose proof (W 0%nat ltac:(lia)) as W0. pose proof (W 1%nat ltac:(lia)) as W1. pose proof (X_sq_pos i) as Xp.
    pose proof (Rmult_le_pos (w 0%nat) (X i * X i) W0 ltac:(lra)). pose proof (Rmult_le_pos (w 1%nat) (X i * X i) W1 ltac:(lra)). replace (w 0%nat) with (1 - w 1%nat) in * by lra. lra. }
  assert (X i <> 0) as Xn by (intros E; pose proof (X_sq_pos i) as Xp; rewrite E in Xp; lra).
  assert (q 0%nat = X i / 2 * q 1%nat) as Q0. { apply (Rmult_eq_reg_l (3 / 2 * X i)); [|lra]. lra. }
  exists (- (k * q 1%nat)). split; [pose proof (Rmult_lt_0_compat k (- q 1%nat) Pk ltac:(lra)); lra|]. rewrite (Ed 0%nat ltac:(lia)), (Ed 1%nat ltac:(lia)), Q0. split; field.
Qed.
(** One iteration, from a simplex [cur] whose last vertex is vertex [i] and its direction. *)
Lemma zig_step it i m cur q b h (n : vec) : sx_n cur = S m -> (m <= 1)%nat -> affinely_independent 2 (S m) (sx_pts cur) -> sx_pts cur m = Zg i ->
  hull 2 (S m) (sx_pts cur) q -> (forall j, (j < S m)%nat -> vinner 2 (sx_pts cur j) q = vinner 2 q q) -> 0 < vinner 2 q q -> vinner 2 (Zg (S i)) q <= 0 ->
  0 < vinner 2 n n -> (forall j, (j < S m)%nat -> vinner 2 (sx_pts cur j) n <= - h) -> vinner 2 (Zg (S i)) n <= - h -> 0 < b < 1 -> 0 < h ->
  same 2 (fun c => - h / vinner 2 n n * n c) (fun c => (1 - b) * Zg i c + b * Zg (S i) c) ->
  let s := simplex_insert 2 cur (Zg (S i)) in exists r, projection 2 bigger true true s origin (inc0 it) dmax = Some r /\ sx_n (projected_face s r) = 2%nat /\ zig_cur i (projected_face s r) (normal_direction 2 s origin r).
Proof.
  intros Sc Lm Ai Em Hq Tq Pq Aq Pn Hn Hb Pb Ph Ex s. assert (sx_n s = S (S m)) as Sn by (unfold s, simplex_insert; rewrite Sc; destruct (Nat.ltb_spec (S m) (2 + 1)); cbn; lia).
  assert (forall j, (j < S m)%nat -> sx_pts cur j = sx_pts s j) as Pj by (intros j J; unfold s, simplex_insert; rewrite Sc; destruct (Nat.ltb_spec (S m) (2 + 1)); [cbn [sx_pts]; destruct (Nat.eqb_spec j (S m)); [lia|reflexivity]|lia]).
  assert (sx_pts s (S m) = Zg (S i)) as Pa by (unfold s, simplex_insert; rewrite Sc; destruct (Nat.ltb_spec (S m) (2 + 1)); [cbn [sx_pts]; now rewrite Nat.eqb_refl|lia]).
  assert (affinely_independent 2 (S m) (sx_pts s)) as Ai' by exact (independent_ext 2 _ _ _ Pj Ai).
  assert (forall j, (j < S m)%nat -> vinner 2 (sx_pts s j) q = vinner 2 q q) as Tq' by (intros j J; rewrite <- (Pj j J); now apply Tq).
  assert (forall j, (j < S (S m))%nat -> vinner 2 (sx_pts s j) n <= - h) as Hn' by (intros j J; destruct (Nat.eq_dec j (S m)) as [->|]; [now rewrite Pa|rewrite <- Pj by lia; apply Hn; lia]).
  assert (vinner 2 (sx_pts s (S m)) q <= 0) as Aq' by now rewrite Pa.
  assert (forall x, hull 2 (S (S m)) (sx_pts s) x -> ~ same 2 origin x) as Zo.
  { intros x Hx E. pose proof (hull_bound 2 _ _ n (- h) Hn' x Hx) as G. rewrite <- (inner_ext 2 origin x n n E (same_refl 2 n)), inner_origin_l in G. lra. }
  destruct (step_ok 2 (or_introl eq_refl) bigger (inc0 it) dmax (S m) s q Sn ltac:(lia) Ai') as (r & Er & [(_ & _ & Ho)|(Rn & R1 & Ch & In & Nr & La & _ & Dir)]); try assumption.
  { apply (hull_ext 2 _ (sx_pts cur)); [intros j J; rewrite (Pj j J); apply same_refl|exact Hq]. }
  { destruct (Zo _ Ho (same_refl 2 _)). }
  exists r. split; [exact Er|]. destruct (edge_face 2 (or_introl eq_refl) s (projected_face s r) m (pr_point r) n h b Sn) as (N2 & F0 & F1 & Sx); try assumption.
  { apply (step_independent 2 (or_introl eq_refl) (S m) s q Sn ltac:(lia) Ai' Tq' Pq Aq'). }
  { rewrite Pa, <- (Pj m ltac:(lia)), Em. apply Zg_neq. lia. }
  { intros c Lc. rewrite Pa, <- (Pj m ltac:(lia)), Em. now apply Ex. }
  { lra. }
  split; [exact N2|]. split; [exact N2|]. rewrite F0, F1, Pa, <- (Pj m ltac:(lia)), Em. split; [reflexivity|]. split; [reflexivity|].
  pose proof (Zo _ (proj1 Nr)) as Zq. destruct (Dir Zq) as (k' & Pk' & Ed'). exists (pr_point r), k'. rewrite N2 in In. destruct In as (w & W & S1 & P).
  assert (hull 2 2 (sx_pts (projected_face s r)) (pr_point r)) as Hn2 by (exists w; split; [intros j J; now apply Rlt_le, W|now split]).
  split; [exact Hn2|]. split; [|split; [|split; [exact Pk'|exact Ed']]].
  - destruct Ch as (c & M1 & M2 & M3). rewrite N2 in M1, M3. intros j J. apply (tight 2 2 (sx_pts (projected_face s r)) (pr_point r) w); [intros x I; now apply Rlt_le, W|exact S1|exact P| |exact J|now apply W].
    split; [exact Hn2|]. intros y Y. apply Nr. rewrite <- Sn. apply (hull_sub 2 2 (sx_n s) (sx_pts s) c y M1). apply (hull_ext 2 _ (sx_pts (projected_face s r))); [intros x I; rewrite (M3 x I); apply same_refl|exact Y].
  - apply inner_self_pos. intros Z. apply Zq. intros x L. symmetry. now apply Z.
Qed.
Lemma zig_loop : forall fuel i cur d axis deg, (i + 1 + S fuel = 11)%nat -> zig_cur i cur d -> exists res, gjk_loop 2 bigger sa sb inc0 dmax (S fuel) 10 (i + 1) cur d axis deg = Some res /\ gj_hit res = true.
Proof.
  induction fuel as [|fuel IH]; intros i cur d axis deg Ef Zc.
  all: pose proof (edge_direction i cur d Zc) as (K & PK & D0 & D1); destruct Zc as (Nc & E0 & E1 & q & k & Hq & Tq & Pq & Pk & Ed).
  all: pose proof (zig_difference d (S (S i)) (zig_support d K (S (S i)) ltac:(lia) PK D0 D1)) as Ds.
  all: pose proof (X_sq_pos i) as Xp; pose proof (X_sq_le i) as Xl; pose proof eps_small as Es.
  all: assert (dot 2 (Zg (S (S i))) d = K * (X (S (S i)) * X (S (S i)) - eps)) as Dk by (rewrite VecNProofs.dot_is, inner2, Zg0, Zg1, D0, D1; ring).
  all: assert (0 <= dot 2 (Zg (S (S i))) d) as Dp by (rewrite Dk; apply Rmult_le_pos; [lra|pose proof (eps_le (S (S i)) ltac:(lia)); lra]).
  all: cbn [gjk_loop]; cbv zeta; rewrite Ds; destruct (Rlt_dec (dot 2 (Zg (S (S i))) d) 0) as [C|_]; [lra|].
  all: rewrite Nc; change (2 - 1)%nat with 1%nat; rewrite E1; destruct (vec_eq 2 (Zg (S (S i))) (Zg (S i))) eqn:Ve;
    [exfalso; apply vec_eq_spec in Ve; specialize (Ve 0%nat ltac:(lia)); rewrite !Zg0 in Ve; apply X_inj in Ve; lia|cbn [orb]].
  all: set (u := X i) in *; assert (X (S i) = - u / 2) as X1 by (rewrite X_S; reflexivity); assert (X (S (S i)) = u / 4) as X2 by (rewrite X_S, X1; field).
  all: set (n := fun c : nat => if (c =? 0)%nat then - u / 4 else 1); assert (vinner 2 n n = 1 + u * u / 16) as Nn by (rewrite inner2; unfold n; cbn [Nat.eqb]; field).
  all: assert (dot 2 (Zg (S (S i))) d = - k * vinner 2 (Zg (S (S i))) q) as Dq
    by (rewrite VecNProofs.dot_is, (inner_ext 2 (Zg (S (S i))) _ d (fun i => (- k) * q i) (same_refl 2 _)), inner_sym, inner_mul_l, inner_sym; [ring|intros c L; rewrite (Ed c L); ring]).
  all: assert (vinner 2 (Zg (S (S i))) q <= 0) as Aq by (apply Rnot_lt_le; intros C; pose proof (Rmult_lt_0_compat k _ Pk C); lra).
  all: set (h := eps + u * u / 8); set (g := h / (1 + u * u / 16)); assert (g * (1 + u * u / 16) = h) as Gh by (unfold g; field; lra).
  all: assert (0 < g) as Pg by (apply Rdiv_lt_0_compat; unfold h; lra); assert (g < 1) as Lg by (apply Rnot_le_lt; intros C; pose proof (Rmult_le_compat_r (1 + u * u / 16) 1 g ltac:(lra) C); unfold h in Gh; lra).
  all: destruct (zig_step (i + 1 + 1) (S i) 1 cur q (2 / 3 + g / 3) h n Nc ltac:(lia)) as (r & -> & N2 & Zc'); try assumption; try lra;
    [exact (pair_independent _ i (S i) ltac:(lia) E0 E1)|intros j J; assert (j = 0 \/ j = 1)%nat as [->| ->] by lia; rewrite ?E0, ?E1, inner2, Zg0, Zg1; unfold n, h; cbn [Nat.eqb]; fold u; rewrite ?X1; lra|
     rewrite inner2, Zg0, Zg1, X2; unfold n, h; cbn [Nat.eqb]; lra|unfold h; lra| |].
  1,3: intros c L; rewrite Nn; replace (- h / (1 + u * u / 16)) with (- g) by (unfold g; field; lra); assert (c = 0 \/ c = 1)%nat as [->| ->] by lia; unfold n; cbn [Nat.eqb]; rewrite ?Zg0, ?Zg1, X1, X2; [field|];
    clearbody g; unfold h in Gh; lra.
  all: match goal with |- context[(sx_n ?x =? ?y)%nat || _] => destruct (Nat.eqb_spec (sx_n x) y); [cbn in *; lia|] end; cbn [orb]; pose proof (edge_direction (S i) _ _ Zc') as (K' & PK' & D0' & D1').
  all: set (s := simplex_insert 2 cur (Zg (S (S i)))) in *; set (d' := normal_direction 2 s origin r) in *.
  all: destruct (is_zero 2 d') eqn:Iz; [apply is_zero_spec in Iz; specialize (Iz 1%nat ltac:(lia)); lra|].
  - destruct (Nat.ltb_spec 10 (i + 1 + 1)); [|lia]. cbn [orb]. eexists. split; reflexivity.
  - destruct (Nat.ltb_spec 10 (i + 1 + 1)); [lia|]. cbn [orb]. rewrite VecNProofs.mag2_is, inner2, D0', D1'. destruct (Req_EM_T _ 0) as [Z|_].
    + exfalso. pose proof (Rmult_lt_0_compat K' K' PK' PK'). pose proof (Rle_0_sqr (K' * (2 * X (S (S (S i)))))) as Sq. unfold Rsqr in Sq. lra.
    + replace (i + 1 + 1)%nat with (S i + 1)%nat by lia. apply IH; [lia|exact Zc'].
Qed.
Lemma zig_hit : gjk_intersects 2 bigger sa sb inc0 dmax = Some true.
Proof.
  unfold gjk_intersects, gjk_query. rewrite (zig_difference _ 0 zig_first). change (gjk_max 2) with 10%nat. pose proof eps_small as Es.
  assert (exists res, gjk_loop 2 bigger sa sb inc0 dmax 11 10 0 (simplex_insert 2 simplex_empty (Zg 0)) (vec_neg (Zg 0)) (fun i => if (i =? 0)%nat then 1 else 0) false = Some res /\ gj_hit res = true) as (res & -> & ->); [|reflexivity].
  set (fl := 10%nat) at 1. cbn [gjk_loop]. unfold fl; clear fl. cbv zeta. rewrite (zig_difference _ 1 zig_second). change (simplex_insert 2 simplex_empty (Zg 0)) with (mkSimplex 1 (fun j => if (j =? 0)%nat then Zg 0 else origin)).
  cbn [sx_n sx_pts Nat.sub Nat.eqb]. assert (dot 2 (Zg 1) (vec_neg (Zg 0)) = 1 / 2 - (1 + eps) * (eps + 1 / 4)) as Dk.
  { rewrite VecNProofs.dot_is, inner2. unfold vec_neg. rewrite !Zg0, !Zg1. cbn. field. }
  assert (0 <= dot 2 (Zg 1) (vec_neg (Zg 0))) as Dp. { rewrite Dk. pose proof (Rmult_lt_0_compat eps (1 / 16 - eps) ltac:(lra) ltac:(lra)). lra. }
  destruct (Rlt_dec _ 0) as [C|_]; [lra|]. destruct (vec_eq 2 (Zg 1) (Zg 0)) eqn:Ve; [exfalso; apply vec_eq_spec in Ve; specialize (Ve 0%nat ltac:(lia)); rewrite !Zg0 in Ve; cbn in Ve; lra|cbn [orb]].
  set (cur := mkSimplex 1 (fun j => if (j =? 0)%nat then Zg 0 else origin)). set (n := fun c : nat => if (c =? 0)%nat then 1 / 2 else 1).
  assert (vinner 2 n n = 5 / 4) as Nn by (rewrite inner2; unfold n; cbn [Nat.eqb]; field).
  assert (X 0 = 1) as X0 by reflexivity. assert (X 1 = - 1 / 2) as X1 by (cbn; field).
  destruct (zig_step (0 + 1) 0 0 cur (Zg 0) (2 / 3 + 4 / 15 * (eps + 1 / 2)) (eps + 1 / 2) n eq_refl ltac:(lia)) as (r & -> & N2 & Zc); try lra.
  - intros w S _ j J. cbn in S. assert (j = 0)%nat as -> by lia. lra.
  - reflexivity.
  - exact (hull_vertex 2 1 (sx_pts cur) 0 ltac:(lia)).
  - intros j J. assert (j = 0)%nat as -> by lia. reflexivity.
  - rewrite inner2, Zg0, Zg1, X0. pose proof (Rle_0_sqr (- eps - 1 * 1)) as Sq. unfold Rsqr in Sq. lra.
  - rewrite VecNProofs.dot_is, inner2 in Dp. unfold vec_neg in Dp. rewrite inner2. lra.
  - intros j J. assert (j = 0)%nat as -> by lia. unfold cur. cbn [sx_pts Nat.eqb]. rewrite inner2, Zg0, Zg1, X0. unfold n. cbn [Nat.eqb]. lra.
  - rewrite inner2, Zg0, Zg1, X1. unfold n. cbn [Nat.eqb]. lra.
  - intros c L. rewrite Nn. assert (c = 0 \/ c = 1)%nat as [->| ->] by lia; unfold n; cbn [Nat.eqb]; rewrite ?Zg0, ?Zg1, X0, X1; field.
  - match goal with |- context[(sx_n ?x =? ?y)%nat || _] => destruct (Nat.eqb_spec (sx_n x) y); [cbn in *; lia|] end. cbn [orb]. pose proof (edge_direction 0 _ _ Zc) as (K' & PK' & D0' & D1').
    set (s := simplex_insert 2 cur (Zg 1)) in *. set (d' := normal_direction 2 s origin r) in *.
    destruct (is_zero 2 d') eqn:Iz; [apply is_zero_spec in Iz; specialize (Iz 1%nat ltac:(lia)); lra|]. cbn [orb Nat.ltb Nat.leb]. rewrite VecNProofs.mag2_is, inner2, D0', D1'. destruct (Req_EM_T _ 0) as [Z|_].
    + exfalso. pose proof (Rmult_lt_0_compat K' K' PK' PK'). pose proof (Rle_0_sqr (K' * (2 * X 2))) as Sq. unfold Rsqr in Sq. lra.
    + apply (zig_loop 9 0); [reflexivity|exact Zc].
Qed.
Lemma zig_apart : apart 2 (hull 2 12 (zigzag eps)) (hull 2 1 (fun _ => origin)).
Proof.
  intros x y Hx (w & _ & S1 & Q) E. pose proof (hull_bound 2 12 (zigzag eps) (fun c => if (c =? 1)%nat then 1 else 0) (- eps)) as G. specialize (G ltac:(intros j _; rewrite inner2, zig1; cbn [Nat.eqb]; pose proof (X_sq_pos j); lra) x Hx).
  rewrite inner2 in G. cbn [Nat.eqb] in G. rewrite (E 1%nat ltac:(lia)), (Q 1%nat ltac:(lia)) in G. cbn in G. lra.
Qed.
End Zigzag.
(** ** Balls *)
Lemma sphere_supports N c r : 0 <= r -> supports_of N (ball N c r) (sphere_support N (mkSphere c r)).
Proof. intros P. split; [apply SphereProofs.support_ok; exact P|]. intros d Z E. apply SphereProofs.support_none in E. contradiction. Qed.
Lemma sphere_zero N c r d : 0 <= r -> all_zero N d -> sphere_support N (mkSphere c r) d = None.
Proof. intros P Z. now apply (SphereProofs.support_none N c r). Qed.
Lemma unit_x_length N : (1 <= N)%nat -> VecNModel.mag N (fun i => if (i =? 0)%nat then 1 else 0) = 1.
Proof. intros L. rewrite VecNProofs.mag_is. exact (length_axis N 0 L). Qed.
Lemma sphere_some N c r d : VecNModel.mag N d = 1 -> exists p, sphere_support N (mkSphere c r) d = Some p /\ forall i, p i = c i + d i * r.
Proof. intros M. unfold sphere_support, unit_vec, vec_div. rewrite M. destruct (Req_EM_T 1 0) as [E|_]; [lra|]. eexists. split; [reflexivity|]. intros i. unfold vec_add, vec_scale. cbn [s_center s_r]. field. Qed.
Lemma tangent N bigger inc0 dmax c r c' r' : (1 <= N)%nat -> 0 <= r -> 0 <= r' -> same N c' (fun i => c i + (if (i =? 0)%nat then r + r' else 0)) ->
  gjk_intersects N bigger (sphere_support N (mkSphere c r)) (sphere_support N (mkSphere c' r')) inc0 dmax = None.
Proof.
  intros LN P P' E. unfold gjk_intersects, gjk_query, difference_support.
  assert (VecNModel.mag N (vec_neg (fun i => if (i =? 0)%nat then 1 else 0)) = 1) as M'.
  { transitivity (VecNModel.mag N (fun i => if (i =? 0)%nat then 1 else 0)); [|now apply unit_x_length]. rewrite !VecNProofs.mag_is. apply eq_sq; [apply length_nonneg|apply length_nonneg|]. rewrite !length_sq. unfold vec_neg. rewrite inner_opp_l, inner_opp_r. ring. }
  destruct (sphere_some N c r _ (unit_x_length N LN)) as (p & -> & Ep). destruct (sphere_some N c' r' _ M') as (q & -> & Eq). cbn [gjk_loop]. cbv zeta. unfold difference_support. rewrite sphere_zero; [reflexivity|exact P|].
  intros i L. unfold vec_neg, vec_sub. rewrite Ep, Eq. unfold vec_neg. rewrite (E i L). destruct (i =? 0)%nat; ring.
Qed.
Lemma tangent_meet N c r c' r' : (1 <= N)%nat -> 0 <= r -> 0 <= r' -> same N c' (fun i => c i + (if (i =? 0)%nat then r + r' else 0)) -> ~ apart N (ball N c r) (ball N c' r').
Proof.
  intros LN P P' E A. set (p := fun i => c i + r * axis 0 i). apply (A p p); [| |apply same_refl].
  - unfold ball. rewrite distance_sym. unfold p. rewrite distance_along by now apply length_axis. rewrite Rabs_right; lra.
  - unfold ball. rewrite distance_sym. rewrite (distance_ext N c' c' p (fun i => c' i + (- r') * axis 0 i) (same_refl N _)).
    + rewrite distance_along by now apply length_axis. rewrite Rabs_left1; lra.
    + intros i L. unfold p, axis. rewrite (E i L). destruct (i =? 0)%nat; ring.
Qed.
Lemma unit2 x : x <> 0 -> exists u, unit_vec 2 (pt2 x 0) = Some u /\ u 0%nat = x / Rabs x /\ u 1%nat = 0.
Proof.
  intros X. unfold unit_vec, vec_div. rewrite VecNProofs.mag_is. assert (length 2 (pt2 x 0) = Rabs x) as ->.
  { apply eq_sq; [apply length_nonneg|apply Rabs_pos|]. rewrite length_sq, inner2, <- Rabs_mult, (Rabs_right (x * x)) by (pose proof (Rle_0_sqr x) as S; unfold Rsqr in S; lra). cbn. ring. }
  pose proof (Rabs_no_R0 x X). destruct (Req_EM_T (Rabs x) 0) as [E|_]; [lra|]. eexists. split; [reflexivity|]. cbn. split; [reflexivity|field; assumption].
Qed.
Lemma reuse bigger inc0 dmax : exists res, gjk_query 2 bigger (sphere_support 2 (mkSphere (pt2 1 0) 1)) (sphere_support 2 (mkSphere (pt2 0 0) 0)) inc0 dmax (pt2 1 0) false = Some res /\ gj_hit res = true /\ all_zero 2 (gj_axis res).
Proof.
  set (sa := sphere_support 2 (mkSphere (pt2 1 0) 1)). set (sb := sphere_support 2 (mkSphere (pt2 0 0) 0)).
  assert (forall d x, x <> 0 -> same 2 d (pt2 x 0) -> exists a, difference_support sa sb d = Some a /\ a 0%nat = 1 + x / Rabs x /\ a 1%nat = 0) as Ds.
  { intros d x X E. 
    assert (forall y e, y <> 0 -> same 2 e (pt2 y 0) -> exists u, unit_vec 2 e = Some u /\ u 0%nat = y / Rabs y /\ u 1%nat = 0) as Uv.
    { intros y e Y F. destruct (unit2 y Y) as (u & Eu & U0 & U1). unfold unit_vec, vec_div in *. rewrite VecNProofs.mag_is in *. rewrite <- (length_ext 2 e (pt2 y 0) F) in Eu. destruct (Req_EM_T _ 0); [discriminate|]. injection Eu as <-.
      eexists. split; [reflexivity|]. cbv beta in *. rewrite (F 0%nat), (F 1%nat) by lia. now split. }
    destruct (Uv x d X E) as (u & Eu & U0 & U1). destruct (Uv (- x) (vec_neg d) ltac:(lra)) as (v & Ev & V0 & V1).
    { intros i L. unfold vec_neg. rewrite (E i L). assert (i = 0 \/ i = 1)%nat as [->| ->] by lia; cbn; ring. }
    unfold difference_support, sa, sb, sphere_support. rewrite Eu, Ev. eexists. split; [reflexivity|]. unfold vec_sub, vec_add, vec_scale. cbn [s_center s_r]. rewrite U0, U1. cbn. split; ring. }
  unfold gjk_query. destruct (Ds (pt2 1 0) 1 ltac:(lra) (same_refl 2 _)) as (a & -> & A0 & A1). rewrite Rabs_right in A0 by lra. change (gjk_max 2) with 10%nat. set (fl := 10%nat) at 1. cbn [gjk_loop]. unfold fl; clear fl. cbv zeta.
  destruct (Ds (vec_neg a) (- 2) ltac:(lra)) as (b & -> & B0 & B1).
  { intros i L. unfold vec_neg. assert (i = 0 \/ i = 1)%nat as [->| ->] by lia; [rewrite A0|rewrite A1]; cbn; field. }
  rewrite Rabs_left in B0 by lra. assert (a 0%nat = 2) as A2 by (rewrite A0; field). assert (b 0%nat = 0) as Bz by (rewrite B0; field). clear A0 B0. rewrite VecNProofs.dot_is, inner2, Bz, B1. destruct (Rlt_dec _ 0) as [C|_]; [lra|].
  change (simplex_insert 2 simplex_empty a) with (mkSimplex 1 (fun j => if (j =? 0)%nat then a else origin)). cbn [sx_n sx_pts Nat.sub Nat.eqb].
  destruct (vec_eq 2 b a) eqn:Ve; [apply vec_eq_spec in Ve; specialize (Ve 0%nat ltac:(lia)); lra|]. cbn [orb].
  change (simplex_insert 2 (mkSimplex 1 (fun j => if (j =? 0)%nat then a else origin)) b) with (mkSimplex 2 (fun j => if (j =? 1)%nat then b else if (j =? 0)%nat then a else origin)).
  set (s := mkSimplex 2 (fun j => if (j =? 1)%nat then b else if (j =? 0)%nat then a else origin)).
  destruct (step_ok 2 (or_introl eq_refl) bigger (inc0 (0 + 1)%nat) dmax 1 s a eq_refl ltac:(lia)) as (r & -> & H).
  - intros w S _ j J. cbn in S. assert (j = 0)%nat as -> by lia. lra.
  - exact (hull_vertex 2 1 (sx_pts s) 0 ltac:(lia)).
  - intros j J. assert (j = 0)%nat as -> by lia. reflexivity.
  - rewrite inner2, A2, A1. lra.
  - unfold s. cbn [sx_pts Nat.eqb]. rewrite inner2, Bz, B1. lra.
  - assert (all_zero 2 (normal_direction 2 s origin r)) as Z.
    { destruct H as [(_ & Z & _)|(Rn & R1 & Ch & In & Nr & La & One & _)]; [exact Z|]. assert (same 2 (pr_point r) origin) as Po.
      { destruct Nr as (_ & Nr). specialize (Nr b (hull_vertex 2 2 (sx_pts s) 1 ltac:(lia))). pose proof (distance_nonneg 2 origin (pr_point r)) as Nn. apply (proj1 (le_sq _ _ Nn (distance_nonneg 2 _ _))) in Nr. rewrite !dist_origin, (inner2 b b), Bz, B1 in Nr.
        pose proof (VecNProofs.inner_nonneg 2 (pr_point r)) as Ip. assert (vinner 2 (pr_point r) (pr_point r) = 0) as I0 by lra. apply inner_zero in I0. exact I0. }
      assert (sx_n (projected_face s r) = 1%nat) as F1.
      { destruct (Nat.eq_dec (sx_n (projected_face s r)) 1) as [|F]; [assumption|exfalso]. assert (sx_n (projected_face s r) = 2%nat) as F2 by lia. rewrite F2 in *. destruct Ch as (c & M1 & M2 & M3). destruct In as (w & W & _ & P). specialize (P 0%nat ltac:(lia)). rewrite (Po 0%nat) in P by lia.
        pose proof (M1 0%nat ltac:(lia)) as C0. pose proof (M1 1%nat ltac:(lia)) as C1. pose proof (M2 0%nat 1%nat ltac:(lia) ltac:(lia)) as C2. cbn [sx_n s] in C0, C1. change (2 - 1)%nat with 1%nat in La. rewrite (M3 1%nat) in La by lia. assert (c 1%nat = 1)%nat as E1.
        { destruct (Nat.eq_dec (c 1%nat) 1) as [|E1]; [assumption|exfalso]. assert (c 1%nat = 0)%nat as E0 by lia. rewrite E0 in La. unfold s in La. cbn [sx_pts Nat.eqb] in La. rewrite La in A2. lra. }
        assert (c 0%nat = 0)%nat as E0 by lia.
        cbn [rsum] in P. rewrite (M3 0%nat), (M3 1%nat), E0, E1 in P by lia. cbn [s sx_pts Nat.eqb] in P. rewrite A2, Bz in P. specialize (W 0%nat ltac:(lia)). lra. }
      intros i L. rewrite (One F1 i L), (Po i L). ring. }
    rewrite (proj2 (is_zero_spec 2 _) Z). rewrite orb_true_r. eexists. split; [reflexivity|]. split; [reflexivity|exact Z].
Qed.
(** A query that starts from the zero axis. *)
Lemma query_zero N bigger c r sb inc0 dmax axis deg : 0 <= r -> all_zero N axis -> gjk_query N bigger (sphere_support N (mkSphere c r)) sb inc0 dmax axis deg = None.
Proof. intros P Z. unfold gjk_query, difference_support. now rewrite sphere_zero. Qed.
(** A query that ends in its first iteration without a hit. *)
Lemma loop_iters N bigger sa sb inc0 dmax : forall fuel max iters cur d axis deg res, gjk_loop N bigger sa sb inc0 dmax fuel max iters cur d axis deg = Some res -> (iters < gj_iters res)%nat.
Proof.
  induction fuel as [|fuel IH]; intros max iters cur d axis deg res E; [discriminate|]. cbn [gjk_loop] in E. cbv zeta in E. destruct (difference_support sa sb d) as [a|]; [|discriminate].
  destruct (_ || _)%bool; [injection E as <-; cbn; lia|]. destruct (projection _ _ _ _ _ _ _ _) as [r|]; [|discriminate].
  destruct ((_ =? _)%nat || _)%bool; [injection E as <-; cbn; lia|]. destruct ((_ <? _)%nat || _)%bool; [injection E as <-; cbn; lia|]. apply IH in E. lia.
Qed.
Lemma stale N bigger sa sb inc0 dmax axis deg res : gjk_query N bigger sa sb inc0 dmax axis deg = Some res -> gj_iters res = 1%nat -> gj_hit res = false -> gj_degenerate res = deg.
Proof.
  unfold gjk_query. destruct (difference_support sa sb axis) as [a|]; [|discriminate]. generalize (gjk_max N) at 1. intros fuel E I H. cbn [gjk_loop] in E. cbv zeta in E. destruct (difference_support sa sb (vec_neg a)) as [b|]; [|discriminate].
  destruct (_ || _)%bool; [injection E as <-; reflexivity|]. destruct (projection _ _ _ _ _ _ _ _) as [r|]; [|discriminate].
  destruct ((_ =? _)%nat || _)%bool; [injection E as <-; discriminate|]. destruct ((_ <? _)%nat || _)%bool; [injection E as <-; discriminate|]. apply loop_iters in E. lia.
Qed.
(** A first iteration that misses, whatever the flag. *)
Lemma point_miss bigger inc0 dmax deg : exists res, gjk_query 2 bigger (fun _ => Some (pt2 1 0)) (fun _ => Some (pt2 0 0)) inc0 dmax (pt2 1 0) deg = Some res /\ gj_iters res = 1%nat /\ gj_hit res = false.
Proof.
  unfold gjk_query, difference_support. cbn [gjk_loop]. cbv zeta. unfold difference_support. rewrite VecNProofs.dot_is, inner2. unfold vec_neg, vec_sub. cbn [pt2]. destruct (Rlt_dec _ 0) as [C|C]; [|exfalso; apply C; lra].
  cbn [orb]. eexists. split; [reflexivity|]. now split.
Qed.
Lemma point_supports N p : supports_of N (same N p) (fun _ => Some p).
Proof. split; [|discriminate]. intros d x [= <-]. split; [apply same_refl|]. intros y E. right. symmetry. exact (inner_ext N p y d d E (same_refl N d)). Qed.
