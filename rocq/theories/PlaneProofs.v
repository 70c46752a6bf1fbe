From Coq Require Import Reals Arith Lra Lia List Bool.
From Verif Require Import PerlinSpec PerlinProofs VecNModel VecNSpec VecNProofs Fld RFld LinSpec OrthoModel OrthoProps AffineModel AffineSpec AffineProofs
  ShapeSpec ShapeProofs SphereModel SphereProofs PlaneModel.
Open Scope R_scope.
Notation inner := VecNSpec.inner.
Notation length := VecNSpec.length.

(** Sums over the record of real numbers. *)
Lemma sum_R N (f : nat -> R) : @sum R_field N f = rsum N f.
Proof. induction N as [|N IH]; [reflexivity|]. cbn [sum rsum]. now rewrite IH. Qed.
Lemma inner_R N (a b : nat -> R) : AffineSpec.inner (K := R_field) N a b = inner N a b.
Proof. unfold AffineSpec.inner, inner. now rewrite <- sum_R. Qed.

Lemma unit_same N n u : unit_vec N n = Some u -> length N u = 1 /\ 0 < length N n /\ same N n (fun i => length N n * u i).
Proof.
  intros E. destruct (unit_length N n u E) as [U H]. apply unit_some in E as [Z _]. pose proof (length_nonneg N n). repeat split; try assumption. lra.
Qed.
Lemma inner_zeros N a : inner N a (fun _ => 0) = 0.
Proof. vlin N. Qed.
Lemma unit_inner N u : length N u = 1 -> inner N u u = 1.
Proof. intros H. rewrite <- length_sq, H. ring. Qed.

Lemma through_ok N n pt pl : plane_through N n pt = Some pl -> length N (pl_n pl) = 1 /\
  forall p, (plane_set N (pl_n pl) (pl_d pl) p <-> on_plane N n pt p) /\ (half_space N (pl_n pl) (pl_d pl) p <-> behind_plane N n pt p).
Proof.
  unfold plane_through. destruct (unit_vec N n) as [u|] eqn:E; [|discriminate]. intros [= <-]. cbn. destruct (unit_same N n u E) as (U & P & S).
  split; [exact U|]. intros p. unfold plane_set, half_space, on_plane, behind_plane. rewrite dot_is.
  assert (inner N (fun i => p i - pt i) n = length N n * (inner N u p + - inner N pt u)) as ->.
  { rewrite (inner_ext N _ (fun i => p i - pt i) n _ (same_refl _ _) S), inner_sym, inner_mul_l, inner_sym, inner_sub_l, (inner_sym N u p). ring. }
  split; split; intros H; nra.
Qed.
Lemma through_none N n pt : plane_through N n pt = None <-> all_zero N n.
Proof. unfold plane_through. rewrite <- unit_none. destruct (unit_vec N n); split; easy. Qed.

(** The plane of N points. *)
Lemma basis_on N n p0 (pl : plane) (q : nat -> R) : plane_through N n p0 = Some pl -> inner N (vec_sub q p0) n = 0 -> plane_set N (pl_n pl) (pl_d pl) q.
Proof. intros E H. apply (through_ok N n p0 pl E). exact H. Qed.
Lemma simplex_points N n (points : nat -> vec) pl : plane_through N n (points 0%nat) = Some pl ->
  (forall j, (j < N - 1)%nat -> @sum R_field N (fun c => @fmul R_field (vec_sub (points (S j)) (points 0%nat) c) (n c)) = 0) ->
  forall j, (j < N)%nat -> plane_set N (pl_n pl) (pl_d pl) (points j).
Proof.
  intros E H j L. apply (through_ok N n _ pl E). unfold on_plane. destruct j as [|j].
  - unfold inner. rewrite <- (rsum_zero N). apply rsum_ext. intros. ring.
  - specialize (H j ltac:(lia)). rewrite sum_R in H. exact H.
Qed.

Section P.
Variables (N : nat) (n : vec) (d : R).
Hypothesis U : length N n = 1.
Notation pl := (mkPlane n d).
Lemma NP : (0 < N)%nat.
Proof. destruct N; [|lia]. exfalso. unfold length, inner in U. cbn in U. rewrite sqrt_0 in U. lra. Qed.
Lemma UU : inner N n n = 1.
Proof. exact (unit_inner N n U). Qed.
Lemma distance_is p : plane_distance N pl p = inner N n p + d.
Proof. unfold plane_distance. now rewrite dot_is. Qed.
(** Any point of the plane is at least the signed distance away. *)
Lemma plane_far p q : plane_set N n d q -> Rabs (inner N n p + d) <= distance N p q.
Proof.
  intros Q. unfold plane_set in Q. pose proof (cauchy N (fun i => p i - q i) n) as C. rewrite inner_sub_l, U in C.
  fold (distance N p q) in C. rewrite (inner_sym N p n), (inner_sym N q n) in C. replace (inner N n p + d) with (inner N n p - inner N n q) by lra. lra.
Qed.
Lemma foot_is p : same N (plane_project N pl p) (fun i => p i + - (inner N n p + d) * n i).
Proof. intros i L. unfold plane_project, vec_sub, vec_scale. cbn. rewrite dot_is, (inner_sym N p n). ring. Qed.
Lemma foot_on p k : plane_set N n d (fun i => p i + k * n i) <-> inner N n p + d + k = 0.
Proof. unfold plane_set. rewrite inner_sym, inner_add_mul, UU, inner_sym. split; intros; lra. Qed.
Lemma plane_project_ok p : is_nearest N (plane_set N n d) p (plane_project N pl p) /\ distance N p (plane_project N pl p) = Rabs (inner N n p + d).
Proof.
  assert (distance N p (plane_project N pl p) = Rabs (inner N n p + d)) as F.
  { rewrite (distance_ext N p p _ _ (same_refl _ _) (foot_is p)), distance_along by exact U. apply Rabs_Ropp. }
  split; [|exact F]. split.
  - unfold plane_set. rewrite (inner_ext N n n _ _ (same_refl _ _) (foot_is p)). apply foot_on. ring.
  - intros q Q. rewrite F. now apply plane_far.
Qed.
Lemma plane_sdf_ok p : signed_distance N (half_space N n d) (plane_set N n d) p (plane_distance N pl p).
Proof.
  rewrite distance_is. split; [|reflexivity]. exists (plane_project N pl p). destruct (plane_project_ok p) as [A ->]. now split.
Qed.
Lemma plane_contains_ok p : plane_contains N pl p = true <-> half_space N n d p.
Proof. unfold plane_contains. now rewrite Rleb_iff, distance_is. Qed.
Lemma plane_origin_ok : is_nearest N (plane_set N n d) (fun _ => 0) (plane_origin pl).
Proof.
  destruct (plane_project_ok (fun _ => 0)) as [[A B] _]. assert (same N (plane_origin pl) (plane_project N pl (fun _ => 0))) as S.
  { intros i L. rewrite foot_is by exact L. unfold plane_origin, vec_scale. cbn.
    replace (inner N n (fun _ => 0)) with 0; [ring|]. symmetry. apply inner_zeros. }
  split.
  - unfold plane_set in *. now rewrite (inner_ext N n n _ _ (same_refl _ _) S).
  - intros q Q. rewrite (distance_ext N _ _ _ _ (same_refl _ _) S). now apply B.
Qed.
Lemma contains_shape_ok X support : is_support N X n (support n) ->
  (plane_contains_shape N pl support = true <-> forall p, X p -> half_space N n d p).
Proof.
  intros [A B]. unfold plane_contains_shape. cbn. rewrite Rleb_iff, dot_is. unfold half_space. split.
  - intros H p P. specialize (B p P). rewrite inner_sym. lra.
  - intros H. specialize (H _ A). rewrite inner_sym in H. lra.
Qed.
Lemma intersects_shape_ok X support : is_support N X n (support n) -> is_support N X (vec_neg n) (support (vec_neg n)) ->
  (plane_intersects_shape N pl support = true <-> (exists p, X p /\ 0 < inner N n p + d) /\ (exists p, X p /\ inner N n p + d <= 0)).
Proof.
  intros [A B] [A' B']. unfold plane_intersects_shape. cbn. rewrite andb_true_iff, negb_true_iff, Rleb_not, Rleb_iff, !dot_is, (inner_sym N _ n), (inner_sym N (support (vec_neg n)) n).
  split.
  - intros [H K]. split; eexists; (split; [|eassumption]); assumption.
  - intros [(p & P & H) (q & Q & K)]. specialize (B p P). specialize (B' q Q). unfold vec_neg in B'. rewrite !inner_opp_r in B'.
    fold (vec_neg n) in B'. rewrite (inner_sym N p n), (inner_sym N (support n) n) in B. rewrite (inner_sym N q n), (inner_sym N _ n) in B'. split; lra.
Qed.
Lemma crossing X : convex X -> (exists p, X p /\ 0 < inner N n p + d) -> (exists p, X p /\ inner N n p + d <= 0) -> meets X (plane_set N n d).
Proof.
  intros C (p & P & A) (q & Q & B). set (x := inner N n p + d) in *. set (y := inner N n q + d) in *. set (t := x / (x - y)).
  assert (0 <= t <= 1) as T. { unfold t. split; [apply Rmult_le_pos; [lra|left; apply Rinv_0_lt_compat; lra]|]. apply (Rmult_le_reg_r (x - y)); [lra|]. unfold Rdiv. rewrite Rmult_assoc, Rinv_l; lra. }
  exists (fun i => (1 - t) * p i + t * q i). split; [now apply C|]. unfold plane_set. rewrite inner_lin_r.
  replace (_ + d) with ((1 - t) * x + t * y) by (unfold x, y; ring). unfold t. field. lra.
Qed.
Lemma plane_meets_ball c r : 0 <= r -> (meets (plane_set N n d) (ball N c r) <-> Rabs (plane_distance N pl c) <= r).
Proof.
  intros RP. rewrite distance_is. split.
  - intros (q & Q & B). apply plane_far with (p := c) in Q. unfold ball in B. rewrite distance_sym in B. lra.
  - intros H. destruct (plane_project_ok c) as [[A _] F]. exists (plane_project N pl c). split; [exact A|]. unfold ball. rewrite distance_sym. lra.
Qed.
Lemma sphere_test_ok s : plane_intersects_sphere N pl s = true <-> s_r s <= plane_distance N pl (s_center s).
Proof. apply Rleb_iff. Qed.
Lemma hull_test_false pts : plane_intersects_hull N pl pts = false.
Proof.
  destruct pts as [|p pts]; [reflexivity|]. cbn [plane_intersects_hull]. generalize (if Rlt_dec (plane_distance N pl p) 0 then true else false) as neg.
  intros neg. induction pts as [|q pts IH]; [reflexivity|]. cbn [plane_hull_loop]. destruct (if Req_EM_T _ 0 then true else _); [reflexivity|exact IH].
Qed.

(** Transforming. *)
Lemma xf_parts (xf : xform R_field) (x : vec) : same N (xf_apply N xf x) (fun i => xf_apply_vector N xf x i + xf_apply N xf (fun _ => 0) i).
Proof.
  intros i L. rewrite (apply_maps R_field N xf x), (apply_maps R_field N xf (fun _ => 0)), apply_vector_is by lia. unfold maps. unR.
  rewrite !sum_R. rewrite (rsum_ext N (fun c => xmat xf i c * 0) (fun _ => 0)), rsum_zero by (intros; ring). ring.
Qed.
Lemma apply_distance (xf : xform R_field) pl' (x : vec) : sound N xf -> plane_apply N xf pl = Some pl' ->
  exists L, 0 < L /\ plane_distance N pl' (xf_apply N xf x) = plane_distance N pl x / L + 2 * inner N (xf_apply N xf (fun _ => 0)) (pl_n pl').
Proof.
  intros S. unfold plane_apply. cbn [pl_n pl_d]. set (m := xf_apply_normal N xf n). destruct (unit_vec N m) as [u|] eqn:E; [|discriminate]. intros [= <-].
  destruct (unit_same N m u E) as (U' & P & Q). exists (length N m). split; [exact P|]. unfold plane_distance. cbn [pl_n pl_d].
  rewrite !dot_is. set (t := xf_apply N xf (fun _ => 0)).
  assert (forall y, inner N (xf_apply N xf y) u = inner N n y / length N m + inner N t u) as K.
  { intros y. rewrite (inner_ext N _ _ u u (xf_parts xf y) (same_refl _ _)), inner_add_l. fold t. f_equal.
    pose proof (apply_normal_inner R_field N xf n y S) as I. rewrite !inner_R in I. fold m in I. rewrite <- I.
    rewrite (inner_ext N m _ _ _ Q (same_refl _ _)), inner_mul_l, (inner_sym N u). field. lra. }
  rewrite (inner_sym N u), !K. assert (inner N n (vec_scale n d) = d) as ->.
  { rewrite inner_sym. rewrite (inner_ext N (vec_scale n d) (fun i => d * n i) n n) by (intros i L; unfold vec_scale; ring). rewrite inner_mul_l, UU. ring. }
  field. lra.
Qed.
Lemma apply_right_iff (xf : xform R_field) pl' : sound N xf -> plane_apply N xf pl = Some pl' ->
  ((forall x, plane_set N (pl_n pl') (pl_d pl') (xf_apply N xf x) <-> plane_set N n d x) <-> inner N (xf_apply N xf (fun _ => 0)) (pl_n pl') = 0).
Proof.
  intros S E. assert (forall x, plane_set N (pl_n pl') (pl_d pl') (xf_apply N xf x) <-> plane_distance N pl' (xf_apply N xf x) = 0) as A.
  { intros x. unfold plane_set, plane_distance. now rewrite dot_is. }
  split.
  - intros H. set (q := plane_project N pl (fun _ => 0)). destruct (plane_project_ok (fun _ => 0)) as [[Q _] _]. fold q in Q.
    destruct (apply_distance xf pl' q S E) as (L & LP & D). pose proof (proj1 (A q) (proj2 (H q) Q)) as Q'. rewrite Q' in D. unfold plane_set in Q.
    rewrite distance_is, Q in D. unfold Rdiv in D. rewrite Rmult_0_l in D. lra.
  - intros Z x. rewrite A. destruct (apply_distance xf pl' x S E) as (L & LP & ->). rewrite Z, distance_is. unfold plane_set. split; intros H.
    + apply (Rmult_eq_reg_r (/ L)); [unfold Rdiv in H; lra|]. apply Rinv_neq_0_compat. lra.
    + rewrite H. unfold Rdiv. ring.
Qed.
Lemma apply_defined (xf : xform R_field) : sound N xf -> exists pl', plane_apply N xf pl = Some pl'.
Proof.
  intros S. unfold plane_apply. cbn [pl_n pl_d]. destruct (unit_vec N (xf_apply_normal N xf n)) as [u|] eqn:E; [eauto|]. exfalso.
  apply unit_none in E. pose proof (apply_normal_inner R_field N xf n n S) as I. rewrite !inner_R, UU in I.
  unfold inner in I. rewrite (rsum_ext N _ (fun _ => 0)), rsum_zero in I; [lra|]. intros i L. rewrite E by exact L. ring.
Qed.
Lemma apply_inverse_is (xf : xform R_field) : plane_apply_inverse N xf pl = plane_apply N (xf_inverse xf) pl.
Proof. reflexivity. Qed.
(** A translation moves the plane the other way. *)
Lemma apply_translation t pl' p : plane_apply N (@xf_translation R_field N t) pl = Some pl' ->
  (plane_set N (pl_n pl') (pl_d pl') p <-> plane_set N n d (fun i => p i + t i)).
Proof.
  intros E. set (xf := @xf_translation R_field N t) in *. assert (sound N xf) as S by apply sound_translation.
  assert (forall x, same N (xf_apply N xf x) (fun i => x i + t i)) as T.
  { intros x i L. rewrite (apply_maps R_field N xf) by lia. exact (translation_maps R_field N t x i L). }
  assert (length N (pl_n pl') = 1 /\ same N (pl_n pl') n) as [U' Sn].
  { unfold plane_apply in E. cbn [pl_n pl_d] in E. destruct (unit_vec N _) as [u|] eqn:F; [|discriminate]. injection E as <-. cbn.
    assert (same N (xf_apply_normal N xf n) n) as M.
    { intros i J. pose proof (apply_normal_inner R_field N xf n (axis i) S) as I. rewrite !inner_R, (inner_axis N i n J) in I. rewrite <- I.
      rewrite <- (inner_axis N i (xf_apply_normal N xf n) J) at 1. apply inner_ext; [easy|]. intros k K.
      pose proof (xf_parts xf (axis i) k K) as V. rewrite (T _ k K), (T (fun _ => 0) k K) in V. lra. }
    destruct (unit_same N _ u F) as (A & B & C). split; [exact A|]. intros i J. rewrite <- (M i J), (C i J).
    rewrite (length_ext N _ n M), U. ring. }
  unfold plane_set. rewrite (inner_ext N _ n _ p Sn (same_refl _ _)).
  assert (pl_d pl' = d + inner N n t) as Dp.
  { unfold plane_apply in E. cbn [pl_n pl_d] in E. destruct (unit_vec N _) as [u|] eqn:F; [|discriminate]. injection E as <-. cbn in *.
    rewrite dot_is. rewrite (inner_ext N _ (fun i => d * n i + 1 * t i) u n); [|intros i J; rewrite (T _ i J); unfold vec_scale; ring|exact Sn].
    rewrite inner_lin, UU, (inner_sym N t). ring. }
  rewrite Dp. rewrite (inner_sym N n (fun i => p i + t i)), inner_add_l, (inner_sym N p), (inner_sym N t). split; intros; lra.
Qed.
End P.
