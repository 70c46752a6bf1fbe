From Coq Require Import Reals Arith Lra Lia List.
From Verif Require Import PerlinSpec PerlinProofs VecNModel VecNSpec VecNProofs RealUtilModel Ord RectModel RectSpec RectArithModel RectArithProofs
  ShapeSpec ShapeProofs SphereModel SphereProofs CapsuleModel.
Open Scope R_scope.

(** ** A unit vector perpendicular to a given one, in two or more dimensions. *)
Lemma inner_first2 N (a v : nat -> R) : (2 <= N)%nat -> (forall i, (2 <= i)%nat -> v i = 0) -> inner N v a = v 0%nat * a 0%nat + v 1%nat * a 1%nat.
Proof.
  intros L Z. unfold inner. induction L as [|N L IH]; [cbn; ring|]. cbn [rsum]. rewrite IH, (Z N) by lia. ring.
Qed.
Lemma perpendicular N (a : nat -> R) : (2 <= N)%nat -> exists u, length N u = 1 /\ inner N u a = 0.
Proof.
  intros L. destruct (Req_EM_T (a 0%nat * a 0%nat + a 1%nat * a 1%nat) 0) as [Z|Z].
  - exists (axis 0). split; [apply length_axis; lia|]. rewrite inner_sym, inner_axis by lia. nra.
  - set (w := fun i => match i with 0%nat => - a 1%nat | 1%nat => a 0%nat | _ => 0 end).
    assert (forall i, (2 <= i)%nat -> w i = 0) as W by (intros [|[|]] ?; try lia; reflexivity).
    destruct (unit_vec N w) as [u|] eqn:E.
    + destruct (unit_length N w u E) as [U S]. apply unit_some in E as [NZ E]. exists u. split; [exact U|].
      assert (inner N w a = 0) as H by (rewrite (inner_first2 N a w L W); cbn; ring).
      rewrite (inner_ext N w _ a a S (same_refl _ _)), inner_mul_l in H. nra.
    + exfalso. apply unit_none in E. pose proof (E 0%nat ltac:(lia)) as A. pose proof (E 1%nat ltac:(lia)) as B. cbn in A, B. nra.
Qed.

Section C.
Variables (N : nat) (p0 p1 : vec).
Notation a := (fun i => p1 i - p0 i).
(** ** The nearest point of the segment. *)
Definition frac (p : vec) : R := clamp_quotient (VecNModel.div_opt (dot N (vec_sub p p0) (vec_sub p1 p0)) (VecNModel.mag2 N (vec_sub p1 p0))) 0 1.
Definition foot (p : vec) : vec := along p0 p1 (frac p).
Lemma frac_range p : 0 <= frac p <= 1.
Proof.
  unfold frac, clamp_quotient, RealUtilModel.clamp, RealUtilModel.std_max, RealUtilModel.std_min.
  destruct (VecNModel.div_opt _ _) as [v|]; repeat destruct (Rlt_dec _ _); lra.
Qed.
Lemma frac_opt p t : 0 <= t <= 1 -> (inner N (fun i => p i - foot p i) a) * (t - frac p) <= 0.
Proof.
  intros T. unfold foot, along.
  assert (inner N (fun i => p i - (p0 i + frac p * a i)) a = inner N (fun i => p i - p0 i) a - frac p * inner N a a) as ->.
  { generalize (frac p) as f. intros f. vlin N. }
  unfold frac. change (vec_sub p p0) with (fun i => p i - p0 i). change (vec_sub p1 p0) with (fun i => p1 i - p0 i).
  rewrite dot_is, mag2_is. set (A := inner N a a). set (B := inner N (fun i => p i - p0 i) a).
  unfold VecNModel.div_opt. destruct (Req_EM_T A 0) as [Z|Z].
  - assert (B = 0) as ->.
    { apply inner_zero in Z. unfold B, inner. rewrite <- (rsum_zero N). apply rsum_ext. intros i L. rewrite (Z i L). ring. }
    rewrite Z. lra.
  - assert (0 < A) as AP by (pose proof (inner_nonneg N a) as G; fold A in G; lra). cbn. unfold RealUtilModel.clamp, RealUtilModel.std_max, RealUtilModel.std_min.
    assert (B = B / A * A) as E by (field; exact Z). set (f := B / A) in *. clearbody f. rewrite E.
    set (c := if Rlt_dec 0 _ then _ else _). assert ((f - c) * (t - c) <= 0) as K by (unfold c; repeat destruct (Rlt_dec _ _); nra).
    replace ((f * A - c * A) * (t - c)) with (A * ((f - c) * (t - c))) by ring. nra.
Qed.
Lemma foot_sq p t : distance N p (along p0 p1 t) * distance N p (along p0 p1 t) =
  distance N p (foot p) * distance N p (foot p) - 2 * (inner N (fun i => p i - foot p i) a * (t - frac p)) + (t - frac p) * (t - frac p) * inner N a a.
Proof.
  rewrite !distance_sq. unfold foot, along. generalize (frac p) as f. intros f. vlin N.
Qed.
Lemma foot_nearest p t : 0 <= t <= 1 -> distance N p (foot p) <= distance N p (along p0 p1 t).
Proof.
  intros T. apply le_sq; try apply distance_nonneg. rewrite foot_sq. pose proof (frac_opt p t T). pose proof (inner_nonneg N a) as P.
  pose proof (Rmult_le_pos _ _ (Rle_0_sqr (t - frac p)) P) as Q. unfold Rsqr in Q. lra.
Qed.
Variable r : R.
Hypothesis RP : 0 <= r.
Notation s := (mkCapsule p0 p1 r).
Lemma sdf_is p : capsule_sdf N s p = distance N p (foot p) - r.
Proof.
  unfold capsule_sdf. cbn [c_p0 c_p1 c_r]. fold (frac p). rewrite mag_is. f_equal. apply length_ext. intros i L. unfold vec_sub, vec_scale, foot, along. ring.
Qed.
Lemma inside_iff p : capsule N p0 p1 r p <-> distance N p (foot p) <= r.
Proof.
  split.
  - intros (t & T & D). pose proof (foot_nearest p t T). lra.
  - intros D. exists (frac p). split; [apply frac_range|exact D].
Qed.
Lemma capsule_contains_ok p : capsule_contains N s p = true <-> capsule N p0 p1 r p.
Proof. unfold capsule_contains. rewrite Rleb_iff, sdf_is, inside_iff. split; intros; lra. Qed.
(** A direction from the foot to the surface. *)
Lemma outward p : (2 <= N)%nat -> exists u, length N u = 1 /\ same N p (fun i => foot p i + distance N p (foot p) * u i) /\
  forall t, 0 <= t <= 1 -> inner N u a * (t - frac p) <= 0.
Proof.
  intros L. destruct (unit_vec N (vec_sub p (foot p))) as [u|] eqn:E.
  - destruct (unit_length N _ u E) as [U S]. change (length N (vec_sub p (foot p))) with (distance N p (foot p)) in S.
    apply unit_some in E as [NZ _]. change (length N (vec_sub p (foot p))) with (distance N p (foot p)) in NZ.
    exists u. split; [exact U|]. split; [intros i J; specialize (S i J); unfold vec_sub in S; lra|]. intros t T.
    pose proof (frac_opt p t T) as O. rewrite (inner_ext N (fun i => p i - foot p i) _ a a S (same_refl _ _)), inner_mul_l in O.
    pose proof (distance_nonneg N p (foot p)). nra.
  - apply unit_none in E. destruct (perpendicular N a L) as (u & U & P). exists u. split; [exact U|]. split.
    + intros i J. pose proof (E i J) as E'. unfold vec_sub in E'. replace (distance N p (foot p)) with 0; [lra|]. symmetry. apply distance_zero.
      intros j K. specialize (E j K). unfold vec_sub in E. lra.
    + intros t T. rewrite P. lra.
Qed.
Lemma capsule_far p q : capsule_surface N p0 p1 r q -> Rabs (distance N p (foot p) - r) <= distance N p q.
Proof.
  intros [(t & T & D) F]. specialize (F (frac p) (frac_range p)). fold (foot p) in F. pose proof (foot_nearest p t T) as A.
  pose proof (distance_triangle N p q (along p0 p1 t)). pose proof (distance_triangle N q p (foot p)). rewrite (distance_sym N q p) in *.
  apply Rabs_le. lra.
Qed.
Lemma capsule_sdf_ok p : (2 <= N)%nat -> signed_distance N (capsule N p0 p1 r) (capsule_surface N p0 p1 r) p (capsule_sdf N s p).
Proof.
  intros L. rewrite sdf_is. split; [|rewrite inside_iff; split; intros; lra].
  destruct (outward p L) as (u & U & P & O). exists (fun i => foot p i + r * u i).
  assert (distance N p (fun i => foot p i + r * u i) = Rabs (distance N p (foot p) - r)) as F.
  { set (D := distance N p (foot p)) in *. unfold distance.
    rewrite (length_ext N _ (fun i => (D - r) * u i)); [|intros i J; rewrite (P i J) at 1; ring]. rewrite length_scale, U. ring. }
  split; [|now rewrite F]. split; [|intros q Q; rewrite F; now apply capsule_far].
  assert (distance N (fun i => foot p i + r * u i) (foot p) = r) as G.
  { rewrite distance_sym, distance_along by exact U. now apply Rabs_pos_eq. }
  split; [exists (frac p); split; [apply frac_range|exact G]|]. intros t T. apply le_sq; [exact RP|apply distance_nonneg|].
  rewrite distance_sq. specialize (O t T).
  assert (inner N (fun i => foot p i + r * u i - along p0 p1 t i) (fun i => foot p i + r * u i - along p0 p1 t i) =
    r * r * inner N u u - 2 * r * (inner N u a * (t - frac p)) + (t - frac p) * (t - frac p) * inner N a a) as ->.
  { unfold foot, along. generalize (frac p) as f. clear. intros f. vlin N. }
  rewrite <- length_sq, U. pose proof (inner_nonneg N a) as A. pose proof (Rmult_le_pos _ _ (Rle_0_sqr (t - frac p)) A) as Q. unfold Rsqr in Q. nra.
Qed.
Lemma capsule_meets_ball c r' : 0 <= r' -> (0 < N)%nat -> (meets (capsule N p0 p1 r) (ball N c r') <-> capsule_sdf N s c <= r').
Proof.
  intros R' NP. rewrite sdf_is. split.
  - intros (q & (t & T & D) & B). unfold ball in B. pose proof (foot_nearest c t T). pose proof (distance_triangle N c q (along p0 p1 t)).
    rewrite (distance_sym N c q) in *. lra.
  - intros H. destruct (proj2 (balls_meet N (foot c) r RP c r' R' NP)) as (q & A & B); [rewrite distance_sym; lra|].
    exists q. split; [|exact B]. exists (frac c). split; [apply frac_range|exact A].
Qed.
(** ** Support *)
Lemma with_length_ball d : distance N (vec_add p0 (with_length N d r)) p0 <= r /\ inner N (with_length N d r) d = r * length N d.
Proof.
  assert (length N (with_length N d r) <= r /\ inner N (with_length N d r) d = r * length N d) as [A B].
  { destruct (is_zero N d) eqn:Z.
    - apply is_zero_spec in Z. assert (same N (with_length N d r) (fun _ => 0)) as E.
      { intros i L. rewrite (with_length_zero N d r Z i L). now apply Z. }
      assert (length N d = 0) as -> by now apply length_zero. split.
      + replace (length N (with_length N d r)) with 0; [exact RP|]. symmetry. now apply length_zero.
      + rewrite inner_sym. rewrite (inner_ext N d d _ _ (same_refl _ _) E). rewrite Rmult_0_r. clear. vlin N.
    - assert (~ all_zero N d) as NZ by (rewrite <- is_zero_spec, Z; discriminate). destruct (with_length_spec N d r NZ) as [A B].
      rewrite A, Rabs_pos_eq by exact RP. split; [lra|]. assert (0 < length N d) as P by (pose proof (length_nonneg N d); assert (length N d <> 0) by (now rewrite length_zero); lra).
      apply (Rmult_eq_reg_l (length N d)); [|lra]. rewrite <- inner_mul_l, (inner_ext N _ _ d d B (same_refl _ _)), inner_mul_l, <- length_sq. ring. }
  split; [|exact B]. unfold distance. rewrite (length_ext N _ (with_length N d r)); [exact A|]. intros i L. unfold vec_add. ring.
Qed.
End C.
Lemma capsule_support_ok N p0 p1 r d : 0 <= r -> is_support N (capsule N p0 p1 r) d (capsule_support N (mkCapsule p0 p1 r) d).
Proof.
  intros RP. unfold capsule_support. cbn [c_p0 c_p1 c_r]. cbv zeta. rewrite dot_is.
  assert (inner N d (vec_sub p1 p0) = inner N p1 d - inner N p0 d) as I by (unfold vec_sub; vlin N). rewrite I.
  match goal with |- context [vec_add ?x _] => set (e := x) end.
  destruct (with_length_ball N e r RP d) as [A B]. split.
  - exists (if Rleb 0 (inner N p1 d - inner N p0 d) then 1 else 0). split; [destruct (Rleb _ _); lra|].
    replace (distance N _ _) with (distance N (vec_add e (with_length N d r)) e); [exact A|]. apply distance_ext; [easy|]. intros i L. unfold e, along.
    destruct (Rleb _ _); ring.
  - intros q (t & T & D). assert (inner N (vec_add e (with_length N d r)) d = inner N e d + inner N (with_length N d r) d) as -> by (unfold vec_add; apply inner_add_l).
    rewrite B. pose proof (cauchy N (fun i => q i - along p0 p1 t i) d) as C. fold (distance N q (along p0 p1 t)) in C.
    assert (inner N (fun i => q i - along p0 p1 t i) d = inner N q d - (inner N p0 d + t * (inner N p1 d - inner N p0 d))) as E by (unfold along; clear; vlin N).
    rewrite E in C. pose proof (length_nonneg N d). pose proof (Rle_abs (inner N q d - (inner N p0 d + t * (inner N p1 d - inner N p0 d)))) as F.
    assert (inner N p0 d + t * (inner N p1 d - inner N p0 d) <= inner N e d) as G.
    { unfold e. destruct (Rleb 0 _) eqn:W; [apply Rleb_iff in W|apply Rleb_not in W]; nra. }
    nra.
Qed.
(** The box around a capsule. *)
Lemma capsule_bounds_ok N p0 p1 r : 0 <= r -> tight_box N (capsule N p0 p1 r) (capsule_bounds (mkCapsule p0 p1 r)).
Proof.
  intros RP. assert (forall i, (lo (capsule_bounds (mkCapsule p0 p1 r)) i : R) = Rmin (p0 i) (p1 i) - r /\ (hi (capsule_bounds (mkCapsule p0 p1 r)) i : R) = Rmax (p0 i) (p1 i) + r) as B.
  { intros i. cbn. unfold vmin, vmax, omin, omax, Rmin, Rmax. cbn. unfold Rltb. split.
    - destruct (Rlt_dec (p1 i) (p0 i)), (Rle_dec (p0 i) (p1 i)); lra.
    - destruct (Rlt_dec (p0 i) (p1 i)), (Rle_dec (p0 i) (p1 i)); lra. }
  split.
  - intros p (t & T & D) i L. destruct (B i) as [-> ->]. pose proof (coordinate_le N (fun j => p j - along p0 p1 t j) i L) as C. fold (distance N p (along p0 p1 t)) in C.
    cbv beta in C. unfold along in C at 1. pose proof (Rle_trans _ _ _ C D) as E. revert E. unfold Rabs, Rmin, Rmax. destruct (Rcase_abs _), (Rle_dec _ _); intros; nra.
  - intros i L. destruct (B i) as [-> ->].
    assert (forall e k, (e = p0 \/ e = p1) -> Rabs k = r -> exists p, capsule N p0 p1 r p /\ p i = e i + k) as H.
    { intros e k E K. exists (fun j => e j + k * axis i j). split.
      - assert (distance N (fun j => e j + k * axis i j) e <= r) as Q by (rewrite distance_sym, distance_along by (now apply length_axis); lra).
        destruct E as [-> | ->]; [exists 0|exists 1]; (split; [lra|]); (eapply Rle_trans; [|exact Q]); right; apply distance_ext; try easy;
          intros j J; unfold along; ring.
      - unfold axis. rewrite Nat.eqb_refl. ring. }
    assert (Rabs (- r) = r /\ Rabs r = r) as [Q1 Q2] by (rewrite Rabs_Ropp, Rabs_pos_eq by exact RP; split; reflexivity).
    split.
    + unfold Rmin. destruct (Rle_dec _ _); [destruct (H p0 (- r)) as (p & P & E)|destruct (H p1 (- r)) as (p & P & E)]; auto; exists p; (split; [exact P|lra]).
    + unfold Rmax. destruct (Rle_dec _ _); [destruct (H p1 r) as (p & P & E)|destruct (H p0 r) as (p & P & E)]; auto; exists p; (split; [exact P|lra]).
Qed.
