From Coq Require Import Reals Arith Lra Lia.
From Verif Require Import PerlinSpec PerlinProofs VecNModel VecNSpec VecNProofs ShapeSpec ShapeProofs SolidSpec.
Open Scope R_scope.

Lemma distance_self N p : distance N p p = 0.
Proof. now apply distance_zero. Qed.
(** Convex sets lie on the far side of the plane through a nearest point. *)
Lemma nearest_plane N X p q x : convex X -> is_nearest N X p q -> X x -> inner N (fun i => x i - q i) (fun i => p i - q i) <= 0.
Proof.
  intros C [Q H] XX. apply Rnot_lt_le. intros P. set (I := inner N (fun i => x i - q i) (fun i => p i - q i)) in *.
  set (D := inner N (fun i => x i - q i) (fun i => x i - q i)). assert (0 <= D) as DP by apply inner_nonneg.
  assert (forall t, 0 < t <= 1 -> 2 * I <= t * D) as K.
  { intros t T. specialize (H _ (C q x t Q XX ltac:(lra))). apply le_sq in H; try apply distance_nonneg. rewrite !distance_sq in H.
    assert (inner N (fun i => p i - ((1 - t) * q i + t * x i)) (fun i => p i - ((1 - t) * q i + t * x i)) = inner N (fun i => p i - q i) (fun i => p i - q i) - 2 * t * I + t * t * D) as E by (unfold I, D; vlin N).
    rewrite E in H. apply (Rmult_le_reg_l t); [lra|]. lra. }
  assert (2 * I <= D) as B by (specialize (K 1 ltac:(lra)); lra). assert (0 < I / D <= 1) as T.
  { split; [apply Rdiv_lt_0_compat; lra|]. apply (Rmult_le_reg_r D); [lra|]. unfold Rdiv. rewrite Rmult_assoc, Rinv_l by lra. lra. }
  specialize (K _ T). replace (I / D * D) with I in K by (field; lra). lra.
Qed.
Lemma plane_nearest N (X : region) p q : X q -> (forall x, X x -> inner N (fun i => x i - q i) (fun i => p i - q i) <= 0) -> is_nearest N X p q.
Proof.
  intros Q H. split; [exact Q|]. intros x XX. specialize (H x XX). apply le_sq; try apply distance_nonneg. rewrite !distance_sq.
  assert (inner N (fun i => p i - x i) (fun i => p i - x i) = inner N (fun i => p i - q i) (fun i => p i - q i) - 2 * inner N (fun i => x i - q i) (fun i => p i - q i) + inner N (fun i => x i - q i) (fun i => x i - q i)) as -> by vlin N.
  pose proof (inner_nonneg N (fun i => x i - q i)). lra.
Qed.
(** If the set lies behind the plane through [q] with unit normal [u], points in front of [q] are nearest to [q]. *)
Lemma plane_dist N (X : region) q u k x : 0 <= k -> length N u = 1 -> (forall y, X y -> inner N (fun i => y i - q i) u <= 0) -> X x -> k <= distance N (fun i => q i + k * u i) x.
Proof.
  intros K U H XX. specialize (H x XX). apply le_sq; [exact K|apply distance_nonneg|]. rewrite distance_sq.
  assert (inner N (fun i => q i + k * u i - x i) (fun i => q i + k * u i - x i) = k * k * inner N u u - 2 * k * inner N (fun i => x i - q i) u + inner N (fun i => x i - q i) (fun i => x i - q i)) as -> by vlin N.
  rewrite <- length_sq, U. pose proof (inner_nonneg N (fun i => x i - q i)). assert (0 <= k * - inner N (fun i => x i - q i) u) by (apply Rmult_le_pos; lra). lra.
Qed.
(** The unit vector between two distinct points. *)
Lemma unit_between N p q : 0 < distance N p q -> exists u, length N u = 1 /\ same N p (fun i => q i + distance N p q * u i) /\ same N u (fun i => / distance N p q * (p i - q i)).
Proof.
  intros D. exists (fun i => / distance N p q * (p i - q i)). split; [|split; [|easy]].
  - rewrite length_scale. fold (distance N p q). rewrite Rabs_pos_eq by (left; now apply Rinv_0_lt_compat). field. lra.
  - intros i L. field. lra.
Qed.
Lemma distance_to_along N p q k u : length N u = 1 -> same N p (fun i => q i + k * u i) -> distance N p q = Rabs k.
Proof. intros U S. rewrite (distance_ext N p _ q q S (same_refl _ _)), distance_sym. now apply distance_along. Qed.
Lemma outside_far N (X : region) p q : ~ X p -> respects N X -> is_nearest N X p q -> 0 < distance N p q.
Proof.
  intros H R [Q _]. destruct (distance_nonneg N p q) as [D|D]; [exact D|]. exfalso. apply H. apply (R q p); [|exact Q]. apply same_sym. apply distance_zero. now symmetry.
Qed.
(** A nearest point of an outside point is on the boundary. *)
Lemma nearest_boundary N (X : region) p q : ~ X p -> respects N X -> is_nearest N X p q -> boundary N X q.
Proof.
  intros H R Q. pose proof (outside_far N X p q H R Q) as D. destruct (unit_between N p q D) as (u & U & S & _). split; [apply Q|]. intros e E.
  set (k := Rmin (e / 2) (distance N p q)). assert (0 < k <= distance N p q /\ k < e) as K by (unfold k, Rmin; destruct (Rle_dec _ _); lra).
  exists (fun i => q i + k * u i). split; [|rewrite distance_along by exact U; rewrite Rabs_pos_eq; lra].
  intros XX. destruct Q as [_ Q]. specialize (Q _ XX). rewrite (distance_to_along N p (fun i => q i + k * u i) (distance N p q - k) u U) in Q; [rewrite Rabs_pos_eq in Q; lra|].
  intros i L. rewrite (S i L) at 1. ring.
Qed.
(** The ball up to the nearest boundary point is inside. *)
Lemma ball_inside N X p q y : convex X -> respects N X -> has_nearest N X -> X p -> is_nearest N (boundary N X) p q -> distance N p y <= distance N p q -> X y.
Proof.
  intros C R HN XP [Q H] D. destruct (HN y) as [z Z].
  destruct (Req_EM_T (distance N y z) 0) as [E|E]; [apply (R z y); [apply same_sym; now apply distance_zero|apply Z]|]. exfalso.
  assert (0 < distance N y z) as EP by (pose proof (distance_nonneg N y z); lra).
  assert (~ X y) as NY by (intros XY; destruct Z as [_ Z]; specialize (Z y XY); rewrite distance_self in Z; lra).
  specialize (H z (nearest_boundary N X y z NY R Z)). pose proof (nearest_plane N X y z p C Z XP) as I.
  assert (distance N p y * distance N p y = distance N p z * distance N p z + distance N y z * distance N y z - 2 * inner N (fun i => p i - z i) (fun i => y i - z i)) as P.
  { rewrite !distance_sq. vlin N. }
  pose proof (distance_nonneg N p y). pose proof (distance_nonneg N p z). assert (distance N p y * distance N p y <= distance N p z * distance N p z) by (apply (proj1 (le_sq (distance N p y) (distance N p z) ltac:(lra) ltac:(lra))); lra).
  assert (0 < distance N y z * distance N y z) by (now apply Rmult_lt_0_compat). lra.
Qed.
(** At the boundary point of a ball in the set, the set lies behind the tangent plane. *)
Lemma tangent_plane N (X : region) p q x : convex X -> respects N X -> (forall y, distance N p y <= distance N p q -> X y) -> boundary N X q -> 0 < distance N p q -> X x ->
  inner N (fun i => x i - q i) (fun i => q i - p i) <= 0.
Proof.
  intros C R B [Q H] DP XX. apply Rnot_lt_le. intros P. set (I := inner N (fun i => x i - q i) (fun i => q i - p i)) in *. set (rho := distance N p q) in *.
  set (D := inner N (fun i => x i - q i) (fun i => x i - q i)). assert (0 <= D) as D0 by apply inner_nonneg.
  set (k := I / (D + 1)). assert (0 < k) as K by (apply Rdiv_lt_0_compat; lra). assert (k * D <= I) as KD.
  { assert (k * (D + 1) = I) by (unfold k; field; lra). lra. }
  set (c := fun i => q i + k * (q i - x i)). assert (distance N p c < rho) as CR.
  { apply lt_sq; [apply distance_nonneg|lra|]. rewrite distance_sq. unfold rho. rewrite distance_sq. unfold c.
    assert (inner N (fun i => p i - (q i + k * (q i - x i))) (fun i => p i - (q i + k * (q i - x i))) = inner N (fun i => p i - q i) (fun i => p i - q i) - 2 * k * I + k * k * D) as -> by (unfold I, D; generalize k as k'; intros k'; vlin N).
    assert (k * (k * D) <= k * I) by (apply Rmult_le_compat_l; lra). assert (0 < k * I) by (now apply Rmult_lt_0_compat). lra. }
  set (g := rho - distance N p c) in *. destruct (H (g / (1 + k)) ltac:(apply Rdiv_lt_0_compat; unfold g; lra)) as (y & NY & YD). apply NY.
  set (cy := fun i => c i + (1 + k) * (y i - q i)). assert (X cy) as XC.
  { apply B. pose proof (distance_triangle N p c cy) as T. assert (distance N c cy <= g) as G; [|unfold g in *; lra].
    unfold distance, cy. rewrite (length_ext N _ (fun i => (- (1 + k)) * (y i - q i))) by (intros i L; ring). rewrite length_scale, Rabs_Ropp, Rabs_pos_eq by lra.
    fold (distance N y q). rewrite distance_sym. assert ((1 + k) * distance N q y < (1 + k) * (g / (1 + k))) as G by (apply Rmult_lt_compat_l; lra). replace ((1 + k) * (g / (1 + k))) with g in G by (field; lra). lra. }
  assert (0 <= k / (1 + k) <= 1) as T.
  { split; [apply Rlt_le, Rdiv_lt_0_compat; lra|]. apply (Rmult_le_reg_r (1 + k)); [lra|]. unfold Rdiv. rewrite Rmult_assoc, Rinv_l by lra. lra. }
  pose proof (C cy x (k / (1 + k)) XC XX T) as Y. eapply (R _ y); [|exact Y]. intros i L. unfold cy, c. field. lra.
Qed.
