From Coq Require Import ZArith Reals Lra List Bool Arith Lia.
From Verif Require Import Ord RectModel RectSpec.
Import ListNotations.

Section P.
Context {K : ord}.
Variable N : nat.
Implicit Types (r a b : @rect K) (p q : @point K).

Lemma all_axes_iff f : all_axes N f = true <-> forall i, i < N -> f i = true.
Proof.
  unfold all_axes. rewrite forallb_forall. split.
  - intros H i Hi. apply H. apply in_seq. lia.
  - intros H i Hi. apply in_seq in Hi. apply H. lia.
Qed.
Lemma all_axes_false f : all_axes N f = false <-> exists i, i < N /\ f i = false.
Proof.
  split.
  - intros H. assert (E : existsb (fun i => negb (f i)) (seq 0 N) = true).
    { unfold all_axes in H. revert H. induction (seq 0 N); cbn; [discriminate|]. destruct (f a); cbn; auto. }
    apply existsb_exists in E as (i & Hi & E). exists i. apply in_seq in Hi. destruct (f i); [discriminate|]. split; [lia|auto].
  - intros (i & Hi & E). destruct (all_axes N f) eqn:A; [|auto]. rewrite (proj1 (all_axes_iff f) A i Hi) in E. discriminate.
Qed.

Lemma nor_le (a b c d : K) : negb (ltb a b || ltb c d) = true <-> le b a /\ le d c.
Proof. unfold le, leb. destruct (ltb a b), (ltb c d); cbn; split; intuition discriminate. Qed.
Lemma nor_lt (a b c d : K) : negb (leb a b || leb c d) = true <-> lt b a /\ lt d c.
Proof. unfold lt, leb. destruct (ltb b a), (ltb d c); cbn; split; intuition discriminate. Qed.

Lemma contains_iff r p : contains_pt N r p = true <-> inside N p r.
Proof. unfold contains_pt, inside. rewrite all_axes_iff. setoid_rewrite nor_le. reflexivity. Qed.

Lemma nonempty_iff r : nonempty N r <-> forall i, i < N -> le (lo r i) (hi r i).
Proof.
  split.
  - intros (p & H) i Hi. destruct (H i Hi). now apply le_trans with (p i).
  - intros H. exists (lo r). intros i Hi. split; [apply le_refl|auto].
Qed.
Lemma is_empty_iff r : is_empty N r = true <-> ~ nonempty N r.
Proof.
  unfold is_empty. rewrite negb_true_iff, all_axes_false, nonempty_iff. split.
  - intros (i & Hi & E) H. specialize (H i Hi). apply le_not_lt in H. apply H. unfold lt. destruct (ltb (hi r i) (lo r i)); [auto|discriminate].
  - intros H. assert (D : all_axes N (fun i => leb (lo r i) (hi r i)) = false).
    { destruct (all_axes N _) eqn:A; [|auto]. destruct H. exact (proj1 (all_axes_iff _) A). }
    apply all_axes_false in D. exact D.
Qed.

Lemma inter_iff a b p : inside N p (inter a b) <-> inside N p a /\ inside N p b.
Proof.
  unfold inside, inter. cbn [lo hi]. unfold vmax, vmin. setoid_rewrite omin_le. setoid_rewrite omax_le.
  split; [intros H; split; intros i Hi; specialize (H i Hi); tauto|intros [A B] i Hi; specialize (A i Hi); specialize (B i Hi); tauto].
Qed.

Lemma union_upper a b : subset N a (union a b) /\ subset N b (union a b).
Proof.
  split; intros p H i Hi; destruct (H i Hi); cbn [union lo hi]; unfold vmin, vmax; split.
  - eapply le_trans; [apply omin_l|auto].
  - eapply le_trans; [|apply omax_l]; auto.
  - eapply le_trans; [apply omin_r|auto].
  - eapply le_trans; [|apply omax_r]; auto.
Qed.

(** A Rect including a non-empty Rect bounds its extremes. *)
Lemma subset_bounds a c : nonempty N a -> subset N a c -> forall i, i < N -> le (lo c i) (lo a i) /\ le (hi a i) (hi c i).
Proof.
  intros NE H i Hi. pose proof (proj1 (nonempty_iff a) NE) as L. split.
  - apply (H (lo a)); [|auto]. intros j Hj. split; [apply le_refl|auto].
  - apply (H (hi a)); [|auto]. intros j Hj. split; [auto|apply le_refl].
Qed.
Lemma union_least a b c : nonempty N a -> nonempty N b -> subset N a c -> subset N b c -> subset N (union a b) c.
Proof.
  intros Na Nb A B p H i Hi. destruct (subset_bounds a c Na A i Hi), (subset_bounds b c Nb B i Hi), (H i Hi) as [L U].
  cbn [union lo hi] in L, U. unfold vmin, vmax in L, U. split.
  - eapply le_trans; [|exact L]. now apply omin_le.
  - eapply le_trans; [exact U|]. now apply omax_le.
Qed.
Lemma union_into_eq a b i : lo (union_into a b) i = lo (union a b) i /\ hi (union_into a b) i = hi (union a b) i.
Proof.
  cbn [union union_into lo hi]. unfold vmin, vmax. split; apply le_antisym.
  - apply omin_le. split; [apply omin_r|apply omin_l].
  - apply omin_le. split; [apply omin_r|apply omin_l].
  - apply omax_le. split; [apply omax_r|apply omax_l].
  - apply omax_le. split; [apply omax_r|apply omax_l].
Qed.

Lemma contains_box_sound a b : contains_box N a b = true -> subset N b a.
Proof.
  unfold contains_box. rewrite all_axes_iff. intros H p Hp i Hi. specialize (H i Hi). apply nor_le in H.
  destruct H, (Hp i Hi). split; eapply le_trans; eauto.
Qed.
Lemma contains_box_complete a b : nonempty N b -> subset N b a -> contains_box N a b = true.
Proof.
  intros NE H. unfold contains_box. apply all_axes_iff. intros i Hi. apply nor_le. exact (subset_bounds b a NE H i Hi).
Qed.
(** An empty box counts as contained exactly when no extreme protrudes. *)
Lemma contains_box_empty a b : ~ nonempty N b ->
  subset N b a /\ (contains_box N a b = true <-> forall i, i < N -> le (lo a i) (lo b i) /\ le (hi b i) (hi a i)).
Proof.
  intros NE. split; [intros p Hp; destruct NE; now exists p|].
  unfold contains_box. rewrite all_axes_iff. setoid_rewrite nor_le. reflexivity.
Qed.

Lemma clip_inside r p : nonempty N r -> inside N (clip r p) r.
Proof.
  rewrite nonempty_iff. intros H i Hi. unfold clip, vmin, vmax. split.
  - apply omin_le. split; [auto|apply omax_l].
  - apply omin_l.
Qed.
Lemma clip_id r p : inside N p r -> forall i, i < N -> clip r p i = p i.
Proof.
  intros H i Hi. destruct (H i Hi). unfold clip, vmin, vmax.
  assert (E : omax (lo r i) (p i) = p i).
  { apply le_antisym; [apply omax_le; split; [auto|apply le_refl]|apply omax_r]. }
  rewrite E. apply le_antisym; [apply omin_r|]. apply omin_le. split; [auto|apply le_refl].
Qed.
(** Clipping moves each coordinate the least: any point of the Rect is on the far side of the clipped one. *)
Lemma clip_between r p q : inside N q r -> forall i, i < N ->
  (le (p i) (clip r p i) /\ (le (clip r p i) (q i) \/ clip r p i = p i)) \/
  (le (clip r p i) (p i) /\ (le (q i) (clip r p i) \/ clip r p i = p i)).
Proof.
  intros H i Hi. destruct (H i Hi) as [A B]. assert (LH : le (lo r i) (hi r i)) by (eapply le_trans; eauto).
  unfold clip, vmin, vmax. destruct (lt_or_le (p i) (lo r i)) as [L|G].
  - left. assert (E : omax (lo r i) (p i) = lo r i).
    { apply le_antisym; [|apply omax_l]. apply omax_le. split; [apply le_refl|now apply lt_le]. }
    rewrite E. assert (E2 : omin (hi r i) (lo r i) = lo r i).
    { apply le_antisym; [apply omin_r|]. apply omin_le. split; [auto|apply le_refl]. }
    rewrite E2. split; [now apply lt_le|auto].
  - assert (E : omax (lo r i) (p i) = p i).
    { apply le_antisym; [|apply omax_r]. apply omax_le. split; [auto|apply le_refl]. }
    rewrite E. destruct (lt_or_le (hi r i) (p i)) as [U|U].
    + right. assert (E2 : omin (hi r i) (p i) = hi r i).
      { apply le_antisym; [apply omin_l|]. apply omin_le. split; [apply le_refl|now apply lt_le]. }
      rewrite E2. split; [now apply lt_le|auto].
    + left. assert (E2 : omin (hi r i) (p i) = p i).
      { apply le_antisym; [apply omin_r|]. apply omin_le. split; [auto|apply le_refl]. }
      rewrite E2. split; [apply le_refl|auto].
Qed.

Lemma spanning_spec p q : inside N p (spanning_corners p q) /\ inside N q (spanning_corners p q) /\
  forall c, inside N p c -> inside N q c -> subset N (spanning_corners p q) c.
Proof.
  split; [|split].
  - intros i Hi. split; [apply omin_l|apply omax_l].
  - intros i Hi. split; [apply omin_r|apply omax_r].
  - intros c A B x H i Hi. destruct (H i Hi) as [L U], (A i Hi), (B i Hi). split.
    + eapply le_trans; [|exact L]. now apply omin_le.
    + eapply le_trans; [exact U|]. now apply omax_le.
Qed.

(** from_point_sequence *)
Lemma from_points_fold ps : forall r i,
  (forall z, le z (lo (fold_left union_pt ps r) i) <-> le z (lo r i) /\ Forall (fun p => le z (p i)) ps) /\
  (forall z, le (hi (fold_left union_pt ps r) i) z <-> le (hi r i) z /\ Forall (fun p => le (p i) z) ps).
Proof.
  induction ps as [|p ps IH]; intros r i; cbn [fold_left].
  - split; intros z; (split; [intros H; split; [auto|constructor]|tauto]).
  - destruct (IH (union_pt r p) i) as [A B]. cbn [union_pt lo hi] in A, B. unfold vmin, vmax in A, B. split; intros z.
    + rewrite A, omin_le. rewrite Forall_cons_iff. tauto.
    + rewrite B, omax_le. rewrite Forall_cons_iff. tauto.
Qed.
Lemma from_points_spec tmin tmax ps : (forall p i, In p ps -> i < N -> le tmin (p i) /\ le (p i) tmax) ->
  (forall p, In p ps -> inside N p (from_points tmin tmax ps)) /\
  (ps <> [] -> forall c, (forall p, In p ps -> inside N p c) -> subset N (from_points tmin tmax ps) c).
Proof.
  intros T. unfold from_points. split.
  - intros p Hp i Hi. destruct (from_points_fold ps (rect_empty tmin tmax) i) as [A B]. split.
    + pose proof (proj1 (A _) (le_refl _)) as [_ F]. rewrite Forall_forall in F. auto.
    + pose proof (proj1 (B _) (le_refl _)) as [_ F]. rewrite Forall_forall in F. auto.
  - intros NE c C x Hx i Hi. destruct (from_points_fold ps (rect_empty tmin tmax) i) as [A B]. destruct (Hx i Hi) as [L U].
    destruct ps as [|p0 ps]; [easy|]. split.
    + eapply le_trans; [|exact L]. apply A. cbn [rect_empty lo]. split.
      * eapply le_trans; [apply (C p0); [now left|auto]|]. apply T; [now left|auto].
      * apply Forall_forall. intros p Hp. now apply (C p Hp i Hi).
    + eapply le_trans; [exact U|]. apply B. cbn [rect_empty hi]. split.
      * eapply le_trans; [|apply (C p0); [now left|auto]]. apply T; [now left|auto].
      * apply Forall_forall. intros p Hp. now apply (C p Hp i Hi).
Qed.
Lemma from_no_points (tmin tmax : K) : lt tmin tmax -> 0 < N -> ~ nonempty N (from_points tmin tmax []).
Proof.
  intros H HN NE. apply nonempty_iff with (i := 0) in NE; [|auto]. cbn in NE. apply le_not_lt in NE. auto.
Qed.

(** ** intersects *)
Lemma intersects_iff a b : intersects N a b = true <-> forall i, i < N -> lt (lo b i) (hi a i) /\ lt (lo a i) (hi b i).
Proof. unfold intersects. rewrite all_axes_iff. setoid_rewrite nor_lt. reflexivity. Qed.

Lemma share_iff a b : nonempty N a -> nonempty N b ->
  ((exists p, inside N p a /\ inside N p b) <-> forall i, i < N -> le (lo b i) (hi a i) /\ le (lo a i) (hi b i)).
Proof.
  intros Na Nb. pose proof (proj1 (nonempty_iff a) Na) as La. pose proof (proj1 (nonempty_iff b) Nb) as Lb. split.
  - intros (p & A & B) i Hi. destruct (A i Hi), (B i Hi). split; eapply le_trans; eauto.
  - intros H. exists (lo (inter a b)). apply inter_iff. intros i Hi. split; [apply le_refl|].
    cbn [inter lo hi]. unfold vmin, vmax. destruct (H i Hi). apply omax_le. split; apply omin_le; auto.
Qed.
Lemma intersects_sound a b : nonempty N a -> nonempty N b -> intersects N a b = true -> exists p, inside N p a /\ inside N p b.
Proof.
  intros Na Nb H. apply share_iff; auto. intros i Hi. destruct (proj1 (intersects_iff a b) H i Hi).
  split; now apply lt_le.
Qed.
Lemma intersects_touching a b i : i < N -> (hi a i = lo b i \/ hi b i = lo a i) -> intersects N a b = false.
Proof.
  intros Hi E. destruct (intersects N a b) eqn:X; [|auto]. exfalso. destruct (proj1 (intersects_iff a b) X i Hi) as [P Q].
  destruct E as [E|E]; rewrite E in *; eapply lt_irr; eauto.
Qed.
Lemma intersects_exact a b : nonempty N a -> nonempty N b -> (exists p, inside N p a /\ inside N p b) ->
  (intersects N a b = false <-> exists i, i < N /\ (hi a i = lo b i \/ hi b i = lo a i)).
Proof.
  intros Na Nb Sh. pose proof (proj1 (share_iff a b Na Nb) Sh) as H. split.
  - unfold intersects. rewrite all_axes_false. intros (i & Hi & E). exists i. split; [auto|].
    apply negb_false_iff in E. apply orb_true_iff in E. destruct (H i Hi) as [P Q].
    destruct E as [E|E]; [left|right]; apply le_antisym; auto.
  - intros (i & Hi & E). now apply intersects_touching with i.
Qed.
(** Interior points in common, when there are points in between. *)
Lemma intersects_interior a b p : interior N p a -> interior N p b -> intersects N a b = true.
Proof.
  intros A B. apply intersects_iff. intros i Hi. destruct (A i Hi), (B i Hi). split; eapply lt_trans; eauto.
Qed.

(** ** Exclusion *)
Lemma exclude_returns_empty (tmin tmax : K) a b : lt tmin tmax -> 0 < N -> ~ nonempty N (exclude_into tmin tmax a b).
Proof. exact (from_no_points tmin tmax). Qed.
Lemma exclude_modifies (tmin tmax : K) a b i :
  (le (lo a i) (lo b i) -> le (lo b i) (hi a i) -> lt (hi a i) (hi b i) ->
    lo (snd (exclude tmin tmax a b)) i = lo b i /\ hi (snd (exclude tmin tmax a b)) i = lo a i) /\
  (lt (lo b i) (lo a i) -> le (lo a i) (hi b i) -> le (hi b i) (hi a i) ->
    lo (snd (exclude tmin tmax a b)) i = hi a i /\ hi (snd (exclude tmin tmax a b)) i = hi b i).
Proof.
  cbn [exclude snd lo hi]. unfold exclude_axis. split; intros A B C.
  - assert (X : ltb (hi b i) (lo b i) = false).
    { destruct (ltb _ _) eqn:E; [|auto]. destruct (lt_irr (lo b i)). eapply le_lt_trans; [exact B|]. eapply lt_trans; eauto. }
    rewrite X. assert (Y : ltb (lo b i) (lo a i) = false) by (apply le_not_lt in A; unfold lt in A; destruct (ltb (lo b i) (lo a i)); congruence).
    unfold lt in C. rewrite Y, C. cbn [fst snd]. split; [|auto].
    apply le_antisym; [apply omin_r|apply omin_le; split; [auto|apply le_refl]].
  - assert (X : ltb (hi b i) (lo b i) = false).
    { destruct (ltb _ _) eqn:E; [|auto]. destruct (lt_irr (hi b i)). eapply lt_le_trans; [|exact B]. eapply lt_trans; eauto. }
    rewrite X. assert (Y : ltb (hi a i) (hi b i) = false) by (apply le_not_lt in C; unfold lt in C; destruct (ltb (hi a i) (hi b i)); congruence).
    unfold lt in A. rewrite Y, A. cbn [fst snd]. split; [auto|].
    apply le_antisym; [apply omax_le; split; [apply le_refl|auto]|apply omax_l].
Qed.

Lemma cartesian_spec n m a b p : inside (n + m) p (cartesian n a b) <-> inside n p a /\ inside m (fun i => p (n + i)) b.
Proof.
  unfold inside, cartesian. cbn [lo hi]. split.
  - intros H. split; intros i Hi.
    + specialize (H i ltac:(lia)). replace (i <? n) with true in H by (symmetry; apply Nat.ltb_lt; lia). auto.
    + specialize (H (n + i) ltac:(lia)). replace (n + i <? n) with false in H by (symmetry; apply Nat.ltb_ge; lia).
      replace (n + i - n) with i in H by lia. auto.
  - intros [A B] i Hi. destruct (i <? n) eqn:E.
    + apply Nat.ltb_lt in E. auto.
    + apply Nat.ltb_ge in E. specialize (B (i - n) ltac:(lia)). cbn beta in B. replace (n + (i - n)) with i in B by lia. auto.
Qed.

Lemma convex_support_spec r neg : nonempty N r -> inside N (convex_support r neg) r /\
  forall p, inside N p r -> forall i, i < N -> if neg i then le (convex_support r neg i) (p i) else le (p i) (convex_support r neg i).
Proof.
  intros NE. pose proof (proj1 (nonempty_iff r) NE) as L. unfold convex_support. split.
  - intros i Hi. destruct (neg i); split; auto; apply le_refl.
  - intros p H i Hi. destruct (H i Hi). destruct (neg i); auto.
Qed.
End P.
