(** Lemmas for N-dimensional vectors. *)
From Coq Require Import Reals Lra Lia List Bool Arith.
From Verif Require Import PerlinSpec PerlinProofs VecNModel VecNSpec.
Import ListNotations.
Open Scope R_scope.

Lemma loop_S {A} N (f : nat -> A -> A) x : loop (S N) f x = f N (loop N f x).
Proof. unfold loop. now rewrite seq_S, fold_left_app. Qed.
Lemma loop1_S {A} N (f : nat -> A -> A) x : loop1 (S (S N)) f x = f (S N) (loop1 (S N) f x).
Proof. unfold loop1. cbn [Nat.sub]. rewrite Nat.sub_0_r. now rewrite seq_S, fold_left_app. Qed.
Lemma dot_is N a b : dot N a b = inner N a b.
Proof. unfold dot, inner. induction N as [|N IH]; [reflexivity|]. rewrite loop_S, IH. cbn. ring. Qed.
Lemma mag2_is N a : mag2 N a = inner N a a.
Proof. exact (dot_is N a a). Qed.
Lemma mag_is N a : mag N a = length N a.
Proof. unfold mag, length. now rewrite mag2_is. Qed.
Lemma dist_is N a b : dist N a b = distance N a b.
Proof. apply mag_is. Qed.

(** ** Inner products *)
Lemma inner_ext N a a' b b' : same N a a' -> same N b b' -> inner N a b = inner N a' b'.
Proof. intros H K. apply rsum_ext. intros i L. now rewrite H, K. Qed.
Lemma inner_sym N a b : inner N a b = inner N b a.
Proof. apply rsum_ext. intros. ring. Qed.
Lemma inner_lin N x a y b c : inner N (fun i => x * a i + y * b i) c = x * inner N a c + y * inner N b c.
Proof. unfold inner. rewrite <- !rsum_scal, <- rsum_plus. apply rsum_ext. intros. ring. Qed.
Lemma inner_lin_r N x a y b c : inner N c (fun i => x * a i + y * b i) = x * inner N c a + y * inner N c b.
Proof. now rewrite inner_sym, inner_lin, !(inner_sym N c). Qed.
Lemma inner_nonneg N a : 0 <= inner N a a.
Proof. unfold inner. rewrite <- (rsum_zero N). apply rsum_le. intros. nra. Qed.
Lemma inner_zero N a : inner N a a = 0 <-> all_zero N a.
Proof.
  split.
  - induction N as [|N IH]; intros H i L; [lia|]. unfold inner in H. cbn in H. fold (inner N a a) in H.
    pose proof (inner_nonneg N a). pose proof (Rle_0_sqr (a N)) as Q. unfold Rsqr in Q.
    assert (i = N \/ i < N)%nat as [->|D] by lia; [nra|]. apply IH; [lra|exact D].
  - intros H. unfold inner. rewrite <- (rsum_zero N). apply rsum_ext. intros i L. rewrite H by exact L. ring.
Qed.
(** |x a + y b|^2 *)
Lemma inner_comb N x a y b : inner N (fun i => x * a i + y * b i) (fun i => x * a i + y * b i) =
  x * x * inner N a a + 2 * x * y * inner N a b + y * y * inner N b b.
Proof. rewrite inner_lin, !inner_lin_r, (inner_sym N b a). ring. Qed.
Lemma cauchy2 N a b : inner N a b * inner N a b <= inner N a a * inner N b b.
Proof.
  pose proof (inner_nonneg N b) as B. destruct (Rle_lt_or_eq_dec _ _ B) as [P|Z].
  - pose proof (inner_nonneg N (fun i => inner N b b * a i + - inner N a b * b i)) as Q. rewrite inner_comb in Q.
    assert (0 <= inner N b b * (inner N a a * inner N b b - inner N a b * inner N a b)) as Q' by nra.
    assert (0 <= inner N a a * inner N b b - inner N a b * inner N a b); [|lra].
    apply (Rmult_le_reg_l (inner N b b)); [exact P|]. lra.
  - symmetry in Z. rewrite Z. apply inner_zero in Z. replace (inner N a b) with 0; [lra|].
    unfold inner. rewrite <- (rsum_zero N) at 1. apply rsum_ext. intros i L. rewrite Z by exact L. ring.
Qed.
Lemma length_nonneg N a : 0 <= length N a.
Proof. apply sqrt_pos. Qed.
Lemma length_sq N a : length N a * length N a = inner N a a.
Proof. apply sqrt_sqrt, inner_nonneg. Qed.
Lemma length_ext N a b : same N a b -> length N a = length N b.
Proof. intros H. unfold length. f_equal. now apply inner_ext. Qed.
Lemma length_zero N a : length N a = 0 <-> all_zero N a.
Proof.
  rewrite <- inner_zero. split; intros H; [rewrite <- length_sq, H; ring|]. unfold length. rewrite H. apply sqrt_0.
Qed.
Lemma cauchy N a b : Rabs (inner N a b) <= length N a * length N b.
Proof.
  apply Rsqr_incr_0_var; [|apply Rmult_le_pos; apply length_nonneg]. rewrite <- Rsqr_abs. unfold Rsqr.
  replace (_ * _ * _) with ((length N a * length N a) * (length N b * length N b)) by ring. rewrite !length_sq. apply cauchy2.
Qed.
Lemma length_scale N s a : length N (fun i => s * a i) = Rabs s * length N a.
Proof.
  unfold length. replace (inner N (fun i => s * a i) (fun i => s * a i)) with (Rsqr s * inner N a a).
  - rewrite sqrt_mult_alt by apply Rle_0_sqr. now rewrite sqrt_Rsqr_abs.
  - unfold inner, Rsqr. rewrite <- rsum_scal. apply rsum_ext. intros. ring.
Qed.
Lemma length_triangle N a b : length N (fun i => a i + b i) <= length N a + length N b.
Proof.
  pose proof (length_nonneg N a) as A. pose proof (length_nonneg N b) as B.
  apply Rsqr_incr_0_var; [|lra]. unfold Rsqr. rewrite length_sq.
  rewrite (inner_ext N _ (fun i => 1 * a i + 1 * b i) _ (fun i => 1 * a i + 1 * b i)) by (intros i L; ring).
  rewrite inner_comb. pose proof (cauchy N a b) as C. pose proof (Rle_abs (inner N a b)). rewrite <- !length_sq. nra.
Qed.
Lemma Rabs_neg1 : Rabs (-1) = 1.
Proof. unfold Rabs. destruct (Rcase_abs (-1)); lra. Qed.
Lemma distance_sym N a b : distance N a b = distance N b a.
Proof.
  unfold distance. rewrite (length_ext N _ (fun i => (-1) * (b i - a i))) by (intros i L; ring).
  rewrite length_scale, Rabs_neg1. ring.
Qed.
Lemma distance_zero N a b : distance N a b = 0 <-> same N a b.
Proof. unfold distance. rewrite length_zero. split; intros H i L; specialize (H i L); lra. Qed.
Lemma distance_triangle N a b c : distance N a c <= distance N a b + distance N b c.
Proof.
  unfold distance. eapply Rle_trans; [|apply length_triangle]. right. apply length_ext. intros i L. ring.
Qed.
Lemma dist_metric N a b c : 0 <= dist N a b /\ (dist N a b = 0 <-> same N a b) /\ dist N a b = dist N b a /\
  dist N a c <= dist N a b + dist N b c /\ dist2 N a b = dist N a b * dist N a b.
Proof.
  rewrite !dist_is. split; [apply length_nonneg|]. split; [apply distance_zero|]. split; [apply distance_sym|].
  split; [apply distance_triangle|]. unfold distance. rewrite length_sq. apply mag2_is.
Qed.

(** ** unit, project_on, with_length, mix *)
Lemma unit_some N a u : unit_vec N a = Some u -> length N a <> 0 /\ forall i, u i = a i / length N a.
Proof. unfold unit_vec, vec_div. rewrite mag_is. destruct (Req_EM_T _ _); [discriminate|]. intros [= <-]. now split. Qed.
Lemma unit_none N a : unit_vec N a = None <-> all_zero N a.
Proof. unfold unit_vec, vec_div. rewrite mag_is, <- length_zero. destruct (Req_EM_T _ _); split; intros; tauto || discriminate. Qed.
Lemma unit_length N a u : unit_vec N a = Some u -> length N u = 1 /\ same N a (fun i => length N a * u i).
Proof.
  intros H. apply unit_some in H as [Z U]. split.
  - rewrite (length_ext N u (fun i => / length N a * a i)) by (intros i L; rewrite U; unfold Rdiv; ring).
    rewrite length_scale, Rabs_inv, Rabs_pos_eq by apply length_nonneg. now field.
  - intros i L. rewrite U. now field.
Qed.
Lemma unit_defined N a : (exists i, (i < N)%nat /\ a i <> 0) -> exists u, unit_vec N a = Some u.
Proof.
  intros (i & L & H). destruct (unit_vec N a) eqn:E; [eauto|]. apply unit_none in E. exfalso. apply H, E, L.
Qed.
Lemma project_spec N a axis : ~ all_zero N axis -> forall i, project_on N a axis i = inner N a axis / inner N axis axis * axis i.
Proof.
  intros H i. unfold project_on. rewrite mag2_is, dot_is. destruct (Req_EM_T _ _) as [Z|Z]; [apply inner_zero in Z; tauto|]. now field.
Qed.
Lemma project_zero N a axis : all_zero N axis -> all_zero N (project_on N a axis).
Proof.
  intros H i L. unfold project_on. rewrite mag2_is. destruct (Req_EM_T _ _) as [_|Z]; [now apply H|]. apply inner_zero in H. tauto.
Qed.
Lemma project_perp N a axis : inner N (fun i => a i - project_on N a axis i) axis = 0.
Proof.
  destruct (Req_EM_T (inner N axis axis) 0) as [Z|Z].
  - apply inner_zero in Z. unfold inner. rewrite <- (rsum_zero N). apply rsum_ext. intros i L. rewrite Z by exact L. ring.
  - rewrite (inner_ext N _ (fun i => 1 * a i + - (inner N a axis / inner N axis axis) * axis i) _ axis); [|intros i L|easy].
    + rewrite inner_lin. field. exact Z.
    + rewrite project_spec; [ring|]. intros Q. now apply Z, inner_zero.
Qed.
Lemma project_on_axis N a axis : exists s, same N (project_on N a axis) (fun i => s * axis i).
Proof.
  destruct (Req_EM_T (inner N axis axis) 0) as [Z|Z].
  - apply inner_zero in Z. exists 0. intros i L. rewrite project_zero by assumption. ring.
  - eexists. intros i L. apply project_spec. intros Q. now apply Z, inner_zero.
Qed.
Lemma pythagoras N a b : inner N a b = 0 -> length N a <= length N (fun i => a i + b i).
Proof.
  intros P. apply sqrt_le_1_alt.
  rewrite (inner_ext N (fun i => a i + b i) (fun i => 1 * a i + 1 * b i) _ (fun i => 1 * a i + 1 * b i)) by (intros i L; ring).
  rewrite inner_comb, P. pose proof (inner_nonneg N b). lra.
Qed.
Lemma project_nearest N a axis s : dist N a (project_on N a axis) <= dist N a (fun i => s * axis i).
Proof.
  rewrite !dist_is. destruct (project_on_axis N a axis) as [t T]. unfold distance.
  rewrite (length_ext N (fun i => a i - s * axis i) (fun i => (a i - project_on N a axis i) + (t - s) * axis i))
    by (intros i L; rewrite T by exact L; ring).
  apply pythagoras. rewrite (inner_ext N _ (fun i => a i - project_on N a axis i) _ (fun i => (t - s) * axis i + 0 * axis i))
    by (intros i L; ring).
  rewrite inner_lin_r, project_perp. ring.
Qed.
Lemma fraction_spec N a axis : (fraction_on N a axis = None <-> all_zero N axis) /\
  (forall f, fraction_on N a axis = Some f -> same N (project_on N a axis) (fun i => f * axis i)).
Proof.
  unfold fraction_on, div_opt. rewrite mag2_is, dot_is. destruct (Req_EM_T _ _) as [Z|Z].
  - split; [|discriminate]. apply inner_zero in Z. tauto.
  - assert (~ all_zero N axis) as Q by (intros Q; now apply Z, inner_zero). split; [split; [discriminate|tauto]|].
    intros f [= <-] i L. now apply project_spec.
Qed.
Lemma with_length_spec N a m : ~ all_zero N a ->
  length N (with_length N a m) = Rabs m /\ same N (fun i => length N a * with_length N a m i) (fun i => m * a i).
Proof.
  intros H. assert (forall i, with_length N a m i = m / length N a * a i) as E.
  { intros i. unfold with_length. rewrite mag2_is. destruct (Req_EM_T _ _) as [Z|Z]; [apply inner_zero in Z; tauto|].
    fold (length N a). field. rewrite length_zero. exact H. }
  assert (length N a <> 0) as NZ by now rewrite length_zero. split.
  - rewrite (length_ext N _ (fun i => m / length N a * a i)) by (intros i L; apply E). rewrite length_scale.
    unfold Rdiv. rewrite Rabs_mult, Rabs_inv, (Rabs_pos_eq (length N a)) by apply length_nonneg. now field.
  - intros i L. rewrite E. now field.
Qed.
Lemma with_length_zero N a m : all_zero N a -> same N (with_length N a m) a.
Proof.
  intros H i L. unfold with_length. rewrite mag2_is. destruct (Req_EM_T _ _) as [_|Z]; [now rewrite H|]. apply inner_zero in H. tauto.
Qed.
Lemma mix_spec N a b t : dist N a (vec_mix a b t) = Rabs t * dist N a b /\ dist N b (vec_mix a b t) = Rabs (1 - t) * dist N a b.
Proof.
  rewrite !dist_is. rewrite (distance_sym N a b). unfold distance, vec_mix. rewrite <- !length_scale. split.
  - transitivity (length N (fun i => (-1) * (t * (b i - a i)))).
    + apply length_ext. intros i L. ring.
    + rewrite length_scale, Rabs_neg1. ring.
  - apply length_ext. intros i L. ring.
Qed.

(** ** angle_to *)
Lemma angle_none N a b : angle_to N a b = None <-> all_zero N a \/ all_zero N b.
Proof.
  unfold angle_to. destruct (unit_vec N b) eqn:B; [destruct (unit_vec N a) eqn:A|].
  - split; [discriminate|]. intros [H|H]; apply unit_none in H; congruence.
  - apply unit_none in A. tauto.
  - apply unit_none in B. tauto.
Qed.
Lemma clamp_id c : -1 <= c <= 1 -> std_min 1 (std_max c (-1)) = c.
Proof. intros H. unfold std_min, std_max. destruct (Rlt_dec c (-1)); [lra|]. destruct (Rlt_dec c 1); lra. Qed.
Lemma angle_some N a b t : angle_to N a b = Some t -> 0 <= t <= PI /\ cos t * (length N a * length N b) = inner N a b.
Proof.
  unfold angle_to. destruct (unit_vec N b) as [ub|] eqn:B; [|discriminate]. destruct (unit_vec N a) as [ua|] eqn:A; [|discriminate].
  pose proof (unit_length _ _ _ A) as [LA _]. pose proof (unit_length _ _ _ B) as [LB _]. pose proof (cauchy N ub ua) as C.
  rewrite LA, LB in C. apply unit_some in A as [ZA A]. apply unit_some in B as [ZB B]. rewrite dot_is. intros [= <-].
  assert (-1 <= inner N ub ua <= 1) as Q by (revert C; unfold Rabs; destruct (Rcase_abs _); lra).
  rewrite clamp_id by exact Q. split; [apply acos_bound|]. rewrite cos_acos by exact Q.
  rewrite (inner_ext N ub (fun i => / length N b * b i + 0 * b i) ua (fun i => / length N a * a i + 0 * a i))
    by (intros i L; rewrite ?A, ?B; unfold Rdiv; ring).
  rewrite inner_lin, !inner_lin_r, (inner_sym N b a). field. now split.
Qed.
Lemma angle_unique N a b t s : ~ all_zero N a -> ~ all_zero N b -> 0 <= s <= PI ->
  cos s * (length N a * length N b) = inner N a b -> angle_to N a b = Some t -> t = s.
Proof.
  intros A B Ps S T. apply angle_some in T as [Pt T]. rewrite <- length_zero in A, B.
  assert (length N a * length N b <> 0) as NZ by now apply Rmult_integral_contrapositive.
  assert (cos t = cos s) as E by (apply (Rmult_eq_reg_r (length N a * length N b)); [congruence|exact NZ]).
  now apply cos_inj.
Qed.
Lemma angle_sym N a b : angle_to N a b = angle_to N b a.
Proof.
  destruct (angle_to N a b) as [t|] eqn:A, (angle_to N b a) as [s|] eqn:B.
  - f_equal. assert (~ (all_zero N a \/ all_zero N b)) as Z by (rewrite <- angle_none; congruence).
    apply angle_some in B as [P B]. eapply angle_unique; [| |exact P| |exact A]; [tauto|tauto|]. rewrite inner_sym, <- B. ring.
  - apply angle_none in B. assert (angle_to N a b = None) as X by (apply angle_none; tauto). congruence.
  - apply angle_none in A. assert (angle_to N b a = None) as X by (apply angle_none; tauto). congruence.
  - reflexivity.
Qed.

(** ** Comparisons and extremes *)
Lemma vec_eq_spec N a b : vec_eq N a b = true <-> same N a b.
Proof.
  unfold vec_eq, same. induction N as [|N IH]; [split; [intros _ i L; lia|reflexivity]|]. rewrite loop_S.
  destruct (Req_EM_T (b N) (a N)) as [E|E].
  - rewrite IH. split; intros H i L; [|apply H; lia]. assert (i = N \/ i < N)%nat as [->|D] by lia; [now symmetry|now apply H].
  - split; [discriminate|]. intros H. exfalso. apply E. symmetry. apply H. lia.
Qed.
Lemma is_zero_spec N a : is_zero N a = true <-> all_zero N a.
Proof.
  unfold is_zero, all_zero. induction N as [|N IH]; [split; [intros _ i L; lia|reflexivity]|]. rewrite loop_S.
  destruct (Req_EM_T (a N) 0) as [E|E].
  - rewrite IH. split; intros H i L; [|apply H; lia]. assert (i = N \/ i < N)%nat as [->|D] by lia; [exact E|now apply H].
  - split; [discriminate|]. intros H. exfalso. apply E. apply H. lia.
Qed.
Lemma std_min_le a b : std_min a b <= a /\ std_min a b <= b /\ (std_min a b = a \/ std_min a b = b).
Proof. unfold std_min. destruct (Rlt_dec b a); repeat split; (lra || tauto). Qed.
Lemma std_max_ge a b : a <= std_max a b /\ b <= std_max a b /\ (std_max a b = a \/ std_max a b = b).
Proof. unfold std_max. destruct (Rlt_dec a b); repeat split; (lra || tauto). Qed.
Lemma min_elem_spec N a : (0 < N)%nat -> (exists i, (i < N)%nat /\ min_elem N a = a i) /\ forall i, (i < N)%nat -> min_elem N a <= a i.
Proof.
  intros P. destruct N as [|N]; [lia|]. clear P. unfold min_elem. induction N as [|N [(k & L & E) IH]].
  - split; [exists 0%nat; split; [lia|reflexivity]|]. intros i L. replace i with 0%nat by lia. cbn. lra.
  - rewrite loop1_S. pose proof (std_min_le (a (S N)) (loop1 (S N) (fun i x => std_min (a i) x) (a 0%nat))) as (A & B & C). split.
    + destruct C as [C|C]; rewrite C; [exists (S N); split; [lia|reflexivity]|exists k; split; [lia|exact E]].
    + intros i D. assert (i = S N \/ i < S N)%nat as [->|F] by lia; [exact A|]. specialize (IH i F). lra.
Qed.
Lemma max_elem_spec N a : (0 < N)%nat -> (exists i, (i < N)%nat /\ max_elem N a = a i) /\ forall i, (i < N)%nat -> a i <= max_elem N a.
Proof.
  intros P. destruct N as [|N]; [lia|]. clear P. unfold max_elem. induction N as [|N [(k & L & E) IH]].
  - split; [exists 0%nat; split; [lia|reflexivity]|]. intros i L. replace i with 0%nat by lia. cbn. lra.
  - rewrite loop1_S. pose proof (std_max_ge (a (S N)) (loop1 (S N) (fun i x => std_max (a i) x) (a 0%nat))) as (A & B & C). split.
    + destruct C as [C|C]; rewrite C; [exists (S N); split; [lia|reflexivity]|exists k; split; [lia|exact E]].
    + intros i D. assert (i = S N \/ i < S N)%nat as [->|F] by lia; [exact A|]. specialize (IH i F). lra.
Qed.
Lemma argmax_spec N a : (0 < N)%nat -> (argmax N a < N)%nat /\ (forall i, (i < N)%nat -> Rabs (a i) <= Rabs (a (argmax N a))) /\
  forall i, (i < argmax N a)%nat -> Rabs (a i) < Rabs (a (argmax N a)).
Proof.
  intros P. destruct N as [|N]; [lia|]. clear P. unfold argmax.
  set (st := loop1 (S N) _ _).
  assert (fst st = Rabs (a (snd st)) /\ (snd st < S N)%nat /\ (forall i, (i < S N)%nat -> Rabs (a i) <= fst st) /\
    (forall i, (i < snd st)%nat -> Rabs (a i) < fst st)) as (E & L & M & F); [|rewrite <- E; tauto].
  subst st. induction N as [|N IH].
  - cbn. split; [reflexivity|]. split; [lia|]. split; intros i D; [|lia]. replace i with 0%nat by lia. lra.
  - rewrite loop1_S. set (st := loop1 (S N) _ _) in *. destruct IH as (E & L & M & F).
    destruct (Rlt_dec (fst st) (Rabs (a (S N)))) as [G|G]; cbn [fst snd].
    + split; [reflexivity|]. split; [lia|]. split; intros i D.
      * assert (i = S N \/ i < S N)%nat as [->|D'] by lia; [lra|]. specialize (M i D'). lra.
      * specialize (M i D). lra.
    + split; [exact E|]. split; [lia|]. split; [|exact F]. intros i D.
      assert (i = S N \/ i < S N)%nat as [->|D'] by lia; [lra|]. exact (M i D').
Qed.
Lemma argmin_spec N a : (0 < N)%nat -> (argmin N a < N)%nat /\ (forall i, (i < N)%nat -> Rabs (a (argmin N a)) <= Rabs (a i)) /\
  forall i, (i < argmin N a)%nat -> Rabs (a (argmin N a)) < Rabs (a i).
Proof.
  intros P. destruct N as [|N]; [lia|]. clear P. unfold argmin.
  set (st := loop1 (S N) _ _).
  assert (fst st = Rabs (a (snd st)) /\ (snd st < S N)%nat /\ (forall i, (i < S N)%nat -> fst st <= Rabs (a i)) /\
    (forall i, (i < snd st)%nat -> fst st < Rabs (a i))) as (E & L & M & F); [|rewrite <- E; tauto].
  subst st. induction N as [|N IH].
  - cbn. split; [reflexivity|]. split; [lia|]. split; intros i D; [|lia]. replace i with 0%nat by lia. lra.
  - rewrite loop1_S. set (st := loop1 (S N) _ _) in *. destruct IH as (E & L & M & F).
    destruct (Rlt_dec (Rabs (a (S N))) (fst st)) as [G|G]; cbn [fst snd].
    + split; [reflexivity|]. split; [lia|]. split; intros i D.
      * assert (i = S N \/ i < S N)%nat as [->|D'] by lia; [lra|]. specialize (M i D'). lra.
      * specialize (M i D). lra.
    + split; [exact E|]. split; [lia|]. split; [|exact F]. intros i D.
      assert (i = S N \/ i < S N)%nat as [->|D'] by lia; [lra|]. exact (M i D').
Qed.
Lemma clamp_spec a lo hi i : lo i <= hi i ->
  lo i <= vec_clamp a lo hi i <= hi i /\ (forall x, lo i <= x <= hi i -> Rabs (a i - vec_clamp a lo hi i) <= Rabs (a i - x)).
Proof.
  intros H. unfold vec_clamp, std_min, std_max. destruct (Rlt_dec (a i) (lo i)).
  - destruct (Rlt_dec (hi i) (lo i)); [lra|]. split; [lra|]. intros x X. unfold Rabs. destruct (Rcase_abs _), (Rcase_abs _); lra.
  - destruct (Rlt_dec (hi i) (a i)); (split; [lra|]); intros x X; unfold Rabs; destruct (Rcase_abs _), (Rcase_abs _); lra.
Qed.
