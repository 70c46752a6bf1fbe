(** Lemmas for random sampling. *)
From Coq Require Import List Reals Arith Lra Lia Permutation.
From Verif Require Import PerlinSpec Vec3Model QuatModel Vec2Model VecNModel Ord RectModel SamplerModel VecNSpec SamplerSpec.
From Verif Require Import GeoSpec QuatProofs Vec3Proofs PerlinProofs VecNProofs.
Import ListNotations.
Open Scope R_scope.

(** ** Permutations *)
Lemma nth_error_skip {A} (pre l : list A) i : nth_error (pre ++ l) (List.length pre + i) = nth_error l i.
Proof. rewrite nth_error_app2 by lia. f_equal. lia. Qed.
Lemma set_nth_skip {A} (pre l : list A) i x : set_nth (pre ++ l) (List.length pre + i) x = pre ++ set_nth l i x.
Proof.
  unfold set_nth. rewrite firstn_app. replace (List.length pre + i - List.length pre)%nat with i by lia. rewrite firstn_all2 by lia.
  rewrite <- app_assoc. f_equal. f_equal. f_equal. rewrite skipn_app, skipn_all2 by lia. cbn [app]. f_equal. lia.
Qed.
(** One step at the head of the part still to do. *)
Definition swap_head {A} (l : list A) (j : nat) : option (A * list A) :=
  match l, nth_error l j with x :: rest, Some y => Some (y, match j with O => rest | S j => set_nth rest j x end) | _, _ => None end.
Lemma step_head {A} c (pre l : list A) : l <> [] ->
  permute_step c (Some (pre ++ l)) (List.length pre) = match swap_head l (c (List.length pre)) with Some (y, r) => Some (pre ++ y :: r) | None => None end.
Proof.
  destruct l as [|x rest]; [congruence|]. intros _. unfold permute_step, swap_head. set (j := c (List.length pre)).
  rewrite Nat.add_comm, nth_error_skip. pose proof (nth_error_skip pre (x :: rest) 0) as H0. rewrite Nat.add_0_r in H0. rewrite H0. cbn [nth_error].
  destruct (nth_error (x :: rest) j) as [y|] eqn:E; [|reflexivity]. rewrite set_nth_skip.
  pose proof (set_nth_skip pre (set_nth (x :: rest) j x) 0 y) as S0. rewrite Nat.add_0_r in S0. rewrite S0. f_equal. f_equal.
  destruct j as [|j]; [reflexivity|]. cbn. reflexivity.
Qed.
Lemma set_nth_length {A} (l : list A) i x : (i < List.length l)%nat -> List.length (set_nth l i x) = List.length l.
Proof. intros H. unfold set_nth. rewrite app_length, firstn_length. cbn [List.length]. rewrite skipn_length. lia. Qed.
Lemma set_nth_perm {A} (l : list A) i x y : nth_error l i = Some y -> Permutation (x :: l) (y :: set_nth l i x).
Proof.
  intros H. destruct (nth_error_split l i H) as (a & b & -> & L). unfold set_nth. rewrite <- L, firstn_app, Nat.sub_diag. cbn [firstn]. rewrite app_nil_r, firstn_all.
  rewrite skipn_app, skipn_all2 by lia. replace (S (List.length a) - List.length a)%nat with 1%nat by lia. cbn.
  etransitivity; [apply perm_skip, Permutation_sym, Permutation_middle|]. etransitivity; [apply perm_swap|]. apply perm_skip, Permutation_middle.
Qed.
Lemma swap_head_ok {A} (l : list A) j : (j < List.length l)%nat -> exists y r, swap_head l j = Some (y, r) /\ nth_error l j = Some y /\ List.length r = pred (List.length l) /\ Permutation l (y :: r).
Proof.
  intros H. destruct l as [|x rest]; [cbn in H; lia|]. unfold swap_head. destruct (nth_error (x :: rest) j) as [y|] eqn:E; [|apply nth_error_None in E; lia].
  exists y. eexists. split; [reflexivity|]. split; [reflexivity|]. destruct j as [|j].
  - cbn in E. injection E as ->. split; [reflexivity|apply Permutation_refl].
  - cbn in E, H. split; [cbn; apply set_nth_length; lia|]. apply set_nth_perm, E.
Qed.
Lemma fold_none {A} c is : fold_left (permute_step c) is (@None (list A)) = None.
Proof. induction is as [|i is IH]; [reflexivity|exact IH]. Qed.
Lemma permute_from {A} c : forall n (pre l : list A), List.length l = n ->
  (forall i, (i < n)%nat -> (c (List.length pre + i) < n - i)%nat) ->
  exists l', fold_left (permute_step c) (seq (List.length pre) n) (Some (pre ++ l)) = Some (pre ++ l') /\ Permutation l l'.
Proof.
  induction n as [|n IH]; intros pre l L H.
  - exists l. split; [reflexivity|apply Permutation_refl].
  - cbn [seq fold_left]. rewrite step_head by (destruct l; cbn in L; congruence).
    pose proof (H 0%nat ltac:(lia)) as H0. rewrite Nat.add_0_r, Nat.sub_0_r in H0.
    destruct (swap_head_ok l (c (List.length pre))) as (y & r & -> & _ & Lr & P); [lia|].
    destruct (IH (pre ++ [y]) r) as (l' & E & P').
    + lia.
    + intros i Hi. rewrite app_length. cbn [List.length]. specialize (H (S i) ltac:(lia)). replace (List.length pre + 1 + i)%nat with (List.length pre + S i)%nat by lia. lia.
    + rewrite app_length in E. cbn [List.length] in E. rewrite Nat.add_1_r in E. rewrite <- !app_assoc in E. cbn [app] in E.
      exists (y :: l'). split; [exact E|]. etransitivity; [exact P|]. apply perm_skip, P'.
Qed.
Lemma permute_ok {A} c (l : list A) : choices (List.length l) c -> exists l', permute c l = Some l' /\ Permutation l l'.
Proof. intros H. destruct (permute_from c (List.length l) [] l eq_refl) as (l' & E & P); [intros i Hi; exact (H i Hi)|]. exists l'. split; [exact E|exact P]. Qed.
Lemma permute_ext {A} c c' : forall n k (o : option (list A)), (forall i, (k <= i < k + n)%nat -> c i = c' i) ->
  fold_left (permute_step c) (seq k n) o = fold_left (permute_step c') (seq k n) o.
Proof.
  induction n as [|n IH]; intros k o H; [reflexivity|]. cbn [seq fold_left]. rewrite (IH (S k)) by (intros i Hi; apply H; lia).
  f_equal. unfold permute_step. rewrite (H k) by lia. reflexivity.
Qed.
Lemma permute_unique_from {A} c c' : forall n (pre l : list A) l', List.length l = n -> NoDup l ->
  (forall i, (i < n)%nat -> (c (List.length pre + i) < n - i)%nat) -> (forall i, (i < n)%nat -> (c' (List.length pre + i) < n - i)%nat) ->
  fold_left (permute_step c) (seq (List.length pre) n) (Some (pre ++ l)) = Some (pre ++ l') ->
  fold_left (permute_step c') (seq (List.length pre) n) (Some (pre ++ l)) = Some (pre ++ l') ->
  forall i, (i < n)%nat -> c (List.length pre + i)%nat = c' (List.length pre + i)%nat.
Proof.
  induction n as [|n IH]; intros pre l l' L N H H' E E' i Hi; [lia|].
  cbn [seq fold_left] in E, E'. rewrite step_head in E, E' by (destruct l; cbn in L; congruence).
  pose proof (H 0%nat ltac:(lia)) as H0. pose proof (H' 0%nat ltac:(lia)) as H0'. rewrite Nat.add_0_r, Nat.sub_0_r in H0, H0'.
  destruct (swap_head_ok l (c (List.length pre))) as (y & r & S1 & Y & Lr & P); [lia|].
  destruct (swap_head_ok l (c' (List.length pre))) as (y' & r' & S1' & Y' & Lr' & P'); [lia|]. rewrite S1 in E. rewrite S1' in E'.
  assert (HH : forall i, (i < n)%nat -> (c (List.length (pre ++ [y]) + i) < n - i)%nat).
  { intros k Hk. rewrite app_length. cbn [List.length]. specialize (H (S k) ltac:(lia)). replace (List.length pre + 1 + k)%nat with (List.length pre + S k)%nat by lia. lia. }
  assert (HH' : forall y', forall i, (i < n)%nat -> (c' (List.length (pre ++ [y' : A]) + i) < n - i)%nat).
  { intros z k Hk. rewrite app_length. cbn [List.length]. specialize (H' (S k) ltac:(lia)). replace (List.length pre + 1 + k)%nat with (List.length pre + S k)%nat by lia. lia. }
  destruct (permute_from c n (pre ++ [y]) r ltac:(lia) HH) as (q & F & _).
  destruct (permute_from c' n (pre ++ [y']) r' ltac:(lia) (HH' y')) as (q' & F' & _).
  pose proof F as G. pose proof F' as G'. rewrite app_length in G, G'. cbn [List.length] in G, G'. rewrite Nat.add_1_r in G, G'. rewrite <- !app_assoc in G, G'. cbn [app] in G, G'.
  rewrite G in E. rewrite G' in E'. injection E as E. injection E' as E'. apply app_inv_head in E. apply app_inv_head in E'.
  assert (Ey : y = y') by congruence. subst y'. assert (q = q') by congruence. subst q'.
  assert (J : c (List.length pre) = c' (List.length pre)).
  { apply (proj1 (NoDup_nth_error l) N); [lia|]. congruence. }
  destruct i as [|i]; [rewrite Nat.add_0_r; exact J|].
  assert (r = r') by congruence. subst r'.
  specialize (IH (pre ++ [y]) r q ltac:(lia)). rewrite app_length in IH. cbn [List.length] in IH.
  replace (List.length pre + S i)%nat with (List.length pre + 1 + i)%nat by lia. apply IH; try lia.
  - apply (Permutation_NoDup P) in N. now inversion N.
  - intros k Hk. specialize (HH k Hk). rewrite app_length in HH. exact HH.
  - intros k Hk. specialize (HH' y k Hk). rewrite app_length in HH'. exact HH'.
  - rewrite app_length in F. exact F.
  - rewrite app_length in F'. exact F'.
Qed.
Lemma permute_reach_from {A} : forall n k (l l' : list A), List.length l = n -> Permutation l l' ->
  exists c, (forall i, (i < n)%nat -> (c (k + i) < n - i)%nat) /\ forall pre, List.length pre = k ->
    fold_left (permute_step c) (seq k n) (Some (pre ++ l)) = Some (pre ++ l').
Proof.
  induction n as [|n IH]; intros k l l' L P.
  - exists (fun _ => 0%nat). split; [intros; lia|]. intros pre _. apply length_zero_iff_nil in L. subst l. apply Permutation_nil in P. subst l'. reflexivity.
  - destruct l' as [|y q]; [apply Permutation_sym, Permutation_nil in P; subst l; discriminate L|].
    assert (In y l) as I by (apply (Permutation_in y (Permutation_sym P)); now left).
    destruct (In_nth_error l y I) as (j & J). assert (j < List.length l)%nat as Hj by (apply nth_error_Some; congruence).
    destruct (swap_head_ok l j Hj) as (y' & r & S1 & Y & Lr & P'). assert (y' = y) by congruence. subst y'.
    destruct (IH (S k) r q) as (c & C & F); [lia| |].
    { apply (Permutation_cons_inv (a := y)). etransitivity; [apply Permutation_sym, P'|exact P]. }
    exists (fun i => if (i =? k)%nat then j else c i). split.
    + intros [|i] Hi; [rewrite Nat.add_0_r, Nat.eqb_refl; lia|]. destruct (Nat.eqb_spec (k + S i) k); [lia|]. replace (k + S i)%nat with (S k + i)%nat by lia. specialize (C i ltac:(lia)). lia.
    + intros pre <-. cbn [seq fold_left]. rewrite step_head by (destruct l; cbn in L; congruence). rewrite Nat.eqb_refl, S1.
      specialize (F (pre ++ [y]) ltac:(rewrite app_length; cbn; lia)). rewrite <- !app_assoc in F. cbn [app] in F. rewrite <- F.
      apply permute_ext. intros i Hi. destruct (Nat.eqb_spec i (List.length pre)); [lia|reflexivity].
Qed.
Lemma permute_uniform_ok {A} (l l' : list A) : NoDup l -> Permutation l l' ->
  exists c, choices (List.length l) c /\ permute c l = Some l' /\
    forall c', choices (List.length l) c' -> permute c' l = Some l' -> forall i, (i < List.length l)%nat -> c' i = c i.
Proof.
  intros N P. destruct (permute_reach_from (List.length l) 0 l l' eq_refl P) as (c & C & F). exists c. split; [exact C|].
  split; [exact (F [] eq_refl)|]. intros c' C' F' i Hi.
  exact (permute_unique_from c' c (List.length l) [] l l' eq_refl N C' C F' (F [] eq_refl) i Hi).
Qed.

(** ** Roots *)
Lemma pow_le_iff N a b : (0 < N)%nat -> 0 <= a -> 0 <= b -> (a ^ N <= b ^ N <-> a <= b).
Proof.
  intros HN Ha Hb. split; intros H.
  - destruct (Rle_lt_dec a b) as [L|L]; [exact L|]. exfalso. pose proof (pow_incr b a N (Logic.conj Hb (Rlt_le _ _ L))) as Q.
    assert (E : a ^ N = b ^ N) by lra. assert (b ^ N < a ^ N); [|lra]. clear - L Hb HN.
    destruct N as [|N]; [lia|]. clear HN. cbn [pow]. pose proof (pow_incr b a N (Logic.conj Hb (Rlt_le _ _ L))). pose proof (pow_le b N Hb).
    assert (0 < a ^ N) by (apply pow_lt; lra). assert (b * b ^ N <= b * a ^ N) by (apply Rmult_le_compat_l; lra). assert (b * a ^ N < a * a ^ N) by (apply Rmult_lt_compat_r; lra). lra.
  - apply pow_incr. lra.
Qed.
Lemma root_ok N x : (0 < N)%nat -> 0 <= x -> 0 <= root N x /\ root N x ^ N = x.
Proof.
  intros HN H. unfold root. destruct (Req_EM_T x 0) as [->|D].
  - split; [lra|]. apply pow_i; lia.
  - split; [apply Rlt_le, exp_pos|]. rewrite <- Rpower_pow by apply exp_pos. rewrite Rpower_mult.
    assert (INR N <> 0) by (apply not_0_INR; lia). replace (1 / INR N * INR N) with 1 by (field; assumption). apply Rpower_1. lra.
Qed.
Lemma root_le N x t : (0 < N)%nat -> 0 <= x -> 0 <= t -> (root N x <= t <-> x <= t ^ N).
Proof. intros HN Hx Ht. destruct (root_ok N x HN Hx) as (A & B). rewrite <- B at 2. symmetry. apply pow_le_iff; assumption. Qed.
Lemma root_ge N x t : (0 < N)%nat -> 0 <= x -> 0 <= t -> (t <= root N x <-> t ^ N <= x).
Proof. intros HN Hx Ht. destruct (root_ok N x HN Hx) as (A & B). rewrite <- B at 2. symmetry. apply pow_le_iff; assumption. Qed.
Lemma root_1 N x : (0 < N)%nat -> 0 <= x <= 1 -> x <= root N x <= 1.
Proof.
  intros HN H. split.
  - apply root_ge; [exact HN|lra|lra|]. destruct N as [|N]; [lia|]. cbn [pow]. assert (x ^ N <= 1) by (rewrite <- (pow1 N); apply pow_incr; lra). pose proof (pow_le x N ltac:(lra)). nra.
  - apply root_le; [exact HN|lra|lra|]. rewrite pow1. lra.
Qed.
Lemma root_gap N x : (1 < N)%nat -> 0 < x < 1 -> x < root N x.
Proof.
  intros HN H. destruct (Rle_lt_dec (root N x) x) as [L|L]; [|exact L]. exfalso. apply root_le in L; [|lia|lra|lra].
  destruct N as [|[|N]]; try lia. cbn [pow] in L. assert (x ^ N <= 1) by (rewrite <- (pow1 N); apply pow_incr; lra). pose proof (pow_le x N ltac:(lra)). nra.
Qed.
Lemma rand_in_range lo hi x : lo <= hi -> 0 <= x <= 1 -> lo <= rand_in lo hi x <= hi.
Proof. intros H Hx. unfold rand_in. split; nra. Qed.

(** ** Balls and spheres *)
Lemma ball_cond N v : ((if Rlt_dec 1 (mag2 N v) then true else false) = false <-> length N v <= 1).
Proof.
  rewrite mag2_is, <- length_sq. pose proof (length_nonneg N v). destruct (Rlt_dec 1 (length N v * length N v)) as [L|L]; split; intros H0; try discriminate; try reflexivity; try lra.
  - exfalso. nra.
  - destruct (Rle_lt_dec (length N v) 1) as [Q|Q]; [exact Q|]. exfalso. apply L. nra.
Qed.
Lemma solidball_iff u N : forall fuel k v k', solidball u N fuel k = Some (v, k') <->
  exists t, (t < fuel)%nat /\ v = cube_point u N (k + t * N) /\ length N v <= 1 /\ (forall s, (s < t)%nat -> 1 < length N (cube_point u N (k + s * N))) /\ k' = (k + (t + 1) * N)%nat.
Proof.
  induction fuel as [|fuel IH]; intros k v k'; cbn [solidball].
  - split; [discriminate|]. intros (t & H & _). lia.
  - pose proof (ball_cond N (cube_point u N k)) as C. destruct (Rlt_dec 1 (mag2 N (cube_point u N k))) as [L|L].
    + assert (O : 1 < length N (cube_point u N k)) by (destruct (Rle_lt_dec (length N (cube_point u N k)) 1) as [Q|Q]; [apply C in Q; discriminate|exact Q]).
      rewrite IH. split; intros (t & A & B & D & E & F).
      * exists (S t). split; [lia|]. replace (k + S t * N)%nat with (k + N + t * N)%nat by lia. split; [exact B|]. split; [exact D|]. split; [|lia].
        intros [|s] Hs; [rewrite Nat.mul_0_l, Nat.add_0_r; exact O|]. replace (k + S s * N)%nat with (k + N + s * N)%nat by lia. apply E. lia.
      * destruct t as [|t]; [rewrite Nat.mul_0_l, Nat.add_0_r in B; subst v; lra|]. exists t. split; [lia|]. replace (k + N + t * N)%nat with (k + S t * N)%nat by lia. split; [exact B|]. split; [exact D|]. split; [|lia].
        intros s Hs. replace (k + N + s * N)%nat with (k + S s * N)%nat by lia. apply E. lia.
    + assert (I : length N (cube_point u N k) <= 1) by (apply C; reflexivity). split.
      * intros E. injection E as <- <-. exists 0%nat. rewrite Nat.mul_0_l, !Nat.add_0_r. repeat split; try lia; try exact I. 
      * intros (t & A & B & D & E & F). destruct t as [|t]; [|specialize (E 0%nat ltac:(lia)); rewrite Nat.mul_0_l, Nat.add_0_r in E; lra].
        rewrite Nat.mul_0_l, Nat.add_0_r in B. subst v k'. f_equal. f_equal. lia.
Qed.
Lemma ball_inside u N fuel k v k' : solidball u N fuel k = Some (v, k') -> length N v <= 1.
Proof. intros H. apply solidball_iff in H. destruct H as (t & _ & _ & H & _). exact H. Qed.
Lemma sphere_ok u N fuel k v : sample_unit u N fuel k = Some v -> length N v = 1 /\ exists p k', solidball u N fuel k = Some (p, k') /\ same N p (fun i => length N p * v i).
Proof.
  unfold sample_unit. destruct (solidball u N fuel k) as [[p k']|] eqn:E; [|discriminate]. intros H. destruct (unit_length N p v H) as (A & B).
  split; [exact A|]. exists p, k'. split; [reflexivity|exact B].
Qed.
Lemma sphere_none u N fuel k p k' : solidball u N fuel k = Some (p, k') -> (sample_unit u N fuel k = None <-> all_zero N p).
Proof. intros E. unfold sample_unit. rewrite E. apply unit_none. Qed.
Lemma sphere_halves u N fuel k : (forall i, u i = 1 / 2) -> sample_unit u N (S fuel) k = None.
Proof.
  intros H. assert (Z : all_zero N (cube_point u N k)).
  { intros i Hi. unfold cube_point. destruct (Nat.ltb_spec i N); [|lia]. rewrite H. unfold rand_in. lra. }
  assert (L : length N (cube_point u N k) = 0) by (apply length_zero, Z).
  apply (sphere_none u N (S fuel) k (cube_point u N k) (k + N)); [|exact Z].
  apply solidball_iff. exists 0%nat. rewrite Nat.mul_0_l, Nat.add_0_r. repeat split; try lia; try lra.
Qed.
Lemma length_vscale N v s : length N (vec_scale v s) = Rabs s * length N v.
Proof. rewrite <- length_scale. apply length_ext. intros i _. unfold vec_scale. ring. Qed.
Lemma sphere_radius u N fuel k r v : sample_unit_radius u N fuel k r = Some v -> length N v = Rabs r.
Proof.
  unfold sample_unit_radius. destruct (sample_unit u N fuel k) as [p|] eqn:E; [|discriminate]. intros H. injection H as <-.
  rewrite length_vscale, (proj1 (sphere_ok u N fuel k p E)). ring.
Qed.
Lemma scaled_length N v x r : (0 < N)%nat -> 0 <= x -> length N (ball_scaled N v x r) = Rabs r * (root N x * length N v).
Proof. intros HN Hx. unfold ball_scaled. rewrite !length_vscale, (Rabs_pos_eq (root N x)) by apply (root_ok N x HN Hx). reflexivity. Qed.
Lemma ball_radius_ok u N fuel k r w : (0 < N)%nat -> unit_numbers u -> solidball_radius u N fuel k r = Some w ->
  length N w <= Rabs r /\ exists v k', solidball u N fuel (k + 1) = Some (v, k') /\ w = ball_scaled N v (u k) r.
Proof.
  unfold solidball_radius. intros HN U. destruct (solidball u N fuel (k + 1)) as [[v k']|] eqn:E; [|discriminate]. intros H. injection H as <-.
  split; [|exists v, k'; split; reflexivity]. pose proof (ball_inside _ _ _ _ _ _ E) as I. rewrite scaled_length; [|exact HN|apply U].
  destruct (root_1 N (u k) HN (U k)) as (A & B). pose proof (length_nonneg N v). pose proof (Rabs_pos r). destruct (U k).
  assert (root N (u k) * length N v <= 1 * 1) by (apply Rmult_le_compat; lra). nra.
Qed.
Lemma share_bound {A} P dec (l : list A) : l <> [] -> 0 <= share P dec l <= 1.
Proof.
  intros H. unfold share. assert (0 < INR (List.length l)) by (apply lt_0_INR; destruct l; [congruence|cbn; lia]).
  pose proof (pos_INR (List.length (filter (fun a => if dec a then true else false) l))). 
  assert (INR (List.length (filter (fun a => if dec a then true else false) l)) <= INR (List.length l)).
  { apply le_INR. clear. induction l as [|a l IH]; [cbn; lia|]. cbn [filter List.length]. destruct (dec a); cbn [List.length]; lia. }
  split; [apply Rmult_le_pos; [assumption|apply Rlt_le, Rinv_0_lt_compat; assumption]|].
  apply (Rmult_le_reg_r (INR (List.length l))); [assumption|]. unfold Rdiv. rewrite Rmult_assoc, Rinv_l by lra. lra.
Qed.
Lemma count_all {A} (f : A -> bool) l : List.length l = (List.length (filter f l) + List.length (filter (fun a => negb (f a)) l))%nat.
Proof. induction l as [|a l IH]; [reflexivity|]. cbn [filter List.length]. destruct (f a); cbn [negb List.length]; lia. Qed.
Lemma count_app {A} (f : A -> bool) l l' : List.length (filter f (l ++ l')) = (List.length (filter f l) + List.length (filter f l'))%nat.
Proof. rewrite filter_app. apply app_length. Qed.
Lemma count_pairs {A B} (f : A -> bool) (g : B -> bool) (h : A * B -> bool) la lb :
  (forall a b, In a la -> In b lb -> h (a, b) = false -> f a = false /\ g b = false) ->
  (List.length (filter (fun p => negb (h p)) (list_prod la lb)) <= List.length (filter (fun a => negb (f a)) la) * List.length (filter (fun b => negb (g b)) lb))%nat.
Proof.
  intros H. induction la as [|a la IH]; [cbn; lia|]. cbn [list_prod]. rewrite count_app.
  assert (IH' := IH (fun a' b Ia Ib => H a' b (or_intror Ia) Ib)). clear IH.
  assert (K : (List.length (filter (fun p => negb (h p)) (map (fun y => (a, y)) lb)) <= if negb (f a) then List.length (filter (fun b => negb (g b)) lb) else 0)%nat).
  { assert (H' : forall b, In b lb -> h (a, b) = false -> f a = false /\ g b = false) by (intros b Ib; apply H; [now left|exact Ib]). clear - H'.
    induction lb as [|b lb IH]; [destruct (f a); cbn; lia|]. cbn [map filter]. assert (IH' := IH (fun b' Ib => H' b' (or_intror Ib))). specialize (H' b (or_introl eq_refl)).
    destruct (h (a, b)) eqn:E; cbn [negb].
    - destruct (f a); cbn [negb] in *; [exact IH'|]. destruct (g b); cbn [negb List.length] in *; lia.
    - destruct (H' eq_refl) as (F1 & G1). rewrite F1, G1 in *. cbn [negb List.length] in *. lia. }
  cbn [filter]. destruct (f a); cbn [negb List.length] in *; lia.
Qed.
Lemma share_pairs {A B} (P : A -> Prop) dP (Q : B -> Prop) dQ (S : A * B -> Prop) dS la lb : la <> [] -> lb <> [] ->
  (forall a b, In a la -> In b lb -> P a \/ Q b -> S (a, b)) ->
  1 - (1 - share P dP la) * (1 - share Q dQ lb) <= share S dS (list_prod la lb).
Proof.
  intros Na Nb H. set (f := fun a => if dP a then true else false). set (g := fun b => if dQ b then true else false). set (h := fun p => if dS p then true else false).
  pose proof (count_pairs f g h la lb) as C. pose proof (count_all f la) as Ca. pose proof (count_all g lb) as Cb. pose proof (count_all h (list_prod la lb)) as Cp.
  unfold share. fold f g h. rewrite prod_length in *. 
  assert (C' := C ltac:(intros a b Ia Ib Eh; unfold f, g, h in *; destruct (dS (a, b)) as [|n]; [discriminate|]; split; [destruct (dP a) as [p|]; [exfalso; apply n, H; auto|reflexivity]|destruct (dQ b) as [q|]; [exfalso; apply n, H; auto|reflexivity]])). clear C.
  set (n := List.length la) in *. set (m := List.length lb) in *. assert (0 < INR n) by (apply lt_0_INR; subst n; destruct la; [congruence|cbn; lia]). assert (0 < INR m) by (apply lt_0_INR; subst m; destruct lb; [congruence|cbn; lia]).
  apply le_INR in C'. rewrite mult_INR in C'. apply (f_equal INR) in Ca, Cb, Cp. rewrite plus_INR in Ca, Cb, Cp. rewrite mult_INR in *.
  set (x := INR (List.length (filter f la))) in *. set (y := INR (List.length (filter g lb))) in *. set (z := INR (List.length (filter h (list_prod la lb)))) in *.
  set (x' := INR (List.length (filter (fun a => negb (f a)) la))) in *. set (y' := INR (List.length (filter (fun b => negb (g b)) lb))) in *. set (z' := INR (List.length (filter (fun p => negb (h p)) (list_prod la lb)))) in *.
  apply (Rmult_le_reg_r (INR n * INR m)); [apply Rmult_lt_0_compat; assumption|].
  replace (z / (INR n * INR m) * (INR n * INR m)) with z by (field; lra).
  replace ((1 - (1 - x / INR n) * (1 - y / INR m)) * (INR n * INR m)) with (INR n * INR m - (INR n - x) * (INR m - y)) by (field; lra).
  replace (INR n - x) with x' by lra. replace (INR m - y) with y' by lra. lra.
Qed.
Lemma ball_crowded N s r us bs (dec1 : forall x : R, {x <= s ^ N} + {~ x <= s ^ N}) (dec2 : forall b, {shorter N s b} + {~ shorter N s b})
  (dec3 : forall p : R * vec, {shorter N (s * r) (ball_scaled N (snd p) (fst p) r)} + {~ shorter N (s * r) (ball_scaled N (snd p) (fst p) r)}) :
  (0 < N)%nat -> 0 < s < 1 -> 0 < r -> us <> [] -> bs <> [] -> Forall (fun x => 0 <= x <= 1) us -> Forall (fun b => length N b <= 1) bs ->
  share (fun x => x <= s ^ N) dec1 us = s ^ N -> share (shorter N s) dec2 bs = s ^ N ->
  s ^ N < share (fun p => shorter N (s * r) (ball_scaled N (snd p) (fst p) r)) dec3 (list_prod us bs).
Proof.
  intros HN Hs Hr Nu Nb Fu Fb Su Sb. rewrite Forall_forall in Fu, Fb.
  assert (K := share_pairs (fun x => x <= s ^ N) dec1 (shorter N s) dec2 (fun p => shorter N (s * r) (ball_scaled N (snd p) (fst p) r)) dec3 us bs Nu Nb).
  rewrite Su, Sb in K.
  assert (0 < s ^ N < 1). { split; [apply pow_lt; lra|]. destruct N as [|N]; [lia|]. cbn [pow]. assert (s ^ N <= 1) by (rewrite <- (pow1 N); apply pow_incr; lra). assert (0 < s ^ N) by (apply pow_lt; lra). nra. }
  eapply Rlt_le_trans; [|apply K]; [nra|]. intros x b Ix Ib H'. specialize (Fu x Ix). specialize (Fb b Ib). cbn [fst snd]. unfold shorter in *. rewrite scaled_length by lra || exact HN.
  destruct (root_1 N x HN Fu) as (A & B). pose proof (length_nonneg N b). rewrite (Rabs_pos_eq r) by lra.
  assert (root N x * length N b <= s).
  { destruct H' as [H'|H'].
    - apply root_le in H'; [|exact HN|lra|lra]. assert (root N x * length N b <= s * 1) by (apply Rmult_le_compat; lra). lra.
    - assert (root N x * length N b <= 1 * s) by (apply Rmult_le_compat; lra). lra. }
  rewrite Rmult_comm. apply Rmult_le_compat_r; lra.
Qed.
Lemma div_opt_pos a b : 0 < b -> div_opt a b = Some (a / b).
Proof. intros H. unfold div_opt. destruct (Req_EM_T b 0); [lra|reflexivity]. Qed.
Lemma quotient_range a b : 0 <= a <= b -> 0 < b -> 0 <= a / b <= 1.
Proof.
  intros H Hb. split; [apply Rmult_le_pos; [lra|apply Rlt_le, Rinv_0_lt_compat, Hb]|]. apply (Rmult_le_reg_r b); [exact Hb|]. unfold Rdiv. rewrite Rmult_assoc, Rinv_l by lra. lra.
Qed.
(** The radius drawn for a region between two spheres. *)
Lemma radius_range N lo hi x : (0 < N)%nat -> 0 <= lo <= hi -> 0 < hi -> 0 <= x <= 1 -> lo <= hi * root N (rand_in (lo / hi) 1 x) <= hi.
Proof.
  intros HN H Hh Hx. pose proof (quotient_range lo hi H Hh) as Q. pose proof (rand_in_range (lo / hi) 1 x ltac:(lra) Hx) as A.
  destruct (root_1 N (rand_in (lo / hi) 1 x) HN ltac:(lra)) as (B & C). split; [|nra].
  replace lo with (hi * (lo / hi)) at 1 by (field; lra). apply Rmult_le_compat_l; lra.
Qed.
Lemma radius_gap N lo hi x : (1 < N)%nat -> 0 < lo < hi -> 0 <= x <= 1 -> lo < hi * root N (lo / hi) <= hi * root N (rand_in (lo / hi) 1 x).
Proof.
  intros HN H Hx. pose proof (quotient_range lo hi ltac:(lra) ltac:(lra)) as Q.
  assert (S : 0 < lo / hi < 1). { split; [apply Rmult_lt_0_compat; [lra|apply Rinv_0_lt_compat; lra]|]. apply (Rmult_lt_reg_r hi); [lra|]. unfold Rdiv. rewrite Rmult_assoc, Rinv_l by lra. lra. }
  pose proof (rand_in_range (lo / hi) 1 x ltac:(lra) Hx) as A. split.
  - pose proof (root_gap N (lo / hi) HN S). replace lo with (hi * (lo / hi)) at 1 by (field; lra). apply Rmult_lt_compat_l; lra.
  - apply Rmult_le_compat_l; [lra|]. destruct (root_ok N (lo / hi) ltac:(lia) ltac:(lra)) as (B & C). apply root_ge; [lia|lra|exact B|]. rewrite C. lra.
Qed.
Lemma radius_quantile N hi x t : (0 < N)%nat -> 0 < hi -> 0 <= x <= 1 -> 0 <= t -> (hi * root N (rand_in (0 / hi) 1 x) <= t <-> x <= t ^ N / hi ^ N).
Proof.
  intros HN Hh Hx Ht. replace (rand_in (0 / hi) 1 x) with x by (unfold rand_in; field; lra).
  assert (P : 0 < hi ^ N) by (apply pow_lt, Hh). transitivity (root N x <= t / hi).
  - split; intros L.
    + apply (Rmult_le_reg_l hi); [exact Hh|]. replace (hi * (t / hi)) with t by (field; lra). exact L.
    + replace t with (hi * (t / hi)) by (field; lra). apply Rmult_le_compat_l; lra.
  - rewrite root_le; [|exact HN|lra|apply Rmult_le_pos; [exact Ht|apply Rlt_le, Rinv_0_lt_compat, Hh]]. unfold Rdiv. rewrite Rpow_mult_distr, <- pow_inv by lra. reflexivity.
Qed.
Lemma shell_length u N fuel k lo hi w : (0 < N)%nat -> unit_numbers u -> 0 <= lo <= hi -> 0 < hi -> shell u N fuel k lo hi = Some w ->
  length N w = hi * root N (rand_in (lo / hi) 1 (u k)).
Proof.
  intros HN U H Hh. unfold shell. rewrite div_opt_pos by exact Hh. destruct (sample_unit u N fuel (k + 1)) as [v|] eqn:E; [|discriminate]. intros F. injection F as <-.
  rewrite !length_vscale, (proj1 (sphere_ok u N fuel (k + 1) v E)). rewrite (Rabs_pos_eq hi) by lra.
  pose proof (quotient_range lo hi H Hh). pose proof (rand_in_range (lo / hi) 1 (u k) ltac:(lra) (U k)). rewrite Rabs_pos_eq; [ring|]. apply (root_ok N); [exact HN|lra].
Qed.
Lemma shell_ok u N fuel k lo hi w : (0 < N)%nat -> unit_numbers u -> 0 <= lo <= hi -> 0 < hi -> shell u N fuel k lo hi = Some w -> lo <= length N w <= hi.
Proof. intros HN U H Hh E. rewrite (shell_length u N fuel k lo hi w HN U H Hh E). apply radius_range; auto. Qed.
Lemma shell_gap N lo hi : (1 < N)%nat -> 0 < lo < hi -> exists m, lo < m <= hi /\ forall u fuel k w, unit_numbers u -> shell u N fuel k lo hi = Some w -> m <= length N w.
Proof.
  intros HN H. exists (hi * root N (lo / hi)). split.
  - destruct (radius_gap N lo hi 0 HN H ltac:(lra)) as (A & B). split; [exact A|]. pose proof (radius_range N lo hi 0 ltac:(lia) ltac:(lra) ltac:(lra) ltac:(lra)). lra.
  - intros u fuel k w U E. rewrite (shell_length u N fuel k lo hi w ltac:(lia) U ltac:(lra) ltac:(lra) E). apply radius_gap; auto.
Qed.
Lemma shell_quantile u N fuel k hi w t : (0 < N)%nat -> unit_numbers u -> 0 < hi -> 0 <= t -> shell u N fuel k 0 hi = Some w -> (length N w <= t <-> u k <= t ^ N / hi ^ N).
Proof. intros HN U Hh Ht E. rewrite (shell_length u N fuel k 0 hi w HN U ltac:(lra) Hh E). apply radius_quantile; auto. Qed.

(** ** Boxes *)
Lemma box_ok u lo hi k i : unit_numbers u -> lo i <= hi i -> lo i <= sample_box_in u lo hi k i <= hi i.
Proof. intros U H. unfold sample_box_in. apply rand_in_range; auto. Qed.
Lemma rand_in_quantile lo hi x t : lo < hi -> (rand_in lo hi x <= t <-> x <= (t - lo) / (hi - lo)).
Proof.
  intros H. unfold rand_in. split; intros L.
  - apply (Rmult_le_reg_l (hi - lo)); [lra|]. replace ((hi - lo) * ((t - lo) / (hi - lo))) with (t - lo) by (field; lra). lra.
  - assert ((hi - lo) * x <= (hi - lo) * ((t - lo) / (hi - lo))) as Q by (apply Rmult_le_compat_l; lra). replace ((hi - lo) * ((t - lo) / (hi - lo))) with (t - lo) in Q by (field; lra). lra.
Qed.

(** ** Caps *)
Lemma cap_height u a k : vz (cap u a k) = rand_in (cos a) 1 (u k).
Proof. reflexivity. Qed.
Lemma cap_height_range u a k : unit_numbers u -> cos a <= vz (cap u a k) <= 1 /\ -1 <= vz (cap u a k).
Proof. intros U. rewrite cap_height. pose proof (COS_bound a). pose proof (rand_in_range (cos a) 1 (u k) ltac:(lra) (U k)). lra. Qed.
Lemma cap_unit u a k : unit_numbers u -> is_unit (cap u a k).
Proof.
  intros U. destruct (cap_height_range u a k U) as ((A & B) & C). rewrite cap_height in *. unfold is_unit, mag2_3, dot3, cap. cbn [vx vy vz].
  set (h := rand_in (cos a) 1 (u k)) in *. set (t := rand_below _ _). assert (0 <= 1 - h * h) by nra. pose proof (sqrt_sqrt (1 - h * h) H) as S. pose proof (sin2_cos2 t) as T. unfold Rsqr in T.
  transitivity (h * h + sqrt (1 - h * h) * sqrt (1 - h * h) * (sin t * sin t + cos t * cos t)); [ring|]. rewrite S, T. ring.
Qed.
Lemma cos_le_iff a b : 0 <= a <= PI -> 0 <= b <= PI -> (cos a <= cos b <-> b <= a).
Proof.
  intros Ha Hb. split; intros H.
  - destruct (Rle_lt_dec b a) as [L|L]; [exact L|]. exfalso. pose proof (cos_decreasing_1 a b ltac:(lra) ltac:(lra) ltac:(lra) ltac:(lra) L). lra.
  - apply cos_decr_1; lra.
Qed.
Lemma cap_quantile u a k b : unit_numbers u -> 0 < a <= PI -> 0 <= b <= PI ->
  (acos (vz (cap u a k)) <= b <-> 1 - u k <= cap_area b / cap_area a).
Proof.
  intros U Ha Hb. destruct (cap_height_range u a k U) as ((A & B) & C). pose proof (acos_bound (vz (cap u a k))).
  rewrite <- (cos_le_iff b) by lra. rewrite cos_acos by lra. rewrite cap_height. unfold cap_area, rand_in.
  assert (cos a < 1). { rewrite <- cos_0. apply cos_decreasing_1; lra. }
  pose proof PI_RGT_0. replace (2 * PI * (1 - cos b) / (2 * PI * (1 - cos a))) with ((1 - cos b) / (1 - cos a)) by (field; split; lra).
  split; intros L.
  - apply (Rmult_le_reg_l (1 - cos a)); [lra|]. replace ((1 - cos a) * ((1 - cos b) / (1 - cos a))) with (1 - cos b) by (field; lra). lra.
  - assert ((1 - cos a) * (1 - u k) <= (1 - cos a) * ((1 - cos b) / (1 - cos a))) as Q by (apply Rmult_le_compat_l; lra). replace ((1 - cos a) * ((1 - cos b) / (1 - cos a))) with (1 - cos b) in Q by (field; lra). lra.
Qed.
(** Turning the z axis to a direction. *)
Lemma turn_ok dir v : mag2_3 (turn_to dir v) = mag2_3 v /\ (~ points_down dir -> dot3 (turn_to dir v) dir = vz v * mag3 dir) /\ (points_down dir -> turn_to dir v = v).
Proof.
  unfold turn_to. set (ax := cross3 (V3 0 0 1) dir). pose proof (is_zero3_spec ax) as Z. destruct (is_zero3 ax).
  - split; [reflexivity|]. split; [|reflexivity]. intros D. injection Z as X Y W. unfold points_down in D. unfold mag3, mag2_3, dot3. cbn in X, Y.
    assert (vx dir = 0) as -> by lra. assert (vy dir = 0) as -> by lra. assert (0 <= vz dir) by (destruct (Rle_lt_dec 0 (vz dir)); [assumption|exfalso; apply D; repeat split; lra]).
    replace (vz dir * vz dir + (0 * 0 + (0 * 0 + 0))) with (vz dir * vz dir) by ring. rewrite sqrt_square by assumption. ring.
  - set (t := acos (vz dir / mag3 dir)). assert (Zz : vz ax = 0) by (unfold ax; cbn; ring).
    assert (E : rotate3 v ax t = rodrigues (unit3 ax) t v) by (apply rotate3_right; [exact Z|rewrite Zz; ring]). rewrite E.
    assert (Nd : dir <> zero3) by (intros ->; apply Z; unfold ax, cross3, zero3; cbn; f_equal; ring).
    pose proof (mag_pos dir Nd) as Mp. pose proof (mag_sq dir) as Ms. rewrite dot3_def in Ms || unfold mag2_3 in Ms; rewrite ?dot3_def in Ms.
    pose proof (mag_pos ax Z) as Qp. pose proof (mag_sq ax) as Qs. unfold mag2_3 in Qs. rewrite dot3_def in Qs. rewrite Zz in Qs.
    assert (Ax : vx ax = - vy dir) by (unfold ax; cbn; ring). assert (Ay : vy ax = vx dir) by (unfold ax; cbn; ring). rewrite Ax, Ay in Qs.
    set (m := mag3 dir) in *. set (q := mag3 ax) in *.
    assert (Hc : -1 <= vz dir / m <= 1). { assert (vz dir * vz dir <= m * m) by nra. split; apply (Rmult_le_reg_r m); try exact Mp; unfold Rdiv; rewrite Rmult_assoc, Rinv_l by lra; nra. }
    assert (Ct : cos t = vz dir / m) by (apply cos_acos; lra).
    assert (St : sin t = q / m).
    { unfold t. rewrite sin_acos by lra. replace (1 - Rsqr (vz dir / m)) with ((q / m) * (q / m)).
      - apply sqrt_square. apply Rmult_le_pos; [lra|apply Rlt_le, Rinv_0_lt_compat, Mp].
      - unfold Rsqr. apply (Rmult_eq_reg_r (m * m)); [|nra]. replace (q / m * (q / m) * (m * m)) with (q * q) by (field; lra). replace ((1 - vz dir / m * (vz dir / m)) * (m * m)) with (m * m - vz dir * vz dir) by (field; lra). lra. }
    assert (U1 : vx (unit3 ax) = - vy dir / q) by (unfold unit3; cbn [vx]; fold q; rewrite Ax; reflexivity).
    assert (U2 : vy (unit3 ax) = vx dir / q) by (unfold unit3; cbn [vy]; fold q; rewrite Ay; reflexivity).
    assert (U3 : vz (unit3 ax) = 0) by (unfold unit3; cbn [vz]; rewrite Zz; unfold Rdiv; ring).
    assert (S2 : cos t * cos t + sin t * sin t = 1) by (pose proof (sin2_cos2 t) as T; unfold Rsqr in T; lra).
    assert (K2 : is_unit (unit3 ax)) by (apply unit_unit, Z).
    split; [|split].
    + unfold is_unit, mag2_3 in K2. rewrite dot3_def in K2. clear - S2 K2. unfold mag2_3. rewrite !dot3_def. unfold rodrigues, add3, scale3, cross3. cbn [vx vy vz]. rewrite dot3_def.
      set (c := cos t) in *. set (s := sin t) in *. destruct v as [x y z]. destruct (unit3 ax) as [a b d]. cbn [vx vy vz] in *.
      assert (Es : s * s = 1 - c * c) by lra. set (D := a * x + b * y + d * z). set (V := x * x + y * y + z * z). set (K := a * a + b * b + d * d) in *.
      transitivity (c * c * V + s * s * (K * V - D * D) + D * D * ((1 - c) * (1 - c)) * K + 2 * c * (1 - c) * (D * D)); [unfold D, V, K; ring|]. rewrite Es, K2. ring.
    + intros _. rewrite dot3_def. unfold rodrigues, add3, scale3, cross3. cbn [vx vy vz]. rewrite dot3_def, U1, U2, U3, Ct, St.
      transitivity (vz v * (vz dir * vz dir + (vx dir * vx dir + vy dir * vy dir)) / m); [field; lra|]. replace (vz dir * vz dir + (vx dir * vx dir + vy dir * vy dir)) with (m * m) by lra. field. lra.
    + intros (D1 & D2 & _). exfalso. apply Z. apply v3_eq; cbn; rewrite ?D1, ?D2; ring.
Qed.
Lemma cap_about_ok u dir a k : unit_numbers u ->
  is_unit (cap_about u dir a k) /\ (~ points_down dir -> cos a * mag3 dir <= dot3 (cap_about u dir a k) dir).
Proof.
  intros U. destruct (turn_ok dir (cap u a k)) as (A & B & _). split.
  - unfold is_unit, cap_about. rewrite A. apply cap_unit, U.
  - intros D. unfold cap_about. rewrite (B D). apply Rmult_le_compat_r; [apply mag_nonneg|]. apply cap_height_range, U.
Qed.
Lemma cap_about_down u dir a k : unit_numbers u -> points_down dir -> dot3 (cap_about u dir a k) dir <= - cos a * mag3 dir.
Proof.
  intros U D. unfold cap_about. rewrite (proj2 (proj2 (turn_ok dir (cap u a k))) D). destruct D as (X & Y & Z). rewrite dot3_def, X, Y.
  assert (M : mag3 dir = - vz dir). { unfold mag3, mag2_3. rewrite dot3_def, X, Y. replace (0 * 0 + 0 * 0 + vz dir * vz dir) with ((- vz dir) * (- vz dir)) by ring. apply sqrt_square. lra. }
  rewrite M. pose proof (proj1 (proj1 (cap_height_range u a k U))). nra.
Qed.
Lemma mag_scale3 r v : 0 <= r -> mag3 (scale3 r v) = r * mag3 v.
Proof.
  intros H. unfold mag3. replace (mag2_3 (scale3 r v)) with ((r * r) * mag2_3 v) by (unfold mag2_3; rewrite !dot3_def; cbn; ring).
  rewrite sqrt_mult; [|nra|apply mag2_nonneg]. rewrite sqrt_square by exact H. reflexivity.
Qed.
Lemma solidcap_is u dir a lo hi k : unit_numbers u -> 0 <= lo <= hi -> 0 < hi -> exists w, solidcap u dir a lo hi k = Some w /\
  mag3 w = hi * root 3 (rand_in (lo / hi) 1 (u k)) /\ dot3 w dir = mag3 w * dot3 (cap_about u dir a (k + 1)) dir.
Proof.
  intros U H Hh. unfold solidcap. rewrite div_opt_pos by exact Hh. eexists. split; [reflexivity|].
  pose proof (quotient_range lo hi H Hh). pose proof (rand_in_range (lo / hi) 1 (u k) ltac:(lra) (U k)).
  assert (P : 0 <= hi * root 3 (rand_in (lo / hi) 1 (u k))) by (apply Rmult_le_pos; [lra|apply root_ok; [lia|lra]]).
  assert (M : mag3 (scale3 (hi * root 3 (rand_in (lo / hi) 1 (u k))) (cap_about u dir a (k + 1))) = hi * root 3 (rand_in (lo / hi) 1 (u k))).
  { rewrite mag_scale3 by exact P. rewrite mag_unit by apply (cap_about_ok u dir a (k + 1) U). ring. }
  split; [exact M|]. rewrite M. rewrite !dot3_def. unfold scale3. cbn [vx vy vz]. ring.
Qed.
Lemma solidcap_ok u dir a lo hi k : unit_numbers u -> 0 <= lo <= hi -> 0 < hi -> exists w, solidcap u dir a lo hi k = Some w /\
  lo <= mag3 w <= hi /\ (~ points_down dir -> cos a * (mag3 w * mag3 dir) <= dot3 w dir).
Proof.
  intros U H Hh. destruct (solidcap_is u dir a lo hi k U H Hh) as (w & E & M & D). exists w. split; [exact E|].
  assert (R : lo <= mag3 w <= hi) by (rewrite M; apply radius_range; auto; lia). split; [exact R|]. intros P. rewrite D.
  pose proof (proj2 (cap_about_ok u dir a (k + 1) U) P). replace (cos a * (mag3 w * mag3 dir)) with (mag3 w * (cos a * mag3 dir)) by ring. apply Rmult_le_compat_l; lra.
Qed.
Lemma solidcap_gap dir a lo hi : 0 < lo < hi -> exists m, lo < m <= hi /\ forall u k w, unit_numbers u -> solidcap u dir a lo hi k = Some w -> m <= mag3 w.
Proof.
  intros H. exists (hi * root 3 (lo / hi)). split.
  - destruct (radius_gap 3 lo hi 0 ltac:(lia) H ltac:(lra)) as (A & B). split; [exact A|]. pose proof (radius_range 3 lo hi 0 ltac:(lia) ltac:(lra) ltac:(lra) ltac:(lra)). lra.
  - intros u k w U E. destruct (solidcap_is u dir a lo hi k U ltac:(lra) ltac:(lra)) as (w' & E' & M & _). assert (w' = w) by congruence. subst w'. rewrite M. apply radius_gap; auto.
Qed.

(** ** Disks and arcs *)
Lemma disk_ok u fuel k v : disk u fuel k = Some v -> length 2 v <= 1.
Proof. unfold disk. destruct (solidball u 2 fuel k) as [[p k']|] eqn:E; [|discriminate]. intros H. injection H as <-. apply (ball_inside _ _ _ _ _ _ E). Qed.
Lemma disk_radius_ok u fuel k r v : disk_radius u fuel k r = Some v -> exists p, disk u fuel k = Some p /\ same 2 v (fun i => r * p i) /\ length 2 v <= Rabs r.
Proof.
  unfold disk_radius, disk. destruct (solidball u 2 fuel k) as [[p k']|] eqn:E; [|discriminate]. intros H. injection H as <-. exists p. split; [reflexivity|].
  split; [intros i _; unfold vec_scale; ring|]. rewrite length_vscale. pose proof (ball_inside _ _ _ _ _ _ E). pose proof (Rabs_pos r). nra.
Qed.
Lemma oriented_disk_ok u fuel k n r w : oriented_disk u fuel k n r = Some w -> dot3 w n = 0 /\ mag3 w <= Rabs r /\ exists d, disk_radius u fuel k r = Some d /\ mag3 w = length 2 d.
Proof.
  unfold oriented_disk. destruct (disk_radius u fuel k r) as [d|] eqn:E; [|discriminate]. intros H. injection H as <-.
  set (v := V3 (resized 2 3 d 0%nat) (resized 2 3 d 1%nat) (resized 2 3 d 2%nat)). destruct (turn_ok n v) as (A & B & C).
  assert (Z : vz v = 0) by reflexivity.
  assert (M : mag3 (turn_to n v) = length 2 d).
  { unfold mag3, length. rewrite A. f_equal. unfold mag2_3. rewrite dot3_def. cbn. unfold inner. cbn. ring. }
  split.
  - assert (D : points_down n \/ ~ points_down n).
    { unfold points_down. destruct (Req_EM_T (vx n) 0); [|right; tauto]. destruct (Req_EM_T (vy n) 0); [|right; tauto]. destruct (Rlt_dec (vz n) 0); [left; tauto|right; tauto]. }
    destruct D as [D|D]; [rewrite (C D); destruct D as (X & Y & _); rewrite dot3_def, X, Y, Z; ring|rewrite (B D), Z; ring].
  - rewrite M. destruct (disk_radius_ok u fuel k r d E) as (_ & _ & _ & L). split; [exact L|]. exists d. split; reflexivity.
Qed.
Lemma arc_ok u lo hi k : unit_numbers u -> lo <= hi -> exists a, lo <= a <= hi /\ arc u lo hi k = V2 (cos a) (sin a) /\ mag_2 (arc u lo hi k) = 1 /\
  (lo < hi -> forall t, a <= t <-> u k <= (t - lo) / (hi - lo)).
Proof.
  intros U H. exists (rand_in lo hi (u k)). split; [apply rand_in_range; auto|]. split; [reflexivity|]. split.
  - unfold mag_2, arc. cbn [ux uy]. set (t := rand_in _ _ _). replace (sin t * sin t + (cos t * cos t + 0)) with 1 by (pose proof (sin2_cos2 t) as T; unfold Rsqr in T; lra). apply sqrt_1.
  - intros L t. apply rand_in_quantile, L.
Qed.
Lemma solidarc_is u lo hi r0 r1 k : unit_numbers u -> lo <= hi -> 0 <= r0 <= r1 -> 0 < r1 ->
  exists w a l, solidarc u lo hi r0 r1 k = Some w /\ lo <= a <= hi /\ sqrt (r0 * r1) <= l <= r1 /\ (u (k + 1)%nat = 0 -> l = sqrt (r0 * r1)) /\
    w = V2 (a * cos l) (a * sin l) /\ mag_2 w = Rabs a.
Proof.
  intros U L R0 H. unfold solidarc. rewrite div_opt_pos by exact H. set (a := rand_in lo hi (u k)). set (l := r1 * sqrt (rand_in (r0 / r1) 1 (u (k + 1)%nat))). exists (from_polar (V2 l a)), a, l. split; [reflexivity|].
  assert (Q : 0 <= r0 / r1 <= 1). { split; [apply Rmult_le_pos; [lra|left; now apply Rinv_0_lt_compat]|]. apply (Rmult_le_reg_r r1); [exact H|]. unfold Rdiv. rewrite Rmult_assoc, Rinv_l by lra. lra. }
  assert (E : sqrt (r0 * r1) = r1 * sqrt (r0 / r1)). { replace (r0 * r1) with (r1 * r1 * (r0 / r1)) by (field; lra). rewrite sqrt_mult by (try apply Rle_0_sqr; lra). rewrite sqrt_square by lra. reflexivity. }
  split; [exact (rand_in_range lo hi (u k) L (U k))|]. split; [|split; [|split]].
  - pose proof (rand_in_range (r0 / r1) 1 (u (k + 1)%nat) ltac:(lra) (U (k + 1)%nat)) as (B1 & B2). unfold l. rewrite E. split.
    + apply Rmult_le_compat_l; [lra|]. now apply sqrt_le_1_alt.
    + apply sqrt_le_1_alt in B2. rewrite sqrt_1 in B2. pose proof (Rmult_le_compat_l r1 _ _ ltac:(lra) B2). lra.
  - intros Z. unfold l. rewrite Z, E. do 2 f_equal. unfold rand_in. ring.
  - reflexivity.
  - unfold mag_2, from_polar. cbn [ux uy]. pose proof (sin2_cos2 l) as T. unfold Rsqr in T.
    replace (a * sin l * (a * sin l) + (a * cos l * (a * cos l) + 0)) with (a * a) by (transitivity (a * a * (sin l * sin l + cos l * cos l)); [rewrite T; ring|ring]).
    apply sqrt_Rsqr_abs.
Qed.
