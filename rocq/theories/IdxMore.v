From Coq Require Import ZArith List Bool Lia ZifyBool ZifyNat.
From Verif Require Import Mem GridModel GridSpec GridProofs IdxModel IdxSpec IdxProofs.
Import ListNotations.
Open Scope Z_scope.

Lemma sg_cases w z : sg w z = Ok z \/ sg w z = Fault OtherUB.
Proof. unfold sg. destruct (_ && _); auto. Qed.

Lemma m_inc_ok w lo hi pt : in_box lo hi pt -> Forall (in_type w) lo -> Forall (room w) hi -> m_inc w lo hi pt = Ok (inc lo hi pt).
Proof.
  induction 1 as [|l lo h hi p pt B A IH]; intros L R; [reflexivity|]. inversion L; inversion R as [|? ? (R1 & R2) R']; subst. cbn [m_inc inc].
  rewrite sg_ok by (unfold in_type in *; lia). cbn [bind]. destruct (p + 1 >? h); [|reflexivity]. destruct pt; [reflexivity|]. now rewrite IH.
Qed.
Lemma m_inc_cases w lo : forall hi pt, m_inc w lo hi pt = Ok (inc lo hi pt) \/ m_inc w lo hi pt = Fault OtherUB.
Proof.
  induction lo as [|l lo IH]; intros [|h hi] [|p pt]; cbn [m_inc inc]; auto.
  destruct (sg_cases w (p + 1)) as [->| ->]; cbn [bind]; auto. destruct (p + 1 >? h); auto. destruct pt; auto.
  destruct (IH hi (z :: pt)) as [->| ->]; auto.
Qed.
Lemma m_inc_bad w lo hi : length lo = length hi -> In (2 ^ (w - 1) - 1) hi -> m_inc w lo hi hi = Fault OtherUB.
Proof.
  revert lo. induction hi as [|h hi IH]; intros [|l lo] L I; try discriminate; [destruct I|]. cbn [m_inc].
  destruct (sg_cases w (h + 1)) as [E|E]; rewrite E; [|reflexivity]. cbn [bind]. destruct I as [I|I].
  - apply sg_inv in E. unfold in_type in E. lia.
  - replace (h + 1 >? h) with true by lia. destruct hi as [|h2 hi]; [destruct I|]. now rewrite IH by (auto; injection L; auto).
Qed.
Lemma m_end_ok w lo : forall hi, Forall (room w) hi -> m_end_pt w lo hi = Ok (end_pt lo hi).
Proof.
  induction lo as [|l lo IH]; intros [|h hi] R; [reflexivity| | |]; [reflexivity|destruct lo; reflexivity|]. inversion R as [|? ? (R1 & R2) R']; subst. destruct lo as [|l2 lo].
  - cbn [m_end_pt end_pt]. rewrite sg_ok by (unfold in_type in *; lia). reflexivity.
  - change (m_end_pt w (l :: l2 :: lo) (h :: hi)) with (bind (m_end_pt w (l2 :: lo) hi) (fun r => Ok (l :: r))). now rewrite IH.
Qed.
Lemma m_end_cases w lo : forall hi, m_end_pt w lo hi = Ok (end_pt lo hi) \/ m_end_pt w lo hi = Fault OtherUB.
Proof.
  induction lo as [|l lo IH]; intros [|h hi]; auto; [destruct lo; auto|]. destruct lo as [|l2 lo].
  - cbn [m_end_pt end_pt]. destruct (sg_cases w (h + 1)) as [->| ->]; auto.
  - change (m_end_pt w (l :: l2 :: lo) (h :: hi)) with (bind (m_end_pt w (l2 :: lo) hi) (fun r => Ok (l :: r))). destruct (IH hi) as [->| ->]; auto.
Qed.

Lemma forall_along (P : Z -> Prop) o l : Forall P l -> Forall P (along o l).
Proof. intros F. destruct o; [exact F|]. now apply Forall_rev. Qed.

(** The coordinatewise differences. *)
Fixpoint jumps (p q : list Z) : list Z := match p, q with a :: p', b :: q' => (b - a) :: jumps p' q' | _, _ => [] end.
Lemma jumps_app a : forall b a' b', length a = length b -> jumps (a ++ a') (b ++ b') = jumps a b ++ jumps a' b'.
Proof. induction a as [|x a IH]; intros [|y b] a' b' L; try discriminate; [reflexivity|]. cbn. now rewrite IH by (injection L; auto). Qed.
Lemma jumps_rev a : forall b, length a = length b -> jumps (rev a) (rev b) = rev (jumps a b).
Proof. induction a as [|x a IH]; intros [|y b] L; try discriminate; [reflexivity|]. cbn [rev jumps]. rewrite jumps_app by (rewrite !rev_length; injection L; auto). now rewrite IH by (injection L; auto). Qed.
Lemma jumps_along o a b : length a = length b -> jumps (along o a) (along o b) = along o (jumps a b).
Proof. intros L. destruct o; [reflexivity|]. now apply jumps_rev. Qed.

(** Coordinates of a position: the last one may be one past the end. *)
Fixpoint pos_in (lo hi p : list Z) : Prop := match lo, hi, p with
  | [l], [h], [a] => l <= a <= h + 1
  | l :: lo', h :: hi', a :: p' => l <= a <= h /\ pos_in lo' hi' p'
  | _, _, _ => False
  end.
Lemma in_pos lo hi p : good lo hi -> in_box lo hi p -> pos_in lo hi p.
Proof.
  intros G. revert p. induction G as [l h L|l lo h hi L G IH]; intros p B; inversion B as [|? ? ? ? a p' A B']; subst.
  - inversion B'; subst. cbn. lia.
  - destruct (good_ne _ _ G) as (N1 & N2). destruct lo as [|l2 lo]; [easy|]. destruct hi as [|h2 hi]; [easy|]. inversion B'; subst. split; [exact A|]. now apply IH.
Qed.
Lemma end_pos lo hi : good lo hi -> pos_in lo hi (end_pt lo hi).
Proof.
  induction 1 as [l h L|l lo h hi L G IH]; [cbn; lia|]. destruct (good_ne _ _ G) as (N1 & N2). destruct lo as [|l2 lo]; [easy|]. destruct hi as [|h2 hi]; [easy|].
  change (end_pt (l :: l2 :: lo) (h :: h2 :: hi)) with (l :: end_pt (l2 :: lo) (h2 :: hi)). split; [lia|exact IH].
Qed.
Lemma pos_cons l l2 lo h h2 hi p : pos_in (l :: l2 :: lo) (h :: h2 :: hi) p -> exists a p', p = a :: p' /\ l <= a <= h /\ pos_in (l2 :: lo) (h2 :: hi) p'.
Proof. destruct p as [|a p]; [intros []|]. intros (A & B). now exists a, p. Qed.

Lemma m_dist_ok wi lo hi : good lo hi -> forall p q acc v, pos_in lo hi p -> pos_in lo hi q -> 1 <= v -> - (v - 1) <= acc <= v - 1 ->
  in_type wi (v * vol (dims lo hi)) -> in_type wi (acc + dist (dims lo hi) p q v) -> m_dist wi (dims lo hi) (jumps p q) acc v = Ok (acc + dist (dims lo hi) p q v).
Proof.
  induction 1 as [l h L|l lo h hi L G IH]; intros p q acc v P Q V A T D.
  - destruct p as [|a [|? ?]]; try (exfalso; cbn in P; tauto). destruct q as [|b [|? ?]]; try (exfalso; cbn in Q; tauto). cbn in P, Q. cbn [dims jumps m_dist dist] in *. cbn [vol fold_right] in T.
    replace (Z.max (h - l + 1) 0) with (h - l + 1) in * by lia. assert (J: v * (b - a) <= v * (h - l + 1)) by nia. assert (J2: - (v * (h - l + 1)) <= v * (b - a)) by nia.
    replace (v * (b - a) + 0) with (v * (b - a)) in * by ring. replace (v * ((h - l + 1) * 1)) with (v * (h - l + 1)) in T by ring.
    rewrite sg_ok by (unfold in_type in *; lia). cbn [bind]. rewrite sg_ok by exact D. cbn [bind]. rewrite sg_ok by exact T. reflexivity.
  - destruct (good_ne _ _ G) as (N1 & N2). destruct lo as [|l2 lo]; [easy|]. destruct hi as [|h2 hi]; [easy|].
    destruct (pos_cons _ _ _ _ _ _ _ P) as (a & p' & -> & A1 & P'). destruct (pos_cons _ _ _ _ _ _ _ Q) as (b & q' & -> & B1 & Q').
    pose proof (vol_pos _ _ G) as VP. set (d2 := dims (l2 :: lo) (h2 :: hi)) in *.
    change (dims (l :: l2 :: lo) (h :: h2 :: hi)) with ((h - l + 1) :: d2) in *. rewrite vol_cons in T.
    cbn [jumps m_dist dist] in *. replace (Z.max (h - l + 1) 0) with (h - l + 1) in * by lia.
    set (d := h - l + 1) in *. assert (DP: 1 <= d) by lia. assert (J: v * (b - a) <= v * (d - 1)) by nia. assert (J2: - (v * (d - 1)) <= v * (b - a)) by nia.
    assert (E: v * (d - 1) = v * d - v) by ring. assert (E2: v * d <= v * (d * vol d2)) by nia. assert (E3: 1 <= v * d) by nia.
    rewrite sg_ok by (unfold in_type in *; lia). cbn [bind]. rewrite sg_ok by (unfold in_type in *; lia). cbn [bind]. rewrite sg_ok by (unfold in_type in *; lia). cbn [bind].
    rewrite IH; auto; [f_equal; ring|lia|replace (v * d * vol d2) with (v * (d * vol d2)) by ring; exact T|].
    replace (acc + v * (b - a) + dist d2 p' q' (v * d)) with (acc + (v * (b - a) + dist d2 p' q' (v * d))) by ring. exact D.
Qed.

Lemma m_dims_ok w lo : forall hi, nonempty_box lo hi -> Forall (in_type w) (dims lo hi) -> m_dims w lo hi = Ok (dims lo hi).
Proof.
  induction lo as [|l lo IH]; intros hi N F; inversion N as [|? h ? hi' L N']; subst; [reflexivity|]. cbn [dims] in F. inversion F as [|? ? F1 F2]; subst.
  cbn [m_dims dims]. rewrite sg_ok by (unfold in_type in *; lia). cbn [bind]. rewrite sg_ok by exact F1. cbn [bind]. now rewrite IH.
Qed.
Lemma m_dims_cases w lo : forall hi, m_dims w lo hi = Ok (dims lo hi) \/ m_dims w lo hi = Fault OtherUB.
Proof.
  induction lo as [|l lo IH]; intros [|h hi]; auto. cbn [m_dims dims]. destruct (sg_cases w (h - l)) as [->| ->]; auto. cbn [bind].
  destruct (sg_cases w (h - l + 1)) as [->| ->]; auto. cbn [bind]. destruct (IH hi) as [->| ->]; auto.
Qed.
Lemma m_jump_ok w p : forall q, Forall (in_type w) (jumps p q) -> m_jump w p q = Ok (jumps p q).
Proof. induction p as [|a p IH]; intros [|b q] F; auto. cbn [jumps m_jump] in *. inversion F; subst. rewrite sg_ok by auto. cbn [bind]. now rewrite IH. Qed.
Lemma pos_jumps w lo hi : good lo hi -> Forall (in_type w) (dims lo hi) -> forall p q, pos_in lo hi p -> pos_in lo hi q -> Forall (in_type w) (jumps p q).
Proof.
  induction 1 as [l h L|l lo h hi L G IH]; intros F p q P Q.
  - destruct p as [|a [|? ?]]; try (exfalso; cbn in P; tauto). destruct q as [|b [|? ?]]; try (exfalso; cbn in Q; tauto). cbn in P, Q. cbn [dims] in F. inversion F; subst. constructor; [|constructor]. unfold in_type in *. lia.
  - destruct (good_ne _ _ G) as (N1 & N2). destruct lo as [|l2 lo]; [easy|]. destruct hi as [|h2 hi]; [easy|].
    destruct (pos_cons _ _ _ _ _ _ _ P) as (a & p' & -> & A1 & P'). destruct (pos_cons _ _ _ _ _ _ _ Q) as (b & q' & -> & B1 & Q').
    change (dims (l :: l2 :: lo) (h :: h2 :: hi)) with ((h - l + 1) :: dims (l2 :: lo) (h2 :: hi)) in *. inversion F; subst. cbn [jumps]. constructor; [unfold in_type in *; lia|]. now apply IH.
Qed.

Lemma m_volume_iff w ds : Forall (fun d => 1 <= d) ds -> forall a, 1 <= a -> in_type w a -> in_type w (a * vol ds) -> m_volume w a ds = Ok (a * vol ds).
Proof.
  induction 1 as [|d ds D F IH]; intros a A TA T; cbn [m_volume]; [cbn; f_equal; lia|]. rewrite vol_cons in *. replace (Z.max d 0) with d in * by lia.
  pose proof (vol_pos1 ds F). assert (1 <= a * d) by nia. assert (a * d <= a * (d * vol ds)) by nia. assert (in_type w (a * d)) by (unfold in_type in *; lia).
  rewrite sg_ok by auto. cbn [bind]. rewrite IH; auto; [f_equal; ring|]. replace (a * d * vol ds) with (a * (d * vol ds)) by ring. exact T.
Qed.
Lemma m_volume_bad w ds : forall a, (ds <> [] \/ in_type w a) -> Forall (fun d => 1 <= d) ds -> ~ in_type w (a * vol ds) -> m_volume w a ds = Fault OtherUB.
Proof.
  induction ds as [|d ds IH]; intros a N F B; cbn [m_volume].
  - exfalso. apply B. destruct N as [N|N]; [easy|]. cbn. now rewrite Z.mul_1_r.
  - inversion F; subst. rewrite vol_cons in B. replace (Z.max d 0) with d in * by lia. destruct (sg_cases w (a * d)) as [E|E]; rewrite E; [|reflexivity]. cbn [bind].
    apply IH; auto; [right; now apply sg_inv in E|]. now replace (a * d * vol ds) with (a * (d * vol ds)) by ring.
Qed.
Lemma narrow_id w x : 1 < w -> in_type w x -> narrow w x = x.
Proof. intros W T. unfold narrow, in_type in *. assert (E: 2 ^ w = 2 * 2 ^ (w - 1)) by (replace w with (1 + (w - 1)) at 1 by ring; rewrite Z.pow_add_r by lia; reflexivity). rewrite Z.mod_small by lia. ring. Qed.
Lemma m_adv_ok w wi ds : 1 < w -> Forall (fun d => 1 <= d /\ in_type w d) ds -> in_type wi (vol ds) -> forall n, 0 <= n <= vol ds -> m_adv w wi ds (vol ds) n = adv ds (vol ds) n.
Proof.
  intros W F. induction F as [|d ds (D & T) F IH]; intros V n N; [reflexivity|]. rewrite vol_cons in *. replace (Z.max d 0) with d in * by lia.
  assert (VP: 1 <= vol ds) by (apply vol_pos1; eapply Forall_impl; [|exact F]; cbn; tauto). assert (VL: vol ds <= d * vol ds) by nia.
  cbn [m_adv adv]. replace (d =? 0) with false by lia. rewrite sg_quot_ok by (auto; lia). cbn [bind]. rewrite (Z.mul_comm d), Z.quot_mul by lia. replace (vol ds =? 0) with false by lia.
  assert (TN: in_type wi n) by (unfold in_type in *; lia). rewrite sg_quot_ok, sg_rem_ok by (auto; lia). cbn [bind].
  pose proof (Z.rem_bound_pos n (vol ds) ltac:(lia) ltac:(lia)) as RB. rewrite IH; [|unfold in_type in *; lia|lia]. destruct (adv ds (vol ds) (Z.rem n (vol ds))) as [r|f]; [|reflexivity]. cbn [bind].
  rewrite narrow_id; [reflexivity|exact W|]. pose proof (Z.quot_pos n (vol ds) ltac:(lia) ltac:(lia)). pose proof (Z.quot_le_upper_bound n (vol ds) d ltac:(lia) ltac:(lia)). unfold in_type in *. lia.
Qed.

Section It.
Variables (w wi : Z) (o : bool) (lo hi : list Z).
Hypothesis NB : nonempty_box lo hi.
Hypothesis NE : lo <> [].
Hypothesis TL : Forall (in_type w) lo.
Let G : good (along o lo) (along o hi) := it_good o lo hi NB NE.
Let V := vol (dims (along o lo) (along o hi)).
Let at_ := at_pos o lo hi.

Lemma mg_inc_cases g : mg_inc w g = Ok (g_inc g) \/ mg_inc w g = Fault OtherUB.
Proof. unfold mg_inc, g_inc. destruct (m_inc_cases w (along (g_order g) (g_lo g)) (along (g_order g) (g_hi g)) (along (g_order g) (g_pt g))) as [->| ->]; auto. Qed.
Lemma mg_inc_ok p : Forall (room w) hi -> in_box lo hi p -> mg_inc w (mkG o lo hi p) = Ok (g_inc (mkG o lo hi p)).
Proof. intros R B. unfold mg_inc, g_inc. cbn [g_order g_lo g_hi g_pt]. rewrite m_inc_ok; [reflexivity|now apply in_box_along|now apply forall_along|now apply forall_along]. Qed.
Lemma mg_end_ok g : g_order g = o -> g_lo g = lo -> g_hi g = hi -> Forall (room w) hi -> mg_end w g = Ok (g_end g).
Proof. intros <- E1 E2 R. unfold mg_end, g_end. rewrite E1, E2, m_end_ok by now apply forall_along. reflexivity. Qed.

Lemma at_order n : g_order (at_ n) = o. Proof. reflexivity. Qed.
Lemma at_eq n m : 0 <= n -> 0 <= m -> g_equal (at_ n) (at_ m) = (n =? m).
Proof.
  intros N M. unfold g_equal. destruct (list_eq_dec Z.eq_dec (g_pt (at_ n)) (g_pt (at_ m))) as [E|E].
  - apply (at_inj o lo hi NB NE) in E; auto. lia.
  - destruct (Z.eqb_spec n m) as [->|]; [easy|reflexivity].
Qed.
Lemma at_form n : at_ n = mkG o lo hi (g_pt (at_ n)). Proof. reflexivity. Qed.
Lemma loop_ok fuel : Forall (room w) hi -> forall n, 0 <= n <= V ->
  m_loop w fuel (at_ V) (at_ n) = match g_walk fuel (at_ n) with Some l => Some (Ok l) | None => None end.
Proof.
  intros R. assert (VP: 1 <= V) by exact (vol_pos _ _ G). induction fuel as [|fuel IH]; intros n N; cbn [m_loop g_walk].
  all: replace (g_end (at_ n)) with (at_ V) by (symmetry; exact (at_end o lo hi NB NE _)); rewrite at_eq by lia.
  - destruct (n =? V); reflexivity.
  - destruct (Z.eqb_spec n V) as [->|Ne]; [reflexivity|]. assert (B: in_box lo hi (g_pt (at_ n))) by (apply (at_in o lo hi NB NE); fold V; lia).
    assert (E: mg_inc w (at_ n) = Ok (at_ (n + 1))). { rewrite (at_form n), mg_inc_ok by auto. rewrite <- at_form. f_equal. apply (at_inc o lo hi NB NE). fold V. lia. }
    rewrite E. replace (g_inc (at_ n)) with (at_ (n + 1)) by (symmetry; apply (at_inc o lo hi NB NE); fold V; lia). rewrite IH by lia. now destruct (g_walk fuel (at_ (n + 1))).
Qed.
Lemma walk_ok fuel p : Forall (room w) hi -> m_walk w fuel (mkG o lo hi p) = match g_walk fuel (g_begin (mkG o lo hi p)) with Some l => Some (Ok l) | None => None end.
Proof.
  intros R. unfold m_walk. rewrite mg_end_ok by auto. rewrite (at_end o lo hi NB NE p), (at_begin o lo hi NB NE p). apply loop_ok; auto. pose proof (vol_pos _ _ G). fold V in H. lia.
Qed.
Lemma loop_bad n : 0 <= n < V -> mg_inc w (at_ n) = Fault OtherUB -> forall k m fuel, 0 <= m -> m + Z.of_nat k = n -> (k < fuel)%nat -> m_loop w fuel (at_ V) (at_ m) = Some (Fault OtherUB).
Proof.
  intros N B. induction k; intros m fuel M E L; (destruct fuel as [|fuel]; [lia|]); cbn [m_loop]; rewrite at_eq by lia; replace (m =? V) with false by lia.
  - replace m with n by lia. now rewrite B.
  - destruct (mg_inc_cases (at_ m)) as [Q|Q]; rewrite Q; [|reflexivity]. replace (g_inc (at_ m)) with (at_ (m + 1)) by (symmetry; apply (at_inc o lo hi NB NE); fold V; lia).
    now rewrite (IHk (m + 1) fuel) by lia.
Qed.
Lemma in_box_hi a b : nonempty_box a b -> in_box a b b. Proof. induction 1; constructor; auto. lia. Qed.
Lemma walk_bad p : In (2 ^ (w - 1) - 1) hi -> exists fuel0, forall fuel, (fuel0 <= fuel)%nat -> m_walk w fuel (mkG o lo hi p) = Some (Fault OtherUB).
Proof.
  intros I. destruct (in_at o lo hi NB NE hi (in_box_hi _ _ NB)) as (n & N & E). fold V in N.
  assert (B: mg_inc w (at_ n) = Fault OtherUB).
  { unfold at_. rewrite <- E. unfold mg_inc. cbn [g_order g_lo g_hi g_pt]. rewrite m_inc_bad; [reflexivity|rewrite !along_len; apply (it_len lo hi NB)|destruct o; [exact I|now apply in_rev in I]]. }
  exists (S (Z.to_nat n)). intros fuel L. unfold m_walk, mg_end. cbn [g_order g_lo g_hi g_pt].
  destruct (m_end_cases w (along o lo) (along o hi)) as [Q|Q]; rewrite Q; [|reflexivity]. cbn [bind].
  change (g_with (mkG o lo hi p) (along o (end_pt (along o lo) (along o hi)))) with (g_end (mkG o lo hi p)). rewrite (at_end o lo hi NB NE p), (at_begin o lo hi NB NE p).
  apply (loop_bad n N B (Z.to_nat n)); lia.
Qed.

Lemma dims_forall (P : Z -> Prop) : Forall P (dims lo hi) -> Forall P (dims (along o lo) (along o hi)).
Proof. intros F. rewrite dims_along by apply (it_len lo hi NB). now apply forall_along. Qed.
Lemma at_pos_in n : 0 <= n <= V -> pos_in (along o lo) (along o hi) (along o (g_pt (at_ n))).
Proof.
  intros N. destruct (Z.eq_dec n V) as [->|Ne].
  - replace (at_ V) with (g_end (mkG o lo hi lo)) by exact (at_end o lo hi NB NE lo). cbn [g_end g_with g_pt g_order g_lo g_hi]. rewrite along_along. apply end_pos, G.
  - apply in_pos; [apply G|]. rewrite <- in_box_along. apply (at_in o lo hi NB NE). fold V. lia.
Qed.
Lemma at_len n : length (g_pt (at_ n)) = length lo.
Proof. unfold at_. cbn [at_pos g_pt]. rewrite along_len, unrank_len by exact G. apply along_len. Qed.
Lemma mg_dist_ok g g' : it_pos o lo hi g -> it_pos o lo hi g' -> Forall (in_type w) (dims lo hi) -> in_type wi (volume lo hi) -> mg_dist w wi g g' = Ok (g_dist g g').
Proof.
  intros P P' F T. destruct (pos_at o lo hi NB NE g P) as (n & N & ->). destruct (pos_at o lo hi NB NE g' P') as (m & M & ->). fold V in N, M. fold at_.
  assert (EV: volume lo hi = V) by exact (it_vol o lo hi NB). rewrite EV in T.
  assert (D: g_dist (at_ n) (at_ m) = m - n) by (apply (at_dist o lo hi NB NE); lia).
  assert (LL: length (g_pt (at_ n)) = length (g_pt (at_ m))) by now rewrite !at_len.
  assert (J: Forall (in_type w) (jumps (along o (g_pt (at_ n))) (along o (g_pt (at_ m))))) by (apply (pos_jumps w _ _ G); [now apply dims_forall|now apply at_pos_in|now apply at_pos_in]).
  unfold mg_dist. change (g_lo (at_ n)) with lo. change (g_hi (at_ n)) with hi. rewrite at_order. rewrite m_dims_ok by auto. cbn [bind].
  rewrite m_jump_ok. 2:{ rewrite jumps_along in J by exact LL. replace (jumps (g_pt (at_ n)) (g_pt (at_ m))) with (along o (along o (jumps (g_pt (at_ n)) (g_pt (at_ m))))) by apply along_along. now apply forall_along. }
  cbn [bind]. rewrite <- jumps_along by exact LL. rewrite <- dims_along by apply (it_len lo hi NB).
  assert (DE: dist (dims (along o lo) (along o hi)) (along o (g_pt (at_ n))) (along o (g_pt (at_ m))) 1 = m - n).
  { rewrite <- D. unfold g_dist. rewrite at_order. change (g_lo (at_ n)) with lo. change (g_hi (at_ n)) with hi. now rewrite dims_along by apply (it_len lo hi NB). }
  rewrite (m_dist_ok wi _ _ G); [rewrite DE, D; f_equal; ring|now apply at_pos_in|now apply at_pos_in|lia|lia| |].
  - rewrite Z.mul_1_l. exact T.
  - rewrite DE. unfold in_type in *. lia.
Qed.
Lemma mg_advance_ok p n : 1 < w -> w <= wi -> Forall (in_type w) (dims lo hi) -> in_type w (volume lo hi) -> 0 <= n <= volume lo hi -> mg_advance w wi (mkG o lo hi p) n = g_advance (mkG o lo hi p) n.
Proof.
  intros W LW F T N. assert (D1: Forall (fun d => 1 <= d) (dims lo hi)). { replace (dims lo hi) with (along o (dims (along o lo) (along o hi))) by (rewrite dims_along by apply (it_len lo hi NB); apply along_along). apply forall_along, (good_dims _ _ G). }
  change (volume lo hi) with (vol (dims lo hi)) in *.
  unfold mg_advance, g_advance. cbn [g_order g_lo g_hi g_pt]. rewrite m_dims_ok by auto. cbn [bind]. change (volume lo hi) with (vol (dims lo hi)).
  rewrite m_volume_iff; [|auto|lia|pose proof (pw_ge w W); unfold in_type; lia|now rewrite Z.mul_1_l]. cbn [bind]. rewrite Z.mul_1_l.
  assert (VE: vol (dims lo hi) = vol (rev (along o (dims lo hi)))) by now rewrite vol_rev, vol_along.
  assert (LP: 2 ^ (w - 1) <= 2 ^ (wi - 1)) by (apply Z.pow_le_mono_r; lia).
  rewrite VE. rewrite m_adv_ok; [reflexivity|exact W| |rewrite <- VE; unfold in_type in *; lia|rewrite <- VE; exact N].
  apply Forall_rev, forall_along. rewrite Forall_forall in *. intros d I. split; [now apply D1|now apply F].
Qed.
Lemma mg_advance_bad p n : ~ in_type w (volume lo hi) -> mg_advance w wi (mkG o lo hi p) n = Fault OtherUB.
Proof.
  intros T. assert (D1: Forall (fun d => 1 <= d) (dims lo hi)). { replace (dims lo hi) with (along o (dims (along o lo) (along o hi))) by (rewrite dims_along by apply (it_len lo hi NB); apply along_along). apply forall_along, (good_dims _ _ G). }
  unfold mg_advance. cbn [g_order g_lo g_hi g_pt]. destruct (m_dims_cases w lo hi) as [E|E]; rewrite E; [|reflexivity]. cbn [bind].
  rewrite m_volume_bad; [reflexivity| |exact D1|rewrite Z.mul_1_l; exact T]. left. clear -NB NE. inversion NB; subst; [easy|discriminate].
Qed.
End It.
