From Coq Require Import ZArith List Bool Lia ZifyBool.
From Verif Require Import Mem GridModel GridSpec GridProofs RasterModel RasterSpec RasterProofs IdxModel IdxSpec.
Import ListNotations.
Open Scope Z_scope.

Lemma sg_ok w z : in_type w z -> sg w z = Ok z.
Proof. unfold in_type, sg, lowest, greatest. intros H. now replace ((- 2 ^ (w - 1) <=? z) && (z <=? 2 ^ (w - 1) - 1)) with true by lia. Qed.
Lemma sg_bad w z : ~ in_type w z -> sg w z = Fault OtherUB.
Proof. unfold in_type, sg, lowest, greatest. intros H. now replace ((- 2 ^ (w - 1) <=? z) && (z <=? 2 ^ (w - 1) - 1)) with false by lia. Qed.
Lemma sg_inv w z r : sg w z = Ok r -> r = z /\ in_type w z.
Proof. unfold in_type, sg, lowest, greatest. destruct ((- 2 ^ (w - 1) <=? z) && (z <=? 2 ^ (w - 1) - 1)) eqn:E; [|discriminate]. intros [= <-]. lia. Qed.
Lemma pw_ge w : 1 < w -> 2 <= 2 ^ (w - 1). Proof. intros W. change 2 with (2 ^ 1) at 1. apply Z.pow_le_mono_r; lia. Qed.
Lemma pw_half w : 1 < w -> 2 ^ (w - 1) = 2 * 2 ^ (w - 2). Proof. intros W. replace (w - 1) with (1 + (w - 2)) by ring. rewrite Z.pow_add_r by lia. reflexivity. Qed.
Lemma narrow_32 x : narrow 32 x = int32 x. Proof. reflexivity. Qed.
Lemma quot_small w a b : in_type w a -> 0 < b -> in_type w (Z.quot a b).
Proof. intros A B. unfold in_type in *. destruct (Z.le_gt_cases 0 a) as [P|N]; [pose proof (Z.quot_pos a b P B); pose proof (Z.quot_le_upper_bound a b a B ltac:(nia)); lia|].
  replace a with (- - a) by ring. rewrite Z.quot_opp_l by lia. pose proof (Z.quot_pos (- a) b ltac:(lia) B). pose proof (Z.quot_le_upper_bound (- a) b (- a) B ltac:(nia)). lia. Qed.
Lemma sg_quot_ok w a b : in_type w a -> 0 < b -> sg_quot w a b = Ok (Z.quot a b).
Proof. intros A B. unfold sg_quot. replace (b =? 0) with false by lia. now apply sg_ok, quot_small. Qed.
Lemma sg_rem_ok w a b : in_type w a -> 0 < b -> sg_rem w a b = Ok (Z.rem a b).
Proof. intros A B. unfold sg_rem. replace (b =? 0) with false by lia. now rewrite (sg_ok w (Z.quot a b)) by now apply quot_small. Qed.

Lemma edge_machine w e c m : 1 < w -> in_type w c -> in_type w m -> edge_safe w e m c ->
  exists k, m_edge w e c m = Ok k /\ edge_coord e c m = Ok k /\ 0 <= k < m.
Proof.
  intros W C M S. pose proof (pw_ge w W) as P. pose proof (pw_half w W) as H.
  destruct e; cbn [m_edge edge_coord edge_safe] in *.
  - rewrite sg_ok by (unfold in_type in *; lia). eexists. split; [reflexivity|]. split; [reflexivity|]. lia.
  - assert (E: m =? 0 = false) by lia. rewrite E. rewrite sg_rem_ok by (auto; lia). cbn [bind]. pose proof (Z.rem_bound_abs c m ltac:(lia)) as RB.
    rewrite sg_ok by (unfold in_type in *; lia). cbn [bind]. rewrite sg_rem_ok by (unfold in_type in *; lia). eexists. split; [reflexivity|]. split; [reflexivity|].
    pose proof (Z.rem_bound_pos (Z.rem c m + m) m). lia.
  - destruct S as (S & L). assert (in_type w (Z.abs c)) by (unfold in_type in *; lia). assert (in_type w (m - 1)) by (unfold in_type in *; lia).
    rewrite sg_ok by auto. cbn [bind]. rewrite (sg_ok w (m - 1)) by auto. cbn [bind]. rewrite sg_quot_ok, sg_rem_ok by (auto; lia). cbn [bind].
    assert (E: m - 1 =? 0 = false) by lia. rewrite E, (narrow_32 (Z.quot (Z.abs c) (m - 1))), (narrow_32 (Z.rem (Z.abs c) (m - 1))). pose proof (Z.rem_bound_pos (Z.abs c) (m - 1) ltac:(lia) ltac:(lia)) as RB.
    rewrite (int32_id (Z.rem (Z.abs c) (m - 1))) by lia.
    destruct (Z.land (int32 (Z.quot (Z.abs c) (m - 1))) 1 =? 0).
    + eexists. split; [reflexivity|]. split; [reflexivity|]. lia.
    + rewrite sg_ok by (unfold in_type in *; lia). eexists. split; [reflexivity|]. split; [reflexivity|]. lia.
  - eexists. split; [reflexivity|]. split; [reflexivity|]. lia.
Qed.

Lemma product_pos l : Forall (fun m => 0 < m) l -> 0 < product l.
Proof. induction 1; cbn [product fold_right]; [lia|]. change (fold_right Z.mul 1 l) with (product l). nia. Qed.
Lemma product_cons m l : product (m :: l) = m * product l. Proof. reflexivity. Qed.
Lemma flat_machine w e ext c : 1 < w -> Forall (fun m => 0 < m) ext -> Forall2 (fun m x => edge_safe w e m x /\ in_type w x) ext c ->
  forall dim idx, 0 < dim -> 0 <= idx < dim -> in_type w (dim * product ext) ->
  exists k, m_flat w e ext c dim idx = Ok k /\ flat_index e ext c dim idx = Ok k /\ 0 <= k < dim * product ext.
Proof.
  intros W F A. revert F. induction A as [|m x ext c (S & T) A IH]; intros F dim idx D I L.
  - exists idx. cbn [m_flat flat_index]. cbn in *. repeat split; lia.
  - inversion F as [|? ? M F']; subst. rewrite product_cons in L. pose proof (product_pos ext F') as PP.
    assert (Q: dim * m <= dim * (m * product ext)) by nia. assert (Q1: 0 < dim * m) by nia. assert (Q2: m <= dim * m) by nia.
    destruct (edge_machine w e x m W T) as (k & E1 & E2 & K); [unfold in_type in *; lia|exact S|].
    assert (K1: 0 <= k * dim) by nia. assert (K2: k * dim <= (m - 1) * dim) by nia. assert (K3: (m - 1) * dim = dim * m - dim) by ring.
    cbn [m_flat flat_index]. rewrite E1, E2. cbn [bind].
    rewrite sg_ok by (unfold in_type in *; lia). cbn [bind]. rewrite sg_ok by (unfold in_type in *; lia). cbn [bind]. rewrite sg_ok by (unfold in_type in *; lia). cbn [bind].
    destruct (IH F' (dim * m) (idx + k * dim)) as (r & R1 & R2 & R3); [lia|lia|replace (dim * m * product ext) with (dim * (m * product ext)) by ring; exact L|].
    exists r. split; [exact R1|]. split; [exact R2|]. rewrite product_cons. replace (dim * (m * product ext)) with (dim * m * product ext) by ring. exact R3.
Qed.
Lemma cell_flat w e ext c : 1 < w -> Forall (fun m => 0 < m) ext -> Forall2 (fun m x => edge_safe w e m x /\ in_type w x) ext c -> in_type w (product ext) ->
  exists k, m_cell w e ext c = Ok k /\ flat_index e ext c 1 0 = Ok k /\ 0 <= k < product ext.
Proof.
  intros W F A L. destruct (flat_machine w e ext c W F A 1 0 ltac:(lia) ltac:(lia)) as (k & E1 & E2 & K); [now rewrite Z.mul_1_l|]. rewrite Z.mul_1_l in K.
  exists k. split; [|auto]. destruct A as [|m x ext c (S & T) A]; [exact E1|]. destruct A as [|m2 x2 ext c B A]; [|exact E1].
  cbn [m_cell]. cbn [flat_index] in E2. destruct (edge_machine w e x m W T) as (k' & D1 & D2 & K'); [cbn in L; inversion F; subst; unfold in_type in *; lia|exact S|].
  rewrite D2 in E2. cbn [bind] in E2. injection E2 as <-. rewrite D1. f_equal. lia.
Qed.
Lemma index_machine w e ext n c : 1 < w -> 0 < n -> Forall (fun m => 0 < m) ext -> Forall2 (fun m x => edge_safe w e m x /\ in_type w x) ext c -> in_type w (product ext * n) ->
  exists k, m_index w e ext n c = Ok (k * n) /\ flat_index e ext c 1 0 = Ok k /\ 0 <= k * n /\ k * n + n <= product ext * n.
Proof.
  intros W N F A L. pose proof (product_pos ext F) as PP. pose proof (pw_ge w W).
  destruct (cell_flat w e ext c W F A) as (k & E1 & E2 & K); [unfold in_type in *; nia|]. exists k. unfold m_index. rewrite E1. cbn [bind].
  assert (0 <= k * n) by nia. assert (k * n + n <= product ext * n) by nia. rewrite sg_ok by (unfold in_type in *; lia). repeat split; auto.
Qed.
Lemma safe_ok w e m x : edge_safe w e m x -> e = EConstant \/ edge_ok e m.
Proof. destruct e; cbn; intros H; auto; right; lia. Qed.

Lemma product_machine w ext : Forall (fun m => 0 < m) ext -> forall a r, 0 < a -> (m_product w a ext = Ok r <-> r = a * product ext /\ (ext <> [] -> in_type w (a * product ext))).
Proof.
  induction 1 as [|m ext M F IH]; intros a r A.
  - cbn. split; [intros [= <-]; split; [lia|congruence]|intros (-> & _); f_equal; lia].
  - cbn [m_product]. rewrite product_cons. pose proof (product_pos ext F) as PP. destruct (sg w (a * m)) as [x|f] eqn:E.
    + apply sg_inv in E. destruct E as (-> & T). cbn [bind]. rewrite IH by nia. replace (a * m * product ext) with (a * (m * product ext)) by ring.
      split; intros (-> & B); (split; [reflexivity|]); intros _.
      * destruct ext as [|m2 ext]; [cbn in *; replace (a * (m * 1)) with (a * m) by ring; exact T|apply B; discriminate].
      * apply B. discriminate.
    + cbn [bind]. split; [discriminate|]. intros (_ & B). exfalso. specialize (B ltac:(discriminate)).
      assert (in_type w (a * m)); [|rewrite sg_ok in E by auto; discriminate]. unfold in_type in *. assert (0 < a * m) by nia. assert (a * m <= a * (m * product ext)) by nia. lia.
Qed.
Lemma size_machine w ext n r : 1 < w -> 0 < n -> Forall (fun m => 0 < m) ext -> (m_size w ext n = Ok r <-> r = product ext * n /\ in_type w (product ext * n)).
Proof.
  intros W N F. pose proof (product_pos ext F) as PP. pose proof (pw_ge w W) as P2. unfold m_size.
  assert (G: forall p, p = product ext -> (bind (Ok p) (fun p => sg w (p * n)) = Ok r <-> r = product ext * n /\ in_type w (product ext * n))).
  { intros p ->. cbn [bind]. split; [apply sg_inv|intros (-> & T); now apply sg_ok]. }
  assert (H: bind (m_product w 1 ext) (fun p => sg w (p * n)) = Ok r <-> r = product ext * n /\ in_type w (product ext * n)).
  { pose proof (product_machine w ext F 1) as Q. destruct (m_product w 1 ext) as [p|f].
    - destruct (Q p ltac:(lia)) as (Q1 & _). destruct (Q1 eq_refl) as (-> & _). apply G. lia.
    - cbn [bind]. split; [discriminate|]. intros (_ & T). destruct (Q (1 * product ext) ltac:(lia)) as (_ & Q2). discriminate Q2. split; [reflexivity|]. intros _.
      unfold in_type in *. assert (product ext <= product ext * n) by nia. lia. }
  destruct ext as [|m [|m2 ext]]; [exact H| |exact H]. apply G. cbn. lia.
Qed.

Lemma mirror_lowest w m : 1 < w -> m_edge w EMirror (- 2 ^ (w - 1)) m = Fault OtherUB.
Proof. intros W. pose proof (pw_ge w W). cbn [m_edge]. rewrite sg_bad; [reflexivity|]. unfold in_type. lia. Qed.
Lemma periodic_huge w m : 1 < w -> 2 ^ (w - 2) < m -> in_type w m -> m_edge w EPeriodic (m - 1) m = Fault OtherUB.
Proof. intros W L T. pose proof (pw_half w W). pose proof (pw_ge w W). cbn [m_edge]. rewrite sg_rem_ok by (unfold in_type in *; lia). cbn [bind].
  rewrite Z.rem_small by lia. rewrite sg_bad; [reflexivity|]. unfold in_type. lia. Qed.
Lemma mirror_wide m : 2 ^ 31 + 1 < m -> edge_coord EMirror (2 ^ 31) m = Ok (- 2 ^ 31).
Proof. intros L. cbn [edge_coord]. replace (m - 1 =? 0) with false by lia. rewrite Z.abs_eq by lia. rewrite Z.quot_small, Z.rem_small by lia. reflexivity. Qed.
Lemma mirror_wide_machine w m : 33 <= w -> 2 ^ 31 + 1 < m -> in_type w m -> m_edge w EMirror (2 ^ 31) m = Ok (- 2 ^ 31).
Proof. intros W L T. assert (P: 2 ^ 32 <= 2 ^ (w - 1)) by (apply Z.pow_le_mono_r; lia). cbn [m_edge]. rewrite Z.abs_eq by lia.
  rewrite sg_ok by (unfold in_type in *; lia). cbn [bind]. rewrite sg_ok by (unfold in_type in *; lia). cbn [bind].
  rewrite sg_quot_ok, sg_rem_ok by (unfold in_type in *; lia). cbn [bind]. rewrite Z.quot_small, Z.rem_small by lia. reflexivity. Qed.
