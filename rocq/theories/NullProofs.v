From Coq Require Import Arith Lia List Bool Field Ring.
From Verif Require Import Fld FldLemmas LinSpec PermModel PermSpec PermProofs PermCycleProofs PermSignProofs PluModel PluProofs SolveProofs DetProofs DetInvProofs OrthoModel.
Import ListNotations.
Open Scope nat_scope.

Section Null.
Variable K : field.
Add Field KF : (fth K).
Variable bigger : K -> K -> bool.
Local Open Scope fld_scope.
Implicit Types m M V X v : mtx K.

(** ** The decomposition of a wide matrix begins as that of its leading square block *)
Definition sim rows (s s' : plu_state K) : Prop :=
  pr s = pr s' /\ pp s = pp s' /\ pd s = pd s' /\ forall r c, (c < rows)%nat -> pm s r c = pm s' r c.
Lemma pivot_ext rows m m' i : (forall r, m r i = m' r i) -> find_pivot bigger rows m i = find_pivot bigger rows m' i.
Proof.
  intros H. unfold find_pivot.
  assert (G : forall l q, fold_left (fun pvt p => if bigger (m p i) (m pvt i) then p else pvt) l q = fold_left (fun pvt p => if bigger (m' p i) (m' pvt i) then p else pvt) l q).
  { induction l as [|p l IH]; intros q; [reflexivity|]. cbn [fold_left]. rewrite !H. apply IH. }
  apply G.
Qed.
Lemma sim_step rows cols s s' i : (rows <= cols)%nat -> (i < rows)%nat -> sim rows s s' -> sim rows (plu_step bigger rows cols s i) (plu_step bigger rows rows s' i).
Proof.
  intros L Hi (E1 & E2 & E3 & E4). unfold plu_step. rewrite (pivot_ext rows (pm s) (pm s') i) by (intros; now apply E4).
  set (p := find_pivot bigger rows (pm s') i). rewrite (E4 p i Hi). destruct (feq_dec (pm s' p i) 0).
  - repeat split; cbn; auto.
  - destruct (p =? i)%nat eqn:P.
    + repeat split; cbn [pr pp pd pm]; auto. intros r c Hc. rewrite !eliminate_spec, !E4 by assumption.
      destruct (_ && _); [|reflexivity]. destruct (c =? i)%nat; [reflexivity|].
      destruct (Nat.ltb_spec c cols), (Nat.ltb_spec c rows); try lia. destruct (i <? c)%nat; reflexivity.
    + repeat split; cbn [pr pp pd pm]; auto; [now rewrite E1|now rewrite E2|]. intros r c Hc. rewrite !eliminate_spec, !row_swap_spec.
      destruct (Nat.ltb_spec c cols), (Nat.ltb_spec c rows), (Nat.ltb_spec i cols), (Nat.ltb_spec i rows); try lia. rewrite !E4 by assumption. reflexivity.
Qed.
Lemma sim_run rows cols M i : (rows <= cols)%nat -> (i <= rows)%nat ->
  sim rows (fold_left (plu_step bigger rows cols) (seq 0 i) (mkPlu M (fun i => i) false 0)) (fold_left (plu_step bigger rows rows) (seq 0 i) (mkPlu M (fun i => i) false 0)).
Proof.
  intros L. induction i as [|i IH]; intros Hi; [repeat split|]. rewrite seq_S, !fold_left_app. cbn [fold_left Nat.add]. apply sim_step; [assumption|lia|]. apply IH. lia.
Qed.
Lemma wide_square rows cols M : (rows <= cols)%nat -> sim rows (decomp_plu bigger M rows cols) (decomp_plu bigger M rows rows).
Proof. intros L. unfold decomp_plu. rewrite Nat.min_id, Nat.min_l by assumption. apply sim_run; [assumption|lia]. Qed.

Section Wide.
Variables (M : mtx K) (rows cols : nat).
Hypothesis O : sane_order bigger.
Hypothesis L : (rows <= cols)%nat.
Lemma wide_pivots : (pd (decomp_plu bigger M rows cols) = 0%nat /\ forall k, (k < rows)%nat -> pm (decomp_plu bigger M rows cols) k k <> 0) <-> ~ singular rows M.
Proof.
  destruct (wide_square rows cols M L) as (_ & _ & E & E4). rewrite E. split.
  - intros [P Z] S. apply (singular_iff_det K bigger O) in S. pose proof (decomp_det K bigger O M rows) as D. cbn zeta in D. rewrite S in D.
    symmetry in D. assert (F : prod rows (fun k => pm (decomp_plu bigger M rows rows) k k) <> 0).
    { apply prod_nonzero. intros k Hk. rewrite <- E4 by assumption. auto. }
    destruct (pp (decomp_plu bigger M rows rows)); cbn in D; [|contradiction]. apply opp_nonzero in F. contradiction.
  - intros S. destruct (decomp_nonsingular K bigger M rows O S) as [P Z]. split; [exact P|]. intros k Hk. rewrite E4 by assumption. auto.
Qed.
(** A vector in the kernel of the upper factor is orthogonal to every row of the matrix. *)
Lemma kernel_rows (o : nat -> K) : (forall r, (r < rows)%nat -> sum cols (fun c => upper_of (pm (decomp_plu bigger M rows cols)) r c * o c) = 0) ->
  forall j, (j < rows)%nat -> sum cols (fun c => M j c * o c) = 0.
Proof.
  intros H j Hj. destruct (decomp_plu_ok K bigger M rows cols O L) as (E & k & B & _). set (d := decomp_plu bigger M rows cols) in *.
  destruct (perm_onto rows (pr d) (by_swaps_perm _ _ _ B) j Hj) as (x & Hx & <-).
  transitivity (sum cols (fun c => sum rows (fun k => lower_of (pm d) x k * upper_of (pm d) k c) * o c)).
  - apply sum_ext. intros c Hc. rewrite <- E by assumption. reflexivity.
  - transitivity (sum cols (fun c => sum rows (fun k => lower_of (pm d) x k * (upper_of (pm d) k c * o c)))).
    + apply sum_ext. intros c Hc. rewrite <- sum_scale_r. apply sum_ext. intros. ring.
    + rewrite sum_swap. apply sum_zero. intros i Hi. rewrite sum_scale, H by assumption. ring.
Qed.
End Wide.

(** ** orthogonal *)
Lemma orth_inner m r cs : ~ In r cs -> forall (o : nat -> K) x,
  fold_left (fun (o : nat -> K) c => upd o r (o r - o c * m r c)) cs o x = if (x =? r)%nat then o r - lsum K cs (fun c => o c * m r c) else o x.
Proof.
  induction cs as [|c cs IH]; intros N o x; cbn [fold_left].
  - rewrite lsum_nil. destruct (Nat.eqb_spec x r) as [->|]; [ring|reflexivity].
  - rewrite IH by (intros H; apply N; now right). unfold upd at 1 3. rewrite Nat.eqb_refl. destruct (Nat.eqb_spec x r) as [->|D].
    + rewrite lsum_cons. rewrite (lsum_ext K cs _ (fun c => o c * m r c)); [ring|]. intros y Hy. unfold upd. destruct (Nat.eqb_spec y r) as [->|]; [|reflexivity].
      exfalso. apply N. now right.
    + unfold upd. destruct (Nat.eqb_spec x r); [contradiction|reflexivity].
Qed.
(** Row [r] of an upper triangular system, split at the diagonal. *)
Lemma upper_row N m r (o : nat -> K) : (r < N)%nat ->
  sum N (fun c => upper_of m r c * o c) = m r r * o r + sum (N - S r) (fun c => m r (S r + c)%nat * o (S r + c)%nat).
Proof.
  intros H. replace N with (r + (1 + (N - S r)))%nat at 1 by lia. rewrite !sum_split, sum_zero.
  - cbn [sum]. rewrite Nat.add_0_r. unfold upper_of at 1. rewrite Nat.ltb_irrefl.
    rewrite (sum_ext K (N - S r) (fun i => upper_of m r (r + (1 + i))%nat * o (r + (1 + i))%nat) (fun c => m r (S r + c)%nat * o (S r + c)%nat)); [ring|].
    intros i Hi. replace (r + (1 + i))%nat with (S r + i)%nat by lia. unfold upper_of. destruct (Nat.ltb_spec (S r + i) r); [lia|reflexivity].
  - intros i Hi. unfold upper_of. destruct (Nat.ltb_spec i r); [ring|lia].
Qed.
Lemma upper_other N m r s (o o' : nat -> K) : (s < r)%nat -> (forall c, c <> s -> o' c = o c) ->
  sum N (fun c => upper_of m r c * o' c) = sum N (fun c => upper_of m r c * o c).
Proof.
  intros H E. apply sum_ext. intros c Hc. unfold upper_of. destruct (Nat.ltb_spec c r); [ring|]. rewrite E by lia. reflexivity.
Qed.
Definition orth_inv N m s (o : nat -> K) : Prop :=
  o (N - 1)%nat = 1 /\ (forall c, (c < s)%nat -> o c = 0) /\ forall r, (s <= r < N - 1)%nat -> sum N (fun c => upper_of m r c * o c) = 0.
Lemma orth_row N m s o : (s < N - 1)%nat -> m s s <> 0 -> orth_inv N m (S s) o -> exists o', orthogonal_row N m (Some o) s = Some o' /\ orth_inv N m s o'.
Proof.
  intros Hs Z (I1 & I2 & I3). unfold orthogonal_row. destruct (feq_dec (m s s) 0); [contradiction|]. eexists. split; [reflexivity|].
  set (o1 := fold_left _ _ o).
  assert (E : forall x, o1 x = if (x =? s)%nat then o s - sum (N - S s) (fun c => o (S s + c)%nat * m s (S s + c)%nat) else o x).
  { intros x. unfold o1. rewrite orth_inner by (intros H; apply in_rev, in_seq in H; lia). rewrite lsum_rev, lsum_seq. now replace (N - S s)%nat with (N - 1 - s)%nat by lia. }
  set (o' := upd o1 s (o1 s / m s s)).
  assert (Es : o' s = (o s - sum (N - S s) (fun c => o (S s + c)%nat * m s (S s + c)%nat)) / m s s).
  { unfold o', upd. rewrite Nat.eqb_refl, E, Nat.eqb_refl. reflexivity. }
  assert (E' : forall x, x <> s -> o' x = o x).
  { intros x D. unfold o', upd. destruct (Nat.eqb_spec x s); [contradiction|]. rewrite E. destruct (Nat.eqb_spec x s); [contradiction|reflexivity]. }
  clearbody o'. repeat split.
  - rewrite E' by lia. exact I1.
  - intros c Hc. rewrite E' by lia. apply I2. lia.
  - intros r Hr. destruct (Nat.eq_dec r s) as [->|D].
    + rewrite upper_row by lia. rewrite Es, I2 by lia.
      rewrite (sum_ext K (N - S s) (fun c => m s (S s + c)%nat * o' (S s + c)%nat) (fun c => o (S s + c)%nat * m s (S s + c)%nat)); [field; exact Z|].
      intros c Hc. rewrite E' by lia. ring.
    + rewrite (upper_other N m r s o); [apply I3; lia|lia|exact E'].
Qed.
Lemma orth_run N m k : (forall j, (j < N - 1)%nat -> m j j <> 0) -> forall s, (0 < N)%nat -> (s + k = N - 1)%nat ->
  exists o, fold_left (orthogonal_row N m) (rev (seq s k)) (Some (upd (fun _ => 0) (N - 1)%nat 1)) = Some o /\ orth_inv N m s o.
Proof.
  intros Z. induction k as [|k IH]; intros s Hn E.
  - eexists. split; [reflexivity|]. repeat split.
    + unfold upd. now rewrite Nat.eqb_refl.
    + intros c Hc. unfold upd. destruct (Nat.eqb_spec c (N - 1)); [lia|reflexivity].
    + intros; lia.
  - cbn [seq rev]. rewrite fold_left_app. destruct (IH (S s) Hn ltac:(lia)) as (o & -> & I). cbn [fold_left]. apply orth_row; auto. lia. apply Z. lia.
Qed.
Lemma orth_none N m l : fold_left (orthogonal_row N m) l None = None.
Proof. induction l; [reflexivity|]. cbn. assumption. Qed.
Lemma orth_pivots N m l o0 o : fold_left (orthogonal_row N m) l o0 = Some o -> forall r, In r l -> m r r <> 0.
Proof.
  revert o0. induction l as [|x l IH]; [intros ? ? ? []|]. intros o0 E r [<-|H].
  - cbn [fold_left] in E. intros Z. unfold orthogonal_row in E at 2. destruct o0; [|now rewrite orth_none in E]. destruct (feq_dec (m x x) 0); [now rewrite orth_none in E|contradiction].
  - apply (IH _ E r H).
Qed.
Lemma orthogonal_ok N v : sane_order bigger -> (0 < N)%nat -> ~ singular (N - 1) v ->
  exists o, orthogonal bigger N v = Some o /\ o (N - 1)%nat = 1 /\ forall j, (j < N - 1)%nat -> sum N (fun c => v j c * o c) = 0.
Proof.
  intros O H S. pose proof (proj2 (wide_pivots v (N - 1) N O ltac:(lia)) S) as [P Z]. unfold orthogonal. rewrite P. cbn [Nat.ltb Nat.leb].
  destruct (orth_run N (pm (decomp_plu bigger v (N - 1) N)) (N - 1) Z 0 H ltac:(lia)) as (o & E & I1 & _ & I3).
  exists o. split; [exact E|]. split; [exact I1|]. apply (kernel_rows v (N - 1) N O ltac:(lia)). intros r Hr. apply I3. lia.
Qed.
(** When the leading block is singular the answer is the zero vector, or a division by zero. *)
Lemma orthogonal_fails N v : sane_order bigger -> singular (N - 1) v -> orthogonal bigger N v = Some (fun _ => 0) \/ orthogonal bigger N v = None.
Proof.
  intros O S. unfold orthogonal. destruct (Nat.ltb_spec 0 (pd (decomp_plu bigger v (N - 1) N))) as [P|P]; [now left|]. right.
  destruct (fold_left _ _ _) as [o|] eqn:E; [|reflexivity]. exfalso. apply (proj1 (wide_pivots v (N - 1) N O ltac:(lia))); [|exact S].
  split; [lia|]. intros k Hk. apply (orth_pivots _ _ _ _ _ E). apply -> in_rev. apply in_seq. lia.
Qed.

(** ** nullspace *)
Lemma null_inner V r b cs : ~ In r cs -> forall X x y,
  fold_left (fun X c => upd2 X r b (X r b - V r c * X c b)) cs X x y = if ((x =? r) && (y =? b))%nat then X r b - lsum K cs (fun c => V r c * X c b) else X x y.
Proof.
  induction cs as [|c cs IH]; intros N X x y; cbn [fold_left].
  - rewrite lsum_nil. destruct (Nat.eqb_spec x r) as [->|], (Nat.eqb_spec y b) as [->|]; cbn [andb]; try reflexivity. ring.
  - rewrite IH by (intros H; apply N; now right). rewrite upd2_same.
    destruct (Nat.eqb_spec x r) as [->|]; cbn [andb]; [|now apply upd2_row].
    destruct (Nat.eqb_spec y b) as [->|]; [|now apply upd2_col]. rewrite lsum_cons.
    rewrite (lsum_ext K cs _ (fun c0 => V r c0 * X c0 b)); [ring|]. intros z Hz. rewrite upd2_row; [reflexivity|]. intros ->. apply N. now right.
Qed.
Definition null_inv N n V b s X : Prop :=
  (forall c, (n <= c < N)%nat -> X c b = delta c (n + b)) /\ forall r, (s <= r < n)%nat -> sum N (fun c => upper_of V r c * X c b) = 0.
Lemma null_row_ok N n V b s X : (s < n)%nat -> (n + b < N)%nat -> V s s <> 0 -> null_inv N n V b (S s) X ->
  exists X', null_row n b V (Some X) s = Some X' /\ null_inv N n V b s X' /\ forall r c, c <> b -> X' r c = X r c.
Proof.
  intros Hs Hb Z (I1 & I3). unfold null_row. destruct (feq_dec (V s s) 0); [contradiction|]. eexists. split; [reflexivity|].
  set (X1 := fold_left _ _ (upd2 X s b _)).
  assert (E : forall x y, X1 x y = if ((x =? s) && (y =? b))%nat then - V s (n + b)%nat - sum (n - S s) (fun c => V s (S s + c)%nat * X (S s + c)%nat b) else X x y).
  { intros x y. unfold X1. rewrite null_inner by (intros H; apply in_seq in H; lia). rewrite lsum_seq, upd2_same.
    destruct (Nat.eqb_spec x s) as [->|]; cbn [andb]; [|now apply upd2_row]. destruct (Nat.eqb_spec y b) as [->|]; [|now apply upd2_col].
    f_equal. apply sum_ext. intros c Hc. now rewrite upd2_row by lia. }
  set (X' := upd2 X1 s b (X1 s b / V s s)).
  assert (E' : forall x, x <> s -> X' x b = X x b).
  { intros x D. unfold X'. rewrite upd2_row by assumption. rewrite E. destruct (Nat.eqb_spec x s); [contradiction|reflexivity]. }
  split; [split|].
  - intros c Hc. rewrite E' by lia. now apply I1.
  - intros r Hr. destruct (Nat.eq_dec r s) as [->|D].
    + rewrite upper_row by lia. replace (N - S s)%nat with ((n - S s) + (N - n))%nat by lia. rewrite sum_split.
      rewrite (sum_ext K (N - n) (fun i => V s (S s + (n - S s + i))%nat * X' (S s + (n - S s + i))%nat b) (fun i => delta b i * V s (n + i)%nat)).
      * rewrite (sum_delta K (N - n) b (fun i => V s (n + i)%nat)) by lia.
        rewrite (sum_ext K (n - S s) (fun c => V s (S s + c)%nat * X' (S s + c)%nat b) (fun c => V s (S s + c)%nat * X (S s + c)%nat b)) by (intros; rewrite E' by lia; reflexivity).
        unfold X'. rewrite upd2_same, E, !Nat.eqb_refl. cbn [andb]. field. exact Z.
      * intros i Hi. replace (S s + (n - S s + i))%nat with (n + i)%nat by lia. rewrite E', I1 by lia. unfold delta.
        destruct (Nat.eqb_spec (n + i) (n + b)), (Nat.eqb_spec b i); try lia; ring.
    + rewrite (upper_other N V r s (fun c => X c b) (fun c => X' c b)); [apply I3; lia|lia|exact E'].
  - intros r c D. unfold X'. rewrite upd2_col by assumption. rewrite E. destruct (Nat.eqb_spec c b); [contradiction|]. now rewrite andb_false_r.
Qed.
Lemma null_rows N n V b k X : (forall j, (j < n)%nat -> V j j <> 0) -> (n + b < N)%nat -> null_inv N n V b n X -> forall s, (s + k = n)%nat ->
  exists X', fold_left (null_row n b V) (rev (seq s k)) (Some X) = Some X' /\ null_inv N n V b s X' /\ forall r c, c <> b -> X' r c = X r c.
Proof.
  intros Z Hb I. induction k as [|k IH]; intros s E.
  - exists X. replace s with n by lia. auto.
  - cbn [seq rev]. rewrite fold_left_app. destruct (IH (S s) ltac:(lia)) as (X1 & -> & I1 & F1). cbn [fold_left].
    destruct (null_row_ok N n V b s X1 ltac:(lia) Hb (Z s ltac:(lia)) I1) as (X2 & -> & I2 & F2). exists X2. split; [reflexivity|]. split; [exact I2|].
    intros r c D. rewrite F2, F1 by assumption. reflexivity.
Qed.
Lemma null_vec_ok N n V b X : (forall j, (j < n)%nat -> V j j <> 0) -> (n + b < N)%nat -> (forall r, X r b = 0) ->
  exists X', null_vec n V (Some X) b = Some X' /\ null_inv N n V b 0 X' /\ forall r c, c <> b -> X' r c = X r c.
Proof.
  intros Z Hb H. unfold null_vec. destruct (null_rows N n V b n (upd2 X (b + n)%nat b 1) Z Hb) with (s := 0%nat) as (X' & E & I & F); [|lia|].
  - split; [|intros; lia]. intros c Hc. unfold upd2, delta. rewrite Nat.eqb_refl, andb_true_r. destruct (Nat.eqb_spec c (b + n)), (Nat.eqb_spec c (n + b)); try lia; [reflexivity|apply H].
  - exists X'. split; [exact E|]. split; [exact I|]. intros r c D. rewrite F by assumption. now apply upd2_col.
Qed.
Lemma null_vecs N n V k : (forall j, (j < n)%nat -> V j j <> 0) -> (n + k <= N)%nat ->
  exists X, fold_left (null_vec n V) (seq 0 k) (Some (fun _ _ => 0)) = Some X /\ (forall b, (b < k)%nat -> null_inv N n V b 0 X) /\ forall r c, (k <= c)%nat -> X r c = 0.
Proof.
  intros Z. induction k as [|k IH]; intros H.
  - exists (fun _ _ => 0). repeat split; intros; try lia.
  - rewrite seq_S, fold_left_app. destruct IH as (X & -> & I & F); [lia|]. cbn [fold_left Nat.add].
    destruct (null_vec_ok N n V k X Z ltac:(lia)) as (X' & -> & I' & F'); [intros; now apply F|]. exists X'. split; [reflexivity|]. split.
    + intros b Hb. destruct (Nat.eq_dec b k) as [->|D]; [exact I'|]. destruct (I b ltac:(lia)) as (J1 & J2). split.
      * intros c Hc. rewrite F' by assumption. auto.
      * intros r Hr. rewrite <- (J2 r Hr). apply sum_ext. intros c _. now rewrite F' by assumption.
    + intros r c Hc. rewrite F' by lia. apply F. lia.
Qed.
Lemma nullspace_ok N n B : sane_order bigger -> (n <= N)%nat -> ~ singular n B ->
  exists X, nullspace bigger N n B = Some (true, X) /\
  (forall b, (b < N - n)%nat -> forall j, (j < n)%nat -> sum N (fun c => B j c * X c b) = 0) /\
  (forall b b', (b < N - n)%nat -> (b' < N - n)%nat -> X (n + b')%nat b = delta b' b).
Proof.
  intros O H S. pose proof (proj2 (wide_pivots B n N O H) S) as [P Z]. unfold nullspace. rewrite P. cbn [Nat.ltb Nat.leb].
  destruct (null_vecs N n (pm (decomp_plu bigger B n N)) (N - n) Z ltac:(lia)) as (X & -> & I & _). exists X. split; [reflexivity|]. split.
  - intros b Hb. apply (kernel_rows B n N O H). intros r Hr. apply (I b Hb). lia.
  - intros b b' Hb Hb'. rewrite (proj1 (I b Hb)) by lia. unfold delta. destruct (Nat.eqb_spec (n + b') (n + b)), (Nat.eqb_spec b' b); try lia; reflexivity.
Qed.
Lemma null_row_none n b V l : fold_left (null_row n b V) l None = None.
Proof. induction l; [reflexivity|]. cbn. assumption. Qed.
Lemma null_row_pivots n b V l o X : fold_left (null_row n b V) l o = Some X -> forall r, In r l -> V r r <> 0.
Proof.
  revert o. induction l as [|x l IH]; [intros ? ? ? []|]. intros o0 E r [<-|H].
  - cbn [fold_left] in E. intros Z. unfold null_row in E at 2. destruct o0; [|now rewrite null_row_none in E]. destruct (feq_dec (V x x) 0); [now rewrite null_row_none in E|contradiction].
  - apply (IH _ E r H).
Qed.
Lemma null_vec_none n V l : fold_left (null_vec n V) l None = None.
Proof. induction l; [reflexivity|]. cbn [fold_left]. unfold null_vec at 2. now rewrite null_row_none. Qed.
Lemma nullspace_fails N n B : sane_order bigger -> (n < N)%nat -> singular n B -> nullspace bigger N n B = Some (false, fun _ _ => 0) \/ nullspace bigger N n B = None.
Proof.
  intros O H Sg. unfold nullspace. destruct (Nat.ltb_spec 0 (pd (decomp_plu bigger B n N))) as [P|P]; [now left|]. right.
  destruct (fold_left _ _ _) as [X|] eqn:E; [|reflexivity]. exfalso. apply (proj1 (wide_pivots B n N O ltac:(lia))); [|exact Sg].
  split; [lia|]. intros k Hk. replace (N - n)%nat with (S (N - n - 1))%nat in E by lia. cbn [seq fold_left] in E.
  destruct (null_vec n (pm (decomp_plu bigger B n N)) (Some (fun _ _ => 0)) 0) as [X0|] eqn:E0; [|now rewrite null_vec_none in E].
  unfold null_vec in E0. apply (null_row_pivots _ _ _ _ _ _ E0). apply -> in_rev. apply in_seq. lia.
Qed.

(** ** Inputs that are independent but badly placed *)
(** Vector j is the unit vector along axis j+1. *)
Definition shifted : mtx K := fun r c => delta (S r) c.
Lemma zero_first_column M n N : (2 <= n <= N)%nat -> (forall r, M r 0%nat = 0) -> (0 < pd (decomp_plu bigger M n N))%nat.
Proof.
  intros H Z. unfold decomp_plu. rewrite Nat.min_l by lia. replace (n - 1)%nat with (S (n - 2)) by lia. cbn [seq fold_left].
  assert (G : forall l s, (pd s <= pd (fold_left (plu_step bigger n N) l s))%nat).
  { induction l as [|i l IH]; intros s; [reflexivity|]. cbn [fold_left]. etransitivity; [|apply IH]. unfold plu_step. destruct (feq_dec _ _); cbn [pd]; [lia|].
    destruct (_ =? _)%nat; reflexivity. }
  eapply Nat.lt_le_trans; [|apply G]. unfold plu_step. destruct (feq_dec _ _) as [_|D]; [cbn; lia|]. exfalso. apply D. cbn [pm]. apply Z.
Qed.
Lemma orthogonal_shifted N : (3 <= N)%nat -> orthogonal bigger N shifted = Some (fun _ => 0).
Proof. intros H. unfold orthogonal. pose proof (zero_first_column shifted (N - 1) N ltac:(lia) (fun _ => eq_refl)) as P. apply Nat.ltb_lt in P. now rewrite P. Qed.
Lemma nullspace_shifted N n : (2 <= n < N)%nat -> nullspace bigger N n shifted = Some (false, fun _ _ => 0).
Proof. intros H. unfold nullspace. pose proof (zero_first_column shifted n N ltac:(lia) (fun _ => eq_refl)) as P. apply Nat.ltb_lt in P. now rewrite P. Qed.
Lemma orthogonal_zero N : (3 <= N)%nat -> orthogonal bigger N (fun _ _ => 0) = Some (fun _ => 0).
Proof. intros H. unfold orthogonal. pose proof (zero_first_column (fun _ _ => 0) (N - 1) N ltac:(lia) (fun _ => eq_refl)) as P. apply Nat.ltb_lt in P. now rewrite P. Qed.
Lemma nullspace_last_zero N (out : mtx K) : (2 <= N)%nat -> exists X, nullspace_any bigger N (N - 1) (fun _ _ => 0) out = Some (true, X) /\ forall k, (k < N)%nat -> X k 0%nat = 0.
Proof.
  intros H. unfold nullspace_any. destruct (Nat.leb_spec N (N - 1)), (Nat.eqb_spec (N - (N - 1)) 1); try lia. unfold orthogonal_any.
  destruct (Nat.eqb_spec N 3) as [->|].
  - eexists. split; [reflexivity|]. intros k Hk. cbn. unfold orthogonal3. destruct (k =? 0)%nat, (k =? 1)%nat; ring.
  - destruct (Nat.eqb_spec N 2) as [->|].
    + eexists. split; [reflexivity|]. intros k Hk. cbn. unfold orthogonal2. destruct (k =? 0)%nat; ring.
    + rewrite orthogonal_zero by lia. eexists. split; [reflexivity|]. reflexivity.
Qed.
Lemma zero_dependent N n : (0 < n)%nat -> ~ independent_rows (K := K) N n (fun _ _ => 0).
Proof. intros H I. apply (f_1_0 K). refine (I (fun _ => 1) _ 0%nat H). intros k _. apply sum_zero. intros. ring. Qed.
(** The first n-1 unit vectors and then a vector that is zero in the first n components. *)
Definition late (n : nat) (w : nat -> K) : mtx K := fun r c => if (r <? n - 1)%nat then delta r c else w c.
Lemma late_decomp n N w : sane_order bigger -> (0 < n < N)%nat -> (forall c, (c < n)%nat -> w c = 0) -> let d := decomp_plu bigger (late n w) n N in pd d = 0%nat /\ pm d (n - 1)%nat (n - 1)%nat = 0.
Proof.
  intros O H W. destruct (echelon_decomp K bigger n N (late n w) O) as (A & _ & _ & D).
  - rewrite Nat.min_l by lia. intros k Hk. unfold late. replace (k <? n - 1)%nat with true by (symmetry; apply Nat.ltb_lt; lia). unfold delta. rewrite Nat.eqb_refl. split; [apply f_1_0|].
    intros r Hr. destruct (r <? n - 1)%nat; [destruct (Nat.eqb_spec r k); [lia|reflexivity]|apply W; lia].
  - split; [exact A|]. rewrite D by lia. unfold late. rewrite Nat.ltb_irrefl. apply W. lia.
Qed.
Lemma orthogonal_late N w : sane_order bigger -> (2 <= N)%nat -> (forall c, (c < N - 1)%nat -> w c = 0) -> orthogonal bigger N (late (N - 1) w) = None.
Proof.
  intros O H W. destruct (late_decomp (N - 1) N w O ltac:(lia) W) as [P Z]. unfold orthogonal. rewrite P. cbn [Nat.ltb Nat.leb].
  destruct (fold_left _ _ _) as [o|] eqn:E; [|reflexivity]. exfalso. apply (orth_pivots _ _ _ _ _ E (N - 1 - 1)%nat); [|exact Z]. apply -> in_rev. apply in_seq. lia.
Qed.
Lemma nullspace_late N n w : sane_order bigger -> (0 < n < N)%nat -> (forall c, (c < n)%nat -> w c = 0) -> nullspace bigger N n (late n w) = None.
Proof.
  intros O H W. destruct (late_decomp n N w O ltac:(lia) W) as [P Z]. unfold nullspace. rewrite P. cbn [Nat.ltb Nat.leb].
  destruct (fold_left _ _ _) as [X|] eqn:E; [|reflexivity]. exfalso. replace (N - n)%nat with (S (N - n - 1))%nat in E by lia. cbn [seq fold_left] in E.
  destruct (null_vec n (pm (decomp_plu bigger (late n w) n N)) (Some (fun _ _ => 0)) 0) as [X0|] eqn:E0; [|now rewrite null_vec_none in E].
  unfold null_vec in E0. apply (null_row_pivots _ _ _ _ _ _ E0 (n - 1)%nat); [|exact Z]. apply -> in_rev. apply in_seq. lia.
Qed.
Lemma shifted_independent N n : (n < N)%nat -> independent_rows N n shifted.
Proof.
  intros H t Ht j Hj. rewrite <- (Ht (S j) ltac:(lia)). rewrite (sum_single K n j); [|assumption|].
  - unfold shifted, delta. rewrite Nat.eqb_refl. ring.
  - intros i Hi D. unfold shifted, delta. destruct (Nat.eqb_spec (S i) (S j)); [lia|]. ring.
Qed.
Lemma late_independent N n : (0 < n < N)%nat -> independent_rows N n (late n (fun c => delta n c)).
Proof.
  intros H t Ht j Hj. set (p := if (j <? n - 1)%nat then j else n).
  assert (Hp : (p < N)%nat) by (unfold p; destruct (Nat.ltb_spec j (n - 1)); lia).
  rewrite <- (Ht p Hp). rewrite (sum_single K n j); [|assumption|].
  - unfold late, delta, p. destruct (j <? n - 1)%nat; rewrite Nat.eqb_refl; ring.
  - intros i Hi D. unfold late, delta, p. destruct (Nat.ltb_spec i (n - 1)), (Nat.ltb_spec j (n - 1)).
    + destruct (Nat.eqb_spec i j); [lia|]. ring.
    + destruct (Nat.eqb_spec i n); [lia|]. ring.
    + destruct (Nat.eqb_spec n j); [lia|]. ring.
    + lia.
Qed.
Lemma late_dependent N n : (0 < n)%nat -> ~ independent_rows N n (late n (fun _ => 0)).
Proof.
  intros H I. apply (f_1_0 K). rewrite <- (I (fun j => delta j (n - 1)%nat)) with (j := (n - 1)%nat); [unfold delta; now rewrite Nat.eqb_refl| |lia].
  intros k Hk. apply sum_zero. intros i Hi. unfold delta at 1, late. destruct (Nat.eqb_spec i (n - 1)) as [->|]; [rewrite Nat.ltb_irrefl; ring|ring].
Qed.
Lemma nonsingular_independent N n M : (n <= N)%nat -> ~ singular n (fun r c => M c r) -> independent_rows N n M.
Proof.
  intros L S t Ht j Hj. destruct (feq_dec (t j) 0) as [|D]; [assumption|]. exfalso. apply S. exists t. split; [eauto|]. intros r Hr.
  rewrite <- (Ht r ltac:(lia)). apply sum_ext. intros. ring.
Qed.

(** ** Three dimensions *)
Lemma cross_orthogonal v j : (j < 2)%nat -> sum 3 (fun c => v j c * orthogonal3 v c) = 0.
Proof. intros H. destruct j as [|[|]]; [| |lia]; cbn; ring. Qed.
Lemma cross_independent v : independent_rows 3 2 v <-> exists k, (k < 3)%nat /\ orthogonal3 v k <> 0.
Proof.
  assert (P : forall t : nat -> K, forall k, sum 2 (fun j => t j * v j k) = t 0%nat * v 0%nat k + t 1%nat * v 1%nat k) by (intros; cbn; ring).
  split.
  - intros I. destruct (feq_dec (orthogonal3 v 0%nat) 0) as [Z0|]; [|exists 0%nat; auto]. destruct (feq_dec (orthogonal3 v 1%nat) 0) as [Z1|]; [|exists 1%nat; auto].
    destruct (feq_dec (orthogonal3 v 2%nat) 0) as [Z2|]; [|exists 2%nat; auto]. exfalso.
    assert (M : forall i k, (i < 3)%nat -> (k < 3)%nat -> v 0%nat i * v 1%nat k - v 0%nat k * v 1%nat i = 0).
    { assert (G : forall x y : K, x = 0 -> y = - x -> y = 0) by (intros x y -> ->; ring). cbn in Z0, Z1, Z2.
      intros [|[|[|]]] [|[|[|]]] Hi Hk; try lia; first [assumption | ring | apply (G _ _ Z0); ring | apply (G _ _ Z1); ring | apply (G _ _ Z2); ring]. }
    assert (A : forall i, (i < 3)%nat -> v 0%nat i = 0).
    { intros i Hi. assert (E : forall j, (j < 2)%nat -> (if (j =? 0)%nat then v 1%nat i else - v 0%nat i) = 0).
      { apply (I (fun j => if (j =? 0)%nat then v 1%nat i else - v 0%nat i)). intros k Hk. rewrite P. cbn. rewrite <- (M k i Hk Hi). ring. }
      specialize (E 1%nat ltac:(lia)). cbn in E. transitivity (- (- v 0%nat i)); [ring|]. rewrite E. ring. }
    apply (f_1_0 K). refine (I (fun j => if (j =? 0)%nat then 1 else 0) _ 0%nat ltac:(lia)). intros k Hk. rewrite P. cbn. rewrite A by assumption. ring.
  - intros (k & Hk & D) t Ht. 
    assert (E : forall j, (j < 2)%nat -> t j * orthogonal3 v k = 0).
    { pose proof (Ht 0%nat ltac:(lia)) as T0. pose proof (Ht 1%nat ltac:(lia)) as T1. pose proof (Ht 2%nat ltac:(lia)) as T2. rewrite P in T0, T1, T2.
      set (p := t 0%nat * v 0%nat 0%nat + t 1%nat * v 1%nat 0%nat) in *. set (q := t 0%nat * v 0%nat 1%nat + t 1%nat * v 1%nat 1%nat) in *. set (r := t 0%nat * v 0%nat 2%nat + t 1%nat * v 1%nat 2%nat) in *.
      intros [|[|]] Hj; [| |lia]; destruct k as [|[|[|]]]; try lia; cbn.
      - transitivity (q * v 1%nat 2%nat - r * v 1%nat 1%nat); [unfold q, r; ring|rewrite T1, T2; ring].
      - transitivity (r * v 1%nat 0%nat - p * v 1%nat 2%nat); [unfold p, r; ring|rewrite T0, T2; ring].
      - transitivity (p * v 1%nat 1%nat - q * v 1%nat 0%nat); [unfold p, q; ring|rewrite T0, T1; ring].
      - transitivity (r * v 0%nat 1%nat - q * v 0%nat 2%nat); [unfold q, r; ring|rewrite T1, T2; ring].
      - transitivity (p * v 0%nat 2%nat - r * v 0%nat 0%nat); [unfold p, r; ring|rewrite T0, T2; ring].
      - transitivity (q * v 0%nat 0%nat - p * v 0%nat 1%nat); [unfold p, q; ring|rewrite T0, T1; ring]. }
    intros j Hj. destruct (mul_zero K _ _ (E j Hj)) as [|]; [assumption|contradiction].
Qed.
Lemma left_orthogonal v : sum 2 (fun c => v 0%nat c * orthogonal2 v c) = 0.
Proof. cbn. ring. Qed.
Lemma left_independent v : independent_rows 2 1 v <-> exists k, (k < 2)%nat /\ orthogonal2 v k <> 0.
Proof.
  split.
  - intros I. destruct (feq_dec (orthogonal2 v 0%nat) 0) as [Z0|]; [|exists 0%nat; auto]. destruct (feq_dec (orthogonal2 v 1%nat) 0) as [Z1|]; [|exists 1%nat; auto]. exfalso.
    cbn in Z0, Z1. apply (f_1_0 K). refine (I (fun _ => 1) _ 0%nat ltac:(lia)). intros [|[|]] Hk; [| |lia]; cbn.
    + rewrite Z1. ring.
    + transitivity (- (- v 0%nat 1%nat)); [ring|]. rewrite Z0. ring.
  - intros (k & Hk & D) t Ht j Hj. replace j with 0%nat by lia.
    pose proof (Ht 0%nat ltac:(lia)) as T0. pose proof (Ht 1%nat ltac:(lia)) as T1. cbn in T0, T1.
    destruct k as [|[|]]; [| |lia]; cbn in D.
    + destruct (mul_zero K (t 0%nat) (v 0%nat 1%nat)) as [|E]; [transitivity (0 + t 0%nat * v 0%nat 1%nat); [ring|exact T1]|assumption|]. exfalso. apply D. rewrite E. ring.
    + destruct (mul_zero K (t 0%nat) (v 0%nat 0%nat)) as [|E]; [transitivity (0 + t 0%nat * v 0%nat 0%nat); [ring|exact T0]|assumption|]. contradiction.
Qed.
End Null.
