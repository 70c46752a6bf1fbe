From Coq Require Import Arith Lia List Bool Field Ring.
From Verif Require Import Fld FldLemmas LinSpec PermModel PermSpec PermProofs PermCycleProofs PermSignProofs PluModel PluProofs.
Import ListNotations.
Open Scope nat_scope.

Section Solve.
Variable K : field.
Add Field KF : (fth K).
Variable bigger : K -> K -> bool.
Local Open Scope fld_scope.
Implicit Types M A B X Y lu : mtx K.

(** ** Upper triangular systems have solutions *)
Lemma upper_solve (T : mtx K) i : (forall k, (k < i)%nat -> T k k <> 0) -> forall w : nat -> K,
  exists v : nat -> K, (forall c, (i <= c)%nat -> v c = 0) /\ forall k, (k < i)%nat -> sum i (fun c => upper_of T k c * v c) = w k.
Proof.
  induction i as [|i IH]; intros D w; [exists (fun _ => 0); split; [reflexivity|intros; lia]|].
  set (x := w i / T i i). destruct (IH (fun k Hk => D k ltac:(lia)) (fun k => w k - T k i * x)) as (v & V0 & V).
  exists (fun c => if (c =? i)%nat then x else v c). split.
  - intros c Hc. destruct (Nat.eqb_spec c i); [lia|]. apply V0. lia.
  - intros k Hk. cbn [sum]. rewrite Nat.eqb_refl.
    rewrite (sum_ext K i _ (fun c => upper_of T k c * v c)) by (intros c Hc; destruct (Nat.eqb_spec c i); [lia|reflexivity]).
    destruct (Nat.eq_dec k i) as [->|N].
    + rewrite sum_zero by (intros c Hc; unfold upper_of; destruct (Nat.ltb_spec c i); [ring|lia]).
      unfold upper_of. rewrite Nat.ltb_irrefl. unfold x. field. apply D. lia.
    + rewrite V by lia. unfold upper_of. destruct (Nat.ltb_spec i k); [lia|]. ring.
Qed.

Section Square.
Variables (M : mtx K) (n : nat).
Hypothesis O : sane_order bigger.

(** An elimination column with nothing but zeros makes the matrix singular. *)
Lemma degenerate_singular i s : (i < n)%nat -> plu_inv K M n n i s -> (forall k, (k < i)%nat -> pm s k k <> 0) ->
  (forall r, (i <= r < n)%nat -> pm s r i = 0) -> singular n M.
Proof.
  intros Hi (I1 & (kk & I2 & _) & _) D Z. destruct (upper_solve (pm s) i D (fun k => - pm s k i)) as (v & V0 & V).
  set (w := fun c => if (c =? i)%nat then 1 else v c).
  assert (W : forall T : nat -> K, sum n (fun c => T c * w c) = sum i (fun c => T c * v c) + T i).
  { intros T. rewrite (sum_trunc K n (S i)); [|lia|].
    - cbn [sum]. unfold w at 2. rewrite Nat.eqb_refl.
      rewrite (sum_ext K i _ (fun c => T c * v c)); [ring|]. intros c Hc. unfold w. destruct (Nat.eqb_spec c i); [lia|reflexivity].
    - intros c Hc. unfold w. destruct (Nat.eqb_spec c i); [lia|]. rewrite V0 by lia. ring. }
  assert (U : forall k, (k < i)%nat -> sum n (fun c => upper_of (pm s) k c * w c) = 0).
  { intros k Hk. rewrite W, V by auto. unfold upper_of. destruct (Nat.ltb_spec i k); [lia|]. ring. }
  assert (R : forall r, (r < n)%nat -> sum n (fun c => M (pr s r) c * w c) = 0).
  { intros r Hr. rewrite (sum_ext K n _ (fun c => rep K i (pm s) r c * w c)) by (intros c Hc; now rewrite I1).
    unfold rep. rewrite (sum_ext K n _ (fun c => sum i (fun k => (if (k <? r)%nat then pm s r k * part K i (pm s) k c else 0) * w c) + part K i (pm s) r c * w c))
      by (intros c _; rewrite sum_scale_r; ring).
    rewrite sum_add, sum_swap. rewrite (sum_zero K i).
    - destruct (Nat.lt_ge_cases r i) as [L|L].
      + rewrite (sum_ext K n _ (fun c => upper_of (pm s) r c * w c)) by (intros c _; now rewrite part_low). rewrite U by auto. ring.
      + rewrite W. rewrite sum_zero.
        * unfold part. rewrite Nat.ltb_irrefl, andb_false_r, Z by lia. ring.
        * intros c Hc. unfold part. destruct (Nat.ltb_spec c r), (Nat.ltb_spec c i); try lia. cbn [andb]. ring.
    - intros k Hk. destruct (k <? r)%nat; [|apply sum_zero; intros; ring].
      rewrite (sum_ext K n _ (fun c => pm s r k * (upper_of (pm s) k c * w c))) by (intros c _; rewrite part_low by auto; ring).
      rewrite sum_scale, U by auto. ring. }
  exists w. split.
  - exists i. split; [exact Hi|]. unfold w. rewrite Nat.eqb_refl. apply f_1_0.
  - intros r Hr. destruct (perm_onto n (pr s) (by_swaps_perm _ _ _ I2) r Hr) as (x & Hx & E). rewrite <- E. now apply R.
Qed.
Lemma plu_singular i : (i <= n)%nat -> 
  let s := fold_left (plu_step bigger n n) (seq 0 i) (mkPlu M (fun i => i) false 0) in pd s <> 0%nat -> singular n M.
Proof.
  induction i as [|i IH]; intros Hi; [cbn; congruence|]. rewrite seq_S, fold_left_app. cbn [fold_left Nat.add].
  set (s := fold_left _ (seq 0 i) _). pose proof (plu_run K bigger M n n O i ltac:(lia)) as I. fold s in I.
  destruct (Nat.eq_dec (pd s) 0) as [E|N]; [|intros _; apply IH; [lia|exact N]].
  destruct (plu_step_cases K bigger M n n O i s ltac:(lia) ltac:(lia) I) as [(_ & _ & _ & Z)|(E2 & _)].
  - intros _. exact (degenerate_singular i s ltac:(lia) I (proj2 (proj2 I) E) Z).
  - cbn zeta. rewrite E2. congruence.
Qed.
Lemma decomp_degenerate_singular : pd (decomp_plu bigger M n n) <> 0%nat -> singular n M.
Proof. apply plu_singular. lia. Qed.
Lemma decomp_zero_pivot_singular k : pd (decomp_plu bigger M n n) = 0%nat -> (k < n)%nat -> pm (decomp_plu bigger M n n) k k = 0 -> singular n M.
Proof.
  intros E Hk Z. pose proof (decomp_plu_inv K bigger M n n O) as I. rewrite Nat.min_id in I. pose proof (proj2 (proj2 I) E) as D.
  assert (k = n - 1)%nat. { destruct (Nat.lt_ge_cases k (n - 1)) as [L|L]; [destruct (D k L Z)|lia]. } subst k.
  apply (degenerate_singular (n - 1) (decomp_plu bigger M n n) Hk I D). intros r Hr. replace r with (n - 1)%nat by lia. exact Z.
Qed.
Lemma decomp_nonsingular : ~ singular n M -> pd (decomp_plu bigger M n n) = 0%nat /\ forall k, (k < n)%nat -> pm (decomp_plu bigger M n n) k k <> 0.
Proof.
  intros NS. assert (E : pd (decomp_plu bigger M n n) = 0%nat).
  { destruct (Nat.eq_dec (pd (decomp_plu bigger M n n)) 0); [auto|]. destruct NS. now apply decomp_degenerate_singular. }
  split; [exact E|]. intros k Hk Z. apply NS. exact (decomp_zero_pivot_singular k E Hk Z).
Qed.
End Square.

(** ** Substitution loops *)
Definition lsum (l : list nat) (f : nat -> K) : K := fold_right (fun a b => f a + b) 0 l.
Lemma lsum_cons a l f : lsum (a :: l) f = f a + lsum l f.
Proof. reflexivity. Qed.
Lemma lsum_nil f : lsum [] f = 0.
Proof. reflexivity. Qed.
Lemma lsum_app l1 l2 f : lsum (l1 ++ l2) f = lsum l1 f + lsum l2 f.
Proof. induction l1 as [|a l IH]; cbn [app]; [rewrite lsum_nil; ring|]. rewrite !lsum_cons, IH. ring. Qed.
Lemma lsum_rev l f : lsum (rev l) f = lsum l f.
Proof. induction l as [|a l IH]; cbn [rev]; [reflexivity|]. rewrite lsum_app, IH, !lsum_cons, lsum_nil. ring. Qed.
Lemma lsum_seq a k f : lsum (seq a k) f = sum k (fun i => f (a + i)%nat).
Proof. induction k as [|k IH]; [reflexivity|]. rewrite seq_S, lsum_app, IH, lsum_cons, lsum_nil. cbn [sum]. ring. Qed.
Lemma lsum_ext l f g : (forall x, In x l -> f x = g x) -> lsum l f = lsum l g.
Proof. induction l as [|a l IH]; intros H; [reflexivity|]. rewrite !lsum_cons. rewrite H by (now left). rewrite IH; [reflexivity|]. intros x Hx. apply H. now right. Qed.

Lemma sub_terms_spec lu r i cs : ~ In r cs -> forall X r' i',
  sub_terms lu r i cs X r' i' = if ((r' =? r) && (i' =? i))%nat then X r i - lsum cs (fun c => X c i * lu r c) else X r' i'.
Proof.
  unfold sub_terms. induction cs as [|c cs IH]; intros N X r' i'; cbn [fold_left].
  - destruct (Nat.eqb_spec r' r) as [->|], (Nat.eqb_spec i' i) as [->|]; cbn [andb]; try reflexivity. rewrite lsum_nil. ring.
  - rewrite IH by (intros H; apply N; now right). rewrite upd2_same.
    destruct (Nat.eqb_spec r' r) as [->|]; cbn [andb]; [|now apply upd2_row].
    destruct (Nat.eqb_spec i' i) as [->|]; [|now apply upd2_col]. rewrite lsum_cons.
    rewrite (lsum_ext cs _ (fun c0 => X c0 i * lu r c0)); [ring|]. intros x Hx. rewrite upd2_row; [reflexivity|]. intros ->. apply N. now right.
Qed.
(** A loop over columns that rewrites entry (r,i) from column [i] only. *)
Lemma col_loop (f : mtx K -> nat -> mtx K) r (g : nat -> (nat -> K) -> K) :
  (forall X i r' i', f X i r' i' = if ((r' =? r) && (i' =? i))%nat then g i (fun c => X c i) else X r' i') ->
  (forall i u v, (forall c, u c = v c) -> g i u = g i v) ->
  forall k X r' i', fold_left f (seq 0 k) X r' i' = if ((r' =? r) && (i' <? k))%nat then g i' (fun c => X c i') else X r' i'.
Proof.
  intros F G k X. induction k as [|k IH]; intros r' i'.
  - cbn [seq fold_left]. destruct (Nat.ltb_spec i' 0); [lia|]. now rewrite andb_false_r.
  - rewrite seq_S, fold_left_app. cbn [fold_left Nat.add]. rewrite F. destruct (Nat.eqb_spec r' r) as [->|N]; cbn [andb]; [|rewrite IH; destruct (Nat.eqb_spec r' r); [contradiction|reflexivity]].
    destruct (Nat.eqb_spec i' k) as [->|N].
    + destruct (Nat.ltb_spec k (S k)); [|lia]. apply G. intros c. rewrite IH, Nat.ltb_irrefl, andb_false_r. reflexivity.
    + rewrite IH, Nat.eqb_refl. cbn [andb]. destruct (Nat.ltb_spec i' k), (Nat.ltb_spec i' (S k)); try lia; reflexivity.
Qed.
Lemma forward_row_spec lu m X r r' i :
  forward_row lu m X r r' i = if ((r' =? r) && (i <? m))%nat then X r i - sum r (fun c => X c i * lu r c) else X r' i.
Proof.
  unfold forward_row. apply (col_loop _ r (fun _ x => x r - sum r (fun c => x c * lu r c))).
  - intros X0 i0 r0 i'. rewrite sub_terms_spec by (intros H; apply in_seq in H; lia). rewrite lsum_seq. reflexivity.
  - intros i0 u v E. rewrite E. f_equal. apply sum_ext. intros. now rewrite E.
Qed.
Lemma forward_row_plu_spec lu p B m X r r' i :
  forward_row_plu lu p B m X r r' i = if ((r' =? r) && (i <? m))%nat then B (p r) i - sum r (fun c => X c i * lu r c) else X r' i.
Proof.
  unfold forward_row_plu. apply (col_loop _ r (fun i x => B (p r) i - sum r (fun c => x c * lu r c))).
  - intros X0 i0 r0 i'. rewrite sub_terms_spec by (intros H; apply in_seq in H; lia). rewrite lsum_seq, upd2_same. cbn [Nat.add].
    destruct (Nat.eqb_spec r0 r) as [->|]; cbn [andb]; [|now apply upd2_row]. destruct (Nat.eqb_spec i' i0) as [->|]; [|now apply upd2_col].
    f_equal. apply sum_ext. intros c Hc. rewrite upd2_row by lia. reflexivity.
  - intros i0 u v E. f_equal. apply sum_ext. intros. now rewrite E.
Qed.
Lemma backward_row_spec lu n m X r r' i :
  backward_row lu n m X r r' i =
  if ((r' =? r) && (i <? m))%nat then (X r i - sum (n - S r) (fun c => X (S r + c)%nat i * lu r (S r + c)%nat)) / lu r r else X r' i.
Proof.
  unfold backward_row. apply (col_loop _ r (fun _ x => (x r - sum (n - S r) (fun c => x (S r + c)%nat * lu r (S r + c)%nat)) / lu r r)).
  - intros X0 i0 r0 i'. assert (N : ~ In r (rev (seq (S r) (n - S r)))) by (intros H; apply in_rev, in_seq in H; lia). cbn zeta.
    destruct (Nat.eqb_spec r0 r) as [->|]; cbn [andb].
    + destruct (Nat.eqb_spec i' i0) as [->|].
      * rewrite upd2_same, sub_terms_spec by auto. rewrite !Nat.eqb_refl. cbn [andb]. now rewrite lsum_rev, lsum_seq.
      * rewrite upd2_col, sub_terms_spec by auto. destruct (Nat.eqb_spec i' i0); [contradiction|]. now rewrite andb_false_r.
    + rewrite upd2_row, sub_terms_spec by auto. destruct (Nat.eqb_spec r0 r); [contradiction|reflexivity].
  - intros i0 u v E. rewrite E. f_equal. f_equal. apply sum_ext. intros. now rewrite E.
Qed.

(** Forward substitution: Y solves L*Y = X. *)
Lemma forward_ok lu n m X : let Y := fold_left (forward_row lu m) (seq 1 (n - 1)) X in
  forall r i, (r < n)%nat -> (i < m)%nat -> mmul n (lower_of lu) Y r i = X r i.
Proof.
  assert (G : forall k, let Y := fold_left (forward_row lu m) (seq 1 k) X in
    (forall r i, (k < r)%nat -> Y r i = X r i) /\
    (forall r i, (r <= k)%nat -> (i < m)%nat -> Y r i + sum r (fun c => lu r c * Y c i) = X r i)).
  { induction k as [|k IH]; cbn zeta.
    - cbn [seq fold_left]. split; [reflexivity|]. intros r i Hr _. replace r with 0%nat by lia. cbn. ring.
    - rewrite seq_S, fold_left_app. cbn [fold_left Nat.add]. cbn zeta in IH. set (Y := fold_left _ (seq 1 k) X) in *. destruct IH as [I1 I2].
      split.
      + intros r i Hr. rewrite forward_row_spec. destruct (Nat.eqb_spec r (S k)); [lia|]. apply I1. lia.
      + intros r i Hr Hi.
        rewrite (sum_ext K r _ (fun c => lu r c * Y c i)) by (intros c Hc; rewrite forward_row_spec; destruct (Nat.eqb_spec c (S k)); [lia|reflexivity]).
        rewrite forward_row_spec. destruct (Nat.eqb_spec r (S k)) as [->|N].
        * destruct (Nat.ltb_spec i m); [|lia]. cbn [andb]. rewrite I1 by lia.
          rewrite (sum_ext K (S k) (fun c => Y c i * lu (S k) c) (fun c => lu (S k) c * Y c i)) by (intros; ring). ring.
        * apply I2; [lia|exact Hi]. }
  intros Y r i Hr Hi. destruct (G (n - 1)%nat) as [_ G2]. fold Y in G2. rewrite <- (G2 r i) by lia. unfold mmul.
  rewrite (sum_trunc K n (S r)); [|lia|].
  - cbn [sum]. rewrite (sum_ext K r _ (fun c => lu r c * Y c i)).
    + unfold lower_of. rewrite Nat.ltb_irrefl, Nat.eqb_refl. ring.
    + intros c Hc. unfold lower_of. destruct (Nat.ltb_spec c r); [reflexivity|lia].
  - intros c Hc. unfold lower_of. destruct (Nat.ltb_spec c r), (Nat.eqb_spec c r); try lia. ring.
Qed.
Lemma forward_plu_ok lu p B n m X : let Y := fold_left (forward_row_plu lu p B m) (seq 0 n) X in
  forall r i, (r < n)%nat -> (i < m)%nat -> mmul n (lower_of lu) Y r i = B (p r) i.
Proof.
  assert (G : forall k, let Y := fold_left (forward_row_plu lu p B m) (seq 0 k) X in
    (forall r i, (r < k)%nat -> (i < m)%nat -> Y r i + sum r (fun c => lu r c * Y c i) = B (p r) i)).
  { induction k as [|k IH]; cbn zeta; [intros; lia|].
    rewrite seq_S, fold_left_app. cbn [fold_left Nat.add]. cbn zeta in IH. set (Y := fold_left _ (seq 0 k) X) in *.
    intros r i Hr Hi.
    rewrite (sum_ext K r _ (fun c => lu r c * Y c i)) by (intros c Hc; rewrite forward_row_plu_spec; destruct (Nat.eqb_spec c k); [lia|reflexivity]).
    rewrite forward_row_plu_spec. destruct (Nat.eqb_spec r k) as [->|N].
    - destruct (Nat.ltb_spec i m); [|lia]. cbn [andb].
      rewrite (sum_ext K k (fun c => Y c i * lu k c) (fun c => lu k c * Y c i)) by (intros; ring). ring.
    - apply IH; [lia|exact Hi]. }
  intros Y r i Hr Hi. pose proof (G n) as G2. cbn zeta in G2. fold Y in G2. rewrite <- (G2 r i) by lia. unfold mmul.
  rewrite (sum_trunc K n (S r)); [|lia|].
  - cbn [sum]. rewrite (sum_ext K r _ (fun c => lu r c * Y c i)).
    + unfold lower_of. rewrite Nat.ltb_irrefl, Nat.eqb_refl. ring.
    + intros c Hc. unfold lower_of. destruct (Nat.ltb_spec c r); [reflexivity|lia].
  - intros c Hc. unfold lower_of. destruct (Nat.ltb_spec c r), (Nat.eqb_spec c r); try lia. ring.
Qed.
Lemma backward_S lu n m skip X : (skip < n)%nat -> backward lu n m skip X = backward_row lu n m (backward lu n m (S skip) X) skip.
Proof.
  intros H. unfold backward. replace (n - skip)%nat with (S (n - S skip)) by lia. cbn [seq rev]. rewrite fold_left_app. reflexivity.
Qed.
Lemma backward_same lu n m s X r i : (r < s)%nat -> (s <= n)%nat -> backward lu n m s X r i = X r i.
Proof.
  intros Hr Hs. remember (n - s)%nat as d eqn:Ed. revert s Hr Hs Ed. induction d as [|d IH]; intros s Hr Hs Ed.
  - unfold backward. rewrite <- Ed. reflexivity.
  - rewrite backward_S by lia. rewrite backward_row_spec. destruct (Nat.eqb_spec r s); [lia|]. apply IH; lia.
Qed.
(** Rows from [skip] on do not depend on [skip]. *)
Lemma backward_skip lu n m d : forall s X r i, (s + d <= r)%nat -> (s + d <= n)%nat -> backward lu n m s X r i = backward lu n m (s + d) X r i.
Proof.
  induction d as [|d IH]; intros s X r i Hr Hn; [now rewrite Nat.add_0_r|]. rewrite backward_S by lia. rewrite backward_row_spec.
  destruct (Nat.eqb_spec r s); [lia|]. cbn [andb]. rewrite (IH (S s)) by lia. now replace (S s + d)%nat with (s + S d)%nat by lia.
Qed.
(** Back substitution: rows from [skip] on solve U*X = Y. *)
Lemma backward_ok lu n m s Y : (forall r, (s <= r < n)%nat -> lu r r <> 0) -> (s <= n)%nat ->
  forall r i, (s <= r < n)%nat -> (i < m)%nat -> mmul n (upper_of lu) (backward lu n m s Y) r i = Y r i.
Proof.
  remember (n - s)%nat as d eqn:Ed. revert s Ed. induction d as [|d IH]; intros s Ed D Hs r i Hr Hi; [lia|].
  rewrite backward_S by lia. set (X := backward lu n m (S s) Y) in *.
  assert (T : forall (Z : mtx K) r, (r < n)%nat -> mmul n (upper_of lu) Z r i = lu r r * Z r i + sum (n - S r) (fun c => Z (S r + c)%nat i * lu r (S r + c)%nat)).
  { intros Z r0 Hr0. unfold mmul. replace n with (r0 + (1 + (n - S r0)))%nat at 1 by lia. rewrite !sum_split.
    rewrite sum_zero by (intros c Hc; unfold upper_of; destruct (Nat.ltb_spec c r0); [ring|lia]). cbn [sum].
    rewrite (sum_ext K (n - S r0) _ (fun c => Z (S r0 + c)%nat i * lu r0 (S r0 + c)%nat)).
    - rewrite Nat.add_0_r. unfold upper_of. rewrite Nat.ltb_irrefl. ring.
    - intros c Hc. unfold upper_of. replace (r0 + (1 + c))%nat with (S r0 + c)%nat by lia. destruct (Nat.ltb_spec (S r0 + c) r0); [lia|ring]. }
  destruct (Nat.eq_dec r s) as [->|N].
  - rewrite T by lia. rewrite (sum_ext K (n - S s) _ (fun c => X (S s + c)%nat i * lu s (S s + c)%nat))
      by (intros c Hc; rewrite backward_row_spec; destruct (Nat.eqb_spec (S s + c) s); [lia|reflexivity]).
    rewrite backward_row_spec, Nat.eqb_refl. destruct (Nat.ltb_spec i m); [|lia]. cbn [andb].
    replace (X s i) with (Y s i) by (symmetry; apply backward_same; lia). field. apply D. lia.
  - rewrite <- (IH (S s) ltac:(lia) ltac:(intros; apply D; lia) ltac:(lia) r i ltac:(lia) Hi). fold X. rewrite !T by lia.
    rewrite (sum_ext K (n - S r) (fun c => backward_row lu n m X s (S r + c)%nat i * lu r (S r + c)%nat) (fun c => X (S r + c)%nat i * lu r (S r + c)%nat))
      by (intros c Hc; rewrite backward_row_spec; destruct (Nat.eqb_spec (S r + c) s); [lia|reflexivity]).
    rewrite backward_row_spec. destruct (Nat.eqb_spec r s); [lia|]. reflexivity.
Qed.
Lemma backsolve_lu_ok lu n m X : (forall r, (r < n)%nat -> lu r r <> 0) -> forall r i, (r < n)%nat -> (i < m)%nat ->
  mmul n (mmul n (lower_of lu) (upper_of lu)) (backsolve_lu lu n m 0 X) r i = X r i.
Proof.
  intros D r i Hr Hi. rewrite mmul_assoc. unfold backsolve_lu. set (Y := fold_left _ (seq 1 _) X).
  rewrite <- (forward_ok lu n m X r i Hr Hi). fold Y. unfold mmul at 1 3. apply sum_ext. intros k Hk. f_equal.
  apply backward_ok; auto; [intros; apply D; lia|lia|lia].
Qed.
Lemma backsolve_plu_ok lu p n m B X : (forall r, (r < n)%nat -> lu r r <> 0) -> forall r i, (r < n)%nat -> (i < m)%nat ->
  mmul n (mmul n (lower_of lu) (upper_of lu)) (backsolve_plu lu p n m 0 B X) r i = B (p r) i.
Proof.
  intros D r i Hr Hi. rewrite mmul_assoc. unfold backsolve_plu. set (Y := fold_left _ (seq 0 _) X).
  rewrite <- (forward_plu_ok lu p B n m X r i Hr Hi). fold Y. unfold mmul at 1 3. apply sum_ext. intros k Hk. f_equal.
  apply backward_ok; auto; [intros; apply D; lia|lia|lia].
Qed.

(** ** linear_solve *)
Lemma linear_solve_total A n m skip X : sane_order bigger -> linear_solve bigger A n m skip X <> None.
Proof.
  intros O. unfold linear_solve. destruct (0 <? _)%nat; [discriminate|].
  destruct (decomp_plu_inv K bigger A n n O) as (_ & (k & S & _) & _).
  destruct (apply_ok n _ X (by_swaps_perm _ _ _ S)) as (p' & X1 & E & _). unfold destructive_apply_permutation. rewrite E. discriminate.
Qed.
Lemma linear_solve_false A n m skip X X' : sane_order bigger -> linear_solve bigger A n m skip X = Some (false, X') -> singular n A.
Proof.
  intros O. unfold linear_solve. destruct (Nat.ltb_spec 0 (pd (decomp_plu bigger A n n))) as [L|L].
  - intros _. apply (decomp_degenerate_singular A n O). lia.
  - destruct (destructive_apply_permutation _ _ _) as [[? ?]|]; discriminate.
Qed.
Lemma linear_solve_true A n m X : sane_order bigger -> pd (decomp_plu bigger A n n) = 0%nat -> exists X', 
  linear_solve bigger A n m 0 X = Some (true, X') /\
  ((forall k, (k < n)%nat -> pm (decomp_plu bigger A n n) k k <> 0) -> forall r i, (r < n)%nat -> (i < m)%nat -> mmul n A X' r i = X r i).
Proof.
  intros O E0. unfold linear_solve. rewrite E0. cbn [Nat.ltb Nat.leb]. destruct (decomp_plu_ok K bigger A n n O ltac:(lia)) as (L & k & S & _).
  pose proof (by_swaps_perm _ _ _ S) as P. destruct (apply_ok n _ X P) as (p' & X1 & E & V & _).
  unfold destructive_apply_permutation. rewrite E. eexists. split; [reflexivity|]. intros D r i Hr Hi.
  destruct (perm_onto n _ P r Hr) as (x & Hx & <-). set (d := decomp_plu bigger A n n) in *.
  pose proof (backsolve_lu_ok (pm d) n m X1 D x i Hx Hi) as Q. rewrite V in Q by auto. rewrite <- Q. unfold mmul at 1 2. apply sum_ext.
  intros c Hc. now rewrite L.
Qed.
Lemma linear_solve_ok A n m X : sane_order bigger -> ~ singular n A -> exists X', 
  linear_solve bigger A n m 0 X = Some (true, X') /\ forall r i, (r < n)%nat -> (i < m)%nat -> mmul n A X' r i = X r i.
Proof.
  intros O NS. destruct (decomp_nonsingular A n O NS) as [E D]. destruct (linear_solve_true A n m X O E) as (X' & E' & H). exists X'. auto.
Qed.
Lemma linear_solve_skip A n m skip X b X' : (skip <= n)%nat -> linear_solve bigger A n m skip X = Some (b, X') ->
  exists X0, linear_solve bigger A n m 0 X = Some (b, X0) /\ forall r i, (skip <= r < n)%nat -> X' r i = X0 r i.
Proof.
  intros Hs. unfold linear_solve. destruct (0 <? _)%nat; [intros [= <- <-]; eexists; split; [reflexivity|reflexivity]|].
  destruct (destructive_apply_permutation _ _ _) as [[p1 X1]|]; [|discriminate]. intros [= <- <-]. eexists. split; [reflexivity|].
  intros r i Hr. unfold backsolve_lu. symmetry. apply (backward_skip _ n m skip 0); lia.
Qed.

(** A diagonal matrix whose last entry alone is zero is reported solvable. *)
Lemma diag_singular n (d : nat -> K) k : (k < n)%nat -> d k = 0 -> singular n (diag d).
Proof.
  intros Hk Z. exists (fun c => delta c k). split.
  - exists k. split; [exact Hk|]. unfold delta. rewrite Nat.eqb_refl. apply f_1_0.
  - intros r Hr. rewrite sum_delta_r by lia. unfold diag. destruct (Nat.eqb_spec r k) as [->|]; auto.
Qed.
(** A matrix already in echelon form is left as it is. *)
Lemma echelon_run rows cols (M0 : mtx K) i : sane_order bigger ->
  (forall k, (k < Nat.min rows cols - 1)%nat -> M0 k k <> 0 /\ forall r, (k < r < rows)%nat -> M0 r k = 0) -> (i <= Nat.min rows cols - 1)%nat -> 
  let s := fold_left (plu_step bigger rows cols) (seq 0 i) (mkPlu M0 (fun i => i) false 0) in
  pd s = 0%nat /\ pp s = false /\ (forall k, pr s k = k) /\ forall r c, (r < rows)%nat -> (c < cols)%nat -> pm s r c = M0 r c.
Proof.
  intros O Ech. induction i as [|i IH]; intros Hi; [repeat split|]. rewrite seq_S, fold_left_app. cbn [fold_left Nat.add].
  destruct (IH ltac:(lia)) as (I1 & Ip & Ir & I2). set (s := fold_left _ (seq 0 i) _) in *. cbn zeta.
  destruct (Ech i ltac:(lia)) as [Ni Zi].
  assert (F : find_pivot bigger rows (pm s) i = i).
  { unfold find_pivot. assert (G : forall l, (forall p, In p l -> (i < p < rows)%nat) -> fold_left (fun pvt p => if bigger (pm s p i) (pm s pvt i) then p else pvt) l i = i).
    { induction l as [|p l IHl]; intros Hl; [reflexivity|]. cbn [fold_left].
      assert (Z : pm s p i = 0). { specialize (Hl p (or_introl eq_refl)). rewrite I2 by lia. apply Zi. lia. }
      rewrite Z, (proj2 O). apply IHl. intros q Hq. apply Hl. now right. }
    apply G. intros p Hp. apply in_seq in Hp. lia. }
  assert (D : pm s i i = M0 i i) by (apply I2; lia).
  unfold plu_step. rewrite F, Nat.eqb_refl. destruct (feq_dec (pm s i i) 0) as [E|E]; [rewrite D in E; contradiction|].
  cbn [pd pm pp pr]. split; [exact I1|]. split; [exact Ip|]. split; [exact Ir|]. intros r c Hr Hc. rewrite eliminate_spec, D.
  destruct (Nat.ltb_spec i r); cbn [andb]; [|now apply I2].
  assert (Z : pm s r i = 0) by (rewrite I2 by lia; apply Zi; lia).
  rewrite Z. destruct (r <? rows)%nat; [|now apply I2]. destruct (Nat.eqb_spec c i) as [->|].
  - rewrite <- (I2 r i), Z by lia. field. exact Ni.
  - destruct (_ && _); [|now apply I2]. rewrite (I2 r c) by lia. field. exact Ni.
Qed.
Lemma echelon_decomp rows cols (M0 : mtx K) : sane_order bigger ->
  (forall k, (k < Nat.min rows cols - 1)%nat -> M0 k k <> 0 /\ forall r, (k < r < rows)%nat -> M0 r k = 0) ->
  let s := decomp_plu bigger M0 rows cols in
  pd s = 0%nat /\ pp s = false /\ (forall k, pr s k = k) /\ forall r c, (r < rows)%nat -> (c < cols)%nat -> pm s r c = M0 r c.
Proof. intros O Ech. exact (echelon_run rows cols M0 _ O Ech (le_n _)). Qed.
Lemma diag_decomp n (M0 : mtx K) d : sane_order bigger -> (forall r c, (r < n)%nat -> (c < n)%nat -> M0 r c = diag d r c) -> (forall k, (k < n - 1)%nat -> d k <> 0) ->
  let s := decomp_plu bigger M0 n n in
  pd s = 0%nat /\ pp s = false /\ (forall k, pr s k = k) /\ forall r c, (r < n)%nat -> (c < n)%nat -> pm s r c = diag d r c.
Proof.
  intros O Id Nz. destruct (echelon_decomp n n M0 O) as (A & B & C & D).
  - rewrite Nat.min_id. intros k Hk. split.
    + rewrite Id by lia. unfold diag. rewrite Nat.eqb_refl. auto.
    + intros r Hr. rewrite Id by lia. unfold diag. destruct (Nat.eqb_spec r k); [lia|reflexivity].
  - cbn zeta. repeat split; auto. intros r c Hr Hc. rewrite D by auto. auto.
Qed.
(** For every tall shape some matrix is not reproduced. *)
Lemma decomp_plu_tall_wrong rows cols : sane_order bigger -> (0 < cols < rows)%nat -> exists M : mtx K,
  let d := decomp_plu bigger M rows cols in pd d = 0%nat /\
  exists r c, (r < rows)%nat /\ (c < cols)%nat /\ mmul cols (lower_of (pm d)) (upper_of (pm d)) r c <> M (pr d r) c.
Proof.
  intros O H. exists (fun r c => if ((r =? c) && negb (c =? cols - 1))%nat then 1 else if ((r =? cols) && (c =? cols - 1))%nat then 1 else 0).
  set (M := fun r c => _). destruct (echelon_decomp rows cols M O) as (A & _ & C & D).
  - rewrite Nat.min_r by lia. intros k Hk. unfold M. split.
    + rewrite Nat.eqb_refl. destruct (Nat.eqb_spec k (cols - 1)); [lia|]. apply f_1_0.
    + intros r Hr. destruct (Nat.eqb_spec r k), (Nat.eqb_spec k (cols - 1)); try lia. now rewrite andb_false_r.
  - cbn zeta. split; [exact A|]. exists cols, (cols - 1)%nat. split; [lia|]. split; [lia|].
    rewrite (decomp_plu_tall K bigger M rows cols O) by lia. rewrite !C, !D by lia. unfold M. rewrite Nat.leb_refl, !Nat.eqb_refl. cbn [andb negb].
    rewrite andb_false_r. destruct (Nat.eqb_spec (cols - 1) cols); [lia|]. cbn [andb]. intros E. apply (f_1_0 K). 
    transitivity (- ((1 + 1 * (0 - 1)) - 1) : K); [ring|]. rewrite E. ring.
Qed.
(** For every width from two some matrix defeats decomp_lup: a degenerate row is skipped without being cleared. *)
Lemma decomp_lup_degenerate_wrong rows cols : (2 <= rows)%nat -> (2 <= cols)%nat -> sane_order bigger -> exists M : mtx K,
  let d := decomp_lup bigger M rows cols in pd d <> 0%nat /\
  mmul (Nat.min rows cols) (lower_of (pm d)) (upper_of (pm d)) 1%nat 0%nat <> M 1%nat (pr d 0%nat).
Proof.
  intros Hr Hc O. exists (fun r c => if ((r =? 1) && (c =? 0))%nat then 1 else 0). set (M := fun r c => _).
  assert (R : forall i, fold_left (lup_step bigger rows cols) (seq 0 i) (mkPlu M (fun i => i) false 0) = mkPlu M (fun i => i) false i).
  { induction i as [|i IH]; [reflexivity|]. rewrite seq_S, fold_left_app. cbn [fold_left Nat.add]. rewrite IH. unfold lup_step. cbn [pm pr pp pd].
    assert (Z : forall p, (i <= p)%nat -> M i p = 0) by (intros p Hp; unfold M; destruct (Nat.eqb_spec i 1), (Nat.eqb_spec p 0); try lia; reflexivity).
    destruct (feq_dec _ 0) as [E|E]; [f_equal; lia|]. exfalso. apply E. apply Z. unfold find_pivot_col.
    generalize (seq (S i) (cols - S i)) (fun p => proj1 (in_seq (cols - S i) (S i) p)). intros l Hl.
    assert (G : forall q, (i <= q)%nat -> (i <= fold_left (fun pvt p => if bigger (M i p) (M i pvt) then p else pvt) l q)%nat); [|apply G; lia].
    clear - Hl. induction l as [|p l IHl]; intros q Hq; [exact Hq|]. cbn [fold_left]. apply IHl; [intros x Hx; apply Hl; now right|].
    destruct (bigger _ _); [|exact Hq]. specialize (Hl p (or_introl eq_refl)). lia. }
  unfold decomp_lup. rewrite R. cbn zeta. cbn [pd pm pr]. split; [lia|].
  assert (Z : mmul (Nat.min rows cols) (lower_of M) (upper_of M) 1%nat 0%nat = 0).
  { apply sum_zero. intros k Hk. unfold upper_of, M. destruct (Nat.ltb_spec 0 k); [ring|]. replace k with 0%nat by lia. cbn. ring. }
  rewrite Z. unfold M. cbn. intros E. apply (f_1_0 K). now symmetry.
Qed.
Lemma linear_solve_accepts_singular n m skip d X : sane_order bigger -> (forall k, (k < n - 1)%nat -> d k <> 0) ->
  exists X', linear_solve bigger (diag d) n m skip X = Some (true, X').
Proof.
  intros O Nz. pose proof (linear_solve_total (diag d) n m skip X O) as T. unfold linear_solve in *.
  destruct (diag_decomp n (diag d) d O ltac:(reflexivity) Nz) as [E _]. rewrite E in *. cbn [Nat.ltb Nat.leb] in *.
  destruct (destructive_apply_permutation _ _ _) as [[p1 X1]|]; [|contradiction]. eexists. reflexivity.
Qed.
End Solve.
