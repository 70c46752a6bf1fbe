From Coq Require Import Arith Lia List Bool Field Ring.
From Verif Require Import Fld FldLemmas LinSpec PermModel PermSpec PermProofs PermCycleProofs PermSignProofs PluModel PluProofs.
Import ListNotations.
Open Scope nat_scope.

Section Det.
Variable K : field.
Add Field KF : (fth K).
Local Open Scope fld_scope.
Implicit Types M A B : mtx K.

Lemma alt_add i (x y : K) : alt i (x + y) = alt i x + alt i y.
Proof. unfold alt. destruct (Nat.even i); ring. Qed.
Lemma alt_scale i (a x : K) : alt i (a * x) = a * alt i x.
Proof. unfold alt. destruct (Nat.even i); ring. Qed.
Lemma alt_opp i (x : K) : alt i (- x) = - alt i x.
Proof. unfold alt. destruct (Nat.even i); ring. Qed.
Lemma alt_S i (x : K) : alt (S i) x = - alt i x.
Proof. unfold alt. rewrite Nat.even_succ, <- Nat.negb_even. destruct (Nat.even i); cbn [negb]; ring. Qed.
Lemma alt_0 i : alt i (0 : K) = 0.
Proof. unfold alt. destruct (Nat.even i); ring. Qed.

Definition skip (i r : nat) : nat := if (r <? i)%nat then r else S r.
Lemma minor_eq M i r c : minor M i r c = M (skip i r) (S c).
Proof. reflexivity. Qed.

Lemma det_S n M : det (S n) M = sum (S n) (fun i => alt i (M i 0%nat * det n (minor M i))).
Proof. reflexivity. Qed.
Lemma det_ext n : forall M M', (forall r c, (r < n)%nat -> (c < n)%nat -> M r c = M' r c) -> det n M = det n M'.
Proof.
  induction n as [|n IH]; intros M M' E; [reflexivity|]. rewrite !det_S. apply sum_ext. intros i Hi. rewrite E by lia. f_equal. f_equal.
  apply IH. intros r c Hr Hc. rewrite !minor_eq. apply E; [|lia]. unfold skip. destruct (r <? i)%nat; lia.
Qed.
(** Linear in each row. *)
Lemma det_linear n : forall M1 M2 M3 (x : K) r, (r < n)%nat ->
  (forall i c, (i < n)%nat -> (c < n)%nat -> i <> r -> M1 i c = M3 i c /\ M2 i c = M3 i c) ->
  (forall c, (c < n)%nat -> M3 r c = M1 r c + x * M2 r c) -> det n M3 = det n M1 + x * det n M2.
Proof.
  induction n as [|n IH]; intros M1 M2 M3 x r Hr E L; [lia|]. rewrite !det_S, <- sum_scale, <- sum_add. apply sum_ext. intros i Hi.
  rewrite <- alt_scale, <- alt_add. f_equal. destruct (Nat.eq_dec i r) as [->|N].
  - rewrite L by lia. assert (Q : forall Ma, (forall i c, (i < S n)%nat -> (c < S n)%nat -> i <> r -> Ma i c = M3 i c) -> det n (minor Ma r) = det n (minor M3 r)).
    { intros Ma H. apply det_ext. intros a c Ha Hc. rewrite !minor_eq. unfold skip. destruct (Nat.ltb_spec a r); apply H; lia. }
    rewrite (Q M1), (Q M2) by (intros; now apply E). ring.
  - destruct (E i 0%nat) as [E1 E2]; [lia|lia|auto|]. rewrite E1, E2.
    set (r' := if (r <? i)%nat then r else (r - 1)%nat).
    assert (Er : skip i r' = r) by (unfold skip, r'; destruct (Nat.ltb_spec r i); [destruct (Nat.ltb_spec r i)|destruct (Nat.ltb_spec (r - 1) i)]; lia).
    rewrite (IH (minor M1 i) (minor M2 i) (minor M3 i) x r').
    + ring.
    + unfold r'. destruct (Nat.ltb_spec r i); lia.
    + intros a c Ha Hc Na. rewrite !minor_eq. apply E; [unfold skip; destruct (a <? i)%nat; lia|lia|]. intros Q. apply Na.
      unfold skip, r' in *. destruct (Nat.ltb_spec a i), (Nat.ltb_spec r i); lia.
    + intros c Hc. rewrite !minor_eq, Er. apply L. lia.
Qed.
(** Two adjacent equal rows. *)
Lemma two_terms n i (f : nat -> K) : (S i < n)%nat -> (forall k, (k < n)%nat -> k <> i -> k <> S i -> f k = 0) -> sum n f = f i + f (S i).
Proof.
  intros H Z. replace n with (i + (2 + (n - i - 2)))%nat by lia. rewrite !sum_split.
  rewrite sum_zero by (intros; apply Z; lia). rewrite (sum_zero K (n - i - 2)) by (intros; apply Z; lia). cbn [sum].
  rewrite Nat.add_0_r. replace (i + 1)%nat with (S i) by lia. ring.
Qed.
Lemma det_adj_eq n : forall M i, (S i < n)%nat -> (forall c, (c < n)%nat -> M i c = M (S i) c) -> det n M = 0.
Proof.
  induction n as [|n IH]; intros M i Hi E; [lia|].
  assert (Z : forall k, (k < S n)%nat -> k <> i -> k <> S i -> det n (minor M k) = 0).
  { intros k Hk N1 N2. destruct (Nat.ltb_spec i k) as [L|L].
    - apply (IH (minor M k) i); [lia|]. intros c Hc. rewrite !minor_eq. unfold skip.
      destruct (Nat.ltb_spec i k), (Nat.ltb_spec (S i) k); try lia. apply E. lia.
    - apply (IH (minor M k) (i - 1)%nat); [lia|]. intros c Hc. rewrite !minor_eq. unfold skip.
      destruct (Nat.ltb_spec (i - 1) k), (Nat.ltb_spec (S (i - 1)) k); try lia. replace (S (i - 1)) with i by lia. apply E. lia. }
  rewrite det_S, (two_terms (S n) i) by (try lia; intros k Hk N1 N2; rewrite Z by auto; replace (M k 0%nat * 0) with (0 : K) by ring; apply alt_0).
  rewrite alt_S, (E 0%nat) by lia.
  rewrite (det_ext n (minor M (S i)) (minor M i)); [ring|]. intros r c Hr Hc. rewrite !minor_eq. unfold skip.
  destruct (Nat.ltb_spec r i), (Nat.ltb_spec r (S i)); try lia; [reflexivity| |reflexivity]. replace r with i by lia. apply E. lia.
Qed.
(** Exchange of adjacent rows. *)
Definition exch (a b : nat) M : mtx K := fun r c => M (tr a b r) c.
Lemma tr_adj i k : (k < i)%nat \/ (S i < k)%nat -> tr i (S i) k = k.
Proof. intros H. unfold tr. destruct (Nat.eqb_spec k i), (Nat.eqb_spec k (S i)); lia. Qed.
Lemma tr_l a b : tr a b a = b.
Proof. unfold tr. now rewrite Nat.eqb_refl. Qed.
Lemma tr_r a b : tr a b b = a.
Proof. unfold tr. destruct (Nat.eqb_spec b a); [congruence|]. now rewrite Nat.eqb_refl. Qed.
Lemma tr_o a b k : k <> a -> k <> b -> tr a b k = k.
Proof. intros N1 N2. unfold tr. destruct (Nat.eqb_spec k a), (Nat.eqb_spec k b); congruence. Qed.

(** Row [r] replaced by [v]. *)
Definition with_row M (r : nat) (v : nat -> K) : mtx K := fun i c => if (i =? r)%nat then v c else M i c.
Lemma with_row_same M r v c : with_row M r v r c = v c.
Proof. unfold with_row. now rewrite Nat.eqb_refl. Qed.
Lemma with_row_other M r v i c : i <> r -> with_row M r v i c = M i c.
Proof. intros N. unfold with_row. destruct (Nat.eqb_spec i r); [contradiction|reflexivity]. Qed.
Lemma det_with_row_add n M r u v (x : K) : (r < n)%nat ->
  det n (with_row M r (fun c => u c + x * v c)) = det n (with_row M r u) + x * det n (with_row M r v).
Proof.
  intros Hr. apply (det_linear n _ _ _ x r); auto.
  - intros i c _ _ N. rewrite !with_row_other by auto. auto.
  - intros c _. now rewrite !with_row_same.
Qed.
(** Whenever equal rows at two places give zero, exchanging them negates. *)
Lemma exch_from_eq n M a b : (a < n)%nat -> (b < n)%nat -> a <> b ->
  (forall v, det n (with_row (with_row M a v) b v) = 0) -> det n (exch a b M) = - det n M.
Proof.
  intros Ha Hb N Z. set (u := M a). set (v := M b).
  assert (Q : det n (with_row (with_row M a (fun c => u c + 1 * v c)) b (fun c => u c + 1 * v c)) = 0) by apply Z.
  rewrite det_with_row_add in Q by auto.
  assert (C : forall w z, det n (with_row (with_row M a w) b z) = det n (with_row (with_row M b z) a w)).
  { intros w z. apply det_ext. intros r c _ _. unfold with_row. destruct (Nat.eqb_spec r b), (Nat.eqb_spec r a); congruence. }
  rewrite !C, !det_with_row_add in Q by auto. rewrite <- !C in Q. rewrite !Z in Q.
  assert (E1 : det n (with_row (with_row M a u) b v) = det n M).
  { apply det_ext. intros r c _ _. unfold with_row, u, v. destruct (Nat.eqb_spec r b) as [->|]; [reflexivity|]. destruct (Nat.eqb_spec r a) as [->|]; reflexivity. }
  assert (E2 : det n (with_row (with_row M a v) b u) = det n (exch a b M)).
  { apply det_ext. intros r c _ _. unfold with_row, u, v, exch. destruct (Nat.eqb_spec r b) as [->|]; [now rewrite tr_r|].
    destruct (Nat.eqb_spec r a) as [->|]; [now rewrite tr_l|]. now rewrite tr_o. }
  rewrite E1, E2 in Q. match type of Q with ?q = _ => transitivity (- det n M + q); [ring|] end. rewrite Q. ring.
Qed.
Lemma det_adj_swap n M i : (S i < n)%nat -> det n (exch i (S i) M) = - det n M.
Proof.
  intros H. apply exch_from_eq; try lia. intros v. apply (det_adj_eq n _ i H). intros c _.
  rewrite with_row_same, with_row_other, with_row_same by lia. reflexivity.
Qed.
Lemma det_eq_rows n d : forall M a, (a + S d < n)%nat -> (forall c, (c < n)%nat -> M a c = M (a + S d)%nat c) -> det n M = 0.
Proof.
  induction d as [|d IH]; intros M a H E.
  - apply (det_adj_eq n M a); [lia|]. intros c Hc. rewrite E by auto. f_equal. lia.
  - assert (Q : det n (exch a (S a) M) = 0).
    { apply (IH _ (S a)); [lia|]. intros c Hc. unfold exch. rewrite tr_r, tr_o by lia. rewrite E by auto. f_equal. lia. }
    rewrite det_adj_swap in Q by lia. transitivity (- - det n M); [ring|]. rewrite Q. ring.
Qed.
Lemma det_equal_rows n M a b : (a < n)%nat -> (b < n)%nat -> a <> b -> (forall c, (c < n)%nat -> M a c = M b c) -> det n M = 0.
Proof.
  intros Ha Hb N E. destruct (Nat.lt_ge_cases a b) as [L|L].
  - apply (det_eq_rows n (b - a - 1) M a); [lia|]. intros c Hc. rewrite E by auto. f_equal. lia.
  - apply (det_eq_rows n (a - b - 1) M b); [lia|]. intros c Hc. rewrite <- E by auto. f_equal. lia.
Qed.
Lemma det_swap n M a b : (a < n)%nat -> (b < n)%nat -> a <> b -> det n (exch a b M) = - det n M.
Proof.
  intros Ha Hb N. apply exch_from_eq; auto. intros v. apply (det_equal_rows n _ a b); auto. intros c _.
  rewrite with_row_same, with_row_other, with_row_same by auto. reflexivity.
Qed.
Lemma det_add_row n M r i (x : K) : (r < n)%nat -> (i < n)%nat -> r <> i -> det n (with_row M r (fun c => M r c + x * M i c)) = det n M.
Proof.
  intros Hr Hi N. rewrite (det_with_row_add n M r (M r) (M i)) by auto.
  rewrite (det_equal_rows n (with_row M r (M i)) r i) by (auto; intros c _; now rewrite with_row_same, with_row_other by auto).
  rewrite (det_ext n (with_row M r (M r)) M); [ring|]. intros a c _ _. unfold with_row. destruct (Nat.eqb_spec a r) as [->|]; reflexivity.
Qed.
(** Multiples of row [i] added to every row below it. *)
Lemma det_add_rows n M M' i (x : nat -> K) : (i < n)%nat ->
  (forall r c, (r < n)%nat -> (c < n)%nat -> M' r c = if (i <? r)%nat then M r c + x r * M i c else M r c) -> det n M' = det n M.
Proof.
  intros Hi H. set (N := fun k : nat => (fun r c => if ((i <? r) && (r <? i + k))%nat then M r c + x r * M i c else M r c) : mtx K).
  assert (G : forall k, (i + k <= n)%nat -> det n (N k) = det n M).
  { induction k as [|k IH]; intros Hk.
    - apply det_ext. intros r c _ _. unfold N. destruct (Nat.ltb_spec i r), (Nat.ltb_spec r (i + 0)); try lia; reflexivity.
    - rewrite <- IH by lia. destruct k as [|k].
      + apply det_ext. intros r c _ _. unfold N. destruct (Nat.ltb_spec i r), (Nat.ltb_spec r (i + 0)), (Nat.ltb_spec r (i + 1)); try lia; reflexivity.
      + rewrite <- (det_add_row n (N (S k)) (i + S k) i (x (i + S k)%nat)) by lia. apply det_ext. intros r c _ _.
        unfold with_row. destruct (Nat.eqb_spec r (i + S k)) as [->|Nr]; unfold N.
        * destruct (Nat.ltb_spec i (i + S k)), (Nat.ltb_spec (i + S k) (i + S k)), (Nat.ltb_spec (i + S k) (i + S (S k))), (Nat.ltb_spec i i); try lia. reflexivity.
        * destruct (Nat.ltb_spec i r), (Nat.ltb_spec r (i + S k)), (Nat.ltb_spec r (i + S (S k))); try lia; reflexivity. }
  rewrite <- (G (n - i)%nat) by lia. apply det_ext. intros r c Hr Hc. rewrite H by auto. unfold N.
  destruct (Nat.ltb_spec i r), (Nat.ltb_spec r (i + (n - i))); try lia; reflexivity.
Qed.
Lemma det_upper n : forall M, (forall r c, (r < n)%nat -> (c < r)%nat -> M r c = 0) -> det n M = prod n (fun i => M i i).
Proof.
  induction n as [|n IH]; intros M U; [reflexivity|]. rewrite det_S, (sum_single K (S n) 0); [|lia|].
  - rewrite prod_first. unfold alt. cbn [Nat.even]. f_equal. apply IH. intros r c Hr Hc. rewrite minor_eq. apply U; unfold skip; cbn; lia.
  - intros i Hi N. rewrite U by lia. replace (0 * det n (minor M i)) with (0 : K) by ring. apply alt_0.
Qed.
Lemma det_id n M : (forall r c, (r < n)%nat -> (c < n)%nat -> M r c = delta r c) -> det n M = 1.
Proof.
  intros E. rewrite det_upper.
  - assert (P : forall k, (k <= n)%nat -> prod k (fun i => M i i) = 1).
    { induction k as [|k IH]; intros Hk; [reflexivity|]. cbn [prod]. rewrite IH, E by lia. unfold delta. rewrite Nat.eqb_refl. ring. }
    now apply P.
  - intros r c Hr Hc. rewrite E by lia. unfold delta. destruct (Nat.eqb_spec r c); [lia|reflexivity].
Qed.
(** A permutation of the rows multiplies the determinant by its sign. *)
Lemma det_perm_rows n k p : by_swaps n k p -> forall M, det n (fun r c => M (p r) c) = if Nat.odd k then - det n M else det n M.
Proof.
  induction 1 as [p Id|k p q a b S IH Ha Hb N E]; intros M.
  - cbn. apply det_ext. intros r c Hr _. now rewrite Id.
  - rewrite (det_ext n _ (exch a b (fun r c => M (p r) c))) by (intros r c Hr _; rewrite E by auto; reflexivity).
    rewrite det_swap, IH by auto. rewrite Nat.odd_succ, <- Nat.negb_odd. destruct (Nat.odd k); cbn [negb]; ring.
Qed.
Lemma det_perm n k p : by_swaps n k p -> det n (fun r c => delta (p r) c : K) = if Nat.odd k then - (1) else 1.
Proof.
  intros S. rewrite (det_perm_rows n k p S (fun r c => delta r c)). rewrite det_id by reflexivity. reflexivity.
Qed.

(** ** The determinant through the decomposition *)
Section Plu.
Variable bigger : K -> K -> bool.
Hypothesis O : sane_order bigger.
Variables (M : mtx K) (n : nat).

Definition signed (b : bool) (x : K) : K := if b then - x else x.
Lemma signed_negb b x : signed (negb b) x = - signed b x.
Proof. destruct b; cbn; ring. Qed.
Lemma part_eliminate i m : (i < n)%nat -> m i i <> 0 -> det n (part K (S i) (eliminate n n i m)) = det n (part K i m).
Proof.
  intros Hi Ha. apply (det_add_rows n _ _ i (fun r => - (m r i / m i i)) Hi). intros r c Hr Hc. unfold part. rewrite eliminate_spec.
  destruct (Nat.ltb_spec i r) as [L|L]; cbn [andb].
  - replace (r <? n)%nat with true by (symmetry; now apply Nat.ltb_lt). destruct (Nat.eqb_spec c i) as [->|N].
    + destruct (Nat.ltb_spec i r), (Nat.ltb_spec i (S i)), (Nat.ltb_spec i i); try lia. cbn [andb]. field. exact Ha.
    + replace (c <? n)%nat with true by (symmetry; now apply Nat.ltb_lt).
      destruct (Nat.ltb_spec c r), (Nat.ltb_spec c i), (Nat.ltb_spec c (S i)), (Nat.ltb_spec i c); try lia; cbn [andb]; ring.
  - destruct (Nat.ltb_spec c r), (Nat.ltb_spec c i), (Nat.ltb_spec c (S i)); try lia; reflexivity.
Qed.
Lemma part_swap i pvt m : (i < pvt)%nat -> (pvt < n)%nat -> det n (part K i (row_swap n m i pvt)) = - det n (part K i m).
Proof.
  intros H Hp. rewrite <- (det_swap n (part K i m) i pvt) by lia. apply det_ext. intros r c Hr Hc. unfold exch, part. rewrite row_swap_spec.
  replace (c <? n)%nat with true by (symmetry; now apply Nat.ltb_lt). unfold tr.
  destruct (Nat.eqb_spec r pvt) as [->|N1]; [destruct (Nat.eqb_spec pvt i); [lia|]|destruct (Nat.eqb_spec r i) as [->|N2]; [|reflexivity]];
  destruct (Nat.ltb_spec c pvt), (Nat.ltb_spec c i); try lia; reflexivity.
Qed.
Lemma part_degenerate i m : (forall r, (i <= r < n)%nat -> m r i = 0) -> det n (part K (S i) m) = det n (part K i m).
Proof.
  intros Z. apply det_ext. intros r c Hr Hc. unfold part.
  destruct (Nat.ltb_spec c r), (Nat.ltb_spec c (S i)), (Nat.ltb_spec c i); try lia; cbn [andb]; try reflexivity. replace c with i by lia. symmetry. apply Z. lia.
Qed.
Lemma plu_det_run i : (i <= n)%nat -> let s := fold_left (plu_step bigger n n) (seq 0 i) (mkPlu M (fun i => i) false 0) in
  signed (pp s) (det n (part K i (pm s))) = det n M.
Proof.
  induction i as [|i IH]; intros Hi; cbn zeta.
  - cbn [seq fold_left pp signed pm]. apply det_ext. intros r c _ _. unfold part. replace (c <? 0)%nat with false by (symmetry; apply Nat.ltb_ge; lia). now rewrite andb_false_r.
  - rewrite seq_S, fold_left_app. cbn [fold_left Nat.add]. specialize (IH ltac:(lia)). cbn zeta in IH. set (s := fold_left _ (seq 0 i) _) in *.
    pose proof (find_pivot_range K bigger n (pm s) i Hi) as R. unfold plu_step. set (pvt := find_pivot bigger n (pm s) i) in *.
    destruct (feq_dec (pm s pvt i) 0) as [Z|Z]; cbn [pp pm].
    + rewrite part_degenerate; [exact IH|]. exact (find_pivot_zero K bigger n (pm s) i O Hi Z).
    + destruct (Nat.eqb_spec pvt i) as [E|N]; cbn [pp pm].
      * rewrite E in Z. rewrite part_eliminate by auto. exact IH.
      * rewrite part_eliminate; [|lia|].
        -- rewrite part_swap, signed_negb by lia. rewrite <- IH. destruct (pp s); cbn; ring.
        -- rewrite row_swap_spec. destruct (Nat.ltb_spec i n), (Nat.eqb_spec i pvt); try lia. now rewrite Nat.eqb_refl.
Qed.
Lemma decomp_det : let d := decomp_plu bigger M n n in det n M = signed (pp d) (prod n (fun k => pm d k k)).
Proof.
  cbn zeta. pose proof (plu_det_run (n - 1) ltac:(lia)) as H. cbn zeta in H. unfold decomp_plu. rewrite Nat.min_id. rewrite <- H. f_equal.
  set (s := fold_left _ _ _). rewrite det_upper.
  - apply prod_ext. intros k Hk. unfold part. now rewrite Nat.ltb_irrefl.
  - intros r c Hr Hc. unfold part. destruct (Nat.ltb_spec c r), (Nat.ltb_spec c (n - 1)); try lia. reflexivity.
Qed.
End Plu.
End Det.
