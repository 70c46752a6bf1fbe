(** Lemmas for matrix products. *)
From Coq Require Import Arith Lia List Bool ZArith ZifyBool.
From Verif Require Import Fld FldLemmas LinSpec PermModel PermSpec PermProofs PluModel PluProofs MulModel MulSpec.
Import ListNotations.
Open Scope nat_scope.

Section P.
Variable K : field.
Add Field KF : (fth K).
Local Open Scope fld_scope.
Implicit Types (a b d : mtx K).

Lemma accum_sum k f (s : K) : accum k f s = s + sum k f.
Proof. unfold accum. induction k as [|k IH]; [cbn; ring|]. rewrite seq_S, fold_left_app, IH. cbn. ring. Qed.

Lemma row_spec (f : K -> nat -> nat -> K) r n d r' c' :
  fold_left (fun (d : mtx K) c => upd2 d r c (f (d r c) r c)) (seq 0 n) d r' c' = (if ((r' =? r) && (c' <? n))%nat then f (d r c') r c' else d r' c').
Proof.
  revert r' c'. induction n as [|n IH]; intros r' c'; [cbn; now rewrite andb_false_r|]. rewrite seq_S, fold_left_app. cbn [fold_left Nat.add].
  unfold upd2 at 1. rewrite !IH. rewrite Nat.eqb_refl, Nat.ltb_irrefl. cbn [andb].
  destruct (Nat.eqb_spec r' r) as [->|Hr]; cbn [andb]; [|reflexivity].
  destruct (Nat.eqb_spec c' n) as [->|Hc]; [now rewrite (proj2 (Nat.ltb_lt n (S n)) ltac:(lia))|].
  replace (c' <? S n)%nat with (c' <? n)%nat by lia. reflexivity.
Qed.
Lemma each_spec rows cols f d r c : each rows cols f d r c = (if ((r <? rows) && (c <? cols))%nat then f (d r c) r c else d r c).
Proof.
  revert r c. unfold each. induction rows as [|n IH]; intros r c; [reflexivity|]. rewrite seq_S, fold_left_app. cbn [fold_left Nat.add]. rewrite row_spec, !IH.
  rewrite Nat.ltb_irrefl. cbn [andb].
  destruct (Nat.eqb_spec r n) as [->|Hr]; cbn [andb].
  - rewrite Nat.ltb_irrefl, (proj2 (Nat.ltb_lt n (S n)) ltac:(lia)). reflexivity.
  - replace (r <? S n)%nat with (r <? n)%nat by lia. reflexivity.
Qed.
Lemma fill_spec A (f : A -> nat -> A) (n : nat) (e : nat -> A) (i : nat) :
  fold_left (fun (e : nat -> A) j => upd e j (f (e j) j)) (seq 0 n) e i = (if (i <? n)%nat then f (e i) i else e i).
Proof.
  revert i. induction n as [|n IH]; intros i; [reflexivity|]. rewrite seq_S, fold_left_app. cbn [fold_left Nat.add]. unfold upd at 1. rewrite !IH, Nat.ltb_irrefl.
  destruct (Nat.eqb_spec i n) as [->|]; [now rewrite (proj2 (Nat.ltb_lt n (S n)) ltac:(lia))|].
  replace (i <? S n)%nat with (i <? n)%nat by lia. reflexivity.
Qed.

Lemma in_range rows cols r c : (r < rows)%nat -> (c < cols)%nat -> ((r <? rows) && (c <? cols))%nat = true.
Proof. lia. Qed.

Lemma mul_dense_ok rows inner cols a b d r c : (r < rows)%nat -> (c < cols)%nat -> mul_dense rows inner cols a b d r c = mmul inner a b r c.
Proof. intros. unfold mul_dense. rewrite each_spec, in_range, accum_sum by assumption. unfold mmul. ring. Qed.
Lemma mul_acc_ok rows inner cols a b d r c : (r < rows)%nat -> (c < cols)%nat -> mul_acc rows inner cols a b d r c = d r c + mmul inner a b r c.
Proof. intros. unfold mul_acc. rewrite each_spec, in_range, accum_sum by assumption. unfold mmul. ring. Qed.

(** *** diagonal *)
Lemma md_inner M N a (v : nat -> K) c d : (c < M)%nat -> (c < N)%nat -> forall rows,
  exists d', fold_left (fun od r => match od with
      | Some d => if ((c <? Nat.min M N) && (c <? M))%nat then Some (upd2 d r c (v c * a r c)) else None
      | None => None end) (seq 0 rows) (Some d) = Some d' /\
    forall r' c', d' r' c' = (if ((c' =? c) && (r' <? rows))%nat then v c * a r' c else d r' c').
Proof.
  intros HM HN. induction rows as [|n IH]; [exists d; split; [reflexivity|intros; now rewrite andb_false_r]|].
  destruct IH as (d' & E & H). rewrite seq_S, fold_left_app, E. cbn [fold_left Nat.add].
  replace ((c <? Nat.min M N) && (c <? M))%nat with true by lia. eexists; split; [reflexivity|]. intros r' c'. unfold upd2. rewrite !H.
  destruct (Nat.eqb_spec c' c) as [->|]; cbn [andb]; [|now rewrite andb_false_r].
  rewrite andb_true_r. destruct (Nat.eqb_spec r' n) as [->|]; [now rewrite (proj2 (Nat.ltb_lt n (S n)) ltac:(lia))|].
  replace (r' <? S n)%nat with (r' <? n)%nat by lia. reflexivity.
Qed.
Lemma mul_mtx_diag_spec rows M N a (v : nat -> K) d : (N <= M)%nat -> exists d', mul_mtx_diag rows M N a v d = Some d' /\
  forall r c, d' r c = (if ((r <? rows) && (c <? N))%nat then v c * a r c else d r c).
Proof.
  intros HN. unfold mul_mtx_diag. 
  assert (G : forall n, (n <= N)%nat -> exists d', fold_left (fun od c => fold_left (fun od r => match od with
      | Some d => if ((c <? Nat.min M N) && (c <? M))%nat then Some (upd2 d r c (v c * a r c)) else None
      | None => None end) (seq 0 rows) od) (seq 0 n) (Some d) = Some d' /\
     forall r c, d' r c = (if ((r <? rows) && (c <? n))%nat then v c * a r c else d r c)); [|apply G; lia].
  induction n as [|n IH]; intros Hn; [exists d; split; [reflexivity|intros; now rewrite andb_false_r]|].
  destruct IH as (d1 & E & H); [lia|]. rewrite seq_S, fold_left_app, E. cbn [fold_left Nat.add].
  destruct (md_inner M N a v n d1 ltac:(lia) ltac:(lia) rows) as (d2 & E2 & H2). rewrite E2. exists d2; split; [reflexivity|].
  intros r c. rewrite H2, H. destruct (Nat.eqb_spec c n) as [->|]; cbn [andb].
  - rewrite Nat.ltb_irrefl, andb_false_r, (proj2 (Nat.ltb_lt n (S n)) ltac:(lia)), andb_true_r. reflexivity.
  - replace (c <? S n)%nat with (c <? n)%nat by lia. reflexivity.
Qed.
Lemma mul_mtx_diag_ok rows M N a (v : nat -> K) d : (N <= M)%nat -> exists d', mul_mtx_diag rows M N a v d = Some d' /\
  forall r c, (r < rows)%nat -> (c < N)%nat -> d' r c = mmul M a (diag v) r c.
Proof.
  intros HN. destruct (mul_mtx_diag_spec rows M N a v d HN) as (d' & E & H). exists d'; split; [exact E|]. intros r c Hr Hc.
  rewrite H, in_range by assumption. unfold mmul. rewrite (sum_single K M c); [unfold diag; rewrite Nat.eqb_refl; ring|lia|].
  intros i _ Hi. unfold diag. destruct (Nat.eqb_spec i c); [contradiction|ring].
Qed.
Lemma none_fold A B (f : option A -> B -> option A) l : (forall x, f None x = None) -> fold_left f l None = None.
Proof. intros H. induction l; cbn; [reflexivity|now rewrite H]. Qed.
Lemma mul_mtx_diag_oob rows M N a (v : nat -> K) d : (M < N)%nat -> (0 < rows)%nat -> mul_mtx_diag rows M N a v d = None.
Proof.
  intros HN Hr. unfold mul_mtx_diag.
  assert (Hs : seq 0 N = seq 0 M ++ M :: seq (S M) (N - S M)) by (replace N with (M + S (N - S M))%nat at 1 by lia; rewrite seq_app; reflexivity).
  rewrite Hs, fold_left_app. cbn [fold_left].
  assert (E : forall od, fold_left (fun od r => match od with
      | Some d => if ((M <? Nat.min M N) && (M <? M))%nat then Some (upd2 d r M (v M * a r M)) else None
      | None => None end) (seq 0 rows) od = None).
  { intros od. destruct rows as [|n]; [lia|]. cbn [seq fold_left]. rewrite Nat.ltb_irrefl, andb_false_r. destruct od; apply none_fold; reflexivity. }
  rewrite E. apply none_fold. intros. apply none_fold. reflexivity.
Qed.

(** the square diagonal-times-matrix loop *)
Lemma dm_inner n (v : nat -> K) r d : (r < n)%nat -> forall m, (m <= n)%nat -> 
  exists d', fold_left (fun od c => match od with
      | Some d => if ((r <? Nat.min n n) && (r <? n) && (c <? n))%nat then Some (upd2 d r c (v r * diag_at v r c)) else None
      | None => None end) (seq 0 m) (Some d) = Some d' /\
    forall r' c', d' r' c' = (if ((r' =? r) && (c' <? m))%nat then v r * diag_at v r c' else d r' c').
Proof.
  intros Hr. induction m as [|m IH]; intros Hm; [exists d; split; [reflexivity|intros; now rewrite andb_false_r]|].
  destruct IH as (d' & E & H); [lia|]. rewrite seq_S, fold_left_app, E. cbn [fold_left Nat.add].
  replace ((r <? Nat.min n n) && (r <? n) && (m <? n))%nat with true by lia. eexists; split; [reflexivity|]. intros r' c'. unfold upd2. rewrite !H.
  destruct (Nat.eqb_spec r' r) as [->|]; cbn [andb]; [|reflexivity].
  destruct (Nat.eqb_spec c' m) as [->|]; [now rewrite (proj2 (Nat.ltb_lt m (S m)) ltac:(lia))|].
  replace (c' <? S m)%nat with (c' <? m)%nat by lia. reflexivity.
Qed.
Lemma mul_diag_mtx_spec n (v : nat -> K) b d : exists d', mul_diag_mtx n n n v b d = Some d' /\
  forall r c, d' r c = (if ((r <? n) && (c <? n))%nat then v r * diag_at v r c else d r c).
Proof.
  unfold mul_diag_mtx. 
  assert (G : forall m, (m <= n)%nat -> exists d', fold_left (fun od r => fold_left (fun od c => match od with
      | Some d => if ((r <? Nat.min n n) && (r <? n) && (c <? n))%nat then Some (upd2 d r c (v r * diag_at v r c)) else None
      | None => None end) (seq 0 n) od) (seq 0 m) (Some d) = Some d' /\
     forall r c, d' r c = (if ((r <? m) && (c <? n))%nat then v r * diag_at v r c else d r c)); [|apply G; lia].
  induction m as [|m IH]; intros Hm; [exists d; split; [reflexivity|reflexivity]|].
  destruct IH as (d1 & E & H); [lia|]. rewrite seq_S, fold_left_app, E. cbn [fold_left Nat.add].
  destruct (dm_inner n v m d1 ltac:(lia) n ltac:(lia)) as (d2 & E2 & H2). rewrite E2. exists d2; split; [reflexivity|].
  intros r c. rewrite H2, H. destruct (Nat.eqb_spec r m) as [->|]; cbn [andb].
  - rewrite Nat.ltb_irrefl, (proj2 (Nat.ltb_lt m (S m)) ltac:(lia)). reflexivity.
  - replace (r <? S m)%nat with (r <? m)%nat by lia. reflexivity.
Qed.

(** *** vectors *)
Lemma mul_mtx_vec_ok rows inner a (v d : nat -> K) r : (r < rows)%nat -> mul_mtx_vec rows inner a v d r = sum inner (fun c => a r c * v c).
Proof. intros H. unfold mul_mtx_vec. rewrite (fill_spec K (fun _ r => _)). rewrite (proj2 (Nat.ltb_lt _ _) H), accum_sum. ring. Qed.
Lemma mul_acc_mtx_vec_ok rows inner a (v d : nat -> K) r : (r < rows)%nat -> mul_acc_mtx_vec rows inner a v d r = d r + sum inner (fun c => a r c * v c).
Proof. intros H. unfold mul_acc_mtx_vec. rewrite (fill_spec K (fun x r => accum inner (fun c => a r c * v c) x)). rewrite (proj2 (Nat.ltb_lt _ _) H), accum_sum. ring. Qed.
Lemma mul_vec_mtx_ok inner cols a (v d : nat -> K) c : (c < cols)%nat -> mul_vec_mtx inner cols v a d c = sum inner (fun r => v r * a r c).
Proof. intros H. unfold mul_vec_mtx. rewrite (fill_spec K (fun _ r => _)). rewrite (proj2 (Nat.ltb_lt _ _) H), accum_sum.
  rewrite (sum_ext K inner (fun r => v r * a r c) (fun r => a r c * v r)) by (intros; ring). ring. Qed.
Lemma mul_acc_vec_mtx_ok inner cols a (v d : nat -> K) c : (c < cols)%nat -> mul_acc_vec_mtx inner cols v a d c = d c + sum inner (fun r => v r * a r c).
Proof. intros H. unfold mul_acc_vec_mtx. rewrite (fill_spec K (fun x c => accum inner (fun r => a r c * v r) x)). rewrite (proj2 (Nat.ltb_lt _ _) H), accum_sum.
  rewrite (sum_ext K inner (fun r => v r * a r c) (fun r => a r c * v r)) by (intros; ring). ring. Qed.

(** *** permutations *)
Lemma perm_row n p (f : nat -> K) r : wf_perm n p -> (r < n)%nat -> sum n (fun k => perm_mtx p r k * f k) = f (src p r).
Proof.
  intros [W _] Hr. rewrite (sum_single K n (src p r)); [unfold perm_mtx; rewrite Nat.eqb_refl; ring|now apply W|].
  intros i _ Hi. unfold perm_mtx. destruct (Nat.eqb_spec (src p r) i); [congruence|ring].
Qed.
Lemma perm_col n p (f : nat -> K) c : wf_perm n p -> (c < n)%nat -> sum n (fun k => f k * perm_mtx p k c) = f (dst p c).
Proof.
  intros [W W'] Hc. destruct (W' c Hc) as [H1 H2]. rewrite (sum_single K n (dst p c)); [unfold perm_mtx; rewrite H2, Nat.eqb_refl; ring|assumption|].
  intros i Hi Hn. unfold perm_mtx. destruct (Nat.eqb_spec (src p i) c) as [E|]; [|ring]. destruct (W i Hi) as [_ E']. congruence.
Qed.
Lemma mul_perm_mtx_ok n cols p b d r c : wf_perm n p -> (r < n)%nat -> (c < cols)%nat ->
  mul_perm_mtx n cols p b d r c = mmul n (perm_mtx p) b r c.
Proof. intros W Hr Hc. unfold mul_perm_mtx. rewrite each_spec, in_range by assumption. unfold mmul. now rewrite (perm_row n p (fun k => b k c)). Qed.
Lemma col_loop (f : nat -> nat -> K) c rows d r' c' :
  fold_left (fun (d : mtx K) r => upd2 d r c (f r c)) (seq 0 rows) d r' c' = (if ((c' =? c) && (r' <? rows))%nat then f r' c else d r' c').
Proof.
  revert r' c'. induction rows as [|n IH]; intros r' c'; [cbn; now rewrite andb_false_r|]. rewrite seq_S, fold_left_app. cbn [fold_left Nat.add].
  unfold upd2 at 1. rewrite !IH. destruct (Nat.eqb_spec c' c) as [->|Hr]; cbn [andb]; [|now rewrite andb_false_r]. rewrite andb_true_r.
  destruct (Nat.eqb_spec r' n) as [->|Hc]; [now rewrite (proj2 (Nat.ltb_lt n (S n)) ltac:(lia))|].
  replace (r' <? S n)%nat with (r' <? n)%nat by lia. reflexivity.
Qed.
Lemma cols_loop (f : nat -> nat -> K) rows cols d r c :
  fold_left (fun (d : mtx K) c => fold_left (fun (d : mtx K) r => upd2 d r c (f r c)) (seq 0 rows) d) (seq 0 cols) d r c
  = (if ((r <? rows) && (c <? cols))%nat then f r c else d r c).
Proof.
  revert r c. induction cols as [|n IH]; intros r c; [cbn; now rewrite andb_false_r|]. rewrite seq_S, fold_left_app. cbn [fold_left Nat.add]. rewrite col_loop, !IH.
  destruct (Nat.eqb_spec c n) as [->|Hr]; cbn [andb].
  - rewrite Nat.ltb_irrefl, andb_false_r, (proj2 (Nat.ltb_lt n (S n)) ltac:(lia)), andb_true_r. reflexivity.
  - replace (c <? S n)%nat with (c <? n)%nat by lia. reflexivity.
Qed.
Lemma mul_mtx_perm_ok rows n p a d r c : wf_perm n p -> (r < rows)%nat -> (c < n)%nat ->
  mul_mtx_perm rows n a p d r c = mmul n a (perm_mtx p) r c.
Proof.
  intros W Hr Hc. unfold mul_mtx_perm. rewrite (cols_loop (fun r c => a r (dst p c))), in_range by assumption. unfold mmul.
  now rewrite (perm_col n p (fun k => a r k)).
Qed.
Lemma mul_perm_vec_ok n p (v d : nat -> K) r : wf_perm n p -> (r < n)%nat -> mul_perm_vec n p v d r = sum n (fun k => perm_mtx p r k * v k).
Proof. intros W Hr. unfold mul_perm_vec. rewrite (fill_spec K (fun _ i => v (src p i))), (proj2 (Nat.ltb_lt _ _) Hr). now rewrite perm_row. Qed.
Lemma mul_vec_perm_ok n p (v d : nat -> K) c : wf_perm n p -> (c < n)%nat -> mul_vec_perm n v p d c = sum n (fun k => v k * perm_mtx p k c).
Proof. intros W Hr. unfold mul_vec_perm. rewrite (fill_spec K (fun _ i => v (dst p i))), (proj2 (Nat.ltb_lt _ _) Hr). now rewrite perm_col. Qed.

Lemma wf_lt n p i : wf_perm n p -> (i < n)%nat -> (src p i < n)%nat /\ (dst p i < n)%nat /\ dst p (src p i) = i /\ src p (dst p i) = i.
Proof. intros [W W'] Hi. destruct (W i Hi), (W' i Hi). auto. Qed.
Lemma mul_perm_perm_src n p q e i : (i < n)%nat -> src (mul_perm_perm n p q e) i = src q (src p i).
Proof. intros H. cbn [mul_perm_perm src]. rewrite (fill_spec nat (fun _ i => src q (src p i))), (proj2 (Nat.ltb_lt _ _) H). reflexivity. Qed.
Lemma mul_perm_perm_dst n p q e i : (i < n)%nat -> dst (mul_perm_perm n p q e) i = dst p (dst q i).
Proof. intros H. cbn [mul_perm_perm dst]. rewrite (fill_spec nat (fun _ i => dst p (dst q i))), (proj2 (Nat.ltb_lt _ _) H). reflexivity. Qed.
Lemma mul_perm_perm_wf n p q e : wf_perm n p -> wf_perm n q -> wf_perm n (mul_perm_perm n p q e).
Proof.
  intros Wp Wq. split; intros i Hi.
  - rewrite mul_perm_perm_src by assumption. destruct (wf_lt n p i Wp Hi) as (A & _ & B & _). destruct (wf_lt n q _ Wq A) as (A' & _ & B' & _).
    split; [exact A'|]. rewrite mul_perm_perm_dst by assumption. congruence.
  - rewrite mul_perm_perm_dst by assumption. destruct (wf_lt n q i Wq Hi) as (_ & A & _ & B). destruct (wf_lt n p _ Wp A) as (_ & A' & _ & B').
    split; [exact A'|]. rewrite mul_perm_perm_src by assumption. congruence.
Qed.
Lemma mul_perm_perm_ok n p q e r c : wf_perm n p -> wf_perm n q -> (r < n)%nat -> (c < n)%nat ->
  perm_mtx (mul_perm_perm n p q e) r c = mmul n (perm_mtx p) (perm_mtx q) r c :> K.
Proof.
  intros Wp Wq Hr Hc. unfold mmul. rewrite (perm_row n p (fun k => perm_mtx q k c)) by assumption. unfold perm_mtx at 1. rewrite mul_perm_perm_src by assumption. reflexivity.
Qed.

(** the dense destination holds the transpose of the product *)
Lemma set_ones (f : nat -> nat) n d r c :
  fold_left (fun (d : mtx K) i => upd2 d i (f i) 1) (seq 0 n) d r c = (if ((r <? n) && (f r =? c))%nat then 1 else d r c).
Proof.
  revert r c. induction n as [|n IH]; intros r c; [reflexivity|]. rewrite seq_S, fold_left_app. cbn [fold_left Nat.add]. unfold upd2 at 1. rewrite IH.
  destruct (Nat.eqb_spec r n) as [->|Hr]; cbn [andb].
  - rewrite Nat.ltb_irrefl, (proj2 (Nat.ltb_lt n (S n)) ltac:(lia)), (Nat.eqb_sym (f n)). cbn [andb]. reflexivity.
  - replace (r <? S n)%nat with (r <? n)%nat by lia. reflexivity.
Qed.
Lemma mul_perm_perm_dense_is n p q d r c : wf_perm n p -> wf_perm n q -> (r < n)%nat -> (c < n)%nat ->
  mul_perm_perm_dense n p q d r c = mmul n (perm_mtx p) (perm_mtx q) c r.
Proof.
  intros Wp Wq Hr Hc. unfold mul_perm_perm_dense. rewrite (set_ones (fun i => dst p (dst q i))), each_spec, in_range, (proj2 (Nat.ltb_lt _ _) Hr) by assumption. cbn [andb].
  unfold mmul. rewrite (perm_row n p (fun k => perm_mtx q k r)) by assumption. unfold perm_mtx.
  destruct (wf_lt n q r Wq Hr) as (_ & A & _ & B). destruct (wf_lt n p _ Wp A) as (_ & _ & _ & B').
  destruct (wf_lt n p c Wp Hc) as (C & _ & D & _). destruct (wf_lt n q _ Wq C) as (_ & _ & D' & _).
  destruct (Nat.eqb_spec (dst p (dst q r)) c) as [E|E], (Nat.eqb_spec (src q (src p c)) r) as [F|F]; try reflexivity; exfalso; congruence.
Qed.
End P.

Section Mem.
Variable K : field.
Add Field KF2 : (fth K).
Local Open Scope fld_scope.
Implicit Types (mem : nat -> K) (d m a b : view).

Lemma vaddr_inside m r c : (r < vrows m)%nat -> (c < vcols m)%nat -> inside m (vaddr m r c).
Proof. intros. unfold inside, vaddr, vsize. destruct (vrow_major m); nia. Qed.
Lemma divmod_unique (w q r q' r' : nat) : (r < w)%nat -> (r' < w)%nat -> (q * w + r = q' * w + r')%nat -> q = q' /\ r = r'.
Proof. intros. assert (q = q') by nia. subst. lia. Qed.
Lemma vaddr_inj m r c r' c' : (r < vrows m)%nat -> (c < vcols m)%nat -> (r' < vrows m)%nat -> (c' < vcols m)%nat -> vaddr m r c = vaddr m r' c' -> r = r' /\ c = c'.
Proof.
  intros A B C D E. unfold vaddr in E. destruct (vrow_major m).
  - apply (divmod_unique (vcols m)); lia.
  - apply and_comm, (divmod_unique (vrows m)); lia.
Qed.

Definition stable d (f : (nat -> K) -> nat -> nat -> K) : Prop := forall mem mem' r c, (r < vrows d)%nat -> (c < vcols d)%nat ->
  (forall x, ~ inside d x -> mem x = mem' x) -> f mem r c = f mem' r c.
Lemma write_cons d f r c l mem : write_cells d f ((r, c) :: l) mem = write_cells d f l (vset mem d r c (f mem r c)).
Proof. reflexivity. Qed.
Lemma write_outside d f l mem x : (forall rc, In rc l -> (fst rc < vrows d)%nat /\ (snd rc < vcols d)%nat) -> ~ inside d x -> write_cells d f l mem x = mem x.
Proof.
  intros Hl Hx. revert mem. induction l as [|[r c] l IH]; intros mem; [reflexivity|]. rewrite write_cons.
  rewrite IH by (intros; apply Hl; now right). unfold vset, upd. cbn [fst snd]. destruct (Nat.eqb_spec x (vaddr d r c)) as [->|]; [|reflexivity].
  exfalso. apply Hx. destruct (Hl (r, c) (or_introl eq_refl)). now apply vaddr_inside.
Qed.
Lemma write_value d f l mem mem0 r c : stable d f -> (forall rc, In rc l -> (fst rc < vrows d)%nat /\ (snd rc < vcols d)%nat) ->
  (r < vrows d)%nat -> (c < vcols d)%nat -> (forall x, ~ inside d x -> mem x = mem0 x) ->
  (In (r, c) l \/ vget mem d r c = f mem0 r c) -> vget (write_cells d f l mem) d r c = f mem0 r c.
Proof.
  intros Hs Hl Hr Hc. revert mem. induction l as [|[r' c'] l IH]; intros mem Ha [Hi|Hv]; [contradiction|exact Hv| | ];
  rewrite write_cons.
  all: assert (Hrc : (r' < vrows d)%nat /\ (c' < vcols d)%nat) by (apply (Hl (r', c')); now left).
  all: assert (Ha' : forall x, ~ inside d x -> vset mem d r' c' (f mem r' c') x = mem0 x)
    by (intros x Hx; unfold vset, upd; destruct (Nat.eqb_spec x (vaddr d r' c')) as [->|]; [exfalso; apply Hx, vaddr_inside; tauto|now apply Ha]).
  all: apply IH; [intros; apply Hl; now right|exact Ha'| ].
  - destruct Hi as [E|Hi]; [|now left]. injection E as -> ->. right. unfold vget, vset, upd. rewrite Nat.eqb_refl. now apply Hs.
  - right. unfold vget, vset, upd. destruct (Nat.eqb_spec (vaddr d r c) (vaddr d r' c')) as [E|]; [|exact Hv].
    apply vaddr_inj in E; try tauto. destruct E as [-> ->]. now apply Hs.
Qed.
Lemma by_rows_in rows cols r c : In (r, c) (by_rows rows cols) <-> (r < rows)%nat /\ (c < cols)%nat.
Proof. unfold by_rows. rewrite in_prod_iff, !in_seq. lia. Qed.
Lemma by_cols_in rows cols r c : In (r, c) (by_cols rows cols) <-> (r < rows)%nat /\ (c < cols)%nat.
Proof.
  unfold by_cols. rewrite in_map_iff. split.
  - intros ([x y] & E & H). injection E as <- <-. apply in_prod_iff in H. rewrite !in_seq in H. lia.
  - intros [H1 H2]. exists (c, r). split; [reflexivity|]. apply in_prod_iff. rewrite !in_seq. lia.
Qed.
Lemma by_rows_ok rows cols rc : In rc (by_rows rows cols) -> (fst rc < rows)%nat /\ (snd rc < cols)%nat.
Proof. destruct rc. apply by_rows_in. Qed.
Lemma by_cols_ok rows cols rc : In rc (by_cols rows cols) -> (fst rc < rows)%nat /\ (snd rc < cols)%nat.
Proof. destruct rc. apply by_cols_in. Qed.
Lemma apart_out a d r c : apart d a -> (r < vrows a)%nat -> (c < vcols a)%nat -> ~ inside d (vaddr a r c).
Proof. intros Ha Hr Hc Hd. pose proof (vaddr_inside a r c Hr Hc). unfold apart, inside in *. lia. Qed.
Lemma aliases_within a b : aliases a b = true <-> within a b.
Proof. unfold aliases, within. lia. Qed.

Lemma mul_into_ok mem d a b : vcols a = vrows b -> vrows d = vrows a -> vcols d = vcols b ->
  within d a \/ within d b \/ (apart d a /\ apart d b) ->
  (forall r c, (r < vrows d)%nat -> (c < vcols d)%nat ->
     vget (mul_into mem d a b) d r c = mmul (vcols a) (vget mem a) (vget mem b) r c) /\
  (forall x, ~ inside d x -> mul_into mem d a b x = mem x).
Proof.
  intros Hab Hda Hdb Hc. unfold mul_into. destruct (aliases d a || aliases d b) eqn:E; (split; [intros r c Hr Hcc|intros x Hx]).
  - rewrite (write_value d _ _ mem mem r c); [| |apply by_rows_ok|assumption|assumption|reflexivity|left; now apply by_rows_in].
    + rewrite each_spec, in_range by (rewrite <- ?Hda, <- ?Hdb; assumption). unfold vmul_at. rewrite accum_sum. unfold mmul. ring.
    + intros m1 m2 ? ? ? ? ?. reflexivity.
  - apply write_outside; [apply by_rows_ok|exact Hx].
  - apply orb_false_iff in E as [E1 E2].
    assert (A1 : ~ within d a) by (rewrite <- aliases_within, E1; discriminate). assert (A2 : ~ within d b) by (rewrite <- aliases_within, E2; discriminate).
    destruct Hc as [|[|[H1 H2]]]; [contradiction|contradiction|].
    rewrite (write_value d _ _ mem mem r c); [| |rewrite <- Hda, <- Hdb; apply by_rows_ok|assumption|assumption|reflexivity|left; rewrite <- Hda, <- Hdb; now apply by_rows_in].
    + unfold vmul_at. rewrite accum_sum. unfold mmul. ring.
    + intros m1 m2 r' c' Hr' Hc' Hag. unfold vmul_at. rewrite !accum_sum. f_equal. apply sum_ext. intros i Hi. unfold vget. f_equal; apply Hag, apart_out; try assumption; lia.
  - apply write_outside; [rewrite <- Hda, <- Hdb; apply by_rows_ok|exact Hx].
Qed.
(** accumulation: each cell depends on its own old value *)
Lemma write_acc d (g : K -> (nat -> K) -> nat -> nat -> K) l mem mem0 r c : (forall x, stable d (g x)) -> NoDup l ->
  (forall rc, In rc l -> (fst rc < vrows d)%nat /\ (snd rc < vcols d)%nat) ->
  (r < vrows d)%nat -> (c < vcols d)%nat -> (forall x, ~ inside d x -> mem x = mem0 x) ->
  (In (r, c) l -> vget (write_cells d (fun mem r c => g (vget mem d r c) mem r c) l mem) d r c = g (vget mem d r c) mem0 r c) /\
  (~ In (r, c) l -> vget (write_cells d (fun mem r c => g (vget mem d r c) mem r c) l mem) d r c = vget mem d r c).
Proof.
  intros Hs Hnd Hl Hr Hc. revert mem. induction l as [|[r' c'] l IH]; intros mem Ha; [split; [contradiction|reflexivity]|].
  inversion_clear Hnd as [|? ? Hni Hnd']. specialize (IH Hnd' (fun rc H => Hl rc (or_intror H))).
  assert (Hrc : (r' < vrows d)%nat /\ (c' < vcols d)%nat) by (apply (Hl (r', c')); now left).
  rewrite write_cons.
  set (mem' := vset mem d r' c' _).
  assert (Ha' : forall x, ~ inside d x -> mem' x = mem0 x)
    by (intros x Hx; unfold mem', vset, upd; destruct (Nat.eqb_spec x (vaddr d r' c')) as [->|]; [exfalso; apply Hx, vaddr_inside; tauto|now apply Ha]).
  destruct (IH mem' Ha') as [I1 I2].
  assert (Hother : (r, c) <> (r', c') -> vget mem' d r c = vget mem d r c).
  { intros Hne. unfold mem', vget, vset, upd. destruct (Nat.eqb_spec (vaddr d r c) (vaddr d r' c')) as [E|]; [|reflexivity].
    apply vaddr_inj in E; try tauto. destruct E as [-> ->]. contradiction. }
  split; intros Hi.
  - destruct Hi as [E|Hi].
    + injection E as -> ->. rewrite I2 by assumption. unfold mem' at 1, vget at 1, vset, upd. rewrite Nat.eqb_refl. now apply Hs.
    + rewrite I1 by assumption. rewrite Hother; [reflexivity|]. intros E. rewrite E in Hi. contradiction.
  - rewrite I2 by (intros H; apply Hi; now right). apply Hother. intros E. apply Hi. rewrite E. now left.
Qed.
Lemma nodup_map_pair (x : nat) (l : list nat) : NoDup l -> NoDup (map (fun y => (x, y)) l).
Proof. intros H. induction H; cbn [map]; constructor; [|assumption]. rewrite in_map_iff. intros (y & E & Hy). injection E as ->. contradiction. Qed.
Lemma nodup_app A (l l' : list A) : NoDup l -> NoDup l' -> (forall x, In x l -> ~ In x l') -> NoDup (l ++ l').
Proof.
  intros H H' Hd. induction H as [|x l Hx Hl IH]; [exact H'|]. cbn [app]. constructor.
  - rewrite in_app_iff. intros [?|?]; [contradiction|]. now apply (Hd x (or_introl eq_refl)).
  - apply IH. intros y Hy. apply Hd. now right.
Qed.
Lemma nodup_prod (l l' : list nat) : NoDup l -> NoDup l' -> NoDup (list_prod l l').
Proof.
  intros H H'. induction H as [|x l Hx Hl IH]; [constructor|]. cbn [list_prod]. apply nodup_app; [now apply nodup_map_pair|exact IH|].
  intros z Hz Hin. apply in_map_iff in Hz as (y & <- & _). apply in_prod_iff in Hin. tauto.
Qed.
Lemma mul_acc_into_ok mem d a b : vcols a = vrows b -> vrows d = vrows a -> vcols d = vcols b -> apart d a -> apart d b ->
  (forall r c, (r < vrows d)%nat -> (c < vcols d)%nat ->
     vget (mul_acc_into mem d a b) d r c = vget mem d r c + mmul (vcols a) (vget mem a) (vget mem b) r c) /\
  (forall x, ~ inside d x -> mul_acc_into mem d a b x = mem x).
Proof.
  intros Hab Hda Hdb Ha Hb. unfold mul_acc_into. rewrite <- Hda, <- Hdb. split.
  - intros r c Hr Hc. destruct (write_acc d (fun x mem r c => accum (vcols a) (fun n => vget mem a r n * vget mem b n c) x) (by_rows (vrows d) (vcols d)) mem mem r c) as [W _];
      [|apply nodup_prod; apply seq_NoDup|apply by_rows_ok|assumption|assumption|reflexivity|].
    + intros x m1 m2 r' c' Hr' Hc' Hag. rewrite !accum_sum. f_equal. apply sum_ext. intros i Hi. unfold vget. f_equal; apply Hag, apart_out; try assumption; lia.
    + rewrite W by now apply by_rows_in. rewrite accum_sum. reflexivity.
  - intros x Hx. apply write_outside; [apply by_rows_ok|exact Hx].
Qed.
(** *** transposes *)
Lemma transpose_any_ok mem d m : vrows d = vcols m -> vcols d = vrows m -> apart d m -> (0 < vsize d)%nat ->
  (forall r c, (r < vrows d)%nat -> (c < vcols d)%nat -> vget (transpose_any mem d m) d r c = vget mem m c r) /\
  (forall x, ~ inside d x -> transpose_any mem d m x = mem x).
Proof.
  intros H1 H2 Ha Hs. unfold transpose_any. replace (aliases d m) with false.
  2:{ symmetry. apply not_true_iff_false. rewrite aliases_within. unfold within, apart in *. assert (vsize d = vsize m) by (unfold vsize; rewrite H1, H2; lia). lia. }
  split.
  - intros r c Hr Hc. apply (write_value d (fun mem r c => vget mem m c r) _ mem mem r c); [|apply by_cols_ok|assumption|assumption|reflexivity|left; now apply by_cols_in].
    intros m1 m2 r' c' Hr' Hc' Hag. apply Hag, apart_out; [exact Ha|lia|lia].
  - intros x Hx. apply write_outside; [apply by_cols_ok|exact Hx].
Qed.
Lemma transpose_copy_ok mem d m : vrows d = vcols m -> vcols d = vrows m -> within d m \/ apart d m ->
  (forall r c, (r < vrows d)%nat -> (c < vcols d)%nat -> vget (transpose_same false mem d m) d r c = vget mem m c r) /\
  (forall x, ~ inside d x -> transpose_same false mem d m x = mem x).
Proof.
  intros H1 H2 Ha. unfold transpose_same. cbn [andb]. destruct (aliases d m) eqn:E.
  - split.
    + intros r c Hr Hc. rewrite (write_value d (fun _ r c => vget mem m c r) _ mem mem r c); [reflexivity| |apply by_cols_ok|assumption|assumption|reflexivity|left; now apply by_cols_in].
      intros m1 m2 ? ? ? ? ?. reflexivity.
    + intros x Hx. apply write_outside; [apply by_cols_ok|exact Hx].
  - destruct Ha as [Ha|Ha]; [apply aliases_within in Ha; congruence|]. split.
    + intros r c Hr Hc. apply (write_value d (fun mem r c => vget mem m c r) _ mem mem r c); [|apply by_cols_ok|assumption|assumption|reflexivity|left; now apply by_cols_in].
      intros m1 m2 r' c' Hr' Hc' Hag. apply Hag, apart_out; [exact Ha|lia|lia].
    + intros x Hx. apply write_outside; [apply by_cols_ok|exact Hx].
Qed.

(** in-place *)
Lemma swap_at A (f : nat -> A) x y z : swap f x y z = (if (z =? y)%nat then f x else if (z =? x)%nat then f y else f z).
Proof. reflexivity. Qed.
Lemma swap_cells_get mem m r c r' c' : (r < vrows m)%nat -> (c < vrows m)%nat -> (r' < vrows m)%nat -> (c' < vrows m)%nat -> vrows m = vcols m ->
  vget (swap_cells mem m r c) m r' c' = (if ((r' =? r) && (c' =? c) || (r' =? c) && (c' =? r))%nat then vget mem m c' r' else vget mem m r' c').
Proof.
  intros A B C D E. unfold vget, swap_cells. rewrite swap_at.
  destruct (Nat.eqb_spec (vaddr m r' c') (vaddr m c r)) as [F|F].
  - apply vaddr_inj in F; try lia. destruct F as [-> ->]. rewrite !Nat.eqb_refl. cbn [andb]. rewrite orb_true_r. reflexivity.
  - destruct (Nat.eqb_spec (vaddr m r' c') (vaddr m r c)) as [G|G].
    + apply vaddr_inj in G; try lia. destruct G as [-> ->]. rewrite !Nat.eqb_refl. reflexivity.
    + replace ((r' =? r) && (c' =? c) || (r' =? c) && (c' =? r))%nat with false; [reflexivity|]. symmetry. apply not_true_iff_false. intros T.
      apply orb_true_iff in T as [T|T]; apply andb_true_iff in T as [T1 T2]; apply Nat.eqb_eq in T1; apply Nat.eqb_eq in T2; subst; contradiction.
Qed.
Lemma swap_cells_out mem m r c x : (r < vrows m)%nat -> (c < vrows m)%nat -> vrows m = vcols m -> ~ inside m x -> swap_cells mem m r c x = mem x.
Proof.
  intros A B E H. unfold swap_cells. rewrite swap_at.
  destruct (Nat.eqb_spec x (vaddr m c r)) as [->|]; [exfalso; apply H, vaddr_inside; lia|].
  destruct (Nat.eqb_spec x (vaddr m r c)) as [->|]; [exfalso; apply H, vaddr_inside; lia|reflexivity].
Qed.
Lemma swap_row m r k mem : (r < vrows m)%nat -> (k <= r)%nat -> vrows m = vcols m ->
  (forall r' c', (r' < vrows m)%nat -> (c' < vrows m)%nat -> 
     vget (fold_left (fun mem c => swap_cells mem m r c) (seq 0 k) mem) m r' c' 
     = (if ((r' =? r) && (c' <? k) || (c' =? r) && (r' <? k))%nat then vget mem m c' r' else vget mem m r' c')) /\
  (forall x, ~ inside m x -> fold_left (fun mem c => swap_cells mem m r c) (seq 0 k) mem x = mem x).
Proof.
  intros Hr Hk Hsq. induction k as [|k IH].
  - split; [|reflexivity]. intros. cbn [seq fold_left]. now rewrite !andb_false_r.
  - destruct IH as [IH1 IH2]; [lia|]. rewrite seq_S, fold_left_app. cbn [fold_left Nat.add]. split.
    + intros r' c' Hr' Hc'. rewrite swap_cells_get by lia.
      destruct ((r' =? r) && (c' =? k) || (r' =? k) && (c' =? r))%nat eqn:E.
      * rewrite IH1 by assumption. replace ((c' =? r) && (r' <? k) || (r' =? r) && (c' <? k))%nat with false by lia.
        replace ((r' =? r) && (c' <? S k) || (c' =? r) && (r' <? S k))%nat with true by lia. reflexivity.
      * rewrite IH1 by assumption. replace ((r' =? r) && (c' <? S k) || (c' =? r) && (r' <? S k))%nat with ((r' =? r) && (c' <? k) || (c' =? r) && (r' <? k))%nat by lia. reflexivity.
    + intros x Hx. rewrite swap_cells_out by (lia || assumption). now apply IH2.
Qed.
Lemma swap_rows_loop m n mem : (n <= vrows m)%nat -> vrows m = vcols m ->
  (forall r' c', (r' < vrows m)%nat -> (c' < vrows m)%nat -> 
     vget (fold_left (fun mem r => fold_left (fun mem c => swap_cells mem m r c) (seq 0 r) mem) (seq 0 n) mem) m r' c' 
     = (if ((r' <? n) && (c' <? n))%nat then vget mem m c' r' else vget mem m r' c')) /\
  (forall x, ~ inside m x -> fold_left (fun mem r => fold_left (fun mem c => swap_cells mem m r c) (seq 0 r) mem) (seq 0 n) mem x = mem x).
Proof.
  intros Hn Hsq. induction n as [|n IH]; [split; reflexivity|]. destruct IH as [IH1 IH2]; [lia|]. rewrite seq_S, fold_left_app. cbn [fold_left Nat.add].
  match goal with |- context [seq 0 n ++ []] => rewrite app_nil_r | _ => idtac end.
  set (mm := fold_left _ (seq 0 n) mem) in *. destruct (swap_row m n n mm ltac:(lia) (le_n _) Hsq) as [R1 R2]. split.
  - intros r' c' Hr' Hc'. rewrite R1 by assumption. 
    destruct ((r' =? n) && (c' <? n) || (c' =? n) && (r' <? n))%nat eqn:E; rewrite IH1 by assumption.
    + replace ((c' <? n) && (r' <? n))%nat with false by lia. replace ((r' <? S n) && (c' <? S n))%nat with true by lia. reflexivity.
    + destruct ((r' =? n) && (c' =? n))%nat eqn:F.
      * apply andb_true_iff in F as [F1 F2]. apply Nat.eqb_eq in F1, F2. subst r' c'. destruct ((n <? n) && (n <? n))%nat, ((n <? S n) && (n <? S n))%nat; reflexivity.
      * replace ((r' <? S n) && (c' <? S n))%nat with ((r' <? n) && (c' <? n))%nat by lia. reflexivity.
  - intros x Hx. rewrite R2 by assumption. now apply IH2.
Qed.
Lemma transpose_self_ok mem m : vrows m = vcols m ->
  (forall r c, (r < vrows m)%nat -> (c < vcols m)%nat -> vget (transpose_same true mem m m) m r c = vget mem m c r) /\
  (forall x, ~ inside m x -> transpose_same true mem m m x = mem x).
Proof.
  intros Hsq. unfold transpose_same. rewrite Hsq, Nat.eqb_refl. cbn [andb]. rewrite <- Hsq.
  destruct (swap_rows_loop m (vrows m) mem (le_n _) Hsq) as [R1 R2]. split; [|exact R2].
  intros r c Hr Hc. rewrite R1 by lia. now rewrite in_range by lia.
Qed.
End Mem.

Section Wrong.
Variable K : field.
Add Field KF3 : (fth K).
Local Open Scope fld_scope.
Lemma mul_diag_mtx_wrong n (v : nat -> K) (b d : mtx K) :
  exists d', mul_diag_mtx n n n v b d = Some d' /\ (forall r c, (r < n)%nat -> (c < n)%nat -> d' r c = diag (fun k => v k * v k) r c) /\
  ((0 < n)%nat -> v 0%nat <> 0 -> b 0%nat 0%nat <> v 0%nat -> d' 0%nat 0%nat <> mmul n (diag v) b 0%nat 0%nat).
Proof.
  destruct (mul_diag_mtx_spec K n v b d) as (d' & E & H). exists d'. split; [exact E|]. split.
  - intros r c Hr Hc. rewrite H, in_range by assumption. unfold diag_at, diag. destruct (r =? c)%nat; [reflexivity|ring].
  - intros Hn Nz Nb. rewrite H, in_range by assumption. unfold mmul. rewrite (sum_single K n 0%nat); [|assumption|].
    + unfold diag_at, diag. cbn [Nat.eqb]. intros F. apply Nb.
      assert (Z : v 0%nat * (v 0%nat - b 0%nat 0%nat) = 0) by (transitivity (v 0%nat * v 0%nat - v 0%nat * b 0%nat 0%nat); [ring|rewrite F; ring]).
      apply mul_zero in Z as [Z|Z]; [contradiction|]. transitivity (v 0%nat - (v 0%nat - b 0%nat 0%nat)); [ring|rewrite Z; ring].
    + intros i _ Hi. unfold diag. destruct (Nat.eqb_spec 0 i); [congruence|ring].
Qed.
Lemma mul_overlap_wrong : exists (mem : nat -> K) d a b,
  vcols a = vrows b /\ vrows d = vrows a /\ vcols d = vcols b /\ apart d b /\
  exists r c, (r < vrows d)%nat /\ (c < vcols d)%nat /\ vget (mul_into mem d a b) d r c <> mmul (vcols a) (vget mem a) (vget mem b) r c.
Proof.
  exists (fun x => if (x =? 1)%nat || (x =? 2)%nat || (x =? 3)%nat then 0 else 1), (mkView 1 2 1 true), (mkView 0 2 1 true), (mkView 7 1 1 true).
  repeat split; try reflexivity; [left; cbn; lia|]. exists 1%nat, 0%nat. split; [cbn; lia|]. split; [cbn; lia|].
  match goal with |- ?x <> ?y => assert (A : x = 1) by (cbv -[car fadd fmul f0 f1]; ring); assert (B : y = 0) by (cbv -[car fadd fmul f0 f1]; ring); rewrite A, B end.
  apply f_1_0.
Qed.
Lemma mul_acc_alias_wrong : exists (mem : nat -> K) d b,
  vcols d = vrows b /\ vcols d = vcols b /\ apart d b /\
  exists r c, (r < vrows d)%nat /\ (c < vcols d)%nat /\
    vget (mul_acc_into mem d d b) d r c <> vget mem d r c + mmul (vcols d) (vget mem d) (vget mem b) r c.
Proof.
  exists (fun x => if (x =? 0)%nat || (x =? 4)%nat || (x =? 5)%nat then 1 else 0), (mkView 0 1 2 true), (mkView 4 2 2 true).
  repeat split; try reflexivity; [left; cbn; lia|]. exists 0%nat, 1%nat. split; [cbn; lia|]. split; [cbn; lia|].
  match goal with |- ?x <> ?y => assert (A : x = 1 + 1) by (cbv -[car fadd fmul f0 f1]; ring); assert (B : y = 1) by (cbv -[car fadd fmul f0 f1]; ring); rewrite A, B end.
  intros E. apply (f_1_0 K). transitivity ((1 + 1) - 1 : K); [ring|]. rewrite E. ring.
Qed.
Lemma transpose_shared_wrong : exists (mem : nat -> K) d m,
  vrows d = vcols m /\ vcols d = vrows m /\ within d m /\ within m d /\
  exists r c, (r < vrows d)%nat /\ (c < vcols d)%nat /\ vget (transpose_any mem d m) d r c <> vget mem m c r.
Proof.
  exists (fun x => if (x =? 3)%nat then 1 else 0), (mkView 0 3 2 true), (mkView 0 2 3 true).
  split; [reflexivity|]. split; [reflexivity|]. split; [split; cbn; lia|]. split; [split; cbn; lia|].
  exists 2%nat, 0%nat. split; [cbn; lia|]. split; [cbn; lia|].
  match goal with |- ?x <> ?y => assert (A : x = 1) by (cbv -[car fadd fmul f0 f1]; reflexivity); assert (B : y = 0) by (cbv -[car fadd fmul f0 f1]; reflexivity); rewrite A, B end.
  apply f_1_0.
Qed.
End Wrong.
