From Coq Require Import ZArith List Bool Lia ZifyBool Field_theory.
From Verif Require Import Mem Fld PermModel LayoutModel LayoutProofs GridModel FlatModel FlatSpec.
Import ListNotations.
Open Scope Z_scope.
Open Scope res_scope.

(** ** Ordinals *)
Lemma ordinal R C r c : 0 <= r < R -> 0 <= c < C -> 0 <= r * C + c < R * C /\ (r * C + c) / C = r /\ (r * C + c) mod C = c.
Proof.
  intros A B. split; [nia|]. split.
  - symmetry. apply Z.div_unique with c; lia.
  - symmetry. apply Z.mod_unique with r; lia.
Qed.
Lemma ordinal_within R C k : 0 <= k < R * C -> 0 < C -> 0 <= k / C < R /\ 0 <= k mod C < C /\ k = k / C * C + k mod C.
Proof.
  intros A B. pose proof (Z.div_mod k C ltac:(lia)). pose proof (Z.mod_pos_bound k C B).
  assert (0 <= k / C) by (apply Z.div_pos; lia). assert (k / C < R) by (apply Z.div_lt_upper_bound; lia). lia.
Qed.

(** ** Flat iterators *)
Definition off_at (L : layout) (R C k : Z) : Z := match L with RowMajor => k | ColMajor => match offs R C k with Ok p => p | Fault _ => 0 end end.
Definition it_at (L : layout) (R C k : Z) : mit := match L with RowMajor => Ptr k | ColMajor => Tr (mkT R C k (off_at ColMajor R C k)) end.

Lemma t_new_at R C k : 0 < R -> 0 < C -> t_new R C k = Ok (mkT R C k (off_at ColMajor R C k)).
Proof. intros A B. unfold t_new, off_at. destruct (offs_inv R C k A B) as (p & E & _). now rewrite E. Qed.
Lemma it_begin L R C : 0 < R -> 0 < C -> row_it L 0 R C = Ok (it_at L R C 0).
Proof. intros A B. destruct L; cbn [row_it it_at]; [f_equal; f_equal; lia|]. rewrite Z.mul_0_l, (t_new_at R C 0 A B). reflexivity. Qed.
Lemma it_advance L R C k n : 0 < R -> 0 < C -> m_advance (it_at L R C k) n = Ok (it_at L R C (k + n)).
Proof. intros A B. destruct L; cbn [m_advance it_at]; [reflexivity|]. unfold t_advance. cbn [t_major t_minor t_i]. rewrite (t_new_at R C _ A B). reflexivity. Qed.
Lemma it_off L R C k : m_deref (it_at L R C k) = off_at L R C k.
Proof. destruct L; reflexivity. Qed.
Lemma off_at_ix L R C k : 0 < C -> 0 <= k < R * C -> off_at L R C k = ix L (k / C) (k mod C) R C.
Proof.
  intros B H. destruct (ordinal_within R C k H B) as (P & Q & E). destruct L; cbn [off_at ix]; [lia|].
  rewrite E at 1. rewrite (offs_col R C (k / C) (k mod C)); lia.
Qed.
Lemma off_at_inj L R C k j : 0 < R -> 0 < C -> off_at L R C k = off_at L R C j -> k = j.
Proof.
  intros A B. destruct L; cbn [off_at]; [auto|].
  destruct (offs_inv R C k A B) as (p & E & I). destruct (offs_inv R C j A B) as (q & F & J). rewrite E, F. intros <-. rewrite I in J. now injection J.
Qed.
Lemma off_at_range L R C k : 0 < C -> 0 <= k < R * C -> 0 <= off_at L R C k < R * C.
Proof. intros B H. rewrite (off_at_ix L R C k B H). destruct (ordinal_within R C k H B) as (P & Q & _). now apply ix_range. Qed.
Lemma off_at_cell L R C r c : 0 <= r < R -> 0 <= c < C -> off_at L R C (r * C + c) = ix L r c R C.
Proof. intros A B. destruct (ordinal R C r c A B) as (P & Q & S). rewrite (off_at_ix L R C) by lia. now rewrite Q, S. Qed.

(** ** Grid iterators *)
Lemma grid_step R C k : 0 < C -> 0 <= k < R * C ->
  g_inc (grid_pos R C [k / C; k mod C]) = grid_pos R C (if k + 1 =? R * C then [R; 0] else [(k + 1) / C; (k + 1) mod C]).
Proof.
  intros B H. destruct (ordinal_within R C k H B) as (P & Q & E). set (q := k / C) in *. set (m := k mod C) in *.
  unfold g_inc, grid_pos, g_with. cbn [g_order g_lo g_hi g_pt along rev app inc]. f_equal.
  destruct (Z.eq_dec (m + 1) C) as [W|W].
  - replace (m + 1 >? C - 1) with true by lia. cbn [rev app].
    destruct (Z.eq_dec (q + 1) R) as [V|V].
    + replace (q + 1 >? R - 1) with true by lia. replace (k + 1 =? R * C) with true by nia. cbn. f_equal. lia.
    + replace (q + 1 >? R - 1) with false by lia. replace (k + 1 =? R * C) with false by nia.
      replace ((k + 1) / C) with (q + 1) by (apply Z.div_unique with 0; lia). replace ((k + 1) mod C) with 0 by (apply Z.mod_unique with (q + 1); lia). reflexivity.
  - replace (m + 1 >? C - 1) with false by lia. cbn [rev app]. replace (k + 1 =? R * C) with false by nia.
    replace ((k + 1) / C) with q by (apply Z.div_unique with (m + 1); lia). replace ((k + 1) mod C) with (m + 1) by (apply Z.mod_unique with q; lia). reflexivity.
Qed.

Section Mem.
Context {K : field}.
Implicit Types (mem : memory K) (m d : flat) (s a b : operand K).

(** ** Any iterator *)
Definition pos_at s (k : Z) : pos :=
  match s with
  | Flat m => FlatPos (it_at (f_layout m) (f_rows m) (f_cols m) k)
  | Other R C _ => GridPos (grid_pos R C (if k =? R * C then [R; 0] else [k / C; k mod C]))
  end.
Lemma f_begin_at m : 0 < f_rows m -> 0 < f_cols m -> f_begin m = Ok (it_at (f_layout m) (f_rows m) (f_cols m) 0).
Proof. intros. now apply it_begin. Qed.
Lemma f_end_at m : 0 < f_rows m -> 0 < f_cols m -> f_end m = Ok (it_at (f_layout m) (f_rows m) (f_cols m) (f_size m)).
Proof. intros A B. unfold f_end. rewrite f_begin_at by assumption. cbn [bind]. now rewrite it_advance. Qed.
Lemma o_begin_at s : 0 < o_rows s -> 0 < o_cols s -> o_begin s = Ok (pos_at s 0).
Proof.
  destruct s as [m|R C g]; cbn [o_begin o_rows o_cols pos_at]; intros A B.
  - now rewrite f_begin_at.
  - replace (0 =? R * C) with false by nia. now rewrite Z.div_0_l, Z.mod_0_l by lia.
Qed.
Lemma o_end_at s : 0 < o_rows s -> 0 < o_cols s -> o_end s = Ok (pos_at s (o_rows s * o_cols s)).
Proof.
  destruct s as [m|R C g]; cbn [o_end o_rows o_cols pos_at]; intros A B.
  - now rewrite f_end_at.
  - now rewrite Z.eqb_refl.
Qed.
Lemma p_next_at s k : 0 < o_rows s -> 0 < o_cols s -> 0 <= k < o_rows s * o_cols s -> p_next (pos_at s k) = Ok (pos_at s (k + 1)).
Proof.
  destruct s as [m|R C g]; cbn [o_rows o_cols pos_at p_next]; intros A B H.
  - now rewrite it_advance.
  - replace (k =? R * C) with false by lia. now rewrite grid_step.
Qed.
Lemma p_same_at s k : 0 < o_rows s -> 0 < o_cols s -> 0 <= k <= o_rows s * o_cols s -> p_same (pos_at s k) (pos_at s (o_rows s * o_cols s)) = (k =? o_rows s * o_cols s).
Proof.
  destruct s as [m|R C g]; cbn [o_rows o_cols pos_at p_same]; intros A B H.
  - rewrite !it_off. destruct (Z.eqb_spec k (f_rows m * f_cols m)) as [->|N]; [apply Z.eqb_refl|].
    apply Z.eqb_neq. intros E. now apply off_at_inj in E.
  - rewrite Z.eqb_refl. unfold g_equal. cbn [g_pt grid_pos]. destruct (Z.eqb_spec k (R * C)) as [->|N].
    + destruct (list_eq_dec Z.eq_dec [R; 0] [R; 0]); congruence.
    + destruct (list_eq_dec Z.eq_dec [k / C; k mod C] [R; 0]) as [E|]; [|reflexivity]. injection E as E _.
      destruct (ordinal_within R C k); lia.
Qed.
Lemma p_read_at mem s k : 0 < o_rows s -> 0 < o_cols s -> 0 <= k < o_rows s * o_cols s -> p_read mem s (pos_at s k) = o_get mem s (k / o_cols s) (k mod o_cols s).
Proof.
  destruct s as [m|R C g]; cbn [o_rows o_cols pos_at p_read o_get]; intros A B H.
  - rewrite it_off. unfold f_get. now rewrite off_at_ix.
  - now replace (k =? R * C) with false by lia.
Qed.
Definition addr m (k : Z) : Z := f_base m + off_at (f_layout m) (f_rows m) (f_cols m) k.
Lemma p_write_at mem m k x : 0 < f_rows m -> 0 < f_cols m -> 0 <= k < f_size m ->
  p_write mem m (it_at (f_layout m) (f_rows m) (f_cols m) k) x = Ok (fun z : Z => if z =? addr m k then x else mem z).
Proof.
  intros A B H. unfold p_write, poke. rewrite it_off. pose proof (off_at_range (f_layout m) (f_rows m) (f_cols m) k B H).
  unfold f_size. now replace (_ && _) with true by lia.
Qed.
Lemma addr_inj m k j : 0 < f_rows m -> 0 < f_cols m -> addr m k = addr m j -> k = j.
Proof. intros A B E. unfold addr in E. apply (off_at_inj (f_layout m) (f_rows m) (f_cols m)); lia. Qed.
Lemma addr_owns m k : 0 < f_cols m -> 0 <= k < f_size m -> owns m (addr m k).
Proof. intros B H. unfold owns, addr, f_size. pose proof (off_at_range (f_layout m) (f_rows m) (f_cols m) k B H). lia. Qed.
Lemma f_get_addr mem m r c : within (f_rows m) (f_cols m) r c -> f_get mem m r c = Ok (mem (addr m (r * f_cols m + c))).
Proof.
  intros (A & B). unfold f_get, peek, addr. rewrite (off_at_cell (f_layout m) _ _ r c A B).
  pose proof (ix_range (f_layout m) r c _ _ A B). unfold f_size. now replace (_ && _) with true by lia.
Qed.
Lemma f_set_addr mem m r c x : within (f_rows m) (f_cols m) r c -> f_set mem m r c x = Ok (fun z : Z => if z =? addr m (r * f_cols m + c) then x else mem z).
Proof.
  intros (A & B). unfold f_set, poke, addr. rewrite (off_at_cell (f_layout m) _ _ r c A B).
  pose proof (ix_range (f_layout m) r c _ _ A B). unfold f_size. now replace (_ && _) with true by lia.
Qed.

(** From [k] on the cells of [d] hold [val]; nothing else differs. *)
Definition filled d (val : Z -> K) (k : Z) mem mem' : Prop :=
  (forall j, k <= j < f_size d -> mem' (addr d j) = val j) /\ (forall x, (forall j, k <= j < f_size d -> x <> addr d j) -> mem' x = mem x).
Lemma filled_done d val mem : filled d val (f_size d) mem mem.
Proof. split; [intros; lia|auto]. Qed.
Lemma filled_step d val k mem mem' : 0 < f_rows d -> 0 < f_cols d -> 0 <= k < f_size d ->
  filled d val (k + 1) (fun z : Z => if z =? addr d k then val k else mem z) mem' -> filled d val k mem mem'.
Proof.
  intros A B H (P & Q). split.
  - intros j G. destruct (Z.eq_dec j k) as [->|N]; [|apply P; lia].
    rewrite Q by (intros i I E; apply (addr_inj d k i A B) in E; lia). now rewrite Z.eqb_refl.
  - intros x X. rewrite Q by (intros j J; apply X; lia). replace (x =? addr d k) with false; [reflexivity|].
    symmetry. apply Z.eqb_neq. apply X. lia.
Qed.
Lemma filled_becomes d f mem mem' : 0 < f_rows d -> 0 < f_cols d ->
  filled d (fun k => f (k / f_cols d) (k mod f_cols d)) 0 mem mem' -> holds mem' d f /\ only d mem mem'.
Proof.
  intros A B (P & Q). split.
  - intros r c W. rewrite f_get_addr by exact W. destruct W as (W1 & W2). destruct (ordinal _ _ r c W1 W2) as (O1 & O2 & O3).
    rewrite P by exact O1. now rewrite O2, O3.
  - intros x N. apply Q. intros j J ->. apply N. now apply addr_owns.
Qed.
(** Cells of [d] before [k] may have been overwritten. *)
Definition before d (k : Z) mem mem1 : Prop := forall x, (forall j, 0 <= j < k -> x <> addr d j) -> mem1 x = mem x.
Lemma before_start d mem : before d 0 mem mem.
Proof. intros x _. reflexivity. Qed.
Lemma before_step d k x mem mem1 : 0 <= k -> before d k mem mem1 -> before d (k + 1) mem (fun z : Z => if z =? addr d k then x else mem1 z).
Proof. intros H B x0 N. replace (x0 =? addr d k) with false; [|symmetry; apply Z.eqb_neq; apply N; lia]. apply B. intros j J. apply N. lia. Qed.
Lemma read_clear mem mem1 d s f k : clear_of s d -> same_shape s d -> shows mem s f -> 0 < f_rows d -> 0 < f_cols d -> 0 <= k < f_size d -> before d k mem mem1 ->
  o_get mem1 s (k / f_cols d) (k mod f_cols d) = Ok (f (k / f_cols d) (k mod f_cols d)).
Proof.
  intros S (ER & EC) V A B H W. destruct (ordinal_within _ _ k H B) as (P & Q & E).
  assert (I : within (o_rows s) (o_cols s) (k / f_cols d) (k mod f_cols d)) by (rewrite ER, EC; split; assumption).
  rewrite <- (V _ _ I). destruct S as [-> | S].
  - cbn [o_get]. rewrite !f_get_addr by exact I. f_equal. apply W. rewrite <- E. intros j J F. apply addr_inj in F; [lia|assumption|assumption].
  - apply S; [|exact I]. intros x N. apply W. intros j J ->. apply N. apply addr_owns; [assumption|]. unfold f_size in *. lia.
Qed.
Lemma read_at mem mem1 d s f k : clear_of s d -> same_shape s d -> shows mem s f -> 0 < f_rows d -> 0 < f_cols d -> 0 <= k < f_size d -> before d k mem mem1 ->
  p_read mem1 s (pos_at s k) = Ok (f (k / f_cols d) (k mod f_cols d)).
Proof.
  intros S Sh V A B H W. pose proof Sh as (ER & EC). rewrite p_read_at; [|lia|lia|rewrite ER, EC; exact H]. rewrite EC. now apply (read_clear mem mem1 d s f k).
Qed.

(** ** Copies *)
Lemma copy_loop_ok d s f mem0 : clear_of s d -> same_shape s d -> shows mem0 s f -> 0 < f_rows d -> 0 < f_cols d ->
  forall n k mem, Z.of_nat n = f_size d - k -> 0 <= k -> before d k mem0 mem ->
  exists mem', copy_loop n mem d (it_at (f_layout d) (f_rows d) (f_cols d) k) s (pos_at s k) (pos_at s (o_rows s * o_cols s)) = Ok mem' /\
    filled d (fun k => f (k / f_cols d) (k mod f_cols d)) k mem mem'.
Proof.
  intros S Sh V A B. pose proof Sh as (ER & EC). assert (AR : 0 < o_rows s) by lia. assert (BC : 0 < o_cols s) by lia.
  assert (SZ : o_rows s * o_cols s = f_size d) by (unfold f_size; now rewrite ER, EC).
  induction n as [|n IH]; intros k mem N H W; cbn [copy_loop].
  - rewrite p_same_at by lia. rewrite SZ. replace (k =? f_size d) with true by lia. exists mem. split; [reflexivity|]. replace k with (f_size d) by lia. apply filled_done.
  - rewrite p_same_at by lia. replace (k =? o_rows s * o_cols s) with false by lia.
    rewrite (read_at mem0 mem d s f k) by (auto; lia). cbn [bind].
    rewrite p_write_at by lia. cbn [bind]. rewrite p_next_at by lia. cbn [bind]. rewrite it_advance by assumption. cbn [bind].
    destruct (IH (k + 1) (fun z : Z => if z =? addr d k then f (k / f_cols d) (k mod f_cols d) else mem z)) as (mem' & E & F); [lia|lia|now apply before_step|].
    exists mem'. split; [exact E|]. apply (filled_step d (fun k => f (k / f_cols d) (k mod f_cols d))); [assumption|assumption|lia|exact F].
Qed.
Lemma copy_generic_ok mem d s f : clear_of s d -> same_shape s d -> shows mem s f -> 0 < f_rows d -> 0 < f_cols d -> becomes d mem (copy_generic mem d s) f.
Proof.
  intros S Sh V A B. pose proof Sh as (ER & EC). unfold copy_generic. rewrite o_begin_at, o_end_at by lia. cbn [bind]. rewrite f_begin_at by assumption. cbn [bind].
  destruct (copy_loop_ok d s f mem S Sh V A B (Z.to_nat (o_rows s * o_cols s)) 0 mem) as (mem' & E & F).
  - rewrite ER, EC. unfold f_size. nia.
  - lia.
  - apply before_start.
  - exists mem'. split; [exact E|]. now apply filled_becomes.
Qed.
(** The copy of arrays. *)
Lemma copy_array_ok d m mem0 : (m = d \/ forall x, owns m x -> ~ owns d x) -> f_size m = f_size d ->
  forall n o mem, Z.of_nat n = f_size d - o -> 0 <= o -> (forall x, (forall i, 0 <= i < o -> x <> f_base d + i) -> mem x = mem0 x) ->
  exists mem', copy_array n mem d m o = Ok mem' /\ (forall i, o <= i < f_size d -> mem' (f_base d + i) = mem0 (f_base m + i)) /\
    (forall x, (forall i, o <= i < f_size d -> x <> f_base d + i) -> mem' x = mem x).
Proof.
  intros S SZ. induction n as [|n IH]; intros o mem N H W; cbn [copy_array].
  - exists mem. split; [reflexivity|]. split; [intros; lia|auto].
  - unfold peek at 1. replace ((0 <=? o) && (o <? f_size m)) with true by lia. cbn [bind]. unfold poke at 1.
    replace ((0 <=? o) && (o <? f_size d)) with true by lia. cbn [bind].
    assert (V : mem (f_base m + o) = mem0 (f_base m + o)).
    { apply W. intros i I E. destruct S as [-> | S]; [lia|]. apply (S (f_base m + o)); unfold owns; lia. }
    destruct (IH (o + 1) (fun z : Z => if z =? f_base d + o then mem (f_base m + o) else mem z)) as (mem' & E & P & Q); [lia|lia| |].
    + intros x X. replace (x =? f_base d + o) with false; [|symmetry; apply Z.eqb_neq; apply X; lia]. apply W. intros i I. apply X. lia.
    + exists mem'. split; [exact E|]. split.
      * intros i I. destruct (Z.eq_dec i o) as [->|Ne]; [|apply P; lia]. rewrite Q by (intros j J; lia). rewrite Z.eqb_refl. exact V.
      * intros x X. rewrite Q by (intros i I; apply X; lia). replace (x =? f_base d + o) with false; [reflexivity|]. symmetry. apply Z.eqb_neq. apply X. lia.
Qed.
Lemma clear_flat m d : 0 < f_rows m -> 0 < f_cols m -> clear_of (Flat m : operand K) d -> m = d \/ forall x, owns m x -> ~ owns d x.
Proof.
  intros A B [E|S]; [left; now injection E|right]. intros x O N.
  pose (mem := fun _ : Z => f0 : K). pose (mem' := fun a : Z => if a =? x then f1 else f0 : K).
  assert (W : only d mem mem'). { intros y Y. unfold mem', mem. destruct (Z.eqb_spec y x) as [->|]; [contradiction|reflexivity]. }
  unfold owns in O. destruct (ix_surj (f_layout m) (x - f_base m) (f_rows m) (f_cols m)) as (r & c & Hr & Hc & E); [lia|unfold f_size in O; lia|].
  specialize (S mem mem' W r c (Logic.conj Hr Hc)). cbn [o_get] in S. unfold f_get, peek in S. rewrite E in S.
  replace ((0 <=? x - f_base m) && (x - f_base m <? f_size m)) with true in S by lia. injection S. unfold mem', mem.
  replace (f_base m + (x - f_base m) =? x) with true by lia. exact (F_1_neq_0 (fth K)).
Qed.
Lemma copy_same_ok mem d m f : clear_of (Flat m : operand K) d -> same_shape (Flat m : operand K) d -> shows mem (Flat m) f -> 0 < f_rows d -> 0 < f_cols d -> f_layout d = f_layout m ->
  becomes d mem (copy_same_layout mem d m) f.
Proof.
  intros S (ER & EC) V A B L. cbn [o_rows o_cols] in ER, EC. assert (SZ : f_size m = f_size d) by (unfold f_size; now rewrite ER, EC).
  assert (NN : 0 <= f_size d) by (unfold f_size; nia).
  apply clear_flat in S; [|lia|lia].
  destruct (copy_array_ok d m mem S SZ (Z.to_nat (f_size m)) 0 mem) as (mem' & E & P & Q); [lia|lia|auto|].
  exists mem'. split; [exact E|]. split.
  - intros r c W. destruct W as (W1 & W2). pose proof (ix_range (f_layout d) r c _ _ W1 W2) as I. unfold f_get, peek. fold (f_size d) in I.
    replace (_ && _) with true by lia. rewrite P by exact I.
    specialize (V r c). cbn [o_rows o_cols o_get] in V. rewrite ER, EC in V. specialize (V (Logic.conj W1 W2)). unfold f_get, peek in V.
    rewrite <- L, ER, EC, SZ in V. replace (_ && _) with true in V by lia. injection V as ->. reflexivity.
  - intros x N. apply Q. intros i I ->. apply N. unfold owns. lia.
Qed.
Lemma mtx_copy_ok mem d s f : clear_of s d -> same_shape s d -> shows mem s f -> 0 < f_rows d -> 0 < f_cols d -> becomes d mem (mtx_copy mem d s) f.
Proof.
  intros S Sh V A B. destruct s as [m|R C g]; cbn [mtx_copy]; [|now apply copy_generic_ok].
  destruct (layout_eqb (f_layout d) (f_layout m)) eqn:E; [|now apply copy_generic_ok]. apply copy_same_ok; auto.
  destruct (f_layout d), (f_layout m); (reflexivity || discriminate).
Qed.

(** ** Sums *)
Lemma zip_loop_ok op d a b f g mem0 : clear_of a d -> clear_of b d -> same_shape a d -> same_shape b d -> shows mem0 a f -> shows mem0 b g -> 0 < f_rows d -> 0 < f_cols d ->
  forall n k mem, Z.of_nat n = f_size d - k -> 0 <= k -> before d k mem0 mem ->
  exists mem', zip_loop op n mem d (it_at (f_layout d) (f_rows d) (f_cols d) k) (it_at (f_layout d) (f_rows d) (f_cols d) (f_size d)) a (pos_at a k) b (pos_at b k) = Ok mem' /\
    filled d (fun k => op (f (k / f_cols d) (k mod f_cols d)) (g (k / f_cols d) (k mod f_cols d))) k mem mem'.
Proof.
  intros Sa Sb Sha Shb Va Vb A B. pose proof Sha as (ERa & ECa). pose proof Shb as (ERb & ECb).
  assert (SZa : o_rows a * o_cols a = f_size d) by (unfold f_size; now rewrite ERa, ECa).
  assert (SZb : o_rows b * o_cols b = f_size d) by (unfold f_size; now rewrite ERb, ECb).
  induction n as [|n IH]; intros k mem N H W; cbn [zip_loop]; rewrite !it_off.
  - replace k with (f_size d) by lia. rewrite Z.eqb_refl. exists mem. split; [reflexivity|]. apply filled_done.
  - replace (off_at _ _ _ k =? _) with false; [|symmetry; apply Z.eqb_neq; intros E; apply off_at_inj in E; lia].
    rewrite (read_at mem0 mem d a f k) by (auto; lia). cbn [bind]. rewrite (read_at mem0 mem d b g k) by (auto; lia). cbn [bind].
    rewrite p_write_at by lia. cbn [bind]. rewrite it_advance by assumption. cbn [bind]. rewrite (p_next_at a), (p_next_at b) by lia. cbn [bind].
    edestruct (IH (k + 1)) as (mem' & E & F); [lia|lia|apply before_step; [lia|exact W]|].
    exists mem'. split; [exact E|].
    apply (filled_step d (fun k => op (f (k / f_cols d) (k mod f_cols d)) (g (k / f_cols d) (k mod f_cols d)))); [assumption|assumption|lia|exact F].
Qed.
Lemma zip_ok op mem d a b f g : clear_of a d -> clear_of b d -> same_shape a d -> same_shape b d -> shows mem a f -> shows mem b g -> 0 < f_rows d -> 0 < f_cols d ->
  becomes d mem (zip op mem d a b) (fun r c => op (f r c) (g r c)).
Proof.
  intros Sa Sb Sha Shb Va Vb A B. pose proof Sha as (ERa & ECa). pose proof Shb as (ERb & ECb).
  unfold zip. rewrite f_begin_at, f_end_at by assumption. cbn [bind]. rewrite !o_begin_at by lia. cbn [bind].
  destruct (zip_loop_ok op d a b f g mem Sa Sb Sha Shb Va Vb A B (Z.to_nat (f_size d)) 0 mem) as (mem' & E & F).
  - unfold f_size. nia.
  - lia.
  - apply before_start.
  - exists mem'. split; [exact E|]. apply (filled_becomes d (fun r c => op (f r c) (g r c))); assumption.
Qed.

(** ** Multiples *)
Lemma each_col_ok d s f k0 mem0 : clear_of s d -> same_shape s d -> shows mem0 s f -> 0 < f_rows d -> 0 < f_cols d ->
  forall n r c mem, Z.of_nat n = f_cols d - c -> 0 <= c -> 0 <= r < f_rows d -> before d (r * f_cols d + c) mem0 mem ->
  exists mem', each_col (fun mem r c => let* x := o_get mem s r c in f_set mem d r c (k0 * x)%F) n r c mem = Ok mem' /\
    (forall c', c <= c' < f_cols d -> mem' (addr d (r * f_cols d + c')) = (k0 * f r c')%F) /\
    (forall x, (forall c', c <= c' < f_cols d -> x <> addr d (r * f_cols d + c')) -> mem' x = mem x).
Proof.
  intros S Sh V A B. pose proof Sh as (ER & EC).
  induction n as [|n IH]; intros r c mem N H Hr W; cbn [each_col].
  - exists mem. split; [reflexivity|]. split; [intros; lia|auto].
  - assert (Hc : 0 <= c < f_cols d) by lia. destruct (ordinal _ _ r c Hr Hc) as (O1 & O2 & O3).
    pose proof (read_clear mem0 mem d s f (r * f_cols d + c) S Sh V A B O1 W) as Rd. rewrite O2, O3 in Rd. rewrite Rd. cbn [bind].
    rewrite f_set_addr by (split; lia). cbn [bind].
    edestruct (IH r (c + 1)) as (mem' & E & P & Q); [lia|lia|lia| |].
    { replace (r * f_cols d + (c + 1)) with (r * f_cols d + c + 1) by lia. apply before_step; [lia|exact W]. }
    exists mem'. split; [exact E|]. split.
    + intros c' I. destruct (Z.eq_dec c' c) as [->|Ne]; [|apply P; lia].
      rewrite Q by (intros j J F; apply addr_inj in F; lia). now rewrite Z.eqb_refl.
    + intros x X. rewrite Q by (intros c' I; apply X; lia). replace (x =? _) with false; [reflexivity|]. symmetry. apply Z.eqb_neq. apply X. lia.
Qed.
Lemma each_row_ok d s f k0 mem0 : clear_of s d -> same_shape s d -> shows mem0 s f -> 0 < f_rows d -> 0 < f_cols d ->
  forall n r mem, Z.of_nat n = f_rows d - r -> 0 <= r -> before d (r * f_cols d) mem0 mem ->
  exists mem', each_row (fun mem r c => let* x := o_get mem s r c in f_set mem d r c (k0 * x)%F) n (Z.to_nat (o_cols s)) r mem = Ok mem' /\
    (forall r' c', r <= r' < f_rows d -> 0 <= c' < f_cols d -> mem' (addr d (r' * f_cols d + c')) = (k0 * f r' c')%F) /\
    (forall x, (forall j, r * f_cols d <= j < f_size d -> x <> addr d j) -> mem' x = mem x).
Proof.
  intros S Sh V A B. pose proof Sh as (ER & EC).
  induction n as [|n IH]; intros r mem N H W; cbn [each_row].
  - exists mem. split; [reflexivity|]. split; [intros; lia|auto].
  - destruct (each_col_ok d s f k0 mem0 S Sh V A B (Z.to_nat (o_cols s)) r 0 mem) as (m1 & E1 & P1 & Q1); [lia|lia|lia|rewrite Z.add_0_r; exact W|].
    rewrite E1. cbn [bind].
    destruct (IH (r + 1) m1) as (mem' & E & P & Q); [lia|lia| |].
    + intros x X. rewrite Q1.
      * apply W. intros j J. apply X. nia.
      * intros c' I. apply X. nia.
    + exists mem'. split; [exact E|]. split.
      * intros r' c' I J. destruct (Z.eq_dec r' r) as [->|Ne]; [|apply P; lia].
        rewrite Q; [apply P1; lia|]. intros j Hj F. apply addr_inj in F; [|assumption|assumption]. nia.
      * intros x X. rewrite Q, Q1; [reflexivity| |].
        -- intros c' I. apply X. unfold f_size. nia.
        -- intros j J. apply X. nia.
Qed.
Lemma scale_ok mem d k s f : clear_of s d -> same_shape s d -> shows mem s f -> 0 < f_rows d -> 0 < f_cols d -> becomes d mem (mtx_scale mem d k s) (fun r c => (k * f r c)%F).
Proof.
  intros S Sh V A B. pose proof Sh as (ER & EC). unfold mtx_scale.
  destruct (each_row_ok d s f k mem S Sh V A B (Z.to_nat (o_rows s)) 0 mem) as (mem' & E & P & Q); [lia|lia|apply before_start|].
  exists mem'. split; [exact E|]. split.
  - intros r c W. rewrite f_get_addr by exact W. destruct W as (W1 & W2). rewrite P by lia. reflexivity.
  - intros x N. apply Q. intros j J ->. apply N. apply addr_owns; [assumption|lia].
Qed.
End Mem.
