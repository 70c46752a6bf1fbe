From Coq Require Import ZArith List Bool Lia ZifyBool Field_theory.
From Verif Require Import Mem Fld PermModel PermSpec MulSpec LayoutModel LayoutProofs GridModel FlatModel FlatSpec FlatProofs.
Import ListNotations.
Open Scope Z_scope.
Open Scope res_scope.

Section Mem.
Context {K : field}.
Implicit Types (mem : memory K) (m d : flat) (s a b : operand K).
Lemma one_zero : (f1 : K) <> f0. Proof. exact (F_1_neq_0 (fth K)). Qed.
Lemma owns_ix m r c : within (f_rows m) (f_cols m) r c -> 0 <= ix (f_layout m) r c (f_rows m) (f_cols m) < f_size m.
Proof. intros (A & B). now apply ix_range. Qed.
Lemma get_ix mem m r c : within (f_rows m) (f_cols m) r c -> f_get mem m r c = Ok (mem (f_base m + ix (f_layout m) r c (f_rows m) (f_cols m))).
Proof. intros W. pose proof (owns_ix m r c W). unfold f_get, peek. now replace (_ && _) with true by lia. Qed.

(** ** Elements *)
Lemma set_get mem m r c x : within (f_rows m) (f_cols m) r c ->
  exists mem', f_set mem m r c x = Ok mem' /\ f_get mem' m r c = Ok x /\
    (forall r' c', within (f_rows m) (f_cols m) r' c' -> (r', c') <> (r, c) -> f_get mem' m r' c' = f_get mem m r' c') /\ only m mem mem'.
Proof.
  intros W. pose proof (owns_ix m r c W) as I. unfold f_set, poke. replace (_ && _) with true by lia. eexists. split; [reflexivity|]. split; [|split].
  - rewrite get_ix by exact W. now rewrite Z.eqb_refl.
  - intros r' c' W' N. rewrite !get_ix by exact W'. replace (_ =? _) with false; [reflexivity|]. symmetry. apply Z.eqb_neq. intros E.
    destruct W as (W1 & W2). destruct W' as (V1 & V2). destruct (ix_inj (f_layout m) r' c' r c _ _ V1 V2 W1 W2) as (-> & ->); [lia|]. now apply N.
  - intros z Z. replace (z =? _) with false; [reflexivity|]. symmetry. apply Z.eqb_neq. intros ->. apply Z. unfold owns. lia.
Qed.
Lemma transpose_view mem m r c : f_get mem (as_transpose m) c r = f_get mem m r c.
Proof. unfold f_get, as_transpose, peek, f_size. cbn [f_layout f_rows f_cols f_base]. rewrite (Z.mul_comm (f_cols m)). destruct (f_layout m); reflexivity. Qed.
Lemma transpose_view_set mem m r c x : f_set mem (as_transpose m) c r x = f_set mem m r c x.
Proof. unfold f_set, as_transpose, poke, f_size. cbn [f_layout f_rows f_cols f_base]. rewrite (Z.mul_comm (f_cols m)). destruct (f_layout m); reflexivity. Qed.
Lemma zero_ok mem m : becomes m mem (Ok (set_zero mem m)) (fun _ _ => f0).
Proof.
  exists (set_zero mem m). split; [reflexivity|]. split.
  - intros r c W. rewrite get_ix by exact W. pose proof (owns_ix m r c W). unfold set_zero, fill. now replace (_ && _) with true by lia.
  - intros x N. unfold set_zero, fill. unfold owns in N. now replace (_ && _) with false by lia.
Qed.
Lemma scale_array_ok m k : forall n i mem, Z.of_nat n = f_size m - i -> 0 <= i ->
  exists mem', scale_array n m i k mem = Ok mem' /\ (forall o, i <= o < f_size m -> mem' (f_base m + o) = fmul (mem (f_base m + o)) k) /\
    (forall x, (forall o, i <= o < f_size m -> x <> f_base m + o) -> mem' x = mem x).
Proof.
  induction n as [|n IH]; intros i mem N H; cbn [scale_array].
  - exists mem. split; [reflexivity|]. split; [intros; lia|auto].
  - unfold peek at 1. replace ((0 <=? i) && (i <? f_size m)) with true by lia. cbn [bind]. unfold poke at 1. replace ((0 <=? i) && (i <? f_size m)) with true by lia. cbn [bind].
    edestruct (IH (i + 1)) as (mem' & E & P & Q); [lia|lia|]. exists mem'. split; [exact E|]. split.
    + intros o O. destruct (Z.eq_dec o i) as [->|Ne].
      * rewrite Q by (intros; lia). now rewrite Z.eqb_refl.
      * rewrite P by lia. now replace (_ =? _) with false by lia.
    + intros x X. rewrite Q by (intros o O; apply X; lia). replace (_ =? _) with false; [reflexivity|]. symmetry. apply Z.eqb_neq. apply X. lia.
Qed.
Lemma scale_assign_ok mem m k f : 0 <= f_rows m -> 0 <= f_cols m -> holds mem m f -> becomes m mem (scale_assign mem m k) (fun r c => (f r c * k)%F).
Proof.
  intros A B V. destruct (scale_array_ok m k (Z.to_nat (f_rows m * f_cols m)) 0 mem) as (mem' & E & P & Q); [unfold f_size; nia|lia|].
  exists mem'. split; [exact E|]. split.
  - intros r c W. rewrite get_ix by exact W. rewrite P by (now apply owns_ix). specialize (V r c W). rewrite get_ix in V by exact W. injection V as ->. reflexivity.
  - intros x N. apply Q. intros o O ->. apply N. unfold owns. lia.
Qed.

(** ** The identity *)
Lemma ones_ok m : 0 < f_cols m -> forall n p mem, f_size m - p <= Z.of_nat n -> 0 <= p ->
  exists mem', ones n m p mem = Ok mem' /\
    (forall o, 0 <= o < f_size m -> mem' (f_base m + o) = if (p <=? o) && ((o - p) mod (f_cols m + 1) =? 0) then f1 else mem (f_base m + o)) /\
    (forall x, ~ owns m x -> mem' x = mem x).
Proof.
  intros C. induction n as [|n IH]; intros p mem N H; cbn [ones].
  - replace (p <? f_size m) with false by lia. exists mem. split; [reflexivity|]. split; [|auto]. intros o O. now replace (p <=? o) with false by lia.
  - destruct (Z.ltb_spec p (f_size m)) as [L|G].
    + unfold poke at 1. replace ((0 <=? p) && (p <? f_size m)) with true by lia. cbn [bind].
      edestruct (IH (p + (f_cols m + 1))) as (mem' & E & P & Q); [lia|lia|]. exists mem'. split; [exact E|]. split.
      * intros o O. rewrite P by exact O. replace (o - (p + (f_cols m + 1))) with (o - p + (-1) * (f_cols m + 1)) by ring. rewrite Z.mod_add by lia.
        destruct (Z.eqb_spec (f_base m + o) (f_base m + p)) as [e|e].
        -- assert (o = p) as -> by lia. replace (p + (f_cols m + 1) <=? p) with false by lia. rewrite Z.sub_diag, Z.mod_0_l by lia. now rewrite Z.leb_refl.
        -- destruct (Z.leb_spec (p + (f_cols m + 1)) o) as [G|G].
           ++ now replace (p <=? o) with true by lia.
           ++ destruct (Z.leb_spec p o); cbn [andb]; [|reflexivity]. rewrite Z.mod_small by lia. now replace (o - p =? 0) with false by lia.
      * intros x X. rewrite Q by exact X. replace (_ =? _) with false; [reflexivity|]. symmetry. apply Z.eqb_neq. intros ->. apply X. unfold owns. lia.
    + exists mem. split; [reflexivity|]. split; [|auto]. intros o O. now replace (p <=? o) with false by lia.
Qed.
Lemma identity_cells mem m : 0 < f_rows m -> 0 < f_cols m ->
  exists mem', set_identity mem m = Ok mem' /\ only m mem mem' /\
    (forall r c, within (f_rows m) (f_cols m) r c -> f_get mem' m r c = Ok (if ix (f_layout m) r c (f_rows m) (f_cols m) mod (f_cols m + 1) =? 0 then f1 else f0)).
Proof.
  intros A B. destruct (ones_ok m B (Z.to_nat (f_size m)) 0 (set_zero mem m)) as (mem' & E & P & Q); [unfold f_size; nia|lia|].
  exists mem'. split; [exact E|]. split.
  - intros x N. rewrite Q by exact N. unfold set_zero, fill. unfold owns in N. now replace (_ && _) with false by lia.
  - intros r c W. rewrite get_ix by exact W. pose proof (owns_ix m r c W) as I. rewrite P by exact I. rewrite Z.sub_0_r. replace (0 <=? _) with true by lia. cbn [andb].
    unfold set_zero, fill. now replace (_ && _) with true by lia.
Qed.
Definition right_places m : Prop := forall r c, within (f_rows m) (f_cols m) r c -> (ix (f_layout m) r c (f_rows m) (f_cols m) mod (f_cols m + 1) = 0 <-> r = c).
Lemma identity_iff mem m mem' : 0 < f_rows m -> 0 < f_cols m -> set_identity mem m = Ok mem' -> (holds mem' m identity <-> right_places m).
Proof.
  intros A B E. destruct (identity_cells mem m A B) as (mem2 & E2 & _ & G). rewrite E in E2. injection E2 as <-.
  split; intros H r c W; specialize (H r c W).
  - rewrite G in H by exact W. injection H as H. unfold identity in H. revert H. pose proof one_zero.
    destruct (Z.eqb_spec (ix (f_layout m) r c (f_rows m) (f_cols m) mod (f_cols m + 1)) 0), (Z.eqb_spec r c); intros; try tauto; exfalso; congruence.
  - rewrite G by exact W. f_equal. unfold identity. destruct (Z.eqb_spec (ix (f_layout m) r c (f_rows m) (f_cols m) mod (f_cols m + 1)) 0), (Z.eqb_spec r c); tauto.
Qed.
Lemma mod_zero x n : 0 < n -> x mod n = 0 -> exists q, x = q * n.
Proof. intros P H. exists (x / n). pose proof (Z.div_mod x n). lia. Qed.
Lemma small_multiple x t n : 0 < n -> - n < x < n -> x = t * n -> x = 0.
Proof. intros N B E. assert (t = 0) as -> by nia. lia. Qed.
Lemma right_row R C base : 0 < R -> 0 < C -> (right_places (mkFlat base R C RowMajor) <-> R <= C + 1).
Proof.
  intros A B. unfold right_places. cbn [f_rows f_cols f_layout ix]. split.
  - intros H. apply Z.le_ngt. intros G. specialize (H (C + 1) 0). rewrite Z.add_0_r, Z.mul_comm, Z.mod_mul in H by lia.
    assert (C + 1 = 0) by (apply H; [split; lia|reflexivity]). lia.
  - intros H r c (W1 & W2). split.
    + intros M. apply mod_zero in M; [|lia]. destruct M as (q & M). pose proof (small_multiple (c - r) (q - r) (C + 1)). lia.
    + intros ->. replace (c * C + c) with (c * (C + 1)) by ring. apply Z.mod_mul. lia.
Qed.
Lemma right_col R C base : 0 < R -> 0 < C -> (right_places (mkFlat base R C ColMajor) <-> R = C \/ R = 1 \/ C = 1 /\ R = 2).
Proof.
  intros A B. unfold right_places. cbn [f_rows f_cols f_layout ix]. split.
  - intros H. destruct (Z.eq_dec R C); [tauto|]. destruct (Z.eq_dec R 1); [tauto|]. right. right.
    destruct (Z.eq_dec C 1) as [->|NC].
    + split; [reflexivity|]. destruct (Z.eq_dec R 2); [assumption|]. exfalso. assert (2 = 0) by (apply (H 2 0); [split; lia|reflexivity]). lia.
    + exfalso. assert (G1 : (1 * R + 1) mod (C + 1) = 0) by (apply (H 1 1); [split; lia|reflexivity]). apply mod_zero in G1; [|lia]. destruct G1 as (q & G1).
      destruct (ix_surj ColMajor (C + 1) R C) as (r & c & Hr & Hc & E); [lia|nia|]. cbn [ix] in E.
      assert (r = c). { apply (H r c (Logic.conj Hr Hc)). rewrite E. apply Z.mod_same. lia. }
      subst c. assert (0 < q) by nia. assert (r <> 0) by (intros ->; lia). assert (0 < r) by lia. assert (C + 1 <= q * (C + 1)) by nia. assert (R + 1 <= r * (R + 1)) by nia. lia.
  - intros H r c (W1 & W2). split.
    + intros M. apply mod_zero in M; [|lia]. destruct M as (q & M). destruct H as [->|[->|(-> & ->)]].
      * pose proof (small_multiple (r - c) (q - c) (C + 1)). lia.
      * pose proof (small_multiple c q (C + 1)). lia.
      * lia.
    + intros ->. destruct H as [->|[->|(-> & ->)]].
      * replace (c * C + c) with (c * (C + 1)) by ring. apply Z.mod_mul. lia.
      * assert (c = 0) as -> by lia. now rewrite Z.mod_0_l by lia.
      * assert (c = 0) as -> by lia. reflexivity.
Qed.

(** ** Copies with shapes *)
Lemma match_dim p q x y : (p = 0 \/ p = x) -> (q = 0 \/ q = y) ->
  (((p =? q) || (p * q =? 0)) && negb ((p * q =? 0) && negb (x =? y)) = true <-> x = y).
Proof.
  intros A B. destruct (Z.eqb_spec (p * q) 0) as [Z|Z]; cbn [orb andb].
  - rewrite orb_true_r. lia.
  - rewrite orb_false_r, andb_true_r. assert (p <> 0) by (intros ->; lia). assert (q <> 0) by (intros ->; lia). lia.
Qed.
Lemma match_shapes x y rx cx ry cy : shape_ok x rx cx -> shape_ok y ry cy -> (static_match x y && is_match x y = true <-> rx = ry /\ cx = cy).
Proof.
  intros (<- & <- & A1 & A2) (<- & <- & B1 & B2). unfold static_match, is_match. rewrite negb_orb.
  pose proof (match_dim _ _ _ _ A1 B1) as M1. pose proof (match_dim _ _ _ _ A2 B2) as M2.
  rewrite andb_true_iff in M1, M2. rewrite !andb_true_iff. tauto.
Qed.
Lemma mtxcopy_ok sd ss mem d s f : shape_ok sd (f_rows d) (f_cols d) -> shape_ok ss (o_rows s) (o_cols s) -> clear_of s d -> shows mem s f -> 0 < f_rows d -> 0 < f_cols d ->
  (same_shape s d -> exists r, mtxcopy sd ss mem d s = Some r /\ becomes d mem r f) /\ (~ same_shape s d -> mtxcopy sd ss mem d s = None).
Proof.
  intros Sd Ss C V A B. pose proof (match_shapes sd ss _ _ _ _ Sd Ss) as M. unfold mtxcopy. split.
  - intros Sh. pose proof Sh as (ER & EC). destruct M as (_ & M). rewrite M by (split; congruence). eexists. split; [reflexivity|]. now apply mtx_copy_ok.
  - intros Sh. destruct (static_match sd ss && is_match sd ss); [|reflexivity]. destruct M as (M & _). destruct M as (ER & EC); [reflexivity|]. exfalso. apply Sh. split; congruence.
Qed.
(** A source that is too large. *)
Lemma copy_overflow d s f mem0 : (forall mem mem', only d mem mem' -> forall r c, within (o_rows s) (o_cols s) r c -> o_get mem' s r c = o_get mem s r c) -> shows mem0 s f ->
  0 < f_rows d -> 0 < f_cols d -> 0 < o_rows s -> 0 < o_cols s -> f_size d < o_rows s * o_cols s ->
  forall n k fuel mem, Z.of_nat n = f_size d - k -> 0 <= k -> only d mem0 mem -> Z.of_nat fuel = o_rows s * o_cols s - k ->
  copy_loop fuel mem d (it_at (f_layout d) (f_rows d) (f_cols d) k) s (pos_at s k) (pos_at s (o_rows s * o_cols s)) = Fault OutOfBounds.
Proof.
  intros S V A B A' B' G. induction n as [|n IH]; intros k fuel mem N H W F; (destruct fuel as [|fuel]; [lia|]); cbn [copy_loop];
    rewrite p_same_at by lia; replace (k =? o_rows s * o_cols s) with false by lia; rewrite p_read_at by lia;
    destruct (ordinal_within (o_rows s) (o_cols s) k ltac:(lia) B') as (P & Q & E);
    rewrite (S mem0 mem W _ _ (Logic.conj P Q)), (V _ _ (Logic.conj P Q)); cbn [bind].
  - unfold p_write, poke. rewrite it_off. assert (k = f_size d) as -> by lia.
    assert (X : off_at (f_layout d) (f_rows d) (f_cols d) (f_size d) = f_size d).
    { destruct (f_layout d); cbn [off_at]; [reflexivity|]. pose proof (offs_pos (f_rows d) (f_cols d) 1 0 0 A B ltac:(lia) ltac:(lia) ltac:(lia)) as O.
      replace (1 * (f_rows d * f_cols d) + (0 * f_cols d + 0)) with (f_size d) in O by (unfold f_size; ring). rewrite O. unfold f_size. ring. }
    rewrite X. now replace ((0 <=? f_size d) && (f_size d <? f_size d)) with false by lia.
  - rewrite p_write_at by lia. cbn [bind]. rewrite p_next_at by lia. cbn [bind]. rewrite it_advance by assumption. cbn [bind]. apply IH; [lia|lia| |lia].
    intros x X. replace (x =? addr d k) with false; [now apply W|]. symmetry. apply Z.eqb_neq. intros ->. apply X. apply addr_owns; lia.
Qed.
Lemma construct_overflow fixed R C base L mem s f : fixed = Some (R, C) -> 0 < R -> 0 < C -> 0 < o_rows s -> 0 < o_cols s -> R * C < o_rows s * o_cols s ->
  shows mem s f -> (forall mem mem' : memory K, only (mkFlat base R C L) mem mem' -> forall r c, within (o_rows s) (o_cols s) r c -> o_get mem' s r c = o_get mem s r c) ->
  snd (construct fixed base L mem s) = Fault OutOfBounds.
Proof.
  intros -> A B A' B' G V S. cbn [construct snd given_shape fst]. unfold copy_generic. rewrite o_begin_at, o_end_at by assumption. cbn [bind]. rewrite f_begin_at by assumption. cbn [bind].
  cbn [f_rows f_cols f_layout].
  apply (copy_overflow (mkFlat base R C L) s f mem S V A B A' B' G (Z.to_nat (R * C)) 0); [unfold f_size; cbn; nia|lia|intros x _; reflexivity|nia].
Qed.

(** ** Equality *)
Lemma keqb_true (x y : K) : keqb x y = true <-> x = y.
Proof. unfold keqb. destruct (feq_dec x y); split; (congruence || tauto || discriminate). Qed.
Lemma equal_loop_ok mem a b f g : o_rows a = o_rows b -> o_cols a = o_cols b -> 0 < o_rows a -> 0 < o_cols a -> shows mem a f -> shows mem b g ->
  forall n k, Z.of_nat n = o_rows a * o_cols a - k -> 0 <= k ->
  exists e, equal_loop n mem a (pos_at a k) (pos_at a (o_rows a * o_cols a)) b (pos_at b k) = Ok e /\
    (e = true <-> forall j, k <= j < o_rows a * o_cols a -> f (j / o_cols a) (j mod o_cols a) = g (j / o_cols a) (j mod o_cols a)).
Proof.
  intros ER EC A B Va Vb. assert (SZ : o_rows b * o_cols b = o_rows a * o_cols a) by (now rewrite ER, EC).
  induction n as [|n IH]; intros k N H; cbn [equal_loop]; rewrite p_same_at by lia.
  - replace (k =? o_rows a * o_cols a) with true by lia. exists true. split; [reflexivity|]. split; [intros _ j J; lia|auto].
  - replace (k =? o_rows a * o_cols a) with false by lia. rewrite !p_read_at by lia.
    destruct (ordinal_within (o_rows a) (o_cols a) k ltac:(lia) B) as (P & Q & E).
    rewrite (Va _ _ (Logic.conj P Q)). cbn [bind]. rewrite <- EC, (Vb (k / o_cols a) (k mod o_cols a)) by (rewrite <- ER, <- EC; split; assumption). cbn [bind].
    destruct (keqb _ _) eqn:Eq.
    + rewrite !p_next_at by lia. cbn [bind]. destruct (IH (k + 1)) as (e & Ee & He); [lia|lia|]. exists e. split; [exact Ee|]. apply keqb_true in Eq.
      rewrite He. split; intros X j J; [|apply X; lia]. destruct (Z.eq_dec j k) as [->|]; [exact Eq|apply X; lia].
    + exists false. split; [reflexivity|]. split; [discriminate|]. intros X. exfalso. rewrite (proj2 (keqb_true _ _) (X k ltac:(lia))) in Eq. discriminate.
Qed.
Lemma equal_generic_ok mem a b f g : o_rows a = o_rows b -> o_cols a = o_cols b -> 0 < o_rows a -> 0 < o_cols a -> shows mem a f -> shows mem b g ->
  exists e, equal_generic mem a b = Ok e /\ (e = true <-> forall r c, within (o_rows a) (o_cols a) r c -> f r c = g r c).
Proof.
  intros ER EC A B Va Vb. unfold equal_generic. rewrite o_begin_at, o_end_at by assumption. cbn [bind]. rewrite o_begin_at by lia. cbn [bind].
  destruct (equal_loop_ok mem a b f g ER EC A B Va Vb (Z.to_nat (o_rows a * o_cols a)) 0) as (e & E & H); [nia|lia|]. exists e. split; [exact E|]. rewrite H. split.
  - intros X r c (W1 & W2). destruct (ordinal _ _ r c W1 W2) as (O1 & O2 & O3). specialize (X _ O1). now rewrite O2, O3 in X.
  - intros X j J. destruct (ordinal_within _ _ j J B) as (P & Q & _). apply X. split; assumption.
Qed.
Lemma op_equal_ok sa sb ra ca rb cb (test : res bool) (P : Prop) : shape_ok sa ra ca -> shape_ok sb rb cb ->
  (ra = rb -> ca = cb -> exists e, test = Ok e /\ (e = true <-> P)) -> exists e, op_equal sa sb test = Ok e /\ (e = true <-> (ra = rb /\ ca = cb) /\ P).
Proof.
  intros Sa Sb H. pose proof (match_shapes sa sb _ _ _ _ Sa Sb) as M. unfold op_equal.
  destruct (static_match sa sb); cbn [andb] in M; [destruct (is_match sa sb)|].
  - destruct M as (M & _). destruct (M eq_refl) as (E1 & E2). destruct (H E1 E2) as (e & E & G). exists e. split; [exact E|]. tauto.
  - exists false. split; [reflexivity|]. split; [discriminate|]. intros (X & _). now apply M.
  - exists false. split; [reflexivity|]. split; [discriminate|]. intros (X & _). now apply M.
Qed.
Lemma equal_op_ok sa sb mem a b f g : shape_ok sa (o_rows a) (o_cols a) -> shape_ok sb (o_rows b) (o_cols b) -> 0 < o_rows a -> 0 < o_cols a -> shows mem a f -> shows mem b g ->
  exists e, equal_op sa sb mem a b = Ok e /\ (e = true <-> (o_rows a = o_rows b /\ o_cols a = o_cols b) /\ forall r c, within (o_rows a) (o_cols a) r c -> f r c = g r c).
Proof.
  intros Sa Sb A B Va Vb. unfold equal_op. apply (op_equal_ok sa sb (o_rows a) (o_cols a) (o_rows b) (o_cols b)); [assumption|assumption|].
  intros ER EC. now apply equal_generic_ok.
Qed.

(** ** Diagonal matrices *)
Lemma d_peek_at mem (d : diag) i : 0 <= i < d_len d -> d_peek mem d i = Ok (mem (d_base d + i)).
Proof. intros H. unfold d_peek. now replace (_ && _) with true by lia. Qed.
Lemma diag_values mem (d : diag) f : diag_ok d -> diag_holds mem d f -> (forall i, 0 <= i < d_len d -> f i i = mem (d_base d + i)) /\
  (forall r c, within (d_rows d) (d_cols d) r c -> r <> c -> f r c = f0).
Proof.
  intros (O1 & O2 & O3) H. split.
  - intros i I. specialize (H i i). unfold d_get in H. rewrite Z.eqb_refl, d_peek_at in H by exact I. assert (W : within (d_rows d) (d_cols d) i i) by (split; lia). specialize (H W). now injection H.
  - intros r c W N. specialize (H r c W). unfold d_get in H. replace (r =? c) with false in H by lia. now injection H.
Qed.
Lemma diag_holds_of mem (d : diag) f : diag_ok d -> (forall i, 0 <= i < d_len d -> mem (d_base d + i) = f i i) ->
  (forall r c, within (d_rows d) (d_cols d) r c -> r <> c -> f r c = f0) -> diag_holds mem d f.
Proof.
  intros (O1 & O2 & O3) P Q r c W. unfold d_get. destruct (Z.eqb_spec r c) as [->|N].
  - destruct W as (W1 & W2). rewrite d_peek_at by lia. now rewrite P by lia.
  - now rewrite Q.
Qed.
Lemma along_ok (d : diag) (g : memory K -> Z -> res K) val mem0 : 
  (forall i mem, 0 <= i < d_len d -> (forall x, (forall j, 0 <= j < i -> x <> d_base d + j) -> mem x = mem0 x) -> g mem i = Ok (val i)) ->
  forall n i mem, Z.of_nat n = d_len d - i -> 0 <= i -> (forall x, (forall j, 0 <= j < i -> x <> d_base d + j) -> mem x = mem0 x) ->
  exists mem', along_diagonal g n i d mem = Ok mem' /\ (forall j, i <= j < d_len d -> mem' (d_base d + j) = val j) /\
    (forall x, (forall j, i <= j < d_len d -> x <> d_base d + j) -> mem' x = mem x).
Proof.
  intros G. induction n as [|n IH]; intros i mem N H W; cbn [along_diagonal].
  - exists mem. split; [reflexivity|]. split; [intros; lia|auto].
  - rewrite (G i mem) by (auto; lia). cbn [bind]. unfold d_poke at 1. replace ((0 <=? i) && (i <? d_len d)) with true by lia. cbn [bind].
    edestruct (IH (i + 1)) as (mem' & E & P & Q); [lia|lia| |].
    2: { exists mem'. split; [exact E|]. split.
      - intros j J. destruct (Z.eq_dec j i) as [->|Ne]; [|apply P; lia]. rewrite Q by (intros; lia). now rewrite Z.eqb_refl.
      - intros x X. rewrite Q by (intros j J; apply X; lia). replace (_ =? _) with false; [reflexivity|]. symmetry. apply Z.eqb_neq. apply X. lia. }
    intros x X. cbn beta. replace (x =? d_base d + i) with false; [|symmetry; apply Z.eqb_neq; apply X; lia]. apply W. intros j J. apply X. lia.
Qed.
Lemma diag_read (d a : diag) mem0 mem i : diag_clear_of a d -> d_len a = d_len d -> 0 <= i < d_len d -> (forall x, (forall j, 0 <= j < i -> x <> d_base d + j) -> mem x = mem0 x) ->
  d_peek mem a i = Ok (mem0 (d_base a + i)).
Proof.
  intros C L I W. rewrite d_peek_at by lia. f_equal. apply W. intros j J E. destruct C as [->|C]; [lia|]. apply (C (d_base a + i)); unfold diag_owns; lia.
Qed.
Lemma diag_fills (d : diag) (g : memory K -> Z -> res K) (f : Z -> Z -> K) mem : diag_ok d -> 
  (forall i mem', 0 <= i < d_len d -> (forall x, (forall j, 0 <= j < i -> x <> d_base d + j) -> mem' x = mem x) -> g mem' i = Ok (f i i)) ->
  (forall r c, within (d_rows d) (d_cols d) r c -> r <> c -> f r c = f0) -> diag_becomes d mem (along_diagonal g (Z.to_nat (d_len d)) 0 d mem) f.
Proof.
  intros O G Z. assert (0 <= d_len d) by (destruct O as (? & ? & ->); lia).
  destruct (along_ok d g (fun i => f i i) mem G (Z.to_nat (d_len d)) 0 mem) as (mem' & E & P & Q); [lia|lia|auto|].
  exists mem'. split; [exact E|]. split.
  - apply diag_holds_of; [exact O|intros i I; apply P; lia|exact Z].
  - intros x X. apply Q. intros j J ->. apply X. unfold diag_owns. lia.
Qed.
Lemma shape_len (a d : diag) : diag_ok a -> diag_ok d -> d_rows a = d_rows d -> d_cols a = d_cols d -> d_len a = d_len d.
Proof. intros (_ & _ & ->) (_ & _ & ->) -> ->. reflexivity. Qed.
Lemma diag_zip_ok op mem (d a b : diag) f g : op f0 f0 = f0 -> diag_ok d -> diag_ok a -> diag_ok b -> diag_clear_of a d -> diag_clear_of b d ->
  d_rows a = d_rows d -> d_cols a = d_cols d -> d_rows b = d_rows d -> d_cols b = d_cols d -> diag_holds mem a f -> diag_holds mem b g ->
  diag_becomes d mem (diag_zip op mem d a b) (fun r c => op (f r c) (g r c)).
Proof.
  intros Z Od Oa Ob Ca Cb R1 R2 R3 R4 Va Vb. unfold diag_zip.
  pose proof (shape_len a d Oa Od R1 R2) as L1. pose proof (shape_len b d Ob Od R3 R4) as L2. rewrite L1.
  destruct (diag_values mem a f Oa Va) as (P1 & Q1). destruct (diag_values mem b g Ob Vb) as (P2 & Q2).
  apply diag_fills; [exact Od| |].
  - intros i mem' I W. rewrite (diag_read d a mem mem' i) by (auto; lia). cbn [bind]. rewrite (diag_read d b mem mem' i) by (auto; lia). cbn [bind]. rewrite P1, P2 by lia. reflexivity.
  - intros r c W N. rewrite Q1, Q2; [exact Z|rewrite R3, R4; exact W|exact N|rewrite R1, R2; exact W|exact N].
Qed.
Lemma diag_scale_ok mem (d a : diag) k f : (k * f0)%F = f0 -> diag_ok d -> diag_ok a -> diag_clear_of a d -> d_rows a = d_rows d -> d_cols a = d_cols d -> diag_holds mem a f ->
  diag_becomes d mem (diag_scale mem d k a) (fun r c => (k * f r c)%F).
Proof.
  intros Z Od Oa Ca R1 R2 Va. unfold diag_scale. pose proof (shape_len a d Oa Od R1 R2) as L1. rewrite L1. destruct (diag_values mem a f Oa Va) as (P1 & Q1).
  apply diag_fills; [exact Od| |].
  - intros i mem' I W. rewrite (diag_read d a mem mem' i) by (auto; lia). cbn [bind]. rewrite P1 by lia. reflexivity.
  - intros r c W N. rewrite Q1; [exact Z|rewrite R1, R2; exact W|exact N].
Qed.
Lemma diag_copy_ok mem (d a : diag) f : diag_ok d -> diag_ok a -> diag_clear_of a d -> d_rows a = d_rows d -> d_cols a = d_cols d -> diag_holds mem a f ->
  diag_becomes d mem (diag_copy mem d a) f.
Proof.
  intros Od Oa Ca R1 R2 Va. unfold diag_copy. pose proof (shape_len a d Oa Od R1 R2) as L1. rewrite L1. destruct (diag_values mem a f Oa Va) as (P1 & Q1).
  apply diag_fills; [exact Od| |].
  - intros i mem' I W. rewrite (diag_read d a mem mem' i) by (auto; lia). now rewrite P1 by lia.
  - intros r c W N. apply Q1; [rewrite R1, R2; exact W|exact N].
Qed.
(** Into a dense matrix. *)
Lemma on_diagonal_ok d (g : memory K -> Z -> res K) (val : Z -> K) mem0 l : 0 < f_rows d -> 0 < f_cols d -> l <= f_rows d -> l <= f_cols d ->
  (forall i mem, 0 <= i < l -> only d mem0 mem -> g mem i = Ok (val i)) ->
  forall n i mem, Z.of_nat n = l - i -> 0 <= i -> only d mem0 mem ->
  exists mem', on_diagonal g n i d mem = Ok mem' /\ only d mem0 mem' /\
    (forall r c, within (f_rows d) (f_cols d) r c -> f_get mem' d r c = if (r =? c) && (i <=? r) && (r <? l) then Ok (val r) else f_get mem d r c).
Proof.
  intros A B L1 L2 G. induction n as [|n IH]; intros i mem N H W; cbn [on_diagonal].
  - exists mem. split; [reflexivity|]. split; [exact W|]. intros r c _. now replace ((r =? c) && (i <=? r) && (r <? l)) with false by lia.
  - rewrite (G i mem) by (auto; lia). cbn [bind]. assert (I : within (f_rows d) (f_cols d) i i) by (split; lia).
    destruct (set_get mem d i i (val i) I) as (m1 & E1 & V1 & U1 & O1). rewrite E1. cbn [bind].
    destruct (IH (i + 1) m1) as (mem' & E & O & V); [lia|lia|intros x X; rewrite O1 by exact X; now apply W|]. exists mem'. split; [exact E|]. split; [exact O|].
    intros r c R. rewrite V by exact R. destruct (Z.eq_dec r c) as [<-|Nr].
    + destruct (Z.eq_dec r i) as [->|Ni].
      * replace ((i =? i) && (i + 1 <=? i) && (i <? l)) with false by lia. replace ((i =? i) && (i <=? i) && (i <? l)) with true by lia. exact V1.
      * replace ((r =? r) && (i + 1 <=? r) && (r <? l)) with ((r =? r) && (i <=? r) && (r <? l)) by lia. rewrite U1 by (auto; congruence). reflexivity.
    + replace ((r =? c) && (i + 1 <=? r) && (r <? l)) with false by lia. replace ((r =? c) && (i <=? r) && (r <? l)) with false by lia. apply U1; [exact R|congruence].
Qed.
Lemma dense_fills d (g : memory K -> Z -> res K) (f : Z -> Z -> K) mem l : 0 < f_rows d -> 0 < f_cols d -> l = Z.min (f_rows d) (f_cols d) ->
  (forall i mem', 0 <= i < l -> only d mem mem' -> g mem' i = Ok (f i i)) -> (forall r c, within (f_rows d) (f_cols d) r c -> r <> c -> f r c = f0) ->
  becomes d mem (on_diagonal g (Z.to_nat l) 0 d (set_zero mem d)) f.
Proof.
  intros A B L G Z. destruct (zero_ok mem d) as (m0 & E0 & H0 & O0). injection E0 as <-.
  destruct (on_diagonal_ok d g (fun i => f i i) mem l A B ltac:(lia) ltac:(lia) G (Z.to_nat l) 0 (set_zero mem d)) as (mem' & E & O & V); [lia|lia|exact O0|].
  exists mem'. split; [exact E|]. split; [|exact O]. intros r c W. rewrite V by exact W. destruct (Z.eqb_spec r c) as [<-|N].
  - pose proof W as (W1 & W2). now replace (true && (0 <=? r) && (r <? l)) with true by lia.
  - cbn [andb]. rewrite H0 by exact W. now rewrite Z.
Qed.
Lemma diag_peek_only d (a : diag) mem mem' i : (forall x, diag_owns a x -> ~ owns d x) -> 0 <= i < d_len a -> only d mem mem' -> d_peek mem' a i = Ok (mem (d_base a + i)).
Proof. intros C I W. rewrite d_peek_at by exact I. f_equal. apply W. apply C. unfold diag_owns. lia. Qed.
Lemma diag_zip_dense_ok op mem d (a b : diag) f g : op f0 f0 = f0 -> diag_ok a -> diag_ok b -> (forall x, diag_owns a x -> ~ owns d x) -> (forall x, diag_owns b x -> ~ owns d x) ->
  0 < f_rows d -> 0 < f_cols d -> d_rows a = f_rows d -> d_cols a = f_cols d -> d_rows b = f_rows d -> d_cols b = f_cols d -> diag_holds mem a f -> diag_holds mem b g ->
  becomes d mem (diag_zip_dense op mem d a b) (fun r c => op (f r c) (g r c)).
Proof.
  intros Z Oa Ob Ca Cb A B R1 R2 R3 R4 Va Vb. unfold diag_zip_dense. rewrite R1, R2.
  destruct (diag_values mem a f Oa Va) as (P1 & Q1). destruct (diag_values mem b g Ob Vb) as (P2 & Q2).
  destruct Oa as (_ & _ & La). destruct Ob as (_ & _ & Lb).
  apply dense_fills; [assumption|assumption|reflexivity| |].
  - intros i mem' I W. rewrite (diag_peek_only d a mem mem') by (auto; lia). cbn [bind]. rewrite (diag_peek_only d b mem mem') by (auto; lia). cbn [bind]. rewrite P1, P2 by lia. reflexivity.
  - intros r c W N. rewrite Q1, Q2; [exact Z|rewrite R3, R4; exact W|exact N|rewrite R1, R2; exact W|exact N].
Qed.
Lemma diag_scale_dense_ok mem d k (a : diag) f : (k * f0)%F = f0 -> diag_ok a -> (forall x, diag_owns a x -> ~ owns d x) ->
  0 < f_rows d -> 0 < f_cols d -> d_rows a = f_rows d -> d_cols a = f_cols d -> diag_holds mem a f -> becomes d mem (diag_scale_dense mem d k a) (fun r c => (k * f r c)%F).
Proof.
  intros Z Oa Ca A B R1 R2 Va. unfold diag_scale_dense. rewrite R1, R2. destruct (diag_values mem a f Oa Va) as (P1 & Q1). destruct Oa as (_ & _ & La).
  apply dense_fills; [assumption|assumption|reflexivity| |].
  - intros i mem' I W. rewrite (diag_peek_only d a mem mem') by (auto; lia). cbn [bind]. rewrite P1 by lia. reflexivity.
  - intros r c W N. rewrite Q1; [exact Z|rewrite R1, R2; exact W|exact N].
Qed.
Lemma equal_diagonal_ok mem (a b : diag) : d_len a = d_len b -> forall n i, Z.of_nat n = d_len a - i -> 0 <= i ->
  exists e, equal_diagonal n mem a b i = Ok e /\ (e = true <-> forall j, i <= j < d_len a -> mem (d_base a + j) = mem (d_base b + j)).
Proof.
  intros L. induction n as [|n IH]; intros i N H; cbn [equal_diagonal].
  - exists true. split; [reflexivity|]. split; [intros; lia|auto].
  - rewrite !d_peek_at by lia. cbn [bind]. destruct (keqb _ _) eqn:Eq.
    + destruct (IH (i + 1)) as (e & E & G); [lia|lia|]. exists e. split; [exact E|]. apply keqb_true in Eq. rewrite G. split; intros X j J; [|apply X; lia].
      destruct (Z.eq_dec j i) as [->|]; [exact Eq|apply X; lia].
    + exists false. split; [reflexivity|]. split; [discriminate|]. intros X. exfalso. rewrite (proj2 (keqb_true _ _) (X i ltac:(lia))) in Eq. discriminate.
Qed.
Lemma diag_equal_ok sa sb mem (a b : diag) f g : diag_ok a -> diag_ok b -> shape_ok sa (d_rows a) (d_cols a) -> shape_ok sb (d_rows b) (d_cols b) -> diag_holds mem a f -> diag_holds mem b g ->
  exists e, diag_equal_op sa sb mem a b = Ok e /\ (e = true <-> (d_rows a = d_rows b /\ d_cols a = d_cols b) /\ forall r c, within (d_rows a) (d_cols a) r c -> f r c = g r c).
Proof.
  intros Oa Ob Sa Sb Va Vb. unfold diag_equal_op. apply (op_equal_ok sa sb (d_rows a) (d_cols a) (d_rows b) (d_cols b)); [assumption|assumption|].
  intros ER EC. pose proof (shape_len a b Oa Ob ER EC) as L. destruct (diag_values mem a f Oa Va) as (P1 & Q1). destruct (diag_values mem b g Ob Vb) as (P2 & Q2).
  assert (0 <= d_len a) by (destruct Oa as (? & ? & ->); lia).
  destruct (equal_diagonal_ok mem a b L (Z.to_nat (d_len a)) 0) as (e & E & G); [lia|lia|]. exists e. split; [exact E|]. rewrite G. split.
  - intros X r c W. destruct (Z.eq_dec r c) as [<-|N].
    + pose proof W as (W1 & W2). destruct Oa as (_ & _ & La). rewrite P1, P2 by lia. apply X. lia.
    + rewrite Q1 by assumption. rewrite Q2; [reflexivity|rewrite <- ER, <- EC; exact W|exact N].
  - intros X j J. destruct Oa as (_ & _ & La). rewrite <- P1, <- P2 by lia. apply X. split; lia.
Qed.
Lemma new_diag_ok fixed base nrows ncols mem : 0 <= nrows -> 0 <= ncols -> (fixed = None \/ fixed = Some (nrows, ncols)) ->
  let d := fst (new_diag fixed base nrows ncols mem) in diag_ok d /\ d_rows d = nrows /\ d_cols d = ncols /\ diag_becomes d mem (snd (new_diag fixed base nrows ncols mem)) identity.
Proof.
  intros A B F. assert (E : given_shape fixed nrows ncols = (nrows, ncols)) by (destruct F as [->| ->]; reflexivity).
  unfold new_diag. rewrite E. cbn [fst snd d_rows d_cols d_len]. assert (O : diag_ok (mkDiag base (if nrows <? ncols then nrows else ncols) nrows ncols)).
  { split; [exact A|]. split; [exact B|]. cbn. destruct (Z.ltb_spec nrows ncols); lia. }
  split; [exact O|]. split; [reflexivity|]. split; [reflexivity|]. rewrite Z.leb_refl.
  eexists. split; [reflexivity|]. split.
  - apply diag_holds_of; [exact O| |].
    + cbn [d_base d_len]. intros i I. unfold diag_fill. cbn [d_base d_len]. replace (_ && _) with true by lia. unfold identity. now rewrite Z.eqb_refl.
    + intros r c _ N. unfold identity. now replace (r =? c) with false by lia.
  - intros x X. unfold diag_fill. unfold diag_owns in X. now replace (_ && _) with false by lia.
Qed.
Lemma new_diag_overflow R C base nrows ncols mem : 0 <= R -> 0 <= C -> Z.min R C < Z.min nrows ncols -> snd (new_diag (Some (R, C)) base nrows ncols mem) = Fault OutOfBounds.
Proof. intros A B H. unfold new_diag. cbn [given_shape fst snd d_len]. replace (_ <=? _) with false; [reflexivity|]. destruct (Z.ltb_spec nrows ncols), (Z.ltb_spec R C); lia. Qed.

(** ** Arrays *)
Lemma from_array mem m (src : Z -> K) : holds (construct_array mem m src) m (fun r c => src (ix (f_layout m) r c (f_rows m) (f_cols m))) /\ only m mem (construct_array mem m src).
Proof.
  split.
  - intros r c W. rewrite get_ix by exact W. pose proof (owns_ix m r c W). unfold construct_array. replace (_ && _) with true by lia. do 2 f_equal. lia.
  - intros x N. unfold construct_array. unfold owns in N. now replace (_ && _) with false by lia.
Qed.
Lemma from_array_wrong base R C mem : 2 <= R -> 2 <= C ->
  exists src : Z -> K, ~ holds (construct_array mem (mkFlat base R C ColMajor) src) (mkFlat base R C ColMajor) (fun r c => src (r * C + c)).
Proof.
  intros A B. exists (fun i => if i =? 1 then f1 else f0). intros H. destruct (from_array mem (mkFlat base R C ColMajor) (fun i => if i =? 1 then f1 else f0)) as (G & _).
  specialize (H 0 1). specialize (G 0 1). cbn [f_rows f_cols f_layout ix] in *. assert (W : within R C 0 1) by (split; lia). rewrite G in H by exact W. specialize (H W).
  assert (H' : (if 1 * R + 0 =? 1 then f1 else f0 : K) = (if 0 * C + 1 =? 1 then f1 else f0)) by congruence. clear H. rename H' into H. assert (N : (1 * R + 0 =? 1) = false) by lia. rewrite N in H. assert (M : (0 * C + 1 =? 1) = true) by lia. rewrite M in H. exact (one_zero (eq_sym H)).
Qed.
End Mem.

(** ** Permutation matrices *)
Lemma perm_equal_ok (K : field) same n p q : wf_perm n p -> wf_perm n q -> (same = true -> forall i, (i < n)%nat -> src p i = src q i) ->
  (perm_equal same n p q = true <-> forall r c, (r < n)%nat -> (c < n)%nat -> (perm_mtx p r c : K) = perm_mtx q r c).
Proof.
  intros Wp Wq S. assert (E : perm_equal same n p q = true <-> forall i, (i < n)%nat -> src p i = src q i).
  { unfold perm_equal. destruct same; [split; auto|]. rewrite forallb_forall. split.
    - intros H i I. apply Nat.eqb_eq. apply H. apply in_seq. lia.
    - intros H i I. apply in_seq in I. apply Nat.eqb_eq. apply H. lia. }
  rewrite E. unfold perm_mtx. split.
  - intros H r c R C. now rewrite H.
  - intros H i I. assert (B : (src p i < n)%nat) by (apply Wp; exact I). specialize (H i (src p i) I B). rewrite Nat.eqb_refl in H.
    destruct (Nat.eqb_spec (src q i) (src p i)) as [X|X]; [congruence|]. exfalso. exact (one_zero H).
Qed.
Section Last.
Context {K : field}.
Implicit Types (mem : memory K) (m d : flat) (s a b : operand K).
Lemma zero_add : fadd (f0 : K) f0 = f0. Proof. exact (Radd_0_l (F_R (fth K)) f0). Qed.
Add Field kf : (fth K).
Lemma zero_sub : fsub (f0 : K) f0 = f0. Proof. ring. Qed.
Lemma times_zero (k : K) : fmul k f0 = f0. Proof. ring. Qed.
Lemma of_diag_shows mem (d : diag) f : shows mem (of_diag d) f <-> diag_holds mem d f. Proof. unfold shows, diag_holds, of_diag. cbn [o_rows o_cols o_get]. tauto. Qed.
Lemma of_diag_clear (a : diag) d : (forall x, diag_owns a x -> ~ owns d x) -> clear_of (of_diag a : operand K) d.
Proof.
  intros H. right. intros mem mem' O r c W. cbn [of_diag o_get]. unfold d_get. destruct (r =? c); [|reflexivity]. unfold d_peek. destruct ((0 <=? r) && (r <? d_len a)) eqn:E; [|reflexivity].
  f_equal. apply O. apply H. unfold diag_owns. lia.
Qed.
Lemma flat_clear m d : 0 < f_rows m -> 0 < f_cols m -> (m = d \/ forall x, owns m x -> ~ owns d x) -> clear_of (Flat m : operand K) d.
Proof.
  intros A B [->|H]; [now left|]. right. intros mem mem' O r c W. cbn [o_get o_rows o_cols] in *. rewrite !get_ix by exact W. f_equal. apply O. apply H. pose proof (owns_ix m r c W). unfold owns. lia.
Qed.
Lemma construct_ok fixed base L mem s f : let d := fst (construct fixed base L mem s) in
  (fixed = None \/ fixed = Some (o_rows s, o_cols s)) -> 0 < o_rows s -> 0 < o_cols s -> clear_of s d -> shows mem s f ->
  same_shape s d /\ f_layout d = L /\ becomes d mem (snd (construct fixed base L mem s)) f.
Proof.
  intros d F A B C V. assert (E : given_shape fixed (o_rows s) (o_cols s) = (o_rows s, o_cols s)) by (destruct F as [->| ->]; reflexivity).
  subst d. unfold construct in *. cbn [fst snd] in *. rewrite E in *. cbn [fst snd] in *. split; [split; reflexivity|]. split; [reflexivity|].
  apply copy_generic_ok; [exact C|split; reflexivity|exact V|exact A|exact B].
Qed.
Lemma own_transpose_copy (a b c d : K) : 
  let m := mkFlat 0 2 2 RowMajor in let mem := (fun z : Z => if z =? 0 then a else if z =? 1 then b else if z =? 2 then c else d) in
  exists mem', mtx_copy mem m (Flat (as_transpose m)) = Ok mem' /\ f_get mem' m 0 1 = Ok c /\ f_get mem' m 1 0 = Ok c.
Proof. cbv zeta. eexists. split; [reflexivity|]. split; reflexivity. Qed.
End Last.
