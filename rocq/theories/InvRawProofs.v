From Coq Require Import Arith Lia List Bool Field Ring.
From Verif Require Import Fld FldLemmas LinSpec PermModel PermSpec PermProofs PermCycleProofs PermSignProofs PluModel PluProofs SolveProofs DetProofs DetInvModel DetInvProofs.
Import ListNotations.
Open Scope nat_scope.

Lemma cell_inj n r c r' c' : c < n -> c' < n -> n * r + c = n * r' + c' -> r = r' /\ c = c'.
Proof. intros H H' E. assert (r = r') by nia. subst. split; [reflexivity|lia]. Qed.
Lemma cell_div n r c : c < n -> (n * r + c) / n = r /\ (n * r + c) mod n = c.
Proof.
  intros H. assert (n <> 0) by lia. split.
  - rewrite Nat.mul_comm, Nat.div_add_l, Nat.div_small by lia. lia.
  - rewrite Nat.add_comm, Nat.mul_comm, Nat.mod_add by lia. now apply Nat.mod_small.
Qed.

Section P.
Variable K : field.
Add Field KF : (fth K).
Local Open Scope fld_scope.
Implicit Types M A B : mtx K.
Implicit Types b m out d : nat -> K.

(** ** In-place transposition *)
Lemma swap_at_cell n b i j r c : (i < n)%nat -> (j < n)%nat -> (r < n)%nat -> (c < n)%nat ->
  swap_at b (n * i + j)%nat (n * j + i)%nat (n * r + c)%nat =
  if (((r =? i) && (c =? j)) || ((r =? j) && (c =? i)))%nat then b (n * c + r)%nat else b (n * r + c)%nat.
Proof.
  intros Hi Hj Hr Hc. unfold swap_at. 
  destruct (Nat.eqb_spec (n * r + c) (n * i + j)) as [E|E].
  - destruct (cell_inj n r c i j Hc Hj E) as [-> ->]. now rewrite !Nat.eqb_refl.
  - destruct (Nat.eqb_spec (n * r + c) (n * j + i)) as [E'|E'].
    + destruct (cell_inj n r c j i Hc Hi E') as [-> ->]. rewrite !Nat.eqb_refl. now rewrite orb_true_r.
    + destruct (Nat.eqb_spec r i), (Nat.eqb_spec c j), (Nat.eqb_spec r j), (Nat.eqb_spec c i); subst; try contradiction; try reflexivity; try (exfalso; congruence).
Qed.
Lemma transpose_inner n b i k : (i + k < n)%nat -> forall r c, (r < n)%nat -> (c < n)%nat ->
  fold_left (fun b j => swap_at b (n * i + j)%nat (n * j + i)%nat) (seq (S i) k) b (n * r + c)%nat =
  if (((r =? i) && (i <? c) && (c <=? i + k)) || ((c =? i) && (i <? r) && (r <=? i + k)))%nat then b (n * c + r)%nat else b (n * r + c)%nat.
Proof.
  induction k as [|k IH]; intros Hk r c Hr Hc.
  - cbn [seq fold_left]. destruct (Nat.eqb_spec r i), (Nat.ltb_spec i c), (Nat.leb_spec c (i + 0)), (Nat.eqb_spec c i), (Nat.ltb_spec i r), (Nat.leb_spec r (i + 0)); try lia; reflexivity.
  - rewrite seq_S, fold_left_app. cbn [fold_left]. replace (S i + k)%nat with (i + S k)%nat by lia.
    rewrite swap_at_cell by lia. rewrite !IH by lia.
    assert (A : forall x, ((i <? x) && (x <=? i + S k) = ((x =? i + S k) || ((i <? x) && (x <=? i + k))))%nat).
    { intros x. destruct (Nat.ltb_spec i x), (Nat.leb_spec x (i + S k)), (Nat.leb_spec x (i + k)), (Nat.eqb_spec x (i + S k)); try reflexivity; lia. }
    rewrite <- !andb_assoc, !A. destruct (Nat.eqb_spec r i) as [Er|Er], (Nat.eqb_spec c i) as [Ec|Ec], (Nat.eqb_spec c (i + S k)), (Nat.eqb_spec r (i + S k));
    try lia; cbn [andb orb]; rewrite ?orb_false_r, ?andb_false_r; try reflexivity;
    subst; rewrite ?Nat.ltb_irrefl; cbn [andb]; try reflexivity;
    repeat match goal with |- context [(?x <=? ?y)%nat] => destruct (Nat.leb_spec x y); try lia end; rewrite ?andb_false_r; reflexivity.
Qed.
Lemma transpose_outer n b i : (i <= n)%nat -> forall r c, (r < n)%nat -> (c < n)%nat ->
  fold_left (fun b i => fold_left (fun b j => swap_at b (n * i + j)%nat (n * j + i)%nat) (seq (S i) (n - S i)) b) (seq 0 i) b (n * r + c)%nat =
  if (Nat.min r c <? i)%nat then b (n * c + r)%nat else b (n * r + c)%nat.
Proof.
  induction i as [|i IH]; intros Hi r c Hr Hc; [reflexivity|].
  rewrite seq_S, fold_left_app. cbn [fold_left Nat.add]. rewrite transpose_inner by lia. rewrite !IH by lia. rewrite (Nat.min_comm c r).
  destruct (Nat.eqb_spec r i), (Nat.ltb_spec i c), (Nat.leb_spec c (i + (n - S i))), (Nat.eqb_spec c i), (Nat.ltb_spec i r), (Nat.leb_spec r (i + (n - S i))),
    (Nat.ltb_spec (Nat.min r c) i), (Nat.ltb_spec (Nat.min r c) (S i)); cbn [andb orb]; try lia; try reflexivity.
  all: assert (r = c) by lia; subst; reflexivity.
Qed.
Lemma transpose_square_ok n b r c : (r < n)%nat -> (c < n)%nat -> transpose_square n b (n * r + c)%nat = b (n * c + r)%nat.
Proof.
  intros Hr Hc. unfold transpose_square. rewrite transpose_outer by auto. destruct (Nat.ltb_spec (Nat.min r c) n); [reflexivity|lia].
Qed.

(** ** Layouts *)
Lemma inverse_ext n A A' B B' : (forall r c, (r < n)%nat -> (c < n)%nat -> A r c = A' r c) -> (forall r c, (r < n)%nat -> (c < n)%nat -> B r c = B' r c) ->
  inverse_of n A B -> inverse_of n A' B'.
Proof.
  intros EA EB I r c Hr Hc. destruct (I r c Hr Hc) as [H1 H2]. rewrite <- H1 at 1. rewrite <- H2. unfold mmul.
  split; apply sum_ext; intros k Hk; now rewrite EA, EB.
Qed.
Lemma singular_ext n A A' : (forall r c, (r < n)%nat -> (c < n)%nat -> A r c = A' r c) -> singular n A -> singular n A'.
Proof.
  intros E (v & V & Z). exists v. split; [exact V|]. intros r Hr. rewrite <- (Z r Hr). apply sum_ext. intros. now rewrite E.
Qed.
Lemma inverse_transpose n A B : inverse_of n A B -> inverse_of n (fun r c => A c r) (fun r c => B c r).
Proof.
  intros I r c Hr Hc. destruct (I c r Hc Hr) as [H1 H2].
  assert (D : (delta c r : K) = delta r c) by (unfold delta; now rewrite Nat.eqb_sym). rewrite D in *. split.
  - rewrite <- H2. unfold mmul. apply sum_ext. intros. ring.
  - rewrite <- H1. unfold mmul. apply sum_ext. intros. ring.
Qed.
(** A nonsingular matrix has an inverse, whence transposition preserves (non)singularity. *)
Lemma has_inverse n A : ~ singular n A -> exists B, inverse_of n A B.
Proof.
  intros N. destruct (linear_solve_ok K (crude K) A n n (fun r c => delta r c) (crude_sane K) N) as (B & _ & H).
  exists B. apply right_is_left; auto.
Qed.
Lemma singular_dec n A : singular n A \/ ~ singular n A.
Proof. destruct (feq_dec (det n A) 0) as [E|E]; [left; now apply det_iff|right; now apply det_nonsingular]. Qed.
Lemma singular_transpose n A : singular n A -> singular n (fun r c => A c r).
Proof.
  intros S. destruct (singular_dec n (fun r c => A c r)) as [T|T]; [exact T|]. exfalso.
  destruct (has_inverse n _ T) as (B & I). apply inverse_transpose in I. exact (inverse_nonsingular K n _ _ I S).
Qed.
Lemma stored_inverse n l b b' : inverse_of n (stored true n b) (stored true n b') -> inverse_of n (stored l n b) (stored l n b').
Proof. intros I. destruct l; [exact I|]. apply inverse_transpose in I. exact I. Qed.
Lemma stored_singular n l b : singular n (stored true n b) -> singular n (stored l n b).
Proof. intros I. destruct l; [exact I|]. apply singular_transpose in I. exact I. Qed.
Lemma inverts_layout n l out m r : inverts K n true true out m r -> inverts K n l l out m r.
Proof.
  intros [[E I]|(E & S & U)]; [left|right]; repeat split; auto.
  - apply (stored_inverse n l m (snd r) I); auto.
  - apply (stored_inverse n l m (snd r) I); auto.
  - now apply stored_singular.
Qed.
(** Transposing the output buffer switches its layout. *)
Lemma inverts_flip n l out m o o' : (forall r c, (r < n)%nat -> (c < n)%nat -> o' (n * r + c)%nat = o (n * c + r)%nat) ->
  inverts K n l l out m (true, o) -> inverts K n (negb l) l out m (true, o').
Proof.
  intros H [[_ I]|(E & _)]; [|discriminate]. left. split; [reflexivity|]. cbn [snd] in *.
  apply (inverse_ext n _ (stored l n m) _ (stored (negb l) n o')) in I; [exact I|reflexivity|].
  intros r c Hr Hc. destruct l; cbn [negb stored]; now rewrite H.
Qed.

(** ** invNxN *)
Lemma write_perm_ok n p r c : (r < n)%nat -> write_perm n p r c = (delta (p r) c : K).
Proof.
  intros Hr. unfold write_perm.
  assert (G : forall k, fold_left (fun (o : mtx K) i => upd2 o i (p i) 1) (seq 0 k) (fun _ _ => 0) r c = if (r <? k)%nat then delta (p r) c else 0).
  { induction k as [|k IH]; [reflexivity|]. rewrite seq_S, fold_left_app. cbn [fold_left Nat.add]. unfold upd2 at 1. rewrite IH. unfold delta. rewrite (Nat.eqb_sym c).
    destruct (Nat.eqb_spec r k) as [->|N]; cbn [andb].
    - destruct (Nat.ltb_spec k k), (Nat.ltb_spec k (S k)); try lia. destruct (p k =? c)%nat; reflexivity.
    - destruct (Nat.ltb_spec r k), (Nat.ltb_spec r (S k)); try lia; reflexivity. }
  rewrite G. destruct (Nat.ltb_spec r n); [reflexivity|lia].
Qed.
Section NxN.
Variable bigger : K -> K -> bool.
Hypothesis O : sane_order bigger.
Lemma invNxN_cases out m n :
  (fst (invNxN bigger out m n) = false /\ singular n (stored true n m) /\ forall k, snd (invNxN bigger out m n) k = out k) \/
  (fst (invNxN bigger out m n) = true /\ (~ singular n (stored true n m) -> inverse_of n (stored true n m) (stored true n (snd (invNxN bigger out m n))))).
Proof.
  unfold invNxN. cbn zeta. destruct (Nat.ltb_spec 0 (pd (plu_buffer bigger m n))) as [L|L]; [left|right]; cbn [fst snd]; (split; [reflexivity|]).
  - split; [|reflexivity]. apply (decomp_degenerate_singular K bigger (stored true n m) n O). change (pd (plu_buffer bigger m n) <> 0%nat). lia.
  - intros NS. destruct (decomp_nonsingular K bigger _ n O NS) as [_ D]. destruct (decomp_plu_ok K bigger (stored true n m) n n O (le_n _)) as (LU & k & S & _).
    unfold plu_buffer. change (fun r c => m (n * r + c)%nat) with (stored true n m).
    set (d := decomp_plu bigger (stored true n m) n n) in *. pose proof (by_swaps_perm _ _ _ S) as P. set (X := backsolve_lu _ _ _ _ _).
    apply right_is_left; [exact NS|]. intros r c Hr Hc. destruct (perm_onto n _ P r Hr) as (x & Hx & <-).
    pose proof (backsolve_lu_ok K (pm d) n n (write_perm n (pr d)) D x c Hx Hc) as Q. fold X in Q. rewrite write_perm_ok in Q by auto. rewrite <- Q.
    unfold mmul at 1 2. apply sum_ext. intros j Hj. rewrite LU by auto. f_equal. unfold stored. 
    assert (B : (n * j + c < n * n)%nat) by nia. destruct (Nat.ltb_spec (n * j + c) (n * n)); [|lia]. unfold flat. destruct (cell_div n j c Hc) as [-> ->]. reflexivity.
Qed.
Lemma invNxN_flag out m n : fst (invNxN bigger out m n) = (pd (plu_buffer bigger m n) =? 0)%nat.
Proof. unfold invNxN. cbn zeta. destruct (pd _); reflexivity. Qed.
(** ** Any size and any pair of layouts *)
Lemma relayout_ok lo lm n m r c : (r < n)%nat -> (c < n)%nat -> stored lo n (relayout lo lm n m) r c = stored lm n m r c.
Proof.
  intros Hr Hc. unfold relayout, stored. destruct lo, lm; cbn [Bool.eqb]; try reflexivity.
  - destruct (cell_div n r c Hc) as [-> ->]. reflexivity.
  - destruct (cell_div n c r Hr) as [-> ->]. reflexivity.
Qed.
Lemma fixed_ok lo lm n out m rr : (n = 2 \/ n = 3 \/ n = 4)%nat -> inverts K n true true out m rr ->
  inverts K n lo lm out m (match rr with
    | (true, o) => (true, if Bool.eqb lo lm then o else if (n =? 2)%nat then swap_at o 1 2 else transpose_square n o)
    | (false, o) => (false, o) end).
Proof.
  intros Hn I. apply (inverts_layout n lm) in I. destruct rr as [[|] o].
  - destruct (Bool.eqb lo lm) eqn:E.
    + apply eqb_prop in E. now subst.
    + assert (lo = negb lm) as -> by (destruct lo, lm; try discriminate; reflexivity). revert I. apply inverts_flip. intros r c Hr Hc.
      destruct (Nat.eqb_spec n 2) as [->|N]; [|now apply transpose_square_ok].
      destruct r as [|[|]]; try lia; destruct c as [|[|]]; try lia; reflexivity.
  - destruct I as [[E _]|(_ & S & U)]; [discriminate|]. right. auto.
Qed.
Lemma inv_raw_small lo lm n out m : (n = 2 \/ n = 3 \/ n = 4)%nat -> inverts K n lo lm out m (inv_raw bigger lo lm n out m).
Proof.
  intros Hn. unfold inv_raw. destruct Hn as [->|[->| ->]]; cbn [Nat.eqb].
  - exact (fixed_ok lo lm 2 out m _ (or_introl eq_refl) (inv2x2_ok K out m)).
  - exact (fixed_ok lo lm 3 out m _ (or_intror (or_introl eq_refl)) (inv3x3_ok K out m)).
  - exact (fixed_ok lo lm 4 out m _ (or_intror (or_intror eq_refl)) (inv4x4_ok K out m)).
Qed.
Lemma inv_raw_ok lo lm n out m :
  (fst (inv_raw bigger lo lm n out m) = false -> singular n (stored lm n m) /\ forall k, snd (inv_raw bigger lo lm n out m) k = out k) /\
  (~ singular n (stored lm n m) -> fst (inv_raw bigger lo lm n out m) = true /\ inverse_of n (stored lm n m) (stored lo n (snd (inv_raw bigger lo lm n out m)))).
Proof.
  assert (C : (n = 2 \/ n = 3 \/ n = 4)%nat \/ (n <> 2 /\ n <> 3 /\ n <> 4)%nat) by lia. destruct C as [C|(N2 & N3 & N4)].
  - destruct (inv_raw_small lo lm n out m C) as [[E I]|(E & S & U)]; rewrite E; split; auto; try discriminate. contradiction.
  - unfold inv_raw. destruct (Nat.eqb_spec n 2), (Nat.eqb_spec n 3), (Nat.eqb_spec n 4); try contradiction.
    set (m' := relayout lo lm n m).
    assert (T : forall r c, (r < n)%nat -> (c < n)%nat -> stored lo n m' r c = stored lm n m r c) by (intros; now apply relayout_ok).
    destruct (invNxN_cases out m' n) as [(E & S & U)|(E & I)]; rewrite E.
    + assert (S' : singular n (stored lm n m)) by (apply (singular_ext n (stored lo n m')); [exact T|]; now apply stored_singular).
      split; [auto|]. intros NS. contradiction.
    + split; [discriminate|]. intros NS. split; [reflexivity|]. apply (inverse_ext n (stored lo n m') _ (stored lo n (snd (invNxN bigger out m' n))) _ T); [reflexivity|].
      apply stored_inverse. apply I. intros S. apply NS. apply (singular_ext n (stored lo n m')); [exact T|]. now apply stored_singular.
Qed.
(** ** Degenerate last pivot *)
Lemma stored_diag d l n r c : (r < n)%nat -> (c < n)%nat -> stored l n (fun k => diag d (k / n)%nat (k mod n)%nat) r c = diag d r c.
Proof.
  intros Hr Hc. unfold stored. destruct l; [destruct (cell_div n r c Hc) as [-> ->]|destruct (cell_div n c r Hr) as [-> ->]; unfold diag; rewrite Nat.eqb_sym;
    destruct (Nat.eqb_spec r c) as [->|]]; reflexivity.
Qed.
(** The buffer holding a diagonal matrix. *)
Definition diag_buffer (d : nat -> K) (n : nat) : nat -> K := fun k => diag d (k / n)%nat (k mod n)%nat.
Lemma diag_buffer_plu d n : (forall k, (k < n - 1)%nat -> d k <> 0) -> let s := plu_buffer bigger (diag_buffer d n) n in
  pd s = 0%nat /\ pp s = false /\ (forall k, pr s k = k) /\ forall r c, (r < n)%nat -> (c < n)%nat -> pm s r c = diag d r c.
Proof.
  intros Nz. apply (diag_decomp K bigger n _ d O); [|exact Nz]. intros r c Hr Hc. exact (stored_diag d true n r c Hr Hc).
Qed.
Lemma stored_diag_singular d l n : (0 < n)%nat -> d (n - 1)%nat = 0 -> singular n (stored l n (diag_buffer d n)).
Proof.
  intros Hn Z. apply (singular_ext n (diag d)); [intros; symmetry; now apply stored_diag|]. apply (diag_singular K n d (n - 1)); [lia|exact Z].
Qed.
Lemma relayout_diag lo lm d n k : (k < n * n)%nat -> relayout lo lm n (diag_buffer d n) k = diag_buffer d n k.
Proof.
  intros H. unfold relayout. destruct (Bool.eqb lo lm); [reflexivity|]. unfold diag_buffer. assert (Hn : (n <> 0)%nat) by (intros ->; cbn in H; lia).
  assert (Hd : (k / n < n)%nat) by (apply Nat.div_lt_upper_bound; lia). pose proof (Nat.mod_upper_bound k n Hn) as Hm.
  destruct (cell_div n (k mod n) (k / n) Hd) as [-> ->]. unfold diag. rewrite Nat.eqb_sym. destruct (Nat.eqb_spec (k / n) (k mod n)) as [E|]; [now rewrite E|reflexivity].
Qed.
Lemma invNxN_accepts_singular d n out : (forall k, (k < n - 1)%nat -> d k <> 0) -> fst (invNxN bigger out (diag_buffer d n) n) = true.
Proof. intros Nz. rewrite invNxN_flag. destruct (diag_buffer_plu d n Nz) as [-> _]. reflexivity. Qed.
Lemma inv_raw_accepts_singular lo lm d n out : (n = 1 \/ 5 <= n)%nat -> (forall k, (k < n - 1)%nat -> d k <> 0) -> fst (inv_raw bigger lo lm n out (diag_buffer d n)) = true.
Proof.
  intros Hn Nz. unfold inv_raw. destruct (Nat.eqb_spec n 2), (Nat.eqb_spec n 3), (Nat.eqb_spec n 4); try lia.
  rewrite invNxN_flag. unfold plu_buffer.
  destruct (diag_decomp K bigger n (fun r c => relayout lo lm n (diag_buffer d n) (n * r + c)%nat) d O) as [-> _]; [|exact Nz|reflexivity].
  intros r c Hr Hc. rewrite relayout_diag by nia. exact (stored_diag d true n r c Hr Hc).
Qed.
(** ** Determinants by decomposition *)
Lemma fold_prod (f : nat -> K) n x : fold_left (fun (y : K) i => y * f i) (seq 0 n) x = x * prod n f.
Proof.
  induction n as [|n IH]; cbn [prod]; [cbn; ring|]. rewrite seq_S, fold_left_app. cbn [fold_left Nat.add]. rewrite IH. ring.
Qed.
Lemma detNxN_eq m n : detNxN bigger m n = if (0 <? pd (plu_buffer bigger m n))%nat then 0 else
  signed K (pp (plu_buffer bigger m n)) (prod n (fun i => flat (pm (plu_buffer bigger m n)) n (i * i)%nat)).
Proof. unfold detNxN. cbn zeta. destruct (0 <? _)%nat; [reflexivity|]. rewrite fold_prod. unfold signed. destruct (pp _); ring. Qed.
Lemma detNxN_one m : detNxN bigger m 1 = det 1 (stored true 1 m).
Proof. cbn. unfold flat. cbn. ring. Qed.
Lemma detNxN_diag d n : (2 <= n)%nat -> (forall k, (k < n)%nat -> d k <> 0) ->
  detNxN bigger (diag_buffer d n) n = 0 /\ det n (stored true n (diag_buffer d n)) <> 0.
Proof.
  intros Hn Nz. split.
  - rewrite detNxN_eq. destruct (diag_buffer_plu d n ltac:(intros; apply Nz; lia)) as (E & _ & _ & P). rewrite E. cbn [Nat.ltb Nat.leb].
    rewrite (prod_zero K n (fun i => flat (pm (plu_buffer bigger (diag_buffer d n) n)) n (i * i)%nat) 1).
    + destruct (pp _); cbn; ring.
    + lia.
    + cbn [Nat.mul Nat.add]. unfold flat. rewrite Nat.div_small, Nat.mod_small by lia. rewrite P by lia. reflexivity.
  - rewrite (det_ext K n _ (diag d)) by (intros; now apply stored_diag). rewrite det_upper.
    + apply prod_nonzero. intros i Hi. unfold diag. rewrite Nat.eqb_refl. auto.
    + intros r c Hr Hc. unfold diag. destruct (Nat.eqb_spec r c); [lia|reflexivity].
Qed.
Lemma det_destructive_eq m n : det_destructive bigger m n = detNxN bigger m n.
Proof.
  unfold det_destructive. destruct (Nat.eqb_spec n 1) as [->|]; [|reflexivity]. rewrite detNxN_one. cbn. ring.
Qed.
Lemma det_diag_ok d n : det_diag d n n = det n (diag d).
Proof.
  unfold det_diag. rewrite Nat.eqb_refl, fold_prod, det_upper.
  - rewrite (prod_ext K n (fun i => diag d i i) d) by (intros; unfold diag; now rewrite Nat.eqb_refl). ring.
  - intros r c Hr Hc. unfold diag. destruct (Nat.eqb_spec r c); [lia|reflexivity].
Qed.
(** The determinant can be read off the decomposition's diagonal. *)
Lemma decomp_det_read m n : det n (stored true n m) = signed K (pp (plu_buffer bigger m n)) (prod n (fun i => flat (pm (plu_buffer bigger m n)) n (n * i + i)%nat)).
Proof.
  rewrite (decomp_det K bigger O (stored true n m) n). unfold plu_buffer. change (fun r c => m (n * r + c)%nat) with (stored true n m). f_equal. apply prod_ext.
  intros i Hi. unfold flat. destruct (cell_div n i i Hi) as [-> ->]. reflexivity.
Qed.
End NxN.
End P.
Lemma linear_solve_inv_ok (K : field) (bigger : K -> K -> bool) n (bases out0 : nat -> K) X : sane_order bigger ->
  ~ singular n (stored false n bases) -> exists X', linear_solve_inv bigger n bases out0 X = (true, X') /\
  forall r i, (r < n)%nat -> mmul n (stored false n bases) X' r i = X r i.
Proof.
  intros O NS. unfold linear_solve_inv. destruct (inv_raw_ok K bigger O true false n out0 bases) as [_ H]. specialize (H NS).
  destruct (inv_raw bigger true false n out0 bases) as [f b]. cbn [fst snd] in H. destruct H as [-> I]. eexists. split; [reflexivity|].
  intros r i Hr. transitivity (mmul n (stored false n bases) (mmul n (stored true n b) X) r i); [reflexivity|].
  rewrite <- mmul_assoc. unfold mmul at 1. rewrite (sum_ext K n _ (fun j => delta r j * X j i)%F); [exact (sum_delta K n r (fun j => X j i) Hr)|].
  intros j Hj. now rewrite (proj1 (I r j Hr Hj)).
Qed.
Lemma linear_solve_inv_false (K : field) (bigger : K -> K -> bool) n (bases out0 : nat -> K) X X' : sane_order bigger ->
  linear_solve_inv bigger n bases out0 X = (false, X') -> singular n (stored false n bases) /\ X' = X.
Proof.
  intros O. unfold linear_solve_inv. destruct (inv_raw_ok K bigger O true false n out0 bases) as [H _].
  destruct (inv_raw bigger true false n out0 bases) as [[|] b]; [discriminate|]. intros [= <-]. split; [apply H|]; reflexivity.
Qed.
