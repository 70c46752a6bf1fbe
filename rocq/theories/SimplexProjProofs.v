From Coq Require Import List Reals Arith Lra Lia Bool.
From Verif Require Import Fld RFld LinSpec FldLemmas PerlinSpec PerlinProofs ZonalProofs VecNModel VecNSpec VecNProofs
  PluModel OrthoModel OrthoProps ShapeSpec ShapeProofs OrientedProofs SimplexSpec SimplexModel SimplexProofs SimplexProjModel SimplexProjSpec.
Import ListNotations.
Open Scope R_scope.

(** ** Reindexing *)
Definition push (a : nat) (m : nat -> nat) (w : nat -> R) (k : nat) : R := rsum a (fun j => if (m j =? k)%nat then w j else 0).
Lemma push_sum a b m w g : (forall j, (j < a)%nat -> (m j < b)%nat) -> rsum b (fun k => push a m w k * g k) = rsum a (fun j => w j * g (m j)).
Proof.
  intros M. transitivity (rsum b (fun k => rsum a (fun j => if (m j =? k)%nat then w j * g k else 0))).
  - apply rsum_ext. intros k _. unfold push. rewrite Rmult_comm, <- rsum_scal. apply rsum_ext. intros j _. destruct (m j =? k)%nat; ring.
  - rewrite rsum_swap. apply rsum_ext. intros j J. rewrite <- (rsum_one b (m j) (fun k => w j * g k) (M j J)) at 1. apply rsum_ext. intros k _. now rewrite Nat.eqb_sym.
Qed.
Lemma push_total a b m w : (forall j, (j < a)%nat -> (m j < b)%nat) -> rsum b (push a m w) = rsum a w.
Proof.
  intros M. transitivity (rsum b (fun k => push a m w k * 1)); [apply rsum_ext; intros; ring|]. rewrite (push_sum a b m w (fun _ => 1) M). apply rsum_ext. intros; ring.
Qed.
Lemma push_at a m w j : (forall x y, (x < a)%nat -> (y < a)%nat -> m x = m y -> x = y) -> (j < a)%nat -> push a m w (m j) = w j.
Proof.
  intros I J. unfold push. rewrite <- (rsum_one a j w J) at 1. apply rsum_ext. intros x X. destruct (Nat.eqb_spec (m x) (m j)) as [E|E], (Nat.eqb_spec x j) as [F|F]; try reflexivity.
  - now destruct F; apply I.
  - subst x. now destruct E.
Qed.
Lemma push_nonneg a m w k : (forall j, (j < a)%nat -> 0 <= w j) -> 0 <= push a m w k.
Proof. intros W. apply rsum_nonneg. intros j J. destruct (m j =? k)%nat; [now apply W|lra]. Qed.
Lemma independent_sub N a b (v : nat -> vec) m : (forall j, (j < a)%nat -> (m j < b)%nat) -> (forall x y, (x < a)%nat -> (y < a)%nat -> m x = m y -> x = y) ->
  independent_vectors N b v -> independent_vectors N a (fun j => v (m j)).
Proof.
  intros M I V w W j J. rewrite <- (push_at a m w j I J). apply V; [|now apply M]. intros i L. rewrite <- (W i L). exact (push_sum a b m w (fun k => v k i) M).
Qed.
Lemma affinely_sub N a b (v : nat -> vec) m : (forall j, (j < a)%nat -> (m j < b)%nat) -> (forall x y, (x < a)%nat -> (y < a)%nat -> m x = m y -> x = y) ->
  affinely_independent N b v -> affinely_independent N a (fun j => v (m j)).
Proof.
  intros M I V w S W j J. rewrite <- (push_at a m w j I J). apply V; [|intros i L|now apply M].
  - now rewrite push_total.
  - rewrite <- (W i L). exact (push_sum a b m w (fun k => v k i) M).
Qed.
Lemma hull_sub N a b (v : nat -> vec) m x : (forall j, (j < a)%nat -> (m j < b)%nat) -> hull N a (fun j => v (m j)) x -> hull N b v x.
Proof.
  intros M (w & W & S & P). exists (push a m w). split; [intros k _; now apply push_nonneg|]. split; [now rewrite push_total|].
  intros i L. rewrite (P i L). symmetry. exact (push_sum a b m w (fun k => v k i) M).
Qed.
(** Dropping index [i] of 0..n as SimplexFace::exclude does. *)
Definition drop (n i j : nat) : nat := if (i <? n)%nat then if (j =? n - 1)%nat then n else if (j =? i)%nat then (n - 1)%nat else j else j.
Lemma drop_lt n i j : (j < n)%nat -> (drop n i j < S n)%nat.
Proof. unfold drop. destruct (Nat.ltb_spec i n), (Nat.eqb_spec j (n - 1)), (Nat.eqb_spec j i); lia. Qed.
Lemma drop_inj n i x y : (i <= n)%nat -> (x < n)%nat -> (y < n)%nat -> drop n i x = drop n i y -> x = y.
Proof.
  unfold drop. destruct (Nat.ltb_spec i n); [|lia].
  destruct (Nat.eqb_spec x (n - 1)), (Nat.eqb_spec x i), (Nat.eqb_spec y (n - 1)), (Nat.eqb_spec y i); lia.
Qed.
Lemma drop_not n i j : (i <= n)%nat -> (j < n)%nat -> drop n i j <> i.
Proof. unfold drop. destruct (Nat.ltb_spec i n), (Nat.eqb_spec j (n - 1)), (Nat.eqb_spec j i); lia. Qed.
Lemma drop_sum n i h : (i <= n)%nat -> (0 < n)%nat -> rsum n (fun j => h (drop n i j)) = rsum (S n) h - h i.
Proof.
  intros L P. unfold drop. destruct (Nat.ltb_spec i n) as [M|M].
  - destruct n as [|m]; [lia|]. cbn [rsum]. replace (S m - 1)%nat with m by lia. rewrite Nat.eqb_refl.
    assert (rsum m (fun j => h (if (j =? m)%nat then S m else if (j =? i)%nat then m else j)) = rsum m h + (if (i =? m)%nat then 0 else h m - h i)) as ->.
    { destruct (Nat.eqb_spec i m) as [->|D].
      - rewrite Rplus_0_r. apply rsum_ext. intros j J. destruct (Nat.eqb_spec j m); [lia|reflexivity].
      - rewrite <- (rsum_one m i (fun _ => h m - h i)) by lia. rewrite <- rsum_plus. apply rsum_ext. intros j J. destruct (Nat.eqb_spec j m); [lia|].
        destruct (Nat.eqb_spec j i) as [->|]; ring. }
    destruct (Nat.eqb_spec i m) as [->|]; ring.
  - replace i with n by lia. change (rsum n h = rsum n h + h n - h n). ring.
Qed.

(** ** Bases of the whole space *)
Section Span.
Variable N : nat.
Lemma coords_of (b : nat -> vec) (u : vec) : independent_vectors N N b -> exists x, forall i, (i < N)%nat -> u i = rsum N (fun j => x j * b j i).
Proof.
  intros I. set (bg := fun x y : R_field => if Req_EM_T y 0 then if Req_EM_T x 0 then false else true else false).
  assert (sane_order bg) as O.
  { split.
    - intros y Y. unfold bg. cbn. destruct (Req_EM_T 0 0) as [_|E]; [|now destruct E]. destruct (Req_EM_T y 0); [contradiction|reflexivity].
    - intros x. unfold bg. cbn. destruct (Req_EM_T x 0); [|reflexivity]. destruct (Req_EM_T 0 0) as [_|E]; [reflexivity|now destruct E]. }
  destruct (vec_solve_ok bg O N b 1 (fun i _ => u i) (independent_nonsingular N b I)) as (X & _ & H). exists (fun j => X j 0%nat). intros i L.
  rewrite <- (H i 0%nat L ltac:(lia)). apply rsum_ext. intros. apply Rmult_comm.
Qed.
Lemma orthogonal_to_all (b : nat -> vec) (u : vec) : independent_vectors N N b -> (forall j, (j < N)%nat -> vinner N (b j) u = 0) -> all_zero N u.
Proof.
  intros I H. destruct (coords_of b u I) as (x & X). apply inner_zero. rewrite (hull_inner N N b x u u X).
  rewrite (rsum_ext N _ (fun _ => 0)); [apply rsum_zero|]. intros j J. rewrite H by exact J. ring.
Qed.
Lemma inner_self_pos (u : vec) : ~ all_zero N u -> 0 < vinner N u u.
Proof.
  intros H. destruct (Rle_lt_or_eq_dec 0 (vinner N u u) (inner_nonneg N u)) as [L|L]; [exact L|]. destruct H. now apply inner_zero.
Qed.
Lemma inner_neg_l (a c : vec) : vinner N (vec_neg a) c = - vinner N a c.
Proof. rewrite (inner_ext N (vec_neg a) (fun i => (-1) * a i) c c); [rewrite inner_mul_l; ring|intros i _; unfold vec_neg; ring|apply same_refl]. Qed.
Lemma inner_neg_r (a c : vec) : vinner N a (vec_neg c) = - vinner N a c.
Proof. rewrite inner_sym, inner_neg_l, inner_sym. reflexivity. Qed.
Lemma inner_diff_l (a b c : vec) : vinner N (vec_sub a b) c = vinner N a c - vinner N b c.
Proof. exact (inner_sub_l N a b c). Qed.
Lemma inner_diff_r (a b c : vec) : vinner N c (vec_sub a b) = vinner N c a - vinner N c b.
Proof. rewrite inner_sym, inner_diff_l, (inner_sym N a c), (inner_sym N b c). reflexivity. Qed.
End Span.
Lemma exit_point n (mu la : nat -> R) : (forall j, (j < n)%nat -> 0 <= mu j) -> (exists i, (i < n)%nat /\ la i <= 0) ->
  exists t i, 0 <= t <= 1 /\ (i < n)%nat /\ la i <= 0 /\ (1 - t) * mu i + t * la i = 0 /\ forall j, (j < n)%nat -> 0 <= (1 - t) * mu j + t * la j.
Proof.
  intros M.
  assert (forall m, (m <= n)%nat -> (forall i, (i < m)%nat -> 0 < la i) \/
    exists t i, 0 <= t <= 1 /\ (i < m)%nat /\ la i <= 0 /\ (1 - t) * mu i + t * la i = 0 /\ forall j, (j < m)%nat -> 0 <= (1 - t) * mu j + t * la j) as H.
  { induction m as [|m IH]; intros L; [left; lia|]. specialize (IH ltac:(lia)). pose proof (M m ltac:(lia)) as Mm. destruct (Rlt_le_dec 0 (la m)) as [P|P].
    - destruct IH as [IH|(t & i & T & I & La & Z & A)].
      + left. intros i I. destruct (Nat.eq_dec i m) as [->|]; [exact P|]. apply IH. lia.
      + right. exists t, i. repeat split; try lra; try lia. intros j J. destruct (Nat.eq_dec j m) as [->|]; [|apply A; lia].
        pose proof (Rmult_le_pos (1 - t) (mu m) ltac:(lra) Mm). pose proof (Rmult_le_pos t (la m) ltac:(lra) ltac:(lra)). lra.
    - right. destruct IH as [IH|(t & i & T & I & La & Z & A)].
      + assert (exists t, 0 <= t <= 1 /\ (1 - t) * mu m + t * la m = 0) as (t & T & Z).
        { destruct (Req_dec (mu m - la m) 0) as [E|E]; [exists 0; split; [lra|lra]|]. exists (mu m / (mu m - la m)). split; [|field; exact E].
          assert (0 < mu m - la m) by lra. split; [apply Rmult_le_pos; [lra|apply Rlt_le, Rinv_0_lt_compat; lra]|]. apply (Rmult_le_reg_r (mu m - la m)); [lra|].
          unfold Rdiv. rewrite Rmult_assoc, Rinv_l by lra. lra. }
        exists t, m. repeat split; try lra; try lia. intros j J. destruct (Nat.eq_dec j m) as [->|]; [lra|]. pose proof (M j ltac:(lia)). pose proof (IH j ltac:(lia)).
        pose proof (Rmult_le_pos (1 - t) (mu j) ltac:(lra) ltac:(lra)). pose proof (Rmult_le_pos t (la j) ltac:(lra) ltac:(lra)). lra.
      + destruct (Rle_lt_dec 0 ((1 - t) * mu m + t * la m)) as [Q|Q].
        * exists t, i. repeat split; try lra; try lia. intros j J. destruct (Nat.eq_dec j m) as [->|]; [lra|]. apply A. lia.
        * (* leave through m earlier *)
          assert (0 < mu m - la m) as E. { destruct (Rlt_le_dec 0 (mu m - la m)) as [E|E]; [exact E|]. assert (mu m = 0) by lra. assert (la m = 0) by lra. rewrite H, H0 in Q. lra. }
          set (u := mu m / (mu m - la m)). assert (u * (mu m - la m) = mu m) as U by (unfold u; field; lra).
          assert (0 <= u) by (apply Rmult_le_pos; [lra|apply Rlt_le, Rinv_0_lt_compat; lra]).
          assert (u < t) as Lt. { apply (Rmult_lt_reg_r (mu m - la m)); [exact E|]. rewrite U. lra. }
          clearbody u. exists u, m. repeat split; try lra; try lia. intros j J. destruct (Nat.eq_dec j m) as [->|D]; [lra|].
          specialize (A j ltac:(lia)). pose proof (M j ltac:(lia)) as Mj. destruct (Rle_lt_dec 0 (la j)) as [Lj|Lj].
          { pose proof (Rmult_le_pos (1 - u) (mu j) ltac:(lra) ltac:(lra)). pose proof (Rmult_le_pos u (la j) ltac:(lra) ltac:(lra)). lra. }
          { pose proof (Rmult_le_pos (t - u) (mu j - la j) ltac:(lra) ltac:(lra)). lra. } }
  intros (i & I & La). destruct (H n (le_n n)) as [P|P]; [specialize (P i I); lra|exact P].
Qed.

(** ** Faces *)
Section Faces.
Variable N : nat.
Hypothesis LN : N = 2%nat \/ N = 3%nat.
Variable bigger : R_field -> R_field -> bool.
Variable s : simplex.
Variable p : vec.
Definition vtx (f : face) (j : nat) : vec := sx_pts s (f_inc f j).
Definition comb (f : face) (w : nat -> R) : vec := fun i => rsum (S (f_n f)) (fun j => w j * vtx f j i).
Record sound_face (f : face) : Prop := {
  sf_n : (f_n f <= N)%nat;
  sf_inc : forall j, (j < S (f_n f))%nat -> (f_inc f j < sx_n s)%nat;
  sf_inj : forall j k, (j < S (f_n f))%nat -> (k < S (f_n f))%nat -> f_inc f j = f_inc f k -> j = k;
  sf_ai : affinely_independent N (S (f_n f)) (vtx f);
  sf_bases : forall j, (j < f_n f)%nat -> forall i, f_bases f j i = vtx f j i - vtx f (f_n f) i;
  sf_ind : (2 <= f_n f)%nat -> independent_vectors N N (f_bases f);
  sf_orth : (2 <= f_n f)%nat -> forall a b, (a < f_n f)%nat -> (f_n f <= b < N)%nat -> vinner N (f_bases f a) (f_bases f b) = 0 }.
Record foot (f : face) (la : nat -> R) : Prop := {
  ft_sum : rsum (S (f_n f)) la = 1;
  ft_span : forall j, (j < f_n f)%nat -> vinner N (vec_sub p (comb f la)) (f_bases f j) = 0;
  ft_null : (2 <= f_n f)%nat -> forall u, (forall b, (f_n f <= b < N)%nat -> vinner N (f_bases f b) u = 0) -> vinner N (vec_sub p (comb f la)) u = 0 }.
Lemma comb_root f w i : (forall j, (j < f_n f)%nat -> forall i, f_bases f j i = vtx f j i - vtx f (f_n f) i) -> rsum (S (f_n f)) w = 1 ->
  comb f w i = vtx f (f_n f) i + rsum (f_n f) (fun j => w j * f_bases f j i).
Proof.
  intros B W. unfold comb. cbn [rsum] in *. rewrite (rsum_ext (f_n f) (fun j => w j * f_bases f j i) (fun j => w j * vtx f j i + (- vtx f (f_n f) i) * w j)).
  - rewrite rsum_plus, rsum_scal. replace (w (f_n f)) with (1 - rsum (f_n f) w) by lra. ring.
  - intros j J. rewrite B by exact J. ring.
Qed.
Lemma edges_independent n (v b : nat -> vec) : affinely_independent N (S n) v -> (forall j, (j < n)%nat -> forall i, b j i = v j i - v n i) -> independent_vectors N n b.
Proof.
  intros Ai B w W j J. set (x := fun k => if (k =? n)%nat then - rsum n w else w k).
  assert (forall g, rsum (S n) (fun k => x k * g k) = rsum n (fun k => w k * (g k - g n))) as X.
  { intros g. cbn [rsum]. unfold x at 2. rewrite Nat.eqb_refl. rewrite (rsum_ext n (fun k => x k * g k) (fun k => w k * g k)).
    - rewrite (rsum_ext n (fun k => w k * (g k - g n)) (fun k => w k * g k + (- g n) * w k)) by (intros; ring). rewrite rsum_plus, rsum_scal. ring.
    - intros k K. unfold x. destruct (Nat.eqb_spec k n); [lia|reflexivity]. }
  assert (x j = w j) as <- by (unfold x; destruct (Nat.eqb_spec j n); [lia|reflexivity]).
  apply (Ai x); [|intros i L|lia].
  - transitivity (rsum (S n) (fun k => x k * 1)); [apply rsum_ext; intros; ring|]. rewrite (X (fun _ => 1)). rewrite (rsum_ext _ _ (fun _ => 0)) by (intros; ring). apply rsum_zero.
  - rewrite (X (fun k => v k i)). rewrite <- (W i L). apply rsum_ext. intros k K. rewrite (B k K). reflexivity.
Qed.
Lemma spans_independent f : sound_face f -> independent_vectors N (f_n f) (f_bases f).
Proof. intros F. exact (edges_independent (f_n f) (vtx f) (f_bases f) (sf_ai f F) (sf_bases f F)). Qed.
Lemma extend_indep (b : nat -> vec) (o : vec) : independent_vectors N (N - 1) b -> (forall j, (j < N - 1)%nat -> vinner N (b j) o = 0) -> ~ all_zero N o ->
  independent_vectors N N (fun j => if (j =? N - 1)%nat then o else b j).
Proof.
  intros I Ho Zo w W. pose proof (inner_self_pos N o Zo) as Po.
  assert (w (N - 1)%nat = 0) as Wl.
  { assert (same N (fun _ => 0) (fun k => rsum N (fun j => w j * (if (j =? N - 1)%nat then o else b j) k))) as Z by (intros k K; symmetry; now apply W).
    pose proof (hull_inner N N (fun j => if (j =? N - 1)%nat then o else b j) w (fun _ => 0) o Z) as H.
    replace (vinner N (fun _ => 0) o) with 0 in H by (unfold VecNSpec.inner; rewrite (rsum_ext _ _ (fun _ => 0)) by (intros; ring); symmetry; apply rsum_zero).
    rewrite (rsum_ext _ _ (fun j => if (j =? N - 1)%nat then w j * vinner N o o else 0)) in H.
    - rewrite (rsum_one N (N - 1) (fun j => w j * vinner N o o)) in H by lia. symmetry in H. apply Rmult_integral in H as [H|H]; [exact H|lra].
    - intros j J. destruct (Nat.eqb_spec j (N - 1)); [reflexivity|]. rewrite Ho by lia. ring. }
  intros j J. destruct (Nat.eq_dec j (N - 1)) as [->|D]; [exact Wl|]. apply (I w); [|lia]. intros k K. specialize (W k K).
  assert (N = S (N - 1)) as EN by lia. rewrite EN in W at 1. cbn [rsum] in W. rewrite Wl in W.
  rewrite Rmult_0_l, Rplus_0_r in W. eapply eq_trans; [|exact W]. apply rsum_ext. intros x X. destruct (Nat.eqb_spec x (N - 1)); [lia|reflexivity].
Qed.
Lemma span_pos f j : sound_face f -> (j < f_n f)%nat -> 0 < vinner N (f_bases f j) (f_bases f j).
Proof.
  intros F J. apply inner_self_pos. intros Z. pose proof (spans_independent f F (fun k => if (k =? j)%nat then 1 else 0)) as H.
  assert ((if (j =? j)%nat then 1 else 0) = 0) as E; [apply H; [|exact J]|rewrite Nat.eqb_refl in E; lra].
  intros i L. rewrite (rsum_ext _ _ (fun k => if (k =? j)%nat then f_bases f k i else 0)) by (intros k _; destruct (k =? j)%nat; ring).
  rewrite (rsum_one (f_n f) j (fun k => f_bases f k i)) by exact J. now apply Z.
Qed.
Lemma foot_exists f : sound_face f -> exists la, foot f la.
Proof.
  intros F. destruct (f_n f) as [|[|m]] eqn:E.
  - exists (fun _ => 1). split; rewrite E; [cbn; lra|lia|lia].
  - set (b := f_bases f 0%nat). set (t := vinner N (vec_sub p (vtx f 1)) b / vinner N b b). pose proof (span_pos f 0 F ltac:(lia)) as P. fold b in P.
    set (la := fun k : nat => if (k =? 0)%nat then t else 1 - t). assert (rsum (S (f_n f)) la = 1) as S1 by (rewrite E; cbn; lra).
    exists la. split; [exact S1| |lia]. intros j J. replace j with 0%nat by lia. fold b.
    rewrite (inner_ext N _ (fun i => vec_sub p (vtx f 1) i + (- t) * b i) b b); [|intros i L|apply same_refl].
    + rewrite inner_add_mul. unfold t. field. lra.
    + unfold vec_sub. rewrite (comb_root f la i (sf_bases f F) S1), E. cbn. unfold b. ring.
  - assert (2 <= f_n f)%nat as L2 by lia. clear E m. destruct (coords_of N (f_bases f) (vec_sub p (vtx f (f_n f))) (sf_ind f F L2)) as (x & X).
    set (la := fun k => if (k =? f_n f)%nat then 1 - rsum (f_n f) x else x k).
    assert (forall g : nat -> R, rsum (f_n f) (fun k => la k * g k) = rsum (f_n f) (fun k => x k * g k)) as Le.
    { intros g. apply rsum_ext. intros k K. unfold la. destruct (Nat.eqb_spec k (f_n f)); [lia|reflexivity]. }
    assert (rsum (S (f_n f)) la = 1) as S1.
    { cbn [rsum]. unfold la at 2. rewrite Nat.eqb_refl. rewrite (rsum_ext (f_n f) la (fun k => la k * 1)) by (intros; ring). rewrite (Le (fun _ => 1)).
      rewrite (rsum_ext (f_n f) _ x) by (intros; ring). ring. }
    assert (same N (vec_sub p (comb f la)) (fun i => rsum (N - f_n f) (fun j => x (f_n f + j)%nat * f_bases f (f_n f + j)%nat i))) as D.
    { intros i L. unfold vec_sub. rewrite (comb_root f la i (sf_bases f F) S1), (Le (fun k => f_bases f k i)). specialize (X i L). unfold vec_sub in X.
      pose proof (sf_n f F) as Ln. assert (Es : rsum N (fun j => x j * f_bases f j i) = rsum (f_n f) (fun j => x j * f_bases f j i) + rsum (N - f_n f) (fun j => x (f_n f + j)%nat * f_bases f (f_n f + j)%nat i)).
      { replace N with (f_n f + (N - f_n f))%nat at 1 by lia. apply rsum_split. }
      lra. }
    assert (forall u, (forall b, (f_n f <= b < N)%nat -> vinner N (f_bases f b) u = 0) -> vinner N (vec_sub p (comb f la)) u = 0) as Z.
    { intros u U. rewrite (hull_inner N (N - f_n f) (fun j => f_bases f (f_n f + j)%nat) (fun j => x (f_n f + j)%nat) _ u D). rewrite (rsum_ext _ _ (fun _ => 0)); [apply rsum_zero|].
      intros j J. rewrite U by lia. ring. }
    exists la. split; [exact S1| |intros _; exact Z]. intros j J. apply Z. intros b B. rewrite inner_sym. now apply (sf_orth f F L2).
Qed.
(** Pythagoras: the foot is the closest point of the affine hull of the face. *)
Lemma foot_diff f la w u : sound_face f -> foot f la -> rsum (S (f_n f)) w = 1 ->
  (forall j, (j < f_n f)%nat -> vinner N u (f_bases f j) = 0) -> vinner N u (vec_sub (comb f la) (comb f w)) = 0.
Proof.
  intros F T W U. rewrite inner_sym.
  rewrite (hull_inner N (f_n f) (f_bases f) (fun j => la j - w j) (vec_sub (comb f la) (comb f w)) u).
  - rewrite (rsum_ext _ _ (fun _ => 0)); [apply rsum_zero|]. intros j J. rewrite inner_sym, U by exact J. ring.
  - intros i L. unfold vec_sub. rewrite (comb_root f la i (sf_bases f F) (ft_sum f la T)), (comb_root f w i (sf_bases f F) W).
    rewrite (rsum_ext (f_n f) (fun j => (la j - w j) * f_bases f j i) (fun j => la j * f_bases f j i + (-1) * (w j * f_bases f j i))) by (intros; ring).
    rewrite rsum_plus, rsum_scal. ring.
Qed.
Definition d2 (x : vec) : R := vinner N (vec_sub p x) (vec_sub p x).
Lemma d2_ext x y : same N x y -> d2 x = d2 y.
Proof. intros H. unfold d2. apply inner_ext; intros i L; unfold vec_sub; now rewrite H. Qed.
Lemma d2_nonneg x : 0 <= d2 x.
Proof. apply inner_nonneg. Qed.
Lemma d2_is x : d2 x = distance N p x * distance N p x.
Proof. symmetry. exact (distance_sq N p x). Qed.
Lemma foot_pythagoras f la w : sound_face f -> foot f la -> rsum (S (f_n f)) w = 1 ->
  d2 (comb f w) = d2 (comb f la) + vinner N (vec_sub (comb f la) (comb f w)) (vec_sub (comb f la) (comb f w)).
Proof.
  intros F T W. pose proof (foot_diff f la w (vec_sub p (comb f la)) F T W (ft_span f la T)) as Z. unfold d2.
  set (a := vec_sub p (comb f la)) in *. set (b := vec_sub (comb f la) (comb f w)) in *.
  rewrite (inner_ext N (vec_sub p (comb f w)) (fun i => a i + 1 * b i) (vec_sub p (comb f w)) (fun i => a i + 1 * b i)) by (intros i L; unfold a, b, vec_sub; ring).
  rewrite sq_add_mul, Z. ring.
Qed.
Lemma foot_closest f la w : sound_face f -> foot f la -> rsum (S (f_n f)) w = 1 -> d2 (comb f la) <= d2 (comb f w).
Proof. intros F T W. rewrite (foot_pythagoras f la w F T W). pose proof (inner_nonneg N (vec_sub (comb f la) (comb f w))). lra. Qed.
(** ProjectToFace computes the foot. *)
Lemma project_face_ok f la to_p : sound_face f -> foot f la -> (f_n f < N)%nat -> (forall i, to_p i = p i - vtx f (f_n f) i) ->
  same N (project_to_face N s f p to_p) (comb f la).
Proof.
  intros F T Lf Tp. assert (f_n f = 0 \/ f_n f = 1 \/ (f_n f = 2 /\ N = 3))%nat as C by lia. unfold project_to_face.
  pose proof (ft_sum f la T) as S1. destruct C as [E|[E|[E E3]]].
  - rewrite E. cbn [Nat.eqb]. intros i L. unfold comb. rewrite E in *. cbn in *. replace (la 0%nat) with 1 by lra. unfold vtx. ring.
  - rewrite E. cbn [Nat.eqb]. intros i L. rewrite (comb_root f la i (sf_bases f F) S1). rewrite E. cbn [rsum]. unfold vec_add, VecNModel.project_on. cbv zeta.
    pose proof (span_pos f 0 F ltac:(lia)) as P. rewrite VecNProofs.mag2_is, VecNProofs.dot_is. destruct (Req_EM_T (vinner N (f_bases f 0%nat) (f_bases f 0%nat)) 0) as [Z|_]; [lra|].
    assert (la 0%nat = vinner N to_p (f_bases f 0%nat) / vinner N (f_bases f 0%nat) (f_bases f 0%nat)) as ->; [|unfold vtx; field; lra].
    pose proof (ft_span f la T 0%nat ltac:(lia)) as H. rewrite (inner_ext N _ (fun i => to_p i + (- la 0%nat) * f_bases f 0%nat i) _ (f_bases f 0%nat)) in H; [| |apply same_refl].
    + rewrite inner_add_mul in H. field_simplify_eq; [|lra]. lra.
    + intros k _. unfold vec_sub. rewrite (comb_root f la k (sf_bases f F) S1), E, Tp, E. cbn [rsum]. ring.
  - rewrite E, E3. cbn [Nat.eqb Nat.ltb Nat.leb Nat.sub andb]. set (o := f_normal 3 f).
    assert (vinner N o o <> 0) as Po.
    { intros Z. apply inner_zero in Z. pose proof (sf_ind f F ltac:(lia) (fun k => if (k =? 2)%nat then 1 else 0)) as H.
      assert ((if (2 =? 2)%nat then 1 else 0) = 0) as X; [apply H; [|lia]|cbn in X; lra]. intros i L. rewrite E3. cbn. rewrite E3 in *. pose proof (Z i L) as Zi. unfold o, f_normal in Zi. cbn in Zi.
      change (f_bases f 2%nat i = 0) in Zi. rewrite Zi. ring. }
    assert (forall j, (j < 2)%nat -> vinner N (f_bases f j) o = 0) as Oo.
    { intros j J. unfold o, f_normal. cbn. apply (sf_orth f F); lia. }
    set (a := vec_sub p (comb f la)). assert (vinner N to_p o = vinner N a o) as Ta.
    { rewrite (inner_ext N to_p (fun i => a i + 1 * rsum 2 (fun j => la j * f_bases f j i)) o o); [| |apply same_refl].
      - rewrite inner_add_mul. rewrite (hull_inner N 2 (f_bases f) la (fun i => rsum 2 (fun j => la j * f_bases f j i)) o (same_refl N _)).
        cbn [rsum]. rewrite !Oo by lia. ring.
      - intros i L. unfold a, vec_sub. rewrite Tp, (comb_root f la i (sf_bases f F) S1), E. ring. }
    set (k := vinner N a o / vinner N o o).
    assert (all_zero N (fun i => a i + (- k) * o i)) as Z.
    { apply (orthogonal_to_all N (f_bases f)); [apply (sf_ind f F); lia|]. intros j J. rewrite inner_sym, inner_add_mul.
      assert (j = 2 \/ j < 2)%nat as [->|J2] by lia.
      - change (f_bases f 2%nat) with o. unfold k. field. exact Po.
      - rewrite (inner_sym N o), (Oo j J2). pose proof (ft_span f la T j ltac:(lia)) as H. fold a in H. rewrite H. ring. }
    intros i L. specialize (Z i ltac:(lia)). unfold vec_sub, VecNModel.project_on. cbv zeta. rewrite <- E3, VecNProofs.mag2_is, VecNProofs.dot_is, Ta. destruct (Req_EM_T (vinner N o o) 0) as [Q|_]; [contradiction|].
    replace (o i * vinner N a o / vinner N o o) with (k * o i) by (unfold k; field; exact Po). unfold a, vec_sub in Z. cbv beta in Z. lra.
Qed.
(** ** Excluding a vertex *)
Definition sub_bases (f : face) (i j : nat) : vec :=
  if (i <? f_n f)%nat then (if (j =? f_n f - 1)%nat then f_normal N f else if (j =? i)%nat then f_bases f (f_n f - 1)%nat else f_bases f j)
  else (if (j <? f_n f - 1)%nat then vec_sub (f_bases f j) (f_bases f (f_n f - 1)%nat) else if (j <? N - 1)%nat then f_bases f (j + 1)%nat else fun _ => 0).
Definition ejected (f : face) (i : nat) : vec := if (i <? f_n f)%nat then f_bases f i else vec_neg (f_bases f (f_n f - 1)%nat).
Definition sub_inc (f : face) (i j : nat) : nat := f_inc f (drop (f_n f) i j).
Definition sub_vec (o e : vec) : vec := if Rlt_dec (dot N o e) 0 then o else vec_neg o.
Lemma exclude_is f i : exists inc, (forall j, (j < f_n f)%nat -> inc j = sub_inc f i j) /\ face_exclude N bigger f i =
  if (0 <? f_n f - 1)%nat then
    match orthogonal_any bigger N (fun r c => sub_bases f i r c : R_field) with
    | None => None
    | Some o => Some (mkFace (f_n f - 1) (fun j => if (j =? N - 1)%nat then sub_vec o (ejected f i) else sub_bases f i j) inc)
    end
  else Some (mkFace (f_n f - 1) (fun j => if (j =? N - 1)%nat then vec_neg (ejected f i) else sub_bases f i j) inc).
Proof.
  unfold face_exclude, sub_bases, ejected, sub_inc, drop. destruct (i <? f_n f)%nat; (eexists; split; [|reflexivity]); intros j J; cbv beta; [|reflexivity].
  destruct (j =? f_n f - 1)%nat; [reflexivity|]. destruct (j =? i)%nat; reflexivity.
Qed.
Lemma orth_some (v : nat -> vec) : independent_vectors N (N - 1) v -> exists o, orthogonal_any bigger N (fun r c => v r c : R_field) = Some o /\
  (forall j, (j < N - 1)%nat -> vinner N (v j) o = 0) /\ ~ all_zero N o.
Proof.
  intros I. destruct (orthogonal_low R_field bigger N (fun r c => v r c : R_field) LN) as (o & E & H & C). exists o. split; [exact E|]. split.
  - intros j J. specialize (H j J). rewrite sum_rsum in H. exact H.
  - intros Z. destruct (proj1 C) as (k & K & W); [|exact (W (Z k K))]. intros t Ht j J. apply (I t); [|exact J]. intros k K. specialize (Ht k K). rewrite sum_rsum in Ht. exact Ht.
Qed.
Lemma sub_indep f i : sound_face f -> (2 <= f_n f)%nat -> (i <= f_n f)%nat -> independent_vectors N (N - 1) (sub_bases f i).
Proof.
  intros F L2 Li. pose proof (sf_n f F) as Ln. unfold sub_bases. destruct (Nat.ltb_spec i (f_n f)) as [L|L].
  - set (m := fun j => if (j =? f_n f - 1)%nat then (N - 1)%nat else if (j =? i)%nat then (f_n f - 1)%nat else j).
    assert (independent_vectors N (N - 1) (fun j => f_bases f (m j))) as H.
    { apply (independent_sub N (N - 1) N); [| |apply (sf_ind f F L2)].
      - intros j J. unfold m. destruct (Nat.eqb_spec j (f_n f - 1)), (Nat.eqb_spec j i); lia.
      - intros x y X Y. unfold m. destruct (Nat.eqb_spec x (f_n f - 1)), (Nat.eqb_spec x i), (Nat.eqb_spec y (f_n f - 1)), (Nat.eqb_spec y i); lia. }
    intros w W. apply H. intros k K. rewrite <- (W k K). apply rsum_ext. intros j _. unfold m, f_normal. destruct (j =? f_n f - 1)%nat, (j =? i)%nat; reflexivity.
  - intros w W. set (n := f_n f) in *. set (x := fun k => if (k <? n - 1)%nat then w k else if (k =? n - 1)%nat then - rsum (n - 1) w else w (k - 1)%nat).
    assert (forall k, (k < N)%nat -> x k = 0) as X.
    { apply (sf_ind f F L2). intros k K. specialize (W k K). rewrite <- W.
      assert (forall g : nat -> R, rsum N g = rsum (n - 1) g + g (n - 1)%nat + rsum (N - n) (fun j => g (n + j)%nat)) as SN.
      { intros g. transitivity (rsum (n + (N - n)) g); [f_equal; lia|]. rewrite rsum_split. f_equal. transitivity (rsum (S (n - 1)) g); [f_equal; lia|reflexivity]. }
      rewrite SN. transitivity (rsum ((n - 1) + (N - n)) (fun j => w j * (if (j <? n - 1)%nat then vec_sub (f_bases f j) (f_bases f (n - 1)%nat)
        else if (j <? N - 1)%nat then f_bases f (j + 1)%nat else fun _ => 0) k)); [rewrite rsum_split|f_equal; lia].
      f_equal.
      - unfold x at 2. destruct (Nat.ltb_spec (n - 1) (n - 1)); [lia|]. rewrite Nat.eqb_refl.
        rewrite (rsum_ext (n - 1) (fun j => x j * f_bases f j k) (fun j => w j * f_bases f j k)).
        + rewrite (rsum_ext (n - 1) (fun j => w j * (if (j <? n - 1)%nat then _ else _) k) (fun j => w j * f_bases f j k + (- f_bases f (n - 1)%nat k) * w j)).
          * rewrite rsum_plus, rsum_scal. ring.
          * intros j J. destruct (Nat.ltb_spec j (n - 1)); [|lia]. unfold vec_sub. ring.
        + intros j J. unfold x. destruct (Nat.ltb_spec j (n - 1)); [|lia]. reflexivity.
      - apply rsum_ext. intros j J. unfold x. destruct (Nat.ltb_spec (n + j) (n - 1)); [lia|]. destruct (Nat.eqb_spec (n + j) (n - 1)); [lia|].
        destruct (Nat.ltb_spec (n - 1 + j) (n - 1)); [lia|]. destruct (Nat.ltb_spec (n - 1 + j) (N - 1)); [|lia].
        replace (n - 1 + j + 1)%nat with (n + j)%nat by lia. replace (n + j - 1)%nat with (n - 1 + j)%nat by lia. reflexivity. }
    intros j J. destruct (Nat.lt_ge_cases j (n - 1)) as [A|A].
    + rewrite <- (X j ltac:(lia)). unfold x. destruct (Nat.ltb_spec j (n - 1)); [reflexivity|lia].
    + rewrite <- (X (S j) ltac:(lia)). unfold x. destruct (Nat.ltb_spec (S j) (n - 1)); [lia|]. destruct (Nat.eqb_spec (S j) (n - 1)); [lia|]. f_equal. lia.
Qed.
(** What is orthogonal to the new bases. *)
Lemma sub_nulls f i u : sound_face f -> (i <= f_n f)%nat -> (2 <= f_n f)%nat -> (forall j, (j < N - 1)%nat -> vinner N (sub_bases f i j) u = 0) ->
  forall b, (f_n f <= b < N)%nat -> vinner N (f_bases f b) u = 0.
Proof.
  intros F Li L2 H b B. pose proof (sf_n f F) as Ln. destruct (Nat.ltb_spec i (f_n f)) as [L|L].
  - destruct (Nat.eq_dec b (N - 1)) as [->|D].
    + specialize (H (f_n f - 1)%nat ltac:(lia)). unfold sub_bases in H. destruct (Nat.ltb_spec i (f_n f)); [|lia]. now rewrite Nat.eqb_refl in H.
    + specialize (H b ltac:(lia)). unfold sub_bases in H. destruct (Nat.ltb_spec i (f_n f)); [|lia]. destruct (Nat.eqb_spec b (f_n f - 1)); [lia|]. destruct (Nat.eqb_spec b i); [lia|exact H].
  - specialize (H (b - 1)%nat ltac:(lia)). unfold sub_bases in H. destruct (Nat.ltb_spec i (f_n f)); [lia|]. destruct (Nat.ltb_spec (b - 1) (f_n f - 1)); [lia|].
    destruct (Nat.ltb_spec (b - 1) (N - 1)); [|lia]. replace (b - 1 + 1)%nat with b in H by lia. exact H.
Qed.
Definition sub_root (f : face) (i : nat) : nat := if (i <? f_n f)%nat then f_n f else (f_n f - 1)%nat.
Lemma inner_base f u j : sound_face f -> (j < f_n f)%nat -> vinner N (f_bases f j) u = vinner N (vtx f j) u - vinner N (vtx f (f_n f)) u.
Proof. intros F J. rewrite <- inner_diff_l. apply inner_ext; [|apply same_refl]. intros i _. unfold vec_sub. now apply (sf_bases f F). Qed.
Lemma sub_verts f i u : sound_face f -> (i <= f_n f)%nat -> (2 <= f_n f)%nat -> (forall j, (j < N - 1)%nat -> vinner N (sub_bases f i j) u = 0) ->
  forall k, (k <= f_n f)%nat -> vinner N (vtx f k) u = vinner N (vtx f (sub_root f i)) u + (if (k =? i)%nat then vinner N (ejected f i) u else 0).
Proof.
  intros F Li L2 H k K. pose proof (sf_n f F) as Ln. unfold sub_root, ejected. destruct (Nat.ltb_spec i (f_n f)) as [L|L].
  - destruct (Nat.eqb_spec k i) as [->|D].
    + rewrite (inner_base f u i F L). ring.
    + destruct (Nat.eq_dec k (f_n f)) as [->|D2]; [ring|]. assert (k < f_n f)%nat as K2 by lia. enough (vinner N (f_bases f k) u = 0) as E by (rewrite (inner_base f u k F K2) in E; lra).
      destruct (Nat.eq_dec k (f_n f - 1)) as [->|D3].
      * specialize (H i ltac:(lia)). unfold sub_bases in H. destruct (Nat.ltb_spec i (f_n f)); [|lia]. destruct (Nat.eqb_spec i (f_n f - 1)); [lia|]. now rewrite Nat.eqb_refl in H.
      * specialize (H k ltac:(lia)). unfold sub_bases in H. destruct (Nat.ltb_spec i (f_n f)); [|lia]. destruct (Nat.eqb_spec k (f_n f - 1)); [lia|]. destruct (Nat.eqb_spec k i); [lia|exact H].
  - assert (i = f_n f) by lia. subst i. pose proof (inner_base f u (f_n f - 1) F ltac:(lia)) as E1. rewrite inner_neg_l. destruct (Nat.eqb_spec k (f_n f)) as [->|D]; [lra|].
    destruct (Nat.eq_dec k (f_n f - 1)) as [->|D2]; [ring|]. pose proof (inner_base f u k F ltac:(lia)) as E2.
    specialize (H k ltac:(lia)). unfold sub_bases in H. destruct (Nat.ltb_spec (f_n f) (f_n f)); [lia|]. destruct (Nat.ltb_spec k (f_n f - 1)); [|lia]. rewrite inner_diff_l in H. lra.
Qed.
Lemma sub_all f i u : sound_face f -> (i <= f_n f)%nat -> (2 <= f_n f)%nat -> (forall j, (j < N - 1)%nat -> vinner N (sub_bases f i j) u = 0) -> vinner N (ejected f i) u = 0 ->
  all_zero N u.
Proof.
  intros F Li L2 H E. apply (orthogonal_to_all N (f_bases f)); [now apply (sf_ind f F)|]. intros k K. destruct (Nat.lt_ge_cases k (f_n f)) as [L|L].
  - rewrite (inner_base f u k F L). rewrite (sub_verts f i u F Li L2 H k ltac:(lia)), (sub_verts f i u F Li L2 H (f_n f) ltac:(lia)), E. destruct (k =? i)%nat, (f_n f =? i)%nat; ring.
  - apply (sub_nulls f i u F Li L2 H). lia.
Qed.
Lemma sub_sign f i la u : sound_face f -> foot f la -> (i <= f_n f)%nat -> (2 <= f_n f)%nat -> (forall j, (j < N - 1)%nat -> vinner N (sub_bases f i j) u = 0) ->
  vinner N (vec_sub p (vtx f (sub_root f i))) u = la i * vinner N (ejected f i) u.
Proof.
  intros F T Li L2 H. pose proof (ft_null f la T L2 u (sub_nulls f i u F Li L2 H)) as Z. rewrite inner_diff_l in *.
  assert (vinner N (comb f la) u = vinner N (vtx f (sub_root f i)) u + la i * vinner N (ejected f i) u) as C; [|lra].
  rewrite (hull_inner N (S (f_n f)) (vtx f) la (comb f la) u (same_refl N _)). set (c := vinner N (vtx f (sub_root f i)) u). set (e := vinner N (ejected f i) u).
  rewrite (rsum_ext _ _ (fun k => c * la k + (if (k =? i)%nat then la k * e else 0))).
  - rewrite rsum_plus, rsum_scal, (ft_sum f la T), (rsum_one (S (f_n f)) i (fun k => la k * e)) by lia. ring.
  - intros k K. rewrite (sub_verts f i u F Li L2 H k ltac:(lia)). fold c e. destruct (k =? i)%nat; ring.
Qed.
Record sub_ok (f : face) (i : nat) (la : nat -> R) (to_p : vec) (sub : face) : Prop := {
  so_n : f_n sub = (f_n f - 1)%nat;
  so_sound : sound_face sub;
  so_inc : forall j, (j < f_n f)%nat -> f_inc sub j = f_inc f (drop (f_n f) i j);
  so_pos : 0 < vinner N (f_normal N sub) (f_normal N sub);
  so_to : forall k, (if (i =? f_n f)%nat then vec_sub to_p (f_bases f (i - 1)%nat) else to_p) k = p k - vtx sub (f_n sub) k;
  so_sign : vinner N (f_normal N sub) (vec_sub p (vtx sub (f_n sub))) < 0 <-> 0 < la i }.
Lemma exclude_ok f i la to_p : sound_face f -> foot f la -> (1 <= f_n f)%nat -> (i <= f_n f)%nat -> (forall k, to_p k = p k - vtx f (f_n f) k) ->
  exists sub, face_exclude N bigger f i = Some sub /\ sub_ok f i la to_p sub.
Proof.
  intros F T L1 Li Tp. pose proof (sf_n f F) as Ln. destruct (exclude_is f i) as (inc & Inc & ->).
  assert (inc (f_n f - 1)%nat = f_inc f (sub_root f i)) as Ir.
  { rewrite (Inc (f_n f - 1)%nat ltac:(lia)). unfold sub_inc, drop, sub_root. destruct (i <? f_n f)%nat; [now rewrite Nat.eqb_refl|reflexivity]. }
  assert (forall k, (if (i =? f_n f)%nat then vec_sub to_p (f_bases f (i - 1)%nat) else to_p) k = p k - vtx f (sub_root f i) k) as To.
  { intros k. unfold sub_root. destruct (Nat.eqb_spec i (f_n f)) as [->|D].
    - rewrite Nat.ltb_irrefl. unfold vec_sub. rewrite Tp, (sf_bases f F) by lia. ring.
    - destruct (Nat.ltb_spec i (f_n f)); [|lia]. apply Tp. }
  assert (forall j, (j < f_n f)%nat -> (inc j < sx_n s)%nat) as G1. { intros j J. rewrite Inc by exact J. apply (sf_inc f F), drop_lt, J. }
  assert (forall j k, (j < f_n f)%nat -> (k < f_n f)%nat -> inc j = inc k -> j = k) as G2.
  { intros j k J K E. rewrite !Inc in E by assumption. apply (sf_inj f F) in E; [|now apply drop_lt|now apply drop_lt]. now apply drop_inj in E. }
  assert (affinely_independent N (f_n f) (fun j => sx_pts s (inc j))) as G3.
  { pose proof (affinely_sub N (f_n f) (S (f_n f)) (vtx f) (drop (f_n f) i) (fun j => drop_lt _ i j) (fun x y X Y => drop_inj _ i x y Li X Y) (sf_ai f F)) as A.
    intros w W Z j J. apply (A w W); [|exact J]. intros k K. rewrite <- (Z k K). apply rsum_ext. intros x X. rewrite (Inc x X). reflexivity. }
  destruct (Nat.ltb_spec 0 (f_n f - 1)) as [L2|L2].
  - (* at least a triangle *)
    assert (2 <= f_n f)%nat as L2' by lia. destruct (orth_some (sub_bases f i) (sub_indep f i F L2' Li)) as (o & -> & Ho & Zo). set (o' := sub_vec o (ejected f i)).
    assert (forall j, (j < N - 1)%nat -> vinner N (sub_bases f i j) o' = 0) as Ho'.
    { intros j J. unfold o', sub_vec. destruct (Rlt_dec _ 0); [now apply Ho|]. rewrite inner_neg_r, (Ho j J). ring. }
    assert (vinner N (ejected f i) o <> 0) as En. { intros Z. apply Zo. now apply (sub_all f i o F Li L2' Ho). }
    assert (vinner N (ejected f i) o' < 0) as Eo.
    { unfold o', sub_vec. rewrite VecNProofs.dot_is, (inner_sym N o). destruct (Rlt_dec (vinner N (ejected f i) o) 0) as [A|A]; [exact A|]. rewrite inner_neg_r. lra. }
    assert (0 < vinner N o' o') as Po. { apply inner_self_pos. intros Z. assert (vinner N (ejected f i) o' = 0); [|lra]. unfold VecNSpec.inner. rewrite (rsum_ext _ _ (fun _ => 0)); [apply rsum_zero|].
      intros k K. rewrite (Z k K). ring. }
    eexists. split; [reflexivity|]. split; cbn [f_n f_bases f_inc f_normal].
    + reflexivity.
    + split; cbn [f_n f_bases f_inc].
      * lia.
      * intros j J. apply G1. lia.
      * intros j k J K. apply G2; lia.
      * replace (S (f_n f - 1)) with (f_n f) by lia. exact G3.
      * intros j J k. destruct (Nat.eqb_spec j (N - 1)); [lia|]. unfold vtx. cbn [f_inc]. rewrite Ir, (Inc j ltac:(lia)). unfold sub_inc, sub_root, sub_bases, drop.
        destruct (Nat.ltb_spec i (f_n f)) as [A|A].
        -- destruct (Nat.eqb_spec j (f_n f - 1)); [lia|]. destruct (Nat.eqb_spec j i) as [->|]; apply (sf_bases f F); lia.
        -- destruct (Nat.ltb_spec j (f_n f - 1)); [|lia]. unfold vec_sub. rewrite !(sf_bases f F) by lia. unfold vtx. ring.
      * intros _. apply (extend_indep (sub_bases f i) o' (sub_indep f i F L2' Li) Ho'). intros Z. apply (Rlt_irrefl 0). rewrite <- (proj2 (inner_zero N o') Z) at 2. exact Po.
      * intros _ a b A B. destruct (Nat.eqb_spec a (N - 1)); [lia|]. destruct (Nat.eqb_spec b (N - 1)) as [|Db]; [apply Ho'; lia|].
        assert (exists c, (f_n f <= c < N)%nat /\ sub_bases f i b = f_bases f c) as (c & Lc & ->).
        { unfold sub_bases. destruct (Nat.ltb_spec i (f_n f)).
          - destruct (Nat.eqb_spec b (f_n f - 1)); [exists (N - 1)%nat; split; [lia|reflexivity]|]. destruct (Nat.eqb_spec b i); [lia|]. exists b. split; [lia|reflexivity].
          - destruct (Nat.ltb_spec b (f_n f - 1)); [lia|]. destruct (Nat.ltb_spec b (N - 1)); [|lia]. exists (b + 1)%nat. split; [lia|reflexivity]. }
        unfold sub_bases. destruct (Nat.ltb_spec i (f_n f)).
        -- destruct (Nat.eqb_spec a (f_n f - 1)); [lia|]. destruct (Nat.eqb_spec a i); apply (sf_orth f F L2'); lia.
        -- destruct (Nat.ltb_spec a (f_n f - 1)); [|lia]. rewrite inner_diff_l, !(sf_orth f F L2') by lia. ring.
    + intros j J. now apply Inc.
    + rewrite Nat.eqb_refl. exact Po.
    + intros k. unfold vtx. cbn [f_inc f_n]. rewrite Ir. apply To.
    + rewrite Nat.eqb_refl. unfold vtx. cbn [f_inc f_n]. rewrite Ir, inner_sym. change (sx_pts s (f_inc f (sub_root f i))) with (vtx f (sub_root f i)).
      rewrite (sub_sign f i la o' F T Li L2' Ho'). split; intros Q.
      * destruct (Rlt_le_dec 0 (la i)) as [A|A]; [exact A|]. pose proof (Rmult_le_pos (- la i) (- vinner N (ejected f i) o') ltac:(lra) ltac:(lra)). lra.
      * pose proof (Rmult_lt_0_compat (la i) (- vinner N (ejected f i) o') ltac:(lra) ltac:(lra)). lra.
  - (* an edge *)
    assert (f_n f = 1%nat) as E1 by lia. pose proof (span_pos f 0 F ltac:(lia)) as P. set (b := f_bases f 0%nat) in *.
    assert (vinner N (vec_sub p (vtx f 1)) b = la 0%nat * vinner N b b) as Sg.
    { pose proof (ft_span f la T 0%nat ltac:(lia)) as H. fold b in H. rewrite (inner_ext N _ (fun k => vec_sub p (vtx f 1) k + (- la 0%nat) * b k) b b) in H; [| |apply same_refl].
      - rewrite inner_add_mul in H. lra.
      - intros k _. unfold vec_sub. rewrite (comb_root f la k (sf_bases f F) (ft_sum f la T)), E1. cbn [rsum]. unfold b. ring. }
    assert (la 0%nat + la 1%nat = 1) as S1. { pose proof (ft_sum f la T) as H. rewrite E1 in H. cbn in H. lra. }
    assert (forall k, ejected f i k = (if (i =? 0)%nat then 1 else -1) * b k) as Ej.
    { intros k. unfold ejected. rewrite E1. assert (i = 0 \/ i = 1)%nat as [->| ->] by lia; cbn; unfold vec_neg; fold b; ring. }
    eexists. split; [reflexivity|]. split; cbn [f_n f_bases f_inc f_normal].
    + reflexivity.
    + split; cbn [f_n f_bases f_inc].
      * lia.
      * intros j J. apply G1. lia.
      * intros j k J K. apply G2; lia.
      * replace (S (f_n f - 1)) with (f_n f) by lia. exact G3.
      * lia.
      * lia.
      * lia.
    + intros j J. now apply Inc.
    + rewrite Nat.eqb_refl. rewrite inner_neg_l, inner_neg_r. rewrite (inner_ext N (ejected f i) (fun k => (if (i =? 0)%nat then 1 else -1) * b k) (ejected f i) (fun k => (if (i =? 0)%nat then 1 else -1) * b k)) by (intros k _; apply Ej).
      rewrite inner_mul_l, inner_sym, inner_mul_l. destruct (i =? 0)%nat; lra.
    + intros k. unfold vtx. cbn [f_inc f_n]. rewrite Ir. apply To.
    + rewrite Nat.eqb_refl. unfold vtx. cbn [f_inc f_n]. rewrite Ir, inner_neg_l.
      rewrite (inner_ext N (ejected f i) (fun k => (if (i =? 0)%nat then 1 else -1) * b k) (vec_sub p (sx_pts s (f_inc f (sub_root f i)))) (vec_sub p (sx_pts s (f_inc f (sub_root f i)))) (fun k _ => Ej k) (same_refl N _)).
      rewrite inner_mul_l, inner_sym. change (sx_pts s (f_inc f (sub_root f i))) with (vtx f (sub_root f i)). unfold sub_root. rewrite E1.
      assert (i = 0 \/ i = 1)%nat as [->| ->] by lia; cbn [Nat.ltb Nat.leb Nat.eqb Nat.sub].
      * rewrite Sg. split; intros Q.
        -- destruct (Rlt_le_dec 0 (la 0%nat)) as [A|A]; [exact A|]. pose proof (Rmult_le_pos (- la 0%nat) (vinner N b b) ltac:(lra) ltac:(lra)). lra.
        -- pose proof (Rmult_lt_0_compat (la 0%nat) (vinner N b b) Q P). lra.
      * assert (vinner N (vec_sub p (vtx f 0)) b = - la 1%nat * vinner N b b) as ->.
        { rewrite (inner_ext N _ (fun k => vec_sub p (vtx f 1) k + (-1) * b k) b b); [rewrite inner_add_mul, Sg; replace (la 0%nat) with (1 - la 1%nat) by lra; ring| |apply same_refl].
          intros k _. unfold b, vec_sub. rewrite (sf_bases f F) by lia. rewrite E1. ring. }
        split; intros Q.
        -- destruct (Rlt_le_dec 0 (la 1%nat)) as [A|A]; [exact A|]. pose proof (Rmult_le_pos (- la 1%nat) (vinner N b b) ltac:(lra) ltac:(lra)). lra.
        -- pose proof (Rmult_lt_0_compat (la 1%nat) (vinner N b b) Q P). lra.
Qed.
Hypothesis Ai : affinely_independent N (sx_n s) (sx_pts s).
Hypothesis Ls : (1 <= sx_n s <= N + 1)%nat.
Lemma root_ok : exists f, face_of N bigger s (2 <? sx_n s)%nat = Some f /\ f_n f = (sx_n s - 1)%nat /\ f_inc f = (fun j => j) /\ sound_face f.
Proof.
  unfold face_of. cbv zeta. set (n := (sx_n s - 1)%nat). assert (sx_n s = S n) as En by lia.
  set (b := fun i => if (i <? n)%nat then vec_sub (sx_pts s i) (sx_pts s n) else fun _ => 0).
  assert (independent_vectors N n b) as Ib.
  { rewrite En in Ai. apply (edges_independent n (sx_pts s) b Ai). intros j J i. unfold b. destruct (Nat.ltb_spec j n); [reflexivity|lia]. }
  destruct ((n <? N)%nat && (2 <? sx_n s)%nat)%bool eqn:C.
  - apply andb_prop in C as [C1 C2]. apply Nat.ltb_lt in C1, C2. assert (N = 3 /\ n = 2)%nat as [E3 E2] by lia.
    unfold nullspace_any. destruct (Nat.leb_spec N n); [lia|]. destruct (Nat.eqb_spec (N - n) 1); [|lia].
    assert (independent_vectors N (N - 1) b) as Ib' by (replace (N - 1)%nat with n by lia; exact Ib).
    destruct (orth_some b Ib') as (o & Eo & Ho & Zo). match goal with |- context [orthogonal_any bigger N ?v] => change v with (fun r c : nat => b r c : R_field) end. rewrite Eo. eexists. split; [reflexivity|]. split; [reflexivity|]. split; [reflexivity|].
    pose proof (extend_indep b o Ib' Ho Zo) as Ie. split; cbn [f_n f_inc f_bases].
    + lia.
    + lia.
    + easy.
    + rewrite <- En. exact Ai.
    + intros j J i. destruct (Nat.ltb_spec j n); [|lia]. unfold b, vtx. cbn. destruct (Nat.ltb_spec j n); [reflexivity|lia].
    + intros _ w W. apply Ie. intros k K. rewrite <- (W k K). apply rsum_ext. intros j J. destruct (Nat.eqb_spec j (N - 1)) as [->|].
      * destruct (Nat.ltb_spec (N - 1) n); [lia|]. destruct (Nat.ltb_spec (N - 1) N); [|lia]. replace (N - 1 - n)%nat with 0%nat by lia. reflexivity.
      * unfold b. destruct (Nat.ltb_spec j n); [reflexivity|lia].
    + intros _ a c A B. pose proof (Ho a ltac:(lia)) as Ha. unfold b in Ha. destruct (Nat.ltb_spec a n); [|lia]. destruct (Nat.ltb_spec c n); [lia|]. destruct (Nat.ltb_spec c N); [|lia]. replace (c - n)%nat with 0%nat by lia. exact Ha.
  - eexists. split; [reflexivity|]. split; [reflexivity|]. split; [reflexivity|]. split; cbn [f_n f_inc f_bases].
    + lia.
    + lia.
    + easy.
    + rewrite <- En. exact Ai.
    + intros j J i. unfold b, vtx. cbn [f_inc]. destruct (Nat.ltb_spec j n); [reflexivity|lia].
    + intros L2. assert (n = N) as EN. { apply andb_false_iff in C as [C|C]; apply Nat.ltb_ge in C; lia. } rewrite EN in Ib at 1. exact Ib.
    + intros L2 a c A B. apply andb_false_iff in C as [C|C]; apply Nat.ltb_ge in C; lia.
Qed.
Variables (inc0 : nat -> nat) (dmax : R).
Definition start : presult := mkRes (mkFace 0 (fun _ _ => 0) inc0) false p dmax false false false.
(** ** The search *)
Section Search.
Variable skip : bool.
(** The vertices whose opposite facets are looked at. *)
Definition cnt (f : face) : nat := if skip then f_n f else S (f_n f).
Lemma cnt_le f : (cnt f <= S (f_n f))%nat.
Proof. unfold cnt. destruct skip; lia. Qed.
Definition fhull (f : face) (x : vec) : Prop := wedge N (cnt f) (S (f_n f)) (vtx f) x.
(** The part of the hull where vertex [i] has no weight. *)
Definition facet (f : face) (i : nat) (x : vec) : Prop :=
  exists w, (forall j, (j < cnt f)%nat -> 0 <= w j) /\ rsum (S (f_n f)) w = 1 /\ w i = 0 /\ same N x (comb f w).
Lemma sub_comb f i w sub g : (1 <= f_n f)%nat -> (i <= f_n f)%nat -> f_n sub = (f_n f - 1)%nat -> (forall j, (j < f_n f)%nat -> f_inc sub j = f_inc f (drop (f_n f) i j)) -> w i = 0 ->
  rsum (S (f_n sub)) (fun j => w (drop (f_n f) i j) * g (f_inc sub j)) = rsum (S (f_n f)) (fun j => w j * g (f_inc f j) : R).
Proof.
  intros L1 Li En Inc Wi. replace (S (f_n sub)) with (f_n f) by lia.
  rewrite (rsum_ext (f_n f) _ (fun j => (fun k => w k * g (f_inc f k)) (drop (f_n f) i j))) by (intros j J; now rewrite Inc).
  rewrite (drop_sum (f_n f) i (fun k => w k * g (f_inc f k)) Li L1), Wi. ring.
Qed.
Lemma drop_cnt f i sub j : (i < cnt f)%nat -> (1 <= f_n f)%nat -> f_n sub = (f_n f - 1)%nat -> (j < f_n f)%nat -> (j < cnt sub <-> drop (f_n f) i j < cnt f)%nat.
Proof.
  intros Li L1 En J. unfold cnt in *. rewrite En. destruct skip.
  - unfold drop. destruct (Nat.ltb_spec i (f_n f)); [|lia]. destruct (Nat.eqb_spec j (f_n f - 1)), (Nat.eqb_spec j i); lia.
  - pose proof (drop_lt (f_n f) i j J). lia.
Qed.
Lemma facet_hull f i la to_p sub x : (1 <= f_n f)%nat -> (i < cnt f)%nat -> sub_ok f i la to_p sub -> facet f i x <-> fhull sub x.
Proof.
  intros L1 Lc S. pose proof (so_n _ _ _ _ _ S) as En. pose proof (cnt_le f) as Lf. pose proof (cnt_le sub) as Lg. assert (i <= f_n f)%nat as Li by lia. split.
  - intros (w & W & S1 & Wi & P). exists (fun j => w (drop (f_n f) i j)). split; [|split].
    + intros j J. apply W. apply (drop_cnt f i sub j Lc L1 En); [lia|exact J].
    + pose proof (sub_comb f i w sub (fun _ => 1) L1 Li En (so_inc _ _ _ _ _ S) Wi) as E. cbv beta in E. rewrite <- S1.
      transitivity (rsum (Datatypes.S (f_n sub)) (fun j => w (drop (f_n f) i j) * 1)); [apply rsum_ext; intros; ring|]. rewrite E. apply rsum_ext. intros; ring.
    + intros k K. rewrite (P k K). unfold comb, vtx. symmetry. exact (sub_comb f i w sub (fun c => sx_pts s c k) L1 Li En (so_inc _ _ _ _ _ S) Wi).
  - intros (w & W & S1 & P). rewrite En in S1, P. replace (Datatypes.S (f_n f - 1)) with (f_n f) in * by lia. exists (push (f_n f) (drop (f_n f) i) w). split; [|split; [|split]].
    + intros k K. apply rsum_nonneg. intros j J. destruct (Nat.eqb_spec (drop (f_n f) i j) k) as [<-|]; [|lra]. apply W. now apply (drop_cnt f i sub j Lc L1 En J).
    + rewrite <- S1. apply push_total. intros j J. now apply drop_lt.
    + unfold push. rewrite (rsum_ext _ _ (fun _ => 0)); [apply rsum_zero|]. intros j J. destruct (Nat.eqb_spec (drop (f_n f) i j) i) as [Q|]; [|reflexivity]. now apply drop_not in Q.
    + intros k K. rewrite (P k K). unfold comb. rewrite (push_sum (f_n f) (Datatypes.S (f_n f)) (drop (f_n f) i) w (fun j => vtx f j k)) by (intros j J; now apply drop_lt).
      apply rsum_ext. intros j J. unfold vtx. now rewrite (so_inc _ _ _ _ _ S j J).
Qed.
Lemma facet_fhull f i x : facet f i x -> fhull f x.
Proof. intros (w & W & S1 & _ & P). exists w. split; [exact W|]. split; [exact S1|exact P]. Qed.
(** From a point of the hull towards the foot, until the hull is left. *)
Lemma leave f la x : sound_face f -> foot f la -> (exists i, (i < cnt f)%nat /\ la i <= 0) -> fhull f x ->
  exists i y, (i < cnt f)%nat /\ la i <= 0 /\ facet f i y /\ d2 y <= d2 x.
Proof.
  intros F T (i0 & I0 & La0) (mu & M & S1 & P).
  destruct (exit_point (cnt f) mu la M) as (t & i & Tt & Li & La & Z & A); [exists i0; split; [exact I0|exact La0]|].
  set (w := fun j => (1 - t) * mu j + t * la j).
  assert (forall k, comb f w k = (1 - t) * comb f mu k + t * comb f la k) as Cw.
  { intros k. unfold comb. rewrite <- !rsum_scal, <- rsum_plus. apply rsum_ext. intros j _. unfold w. ring. }
  assert (rsum (S (f_n f)) w = 1) as Sw.
  { unfold w. rewrite rsum_plus, !rsum_scal, S1, (ft_sum f la T). ring. }
  exists i, (comb f w). split; [exact Li|]. split; [exact La|]. split.
  - exists w. split; [exact A|]. split; [exact Sw|]. split; [exact Z|apply same_refl].
  - rewrite (d2_ext x (comb f mu) P), (foot_pythagoras f la w F T Sw), (foot_pythagoras f la mu F T S1). set (v := vec_sub (comb f la) (comb f mu)).
    assert (same N (vec_sub (comb f la) (comb f w)) (fun k => (1 - t) * v k)) as Sv by (intros k _; unfold v, vec_sub; rewrite Cw; ring).
    rewrite (inner_ext N _ _ _ _ Sv Sv), inner_mul_l, inner_sym, inner_mul_l. pose proof (inner_nonneg N v) as Nn. apply Rplus_le_compat_l.
    assert ((1 - t) * (1 - t) <= 1) as Q. { pose proof (Rmult_le_pos t (2 - t) ltac:(lra) ltac:(lra)). lra. }
    pose proof (Rmult_le_compat_r (vinner N v v) _ _ Nn Q). lra.
Qed.
Lemma fold_inv {A : Type} (body : option A -> nat -> option A) (Inv : nat -> A -> Prop) a0 m :
  Inv 0%nat a0 -> (forall k a, (k < m)%nat -> Inv k a -> exists a', body (Some a) k = Some a' /\ Inv (S k) a') -> exists a, fold_left body (seq 0 m) (Some a0) = Some a /\ Inv m a.
Proof.
  intros B St. enough (forall k, (k <= m)%nat -> exists a, fold_left body (seq 0 k) (Some a0) = Some a /\ Inv k a) as H by (apply (H m); lia).
  induction k as [|k IH]; intros L; [exists a0; now split|]. destruct (IH ltac:(lia)) as (a & E & I). destruct (St k a ltac:(lia) I) as (a' & E' & I').
  exists a'. rewrite seq_S, fold_left_app, E. now split.
Qed.
Lemma forall_exists_dec m (la : nat -> R) : (forall i, (i < m)%nat -> 0 < la i) \/ exists i, (i < m)%nat /\ la i <= 0.
Proof.
  induction m as [|m [IH|(i & L & H)]]; [left; lia| |right; exists i; split; [lia|exact H]]. destruct (Rlt_le_dec 0 (la m)) as [P|P]; [left|right; exists m; split; [lia|exact P]].
  intros i L. destruct (Nat.eq_dec i m) as [->|]; [exact P|]. apply IH. lia.
Qed.
Definition loop_body (clip : bool) (fuel : nat) (f : face) (to_p : vec) (depth : nat) (st : option (bool * presult)) (i : nat) : option (bool * presult) :=
  match st with
  | None => None
  | Some (all_inside, r) =>
      match face_exclude N bigger f i with
      | None => None
      | Some sub =>
          let to_sub := if (i =? f_n f)%nat then vec_sub to_p (f_bases f (i - 1)%nat) else to_p in
          if Req_EM_T (VecNModel.mag2 N (f_normal N sub)) 0
          then Some (all_inside, mkRes (pr_face r) (pr_exists r) (pr_point r) (pr_d2 r) true (pr_contains r) (pr_backfacing r))
          else
            match find_face N bigger clip skip s p fuel sub to_sub (depth + 1) r with
            | None => None
            | Some (interior, r) => Some (all_inside && interior, r)
            end
      end
  end.
Definition finish (clip : bool) (f : face) (to_p : vec) (back all_inside : bool) (r : presult) : presult :=
  if all_inside then
    if (f_n f <? N)%nat then
      let q := project_to_face N s f p to_p in pr_update r (dist2 N p q) q f back
    else
      let r := mkRes (pr_face r) (pr_exists r) (pr_point r) (pr_d2 r) (pr_degenerate r) true (pr_backfacing r) in
      if clip then pr_update r 0 p f true else r
  else r.
Lemma find_eq clip fuel f to_p depth r : find_face N bigger clip skip s p (S fuel) f to_p depth r =
  let back := ((0 <? depth)%nat && (if Rlt_dec (dot N (f_normal N f) to_p) 0 then true else false))%bool in
  if (back && negb clip && (depth =? 1)%nat && (f_n f =? N - 1)%nat)%bool then Some (back, finish clip f to_p back true r)
  else if back then Some (true, r)
  else if (f_n f =? 0)%nat then Some (false, pr_update r (VecNModel.mag2 N to_p) (sx_pts s (f_inc f 0%nat)) f false)
  else match fold_left (loop_body clip fuel f to_p depth) (seq 0 (cnt f)) (Some (true, r)) with
       | None => None
       | Some (all_inside, r) => Some (back, finish clip f to_p back all_inside r)
       end.
Proof. replace (cnt f) with (f_n f + (if skip then 0 else 1))%nat by (unfold cnt; destruct skip; lia). reflexivity. Qed.
Lemma dist2_d2 q : dist2 N p q = d2 q.
Proof. unfold dist2. exact (VecNProofs.mag2_is N (vec_sub p q)). Qed.

Definition front_ok (X : region) (r : presult) : Prop := pr_exists r = true -> pr_backfacing r = false ->
  sound_face (pr_face r) /\ (f_n (pr_face r) < N)%nat /\
  (exists la, foot (pr_face r) la /\ same N (pr_point r) (comb (pr_face r) la) /\ forall j, (j < cnt (pr_face r))%nat -> 0 < la j) /\
  pr_d2 r = d2 (pr_point r) /\ (forall x, fhull (pr_face r) x -> X x).
Definition covers (r : presult) (x : vec) : Prop := pr_exists r = true /\ pr_backfacing r = false /\ pr_d2 r <= d2 x.
Lemma update_front X r q f la : front_ok X r -> sound_face f -> (f_n f < N)%nat -> foot f la -> same N q (comb f la) -> (forall j, (j < cnt f)%nat -> 0 < la j) ->
  (forall x, fhull f x -> X x) -> let r' := pr_update r (d2 q) q f false in
  front_ok X r' /\ (forall x, covers r x -> covers r' x) /\ (forall x, d2 q <= d2 x -> covers r' x) /\ pr_contains r' = pr_contains r.
Proof.
  intros G F L T Q P Hx. cbv zeta. unfold pr_update. cbn [implb negb andb].
  destruct (pr_exists r) eqn:E, (Rlt_dec (d2 q) (pr_d2 r)) as [A|A], (pr_backfacing r) eqn:B; cbn [negb orb andb].
  all: try (split; [intros _ _; cbn; split; [exact F|]; split; [exact L|]; split; [exists la; split; [exact T|]; split; [exact Q|exact P]|]; split; [reflexivity|exact Hx]|]).
  all: try (split; [exact G|]).
  all: split; [intros x (X1 & X2 & X3)|split; [intros x X1|reflexivity]].
  all: unfold covers in *; cbn in *; rewrite ?E, ?B in *; try easy; repeat split; try reflexivity; try lra; try discriminate.
Qed.
Lemma closest_point f la x : sound_face f -> foot f la -> fhull f x -> d2 (comb f la) <= d2 x.
Proof. intros F T (w & _ & S1 & P). rewrite (d2_ext x (comb f w) P). now apply foot_closest. Qed.
Lemma find_back clip fuel f to_p depth r : clip = true \/ (1 < depth)%nat -> (0 < depth)%nat -> vinner N (f_normal N f) to_p < 0 ->
  find_face N bigger clip skip s p (S fuel) f to_p depth r = Some (true, r).
Proof.
  intros H D B. rewrite find_eq. cbv zeta. rewrite VecNProofs.dot_is. destruct (Rlt_dec (vinner N (f_normal N f) to_p) 0) as [_|C]; [|contradiction].
  destruct (Nat.ltb_spec 0 depth); [|lia]. cbn [andb]. destruct H as [->|H]; [reflexivity|]. destruct (Nat.eqb_spec depth 1); [lia|]. rewrite andb_false_r. reflexivity.
Qed.
Lemma find_back' clip fuel f to_p depth r : (0 < fuel)%nat -> clip = true \/ (1 < depth)%nat -> (0 < depth)%nat -> vinner N (f_normal N f) to_p < 0 ->
  find_face N bigger clip skip s p fuel f to_p depth r = Some (true, r).
Proof. destruct fuel; [lia|]. intros _. apply find_back. Qed.
Lemma find_front clip X : forall fuel f to_p depth r, sound_face f -> (f_n f < fuel)%nat -> (f_n f < N)%nat -> (forall k, to_p k = p k - vtx f (f_n f) k) ->
  depth = 0%nat \/ 0 <= vinner N (f_normal N f) to_p -> front_ok X r -> (forall x, fhull f x -> X x) ->
  exists r', find_face N bigger clip skip s p fuel f to_p depth r = Some (false, r') /\ front_ok X r' /\ (forall x, covers r x -> covers r' x) /\
    (forall x, fhull f x -> covers r' x) /\ pr_contains r' = pr_contains r.
Proof.
  induction fuel as [|fuel IH]; intros f to_p depth r F Lf Ln Tp Bk G Hx; [lia|]. rewrite find_eq. cbv zeta.
  assert (((0 <? depth)%nat && (if Rlt_dec (dot N (f_normal N f) to_p) 0 then true else false))%bool = false) as ->.
  { destruct Bk as [->|Bk]; [reflexivity|]. rewrite VecNProofs.dot_is. destruct (Rlt_dec _ 0); [lra|]. apply andb_false_r. }
  cbn [andb]. destruct (foot_exists f F) as (la & T). pose proof (cnt_le f) as Lc. destruct (Nat.eqb_spec (f_n f) 0) as [E0|E0].
  - (* a vertex *)
    assert (same N (vtx f 0) (comb f la)) as Q. { pose proof (ft_sum f la T) as S1. rewrite E0 in S1. cbn in S1. intros k K. unfold comb. rewrite E0. cbn. replace (la 0%nat) with 1 by lra. ring. }
    assert (VecNModel.mag2 N to_p = d2 (vtx f 0)) as ->.
    { rewrite VecNProofs.mag2_is. apply inner_ext; intros k _; unfold vec_sub; rewrite Tp, E0; reflexivity. }
    change (sx_pts s (f_inc f 0%nat)) with (vtx f 0).
    destruct (update_front X r (vtx f 0) f la G F Ln T Q) as (A & B & C & D); [|exact Hx|].
    + intros j J. assert (j = 0)%nat as -> by lia. pose proof (ft_sum f la T) as S1. rewrite E0 in S1. cbn in S1. lra.
    + eexists. split; [reflexivity|]. split; [exact A|]. split; [exact B|]. split; [|exact D]. intros x Xx. apply C. rewrite (d2_ext _ _ Q). now apply closest_point.
  - set (Inv := fun (m : nat) (st : bool * presult) => let '(ai, rm) := st in (ai = true <-> forall i, (i < m)%nat -> 0 < la i) /\ front_ok X rm /\ (forall x, covers r x -> covers rm x) /\
      (forall i, (i < m)%nat -> la i <= 0 -> forall x, facet f i x -> covers rm x) /\ pr_contains rm = pr_contains r).
    destruct (fold_inv (loop_body clip fuel f to_p depth) Inv (true, r) (cnt f)) as ([ai rm] & -> & I1 & I2 & I3 & I4 & I5).
    { cbn. split; [split; [lia|reflexivity]|]. split; [exact G|]. split; [easy|]. split; [lia|reflexivity]. }
    { intros i (ai, rm) Li (I1 & I2 & I3 & I4 & I5). unfold loop_body. destruct (exclude_ok f i la to_p F T ltac:(lia) ltac:(lia) Tp) as (sub & -> & So). cbv zeta.
      pose proof (so_pos _ _ _ _ _ So) as Ps. rewrite VecNProofs.mag2_is. destruct (Req_EM_T (vinner N (f_normal N sub) (f_normal N sub)) 0) as [Z|_]; [lra|].
      set (to_sub := if (i =? f_n f)%nat then vec_sub to_p (f_bases f (i - 1)%nat) else to_p). pose proof (so_to _ _ _ _ _ So) as Ts. fold to_sub in Ts.
      assert (vinner N (f_normal N sub) to_sub = vinner N (f_normal N sub) (vec_sub p (vtx sub (f_n sub)))) as Es.
      { apply inner_ext; [apply same_refl|]. intros k _. unfold vec_sub. apply Ts. }
      pose proof (so_sign _ _ _ _ _ So) as Sg. pose proof (so_n _ _ _ _ _ So) as En. destruct (Rlt_le_dec 0 (la i)) as [A|A].
      - destruct fuel as [|fuel']; [lia|]. assert (find_face N bigger clip skip s p (S fuel') sub to_sub (depth + 1) rm = Some (true, rm)) as ->.
        { destruct (Nat.eq_dec depth 0) as [->|D].
          - (* depth 1: a facet of a simplex that is not full *)
            rewrite find_eq. cbv zeta. rewrite VecNProofs.dot_is, Es. destruct (Rlt_dec _ 0) as [_|C]; [|destruct C; now apply Sg]. cbn [Nat.ltb Nat.leb Nat.add andb].
            destruct (Nat.eqb_spec (f_n sub) (N - 1)); [lia|]. rewrite andb_false_r. reflexivity.
          - apply find_back; [right; lia|lia|]. rewrite Es. now apply Sg. }
        exists (ai, rm). rewrite andb_true_r. split; [reflexivity|]. cbn. split; [|split; [exact I2|split; [exact I3|split; [|exact I5]]]].
        + rewrite I1. split; intros H j J; [destruct (Nat.eq_dec j i) as [->|]; [exact A|]; apply H; lia|apply H; lia].
        + intros j J Lj. destruct (Nat.eq_dec j i) as [->|]; [lra|]. apply I4; [lia|exact Lj].
      - destruct (IH sub to_sub (depth + 1)%nat rm (so_sound _ _ _ _ _ So) ltac:(lia) ltac:(lia) Ts) as (r' & -> & J1 & J2 & J3 & J4).
        + right. rewrite Es. apply Rnot_lt_le. intros C. apply Sg in C. lra.
        + exact I2.
        + intros x Xx. apply Hx, (facet_fhull f i). exact (proj2 (facet_hull f i la to_p sub x ltac:(lia) ltac:(lia) So) Xx).
        + exists (false, r'). rewrite andb_false_r. split; [reflexivity|]. cbn. split; [|split; [exact J1|split; [|split]]].
          * split; [discriminate|]. intros H. specialize (H i ltac:(lia)). lra.
          * intros x Xx. now apply J2, I3.
          * intros j J Lj x Xx. destruct (Nat.eq_dec j i) as [->|].
            -- apply J3. exact (proj1 (facet_hull f i la to_p sub x ltac:(lia) ltac:(lia) So) Xx).
            -- apply J2, (I4 j); [lia|exact Lj|exact Xx].
          * now rewrite J4. }
    unfold finish. destruct ai.
    + destruct (Nat.ltb_spec (f_n f) N); [|lia]. cbv zeta. rewrite dist2_d2. pose proof (project_face_ok f la to_p F T Ln Tp) as Q. set (q := project_to_face N s f p to_p) in *.
      pose proof (proj1 I1 eq_refl) as Pl. destruct (update_front X rm q f la I2 F Ln T Q Pl Hx) as (A & B & C & D). eexists. split; [reflexivity|]. split; [exact A|]. split; [intros x Xx; now apply B, I3|]. split; [|now rewrite D].
      intros x Xx. apply C. rewrite (d2_ext _ _ Q). now apply closest_point.
    + exists rm. split; [reflexivity|]. split; [exact I2|]. split; [exact I3|]. split; [|exact I5]. intros x Xx.
      assert (exists i, (i < cnt f)%nat /\ la i <= 0) as Ne.
      { destruct (forall_exists_dec (cnt f) la) as [P|(i & Li & La)]; [apply I1 in P; discriminate|]. exists i. split; [exact Li|exact La]. }
      destruct (leave f la x F T Ne Xx) as (i & y & Li & La & Fy & Dy). destruct (I4 i ltac:(lia) La y Fy) as (C1 & C2 & C3). split; [exact C1|]. split; [exact C2|lra].
Qed.
(** ** The whole simplex *)
Definition scnt : nat := if skip then (sx_n s - 1)%nat else sx_n s.
Definition whole_s (x : vec) : Prop := wedge N scnt (sx_n s) (sx_pts s) x.
Notation whole := whole_s.
Lemma root_hull f x : f_n f = (sx_n s - 1)%nat -> f_inc f = (fun j => j) -> fhull f x <-> whole x.
Proof.
  intros E1 E2. unfold fhull, whole_s, vtx. rewrite E1, E2. replace (S (sx_n s - 1)) with (sx_n s) by lia. replace (cnt f) with scnt by (unfold cnt, scnt; rewrite E1; destruct skip; lia). reflexivity.
Qed.
Lemma start_front X : front_ok X start.
Proof. intros E. discriminate. Qed.
Lemma full_foot f la : sound_face f -> foot f la -> f_n f = N -> same N (comb f la) p.
Proof.
  intros F T E. assert (all_zero N (vec_sub p (comb f la))) as Z.
  { apply inner_zero. apply (ft_null f la T); [rewrite E; lia|]. lia. }
  intros i L. specialize (Z i L). unfold vec_sub in Z. lra.
Qed.
(** What a finished search says about the closest point. *)
Definition closest_in (X : region) (r : presult) : Prop := pr_exists r = true /\ sound_face (pr_face r) /\ pr_d2 r = d2 (pr_point r) /\
  fhull (pr_face r) (pr_point r) /\ X (pr_point r) /\ (forall x, X x -> pr_d2 r <= d2 x).
Lemma front_closest (X : region) r : front_ok X r -> (exists x, X x) -> (forall x, X x -> covers r x) ->
  closest_in X r /\ pr_backfacing r = false /\ (f_n (pr_face r) < N)%nat /\
  exists la, foot (pr_face r) la /\ same N (pr_point r) (comb (pr_face r) la) /\ forall j, (j < cnt (pr_face r))%nat -> 0 < la j.
Proof.
  intros G (x0 & H0) C. destruct (C x0 H0) as (E & B & _). destruct (G E B) as (F & L & (la & T & Q & P) & D & Hx).
  assert (fhull (pr_face r) (pr_point r)) as Hp. { exists la. split; [intros j J; now apply Rlt_le, P|]. split; [apply (ft_sum _ _ T)|exact Q]. }
  split; [|split; [exact B|split; [exact L|exists la; split; [exact T|split; [exact Q|exact P]]]]]. split; [exact E|]. split; [exact F|]. split; [exact D|]. split; [exact Hp|]. split; [now apply Hx|].
  intros x X1. now apply C.
Qed.
Lemma whole_some : exists x, whole x.
Proof.
  exists (sx_pts s 0%nat). destruct (hull_vertex N (sx_n s) (sx_pts s) 0%nat ltac:(lia)) as (w & W & S1 & Q). exists w. split; [|now split]. intros j J. apply W. unfold scnt in J. destruct skip; lia.
Qed.
(** A simplex that is not full, whatever the operation. *)
Lemma flat_projection clip : (sx_n s < N + 1)%nat -> exists r, projection N bigger clip skip s p inc0 dmax = Some r /\ front_ok whole r /\ (forall x, whole x -> covers r x) /\ pr_contains r = false.
Proof.
  intros L. destruct root_ok as (f & E & En & Ei & F). unfold projection. rewrite E.
  destruct (find_front clip whole (sx_n s) f (vec_sub p (sx_pts s (sx_n s - 1)%nat)) 0 start F ltac:(lia) ltac:(lia)) as (r & Er & A & _ & C & D).
  - intros k. unfold vec_sub, vtx. now rewrite Ei, En.
  - now left.
  - apply start_front.
  - intros x. now apply root_hull.
  - fold start. rewrite Er. exists r. split; [reflexivity|]. split; [exact A|]. split; [|exact D]. intros x X. apply C. now apply root_hull.
Qed.
(** Clipping to a full simplex. *)
Lemma full_clip : (sx_n s = N + 1)%nat -> exists r, projection N bigger true skip s p inc0 dmax = Some r /\
  ((pr_contains r = true /\ pr_point r = p /\ pr_d2 r = 0 /\ inside_wedge N scnt (sx_n s) (sx_pts s) p /\ sound_face (pr_face r) /\ pr_face r <> mkFace 0 (fun _ _ => 0) inc0 /\
      f_n (pr_face r) = N /\ f_inc (pr_face r) = (fun j => j)) \/
   (pr_contains r = false /\ front_ok whole r /\ (forall x, whole x -> covers r x))).
Proof.
  intros L. destruct root_ok as (f & E & En & Ei & F). unfold projection. rewrite E. set (to_p := vec_sub p (sx_pts s (sx_n s - 1)%nat)).
  assert (forall k, to_p k = p k - vtx f (f_n f) k) as Tp by (intros k; unfold to_p, vec_sub, vtx; now rewrite Ei, En).
  destruct (foot_exists f F) as (la & T). assert (f_n f = N) as EN by lia. pose proof (cnt_le f) as Lc. pose proof (full_foot f la F T EN) as Fp.
  fold start. assert (find_face N bigger true skip s p (sx_n s) f to_p 0 start = find_face N bigger true skip s p (S N) f to_p 0 start) as -> by (f_equal; lia). rewrite find_eq. cbv zeta. cbn [Nat.ltb Nat.leb andb]. destruct (Nat.eqb_spec (f_n f) 0); [lia|]. fold start.
  set (Inv := fun (m : nat) (st : bool * presult) => let '(ai, rm) := st in (ai = true <-> forall i, (i < m)%nat -> 0 < la i) /\ (ai = true -> rm = start) /\ front_ok whole rm /\
    (forall i, (i < m)%nat -> la i <= 0 -> forall x, facet f i x -> covers rm x) /\ pr_contains rm = false).
  destruct (fold_inv (loop_body true N f to_p 0) Inv (true, start) (cnt f)) as ([ai rm] & -> & I1 & I2 & I3 & I4 & I5).
  { cbn. split; [split; [lia|reflexivity]|]. split; [reflexivity|]. split; [apply start_front|]. split; [lia|reflexivity]. }
  { intros i (ai, rm) Li (I1 & I2 & I3 & I4 & I5). unfold loop_body. destruct (exclude_ok f i la to_p F T ltac:(lia) ltac:(lia) Tp) as (sub & -> & So). cbv zeta.
    pose proof (so_pos _ _ _ _ _ So) as Ps. rewrite VecNProofs.mag2_is. destruct (Req_EM_T (vinner N (f_normal N sub) (f_normal N sub)) 0) as [Z|_]; [lra|].
    set (to_sub := if (i =? f_n f)%nat then vec_sub to_p (f_bases f (i - 1)%nat) else to_p). pose proof (so_to _ _ _ _ _ So) as Ts. fold to_sub in Ts.
    assert (vinner N (f_normal N sub) to_sub = vinner N (f_normal N sub) (vec_sub p (vtx sub (f_n sub)))) as Es.
    { apply inner_ext; [apply same_refl|]. intros k _. unfold vec_sub. apply Ts. }
    pose proof (so_sign _ _ _ _ _ So) as Sg. pose proof (so_n _ _ _ _ _ So) as Esn. destruct (Rlt_le_dec 0 (la i)) as [A|A].
    - rewrite find_back'; [|lia|now left|lia|rewrite Es; now apply Sg].
      exists (ai, rm). rewrite andb_true_r. split; [reflexivity|]. cbn. split; [|split; [exact I2|split; [exact I3|split; [|exact I5]]]].
      + rewrite I1. split; intros H j J; [destruct (Nat.eq_dec j i) as [->|]; [exact A|]; apply H; lia|apply H; lia].
      + intros j J Lj. destruct (Nat.eq_dec j i) as [->|]; [lra|]. apply I4; [lia|exact Lj].
    - destruct (find_front true whole N sub to_sub (0 + 1)%nat rm (so_sound _ _ _ _ _ So) ltac:(lia) ltac:(lia) Ts) as (r' & -> & J1 & J2 & J3 & J4).
      + right. rewrite Es. apply Rnot_lt_le. intros C. apply Sg in C. lra.
      + exact I3.
      + intros x Xx. apply (root_hull f x En Ei). apply (facet_fhull f i). exact (proj2 (facet_hull f i la to_p sub x ltac:(lia) ltac:(lia) So) Xx).
      + exists (false, r'). rewrite andb_false_r. split; [reflexivity|]. cbn. split; [|split; [discriminate|split; [exact J1|split]]].
        * split; [discriminate|]. intros H. specialize (H i ltac:(lia)). lra.
        * intros j J Lj x Xx. destruct (Nat.eq_dec j i) as [->|].
          -- apply J3. exact (proj1 (facet_hull f i la to_p sub x ltac:(lia) ltac:(lia) So) Xx).
          -- apply J2, (I4 j); [lia|exact Lj|exact Xx].
        * now rewrite J4. }
  unfold finish. destruct ai.
  - rewrite (I2 eq_refl). destruct (Nat.ltb_spec (f_n f) N); [lia|]. cbn. eexists. split; [reflexivity|]. left. cbn. split; [reflexivity|]. split; [reflexivity|]. split; [reflexivity|].
    split; [|split; [exact F|split; [intros Q; rewrite Q in EN; cbn in EN; lia|split; [exact EN|exact Ei]]]].
    exists la. pose proof (ft_sum f la T) as S1. pose proof (proj1 I1 eq_refl) as Pl. replace (cnt f) with scnt in Pl by (unfold cnt, scnt; rewrite En; destruct skip; lia). rewrite EN in *. replace (S N) with (sx_n s) in * by lia. split; [exact Pl|]. split; [exact S1|].
    intros k K. rewrite <- (Fp k K). unfold comb, vtx. rewrite EN, Ei. replace (S N) with (sx_n s) by lia. reflexivity.
  - exists rm. split; [reflexivity|]. right. split; [exact I5|]. split; [exact I3|]. intros x X. apply (root_hull f x En Ei) in X.
    assert (exists i, (i < cnt f)%nat /\ la i <= 0) as Ne.
    { destruct (forall_exists_dec (cnt f) la) as [P|(i & Li & La)]; [apply I1 in P; discriminate|]. exists i. split; [exact Li|exact La]. }
    destruct (leave f la x F T Ne X) as (i & y & Li & La & Fy & Dy). destruct (I4 i ltac:(lia) La y Fy) as (C1 & C2 & C3). split; [exact C1|]. split; [exact C2|lra].
Qed.
End Search.
Notation whole := (hull N (sx_n s) (sx_pts s)).
Lemma root_facet f x : f_n f = (sx_n s - 1)%nat -> f_inc f = (fun j => j) -> facets N (sx_n s) (sx_pts s) x <-> exists i, (i <= f_n f)%nat /\ facet false f i x.
Proof.
  intros E1 E2. unfold facets, facet, comb, vtx, cnt. rewrite E1, E2. replace (S (sx_n s - 1)) with (sx_n s) by lia. split.
  - intros (w & i & L & Wi & W & S1 & P). exists i. split; [lia|]. exists w. now repeat split.
  - intros (i & L & w & W & S1 & Wi & P). exists w, i. repeat split; try assumption. lia.
Qed.
(** Projecting to the surface of a full simplex. *)
Lemma update_back X r q f : front_ok false X r -> let r' := pr_update r (d2 q) q f true in
  front_ok false X r' /\ (forall x, covers r x -> covers r' x) /\ (pr_exists r' = true /\ (pr_backfacing r' = false \/ pr_d2 r' <= d2 q)) /\
  (forall v, pr_exists r = true /\ (pr_backfacing r = false \/ pr_d2 r <= v) -> pr_exists r' = true /\ (pr_backfacing r' = false \/ pr_d2 r' <= v)) /\
  (pr_exists r = true -> pr_backfacing r = true -> pr_backfacing r' = true) /\ (pr_exists r = false -> pr_backfacing r' = true) /\
  (r' = r \/ (pr_face r' = f /\ pr_point r' = q /\ pr_d2 r' = d2 q)) /\ pr_contains r' = pr_contains r.
Proof.
  intros G. cbv zeta. unfold pr_update. cbn [implb negb].
  destruct (pr_exists r) eqn:E, (Rlt_dec (d2 q) (pr_d2 r)) as [A|A], (pr_backfacing r) eqn:B; cbn [negb orb andb].
  all: split; [first [exact G | intros ?; discriminate]|].
  all: split; [intros x (X1 & X2 & X3); first [congruence | now repeat split]|].
  all: cbn; rewrite ?E, ?B.
  all: split; [split; [reflexivity|first [left; reflexivity | right; lra]]|].
  all: split; [intros v [V1 [V2|V2]]; try discriminate; (split; [reflexivity|]); first [left; reflexivity | right; lra]|].
  all: repeat split; try easy; first [now left | right; now repeat split].
Qed.
Lemma find_back_facet fuel f to_p r : f_n f = (N - 1)%nat -> vinner N (f_normal N f) to_p < 0 ->
  find_face N bigger false false s p (S fuel) f to_p 1 r = Some (true, pr_update r (d2 (project_to_face N s f p to_p)) (project_to_face N s f p to_p) f true).
Proof.
  intros E B. rewrite (find_eq false). cbv zeta. rewrite VecNProofs.dot_is. destruct (Rlt_dec (vinner N (f_normal N f) to_p) 0) as [_|C]; [|contradiction].
  cbn [Nat.ltb Nat.leb andb negb Nat.eqb]. destruct (Nat.eqb_spec (f_n f) (N - 1)); [|lia]. unfold finish. destruct (Nat.ltb_spec (f_n f) N); [|lia]. cbv zeta. now rewrite dist2_d2.
Qed.
Notation surface := (facets N (sx_n s) (sx_pts s)).
Lemma full_project : (sx_n s = N + 1)%nat -> exists r, projection N bigger false false s p inc0 dmax = Some r /\ 
  ((pr_contains r = true /\ inside_hull N (sx_n s) (sx_pts s) p /\ closest_in false surface r /\ f_n (pr_face r) = (N - 1)%nat /\ exists mu, foot (pr_face r) mu /\ same N (pr_point r) (comb (pr_face r) mu)) \/
   (pr_contains r = false /\ ~ inside_hull N (sx_n s) (sx_pts s) p /\ front_ok false surface r /\ (forall x, whole x -> covers r x))).
Proof.
  intros L. destruct root_ok as (f & E & En & Ei & F). unfold projection. rewrite E. set (to_p := vec_sub p (sx_pts s (sx_n s - 1)%nat)).
  assert (forall k, to_p k = p k - vtx f (f_n f) k) as Tp by (intros k; unfold to_p, vec_sub, vtx; now rewrite Ei, En).
  destruct (foot_exists f F) as (la & T). assert (f_n f = N) as EN by lia. pose proof (full_foot f la F T EN) as Fp.
  fold start. assert (find_face N bigger false false s p (sx_n s) f to_p 0 start = find_face N bigger false false s p (S N) f to_p 0 start) as -> by (f_equal; lia).
  rewrite (find_eq false). cbv zeta. cbn [Nat.ltb Nat.leb andb]. destruct (Nat.eqb_spec (f_n f) 0); [lia|].
  set (plane := fun i (v : R) => forall w, rsum (S (f_n f)) w = 1 -> w i = 0 -> v <= d2 (comb f w)).
  set (Inv := fun (m : nat) (st : bool * presult) => let '(ai, rm) := st in (ai = true <-> forall i, (i < m)%nat -> 0 < la i) /\ front_ok false surface rm /\
    (forall i, (i < m)%nat -> la i <= 0 -> forall x, facet false f i x -> covers rm x) /\ pr_contains rm = false /\
    (forall i, (i < m)%nat -> 0 < la i -> pr_exists rm = true /\ (pr_backfacing rm = false \/ plane i (pr_d2 rm))) /\
    (ai = true -> pr_exists rm = true -> pr_backfacing rm = true /\ exists i sub mu, (i < m)%nat /\ sub_ok f i la to_p sub /\ foot sub mu /\ pr_face rm = sub /\
       same N (pr_point rm) (comb sub mu) /\ pr_d2 rm = d2 (pr_point rm))).
  change (cnt false f) with (S (f_n f)). destruct (fold_inv (loop_body false false N f to_p 0) Inv (true, start) (S (f_n f))) as ([ai rm] & -> & I1 & I2 & I3 & I4 & I5 & I6).
  { cbn. split; [split; [lia|reflexivity]|]. split; [apply start_front|]. split; [lia|]. split; [reflexivity|]. split; [lia|discriminate]. }
  { intros i (ai, rm) Li (I1 & I2 & I3 & I4 & I5 & I6). unfold loop_body. destruct (exclude_ok f i la to_p F T ltac:(lia) ltac:(lia) Tp) as (sub & -> & So). cbv zeta.
    pose proof (so_pos _ _ _ _ _ So) as Ps. rewrite VecNProofs.mag2_is. destruct (Req_EM_T (vinner N (f_normal N sub) (f_normal N sub)) 0) as [Z|_]; [lra|].
    set (to_sub := if (i =? f_n f)%nat then vec_sub to_p (f_bases f (i - 1)%nat) else to_p). pose proof (so_to _ _ _ _ _ So) as Ts. fold to_sub in Ts.
    assert (vinner N (f_normal N sub) to_sub = vinner N (f_normal N sub) (vec_sub p (vtx sub (f_n sub)))) as Es.
    { apply inner_ext; [apply same_refl|]. intros k _. unfold vec_sub. apply Ts. }
    pose proof (so_sign _ _ _ _ _ So) as Sg. pose proof (so_n _ _ _ _ _ So) as Esn. pose proof (so_sound _ _ _ _ _ So) as Fs. destruct (Rlt_le_dec 0 (la i)) as [A|A].
    - destruct (foot_exists sub Fs) as (mu & Tm). pose proof (project_face_ok sub mu to_sub Fs Tm ltac:(lia) Ts) as Q.
      assert (find_face N bigger false false s p N sub to_sub (0 + 1) rm = Some (true, pr_update rm (d2 (project_to_face N s sub p to_sub)) (project_to_face N s sub p to_sub) sub true)) as ->.
      { transitivity (find_face N bigger false false s p (S (N - 1)) sub to_sub 1 rm); [f_equal; lia|]. apply find_back_facet; [lia|]. rewrite Es. now apply Sg. }
      set (q := project_to_face N s sub p to_sub) in *. destruct (update_back surface rm q sub I2) as (U1 & U2 & U3 & U4 & U5 & U6 & U7 & U8). set (r' := pr_update rm (d2 q) q sub true) in *.
      exists (ai, r'). rewrite andb_true_r. split; [reflexivity|]. cbn.
      assert (plane i (d2 q)) as Pq.
      { intros w W Wi. rewrite (d2_ext q _ Q). rewrite (d2_ext (comb f w) (comb sub (fun j => w (drop (f_n f) i j)))).
        - apply (foot_closest sub mu _ Fs Tm). pose proof (sub_comb f i w sub (fun _ => 1) ltac:(lia) ltac:(lia) Esn (so_inc _ _ _ _ _ So) Wi) as Ew.
          rewrite <- W. transitivity (rsum (S (f_n sub)) (fun j => w (drop (f_n f) i j) * 1)); [apply rsum_ext; intros; ring|]. rewrite Ew. apply rsum_ext. intros; ring.
        - intros k K. symmetry. exact (sub_comb f i w sub (fun c => sx_pts s c k) ltac:(lia) ltac:(lia) Esn (so_inc _ _ _ _ _ So) Wi). }
      split; [|split; [exact U1|split; [|split; [now rewrite U8|split]]]].
      + rewrite I1. split; intros H j J; [destruct (Nat.eq_dec j i) as [->|]; [exact A|]; apply H; lia|apply H; lia].
      + intros j J Lj x Xx. destruct (Nat.eq_dec j i) as [->|]; [lra|]. apply U2, (I3 j); [lia|exact Lj|exact Xx].
      + intros j J Pj. destruct (Nat.eq_dec j i) as [->|].
        * destruct U3 as (V1 & [V2|V2]); (split; [exact V1|]); [now left|right]. intros w W Wi. eapply Rle_trans; [exact V2|now apply Pq].
        * destruct (I5 j ltac:(lia) Pj) as (X1 & X2). destruct (U4 (pr_d2 rm)) as (V1 & V2); [split; [exact X1|right; lra]|]. split; [exact V1|]. destruct V2 as [V2|V2]; [now left|].
          destruct X2 as [X2|X2]; [|right; intros w W Wi; eapply Rle_trans; [exact V2|now apply X2]].
          left. destruct (U4 (d2 q) ) as (_ & _); [split; [exact X1|now left]|]. unfold r', pr_update. rewrite X1, X2. cbn [negb implb orb andb]. now rewrite andb_false_r.
      + intros Eai Er. subst ai. assert (pr_backfacing r' = true) as Bk. { destruct (pr_exists rm) eqn:Ex; [|now apply U6]. destruct (I6 eq_refl eq_refl) as (B & _). now apply U5. }
        split; [exact Bk|]. destruct U7 as [U7|(U7 & U7' & U7'')].
        * rewrite U7 in Er. destruct (I6 eq_refl Er) as (_ & i' & sub' & mu' & Li' & H). rewrite U7. exists i', sub', mu'. split; [lia|exact H].
        * exists i, sub, mu. split; [lia|]. split; [exact So|]. split; [exact Tm|]. split; [exact U7|]. rewrite U7', U7''. split; [exact Q|reflexivity].
    - destruct (find_front false false surface N sub to_sub (0 + 1)%nat rm Fs ltac:(lia) ltac:(lia) Ts) as (r' & -> & J1 & J2 & J3 & J4).
      + right. rewrite Es. apply Rnot_lt_le. intros C. apply Sg in C. lra.
      + exact I2.
      + intros x Xx. apply (root_facet f x En Ei). exists i. split; [lia|]. exact (proj2 (facet_hull false f i la to_p sub x ltac:(lia) ltac:(cbn; lia) So) Xx).
      + exists (false, r'). rewrite andb_false_r. split; [reflexivity|]. cbn. split; [|split; [exact J1|split; [|split; [now rewrite J4|split; [|discriminate]]]]].
        * split; [discriminate|]. intros H. specialize (H i ltac:(lia)). lra.
        * intros j J Lj x Xx. destruct (Nat.eq_dec j i) as [->|].
          -- apply J3. exact (proj1 (facet_hull false f i la to_p sub x ltac:(lia) ltac:(cbn; lia) So) Xx).
          -- apply J2, (I3 j); [lia|exact Lj|exact Xx].
        * intros j J Pj. destruct (J3 (vtx sub 0)) as (X1 & X2 & _); [apply (hull_vertex N (S (f_n sub)) (vtx sub) 0%nat); lia|]. split; [exact X1|now left]. }
  unfold finish. destruct (Nat.ltb_spec (f_n f) N); [lia|]. pose proof (ft_sum f la T) as S1. destruct ai.
  - eexists. split; [reflexivity|]. left. cbn. pose proof (proj1 I1 eq_refl) as Pl. split; [reflexivity|].
    split. { exists la. rewrite EN in *. replace (sx_n s) with (S N) by lia. split; [exact Pl|]. split; [exact S1|]. intros k K. rewrite <- (Fp k K). unfold comb, vtx. rewrite EN, Ei. reflexivity. }
    destruct (I5 0%nat ltac:(lia) (Pl 0%nat ltac:(lia))) as (Ex & _). destruct (I6 eq_refl Ex) as (Bk & i & sub & mu & Li & So & Tm & Ef & Q & D).
    assert (forall k, (k < S (f_n f))%nat -> plane k (pr_d2 rm)) as Pk. { intros k K. destruct (I5 k K (Pl k K)) as (_ & [V|V]); [congruence|exact V]. }
    pose proof (so_sound _ _ _ _ _ So) as Fs. pose proof (so_n _ _ _ _ _ So) as Esn.
    (* weights of the foot with respect to all vertices *)
    set (W := push (f_n f) (drop (f_n f) i) mu).
    assert (rsum (S (f_n f)) W = 1) as SW. { pose proof (ft_sum sub mu Tm) as Sm. rewrite Esn in Sm. replace (S (f_n f - 1)) with (f_n f) in Sm by lia. rewrite <- Sm. apply push_total. intros j J. now apply drop_lt. }
    assert (W i = 0) as Wi. { unfold W, push. rewrite (rsum_ext _ _ (fun _ => 0)); [apply rsum_zero|]. intros j J. destruct (Nat.eqb_spec (drop (f_n f) i j) i) as [X|]; [|reflexivity]. now apply drop_not in X; try lia. }
    assert (forall k, comb f W k = comb sub mu k) as CW.
    { intros k. unfold comb. rewrite Esn. replace (S (f_n f - 1)) with (f_n f) by lia. unfold W. rewrite (push_sum (f_n f) (S (f_n f)) (drop (f_n f) i) mu (fun j => vtx f j k)) by (intros j J; now apply drop_lt).
      apply rsum_ext. intros j J. unfold vtx. now rewrite (so_inc _ _ _ _ _ So j J). }
    assert (same N (pr_point rm) (comb f W)) as QW by (intros k K; rewrite CW; now apply Q).
    assert (forall k, (k < S (f_n f))%nat -> 0 <= W k) as PW.
    { intros k K. apply Rnot_lt_le. intros Neg. pose proof (Pl k K) as Lk. set (t := la k / (la k - W k)). assert (t * (la k - W k) = la k) as Et by (unfold t; field; lra).
      assert (0 < t) as T0 by (apply Rdiv_lt_0_compat; lra). assert (t < 1) as T1. { apply (Rmult_lt_reg_r (la k - W k)); [lra|]. rewrite Et. lra. }
      clearbody t. set (w := fun j => (1 - t) * la j + t * W j).
      assert (rsum (S (f_n f)) w = 1) as Sw by (unfold w; rewrite rsum_plus, !rsum_scal, S1, SW; ring).
      pose proof (Pk k K w Sw ltac:(unfold w; lra)) as Ineq. rewrite D in Ineq. rewrite (d2_ext _ _ QW) in Ineq.
      assert (same N (vec_sub p (comb f w)) (fun c => t * vec_sub p (comb f W) c)) as Sv.
      { intros c C. unfold vec_sub. assert (comb f w c = (1 - t) * comb f la c + t * comb f W c) as ->.
        { unfold comb. rewrite <- !rsum_scal, <- rsum_plus. apply rsum_ext. intros j _. unfold w. ring. }
        rewrite (Fp c C). ring. }
      assert (d2 (comb f w) = t * (t * d2 (comb f W))) as Ed. { unfold d2 at 1. rewrite (inner_ext N _ _ _ _ Sv Sv), inner_mul_l, inner_sym, inner_mul_l. reflexivity. }
      rewrite Ed in Ineq. pose proof (d2_nonneg (comb f W)) as Nn.
      assert (d2 (comb f W) = 0) as Z.
      { destruct (Rle_lt_or_eq_dec 0 _ Nn) as [Pz|Pz]; [|lra]. exfalso. assert (t * t < 1) as Tt. { pose proof (Rmult_lt_compat_l t t 1 T0 T1). lra. }
        pose proof (Rmult_lt_compat_r (d2 (comb f W)) (t * t) 1 Pz Tt). lra. }
      apply inner_zero in Z. assert (la i - W i = 0) as Zi; [|specialize (Pl i ltac:(lia)); lra].
      apply (sf_ai f F (fun j => la j - W j)); [|intros c C|lia].
      - rewrite (rsum_ext _ _ (fun j => la j + (-1) * W j)) by (intros; ring). rewrite rsum_plus, rsum_scal, S1, SW. ring.
      - rewrite (rsum_ext _ _ (fun j => la j * vtx f j c + (-1) * (W j * vtx f j c))) by (intros; ring). rewrite rsum_plus, rsum_scal.
        change (comb f la c + (-1) * comb f W c = 0). rewrite (Fp c C). specialize (Z c C). unfold vec_sub in Z. lra. }
    assert (facet false f i (pr_point rm)) as Fi. { exists W. split; [exact PW|]. split; [exact SW|]. split; [exact Wi|exact QW]. }
    split; [|split; [rewrite Ef; lia|rewrite Ef; exists mu; now split]].
    unfold closest_in. cbn. split; [exact Ex|]. split; [now rewrite Ef|]. split; [exact D|]. split; [rewrite Ef; exact (proj1 (facet_hull false f i la to_p sub _ ltac:(lia) ltac:(cbn; lia) So) Fi)|].
    split; [apply (root_facet f _ En Ei); exists i; split; [lia|exact Fi]|]. intros x X. apply (root_facet f _ En Ei) in X as (k & Lk & w & W0 & Sw & Wk & P).
    rewrite (d2_ext x _ P). apply (Pk k ltac:(lia) w Sw Wk).
  - exists rm. split; [reflexivity|]. right. split; [exact I4|].
    assert (exists i, (i < cnt false f)%nat /\ la i <= 0) as Ne.
    { destruct (forall_exists_dec (S (f_n f)) la) as [P|(i & Li & La)]; [apply I1 in P; discriminate|]. exists i. split; [exact Li|exact La]. }
    split; [|split; [exact I2|]].
    + intros (w & Wp & Sw & P). destruct Ne as (i & Li & La). cbn in Li. assert (w i = la i) as Ew; [|specialize (Wp i ltac:(lia)); lra].
      enough (w i - la i = 0) by lra. apply (sf_ai f F (fun j => w j - la j)); [|intros c C|lia].
      * rewrite (rsum_ext _ _ (fun j => w j + (-1) * la j)) by (intros; ring). rewrite rsum_plus, rsum_scal, S1. replace (S (f_n f)) with (sx_n s) by lia. rewrite Sw. ring.
      * rewrite (rsum_ext _ _ (fun j => w j * vtx f j c + (-1) * (la j * vtx f j c))) by (intros; ring). rewrite rsum_plus, rsum_scal.
        change (comb f w c + (-1) * comb f la c = 0). rewrite (Fp c C), (P c C). unfold comb, vtx. rewrite Ei. replace (S (f_n f)) with (sx_n s) by lia. ring.
    + intros x X. apply (root_hull false f x En Ei) in X. destruct (leave false f la x F T Ne X) as (i & y & Li & La & Fy & Dy). destruct (I3 i Li La y Fy) as (C1 & C2 & C3). split; [exact C1|]. split; [exact C2|lra].
Qed.
(** The direction reported as normal. *)
Definition to_p_of (f : face) : vec := vec_sub p (sx_pts s (f_inc f (f_n f))).
Lemma flip_dir (o to_p e : vec) c : ~ all_zero N o -> same N e (fun i => c * o i) -> vinner N to_p o = vinner N e o ->
  let nd := if Rlt_dec (dot N o to_p) 0 then vec_neg o else o in
  ~ all_zero N nd /\ (~ all_zero N e -> exists k, 0 < k /\ same N nd (fun i => k * e i)).
Proof.
  intros Zo He Ht. cbv zeta. rewrite VecNProofs.dot_is, inner_sym, Ht. pose proof (inner_self_pos N o Zo) as Po.
  assert (vinner N e o = c * vinner N o o) as Ee by (rewrite (inner_ext N e _ o o He (same_refl N o)), inner_mul_l; reflexivity). rewrite Ee. split.
  - destruct (Rlt_dec _ 0); [|exact Zo]. intros Z. apply Zo. intros i L. specialize (Z i L). unfold vec_neg in Z. lra.
  - intros Ze. assert (c <> 0) as Cn. { intros ->. apply Ze. intros i L. rewrite (He i L). ring. }
    destruct (Rlt_dec (c * vinner N o o) 0) as [A|A].
    + assert (c < 0) as Cneg. { apply Rnot_le_lt. intros C. pose proof (Rmult_le_pos c _ C (Rlt_le _ _ Po)). lra. }
      exists (/ - c). split; [apply Rinv_0_lt_compat; lra|]. intros i L. rewrite (He i L). unfold vec_neg. field. lra.
    + assert (0 < c) as Cpos. { apply Rnot_le_lt. intros C. assert (c < 0) as C' by lra. pose proof (Rmult_lt_0_compat (- c) _ ltac:(lra) Po). lra. }
      exists (/ c). split; [apply Rinv_0_lt_compat; lra|]. intros i L. rewrite (He i L). field. lra.
Qed.
Lemma normal_ok r la : sound_face (pr_face r) -> (f_n (pr_face r) < N)%nat -> foot (pr_face r) la -> same N (pr_point r) (comb (pr_face r) la) ->
  let nd := normal_direction N s p r in (f_n (pr_face r) = (N - 1)%nat -> ~ all_zero N nd) /\
  (forall x y, fhull false (pr_face r) x -> fhull false (pr_face r) y -> vinner N nd (vec_sub x y) = 0) /\
  (~ same N p (pr_point r) -> exists k, 0 < k /\ same N nd (fun i => k * (p i - pr_point r i))).
Proof.
  intros F Ln T Q. cbv zeta. set (f := pr_face r) in *. set (e := vec_sub p (comb f la)).
  assert (forall j, (j < f_n f)%nat -> vinner N e (f_bases f j) = 0) as Pe by apply (ft_span f la T).
  assert (forall i, to_p_of f i = e i + 1 * rsum (f_n f) (fun j => la j * f_bases f j i)) as Te.
  { intros i. unfold to_p_of, e, vec_sub. rewrite (comb_root f la i (sf_bases f F) (ft_sum f la T)). unfold vtx. ring. }
  assert (~ same N p (pr_point r) -> ~ all_zero N e) as Ze. { intros H Z. apply H. intros i L. rewrite (Q i L). specialize (Z i L). unfold e, vec_sub in Z. lra. }
  assert (forall nd k, same N nd (fun i => k * e i) -> same N nd (fun i => k * (p i - pr_point r i))) as Ek.
  { intros nd k H i L. rewrite (H i L), (Q i L). reflexivity. }
  enough (let nd := normal_direction N s p r in (f_n f = (N - 1)%nat -> ~ all_zero N nd) /\ (forall j, (j < f_n f)%nat -> vinner N nd (f_bases f j) = 0) /\
    (~ all_zero N e -> exists k, 0 < k /\ same N nd (fun i => k * e i))) as (A & B & C).
  { split; [exact A|]. split.
    - intros x y (w & _ & Sw & X) (v & _ & Sv & Y). rewrite inner_diff_r, !(inner_sym N (normal_direction N s p r)).
      assert (forall w z, rsum (S (f_n f)) w = 1 -> same N z (comb f w) -> vinner N z (normal_direction N s p r) = vinner N (vtx f (f_n f)) (normal_direction N s p r)) as G.
      { intros w0 z Sw0 Z. rewrite (inner_ext N z (fun i => vtx f (f_n f) i + 1 * rsum (f_n f) (fun j => w0 j * f_bases f j i)) _ (normal_direction N s p r)); [| |apply same_refl].
        - rewrite inner_add_mul. rewrite (hull_inner N (f_n f) (f_bases f) w0 (fun i => rsum (f_n f) (fun j => w0 j * f_bases f j i)) _ (same_refl N _)).
          rewrite (rsum_ext _ _ (fun _ => 0)); [rewrite rsum_zero; ring|]. intros j J. rewrite inner_sym, (B j J). ring.
        - intros i L. rewrite (Z i L), (comb_root f w0 i (sf_bases f F) Sw0). ring. }
      rewrite (G w x Sw X), (G v y Sv Y). ring.
    - intros H. destruct (C (Ze H)) as (k & K & Nk). exists k. split; [exact K|now apply Ek]. }
  cbv zeta. unfold normal_direction. fold f. cbv zeta. change (vec_sub p (sx_pts s (f_inc f (f_n f)))) with (to_p_of f).
  assert (same N (vec_sub p (pr_point r)) e) as Ep by (intros i L; unfold vec_sub, e; rewrite (Q i L); reflexivity).
  assert (forall u, (forall j, (j < f_n f)%nat -> vinner N (f_bases f j) u = 0) -> vinner N (to_p_of f) u = vinner N e u) as Tu.
  { intros u U. rewrite (inner_ext N (to_p_of f) _ u u (fun i _ => Te i) (same_refl N u)), inner_add_mul.
    rewrite (hull_inner N (f_n f) (f_bases f) la (fun i => rsum (f_n f) (fun j => la j * f_bases f j i)) u (same_refl N _)).
    rewrite (rsum_ext _ _ (fun _ => 0)); [rewrite rsum_zero; ring|]. intros j J. rewrite (U j J). ring. }
  destruct (Nat.eqb_spec (f_n f) 1) as [E1|E1].
  - pose proof (span_pos f 0 F ltac:(lia)) as Pv. set (v := f_bases f 0%nat) in *. destruct LN as [E2|E3].
    + rewrite E2. cbn [Nat.eqb]. set (d := fun i : nat => if (i =? 0)%nat then v 1%nat else - v 0%nat).
      pose proof (Pe 0%nat ltac:(lia)) as P0. fold v in P0.
      assert (~ all_zero N d) as Zd. { intros Z. rewrite E2 in *. pose proof (Z 0%nat ltac:(lia)) as Z0. pose proof (Z 1%nat ltac:(lia)) as Z1. unfold d in Z0, Z1. cbn in Z0, Z1. unfold VecNSpec.inner in Pv. cbn in Pv. rewrite Z0 in Pv.
        replace (v 0%nat) with 0 in Pv by lra. lra. }
      assert (vinner N v d = 0) as Vd. { rewrite E2. unfold VecNSpec.inner, d. cbn. ring. }
      pose proof (flip_dir d (to_p_of f) e ((e 0%nat * v 1%nat - e 1%nat * v 0%nat) / vinner N v v) Zd) as Fl. cbv zeta in Fl. rewrite E2 in Fl.
      change (dot 2 (fun i : nat => if (i =? 0)%nat then v 1%nat else - v 0%nat) (to_p_of f)) with (dot 2 d (to_p_of f)).
      change (fun i : nat => if (i =? 0)%nat then v 1%nat else - v 0%nat) with d.
      destruct Fl as [FA FB].
      * rewrite E2 in P0, Pv. unfold VecNSpec.inner in P0, Pv. cbn in P0, Pv. intros i L. assert (i = 0 \/ i = 1)%nat as [->| ->] by lia; unfold d, VecNSpec.inner; cbn; field_simplify_eq; try lra.
        -- pose proof (f_equal (fun z => z * v 0%nat) P0) as P1. cbv beta in P1. lra.
        -- pose proof (f_equal (fun z => z * v 1%nat) P0) as P1. cbv beta in P1. lra.
      * rewrite <- E2. apply Tu. intros j J. assert (j = 0)%nat as -> by lia. exact Vd.
      * split; [intros _; exact FA|]. split; [|exact FB]. intros j J. assert (j = 0)%nat as -> by lia. fold v. rewrite E2 in Vd. destruct (Rlt_dec _ 0); rewrite ?inner_neg_l, inner_sym, Vd; ring.
    + rewrite E3. cbn [Nat.eqb]. assert (same N (orthogonal3 (K := R_field) (fun j => if (j =? 0)%nat then orthogonal3 (K := R_field) (fun j0 => if (j0 =? 0)%nat then v else to_p_of f) else v))
        (fun i => vinner N v v * e i)) as Nd.
      { set (t := to_p_of f) in *. assert (vinner N e v = 0) as P0 by (apply (Pe 0%nat); lia).
        assert (forall i, e i = t i - la 0%nat * v i) as Ee by (intros i; rewrite (Te i), E1; cbn [rsum]; unfold v; ring).
        assert (vinner N t v = la 0%nat * vinner N v v) as Tv.
        { rewrite (inner_ext N e (fun i => t i + (- la 0%nat) * v i) v v) in P0; [rewrite inner_add_mul in P0; lra|intros i _; rewrite Ee; ring|apply same_refl]. }
        rewrite E3 in *. intros i L. rewrite Ee. replace (vinner 3 v v * (t i - la 0%nat * v i)) with (vinner 3 v v * t i - (la 0%nat * vinner 3 v v) * v i) by ring. rewrite <- Tv. unfold VecNSpec.inner. cbn [rsum].
        assert (i = 0 \/ i = 1 \/ i = 2)%nat as [->|[->| ->]] by lia; unfold orthogonal3; cbn; ring. }
      rewrite E3 in *. split; [lia|]. split.
      * intros j J. assert (j = 0)%nat as -> by lia. fold v. rewrite (inner_ext 3 _ _ v v Nd (same_refl 3 v)), inner_mul_l. pose proof (Pe 0%nat ltac:(lia)) as P0. fold v in P0. rewrite P0. ring.
      * intros _. exists (vinner 3 v v). split; [exact Pv|exact Nd].
  - destruct ((2 <? N) && (f_n f =? N - 1))%nat eqn:C.
    + apply andb_prop in C as [C1 C2]. apply Nat.ltb_lt in C1. apply Nat.eqb_eq in C2. assert (N = 3)%nat as E3 by lia. assert (f_n f = 2)%nat as E2 by lia. set (o := f_bases f (f_n f)).
      assert (forall j, (j < f_n f)%nat -> vinner N (f_bases f j) o = 0) as Oo by (intros j J; apply (sf_orth f F); lia).
      assert (~ all_zero N o) as Zo.
      { intros Z. pose proof (sf_ind f F ltac:(lia) (fun k => if (k =? f_n f)%nat then 1 else 0)) as H.
        assert ((if (f_n f =? f_n f)%nat then 1 else 0) = 0) as X; [apply H; [|lia]|rewrite Nat.eqb_refl in X; lra]. intros i L.
        rewrite (rsum_ext _ _ (fun k => if (k =? f_n f)%nat then f_bases f k i else 0)) by (intros k _; destruct (k =? f_n f)%nat; ring).
        rewrite (rsum_one N (f_n f) (fun k => f_bases f k i)) by lia. now apply Z. }
      pose proof (inner_self_pos N o Zo) as Po. set (c := vinner N e o / vinner N o o).
      assert (all_zero N (fun i => e i + (- c) * o i)) as Z.
      { apply (orthogonal_to_all N (f_bases f)); [apply (sf_ind f F); lia|]. intros j J. rewrite inner_sym, inner_add_mul.
        destruct (Nat.eq_dec j (f_n f)) as [->|D].
        - fold o. unfold c. field. lra.
        - rewrite (inner_sym N o), (Oo j ltac:(lia)), (Pe j ltac:(lia)). ring. }
      destruct (flip_dir o (to_p_of f) e c Zo) as [FA FB]; [intros i L; specialize (Z i L); cbv beta in Z; lra|now apply Tu|].
      split; [intros _; exact FA|]. split; [|exact FB]. intros j J. destruct (Rlt_dec _ 0); rewrite ?inner_neg_l, inner_sym, (Oo j J); ring.
    + assert (f_n f = 0)%nat as E0. { apply andb_false_iff in C as [C|C]; [apply Nat.ltb_ge in C|apply Nat.eqb_neq in C]; lia. }
      rewrite E0. split; [lia|]. split; [lia|]. intros _. exists 1. split; [lra|]. intros i L. rewrite (Ep i L). ring.
Qed.
(** ** The operations of Simplex *)
Lemma closest_nearest X r : closest_in false X r -> is_nearest N X p (pr_point r).
Proof.
  intros (_ & _ & D & _ & I & H). split; [exact I|]. intros x X1. specialize (H x X1). rewrite D, !d2_is in H.
  apply (proj2 (le_sq _ _ (distance_nonneg N p (pr_point r)) (distance_nonneg N p x))). exact H.
Qed.
Lemma face_pts r j : (j < S (f_n (pr_face r)))%nat -> sx_pts (projected_face s r) j = vtx (pr_face r) j.
Proof. intros J. unfold projected_face, simplex_of. cbn [sx_pts]. destruct (Nat.ltb_spec j (f_n (pr_face r) + 1)); [reflexivity|lia]. Qed.
Lemma face_count r : sx_n (projected_face s r) = S (f_n (pr_face r)).
Proof. unfold projected_face, simplex_of. cbn. lia. Qed.
Lemma face_chosen r : sound_face (pr_face r) -> chosen_from (sx_n (projected_face s r)) (sx_pts (projected_face s r)) (sx_n s) (sx_pts s).
Proof.
  intros F. exists (f_inc (pr_face r)). rewrite face_count. split; [exact (sf_inc _ F)|]. split; [exact (sf_inj _ F)|]. intros j J. now rewrite face_pts.
Qed.
Lemma face_hull r x : fhull false (pr_face r) x <-> hull N (sx_n (projected_face s r)) (sx_pts (projected_face s r)) x.
Proof.
  rewrite face_count. split; intros (w & W & S1 & P); exists w; (split; [exact W|]; split; [exact S1|]); intros i L; rewrite (P i L); apply rsum_ext; intros j J; now rewrite face_pts.
Qed.
Lemma face_inside r la : foot (pr_face r) la -> same N (pr_point r) (comb (pr_face r) la) -> (forall j, (j < S (f_n (pr_face r)))%nat -> 0 < la j) ->
  inside_hull N (sx_n (projected_face s r)) (sx_pts (projected_face s r)) (pr_point r).
Proof.
  intros T Q P. exists la. rewrite face_count. split; [exact P|]. split; [apply (ft_sum _ _ T)|]. intros i L. rewrite (Q i L). unfold comb. apply rsum_ext. intros j J. now rewrite face_pts.
Qed.
Lemma surface_whole x : surface x -> whole x.
Proof. intros (w & i & _ & _ & W & S1 & P). exists w. now repeat split. Qed.
Lemma inside_whole x : inside_hull N (sx_n s) (sx_pts s) x -> whole x.
Proof. intros (w & W & S1 & P). exists w. split; [intros j J; now apply Rlt_le, W|]. now split. Qed.
Lemma d2_self x : same N x p -> d2 x = 0.
Proof. intros H. unfold d2. apply inner_zero. intros i L. unfold vec_sub. rewrite (H i L). ring. Qed.
Lemma d2_zero x : d2 x = 0 -> same N x p.
Proof. intros H i L. apply inner_zero in H. specialize (H i L). unfold vec_sub in H. lra. Qed.
Lemma clip_ok : exists q fc, simplex_clip N bigger s p inc0 dmax = Some (q, fc) /\ is_nearest N whole p q /\
  chosen_from (sx_n fc) (sx_pts fc) (sx_n s) (sx_pts s) /\ inside_hull N (sx_n fc) (sx_pts fc) q.
Proof.
  unfold simplex_clip. assert (forall r, front_ok false whole r -> (forall x, whole x -> covers r x) -> is_nearest N whole p (pr_point r) /\
    chosen_from (sx_n (projected_face s r)) (sx_pts (projected_face s r)) (sx_n s) (sx_pts s) /\ inside_hull N (sx_n (projected_face s r)) (sx_pts (projected_face s r)) (pr_point r)) as G.
  { intros r A B. destruct (front_closest false whole r A (whole_some false) B) as (C & _ & _ & la & T & Q & P). split; [now apply closest_nearest|]. split; [apply face_chosen; apply C|now apply (face_inside r la)]. }
  destruct (Nat.eq_dec (sx_n s) (N + 1)) as [E|E].
  - destruct (full_clip false E) as (r & -> & [(_ & Ep & _ & I & F & _ & En & Ei)|(_ & A & B)]).
    + exists (pr_point r), (projected_face s r). split; [reflexivity|]. rewrite Ep. split; [|split; [now apply face_chosen|]].
      * split; [now apply inside_whole|]. intros x _. replace (distance N p p) with 0; [apply distance_nonneg|]. apply eq_sq; [lra|apply distance_nonneg|].
        rewrite <- d2_is, (d2_self p (same_refl N p)). ring.
      * destruct I as (w & W & S1 & P). exists w. rewrite face_count, En. replace (S N) with (sx_n s) by lia. split; [exact W|]. split; [exact S1|]. intros i L. rewrite (P i L). apply rsum_ext. intros j J.
        rewrite face_pts by lia. unfold vtx. now rewrite Ei.
    + exists (pr_point r), (projected_face s r). split; [reflexivity|]. now apply G.
  - destruct (flat_projection false true ltac:(lia)) as (r & -> & A & B & _). exists (pr_point r), (projected_face s r). split; [reflexivity|]. now apply G.
Qed.
Lemma project_flat : (sx_n s < N + 1)%nat -> exists q fc, simplex_project N bigger s p inc0 dmax = Some (q, fc) /\ is_nearest N whole p q /\
  chosen_from (sx_n fc) (sx_pts fc) (sx_n s) (sx_pts s) /\ inside_hull N (sx_n fc) (sx_pts fc) q.
Proof.
  intros L. unfold simplex_project. destruct (flat_projection false false L) as (r & -> & A & B & _). exists (pr_point r), (projected_face s r). split; [reflexivity|].
  destruct (front_closest false whole r A (whole_some false) B) as (C & _ & _ & la & T & Q & P). split; [now apply closest_nearest|]. split; [apply face_chosen; apply C|now apply (face_inside r la)].
Qed.
(** The common content of the results of a full projection. *)
Lemma surface_some : (sx_n s = N + 1)%nat -> exists x, surface x.
Proof.
  intros E. exists (sx_pts s 0%nat), (fun j => if (j =? 0)%nat then 1 else 0), 1%nat. split; [lia|]. split; [reflexivity|]. split; [intros j _; destruct (j =? 0)%nat; lra|].
  split; [rewrite (rsum_one (sx_n s) 0%nat (fun _ => 1)) by lia; reflexivity|]. intros c _. rewrite (rsum_ext _ _ (fun j => if (j =? 0)%nat then sx_pts s j c else 0)) by (intros j _; destruct (j =? 0)%nat; ring).
  rewrite (rsum_one (sx_n s) 0%nat (fun j => sx_pts s j c)) by lia. reflexivity.
Qed.
Lemma full_result : (sx_n s = N + 1)%nat -> exists r, projection N bigger false false s p inc0 dmax = Some r /\ closest_in false surface r /\ (f_n (pr_face r) < N)%nat /\
  (exists mu, foot (pr_face r) mu /\ same N (pr_point r) (comb (pr_face r) mu)) /\ (pr_contains r = true <-> inside_hull N (sx_n s) (sx_pts s) p) /\
  (pr_contains r = false -> whole p -> pr_d2 r <= 0).
Proof.
  intros E. destruct (full_project E) as (r & Er & [(C & I & K & En & M)|(C & I & A & B)]); exists r; (split; [exact Er|]).
  - split; [exact K|]. split; [lia|]. split; [exact M|]. split; [split; [intros _; exact I|intros _; exact C]|congruence].
  - destruct (front_closest false surface r A (surface_some E) (fun x X => B x (surface_whole x X))) as (K & _ & Ln & la & T & Q & P). split; [exact K|]. split; [exact Ln|]. split; [exists la; now split|].
    split; [split; [congruence|contradiction]|]. intros _ W. destruct (B p W) as (_ & _ & H). rewrite (d2_self p (same_refl N p)) in H. exact H.
Qed.
Lemma project_full : (sx_n s = N + 1)%nat -> exists q fc, simplex_project N bigger s p inc0 dmax = Some (q, fc) /\ is_nearest N surface p q /\
  chosen_from (sx_n fc) (sx_pts fc) (sx_n s) (sx_pts s) /\ (sx_n fc <= N)%nat /\ hull N (sx_n fc) (sx_pts fc) q.
Proof.
  intros E. unfold simplex_project. destruct (full_result E) as (r & -> & K & Ln & _). exists (pr_point r), (projected_face s r). split; [reflexivity|].
  split; [now apply closest_nearest|]. split; [apply face_chosen; apply K|]. split; [rewrite face_count; lia|]. apply face_hull. apply K.
Qed.
Lemma sqrt_d2 x : sqrt (d2 x) = distance N p x.
Proof. rewrite d2_is. apply sqrt_square, distance_nonneg. Qed.
Lemma sdf_full : (sx_n s = N + 1)%nat -> exists v nd, simplex_sdf N bigger s p inc0 dmax = Some (v, nd) /\ signed_distance N whole surface p v /\ (v < 0 <-> inside_hull N (sx_n s) (sx_pts s) p).
Proof.
  intros E. unfold simplex_sdf. destruct (full_result E) as (r & -> & K & Ln & _ & C & Z). eexists _, _. split; [reflexivity|]. pose proof (closest_nearest surface r K) as Nr.
  destruct K as (_ & _ & D & Hf & Sp & Cl). rewrite D, sqrt_d2. pose proof (distance_nonneg N p (pr_point r)) as Dn.
  assert (pr_d2 r = distance N p (pr_point r) * distance N p (pr_point r)) as D' by (rewrite D; apply d2_is).
  assert (inside_hull N (sx_n s) (sx_pts s) p -> distance N p (pr_point r) <> 0) as In.
  { intros (w & W & S1 & P) Dz. rewrite Dz, Rmult_0_l in D'. rewrite D in D'. apply d2_zero in D'. destruct Sp as (u & i & Li & Ui & U & Su & Pu).
    assert (w i - u i = 0) as X; [|rewrite Ui in X; specialize (W i Li); lra]. apply (Ai (fun j => w j - u j)); [|intros c L|exact Li].
    - rewrite (rsum_ext _ _ (fun j => w j + (-1) * u j)) by (intros; ring). rewrite rsum_plus, rsum_scal, S1, Su. ring.
    - rewrite (rsum_ext _ _ (fun j => w j * sx_pts s j c + (-1) * (u j * sx_pts s j c))) by (intros; ring). rewrite rsum_plus, rsum_scal. rewrite <- (P c L), <- (Pu c L), (D' c L). ring. }
  destruct (pr_contains r) eqn:Ec.
  - pose proof (proj1 C eq_refl) as I. specialize (In I). split; [|split; [intros _; exact I|lra]]. split.
    + exists (pr_point r). split; [exact Nr|]. rewrite Rabs_left1 by lra. ring.
    + split; [intros _; now apply inside_whole|lra].
  - split; [|split; [lra|intros I; apply C in I; discriminate]]. split.
    + exists (pr_point r). split; [exact Nr|]. rewrite Rmult_1_r, Rabs_pos_eq by exact Dn. reflexivity.
    + rewrite Rmult_1_r. split.
      * intros Le. assert (distance N p (pr_point r) = 0) as Dz by lra. rewrite Dz, Rmult_0_l in D'. rewrite D in D'. apply d2_zero in D'.
        apply (hull_respects N (sx_n s) (sx_pts s) (pr_point r) p); [exact D'|now apply surface_whole].
      * intros W. specialize (Z eq_refl W). rewrite D' in Z. assert (distance N p (pr_point r) * distance N p (pr_point r) = 0) as Sz by (pose proof (Rmult_le_pos _ _ Dn Dn); lra).
        apply Rmult_integral in Sz as [Q|Q]; lra.
Qed.
Lemma sdf_flat : (sx_n s < N + 1)%nat -> exists q nd, simplex_sdf N bigger s p inc0 dmax = Some (distance N p q, nd) /\ is_nearest N whole p q.
Proof.
  intros L. unfold simplex_sdf. destruct (flat_projection false false L) as (r & -> & A & B & C). destruct (front_closest false whole r A (whole_some false) B) as (K & _).
  exists (pr_point r). eexists. rewrite C, Rmult_1_r. split; [|now apply closest_nearest]. destruct K as (_ & _ & D & _). rewrite D, sqrt_d2. reflexivity.
Qed.
Lemma normal_dir : exists q fc nd, simplex_project N bigger s p inc0 dmax = Some (q, fc) /\ simplex_normal N bigger s p inc0 dmax = Some nd /\
  (forall v m, simplex_sdf N bigger s p inc0 dmax = Some (v, m) -> m = nd) /\
  (sx_n fc = N -> ~ all_zero N nd) /\ (forall x y, hull N (sx_n fc) (sx_pts fc) x -> hull N (sx_n fc) (sx_pts fc) y -> vinner N nd (vec_sub x y) = 0) /\
  (~ same N p q -> exists k, 0 < k /\ same N nd (fun i => k * (p i - q i))).
Proof.
  assert (exists r, projection N bigger false false s p inc0 dmax = Some r /\ sound_face (pr_face r) /\ (f_n (pr_face r) < N)%nat /\ exists mu, foot (pr_face r) mu /\ same N (pr_point r) (comb (pr_face r) mu)) as (r & Er & F & Ln & mu & T & Q).
  { destruct (Nat.eq_dec (sx_n s) (N + 1)) as [E|E].
    - destruct (full_result E) as (r & Er & K & Ln & M & _). exists r. split; [exact Er|]. split; [apply K|]. now split.
    - destruct (flat_projection false false ltac:(lia)) as (r & Er & A & B & C). destruct (front_closest false whole r A (whole_some false) B) as (K & _ & Ln & la & T & Q & _). exists r. split; [exact Er|]. split; [apply K|]. split; [exact Ln|]. exists la. now split. }
  destruct (normal_ok r mu F Ln T Q) as (A & B & C). unfold simplex_project, simplex_normal, simplex_sdf. rewrite Er. exists (pr_point r), (projected_face s r), (normal_direction N s p r).
  split; [reflexivity|]. split; [reflexivity|]. split; [intros v m H; injection H; congruence|]. split; [rewrite face_count; intros H; apply A; lia|]. split; [|exact C].
  intros x y X Y. apply B; now apply face_hull.
Qed.
(** An inner point is not on the surface. *)
Lemma inside_off_surface q : inside_hull N (sx_n s) (sx_pts s) p -> surface q -> ~ same N p q.
Proof.
  intros (w & W & S1 & P) (u & i & Li & Ui & U & Su & Pu) Z. assert (w i - u i = 0) as X; [|rewrite Ui in X; specialize (W i Li); lra]. apply (Ai (fun j => w j - u j)); [|intros c L|exact Li].
  - rewrite (rsum_ext _ _ (fun j => w j + (-1) * u j)) by (intros; ring). rewrite rsum_plus, rsum_scal, S1, Su. ring.
  - rewrite (rsum_ext _ _ (fun j => w j * sx_pts s j c + (-1) * (u j * sx_pts s j c))) by (intros; ring). rewrite rsum_plus, rsum_scal. rewrite <- (P c L), <- (Pu c L), (Z c L). ring.
Qed.
Lemma inward_normal : (sx_n s = N + 1)%nat -> inside_hull N (sx_n s) (sx_pts s) p -> exists q fc nd, simplex_project N bigger s p inc0 dmax = Some (q, fc) /\ simplex_normal N bigger s p inc0 dmax = Some nd /\
  surface q /\ 0 < vinner N nd (vec_sub p q).
Proof.
  intros E I. destruct normal_dir as (q & fc & nd & Eq & En & _ & _ & _ & K). destruct (project_full E) as (q' & fc' & Eq' & Nr & _). rewrite Eq in Eq'. injection Eq' as <- <-.
  exists q, fc, nd. split; [exact Eq|]. split; [exact En|]. split; [apply Nr|]. pose proof (inside_off_surface q I (proj1 Nr)) as Ns. destruct (K Ns) as (k & Kp & Hk).
  rewrite (inner_ext N nd _ (vec_sub p q) (vec_sub p q) Hk (same_refl N _)). change (fun i => k * (p i - q i)) with (fun i => k * vec_sub p q i). rewrite inner_mul_l. apply Rmult_lt_0_compat; [exact Kp|].
  apply inner_self_pos. intros Z. apply Ns. intros i L. specialize (Z i L). unfold vec_sub in Z. lra.
Qed.
End Faces.
