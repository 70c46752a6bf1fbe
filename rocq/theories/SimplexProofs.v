From Coq Require Import List Reals Arith Lra Lia Bool FunctionalExtensionality.
From Verif Require Import Fld RFld LinSpec FldLemmas PerlinSpec PerlinProofs ZonalProofs VecNModel VecNSpec VecNProofs RayModel Ord RectModel RectSpec RectArithModel RectArithProofs
  PluModel PluProofs SolveProofs DetProofs DetInvModel DetInvProofs InvRawProofs CylinderProofs OrthoModel AffineModel AffineSpec AffineProofs ShapeSpec ShapeProofs SphereModel SphereProofs OrientedSpec OrientedProofs SimplexSpec SimplexModel.
Import ListNotations.
Open Scope R_scope.

(** ** Vertices *)
Section Verts.
Variable N : nat.
Lemma insert_ok s p : (sx_n s <= N)%nat ->
  sx_n (simplex_insert N s p) = S (sx_n s) /\ sx_pts (simplex_insert N s p) (sx_n s) = p /\ forall j, (j < sx_n s)%nat -> sx_pts (simplex_insert N s p) j = sx_pts s j.
Proof.
  intros L. unfold simplex_insert. destruct (Nat.ltb_spec (sx_n s) (N + 1)); [|lia]. cbn [sx_n sx_pts]. rewrite Nat.eqb_refl. repeat split; [lia|].
  intros j J. destruct (Nat.eqb_spec j (sx_n s)); [lia|reflexivity].
Qed.
Lemma insert_full s p : (N < sx_n s)%nat -> simplex_insert N s p = s.
Proof. intros L. unfold simplex_insert. destruct (Nat.ltb_spec (sx_n s) (N + 1)); [lia|reflexivity]. Qed.
Lemma exclude_ok s i : (i < sx_n s)%nat -> sx_n (simplex_exclude s i) = (sx_n s - 1)%nat /\
  forall j, (j < sx_n s - 1)%nat -> sx_pts (simplex_exclude s i) j = sx_pts s (if (j <? i)%nat then j else S j).
Proof.
  intros L. split; [reflexivity|]. intros j J. cbn [simplex_exclude sx_pts].
  destruct (Nat.leb_spec i j), (Nat.ltb_spec j (sx_n s - 1)), (Nat.ltb_spec j i); try lia; cbn [andb]; [now rewrite Nat.add_1_r|reflexivity].
Qed.
Lemma excluded_ok s i : (i < sx_n s)%nat -> sx_n (simplex_excluded s i) = (sx_n s - 1)%nat /\
  forall j, (j < sx_n s - 1)%nat -> sx_pts (simplex_excluded s i) j = sx_pts s (if (j <? i)%nat then j else S j).
Proof.
  intros L. split; [reflexivity|]. unfold simplex_excluded. cbn [sx_pts].
  assert (forall m, let r := fold_left (fun (r : nat * (nat -> vec)) j => if (i =? j)%nat then r else (fst r + 1, fun k => if (k =? fst r)%nat then sx_pts s j else snd r k)%nat) (seq 0 m) (0%nat, fun _ _ => 0) in
    fst r = (if (m <=? i)%nat then m else m - 1)%nat /\ forall j, (j < fst r)%nat -> snd r j = sx_pts s (if (j <? i)%nat then j else S j)) as F.
  { induction m as [|m IH].
    - cbn. split; [reflexivity|lia].
    - rewrite seq_S, fold_left_app. cbv zeta in IH. destruct (fold_left _ (seq 0 m) _) as [c v]. cbn [fst snd] in IH. destruct IH as [IH1 IH2].
      cbn [fold_left Nat.add]. destruct (Nat.eqb_spec i m) as [->|D]; cbn [fst snd].
      + rewrite Nat.leb_refl in IH1. destruct (Nat.leb_spec (S m) m); [lia|]. split; [lia|exact IH2].
      + destruct (Nat.leb_spec m i), (Nat.leb_spec (S m) i); try lia; (split; [lia|]); intros j J.
        * destruct (Nat.eqb_spec j c) as [->|]; [|apply IH2; lia]. destruct (Nat.ltb_spec c i); [|lia]. now rewrite IH1.
        * destruct (Nat.eqb_spec j c) as [->|]; [|apply IH2; lia]. destruct (Nat.ltb_spec c i); [lia|]. f_equal. lia. }
  intros j J. destruct (F (sx_n s)) as [F1 F2]. apply F2. rewrite F1. destruct (Nat.leb_spec (sx_n s) i); lia.
Qed.
Lemma eq_ok s t : simplex_eq N s t = true <-> sx_n s = sx_n t /\ forall j, (j < sx_n s)%nat -> same N (sx_pts s j) (sx_pts t j).
Proof.
  unfold simplex_eq. destruct (Nat.eqb_spec (sx_n t) (sx_n s)) as [E|E]; [|split; [discriminate|intros [H _]; congruence]].
  rewrite forallb_forall. split.
  - intros H. split; [congruence|]. intros j J. apply vec_eq_spec, H. apply in_seq. lia.
  - intros [_ H] j J. apply in_seq in J. apply vec_eq_spec, H. lia.
Qed.

Lemma rsum_nonneg n f : (forall i, (i < n)%nat -> 0 <= f i) -> 0 <= rsum n f.
Proof. intros H. rewrite <- (rsum_zero n). now apply rsum_le. Qed.
Lemma one_rsum n k : (k < n)%nat -> rsum n (fun i => if (i =? k)%nat then 1 else 0) = 1.
Proof. intros L. exact (rsum_one n k (fun _ => 1) L). Qed.
Lemma hull_respects k pts : respects N (hull N k pts).
Proof. intros p q E (w & W & S & P). exists w. repeat split; auto. intros i L. rewrite <- (E i L). now apply P. Qed.
Lemma hull_vertex k pts j : (j < k)%nat -> hull N k pts (pts j).
Proof.
  intros L. exists (fun i => if (i =? j)%nat then 1 else 0). split; [intros i _; destruct (i =? j)%nat; lra|]. split; [now apply one_rsum|].
  intros i I. transitivity (rsum k (fun i0 => if (i0 =? j)%nat then pts i0 i else 0)).
  - symmetry. exact (rsum_one k j (fun i0 => pts i0 i) L).
  - apply rsum_ext. intros i0 _. destruct (i0 =? j)%nat; ring.
Qed.
Lemma hull_inner k pts w (p d : vec) : same N p (fun i => rsum k (fun j => w j * pts j i)) -> vinner N p d = rsum k (fun j => w j * vinner N (pts j) d).
Proof.
  intros P. rewrite (inner_ext N p (fun i => rsum k (fun j => w j * pts j i)) d d P (same_refl N d)). unfold VecNSpec.inner.
  transitivity (rsum N (fun i => rsum k (fun j => w j * (pts j i * d i)))).
  - apply rsum_ext. intros i _. rewrite Rmult_comm, <- rsum_scal. apply rsum_ext. intros j _. ring.
  - rewrite rsum_swap. apply rsum_ext. intros j _. now rewrite rsum_scal.
Qed.
(** A linear function on a hull is bounded by its values at the vertices. *)
Lemma hull_bound k pts d M : (forall j, (j < k)%nat -> vinner N (pts j) d <= M) -> forall p, hull N k pts p -> vinner N p d <= M.
Proof.
  intros H p (w & W & S & P). rewrite (hull_inner k pts w p d P). replace M with (M * rsum k w) by (rewrite S; ring). rewrite <- rsum_scal.
  apply rsum_le. intros j J. rewrite (Rmult_comm M). apply Rmult_le_compat_l; auto.
Qed.
Lemma support_scan (s : simplex) d m : let r := fold_left (fun (om : vec * R) j => let t := dot N (sx_pts s j) d in if Rlt_dec (snd om) t then (sx_pts s j, t) else om)
    (seq 1 m) (sx_pts s 0%nat, dot N (sx_pts s 0%nat) d) in
  snd r = vinner N (fst r) d /\ (exists j, (j <= m)%nat /\ fst r = sx_pts s j) /\ forall j, (j <= m)%nat -> vinner N (sx_pts s j) d <= snd r.
Proof.
  induction m as [|m IH]; cbv zeta in *.
  - cbn. rewrite dot_is. repeat split; [exists 0%nat; auto|]. intros j J. replace j with 0%nat by lia. lra.
  - rewrite seq_S, fold_left_app. destruct (fold_left _ (seq 1 m) _) as [o v]. cbn [fst snd fold_left Nat.add] in *. destruct IH as (A & (j0 & J0 & E0) & B).
    rewrite dot_is. destruct (Rlt_dec v (vinner N (sx_pts s (S m)) d)) as [L|L]; cbn [fst snd].
    + split; [reflexivity|]. split; [exists (S m); auto|]. intros j J. destruct (Nat.eq_dec j (S m)) as [->|]; [lra|]. specialize (B j ltac:(lia)). lra.
    + split; [exact A|]. split; [exists j0; split; [lia|exact E0]|]. intros j J. destruct (Nat.eq_dec j (S m)) as [->|]; [lra|]. apply B. lia.
Qed.
Lemma support_vertex s d : (0 < sx_n s)%nat -> is_support N (hull N (sx_n s) (sx_pts s)) d (simplex_support N s d).
Proof.
  intros P. pose proof (support_scan s d (sx_n s - 1)) as H. cbv zeta in H. unfold simplex_support. destruct (fold_left _ _ _) as [o v]. cbn [fst snd] in *.
  destruct H as (A & (j & J & ->) & B). split; [apply hull_vertex; lia|]. intros q Q. rewrite <- A. apply (hull_bound (sx_n s) (sx_pts s)); [|exact Q].
  intros i I. apply B. lia.
Qed.

(** ** Transforms and the standard simplex *)
Lemma hull_ext k pts pts' p : (forall j, (j < k)%nat -> same N (pts j) (pts' j)) -> hull N k pts p -> hull N k pts' p.
Proof.
  intros E (w & W & S & P). exists w. repeat split; auto. intros i L. rewrite (P i L). apply rsum_ext. intros j J. now rewrite (E j J i L).
Qed.
Lemma apply_comb (xf : xformR) k pts w q p : rsum k w = 1 -> same N q (fun i => rsum k (fun j => w j * pts j i)) ->
  (forall i, (i < N)%nat -> p i = rsum N (fun c => xmat xf i c * q c) + xmat xf i N) ->
  same N p (fun i => rsum k (fun j => w j * xf_apply N xf (pts j) i)).
Proof.
  intros S Q P i L. rewrite (P i L).
  transitivity (rsum k (fun j => w j * (rsum N (fun c => xmat xf i c * pts j c) + xmat xf i N))).
  - transitivity (rsum k (fun j => rsum N (fun c => w j * (xmat xf i c * pts j c)) + xmat xf i N * w j)).
    + rewrite rsum_plus, rsum_scal, S, Rmult_1_r. f_equal. rewrite rsum_swap. apply rsum_ext. intros c C. rewrite (Q c C), <- rsum_scal. apply rsum_ext. intros j _. ring.
    + apply rsum_ext. intros j _. rewrite rsum_scal. ring.
  - apply rsum_ext. intros j _. f_equal. symmetry. now apply apply_is.
Qed.
Lemma xf_hull (xf : xformR) s p : hull N (sx_n (simplex_xf N s xf)) (sx_pts (simplex_xf N s xf)) p <-> image N (xmat xf) (hull N (sx_n s) (sx_pts s)) p.
Proof.
  cbn [simplex_xf sx_n]. set (k := sx_n s).
  assert (forall j, (j < k)%nat -> sx_pts (simplex_xf N s xf) j = xf_apply N xf (sx_pts s j)) as E.
  { intros j J. cbn [simplex_xf sx_pts]. destruct (Nat.ltb_spec j (sx_n s)); [reflexivity|unfold k in J; lia]. }
  split.
  - intros (w & W & S & P). exists (fun i => rsum k (fun j => w j * sx_pts s j i)). split; [exists w; repeat split; auto|].
    intros i L. rewrite (P i L). transitivity (rsum k (fun j => w j * xf_apply N xf (sx_pts s j) i)); [apply rsum_ext; intros j J; now rewrite E|].
    symmetry. apply (apply_comb xf k (sx_pts s) w (fun i => rsum k (fun j => w j * sx_pts s j i)) (fun i => rsum N (fun c => xmat xf i c * rsum k (fun j => w j * sx_pts s j c)) + xmat xf i N) S); [intros ? _; reflexivity|reflexivity|exact L].
  - intros (q & (w & W & S & Q) & P). exists w. split; [exact W|]. split; [exact S|].
    intros i L. rewrite (apply_comb xf k (sx_pts s) w q p S Q P i L). apply rsum_ext. intros j J. now rewrite E.
Qed.
Lemma standard_hull p : hull N (sx_n (standard_simplex N)) (sx_pts (standard_simplex N)) p <-> (forall i, (i < N)%nat -> 0 <= p i) /\ rsum N p <= 1.
Proof.
  cbn [standard_simplex sx_n sx_pts]. rewrite Nat.add_1_r.
  assert (forall w i, (i < N)%nat -> rsum (S N) (fun j => w j * (if ((1 <=? j) && (j <? S N) && (i =? j - 1))%nat then 1 else 0)) = w (S i)) as E.
  { intros w i L. transitivity (rsum (S N) (fun j => if (j =? S i)%nat then w j else 0)); [|apply rsum_one; lia]. apply rsum_ext. intros j J.
    destruct (Nat.eqb_spec j (S i)) as [->|D]; destruct (Nat.leb_spec 1 (S i)); destruct (Nat.ltb_spec (S i) (S N)); try lia; cbn [andb].
    - destruct (Nat.eqb_spec i (S i - 1)); [ring|lia].
    - destruct (Nat.leb_spec 1 j), (Nat.ltb_spec j (S N)), (Nat.eqb_spec i (j - 1)); cbn [andb]; try ring; lia. }
  assert (forall w : nat -> R, rsum (S N) w = w 0%nat + rsum N (fun i => w (S i))) as F by (intros w; apply rsum_shift).
  split.
  - intros (w & W & T & P). rewrite F in T. split.
    + intros i L. rewrite (P i L), (E w i L). apply W. lia.
    + rewrite (rsum_ext N p (fun i => w (S i))) by (intros i L; rewrite (P i L); exact (E w i L)). specialize (W 0%nat ltac:(lia)). lra.
  - intros [H T]. exists (fun j => match j with O => 1 - rsum N p | S i => p i end). split.
    + intros [|i] L; [lra|]. apply H. lia.
    + split; [rewrite F; cbn; rewrite (rsum_ext N (fun i => p i) p) by reflexivity; lra|]. intros i L. now rewrite (E (fun j => match j with O => 1 - rsum N p | S i => p i end) i L).
Qed.
End Verts.

(** ** Solving *)
Section Solve.
Variable bigger : R_field -> R_field -> bool.
Hypothesis O : sane_order bigger.
Lemma not_singular_dec n (A : mtx R_field) : singular n A \/ ~ singular n A.
Proof. rewrite (det_iff R_field n A). apply Req_dec. Qed.
Lemma pivots_nonsingular n (A : mtx R_field) : (forall k, (k < n)%nat -> pm (decomp_plu bigger A n n) k k <> 0) -> ~ singular n A.
Proof.
  intros P S. apply (det_iff R_field n A) in S. rewrite (decomp_det R_field bigger O A n) in S.
  assert (forall m, (m <= n)%nat -> prod m (fun k => pm (decomp_plu bigger A n n) k k) <> 0) as H.
  { induction m as [|m IH]; intros L; [cbn; lra|]. cbn [prod]. unR. apply Rmult_integral_contrapositive. split; [apply IH; lia|apply P; lia]. }
  apply (H n (le_n n)). unfold signed in S. destruct (pp _); [|exact S]. unR. lra.
Qed.
Lemma checked_solve_ok n (A : mtx R_field) m skip X : (skip <= n)%nat -> ~ singular n A -> exists X' X0,
  checked_solve bigger A n m skip X = Some (true, X') /\ (forall r i, (r < n)%nat -> (i < m)%nat -> rsum n (fun c => A r c * X0 c i) = X r i) /\
  forall r i, (skip <= r < n)%nat -> X' r i = X0 r i.
Proof.
  intros L NS. destruct (decomp_nonsingular R_field bigger A n O NS) as [_ D]. unfold checked_solve.
  destruct (linear_solve bigger A n m skip X) as [[[|] X']|] eqn:E.
  - destruct (linear_solve_skip R_field bigger A n m skip X true X' L E) as (X0 & E0 & H). destruct (linear_solve_ok R_field bigger A n m X O NS) as (X1 & E1 & H1).
    rewrite E0 in E1. injection E1 as <-. exists X', X0. split; [|split; [|exact H]].
    + rewrite (proj2 (forallb_forall _ _)); [reflexivity|]. intros k K. apply in_seq in K. destruct (Req_EM_T _ 0) as [Z|Z]; [|reflexivity]. now destruct (D k ltac:(lia)).
    + intros r i R I. rewrite <- (H1 r i R I). unfold mmul. rewrite sum_rsum. reflexivity.
  - destruct (NS (linear_solve_false R_field bigger A n m skip X X' O E)).
  - destruct (linear_solve_total R_field bigger A n m skip X O E).
Qed.
Lemma checked_solve_true n (A : mtx R_field) m skip X X' : checked_solve bigger A n m skip X = Some (true, X') -> ~ singular n A.
Proof.
  unfold checked_solve. destruct (linear_solve bigger A n m skip X) as [[[|] X1]|]; try discriminate.
  destruct (forallb _ _) eqn:F; [|discriminate]. intros _. apply pivots_nonsingular. intros k K. rewrite forallb_forall in F.
  specialize (F k ltac:(apply in_seq; lia)). now destruct (Req_EM_T _ 0).
Qed.
Lemma vec_solve_ok n bases m X : ~ singular (K := R_field) n (fun r c => bases c r) -> exists X', vec_solve bigger n bases m 0 X = Some (true, X') /\
  forall r i, (r < n)%nat -> (i < m)%nat -> rsum n (fun c => bases c r * X' c i) = X r i.
Proof.
  intros NS. unfold vec_solve. destruct (Nat.ltb_spec n 5).
  - set (b := fun k => bases (k / n)%nat (k mod n)%nat : R_field).
    assert (forall r c, (r < n)%nat -> stored false n b r c = bases c r) as B.
    { intros r c L. unfold stored, b. now destruct (cell_div n c r L) as [-> ->]. }
    destruct (linear_solve_inv_ok R_field bigger n b (fun _ => 0) X O) as (X' & E & H1).
    + intros (v & V & Z). apply NS. exists v. split; [exact V|]. intros r R. rewrite <- (Z r R). apply (sum_ext R_field). intros c C. now rewrite B.
    + exists X'. rewrite E. split; [reflexivity|]. intros r i R _. rewrite <- (H1 r i R). unfold mmul. rewrite sum_rsum. apply rsum_ext. intros c C. now rewrite B.
  - destruct (checked_solve_ok n (fun r c => bases c r) m 0 X ltac:(lia) NS) as (X' & X0 & E & H1 & H2). exists X'. split; [exact E|].
    intros r i R I. rewrite <- (H1 r i R I). apply rsum_ext. intros c C. f_equal. apply H2. lia.
Qed.
Lemma vec_solve_true n bases m X X' : vec_solve bigger n bases m 0 X = Some (false, X') -> singular (K := R_field) n (fun r c => bases c r).
Proof.
  unfold vec_solve. destruct (Nat.ltb_spec n 5).
  - intros [= E]. apply linear_solve_inv_false in E as [(v & V & Z) _]; [|exact O]. exists v. split; [exact V|]. intros r R. rewrite <- (Z r R). apply (sum_ext R_field). intros c C.
    unfold stored. now destruct (cell_div n c r R) as [-> ->].
  - intros E. apply (linear_solve_false R_field bigger (fun r c => bases c r) n m 0 X X' O). unfold checked_solve in E.
    destruct (linear_solve _ _ _ _ _ _) as [[[|] ?]|]; [destruct (forallb _ _); discriminate|exact E|discriminate].
Qed.
End Solve.

(** ** Barycentric coordinates *)
Section Bary.
Variable N : nat.
(** A point is in the hull of affinely independent points exactly when its (unique) coordinates are non-negative. *)
Lemma barycentric k pts x (p : vec) : affinely_independent N k pts -> rsum k x = 1 -> same N p (fun i => rsum k (fun j => x j * pts j i)) ->
  (hull N k pts p <-> forall j, (j < k)%nat -> 0 <= x j).
Proof.
  intros A S P. split; [|intros H; exists x; auto]. intros (w & W & SW & PW) j J.
  enough (w j - x j = 0) by (specialize (W j J); lra). apply (A (fun j => w j - x j)); [| |exact J].
  - rewrite (rsum_ext k _ (fun j => w j + (-1) * x j)) by (intros; ring). rewrite rsum_plus, rsum_scal. lra.
  - intros i I. rewrite (rsum_ext k _ (fun j => w j * pts j i + (-1) * (x j * pts j i))) by (intros; ring). rewrite rsum_plus, rsum_scal, <- (P i I), <- (PW i I). ring.
Qed.
Lemma inside_all is x s : coords_inside is x s = true <-> (forall i, In i is -> 0 <= x i) /\ forall l l', is = l ++ l' -> l <> [] -> s + fold_right Rplus 0 (map x l) <= 1.
Proof.
  revert s. induction is as [|i is IH]; intros s; cbn [coords_inside].
  - split; [|auto]. intros _. split; [intros i []|]. intros [|? ?] l' E NE; [congruence|discriminate].
  - cbv zeta. destruct (Rlt_dec (x i) 0) as [L|L].
    + split; [discriminate|]. intros [H _]. specialize (H i (or_introl eq_refl)). lra.
    + destruct (Rlt_dec 1 (s + x i)) as [M|M].
      * split; [discriminate|]. intros [_ H]. specialize (H [i] is eq_refl ltac:(discriminate)). cbn in H. lra.
      * rewrite IH. split.
        -- intros [H1 H2]. split; [intros j [<-|J]; [lra|auto]|]. intros [|a l] l' E NE; [congruence|]. cbn in E. injection E as <- E. cbn [map fold_right].
           destruct l as [|b l]; [cbn; lra|]. specialize (H2 (b :: l) l' E ltac:(discriminate)). lra.
        -- intros [H1 H2]. split; [intros j J; apply H1; now right|]. intros l l' E NE. specialize (H2 (i :: l) l' ltac:(cbn; now f_equal) ltac:(discriminate)). cbn [map fold_right] in H2. lra.
Qed.
Lemma fold_sum a n (x : nat -> R) : fold_right Rplus 0 (map x (seq a n)) = rsum n (fun i => x (a + i)%nat).
Proof. induction n as [|n IH]; [reflexivity|]. rewrite seq_S, map_app, fold_right_app. cbn [map fold_right rsum]. rewrite Rplus_0_r.
  rewrite <- IH. clear IH. generalize (x (a + n)%nat). intros y. induction (map x (seq a n)) as [|h t T]; cbn; [ring|]. rewrite T. ring.
Qed.
Lemma inside_seq a n x : coords_inside (seq a n) x 0 = true <-> (forall i, (i < n)%nat -> 0 <= x (a + i)%nat) /\ rsum n (fun i => x (a + i)%nat) <= 1.
Proof.
  rewrite inside_all. split.
  - intros [H1 H2]. split; [intros i L; apply H1, in_seq; lia|]. destruct n as [|n]; [cbn; lra|]. rewrite <- fold_sum, <- (Rplus_0_l (fold_right _ _ _)).
    apply (H2 (seq a (S n)) []); [now rewrite app_nil_r|discriminate].
  - intros [H1 H2]. assert (forall i, In i (seq a n) -> 0 <= x i) as P.
    { intros i I. apply in_seq in I. replace i with (a + (i - a))%nat by lia. apply H1. lia. }
    split; [exact P|]. intros l l' E _. rewrite Rplus_0_l. rewrite <- fold_sum, E, map_app, fold_right_app in H2.
    assert (forall l0 b, (forall i, In i l0 -> 0 <= x i) -> 0 <= b -> fold_right Rplus 0 (map x l0) <= fold_right Rplus b (map x l0)) as M.
    { induction l0 as [|i l0 IH]; intros b Q B; cbn; [exact B|]. apply Rplus_le_compat_l, IH; [|exact B]. intros j J. apply Q. now right. }
    assert (forall l0, (forall i, In i l0 -> 0 <= x i) -> 0 <= fold_right Rplus 0 (map x l0)) as Z.
    { induction l0 as [|i l0 IH]; intros Q; cbn; [lra|]. pose proof (Q i (or_introl eq_refl)). specialize (IH ltac:(intros j J; apply Q; now right)). lra. }
    eapply Rle_trans; [|exact H2]. apply M; [|apply Z]; intros i I; apply P; rewrite E; apply in_or_app; auto.
Qed.

Section Full.
Variable bigger : R_field -> R_field -> bool.
Hypothesis O : sane_order bigger.
Variable pts : nat -> vec.
Let C : mtx R_field := fun r c => if (r =? 0)%nat then 1 else pts c (r - 1)%nat.
Lemma contains_system : affinely_independent N (N + 1) pts <-> ~ singular (N + 1) C.
Proof.
  split.
  - intros A (v & (i & L & V) & Z). apply V. apply (A v); [| |exact L].
    + specialize (Z 0%nat ltac:(lia)). rewrite sum_rsum in Z. transitivity (rsum (N + 1) (fun c => C 0%nat c * v c)); [apply rsum_ext; intros c _; cbn; unR; ring|exact Z].
    + intros r R. specialize (Z (S r) ltac:(lia)). rewrite sum_rsum in Z. eapply eq_trans; [|exact Z]. apply rsum_ext. intros c _. cbn. rewrite Nat.sub_0_r. unR. ring.
  - intros NS w W P j J. destruct (Req_dec (w j) 0) as [E|E]; [exact E|]. destruct NS. exists w. split; [now exists j|]. intros r R. rewrite sum_rsum. unR.
    destruct r as [|r]; cbn; [rewrite <- W; apply rsum_ext; intros; ring|]. rewrite <- (P r ltac:(lia)). apply rsum_ext. intros. rewrite Nat.sub_0_r. ring.
Qed.
Let D : mtx R_field := fun r c => if (r <? N)%nat then pts c r else 1.
Lemma ray_system : affinely_independent N (N + 1) pts <-> ~ singular (N + 1) D.
Proof.
  split.
  - intros A (v & (i & L & V) & Z). apply V. apply (A v); [| |exact L].
    + specialize (Z N ltac:(lia)). rewrite sum_rsum in Z. eapply eq_trans; [|exact Z]. apply rsum_ext. intros c _. unfold D. rewrite Nat.ltb_irrefl. unR. ring.
    + intros r R. specialize (Z r ltac:(lia)). rewrite sum_rsum in Z. eapply eq_trans; [|exact Z]. apply rsum_ext. intros c _. unfold D. destruct (Nat.ltb_spec r N); [|lia]. unR. ring.
  - intros NS w W P j J. destruct (Req_dec (w j) 0) as [E|E]; [exact E|]. destruct NS. exists w. split; [now exists j|]. intros r R. rewrite sum_rsum. unR. unfold D.
    destruct (Nat.ltb_spec r N); [rewrite <- (P r ltac:(lia))|rewrite <- W]; apply rsum_ext; intros; ring.
Qed.
End Full.

Lemma contains_few bigger s p : (sx_n s < N + 1)%nat -> simplex_contains N bigger s p = Some false.
Proof. intros L. unfold simplex_contains. destruct (Nat.ltb_spec (sx_n s) (N + 1)); [reflexivity|lia]. Qed.
Lemma contains_full bigger s p : sane_order bigger -> sx_n s = (N + 1)%nat -> affinely_independent N (N + 1) (sx_pts s) ->
  exists b, simplex_contains N bigger s p = Some b /\ (b = true <-> hull N (N + 1) (sx_pts s) p).
Proof.
  intros O E A. unfold simplex_contains. rewrite E, Nat.ltb_irrefl. cbv zeta.
  destruct (checked_solve_ok bigger O (N + 1) (fun r c => if (r =? 0)%nat then 1 else sx_pts s c (r - 1)%nat) 1 1 (fun r _ => if (r =? 0)%nat then 1 else p (r - 1)%nat) ltac:(lia)
    (proj1 (contains_system (sx_pts s)) A)) as (X & X0 & -> & H1 & H2).
  eexists. split; [reflexivity|]. rewrite inside_seq.
  assert (rsum (N + 1) (fun j => X0 j 0%nat) = 1) as S1.
  { specialize (H1 0%nat 0%nat ltac:(lia) ltac:(lia)). cbn in H1. rewrite <- H1. apply rsum_ext. intros. ring. }
  assert (same N p (fun i => rsum (N + 1) (fun j => X0 j 0%nat * sx_pts s j i))) as S2.
  { intros i I. specialize (H1 (S i) 0%nat ltac:(lia) ltac:(lia)). cbn in H1. rewrite Nat.sub_0_r in H1. rewrite <- H1. apply rsum_ext. intros. cbn. rewrite ?Nat.sub_0_r. unR. ring. }
  rewrite (barycentric (N + 1) (sx_pts s) (fun j => X0 j 0%nat) p A S1 S2).
  rewrite Nat.add_1_r, rsum_shift in S1.
  assert (forall i, (i < N)%nat -> X (1 + i)%nat 0%nat = X0 (S i) 0%nat) as Q by (intros i I; apply H2; lia).
  rewrite (rsum_ext N (fun i => X (1 + i)%nat 0%nat) (fun i => X0 (S i) 0%nat) Q). split.
  - intros [P1 P2] [|j] J; [lra|]. rewrite <- Q by lia. apply P1. lia.
  - intros H. split; [intros i I; rewrite Q by lia; apply H; lia|]. specialize (H 0%nat ltac:(lia)). lra.
Qed.
Lemma contains_flat bigger s p : sane_order bigger -> sx_n s = (N + 1)%nat -> ~ affinely_independent N (N + 1) (sx_pts s) -> simplex_contains N bigger s p <> Some true.
Proof.
  intros O E A. unfold simplex_contains. rewrite E, Nat.ltb_irrefl. cbv zeta. destruct (checked_solve _ _ _ _ _ _) as [[[|] X]|] eqn:F; try discriminate.
  destruct A. apply contains_system. exact (checked_solve_true bigger O _ _ _ _ _ _ F).
Qed.

(** ** Rays *)
Definition weighted (is : list nat) (p k : nat -> R) (s : R) : Prop := forall i, In i is -> 0 <= p i + s * k i <= 1.
Lemma weight_between p k s : k <> 0 -> (in_interval (iv_between (- p / k) ((1 - p) / k)) s <-> 0 <= p + s * k <= 1).
Proof.
  intros K. unfold iv_between. rewrite between_has. set (a := - p / k). set (b := (1 - p) / k).
  assert (a * k = - p) as A by (unfold a; field; exact K). assert (b * k = 1 - p) as B by (unfold b; field; exact K). clearbody a b.
  destruct (Rlt_le_dec 0 k) as [P|P].
  - assert (a < b) by nra. rewrite Rmin_left, Rmax_right by lra. split; intros; nra.
  - assert (k < 0) by lra. assert (b < a) by nra. rewrite Rmin_right, Rmax_left by lra. split; intros; nra.
Qed.
Lemma weights_keep is p k iv s : in_interval iv s -> weighted is p k s -> in_interval (weights_interval is p k iv) s.
Proof.
  revert iv. induction is as [|i is IH]; intros iv I W; cbn [weights_interval]; [exact I|].
  assert (weighted is p k s) as W' by (intros j J; apply W; now right). specialize (W i (or_introl eq_refl)).
  destruct (ext_ltb _ _); [|exact I]. destruct (Req_EM_T (k i) 0) as [Z|Z].
  - rewrite Z in W. destruct (Rlt_dec (p i) 0); [lra|]. destruct (Rlt_dec 1 (p i)); [lra|]. now apply IH.
  - apply IH; [|exact W']. apply inter_has. split; [exact I|]. now apply weight_between.
Qed.
Lemma weights_exact is p k iv s : ext_ltb (lo (weights_interval is p k iv) 0%nat) (hi (weights_interval is p k iv) 0%nat) = true ->
  in_interval (weights_interval is p k iv) s -> in_interval iv s /\ weighted is p k s.
Proof.
  revert iv. induction is as [|i is IH]; intros iv E; cbn [weights_interval] in *; [intros I; split; [exact I|intros j []]|].
  destruct (ext_ltb (lo iv 0%nat) (hi iv 0%nat)) eqn:L; [|congruence]. destruct (Req_EM_T (k i) 0) as [Z|Z].
  - destruct (Rlt_dec (p i) 0) as [U|U]; [discriminate|]. destruct (Rlt_dec 1 (p i)) as [V|V]; [discriminate|]. intros I. destruct (IH iv E I) as [A B]. split; [exact A|].
    intros j [<-|J]; [rewrite Z; lra|now apply B].
  - intros I. destruct (IH _ E I) as [A B]. apply inter_has in A as [A1 A2]. split; [exact A1|]. intros j [<-|J]; [now apply weight_between|now apply B].
Qed.
Lemma two_points (iv : interval) s t : s < t -> in_interval iv s -> in_interval iv t -> ext_ltb (lo iv 0%nat) (hi iv 0%nat) = true.
Proof.
  intros L [A _] [_ B]. destruct (lo iv 0%nat), (hi iv 0%nat); try easy. cbn. unfold Rltb. destruct (Rlt_dec x x0); [reflexivity|lra].
Qed.
Lemma ray_full bigger s r : sane_order bigger -> sx_n s = (N + 1)%nat -> affinely_independent N (N + 1) (sx_pts s) -> exists iv, simplex_ray N bigger s r = Some iv /\
  (forall t, hull N (N + 1) (sx_pts s) (fun i => origin r i + t * direction r i) -> in_interval iv t) /\
  (forall t u, t < u -> in_interval iv t -> in_interval iv u -> forall v, in_interval iv v -> hull N (N + 1) (sx_pts s) (fun i => origin r i + v * direction r i)).
Proof.
  intros O E A. unfold simplex_ray. rewrite E, Nat.eqb_refl. cbv zeta.
  destruct (vec_solve_ok bigger O (N + 1) (fun j i => if (i <? N)%nat then sx_pts s j i else 1) 2 
    (fun i j => if (i <? N)%nat then (if (j =? 0)%nat then origin r i else direction r i) else if (j =? 0)%nat then 1 else 0) (proj1 (ray_system (sx_pts s)) A)) as (B & EB & H).
  match goal with |- context [vec_solve ?a ?b ?c ?d ?e ?f] => replace (vec_solve a b c d e f) with (Some (true, B)) by (symmetry; exact EB) end.
  eexists. split; [reflexivity|].
  assert (forall t, hull N (N + 1) (sx_pts s) (fun i => origin r i + t * direction r i) <-> weighted (seq 0 (N + 1)) (fun i => B i 0%nat) (fun i => B i 1%nat) t) as K.
  { intros t. assert (rsum (N + 1) (fun j => B j 0%nat + t * B j 1%nat) = 1) as S1.
    { rewrite rsum_plus, rsum_scal. pose proof (H N 0%nat ltac:(lia) ltac:(lia)) as H0. pose proof (H N 1%nat ltac:(lia) ltac:(lia)) as H1. rewrite Nat.ltb_irrefl in H0, H1. cbn [Nat.eqb] in H0, H1.
      rewrite (rsum_ext _ (fun j => B j 0%nat) (fun c => 1 * B c 0%nat)), (rsum_ext _ (fun j => B j 1%nat) (fun c => 1 * B c 1%nat)) by (intros; exact (eq_sym (Rmult_1_l _))). rewrite H0, H1. unR. ring. }
    rewrite (barycentric (N + 1) (sx_pts s) (fun j => B j 0%nat + t * B j 1%nat) _ A S1).
    - split.
      + intros P i I. apply in_seq in I. split; [apply P; lia|]. rewrite <- S1. rewrite <- (rsum_one (N + 1) i (fun i => B i 0%nat + t * B i 1%nat)) at 1 by lia.
        apply rsum_le. intros j J. destruct (j =? i)%nat; [lra|now apply P].
      + intros W j J. apply W, in_seq. lia.
    - intros i I. pose proof (H i 0%nat ltac:(lia) ltac:(lia)) as H0. pose proof (H i 1%nat ltac:(lia) ltac:(lia)) as H1. cbn [Nat.eqb] in H0, H1. destruct (Nat.ltb_spec i N); [|lia]. cbv beta.
      rewrite <- H0, <- H1, <- rsum_scal, <- rsum_plus. apply rsum_ext. intros. ring. }
  split.
  - intros t T. apply weights_keep; [apply all_has|]. now apply K.
  - intros t u L T U v V. apply K. apply (weights_exact _ _ _ _ v (two_points _ t u L T U) V).
Qed.
Lemma ray_few bigger s r : (sx_n s < N)%nat -> simplex_ray N bigger s r = Some iv_empty.
Proof. intros L. unfold simplex_ray. destruct (Nat.eqb_spec (sx_n s) (N + 1)); [lia|]. destruct (Nat.eqb_spec (sx_n s) N); [lia|reflexivity]. Qed.
End Bary.

(** ** Simplices of dimension N - 1 *)
Section Trace.
Variable N : nat.
Variable bigger : R_field -> R_field -> bool.
Hypothesis O : sane_order bigger.
Lemma trace_fold x m : let r := fold_left (fun (s : option R) i => match s with None => None | Some s => if Rlt_dec (x i) 0 then None else Some (s + x i) end) (seq 0 m) (Some 0) in
  match r with Some t => t = rsum m x /\ forall i, (i < m)%nat -> 0 <= x i | None => exists i, (i < m)%nat /\ x i < 0 end.
Proof.
  induction m as [|m IH]; cbv zeta in *.
  - cbn. split; [reflexivity|lia].
  - rewrite seq_S, fold_left_app. cbn [fold_left Nat.add]. destruct (fold_left _ _ _) as [t|].
    + destruct IH as [-> P]. destruct (Rlt_dec (x m) 0) as [L|L]; [exists m; split; [lia|exact L]|]. split; [reflexivity|]. intros i I.
      destruct (Nat.eq_dec i m) as [->|]; [lra|]. apply P. lia.
    + destruct IH as (i & I & L). exists i. split; [lia|exact L].
Qed.
Lemma edges_sum k (pts : nat -> vec) x i : rsum k (fun j => x j * (pts (S j) i - pts 0%nat i)) = (1 - rsum k x) * pts 0%nat i + rsum k (fun j => x j * pts (S j) i) - pts 0%nat i.
Proof. rewrite (rsum_ext k _ (fun j => x j * pts (S j) i + (- pts 0%nat i) * x j)) by (intros; ring). rewrite rsum_plus, rsum_scal. ring. Qed.
(** Weights and edge coordinates. *)
Lemma hull_edges k pts (p : vec) : hull N (S k) pts p <-> exists x, (forall j, (j < k)%nat -> 0 <= x j) /\ rsum k x <= 1 /\
  forall i, (i < N)%nat -> p i - pts 0%nat i = rsum k (fun j => x j * (pts (S j) i - pts 0%nat i)).
Proof.
  split.
  - intros (w & W & S1 & P). exists (fun j => w (S j)). rewrite rsum_shift in S1. split; [intros j J; apply W; lia|]. pose proof (W 0%nat ltac:(lia)).
    split; [lra|]. intros i I. rewrite (P i I), (edges_sum k pts (fun j => w (S j)) i), rsum_shift.
    replace (1 - rsum k (fun j => w (S j))) with (w 0%nat) by lra. ring.
  - intros (x & X & S1 & P). exists (fun j => match j with 0%nat => 1 - rsum k x | S j => x j end). split; [intros [|j] J; [lra|apply X; lia]|].
    split; [rewrite rsum_shift; cbn; rewrite (rsum_ext k (fun i => x i) x) by reflexivity; lra|]. intros i I. rewrite rsum_shift. specialize (P i I). rewrite (edges_sum k pts x i) in P. lra.
Qed.
Lemma vec_solve_small n bases m skip X : (n < 5)%nat -> vec_solve bigger n bases m skip X = vec_solve bigger n bases m 0 X.
Proof. intros L. unfold vec_solve. destruct (Nat.ltb_spec n 5); [reflexivity|lia]. Qed.
Lemma independent_nonsingular n (b : nat -> vec) : independent_vectors n n b -> ~ singular (K := R_field) n (fun r c => b c r).
Proof.
  intros I (v & (j & J & V) & Z). apply V. apply (I v); [|exact J]. intros i L. specialize (Z i L). rewrite sum_rsum in Z. eapply eq_trans; [|exact Z]. apply rsum_ext. intros. unR. ring.
Qed.
Lemma trace_ok pts r : (2 <= N <= 4)%nat -> independent_vectors N N (trace_bases N pts (direction r)) ->
  (line_meets (hull N N pts) (origin r) (direction r) -> trace_simplex N bigger pts r = None) /\
  (~ line_meets (hull N N pts) (origin r) (direction r) -> trace_simplex N bigger pts r = Some false).
Proof.
  intros LN I. unfold trace_simplex. rewrite vec_solve_small by lia.
  destruct (vec_solve_ok bigger O N (trace_bases N pts (direction r)) 1 (fun i _ => vec_sub (origin r) (pts 0%nat) i) (independent_nonsingular N _ I)) as (X & E & H).
  match goal with |- context [vec_solve ?a ?b ?c ?d ?e ?f] => replace (vec_solve a b c d e f) with (Some (true, X)) by (symmetry; exact E) end.
  set (x := fun j => X j 0%nat : R).
  assert (N = S (N - 1)) as EN by lia. remember (N - 1)%nat as k eqn:Ek.
  assert (forall c, (c < k)%nat -> trace_bases N pts (direction r) c = vec_sub (pts (S c)) (pts 0%nat)) as Tc.
  { intros c L. unfold trace_bases. destruct (Nat.ltb_spec c (N - 1)); [now rewrite Nat.add_1_r|lia]. }
  assert (trace_bases N pts (direction r) k = vec_neg (direction r)) as Tk by (unfold trace_bases; destruct (Nat.ltb_spec k (N - 1)); [lia|reflexivity]).
  assert (forall (y : nat -> R) i, rsum N (fun c => y c * trace_bases N pts (direction r) c i) = rsum k (fun c => y c * (pts (S c) i - pts 0%nat i)) - y k * direction r i) as Ex.
  { intros y i. replace (rsum N) with (rsum (S k)) by (now f_equal). cbn [rsum]. rewrite Tk.
    rewrite (rsum_ext k _ (fun c => y c * (pts (S c) i - pts 0%nat i))) by (intros c L; rewrite (Tc c L); reflexivity). unfold vec_neg. ring. }
  assert (forall i, (i < N)%nat -> origin r i + x k * direction r i - pts 0%nat i = rsum k (fun c => x c * (pts (S c) i - pts 0%nat i))) as Sol.
  { intros i L. specialize (H i 0%nat L ltac:(lia)). rewrite (rsum_ext N _ (fun c => x c * trace_bases N pts (direction r) c i)) in H by (intros; unfold x; apply Rmult_comm). rewrite Ex in H. unfold vec_sub in H. lra. }
  assert (line_meets (hull N N pts) (origin r) (direction r) <-> (forall j, (j < k)%nat -> 0 <= x j) /\ rsum k x <= 1) as M.
  { split.
    - intros (t & Ht). rewrite EN in Ht at 2. apply hull_edges in Ht as (y & Y & S1 & P).
      set (z := fun c => if (c =? k)%nat then t else y c).
      assert (forall j, (j < N)%nat -> x j - z j = 0) as D.
      { intros j J. apply (I (fun j => x j - z j)); [|exact J]. intros i L. rewrite Ex.
        rewrite (rsum_ext k _ (fun c => x c * (pts (S c) i - pts 0%nat i) + (-1) * (y c * (pts (S c) i - pts 0%nat i)))).
        2:{ intros c C. unfold z. destruct (Nat.eqb_spec c k); [lia|ring]. }
        rewrite rsum_plus, rsum_scal, <- (Sol i L), <- (P i L). unfold z. rewrite Nat.eqb_refl. ring. }
      assert (forall j, (j < k)%nat -> x j = y j) as F.
      { intros j J. specialize (D j ltac:(lia)). unfold z in D. destruct (Nat.eqb_spec j k); [lia|lra]. }
      split; [intros j J; rewrite F by exact J; auto|]. now rewrite (rsum_ext k x y F).
    - intros [P1 P2]. exists (x k). rewrite EN at 2. apply hull_edges. exists x. auto. }
  cbv zeta. pose proof (trace_fold x k) as F. cbv zeta in F. unfold x in F at 1.
  destruct (fold_left _ (seq 0 k) (Some 0)) as [t|].
  - destruct F as [-> F]. fold x. destruct (Rlt_dec 1 (rsum k x)); split; intros Q; try reflexivity.
    + apply M in Q as [_ Q]. lra.
    + destruct Q. apply M. split; [exact F|lra].
  - destruct F as (i & L & F). split; intros Q; [|reflexivity]. apply M in Q as [Q _]. specialize (Q i L). fold (x i) in F. lra.
Qed.
Lemma ray_facet s r : sx_n s = N -> simplex_ray N bigger s r = Some iv_empty \/ simplex_ray N bigger s r = None.
Proof.
  intros E. unfold simplex_ray. destruct (Nat.eqb_spec (sx_n s) (N + 1)); [lia|]. rewrite E, Nat.eqb_refl. destruct (trace_simplex _ _ _ _) as [[|]|]; auto.
Qed.
Lemma ray_facet_hit s r : (2 <= N <= 4)%nat -> sx_n s = N -> independent_vectors N N (trace_bases N (sx_pts s) (direction r)) ->
  (simplex_ray N bigger s r = None <-> line_meets (hull N N (sx_pts s)) (origin r) (direction r)).
Proof.
  intros LN E I. destruct (trace_ok (sx_pts s) r LN I) as [A B]. unfold simplex_ray. destruct (Nat.eqb_spec (sx_n s) (N + 1)); [lia|]. rewrite E, Nat.eqb_refl. split.
  - intros H. destruct (Classical_Prop.classic (line_meets (hull N N (sx_pts s)) (origin r) (direction r))) as [Y|Y]; [exact Y|]. rewrite (B Y) in H. discriminate.
  - intros H. now rewrite (A H).
Qed.

(** ** Facing *)
Lemma facing_none s p : sx_n s = 0%nat -> simplex_is_facing N bigger s p = Some false.
Proof. intros E. unfold simplex_is_facing. now rewrite E. Qed.
Lemma facing_point s p : sx_n s = 1%nat -> simplex_is_facing N bigger s p = Some true /\ faces N 1 (sx_pts s) p.
Proof.
  intros E. unfold simplex_is_facing. rewrite E. split; [reflexivity|]. exists (sx_pts s 0%nat). split; [apply hull_vertex; lia|]. intros j J. replace j with 0%nat by lia.
  unfold VecNSpec.inner. rewrite (rsum_ext N _ (fun _ => 0)); [apply rsum_zero|]. intros. ring.
Qed.
Lemma facing_segment s p : sx_n s = 2%nat -> ~ same N (sx_pts s 0%nat) (sx_pts s 1%nat) ->
  exists b, simplex_is_facing N bigger s p = Some b /\ (b = true <-> faces N 2 (sx_pts s) p).
Proof.
  intros E NS. unfold simplex_is_facing. rewrite E. cbv zeta. set (v := vec_sub (sx_pts s 1%nat) (sx_pts s 0%nat)). rewrite mag2_is.
  assert (0 < vinner N v v) as P.
  { destruct (Rle_lt_or_eq_dec 0 (vinner N v v) (inner_nonneg N v)) as [L|L]; [exact L|]. destruct NS. intros i I. symmetry in L. apply inner_zero in L. specialize (L i I). unfold v, vec_sub in L. lra. }
  unfold VecNModel.div_opt. destruct (Req_EM_T _ 0); [lra|]. eexists. split; [reflexivity|]. rewrite dot_is. set (u := vec_sub p (sx_pts s 0%nat)).
  rewrite andb_true_iff, !Rleb_iff.
  assert (forall t, (forall q : vec, same N q (fun i => sx_pts s 0%nat i + t * v i) -> vinner N (fun i => p i - q i) v = vinner N v u - t * vinner N v v)) as K.
  { intros t q Q. rewrite (inner_ext N (fun i => p i - q i) (fun i => u i + (- t) * v i) v v); [|intros i I; rewrite (Q i I); unfold u, vec_sub; ring|apply same_refl].
    rewrite inner_add_l, inner_mul_l. rewrite (inner_sym N u v). ring. }
  set (d := vinner N v u / vinner N v v). assert (d * vinner N v v = vinner N v u) as D by (unfold d; field; lra). split.
  - intros B. exists (fun i => sx_pts s 0%nat i + d * v i). split.
    + apply (hull_edges 1). exists (fun _ => d). split; [intros; lra|]. split; [cbn; lra|]. intros i I. cbn. unfold v, vec_sub. ring.
    + intros [|[|j]] J; [|change (fun i => sx_pts s 1%nat i - sx_pts s 0%nat i) with v; rewrite (K d) by apply same_refl; lra|lia].
      rewrite inner_sym. unfold VecNSpec.inner. rewrite (rsum_ext N _ (fun _ => 0)); [apply rsum_zero|]. intros. ring.
  - intros (q & Hq & F). apply (hull_edges 1) in Hq as (x & X & S1 & Pq). cbn in S1. specialize (X 0%nat ltac:(lia)).
    specialize (F 1%nat ltac:(lia)). change (fun i => sx_pts s 1%nat i - sx_pts s 0%nat i) with v in F. rewrite (K (x 0%nat)) in F.
    + assert (d = x 0%nat) by (apply (Rmult_eq_reg_r (vinner N v v)); lra). lra.
    + intros i I. specialize (Pq i I). cbn in Pq. unfold v, vec_sub. lra.
Qed.
Lemma facing_full s p : (2 <= N)%nat -> sx_n s = (N + 1)%nat -> affinely_independent N (N + 1) (sx_pts s) ->
  exists b, simplex_is_facing N bigger s p = Some b /\ (b = true <-> hull N (N + 1) (sx_pts s) p).
Proof.
  intros LN E A. unfold simplex_is_facing. replace (sx_n s) with (S (S (S (N - 2)))) by lia. cbv zeta. replace (S (S (S (N - 2))) - 1)%nat with N by lia. rewrite Nat.sub_diag.
  unfold nullspace_any. rewrite Nat.leb_refl.
  set (b := fun i => vec_sub (sx_pts s (i + 1)%nat) (sx_pts s 0%nat)).
  assert (independent_vectors N N b) as I.
  { intros w W j J. assert (forall q, (q < N + 1)%nat -> match q with 0%nat => - rsum N w | S q => w q end = 0) as G.
    { apply (A (fun q => match q with 0%nat => - rsum N w | S q => w q end)).
      - rewrite Nat.add_1_r, rsum_shift. cbn. rewrite (rsum_ext N (fun i => w i) w) by reflexivity. ring.
      - intros i L. rewrite Nat.add_1_r, rsum_shift. rewrite <- (W i L) at 1. unfold b, vec_sub. rewrite (rsum_ext N (fun j0 => w j0 * (sx_pts s (j0 + 1)%nat i - sx_pts s 0%nat i)) (fun j0 => w j0 * (sx_pts s (S j0) i - sx_pts s 0%nat i))) by (intros; now rewrite Nat.add_1_r).
        rewrite edges_sum. ring. }
    exact (G (S j) ltac:(lia)). }
  destruct (vec_solve_ok bigger O N b 1 (fun i _ => vec_sub p (sx_pts s 0%nat) i) (independent_nonsingular N b I)) as (X & EX & H).
  match goal with |- context [vec_solve ?a ?b ?c ?d ?e ?f] => replace (vec_solve a b c d e f) with (Some (true, X)) by (symmetry; rewrite <- EX; f_equal; apply functional_extensionality; intros j; cbn; now rewrite Nat.sub_0_r) end.
  eexists. split; [reflexivity|]. rewrite inside_seq, Nat.sub_0_r. cbn [Nat.add].
  rewrite Nat.add_1_r, hull_edges.
  assert (forall i, (i < N)%nat -> p i - sx_pts s 0%nat i = rsum N (fun j => X j 0%nat * (sx_pts s (S j) i - sx_pts s 0%nat i))) as Sol.
  { intros i L. specialize (H i 0%nat L ltac:(lia)). unfold vec_sub in H at 1. rewrite <- H. apply rsum_ext. intros j J. unfold b, vec_sub. rewrite Nat.add_1_r. apply Rmult_comm. }
  split.
  - intros [P1 P2]. exists (fun j => X j 0%nat). auto.
  - intros (y & Y & S1 & P). assert (forall j, (j < N)%nat -> X j 0%nat - y j = 0) as D.
    { apply (I (fun j => X j 0%nat - y j)). intros i L. unfold b, vec_sub.
      rewrite (rsum_ext N _ (fun j => X j 0%nat * (sx_pts s (S j) i - sx_pts s 0%nat i) + (-1) * (y j * (sx_pts s (S j) i - sx_pts s 0%nat i)))) by (intros; rewrite Nat.add_1_r; ring).
      rewrite rsum_plus, rsum_scal, <- (Sol i L), <- (P i L). ring. }
    split; [intros j J; specialize (D j J); specialize (Y j J); lra|]. rewrite (rsum_ext N _ y); [exact S1|]. intros j J. specialize (D j J). lra.
Qed.
End Trace.

(** ** Volume and measure *)
Section Volume.
Variable N : nat.
Variable bigger : R_field -> R_field -> bool.
Hypothesis O : sane_order bigger.
Lemma volume_few s : (sx_n s < N + 1)%nat -> simplex_volume N bigger s = 0.
Proof. intros L. unfold simplex_volume. destruct (Nat.ltb_spec (sx_n s) (N + 1)); [reflexivity|lia]. Qed.
Lemma volume_small s : (1 <= N <= 3)%nat -> sx_n s = (N + 1)%nat ->
  simplex_volume N bigger s = det (K := R_field) N (fun r c => sx_pts s (S r) c - sx_pts s 0%nat c) / rfact N.
Proof.
  intros L E. unfold simplex_volume. rewrite E, Nat.ltb_irrefl. cbv zeta.
  assert (N = 1 \/ N = 2 \/ N = 3)%nat as [->|[->| ->]] by lia; cbn [Nat.eqb].
  - rewrite det_destructive_eq, detNxN_one. cbn. unR. unfold vec_sub. field.
  - rewrite det2x2_ok. cbn. unR. unfold minor. cbn. unfold vec_sub. field.
  - rewrite det3x3_ok. cbn. unR. unfold minor. cbn. unfold vec_sub. field.
Qed.
Lemma volume_standard : (4 <= N)%nat -> simplex_volume N bigger (standard_simplex N) = 0.
Proof.
  intros L. unfold simplex_volume. cbn [standard_simplex sx_n sx_pts]. rewrite Nat.ltb_irrefl. cbv zeta.
  destruct (Nat.eqb_spec N 2); [lia|]. destruct (Nat.eqb_spec N 3); [lia|]. rewrite det_destructive_eq, detNxN_eq.
  match goal with |- context [plu_buffer bigger ?b N] => set (m := b) end.
  destruct (diag_decomp R_field bigger N (fun r c => m (N * r + c)%nat) (fun _ => 1) O) as (E & _ & _ & P).
  - intros r c R C. unfold m, vec_sub, diag. destruct (cell_div N r c C) as [-> ->]. rewrite (Nat.add_1_r r). cbn [Nat.leb Nat.sub andb]. rewrite Nat.sub_0_r.
    destruct (Nat.ltb_spec r N); [|lia]. destruct (Nat.ltb_spec (S r) (N + 1)); [|lia]. destruct (Nat.eqb_spec r c), (Nat.eqb_spec c r); try lia; cbn; unR; ring.
  - intros. cbn. lra.
  - unfold plu_buffer. rewrite E. cbn [Nat.ltb Nat.leb].
    rewrite (prod_zero R_field N _ 1 ltac:(lia)).
    + unfold signed. destruct (pp _); unR; unfold Rdiv; ring.
    + unfold flat. rewrite Nat.div_small, Nat.mod_small by lia. rewrite P by lia. reflexivity.
Qed.
Lemma measure_segment s : sx_n s = 2%nat -> simplex_measure N bigger s = distance N (sx_pts s 1%nat) (sx_pts s 0%nat).
Proof. intros E. unfold simplex_measure. rewrite E. cbn [Nat.eqb]. rewrite mag_is. reflexivity. Qed.
Lemma measure_full s : sx_n s = (N + 1)%nat -> (2 <= N)%nat -> simplex_measure N bigger s = simplex_volume N bigger s.
Proof.
  intros E L. unfold simplex_measure. rewrite E. destruct (Nat.eqb_spec (N + 1) 2); [lia|]. destruct (Nat.eqb_spec N 3) as [->|]; cbn [andb Nat.eqb Nat.add]; [reflexivity|].
  now rewrite Nat.eqb_refl.
Qed.
Lemma measure_orthogonal s : (3 <= sx_n s <= N)%nat -> (4 <= N)%nat ->
  (forall i j, (i < sx_n s - 1)%nat -> (j < sx_n s - 1)%nat -> i <> j -> vinner N (fun k => sx_pts s (S i) k - sx_pts s 0%nat k) (fun k => sx_pts s (S j) k - sx_pts s 0%nat k) = 0) ->
  (forall i, (i < sx_n s - 1)%nat -> ~ same N (sx_pts s (S i)) (sx_pts s 0%nat)) -> simplex_measure N bigger s = 0.
Proof.
  intros L L4 Orth Nz. unfold simplex_measure. set (n := sx_n s) in *. destruct (Nat.eqb_spec n 2); [lia|]. destruct (Nat.eqb_spec N 3); [lia|]. destruct (Nat.eqb_spec n (N + 1)); [lia|].
  cbn [andb]. cbv zeta. set (e := fun i => vec_sub (sx_pts s (i + 1)%nat) (sx_pts s 0%nat)). set (b := fun i => if (i <? n - 1)%nat then e i else fun _ => 0).
  rewrite det_destructive_eq, detNxN_eq. match goal with |- context [plu_buffer bigger ?b n] => set (m := b) end.
  assert (forall i, e i = fun k => sx_pts s (S i) k - sx_pts s 0%nat k) as Ee by (intros i; unfold e, vec_sub; now rewrite Nat.add_1_r).
  assert (forall i j, i <> j -> vinner N (b i) (b j) = 0) as Bz.
  { intros i j D. unfold b. destruct (Nat.ltb_spec i (n - 1)), (Nat.ltb_spec j (n - 1)); [rewrite !Ee; now apply Orth| | |];
      unfold VecNSpec.inner; rewrite (rsum_ext N _ (fun _ => 0)); try apply rsum_zero; intros; ring. }
  destruct (diag_decomp R_field bigger n (fun r c => m (n * r + c)%nat) (fun i => vinner N (b i) (b i)) O) as (E & _ & _ & P).
  - intros r c R C. unfold m, diag. destruct (cell_div n r c C) as [-> ->]. rewrite dot_is. destruct (Nat.eqb_spec r c) as [->|D]; [reflexivity|]. now apply Bz.
  - intros k K Z. unfold b in Z. destruct (Nat.ltb_spec k (n - 1)); [|lia]. apply inner_zero in Z. apply (Nz k K). intros i I. specialize (Z i I). rewrite Ee in Z. lra.
  - unfold plu_buffer. rewrite E. cbn [Nat.ltb Nat.leb].
    rewrite (prod_zero R_field n _ 1 ltac:(lia)).
    + replace (signed R_field _ 0%F) with 0 by (unfold signed; destruct (pp _); unR; ring). rewrite Rabs_R0, sqrt_0. unfold Rdiv. ring.
    + unfold flat. rewrite Nat.div_small, Nat.mod_small by lia. rewrite P by lia. reflexivity.
Qed.
End Volume.
Lemma measure_triangle bigger s : sx_n s = 3%nat -> let a := fun i => sx_pts s 1%nat i - sx_pts s 0%nat i in let b := fun i => sx_pts s 2%nat i - sx_pts s 0%nat i in
  0 <= simplex_measure 3 bigger s /\ 2 * simplex_measure 3 bigger s * (2 * simplex_measure 3 bigger s) = vinner 3 a a * vinner 3 b b - vinner 3 a b * vinner 3 a b.
Proof.
  intros E a b. unfold simplex_measure. rewrite E. cbn [Nat.eqb andb]. cbv zeta. rewrite mag_is. set (c := orthogonal3 _). split.
  - apply Rmult_le_pos; [apply length_nonneg|lra].
  - replace (2 * (VecNSpec.length 3 c / 2) * (2 * (VecNSpec.length 3 c / 2))) with (VecNSpec.length 3 c * VecNSpec.length 3 c) by field. unfold VecNSpec.length. rewrite sqrt_sqrt by apply inner_nonneg.
    unfold c, VecNSpec.inner, orthogonal3. cbn. unR. unfold vec_sub, a, b. ring.
Qed.

(** ** Undoing a transform *)
Lemma unxf_hull N (xf : xformR) s p : sound N xf ->
  (hull N (sx_n (simplex_unxf N s xf)) (sx_pts (simplex_unxf N s xf)) p <-> hull N (sx_n s) (sx_pts s) (xf_apply N xf p)).
Proof.
  intros S. rewrite <- (image_inverse N xf (hull N (sx_n s) (sx_pts s)) p S (hull_respects N (sx_n s) (sx_pts s))). exact (xf_hull N (xf_inverse xf) s p).
Qed.

(** ** Witnesses *)
Definition corner_triangle : simplex := mkSimplex 3 (three (pt2 0 0) (pt2 1 0) (pt2 0 1)).
Lemma corner_independent : affinely_independent 2 (2 + 1) (sx_pts corner_triangle).
Proof.
  intros w S P. pose proof (P 0%nat ltac:(lia)) as P0. pose proof (P 1%nat ltac:(lia)) as P1. cbn in S, P0, P1. intros [|[|[|j]]] J; [lra|lra|lra|lia].
Qed.
Lemma corner_hull p : hull 2 (2 + 1) (sx_pts corner_triangle) p <-> 0 <= p 0%nat /\ 0 <= p 1%nat /\ p 0%nat + p 1%nat <= 1.
Proof.
  rewrite Nat.add_1_r, (hull_edges 2 2). split.
  - intros (x & X & S & P). pose proof (P 0%nat ltac:(lia)) as P0. pose proof (P 1%nat ltac:(lia)) as P1. cbn in S, P0, P1. pose proof (X 0%nat ltac:(lia)). pose proof (X 1%nat ltac:(lia)). lra.
  - intros H. exists p. split; [intros [|[|j]] J; [lra|lra|lia]|]. split; [cbn; lra|]. intros [|[|i]] L; [cbn; ring|cbn; ring|lia].
Qed.
Lemma grazing_ray bigger : sane_order bigger -> exists iv, simplex_ray 2 bigger corner_triangle (mkRay (pt2 2 (-1)) (pt2 (-1) 0)) = Some iv /\ in_interval iv 1.
Proof.
  intros O. unfold simplex_ray. cbn [corner_triangle sx_n]. cbv zeta.
  change (3 =? 2 + 1)%nat with true. cbv iota.
  destruct (vec_solve_ok bigger O (2 + 1) (fun j i => if (i <? 2)%nat then sx_pts corner_triangle j i else 1) 2 
    (fun i j => if (i <? 2)%nat then (if (j =? 0)%nat then pt2 2 (-1) i else pt2 (-1) 0 i) else if (j =? 0)%nat then 1 else 0)
    (proj1 (ray_system 2 (sx_pts corner_triangle)) corner_independent)) as (B & EB & H).
  match goal with |- context [vec_solve ?a ?b ?c ?d ?e ?f] => replace (vec_solve a b c d e f) with (Some (true, B)) by (symmetry; exact EB) end.
  eexists. split; [reflexivity|].
  pose proof (H 0%nat 0%nat ltac:(lia) ltac:(lia)) as H00. pose proof (H 1%nat 0%nat ltac:(lia) ltac:(lia)) as H10. pose proof (H 2%nat 0%nat ltac:(lia) ltac:(lia)) as H20.
  pose proof (H 0%nat 1%nat ltac:(lia) ltac:(lia)) as H01. pose proof (H 1%nat 1%nat ltac:(lia) ltac:(lia)) as H11. pose proof (H 2%nat 1%nat ltac:(lia) ltac:(lia)) as H21.
  cbn in H00, H10, H20, H01, H11, H21. unR.
  assert (B 0%nat 0%nat = 0) as E0 by lra. assert (B 0%nat 1%nat = 1) as F0 by lra. assert (B 1%nat 0%nat = 2) as E1 by lra. assert (B 1%nat 1%nat = -1) as F1 by lra.
  clear H00 H10 H20 H01 H11 H21.
  cbn [seq Nat.add weights_interval lo hi mk_interval ext_ltb]. rewrite E0, F0, E1, F1. destruct (Req_EM_T 1 0); [lra|]. destruct (Req_EM_T (-1) 0); [lra|].
  set (iv1 := inter (mk_interval NInf PInf) (iv_between (- 0 / 1) ((1 - 0) / 1))).
  assert (in_interval iv1 1) as I1 by (apply inter_has; split; [apply all_has|]; apply (weight_between 0 1); lra).
  destruct (ext_ltb (lo iv1 0%nat) (hi iv1 0%nat)); [|exact I1].
  set (iv2 := inter iv1 (iv_between (- (2) / -1) ((1 - 2) / -1))).
  assert (in_interval iv2 1) as I2 by (apply inter_has; split; [exact I1|]; apply (weight_between 2 (-1)); lra).
  destruct (ext_ltb (lo iv2 0%nat) (hi iv2 0%nat)) eqn:T; [|exact I2]. exfalso.
  assert (forall s, in_interval iv2 s -> s = 1) as U.
  { intros s Hs. apply inter_has in Hs as [Ha Hb]. apply inter_has in Ha as [_ Ha]. apply (weight_between 0 1) in Ha; [|lra]. apply (weight_between 2 (-1)) in Hb; [|lra]. lra. }
  unfold in_interval in U, I2. destruct (lo iv2 0%nat) as [|a|], (hi iv2 0%nat) as [|b|]; try discriminate; try easy.
  - pose proof (U (b - 1) ltac:(split; [easy|lra])). pose proof (U b ltac:(split; [easy|lra])). lra.
  - pose proof (U 0 ltac:(easy)). lra.
  - cbn in T. unfold Rltb in T. destruct (Rlt_dec a b) as [L|L]; [|discriminate]. pose proof (U a ltac:(split; lra)). pose proof (U b ltac:(split; lra)). lra.
  - pose proof (U a ltac:(split; [lra|easy])). pose proof (U (a + 1) ltac:(split; [lra|easy])). lra.
Qed.
Lemma flat_triangle bigger p : sane_order bigger -> simplex_contains 2 bigger (mkSimplex 3 (three (pt2 0 0) (pt2 1 0) (pt2 2 0))) p = None.
Proof.
  intros O. unfold simplex_contains. cbn [sx_n]. change (3 <? 2 + 1)%nat with false. cbv iota zeta.
  match goal with |- context [checked_solve ?b ?A _ _ _ ?x] => set (C := A); set (X := x) end.
  destruct (echelon_decomp R_field bigger (2 + 1) (2 + 1) C O) as (E1 & _ & _ & E2).
  - intros k K. assert (k = 0 \/ k = 1)%nat as [-> | ->] by (cbn in K; lia).
    + split; [cbn; lra|]. intros [|[|[|r]]] R; try lia; reflexivity.
    + split; [cbn; lra|]. intros [|[|[|r]]] R; try lia; reflexivity.
  - unfold checked_solve. destruct (linear_solve bigger C (2 + 1) 1 1 X) as [[[|] X']|] eqn:E.
    + destruct (forallb _ _) eqn:F; [|reflexivity]. rewrite forallb_forall in F. specialize (F 2%nat ltac:(apply in_seq; lia)). rewrite E2 in F by lia.
      destruct (Req_EM_T _ 0) as [Z|Z]; [discriminate|]. destruct Z. reflexivity.
    + exfalso. unfold linear_solve in E. rewrite E1 in E. cbn in E. match type of E with match ?d with _ => _ end = _ => destruct d as [[? ?]|] end; discriminate.
    + reflexivity.
Qed.
Lemma facing_wrong bigger : sane_order bigger ->
  simplex_is_facing 3 bigger (mkSimplex 3 (three (pt3 0 0 0) (pt3 1 0 0) (pt3 0 1 0))) (pt3 (1/2) (-5) 0) = Some true /\
  ~ faces 3 3 (three (pt3 0 0 0) (pt3 1 0 0) (pt3 0 1 0)) (pt3 (1/2) (-5) 0).
Proof.
  intros O. split.
  - unfold simplex_is_facing. cbn [sx_n]. cbv zeta. cbn [Nat.sub nullspace_any Nat.leb Nat.eqb orthogonal_any sx_pts].
    match goal with |- context [vec_solve ?a ?b ?c ?d ?e ?f] => set (b0 := c); set (X0 := f) end.
    rewrite vec_solve_small by lia.
    destruct (vec_solve_ok bigger O 3 b0 1 X0) as (X & E & H).
    + apply independent_nonsingular. intros w W. pose proof (W 0%nat ltac:(lia)) as W0. pose proof (W 1%nat ltac:(lia)) as W1. pose proof (W 2%nat ltac:(lia)) as W2.
      cbn in W0, W1, W2. unfold vec_sub in *. cbn in W0, W1, W2. unR. intros [|[|[|j]]] J; [lra|lra|lra|lia].
    + rewrite E. cbn [seq coords_inside]. pose proof (H 0%nat 0%nat ltac:(lia) ltac:(lia)) as H0. cbn in H0. unfold vec_sub in H0. cbn in H0. unR.
      change (X0 0%nat 0%nat) with (1 / 2 - 0) in H0. assert (X 1%nat 0%nat = 1/2) as E1 by lra. rewrite E1. destruct (Rlt_dec (1/2) 0); [lra|]. destruct (Rlt_dec 1 (0 + 1/2)); [lra|]. reflexivity.
  - intros (q & Q & F). apply (hull_edges 3 2) in Q as (x & X & S & P). specialize (F 2%nat ltac:(lia)). pose proof (P 1%nat ltac:(lia)) as P1. pose proof (X 1%nat ltac:(lia)).
    unfold VecNSpec.inner in F. cbn in F, P1. lra.
Qed.
Lemma clockwise_measure bigger : simplex_measure 2 bigger (mkSimplex 3 (three (pt2 0 0) (pt2 0 1) (pt2 1 0))) = - (1 / 2).
Proof.
  rewrite measure_full by (cbn; lia). rewrite (volume_small 2 bigger) by (cbn; lia). cbn. unfold minor. cbn. unR. field.
Qed.
Lemma constructors_ok N verts n (l : list vec) j :
  sx_n (simplex_of verts n) = n /\ ((j < n)%nat -> sx_pts (simplex_of verts n) j = verts j) /\
  (sx_n (simplex_of_list N l) <= N + 1)%nat /\ ((List.length l <= N + 1)%nat -> sx_n (simplex_of_list N l) = List.length l) /\
  ((j < List.length l)%nat -> (j < N + 1)%nat -> List.nth_error l j = Some (sx_pts (simplex_of_list N l) j) /\ (j < sx_n (simplex_of_list N l))%nat).
Proof.
  unfold simplex_of_list, simplex_of. cbn [sx_n sx_pts]. split; [reflexivity|]. split; [intros H; destruct (Nat.ltb_spec j n); [reflexivity|lia]|].
  split; [lia|]. split; [lia|]. intros H H'. split; [|lia]. destruct (Nat.ltb_spec j (Nat.min (List.length l) (N + 1))); [|lia]. apply List.nth_error_nth'. exact H.
Qed.
