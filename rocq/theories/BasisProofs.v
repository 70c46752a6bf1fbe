(** Lemmas for the Legendre and Chebyshev polynomials. *)
From Coq Require Import Reals Lra Lia Arith List.
From Verif Require Import BasisModel BasisSpec.
Import ListNotations.
Open Scope R_scope.

(** ** The recurrence *)
Fixpoint pair (n : nat) (x : R) : R * R := (** (P n, P (n+1)) *)
  match n with O => (1, x) | S n => let '(a, b) := pair n x in (b, bonnet (S n) x b a) end.
Definition P (n : nat) (x : R) : R := fst (pair n x).
Lemma pair_is n x : pair n x = (P n x, P (S n) x).
Proof. unfold P. cbn. destruct (pair n x). reflexivity. Qed.
Lemma P_0 x : P 0 x = 1. Proof. reflexivity. Qed.
Lemma P_1 x : P 1 x = x. Proof. reflexivity. Qed.
Lemma P_SS n x : P (S (S n)) x = bonnet (S n) x (P (S n) x) (P n x).
Proof. unfold P at 1. cbn [pair]. rewrite pair_is. reflexivity. Qed.
Lemma INR_S_pos n : 0 < INR (S n). Proof. apply lt_0_INR. lia. Qed.
Lemma bonnet_eq n x : (INR n + 2) * P (S (S n)) x = (2 * INR n + 3) * x * P (S n) x - (INR n + 1) * P n x.
Proof. rewrite P_SS. unfold bonnet. rewrite S_INR. pose proof (pos_INR n). field. lra. Qed.
Lemma loop_is n x : legendre_loop (S n) x = (P n x, P (S n) x, P (S n) x).
Proof.
  unfold legendre_loop. cbn [Nat.sub]. rewrite Nat.sub_0_r. induction n as [|n IH]; [reflexivity|].
  rewrite seq_S, fold_left_app, IH. cbn [fold_left plus]. rewrite <- P_SS. reflexivity.
Qed.
Lemma legendre_P n x : legendre n x = P n x.
Proof. destruct n as [|n]; [reflexivity|]. unfold legendre. now rewrite loop_is. Qed.
Lemma integral_P n x : legendre_integral (S n) x = (P (S (S n)) x - P n x) / (2 * INR n + 3).
Proof. unfold legendre_integral. rewrite loop_is, <- P_SS. f_equal. rewrite S_INR. ring. Qed.
Lemma P_at_1 n : P n 1 = 1.
Proof.
  assert (P n 1 = 1 /\ P (S n) 1 = 1) as [H _]; [|exact H]. induction n as [|n [A B]]; [split; reflexivity|]. split; [exact B|].
  rewrite P_SS, A, B. unfold bonnet. pose proof (pos_INR (S n)). field. lra.
Qed.
Lemma P_parity n x : P n (- x) = (-1) ^ n * P n x.
Proof.
  assert (P n (- x) = (-1) ^ n * P n x /\ P (S n) (- x) = (-1) ^ S n * P (S n) x) as [H _]; [|exact H].
  induction n as [|n [A B]]; [cbn; split; ring|]. split; [exact B|]. rewrite !P_SS, A, B. unfold bonnet. pose proof (pos_INR (S n)). cbn [pow]. field. lra.
Qed.

(** ** Derivatives *)
Lemma deriv_ext f f' g g' : deriv f g -> (forall x, f x = f' x) -> (forall x, g x = g' x) -> deriv f' g'.
Proof.
  intros D F G x. rewrite <- G. intros eps E. destruct (D x eps E) as [del H]. exists del. intros h h0 hd. rewrite <- !F. now apply H.
Qed.
Lemma deriv_plus f f' g g' : deriv f f' -> deriv g g' -> deriv (fun x => f x + g x) (fun x => f' x + g' x).
Proof. intros A B x. now apply (derivable_pt_lim_plus f g). Qed.
Lemma deriv_scal c f f' : deriv f f' -> deriv (fun x => c * f x) (fun x => c * f' x).
Proof. intros A x. now apply (derivable_pt_lim_scal f). Qed.
Lemma deriv_mult f f' g g' : deriv f f' -> deriv g g' -> deriv (fun x => f x * g x) (fun x => f' x * g x + f x * g' x).
Proof. intros A B x. now apply (derivable_pt_lim_mult f g). Qed.
Lemma deriv_id : deriv (fun x => x) (fun _ => 1).
Proof. intros x. apply (derivable_pt_lim_id x). Qed.
Lemma deriv_const c : deriv (fun _ => c) (fun _ => 0).
Proof. intros x. apply (derivable_pt_lim_const c x). Qed.
Lemma deriv_unique f g h x : deriv f g -> deriv f h -> g x = h x.
Proof. intros A B. eapply uniqueness_limite; [apply A|apply B]. Qed.
Lemma deriv_zero f : deriv f (fun _ => 0) -> forall x y, f x = f y.
Proof.
  intros D. assert (derivable f) as Hd by (intros x; exists 0; apply D).
  pose proof (null_derivative_1 f Hd) as C. apply C. intros x. apply derive_pt_eq_0. apply D.
Qed.
Lemma nth_deriv_app n m f g h : nth_deriv n f g -> nth_deriv m g h -> nth_deriv (n + m) f h.
Proof.
  revert f. induction n as [|n IH]; intros f A B; cbn in *.
  - destruct m; cbn in *; [intros; now rewrite A|]. destruct B as (k & K & B). exists k. split; [|exact B].
    eapply deriv_ext; [exact K| |reflexivity]. intros. now rewrite A.
  - destruct A as (k & K & A). exists k. split; [exact K|]. now apply IH.
Qed.

(** ** Derivatives of (x^2-1)^n / (2^n n!) *)
Fixpoint Rr (n k : nat) (x : R) : R :=
  match n, k with
  | _, O => rodrigues n x
  | O, S _ => 0
  | S n, S k => x * Rr n k x + INR k * Rr n (k - 1) x
  end.
Lemma Rr_S0 n x : Rr (S n) 0 x = rodrigues (S n) x. Proof. reflexivity. Qed.
Lemma Rr_n0 n x : Rr n 0 x = rodrigues n x. Proof. now destruct n. Qed.
Lemma Rr_SS n k x : Rr (S n) (S k) x = x * Rr n k x + INR k * Rr n (k - 1) x. Proof. reflexivity. Qed.
Lemma rodrigues_deriv n : deriv (rodrigues (S n)) (fun x => x * rodrigues n x).
Proof.
  assert (deriv (fun x => x ^ 2 - 1) (fun x => 2 * x)) as D.
  { eapply deriv_ext; [exact (deriv_plus _ _ _ _ (deriv_mult _ _ _ _ deriv_id deriv_id) (deriv_const (-1)))| |]; intros; cbn; ring. }
  assert (forall k, deriv (fun x => (x ^ 2 - 1) ^ S k) (fun x => INR (S k) * (2 * x) * (x ^ 2 - 1) ^ k)) as Dk.
  { induction k as [|k IH]; [eapply deriv_ext; [exact D| |]; intros; cbn; ring|].
    eapply deriv_ext; [exact (deriv_mult _ _ _ _ D IH)| |]; intros; [reflexivity|]. cbv beta. rewrite (S_INR (S k)). cbn [pow]. ring. }
  eapply deriv_ext; [exact (deriv_scal (/ (2 ^ S n * INR (fact (S n)))) _ _ (Dk n))| |]; intros x; unfold rodrigues.
  - unfold Rdiv. ring.
  - rewrite fact_simpl, mult_INR. cbn [pow]. pose proof (INR_fact_neq_0 n). pose proof (INR_S_pos n). pose proof (pow_nonzero 2 n ltac:(lra)). field. repeat split; lra.
Qed.
Lemma Rr_deriv n : forall k, deriv (Rr n k) (Rr n (S k)).
Proof.
  induction n as [|n IH]; intros k.
  - destruct k; cbn; [|apply deriv_const]. eapply deriv_ext; [exact (deriv_const 1)| |]; intros; [unfold rodrigues; cbn; field|reflexivity].
  - destruct k as [|k].
    + eapply deriv_ext; [apply rodrigues_deriv|reflexivity|]. intros x. rewrite Rr_SS, Rr_n0. cbn. ring.
    + eapply deriv_ext; [exact (deriv_plus _ _ _ _ (deriv_mult _ _ _ _ deriv_id (IH k)) (deriv_scal (INR k) _ _ (IH (k - 1)%nat)))| |]; intros x; [reflexivity|].
      rewrite Rr_SS. cbn [Nat.sub]. rewrite Nat.sub_0_r, S_INR. destruct k as [|k]; [cbn [INR]; ring|]. cbn [Nat.sub]. rewrite Nat.sub_0_r. ring.
Qed.
Lemma Rr_nth n k : nth_deriv k (rodrigues n) (Rr n k).
Proof.
  assert (forall k j, nth_deriv k (Rr n j) (Rr n (j + k))) as H.
  { induction k0 as [|k0 IH]; intros j; cbn; [intros; now rewrite Nat.add_0_r|]. exists (Rr n (S j)). split; [apply Rr_deriv|].
    replace (j + S k0)%nat with (S j + k0)%nat by lia. apply IH. }
  pose proof (H k 0%nat) as Hk. destruct k; cbn in Hk |- *; [intros; now rewrite Rr_n0|]. destruct Hk as (h & Hh & Hk). exists h. split; [|exact Hk].
  eapply deriv_ext; [exact Hh| |reflexivity]. intros. apply Rr_n0.
Qed.
Lemma Rr_zero_at_1 n : forall k, (k < n)%nat -> Rr n k 1 = 0.
Proof.
  induction n as [|n IH]; intros k L; [lia|]. destruct k as [|k].
  - cbn. unfold rodrigues. replace (1 ^ 2 - 1) with 0 by ring. rewrite pow_i by lia. unfold Rdiv. ring.
  - rewrite Rr_SS, !IH by lia. ring.
Qed.

(** ** The polynomials satisfy Rodrigues' formula *)
Lemma P_derivs : exists P', (forall n, deriv (P n) (P' n)) /\ (forall x, P' 0%nat x = 0) /\ (forall x, P' 1%nat x = 1) /\
  forall n x, (INR n + 2) * P' (S (S n)) x = (2 * INR n + 3) * (P (S n) x + x * P' (S n) x) - (INR n + 1) * P' n x.
Proof.
  exists (fix d n x := match n with O => 0 | S n1 => match n1 with O => 1 | S n2 =>
    ((2 * INR n2 + 3) * (P n1 x + x * d n1 x) - (INR n2 + 1) * d n2 x) / (INR n2 + 2) end end).
  split; [|split; [reflexivity|split; [reflexivity|]]].
  - intros n. match goal with |- deriv _ (?d n) => set (dd := d) end.
    assert (deriv (P n) (dd n) /\ deriv (P (S n)) (dd (S n))) as [H _]; [|exact H].
    induction n as [|n [A B]].
    + split; [eapply deriv_ext; [exact (deriv_const 1)| |]; reflexivity|eapply deriv_ext; [exact deriv_id| |]; reflexivity].
    + split; [exact B|]. pose proof (pos_INR n).
      eapply deriv_ext; [exact (deriv_plus _ _ _ _ (deriv_scal ((2 * INR n + 3) / (INR n + 2)) _ _ (deriv_mult _ _ _ _ deriv_id B)) (deriv_scal (- (INR n + 1) / (INR n + 2)) _ _ A))| |]; intros x.
      * cbv beta. rewrite P_SS. unfold bonnet. rewrite S_INR. field. lra.
      * change (dd (S (S n)) x) with (((2 * INR n + 3) * (P (S n) x + x * dd (S n) x) - (INR n + 1) * dd n x) / (INR n + 2)). cbv beta. field. lra.
  - intros n x. pose proof (pos_INR n). field. lra.
Qed.
(** The three classical relations, with n >= 1 written S n. *)
Lemma P_relations P' : (forall n, deriv (P n) (P' n)) -> (forall x, P' 0%nat x = 0) -> (forall x, P' 1%nat x = 1) ->
  (forall n x, (INR n + 2) * P' (S (S n)) x = (2 * INR n + 3) * (P (S n) x + x * P' (S n) x) - (INR n + 1) * P' n x) ->
  forall n x, P' (S n) x = x * P' n x + (INR n + 1) * P n x /\ x * P' (S n) x - P' n x = (INR n + 1) * P (S n) x /\
    (x * x - 1) * P' (S n) x = (INR n + 1) * (x * P (S n) x - P n x).
Proof.
  intros D D0 D1 DR. induction n as [|n IH]; intros x.
  - rewrite D0, D1, P_0, P_1. cbn [INR]. repeat split; ring.
  - destruct (IH x) as (A & B & C). rewrite S_INR. pose proof (pos_INR n) as N.
    assert (P' (S (S n)) x = x * P' (S n) x + (INR n + 1 + 1) * P (S n) x) as A'.
    { apply (Rmult_eq_reg_l (INR n + 2)); [|lra]. rewrite DR. replace (P' n x) with (x * P' (S n) x - (INR n + 1) * P (S n) x) by lra. ring. }
    split; [exact A'|]. pose proof (bonnet_eq n x) as BE.
    assert ((x * x - 1) * P' (S n) x = (INR n + 1) * (x * P (S n) x - P n x)) as C1 by exact C.
    split; rewrite A'.
    + transitivity ((x * x - 1) * P' (S n) x + (INR n + 2) * x * P (S n) x); [ring|]. rewrite C1. transitivity ((INR n + 2) * P (S (S n)) x); [rewrite BE; ring|ring].
    + transitivity (x * ((x * x - 1) * P' (S n) x) + (INR n + 2) * (x * x - 1) * P (S n) x); [ring|]. rewrite C1.
      transitivity (x * ((INR n + 2) * P (S (S n)) x) - (INR n + 2) * P (S n) x); [rewrite BE; ring|ring].
Qed.
Lemma P_integral n : deriv (fun x => (P (S (S n)) x - P n x) / (2 * INR n + 3)) (P (S n)).
Proof.
  destruct P_derivs as (P' & D & D0 & D1 & DR). pose proof (P_relations P' D D0 D1 DR) as Rl. pose proof (pos_INR n).
  eapply deriv_ext; [exact (deriv_scal (/ (2 * INR n + 3)) _ _ (deriv_plus _ _ _ _ (D (S (S n))) (deriv_scal (-1) _ _ (D n))))| |]; intros x; cbv beta.
  - unfold Rdiv. ring.
  - destruct (Rl (S n) x) as (A & _). destruct (Rl n x) as (_ & B & _). rewrite S_INR in A. rewrite A.
    replace (P' n x) with (x * P' (S n) x - (INR n + 1) * P (S n) x) by lra. field. lra.
Qed.
Lemma Rr_is_P n : (forall x, Rr n n x = P n x) /\ (forall x, (Rr (S n) n x) = (P (S (S n)) x - P n x) / (2 * INR n + 3)).
Proof.
  induction n as [|n [A B]].
  - assert (forall x, Rr 0 0 x = P 0 x) as E by (intros; cbn; unfold rodrigues; cbn; field). split; [exact E|].
    intros x. rewrite P_SS, P_1, P_0. unfold bonnet. cbn. unfold rodrigues. cbn. field.
  - assert (forall x, Rr (S n) (S n) x = P (S n) x) as E.
    { intros x. eapply deriv_unique; [apply (Rr_deriv (S n) n)|]. eapply deriv_ext; [apply (P_integral n)| |reflexivity]. intros; now rewrite B. }
    split; [exact E|].
    assert (deriv (fun x => Rr (S (S n)) (S n) x + (-1) * ((P (S (S (S n))) x - P (S n) x) / (2 * INR (S n) + 3))) (fun _ => 0)) as Z.
    { eapply deriv_ext; [exact (deriv_plus _ _ _ _ (Rr_deriv (S (S n)) (S n)) (deriv_scal (-1) _ _ (P_integral (S n))))|reflexivity|].
      intros x. cbv beta. rewrite Rr_SS, E. cbn [Nat.sub]. rewrite Nat.sub_0_r, B. pose proof (bonnet_eq n x) as BE. rewrite S_INR. pose proof (pos_INR n).
      apply (Rmult_eq_reg_l (2 * INR n + 3)); [|lra]. field_simplify; [|lra]. lra. }
    intros x. pose proof (deriv_zero _ Z x 1) as C. cbv beta in C. rewrite (Rr_zero_at_1 (S (S n)) (S n)) in C by lia. rewrite !P_at_1 in C. lra.
Qed.

(** ** Associated polynomials: D m l is the m-th derivative of P l *)
Definition D (m l : nat) : R -> R := Rr l (l + m).
Lemma D_deriv m l : deriv (D m l) (D (S m) l).
Proof. unfold D. rewrite Nat.add_succ_r. apply Rr_deriv. Qed.
Lemma D_0 l x : D 0 l x = P l x.
Proof. unfold D. rewrite Nat.add_0_r. apply Rr_is_P. Qed.
Lemma D_a m l x : D (S m) (S l) x = x * D (S m) l x + (INR l + INR m + 1) * D m l x.
Proof.
  unfold D. replace (S l + S m)%nat with (S (l + S m)) by lia. rewrite Rr_SS. replace (l + S m - 1)%nat with (l + m)%nat by lia.
  replace (INR (l + S m)) with (INR l + INR m + 1) by (rewrite plus_INR, S_INR; ring). ring.
Qed.
Lemma D_b l : forall m x, x * D (S m) (S l) x - D (S m) l x = (INR l + 1 - INR m) * D m (S l) x.
Proof.
  induction m as [|m IH]; intros x.
  - destruct P_derivs as (P' & Hd & D0 & D1 & DR). pose proof (P_relations P' Hd D0 D1 DR l x) as (_ & B & _). rewrite D_0. cbn [INR]. rewrite Rminus_0_r, <- B.
    assert (forall k y, D 1 k y = P' k y) as E.
    { intros k y. eapply deriv_unique; [apply (D_deriv 0 k)|]. eapply deriv_ext; [apply Hd| |reflexivity]. intros. now rewrite D_0. }
    now rewrite !E.
  - assert (deriv (fun x => x * D (S m) (S l) x + (-1) * D (S m) l x) (fun x => (INR l + 1 - INR m) * D (S m) (S l) x)) as A.
    { eapply deriv_ext; [exact (deriv_scal (INR l + 1 - INR m) _ _ (D_deriv m (S l)))| |reflexivity]. intros y. cbv beta. rewrite <- IH. ring. }
    pose proof (deriv_plus _ _ _ _ (deriv_mult _ _ _ _ deriv_id (D_deriv (S m) (S l))) (deriv_scal (-1) _ _ (D_deriv (S m) l))) as B.
    pose proof (deriv_unique _ _ _ x A B) as C. cbv beta in C. rewrite S_INR. lra.
Qed.
Lemma D_next m l x : (INR l + 2 - INR m) * D m (S (S l)) x = x * (2 * INR l + 3) * D m (S l) x - (INR l + INR m + 1) * D m l x.
Proof.
  destruct m as [|m].
  - rewrite !D_0. cbn [INR]. pose proof (bonnet_eq l x). lra.
  - pose proof (D_a m (S l) x) as A. pose proof (D_b l m x) as B. rewrite S_INR in A. rewrite A, S_INR.
    replace (D (S m) l x) with (x * D (S m) (S l) x - (INR l + 1 - INR m) * D m (S l) x) by lra. ring.
Qed.
Lemma Rr_high n : forall k x, (2 * n < k)%nat -> Rr n k x = 0.
Proof.
  induction n as [|n IH]; intros k x L; destruct k as [|k]; try lia; [reflexivity|]. rewrite Rr_SS, !IH by lia. ring.
Qed.
Lemma D_high m l x : (l < m)%nat -> D m l x = 0.
Proof. intros L. apply Rr_high. lia. Qed.
Lemma double_factorial_S m : double_factorial (S m) = double_factorial m * - (2 * INR m + 1).
Proof. unfold double_factorial. rewrite seq_S, fold_left_app. cbn [fold_left plus]. rewrite S_INR. f_equal. ring. Qed.
Lemma D_mm m x : (-1) ^ m * D m m x = double_factorial m.
Proof.
  induction m as [|m IH]; [rewrite D_0; cbn; unfold double_factorial; cbn; ring|].
  rewrite D_a, (D_high (S m) m) by lia. rewrite double_factorial_S, <- IH. cbn [pow]. ring.
Qed.
Lemma D_m1 m x : D m (S m) x = x * (2 * INR m + 1) * D m m x.
Proof.
  destruct m as [|m].
  - rewrite !D_0. cbn. unfold P. cbn. ring.
  - pose proof (D_next (S m) m x) as H. rewrite (D_high (S m) m) in H by lia. rewrite S_INR in *. lra.
Qed.
Lemma legendre_mm_is m x w : legendre_mm m x = Some w -> exists v, pow_half (1 - x * x) m = Some v /\ w = (-1) ^ m * v * D m m x.
Proof.
  unfold legendre_mm. destruct m as [|m].
  - intros [= <-]. unfold pow_half. rewrite D_0. destruct (Rlt_dec _ _); (eexists; split; [reflexivity|]); cbn; unfold P; cbn; ring.
  - destruct (pow_half _ (S m)) as [v|]; [|discriminate]. intros [= <-]. exists v. split; [reflexivity|]. rewrite <- (D_mm (S m) x). ring.
Qed.
Lemma assoc_loop m x k v n : forall j, let c := (-1) ^ m * v in (j + m + 2 = k)%nat ->
  fold_left (fun '(pmm0, pmm1) i => (pmm1, assoc_next i m x pmm1 pmm0)) (seq k n) (c * D m (m + j) x, c * D m (m + j + 1) x) =
  (c * D m (m + j + n) x, c * D m (m + j + n + 1) x).
Proof.
  intros j c E. subst k. induction n as [|n IH] in j |- *; [cbn; now rewrite Nat.add_0_r|].
  cbn [seq fold_left].
  assert (assoc_next (j + m + 2) m x (c * D m (m + j + 1) x) (c * D m (m + j) x) = c * D m (m + (j + 1) + 1) x) as E.
  { unfold assoc_next. pose proof (D_next m (m + j) x) as H. replace (m + (j + 1) + 1)%nat with (S (S (m + j))) by lia.
    replace (m + j + 1)%nat with (S (m + j)) by lia. rewrite !plus_INR in *. pose proof (pos_INR j). cbn [INR] in *.
    replace (INR j + INR m + (1 + 1) - INR m) with (INR j + 2) by ring.
    transitivity (c * ((INR m + INR j + 2 - INR m) * D m (S (S (m + j))) x) / (INR j + 2)); [rewrite H; f_equal; ring|field; lra]. }
  rewrite E. replace (S (j + m + 2)) with ((j + 1) + m + 2)%nat by lia. replace (m + j + 1)%nat with (m + (j + 1))%nat by lia.
  rewrite (IH (j + 1)%nat). replace (m + (j + 1) + n)%nat with (m + j + S n)%nat by lia. reflexivity.
Qed.
Lemma assoc_is l m x w : (m <= l)%nat -> assoc_legendre l m x = Some w -> exists v, pow_half (1 - x * x) m = Some v /\ w = (-1) ^ m * v * D m l x.
Proof.
  intros L. unfold assoc_legendre. destruct (legendre_mm m x) as [p|] eqn:M; [|discriminate]. apply legendre_mm_is in M as (v & V & ->).
  destruct (Nat.eqb_spec l m) as [->|N1]; [intros [= <-]; eauto|].
  assert (x * (2 * INR m + 1) * ((-1) ^ m * v * D m m x) = (-1) ^ m * v * D m (m + 1) x) as E1.
  { replace (m + 1)%nat with (S m) by lia. rewrite D_m1. ring. }
  rewrite E1. destruct (Nat.eqb_spec l (m + 1)) as [->|N2]; [intros [= <-]; eauto|].
  intros [= <-]. exists v. split; [exact V|].
  pose proof (assoc_loop m x (m + 2) v (l + 1 - (m + 2)) 0 ltac:(lia)) as H. cbv zeta in H. rewrite Nat.add_0_r in H. rewrite H.
  cbn [snd]. replace (m + (l + 1 - (m + 2)) + 1)%nat with l by lia. reflexivity.
Qed.
Lemma assoc_defined l m x : -1 <= x <= 1 -> exists w, assoc_legendre l m x = Some w.
Proof.
  intros H. assert (exists p, legendre_mm m x = Some p) as [p E].
  { unfold legendre_mm. destruct m; [eauto|]. unfold pow_half. destruct (Rlt_dec _ _); [nra|]. eauto. }
  unfold assoc_legendre. rewrite E. destruct (l =? m)%nat; [eauto|]. destruct (l =? m + 1)%nat; eauto.
Qed.

(** ** Orthogonality *)
Lemma legendre_ode n x : (x * x - 1) * D 2 n x + 2 * x * D 1 n x = INR n * (INR n + 1) * P n x.
Proof.
  destruct n as [|n].
  - rewrite !D_high by lia. cbn [INR]. ring.
  - rewrite S_INR. pose proof (D_b n 0 x) as B0. pose proof (D_b n 1 x) as B1. pose proof (D_a 1 n x) as A1. pose proof (D_a 0 n x) as A0.
    rewrite !D_0 in *. cbn [INR] in *.
    assert (D 2 n x = x * D 2 (S n) x - (INR n + 1 - 1) * D 1 (S n) x) as E by lra. rewrite E in A1.
    assert (D 1 n x = x * D 1 (S n) x - (INR n + 1 - 0) * P (S n) x) as E1 by lra. rewrite E1 in A1. lra.
Qed.
Lemma D1_deriv n : deriv (P n) (D 1 n).
Proof. eapply deriv_ext; [apply (D_deriv 0 n)| |reflexivity]. intros. apply D_0. Qed.
Lemma orthogonal_integral m n : m <> n -> integral (fun x => P m x * P n x) (-1) 1 0.
Proof.
  intros N. set (k := INR m * (INR m + 1) - INR n * (INR n + 1)).
  assert (k <> 0) as K.
  { unfold k. replace (_ - _) with ((INR m - INR n) * (INR m + INR n + 1)) by ring. apply Rmult_integral_contrapositive. split.
    - intros Z. apply N, INR_eq. lra.
    - pose proof (pos_INR m). pose proof (pos_INR n). lra. }
  exists (fun x => / k * ((x * x - 1) * (D 1 m x * P n x + (-1) * (P m x * D 1 n x)))). split.
  - eapply deriv_ext; [exact (deriv_scal (/ k) _ _ (deriv_mult _ _ _ _ (deriv_plus _ _ _ _ (deriv_mult _ _ _ _ deriv_id deriv_id) (deriv_const (-1)))
      (deriv_plus _ _ _ _ (deriv_mult _ _ _ _ (D_deriv 1 m) (D1_deriv n)) (deriv_scal (-1) _ _ (deriv_mult _ _ _ _ (D1_deriv m) (D_deriv 1 n))))))| |]; intros x; cbv beta.
    + ring.
    + pose proof (legendre_ode m x) as Em. pose proof (legendre_ode n x) as En.
      transitivity (/ k * (((x * x - 1) * D 2 m x + 2 * x * D 1 m x) * P n x - ((x * x - 1) * D 2 n x + 2 * x * D 1 n x) * P m x)); [ring|].
      rewrite Em, En. unfold k in *. field. exact K.
  - field. exact K.
Qed.
(** Half-integral against x, for the Lambertian kernel. *)
Lemma integral_unique f a b v w : integral f a b v -> integral f a b w -> v = w.
Proof.
  intros (F & DF & <-) (G & DG & <-).
  assert (deriv (fun x => F x + (-1) * G x) (fun _ => 0)) as Z.
  { eapply deriv_ext; [exact (deriv_plus _ _ _ _ DF (deriv_scal (-1) _ _ DG))|reflexivity|]. intros; cbv beta; ring. }
  pose proof (deriv_zero _ Z a b). lra.
Qed.
(** Squared norm: the integral of P(n)^2 is 2 / (2 n + 1). *)
Lemma integral_ext f g a b v : (forall x, f x = g x) -> integral f a b v -> integral g a b v.
Proof. intros E (F & HF & V). exists F. split; [|exact V]. eapply deriv_ext; [exact HF|reflexivity|exact E]. Qed.
Lemma integral_lin c f d g a b v w : integral f a b v -> integral g a b w -> integral (fun x => c * f x + d * g x) a b (c * v + d * w).
Proof.
  intros (F & HF & <-) (G & HG & <-). exists (fun x => c * F x + d * G x). split; [|ring]. apply deriv_plus; now apply deriv_scal.
Qed.
Lemma P_norm n : integral (fun x => P n x * P n x) (-1) 1 (2 / (2 * INR n + 1)).
Proof.
  destruct n as [|n].
  - exists (fun x => x). split; [eapply deriv_ext; [exact deriv_id|reflexivity|]; intros; cbv beta; rewrite P_0; ring|cbn; field].
  - (* (2n+1) P_n^2 = (x P_n^2)' - 2 P_n' (x P_n) + 2n P_n^2; use x P_n' = n P_n + P_{n-1}' *)
    (* (x P_n^2)' = P_n^2 + 2 P_n (x P_n') = (2n+1) P_n^2 + 2 P_n P_{n-1}' *)
    destruct (orthogonal_integral (S n) (S (S n))) as (F0 & _); [lia|]. clear F0.
    assert (forall k, (k <= n)%nat -> integral (fun x => P (S n) x * D 1 k x) (-1) 1 0) as L.
    { induction k as [k IH] using lt_wf_ind. intros Lk. destruct k as [|[|k]].
      - exists (fun _ => 0). split; [eapply deriv_ext; [exact (deriv_const 0)|reflexivity|]; intros; cbv beta; rewrite D_high by lia; ring|ring].
      - eapply integral_ext; [|exact (orthogonal_integral (S n) 0 ltac:(lia))]. intros x. cbv beta. rewrite P_0.
        pose proof (D_a 0 0 x) as A. rewrite D_0, (D_high 1 0), P_0 in A by lia. rewrite A. cbn. ring.
      - pose proof (integral_lin (2 * INR k + 3) _ 1 _ _ _ _ _ (orthogonal_integral (S n) (S k) ltac:(lia)) (IH k ltac:(lia) ltac:(lia))) as I.
        replace ((2 * INR k + 3) * 0 + 1 * 0) with 0 in I by ring. eapply integral_ext; [|exact I]. intros x. cbv beta.
        pose proof (D_a 0 (S k) x) as A. pose proof (D_b k 0 x) as B. rewrite !D_0 in *. rewrite S_INR in *. cbn [INR] in *. rewrite A.
        replace (x * D 1 (S k) x) with (D 1 k x + (INR k + 1 - 0) * P (S k) x) by lra. ring. }
    destruct (L n (le_n n)) as (G & HG & VG).
    pose proof (deriv_mult _ _ _ _ deriv_id (deriv_mult _ _ _ _ (D1_deriv (S n)) (D1_deriv (S n)))) as X.
    assert (2 * INR (S n) + 1 <> 0) as NZ by (pose proof (pos_INR (S n)); lra).
    exists (fun x => / (2 * INR (S n) + 1) * (x * (P (S n) x * P (S n) x) + (-2) * G x)). split.
    + eapply deriv_ext; [exact (deriv_scal (/ (2 * INR (S n) + 1)) _ _ (deriv_plus _ _ _ _ X (deriv_scal (-2) _ _ HG)))|reflexivity|].
      intros x. cbv beta. pose proof (D_b n 0 x) as B. rewrite D_0 in B. cbn [INR] in B. rewrite S_INR in *.
      replace (D 1 n x) with (x * D 1 (S n) x - (INR n + 1 - 0) * P (S n) x) by lra. field. exact NZ.
    + replace (P (S n) (-1)) with ((-1) ^ S n * P (S n) 1) by (symmetry; apply (P_parity (S n) 1)). rewrite P_at_1.
      replace ((-1) ^ S n * 1 * ((-1) ^ S n * 1)) with 1; [|rewrite !Rmult_1_r, <- Rpow_mult_distr; replace (-1 * -1) with 1 by ring; now rewrite pow1].
      rewrite Rmult_1_r in *. transitivity (/ (2 * INR (S n) + 1) * (2 - 2 * (G 1 - G (-1)))); [ring|]. rewrite VG. field. exact NZ.
Qed.

(** ** Chebyshev *)
Fixpoint cpair (kind n : nat) (x : R) : R * R :=
  match n with O => (1, INR kind * x) | S n => let '(a, b) := cpair kind n x in (b, 2 * x * b - a) end.
Lemma chebyshev_S kind n x : chebyshev kind (S n) x = snd (cpair kind n x).
Proof.
  unfold chebyshev. cbn [Nat.sub]. rewrite Nat.sub_0_r.
  assert (fold_left (fun '(t_0, t_1, _) (_ : nat) => let t_i := 2 * x * t_1 - t_0 in (t_1, t_i, t_i)) (seq 1 n) (1, INR kind * x, INR kind * x) =
    (fst (cpair kind n x), snd (cpair kind n x), snd (cpair kind n x))) as H; [|cbv zeta in H |- *; now rewrite H].
  induction n as [|n IH]; [reflexivity|]. rewrite seq_S, fold_left_app, IH. cbn [fold_left cpair]. destruct (cpair kind n x). reflexivity.
Qed.
Lemma cpair_fst kind n x : fst (cpair kind n x) = chebyshev kind n x.
Proof. destruct n as [|n]; [reflexivity|]. rewrite chebyshev_S. cbn [cpair]. destruct (cpair kind n x). reflexivity. Qed.
Lemma chebyshev_SS kind n x : chebyshev kind (S (S n)) x = 2 * x * chebyshev kind (S n) x - chebyshev kind n x.
Proof. rewrite (chebyshev_S kind (S n)), (chebyshev_S kind n), <- (cpair_fst kind n). cbn [cpair]. destruct (cpair kind n x). reflexivity. Qed.
Lemma chebyshev_ind kind x (f : nat -> R) c : c * 1 = f 0%nat -> c * (INR kind * x) = f 1%nat -> (forall n, f (S (S n)) = 2 * x * f (S n) - f n) ->
  forall n, c * chebyshev kind n x = f n.
Proof.
  intros F0 F1 FS n. assert (c * chebyshev kind n x = f n /\ c * chebyshev kind (S n) x = f (S n)) as [H _]; [|exact H].
  induction n as [|n [A B]]; [split; [exact F0|exact F1]|]. split; [exact B|]. rewrite chebyshev_SS, FS, <- A, <- B. ring.
Qed.
Lemma cheb1_cos n t : chebyshev 1 n (cos t) = cos (INR n * t).
Proof.
  rewrite <- (Rmult_1_l (chebyshev _ _ _)). apply (chebyshev_ind 1 (cos t) (fun n => cos (INR n * t)) 1).
  - cbn. rewrite Rmult_0_l, cos_0. ring.
  - cbn. rewrite !Rmult_1_l. reflexivity.
  - intros k. rewrite !S_INR. replace ((INR k + 1 + 1) * t) with ((INR k + 1) * t + t) by ring. replace (INR k * t) with ((INR k + 1) * t - t) by ring.
    rewrite cos_plus, cos_minus. ring.
Qed.
Lemma cheb2_sin n t : sin t * chebyshev 2 n (cos t) = sin (INR (S n) * t).
Proof.
  apply (chebyshev_ind 2 (cos t) (fun n => sin (INR (S n) * t)) (sin t)).
  - cbn. rewrite !Rmult_1_l. ring.
  - cbn. replace ((1 + 1) * t) with (2 * t) by ring. rewrite sin_2a. ring.
  - intros k. rewrite !S_INR. replace ((INR k + 1 + 1 + 1) * t) with ((INR k + 1 + 1) * t + t) by ring. replace ((INR k + 1) * t) with ((INR k + 1 + 1) * t - t) by ring.
    rewrite sin_plus, sin_minus. ring.
Qed.
Lemma cheb1_hyp n z : z <> 0 -> chebyshev 1 n ((z + / z) / 2) = (z ^ n + / z ^ n) / 2.
Proof.
  intros Z. rewrite <- (Rmult_1_l (chebyshev _ _ _)). apply (chebyshev_ind 1 _ (fun n => (z ^ n + / z ^ n) / 2) 1).
  - cbn. field.
  - cbn. field. exact Z.
  - intros k. cbn [pow]. field. split; [now apply pow_nonzero|exact Z].
Qed.
Lemma cheb2_hyp n z : z <> 0 -> (z - / z) * chebyshev 2 n ((z + / z) / 2) = z ^ S n - / z ^ S n.
Proof.
  intros Z. apply (chebyshev_ind 2 _ (fun n => z ^ S n - / z ^ S n) (z - / z)).
  - cbn. field. exact Z.
  - cbn. field. exact Z.
  - intros k. cbn [pow]. field. split; [now apply pow_nonzero|exact Z].
Qed.
