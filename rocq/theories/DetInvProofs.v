From Coq Require Import Arith Lia List Bool Field Ring.
From Verif Require Import Fld FldLemmas LinSpec PermModel PermSpec PermProofs PermCycleProofs PermSignProofs PluModel PluProofs SolveProofs DetProofs DetInvModel.
Import ListNotations.
Open Scope nat_scope.

Section P.
Variable K : field.
Add Field KF : (fth K).
Local Open Scope fld_scope.
Implicit Types M A B : mtx K.

(** ** Singular means determinant zero *)
Section S.
Variable bigger : K -> K -> bool.
Hypothesis O : sane_order bigger.
Variables (M : mtx K) (n : nat).
Lemma signed_zero b (x : K) : signed K b x = 0 -> x = 0.
Proof. destruct b; cbn; intros H; [|exact H]. transitivity (- - x); [ring|]. rewrite H. ring. Qed.
Lemma nonsingular_det : ~ singular n M -> det n M <> 0.
Proof.
  intros N. rewrite (decomp_det K bigger O M n). destruct (decomp_nonsingular K bigger M n O N) as [_ P]. intros E. apply signed_zero in E. revert E.
  apply prod_nonzero. exact P.
Qed.
Lemma upper_kernel (U : mtx K) (v : nat -> K) : (forall r c, (r < n)%nat -> (c < r)%nat -> U r c = 0) -> (forall k, (k < n)%nat -> U k k <> 0) ->
  (forall r, (r < n)%nat -> sum n (fun c => U r c * v c) = 0) -> forall k, (k < n)%nat -> v k = 0.
Proof.
  intros T D Z k Hk. remember (n - k)%nat as e. revert k Hk Heqe. induction e as [e IH] using lt_wf_ind. intros k Hk E.
  specialize (Z k Hk). rewrite (sum_single K n k) in Z; [|exact Hk|].
  - apply mul_zero in Z. destruct Z as [Z|Z]; [destruct (D k Hk Z)|exact Z].
  - intros i Hi N. destruct (Nat.lt_ge_cases i k) as [L|L]; [rewrite T by lia; ring|]. rewrite (IH (n - i)%nat ltac:(lia) i) by lia. ring.
Qed.
Lemma lower_kernel (w : nat -> K) (m : mtx K) : (forall r, (r < n)%nat -> sum n (fun k => lower_of m r k * w k) = 0) -> forall k, (k < n)%nat -> w k = 0.
Proof.
  intros Z k. induction k as [k IH] using lt_wf_ind. intros Hk. specialize (Z k Hk). rewrite (sum_single K n k) in Z; [|exact Hk|].
  - unfold lower_of in Z. rewrite Nat.ltb_irrefl, Nat.eqb_refl in Z. rewrite <- Z. ring.
  - intros i Hi N. destruct (Nat.lt_ge_cases i k) as [L|L]; [rewrite (IH i) by lia; ring|]. unfold lower_of.
    destruct (Nat.ltb_spec i k), (Nat.eqb_spec i k); try lia. ring.
Qed.
Lemma singular_det : singular n M -> det n M = 0.
Proof.
  intros (v & (i & Hi & Vi) & Z). destruct (feq_dec (det n M) 0) as [E|E]; [exact E|]. exfalso. apply Vi.
  pose proof (decomp_det K bigger O M n) as D. cbn zeta in D. set (d := decomp_plu bigger M n n) in *.
  assert (P : forall k, (k < n)%nat -> pm d k k <> 0).
  { intros k Hk Q. apply E. rewrite D, (prod_zero K n (fun k => pm d k k) k Hk Q). destruct (pp d); cbn; ring. }
  destruct (decomp_plu_ok K bigger M n n O (le_n _)) as (LU & (j & S & _)). fold d in LU, S.
  apply (upper_kernel (upper_of (pm d)) v); [| | |exact Hi].
  - intros r c _ Hc. unfold upper_of. destruct (Nat.ltb_spec c r); [reflexivity|lia].
  - intros k Hk. unfold upper_of. rewrite Nat.ltb_irrefl. auto.
  - apply (lower_kernel (fun r => sum n (fun c => upper_of (pm d) r c * v c)) (pm d)). intros r Hr.
    transitivity (sum n (fun c => M (pr d r) c * v c)).
    + transitivity (mmul n (lower_of (pm d)) (fun k _ => sum n (fun c => upper_of (pm d) k c * v c)) r 0%nat); [reflexivity|].
      transitivity (mmul n (lower_of (pm d)) (mmul n (upper_of (pm d)) (fun c _ => v c)) r 0%nat); [reflexivity|].
      rewrite <- mmul_assoc. unfold mmul at 1. apply sum_ext. intros c Hc. rewrite <- LU by auto. reflexivity.
    + apply Z. exact (proj1 (by_swaps_perm _ _ _ S) r Hr).
Qed.
Lemma singular_iff_det : singular n M <-> det n M = 0.
Proof.
  split; [apply singular_det|]. intros E. pose proof (decomp_det K bigger O M n) as D. cbn zeta in D.
  destruct (Nat.eq_dec (pd (decomp_plu bigger M n n)) 0) as [P|P]; [|exact (decomp_degenerate_singular K bigger M n O P)].
  rewrite E in D. symmetry in D. apply signed_zero in D.
  assert (X : forall k, (forall i, (i < k)%nat -> pm (decomp_plu bigger M n n) i i <> 0) \/ exists i, (i < k)%nat /\ pm (decomp_plu bigger M n n) i i = 0).
  { induction k as [|k IH]; [left; lia|]. destruct IH as [H|(i & Hi & H)]; [|right; exists i; split; [lia|exact H]].
    destruct (feq_dec (pm (decomp_plu bigger M n n) k k) 0) as [Q|Q]; [right; exists k; split; [lia|exact Q]|].
    left. intros i Hi. destruct (Nat.eq_dec i k) as [->|]; [exact Q|apply H; lia]. }
  destruct (X n) as [H|(i & Hi & H)].
  - destruct (prod_nonzero K n _ H D).
  - exact (decomp_zero_pivot_singular K bigger M n O i P Hi H).
Qed.
End S.

(** ** A right inverse of a square matrix is a left inverse *)
Lemma right_is_left n A B : ~ singular n A -> (forall r c, (r < n)%nat -> (c < n)%nat -> mmul n A B r c = delta r c) -> inverse_of n A B.
Proof.
  intros N R r c Hr Hc. split; [apply R; auto|]. destruct (feq_dec (mmul n B A r c) (delta r c)) as [E|E]; [exact E|]. exfalso. apply N.
  exists (fun k => mmul n B A k c - delta k c). split.
  - exists r. split; [exact Hr|]. intros Z. apply E. transitivity (mmul n B A r c - delta r c + delta r c); [ring|]. rewrite Z. ring.
  - intros r' Hr'. transitivity (sum n (fun k => A r' k * mmul n B A k c) - sum n (fun k => A r' k * delta k c)).
    + rewrite <- sum_sub. apply sum_ext. intros. ring.
    + rewrite sum_delta_r by auto. transitivity (mmul n A (mmul n B A) r' c - A r' c); [reflexivity|]. rewrite <- mmul_assoc.
      unfold mmul at 1. rewrite (sum_ext K n (fun j => mmul n A B r' j * A j c) (fun j => delta r' j * A j c)) by (intros; rewrite R by auto; reflexivity).
      rewrite sum_delta by auto. ring.
Qed.
Lemma inverse_nonsingular n A B : inverse_of n A B -> ~ singular n A.
Proof.
  intros I (v & (i & Hi & Vi) & Z). apply Vi. transitivity (sum n (fun c => delta i c * v c)); [now rewrite sum_delta|].
  transitivity (mmul n (mmul n B A) (fun c _ => v c) i 0%nat).
  - unfold mmul at 1. apply sum_ext. intros c Hc. now rewrite (proj2 (I i c Hi Hc)).
  - rewrite mmul_assoc. apply sum_zero. intros k Hk. unfold mmul. rewrite Z by auto. ring.
Qed.

(** ** Closed forms *)
Lemma dop_eq (a b c d : K) : diff_of_products a b c d = a * b - c * d.
Proof. unfold diff_of_products, fma. cbn zeta. ring. Qed.
Lemma sop_eq (a b c d : K) : sum_of_products a b c d = a * b + c * d.
Proof. unfold sum_of_products, fma. cbn zeta. ring. Qed.
Lemma det2x2_ok (m : nat -> K) : det2x2_buf m = det 2 (stored true 2 m).
Proof. unfold det2x2_buf, det2x2. rewrite dop_eq. unfold stored, det, minor, alt. cbn. ring. Qed.
Lemma det3x3_ok (m : nat -> K) : det3x3_buf m = det 3 (stored true 3 m).
Proof. unfold det3x3_buf, det3x3, cofac, det2x2. rewrite !dop_eq. unfold fma, stored, det, minor, alt. cbn. ring. Qed.
Lemma det4x4_ok (m : nat -> K) : det4x4_buf m = det 4 (stored true 4 m).
Proof. unfold det4x4_buf, det4x4, det3x3, cofac, det2x2. rewrite !dop_eq. unfold fma, stored, det, minor, alt. cbn. ring. Qed.


(** A comparison good enough for pivoting exists over every field. *)
Definition crude (x y : K) : bool := if feq_dec y 0 then (if feq_dec x 0 then false else true) else false.
Lemma crude_sane : sane_order crude.
Proof.
  split; intros; unfold crude; destruct (feq_dec _ _); try congruence; destruct (feq_dec _ _); congruence.
Qed.
Lemma det_nonsingular n A : det n A <> 0 -> ~ singular n A.
Proof. intros D S. apply D. exact (singular_det crude crude_sane A n S). Qed.
Lemma det_iff n A : singular n A <-> det n A = 0.
Proof. exact (singular_iff_det crude crude_sane A n). Qed.

Lemma copy_in l (o : nat -> K) k : (k < length l)%nat -> copy_to l o k = nth k l 0.
Proof. intros H. unfold copy_to. destruct (Nat.ltb_spec k (length l)); [reflexivity|lia]. Qed.
Lemma dot2 (x a b c d t : K) : x <> 0 -> a * b + c * d = x * t -> 0 + a * (b / x) + c * (d / x) = t.
Proof. intros N E. transitivity ((a * b + c * d) / x); [field; auto|]. rewrite E. field. auto. Qed.
Lemma dot3 (x a b c d e f t : K) : x <> 0 -> a * b + c * d + e * f = x * t -> 0 + a * (b / x) + c * (d / x) + e * (f / x) = t.
Proof. intros N E. transitivity ((a * b + c * d + e * f) / x); [field; auto|]. rewrite E. field. auto. Qed.
Lemma dot4 (x a b c d e f g h t : K) : x <> 0 -> a * b + c * d + e * f + g * h = x * t ->
  0 + a * (b / x) + c * (d / x) + e * (f / x) + g * (h / x) = t.
Proof. intros N E. transitivity ((a * b + c * d + e * f + g * h) / x); [field; auto|]. rewrite E. field. auto. Qed.

Lemma inv2x2_ok out m : inverts K 2 true true out m (inv2x2 out m).
Proof.
  unfold inverts, inv2x2. cbn zeta.
  assert (E : det2x2 (m 0%nat) (m 1%nat) (m 2%nat) (m 3%nat) = det 2 (stored true 2 m)) by apply det2x2_ok.
  destruct (feq_dec _ _) as [Z|Z]; cbn [fst snd].
  - right. rewrite E in Z. apply det_iff in Z. auto.
  - left. split; [reflexivity|]. apply right_is_left; [apply det_nonsingular; now rewrite <- E|]. clear E.
    intros r c Hr Hc. destruct r as [|[|]]; try lia; destruct c as [|[|]]; try lia; 
    unfold mmul, stored, copy_to, delta; cbn -[det2x2 fdiv fadd fmul fopp];
    apply dot2; auto; unfold det2x2, diff_of_products, fma; cbn zeta; ring.
Qed.
Lemma inv3x3_ok out m : inverts K 3 true true out m (inv3x3 out m).
Proof.
  unfold inverts, inv3x3. cbn zeta.
  match goal with |- context [feq_dec ?d 0] => set (D := d) end.
  assert (E : D = det 3 (stored true 3 m)).
  { rewrite <- det3x3_ok. unfold D, det3x3_buf, det3x3, cofac, det2x2, diff_of_products, fma. cbn zeta. ring. }
  destruct (feq_dec D 0) as [Z|Z]; cbn [fst snd].
  - right. rewrite E in Z. apply det_iff in Z. auto.
  - left. split; [reflexivity|]. apply right_is_left; [apply det_nonsingular; now rewrite <- E|]. clear E.
    intros r c Hr Hc. destruct r as [|[|[|]]]; try lia; destruct c as [|[|[|]]]; try lia; 
    unfold mmul, stored, copy_to, delta; cbn -[det2x2 fdiv fadd fmul fopp D];
    (apply dot3; [auto|]; unfold D, det2x2, diff_of_products, fma; cbn zeta; ring).
Qed.
Lemma inv4x4_ok out m : inverts K 4 true true out m (inv4x4 out m).
Proof.
  unfold inverts, inv4x4. cbn zeta.
  match goal with |- context [feq_dec ?d 0] => set (D := d) end.
  assert (E : D = det 4 (stored true 4 m)).
  { rewrite <- det4x4_ok. unfold D, det4x4_buf, det4x4, det3x3, cofac, det2x2, diff_of_products, sum_of_products, fma. cbn zeta. ring. }
  destruct (feq_dec D 0) as [Z|Z]; cbn [fst snd].
  - right. rewrite E in Z. apply det_iff in Z. auto.
  - left. split; [reflexivity|]. apply right_is_left; [apply det_nonsingular; now rewrite <- E|]. clear E.
    intros r c Hr Hc. destruct r as [|[|[|[|]]]]; try lia; destruct c as [|[|[|[|]]]]; try lia; 
    unfold mmul, stored, copy_to, delta; cbn -[det2x2 cofac fdiv fadd fmul fopp D];
    (apply dot4; [auto|]; unfold D, cofac; rewrite ?sop_eq, ?dop_eq; unfold det2x2, fma; rewrite ?dop_eq; ring).
Qed.
End P.
