(** Totally ordered scalar types: the coordinates of the order-only part of the geometry.  Integers and reals
    are instances; NaN is excluded by the laws. *)
From Coq Require Import ZArith Reals Lra Lia Bool.

Record ord : Type := mkOrd {
  oT :> Type;
  ltb : oT -> oT -> bool;
  ltb_irrefl : forall x, ltb x x = false;
  ltb_trans : forall x y z, ltb x y = true -> ltb y z = true -> ltb x z = true;
  ltb_total : forall x y, ltb x y = false -> ltb y x = false -> x = y }.
Arguments ltb {o}.

Definition leb {K : ord} (x y : K) : bool := negb (ltb y x).
(** std::min, std::max. *)
Definition omin {K : ord} (x y : K) : K := if ltb y x then y else x.
Definition omax {K : ord} (x y : K) : K := if ltb x y then y else x.
Definition le {K : ord} (x y : K) : Prop := leb x y = true.
Definition lt {K : ord} (x y : K) : Prop := ltb x y = true.

Section Laws.
Context {K : ord}.
Implicit Types x y z : K.
Lemma le_not_lt x y : le x y <-> ~ lt y x.
Proof. unfold le, lt, leb. destruct (ltb y x); cbn; split; try tauto; try discriminate. Qed.
Lemma lt_not_le x y : lt x y <-> ~ le y x.
Proof. rewrite le_not_lt. unfold lt. destruct (ltb x y); split; try tauto; intros; try discriminate; tauto. Qed.
Lemma le_refl x : le x x.
Proof. unfold le, leb. now rewrite ltb_irrefl. Qed.
Lemma lt_irr x : ~ lt x x.
Proof. unfold lt. rewrite ltb_irrefl. discriminate. Qed.
Lemma lt_trans x y z : lt x y -> lt y z -> lt x z.
Proof. apply ltb_trans. Qed.
Lemma lt_le x y : lt x y -> le x y.
Proof. intros H. apply le_not_lt. intros H'. exact (lt_irr _ (lt_trans _ _ _ H H')). Qed.
Lemma le_lt_eq x y : le x y <-> lt x y \/ x = y.
Proof.
  split.
  - intros H. destruct (ltb x y) eqn:E; [now left|right]. apply ltb_total; [auto|].
    apply le_not_lt in H. unfold lt in H. destruct (ltb y x); congruence.
  - intros [H| ->]; [now apply lt_le|apply le_refl].
Qed.
Lemma lt_or_le x y : lt x y \/ le y x.
Proof. unfold lt, le, leb. destruct (ltb x y); auto. Qed.
Lemma le_trans x y z : le x y -> le y z -> le x z.
Proof.
  rewrite !le_lt_eq. intros [A| ->] [B| <-]; auto. left. exact (lt_trans _ _ _ A B).
Qed.
Lemma le_lt_trans x y z : le x y -> lt y z -> lt x z.
Proof. rewrite le_lt_eq. intros [A| ->] B; auto. exact (lt_trans _ _ _ A B). Qed.
Lemma lt_le_trans x y z : lt x y -> le y z -> lt x z.
Proof. rewrite le_lt_eq. intros A [B| <-]; auto. exact (lt_trans _ _ _ A B). Qed.
Lemma le_antisym x y : le x y -> le y x -> x = y.
Proof. rewrite !le_lt_eq. intros [A|A] [B|B]; auto. destruct (lt_irr _ (lt_trans _ _ _ A B)). Qed.
Lemma omin_le x y z : le z (omin x y) <-> le z x /\ le z y.
Proof.
  unfold omin. destruct (ltb y x) eqn:E.
  - split; [|tauto]. intros H. split; [|auto]. apply le_trans with y; auto. now apply lt_le.
  - assert (le x y) by (apply le_not_lt; unfold lt; congruence). split; [|tauto]. intros H'. split; [auto|]. now apply le_trans with x.
Qed.
Lemma omax_le x y z : le (omax x y) z <-> le x z /\ le y z.
Proof.
  unfold omax. destruct (ltb x y) eqn:E.
  - split; [|tauto]. intros H. split; [|auto]. apply le_trans with y; auto. now apply lt_le.
  - assert (le y x) by (apply le_not_lt; unfold lt; congruence). split; [|tauto]. intros H'. split; [auto|]. now apply le_trans with x.
Qed.
Lemma omin_l x y : le (omin x y) x. Proof. apply (omin_le x y). apply le_refl. Qed.
Lemma omin_r x y : le (omin x y) y. Proof. apply (omin_le x y). apply le_refl. Qed.
Lemma omax_l x y : le x (omax x y). Proof. apply (omax_le x y). apply le_refl. Qed.
Lemma omax_r x y : le y (omax x y). Proof. apply (omax_le x y). apply le_refl. Qed.
Lemma omin_cases x y : omin x y = x \/ omin x y = y.
Proof. unfold omin. destruct ltb; auto. Qed.
Lemma omax_cases x y : omax x y = x \/ omax x y = y.
Proof. unfold omax. destruct ltb; auto. Qed.
End Laws.

(** Integers. *)
Definition Z_ord : ord.
Proof.
  refine (mkOrd Z Z.ltb _ _ _).
  - apply Z.ltb_irrefl.
  - intros x y z. rewrite !Z.ltb_lt. apply Z.lt_trans.
  - intros x y. rewrite !Z.ltb_ge. intros A B. now apply Z.le_antisymm.
Defined.

(** Reals. *)
Definition Rltb (x y : R) : bool := if Rlt_dec x y then true else false.
Definition R_ord : ord.
Proof.
  refine (mkOrd R Rltb _ _ _); unfold Rltb.
  - intros x. destruct (Rlt_dec x x); [lra|auto].
  - intros x y z. destruct (Rlt_dec x y), (Rlt_dec y z), (Rlt_dec x z); try discriminate; auto. lra.
  - intros x y. destruct (Rlt_dec x y), (Rlt_dec y x); try discriminate. lra.
Defined.
Lemma Z_le (x y : Z) : @le Z_ord x y <-> (x <= y)%Z.
Proof. unfold le, leb. cbn. rewrite negb_true_iff, Z.ltb_ge. reflexivity. Qed.
Lemma R_le (x y : R) : @le R_ord x y <-> (x <= y)%R.
Proof. unfold le, leb. cbn. unfold Rltb. destruct (Rlt_dec y x); cbn; split; try discriminate; auto; lra. Qed.
