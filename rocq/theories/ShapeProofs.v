From Coq Require Import Reals Arith Lra Lia List.
From Verif Require Import PerlinSpec PerlinProofs VecNModel VecNSpec VecNProofs Ord RectModel RectSpec RectArithModel RectArithProofs ShapeSpec.
Open Scope R_scope.

(** ** Linear identities between inner products: both sides are sums over the coordinates. *)
Ltac vlin N := unfold inner; generalize N; let M := fresh "M" in let IH := fresh "IH" in intros M; induction M as [|M IH]; cbn [rsum]; [lra|lra].
Lemma inner_sub_l N a b c : inner N (fun i => a i - b i) c = inner N a c - inner N b c.
Proof. vlin N. Qed.
Lemma inner_add_l N a b c : inner N (fun i => a i + b i) c = inner N a c + inner N b c.
Proof. vlin N. Qed.
Lemma inner_mul_l N k a c : inner N (fun i => k * a i) c = k * inner N a c.
Proof. vlin N. Qed.
Lemma inner_add_mul N k a b c : inner N (fun i => a i + k * b i) c = inner N a c + k * inner N b c.
Proof. vlin N. Qed.
Lemma inner_opp_l N a c : inner N (fun i => - a i) c = - inner N a c.
Proof. vlin N. Qed.
Lemma inner_opp_r N a c : inner N a (fun i => - c i) = - inner N a c.
Proof. vlin N. Qed.
(** |a + k b|^2 *)
Lemma sq_add_mul N k a b : inner N (fun i => a i + k * b i) (fun i => a i + k * b i) = inner N a a + 2 * k * inner N a b + k * k * inner N b b.
Proof. vlin N. Qed.
Lemma sq_sub N a b : inner N (fun i => a i - b i) (fun i => a i - b i) = inner N a a - 2 * inner N a b + inner N b b.
Proof. vlin N. Qed.

(** ** Distances *)
Lemma distance_nonneg N p q : 0 <= distance N p q.
Proof. apply length_nonneg. Qed.
Lemma distance_sq N p q : distance N p q * distance N p q = inner N (fun i => p i - q i) (fun i => p i - q i).
Proof. apply length_sq. Qed.
Lemma distance_ext N p p' q q' : same N p p' -> same N q q' -> distance N p q = distance N p' q'.
Proof. intros A B. apply length_ext. intros i L. now rewrite A, B. Qed.
Lemma reverse_triangle N p q c : Rabs (distance N p c - distance N q c) <= distance N p q.
Proof.
  pose proof (distance_triangle N p q c). pose proof (distance_triangle N q p c). rewrite (distance_sym N q p) in *.
  apply Rabs_le. lra.
Qed.
Lemma le_sq x y : 0 <= x -> 0 <= y -> (x <= y <-> x * x <= y * y).
Proof. intros. split; intros; nra. Qed.
Lemma lt_sq x y : 0 <= x -> 0 <= y -> (x < y <-> x * x < y * y).
Proof. intros. split; intros; nra. Qed.
Lemma eq_sq x y : 0 <= x -> 0 <= y -> x * x = y * y -> x = y.
Proof. intros. nra. Qed.
Lemma same_refl N p : same N p p.
Proof. easy. Qed.
Lemma same_sym N p q : same N p q -> same N q p.
Proof. intros H i L. now rewrite H. Qed.
(** Moving [k] along a vector of length 1. *)
Lemma distance_along N p u k : length N u = 1 -> distance N p (fun i => p i + k * u i) = Rabs k.
Proof.
  intros U. unfold distance. rewrite (length_ext N _ (fun i => - k * u i)) by (intros i L; ring).
  rewrite length_scale, U, Rabs_Ropp. ring.
Qed.
(** The coordinate axis i. *)
Definition axis (k : nat) : nat -> R := fun i => if (i =? k)%nat then 1 else 0.
Lemma inner_axis N k a : (k < N)%nat -> inner N a (axis k) = a k.
Proof.
  intros L. unfold inner. induction N as [|N IH]; [lia|]. cbn [rsum]. unfold axis at 2. destruct (Nat.eqb_spec N k) as [->|D].
  - assert (E : forall M, (M <= k)%nat -> rsum M (fun i => a i * axis k i) = 0).
    { induction M as [|M IHM]; intros H; [reflexivity|]. cbn [rsum]. rewrite IHM by lia. unfold axis. destruct (Nat.eqb_spec M k); [lia|]. ring. }
    rewrite E by lia. ring.
  - rewrite IH by lia. ring.
Qed.
Lemma length_axis N k : (k < N)%nat -> length N (axis k) = 1.
Proof. intros L. unfold length. rewrite inner_axis by exact L. unfold axis. rewrite Nat.eqb_refl. apply sqrt_1. Qed.
(** A coordinate is at most the length. *)
Lemma coordinate_le N a k : (k < N)%nat -> Rabs (a k) <= length N a.
Proof. intros L. pose proof (cauchy N a (axis k)) as C. rewrite inner_axis, length_axis in C by exact L. lra. Qed.

(** ** Intervals *)
Lemma interval_has iv s : in_interval iv s <-> iv_has iv s.
Proof.
  rewrite iv_has_alt. unfold in_interval. destruct (lo iv 0%nat) as [|a|] eqn:A, (hi iv 0%nat) as [|b|] eqn:B; rewrite ?ext_le_fin;
    split; intros [X Y]; try easy; split; try easy; try reflexivity.
Qed.
Lemma between_has x y s : in_interval (spanning_corners (fun _ => Fin x : ext_ord) (fun _ => Fin y)) s <-> Rmin x y <= s <= Rmax x y.
Proof. now rewrite interval_has, iv_span. Qed.
Lemma inter_has a b s : in_interval (inter a b) s <-> in_interval a s /\ in_interval b s.
Proof. now rewrite !interval_has, iv_inter. Qed.

(** ** Boxes *)
Lemma rect_dist2_is N p q : RectArithModel.dist2 N p q = inner N (fun i => p i - q i) (fun i => p i - q i).
Proof.
  unfold RectArithModel.dist2, sum_axes, inner. induction N as [|N IH]; [reflexivity|]. rewrite seq_S, map_app, fold_right_app. cbn [plus map fold_right rsum].
  rewrite <- IH. generalize (List.map (fun i => (p i - q i) * (p i - q i)) (List.seq 0 N)) as l. intros l.
  assert (E : forall x, fold_right Rplus x l = fold_right Rplus 0 l + x) by (induction l as [|y l IHl]; intros x; cbn; [ring|rewrite IHl; ring]).
  rewrite E. ring.
Qed.
(** A polynomial of degree 2 with positive leading coefficient between its roots. *)
Lemma between_roots a x y s : 0 < a -> (a * (s - x) * (s - y) <= 0 <-> Rmin x y <= s <= Rmax x y).
Proof.
  intros A. replace (a * (s - x) * (s - y)) with (a * ((s - x) * (s - y))) by ring. unfold Rmin, Rmax. destruct (Rle_dec x y); split; intros H.
  - assert ((s - x) * (s - y) <= 0) by nra. split; nra.
  - assert ((s - x) * (s - y) <= 0) by nra. nra.
  - assert ((s - x) * (s - y) <= 0) by nra. split; nra.
  - assert ((s - x) * (s - y) <= 0) by nra. nra.
Qed.
Lemma no_roots a b c s : 0 < a -> (forall x, a * x ^ 2 + b * x + c <> 0) -> 0 < a * s ^ 2 + b * s + c.
Proof.
  intros A H. apply Rnot_le_lt. intros L. set (D := b * b - 4 * a * c). assert (0 <= D) as DP.
  { unfold D. assert (0 <= (2 * a * s + b) * (2 * a * s + b)) by apply Rle_0_sqr. nra. }
  apply (H ((- b + sqrt D) / (2 * a))). pose proof (sqrt_sqrt D DP) as Q. apply (Rmult_eq_reg_l (4 * a)); [|lra].
  transitivity (sqrt D * sqrt D - (b * b - 4 * a * c)); [field; lra|]. rewrite Q. unfold D. ring.
Qed.
