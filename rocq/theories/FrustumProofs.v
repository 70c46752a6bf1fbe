From Coq Require Import Reals Arith Lra Lia Bool.
From Verif Require Import PerlinSpec PerlinProofs VecNModel VecNSpec VecNProofs RayModel Ord RectModel RectSpec RectArithModel RectArithProofs ShapeSpec ShapeProofs SphereModel SphereProofs
  SolidSpec SolidProofs ExtrudedModel ExtrudedProofs FrustumModel.
Open Scope R_scope.

(** ** The projective map between a line and its image in the base plane *)
Section Mobius.
Variables a b p q C : R.
Hypothesis (A : 0 < a) (B : 0 < b) (Q : q <> 0) (HC : C = p * p / a + q * q / b).
Definition XX (t : R) : R := p / (a * C) + t * (q * q / (b * C)).
Definition YY (t : R) : R := q / (b * C) - t * (p * q / (b * C)).
Definition TT (s : R) : R := (s / (s * p + q) - p / (a * C)) * (b * C / (q * q)).
Lemma mob_C : 0 < C.
Proof.
  rewrite HC. assert (0 < q * q) by nra. assert (0 < q * q / b) by (apply Rdiv_lt_0_compat; assumption).
  assert (0 <= p * p / a) by (apply Rmult_le_pos; [nra|left; now apply Rinv_0_lt_compat]). lra.
Qed.
Lemma mob_one t : XX t * p + YY t * q = 1.
Proof.
  pose proof mob_C. unfold XX, YY. apply Rmult_eq_reg_l with C; [|lra]. transitivity (p * p / a + q * q / b); [field; lra|]. rewrite Rmult_1_r. symmetry. exact HC.
Qed.
Lemma mob_XT s : s * p + q <> 0 -> XX (TT s) = s / (s * p + q).
Proof. intros H. pose proof mob_C. unfold XX, TT. field. repeat split; lra. Qed.
Lemma mob_YT s : s * p + q <> 0 -> YY (TT s) = 1 / (s * p + q).
Proof.
  intros H. pose proof (mob_one (TT s)) as O. rewrite (mob_XT s H) in O. apply Rmult_eq_reg_r with q; [|exact Q].
  replace (YY (TT s) * q) with (1 - s / (s * p + q) * p) by lra. field. exact H.
Qed.
Lemma mob_inj s t : XX s = XX t -> s = t.
Proof.
  pose proof mob_C. unfold XX. intros E. assert (q * q / (b * C) <> 0) as D.
  { assert (0 < q * q) by nra. assert (0 < b * C) by (now apply Rmult_lt_0_compat). assert (0 < q * q / (b * C)) by (now apply Rdiv_lt_0_compat). lra. }
  apply Rmult_eq_reg_r with (q * q / (b * C)); lra.
Qed.
Lemma mob_h t : YY t <> 0 -> XX t / YY t * p + q = 1 / YY t.
Proof. intros H. pose proof (mob_one t) as O. apply Rmult_eq_reg_r with (YY t); [|exact H]. transitivity (XX t * p + YY t * q); [now field|]. rewrite O. now field. Qed.
Lemma mob_TX t : YY t <> 0 -> TT (XX t / YY t) = t.
Proof.
  intros H. apply mob_inj. assert (XX t / YY t * p + q <> 0) as D by (rewrite mob_h by exact H; apply Rmult_integral_contrapositive_currified; [lra|now apply Rinv_neq_0_compat]).
  rewrite mob_XT by exact D. rewrite mob_h by exact H. now field.
Qed.
Lemma mob_cross t s : XX t * YY s - XX s * YY t = (t - s) * (q / (b * C)).
Proof.
  pose proof mob_C. transitivity ((t - s) * (q / (b * C) * ((p * p / a + q * q / b) / C))).
  - unfold XX, YY. field. lra.
  - rewrite <- HC. field. lra.
Qed.
Lemma mob_diff t s : YY t <> 0 -> YY s <> 0 -> (XX t / YY t - XX s / YY s) * (YY t * YY s) = (t - s) * (q / (b * C)).
Proof. intros H1 H2. rewrite <- mob_cross. now field. Qed.
Lemma mob_k : q / (b * C) <> 0.
Proof. pose proof mob_C. assert (0 < b * C) by now apply Rmult_lt_0_compat. apply Rmult_integral_contrapositive_currified; [exact Q|]. apply Rinv_neq_0_compat. lra. Qed.
Lemma mob_Ymix t s x : YY ((1 - x) * t + x * s) = (1 - x) * YY t + x * YY s.
Proof. unfold YY. ring. Qed.
Lemma sgn_le x y z w : x * y = z * w -> 0 < y -> 0 < w -> 0 <= z -> 0 <= x.
Proof. intros E Y W Z. apply Rnot_lt_le. intros H. assert (0 <= z * w) by (apply Rmult_le_pos; lra). assert (0 < - x * y) by (apply Rmult_lt_0_compat; lra). lra. Qed.
Lemma mul_sign x y : x * y <> 0 -> (0 < x * y \/ x * y < 0).
Proof. lra. Qed.
(** Points of the line over the segment from [s] to [t] of its image. *)
Definition over (lo hi s : R) : Prop := s * p + q <> 0 /\ lo <= TT s <= hi.
Lemma same_sign_between lo hi : 0 < YY lo * YY hi -> forall t, lo <= t <= hi -> 0 < YY t * YY lo /\ 0 < YY t * YY hi.
Proof.
  intros H t T. destruct (Req_dec lo hi) as [E|E].
  - assert (t = lo) as -> by lra. rewrite <- E in *. now split.
  - set (x := (t - lo) / (hi - lo)). assert (t = (1 - x) * lo + x * hi) as Et by (unfold x; field; lra).
    assert (0 <= x <= 1) as X.
    { unfold x. split; [apply Rmult_le_pos; [lra|left; apply Rinv_0_lt_compat; lra]|]. apply Rmult_le_reg_r with (hi - lo); [lra|]. unfold Rdiv. rewrite Rmult_assoc, Rinv_l by lra. lra. }
    clearbody x. rewrite Et, mob_Ymix. set (u := YY lo) in *. set (v := YY hi) in *. assert (u <> 0) by (intros Z; rewrite Z in H; lra). assert (v <> 0) by (intros Z; rewrite Z in H; lra).
    assert (0 < u * u) by nra. assert (0 < v * v) by nra. split.
    + assert (0 <= (1 - x) * (u * u)) by (apply Rmult_le_pos; lra). assert (0 <= x * (u * v)) by (apply Rmult_le_pos; lra).
      destruct (Req_dec x 0) as [Z0|Z0]; [subst x; lra|]. assert (0 < x * (u * v)) by (apply Rmult_lt_0_compat; lra). lra.
    + assert (0 <= (1 - x) * (u * v)) by (apply Rmult_le_pos; lra). assert (0 <= x * (v * v)) by (apply Rmult_le_pos; lra).
      destruct (Req_dec x 0) as [Z0|Z0]; [subst x; lra|]. assert (0 < x * (v * v)) by (apply Rmult_lt_0_compat; lra). lra.
Qed.
Lemma over_Y lo hi s : over lo hi s -> YY (TT s) = 1 / (s * p + q) /\ YY (TT s) <> 0 /\ XX (TT s) / YY (TT s) = s.
Proof.
  intros [H _]. rewrite mob_YT, mob_XT by exact H. split; [reflexivity|]. split; [apply Rmult_integral_contrapositive_currified; [lra|now apply Rinv_neq_0_compat]|]. now field.
Qed.
Lemma prod_cases x y : 0 < x * y -> (0 < x /\ 0 < y) \/ (x < 0 /\ y < 0).
Proof. intros H. destruct (Rtotal_order x 0) as [G|[G|G]]; [right|rewrite G in H; lra|left]; (split; [assumption|]); apply Rnot_le_lt; intros L; [assert (0 <= - x * y) by (apply Rmult_le_pos; lra)|assert (0 <= x * - y) by (apply Rmult_le_pos; lra)]; lra. Qed.
Lemma prod_pos x y z : 0 < x * y -> 0 < y * z -> 0 < x * z.
Proof. intros H1 H2. destruct (prod_cases _ _ H1) as [[G1 G2]|[G1 G2]], (prod_cases _ _ H2) as [[G3 G4]|[G3 G4]]; try lra; [now apply Rmult_lt_0_compat|]. replace (x * z) with (- x * - z) by ring. apply Rmult_lt_0_compat; lra. Qed.
Lemma recip_sign x y : x <> 0 -> 0 < x * y <-> 0 < 1 / x * y.
Proof.
  intros X. assert (0 < x * x) by nra. replace (x * y) with ((x * x) * (1 / x * y)) by (now field). split; intros H0.
  - apply Rmult_lt_reg_l with (x * x); lra.
  - now apply Rmult_lt_0_compat.
Qed.
Lemma between_nonzero lo hi : 0 < YY lo * YY hi -> forall s, Rmin (XX lo / YY lo) (XX hi / YY hi) <= s <= Rmax (XX lo / YY lo) (XX hi / YY hi) ->
  0 < (s * p + q) * YY lo /\ 0 < (s * p + q) * YY hi.
Proof.
  intros H s S. assert (YY lo <> 0) as L0 by (intros Z; rewrite Z in H; lra). assert (YY hi <> 0) as H0 by (intros Z; rewrite Z in H; lra).
  pose proof (mob_h lo L0) as E1. pose proof (mob_h hi H0) as E2. set (s1 := XX lo / YY lo) in *. set (s2 := XX hi / YY hi) in *.
  assert (0 < (s1 * p + q) * YY lo) as K1 by (rewrite E1; replace (1 / YY lo * YY lo) with 1 by (now field); lra).
  assert (0 < (s2 * p + q) * YY hi) as K2 by (rewrite E2; replace (1 / YY hi * YY hi) with 1 by (now field); lra).
  assert (0 < (s1 * p + q) * YY hi) as K3 by (exact (prod_pos _ _ _ K1 H)).
  assert (0 < (s2 * p + q) * YY lo) as K4. { apply (prod_pos _ _ _ K2). now rewrite Rmult_comm. }
  assert (exists x, 0 <= x <= 1 /\ s = (1 - x) * s1 + x * s2) as (x & X & ->).
  { destruct (Req_dec s1 s2) as [E|E].
    - exists 0. rewrite E, Rmin_left, Rmax_left in S by lra. split; lra.
    - exists ((s - s1) / (s2 - s1)). split; [|field; lra]. destruct (Rlt_dec s1 s2) as [L|L].
      + rewrite Rmin_left, Rmax_right in S by lra. split; [apply Rmult_le_pos; [lra|left; apply Rinv_0_lt_compat; lra]|]. apply Rmult_le_reg_r with (s2 - s1); [lra|]. unfold Rdiv. rewrite Rmult_assoc, Rinv_l by lra. lra.
      + rewrite Rmin_right, Rmax_left in S by lra. replace ((s - s1) / (s2 - s1)) with ((s1 - s) / (s1 - s2)) by (field; lra).
        split; [apply Rmult_le_pos; [lra|left; apply Rinv_0_lt_compat; lra]|]. apply Rmult_le_reg_r with (s1 - s2); [lra|]. unfold Rdiv. rewrite Rmult_assoc, Rinv_l by lra. lra. }
  replace (((1 - x) * s1 + x * s2) * p + q) with ((1 - x) * (s1 * p + q) + x * (s2 * p + q)) by ring.
  assert (forall Y, 0 < (s1 * p + q) * Y -> 0 < (s2 * p + q) * Y -> 0 < ((1 - x) * (s1 * p + q) + x * (s2 * p + q)) * Y) as W.
  { intros Y Y1 Y2. replace (((1 - x) * (s1 * p + q) + x * (s2 * p + q)) * Y) with ((1 - x) * ((s1 * p + q) * Y) + x * ((s2 * p + q) * Y)) by ring.
    assert (0 <= (1 - x) * ((s1 * p + q) * Y)) by (apply Rmult_le_pos; lra). destruct (Req_dec x 0) as [Z0|Z0]; [subst x; lra|].
    assert (0 < x * ((s2 * p + q) * Y)) by (apply Rmult_lt_0_compat; lra). lra. }
  split; now apply W.
Qed.
Lemma mul_le_pos u v k P : u * P = v * k -> 0 < P -> (0 < k -> (0 <= u <-> 0 <= v)) /\ (k < 0 -> (0 <= u <-> v <= 0)).
Proof.
  intros E H. split; intros K; split; intros G; apply Rnot_lt_le; intros L.
  - assert (0 <= u * P) by (apply Rmult_le_pos; lra). assert (0 < - v * k) by (apply Rmult_lt_0_compat; lra). lra.
  - assert (0 <= v * k) by (apply Rmult_le_pos; lra). assert (0 < - u * P) by (apply Rmult_lt_0_compat; lra). lra.
  - assert (0 <= u * P) by (apply Rmult_le_pos; lra). assert (0 < v * - k) by (apply Rmult_lt_0_compat; lra). lra.
  - assert (0 <= - v * - k) by (apply Rmult_le_pos; lra). assert (0 < - u * P) by (apply Rmult_lt_0_compat; lra). lra.
Qed.
Lemma mob_between lo hi : lo <= hi -> 0 < YY lo * YY hi -> forall s, over lo hi s <-> Rmin (XX lo / YY lo) (XX hi / YY hi) <= s <= Rmax (XX lo / YY lo) (XX hi / YY hi).
Proof.
  intros LE H s. assert (YY lo <> 0) as L0 by (intros Z; rewrite Z in H; lra). assert (YY hi <> 0) as H0 by (intros Z; rewrite Z in H; lra).
  pose proof mob_k as K. set (k := q / (b * C)) in *.
  assert (forall t, s * p + q <> 0 -> t = TT s -> 0 < YY t * YY lo -> 0 < YY t * YY hi -> (lo <= t <= hi <-> Rmin (XX lo / YY lo) (XX hi / YY hi) <= s <= Rmax (XX lo / YY lo) (XX hi / YY hi))) as EQ.
  { intros t N E P1 P2. assert (YY t <> 0) as T0 by (intros Z; rewrite Z in P1; lra). assert (XX t / YY t = s) as ES. { rewrite E, mob_XT, mob_YT by exact N. now field. }
    pose proof (mob_diff t lo T0 L0) as D1. pose proof (mob_diff hi t H0 T0) as D2. pose proof (mob_diff hi lo H0 L0) as D3. fold k in D1, D2, D3. rewrite ES in D1, D2.
    rewrite (Rmult_comm (YY hi) (YY t)) in D2. rewrite (Rmult_comm (YY hi) (YY lo)) in D3. set (s1 := XX lo / YY lo) in *. set (s2 := XX hi / YY hi) in *.
    destruct (mul_le_pos _ _ _ _ D1 P1) as [A1 A2]. destruct (mul_le_pos _ _ _ _ D2 P2) as [B1 B2]. destruct (mul_le_pos _ _ _ _ D3 H) as [C1 C2].
    destruct (Rdichotomy _ _ K) as [K'|K'].
    - specialize (A2 K'). specialize (B2 K'). specialize (C2 K'). assert (s2 <= s1) as W.
      { destruct (Req_dec lo hi) as [E'|E']; [unfold s1, s2; rewrite E'; lra|]. apply Rnot_lt_le. intros G. assert (hi - lo <= 0) by (apply C2; lra). lra. }
      rewrite Rmin_right, Rmax_left by exact W.
      assert (0 <= t - lo <-> s - s1 <= 0) as A3. { clear - D1 P1 K'. destruct (mul_le_pos (s1 - s) (t - lo) (- k) (YY t * YY lo) ltac:(lra) P1) as [G _]. specialize (G ltac:(lra)). lra. }
      assert (0 <= hi - t <-> s2 - s <= 0) as B3. { clear - D2 P2 K'. destruct (mul_le_pos (s - s2) (hi - t) (- k) (YY t * YY hi) ltac:(lra) P2) as [G _]. specialize (G ltac:(lra)). lra. }
      split; intros [G1 G2].
      + destruct A3 as [A3 _]. destruct B3 as [B3 _]. specialize (A3 ltac:(lra)). specialize (B3 ltac:(lra)). lra.
      + destruct A3 as [_ A3]. destruct B3 as [_ B3]. specialize (A3 ltac:(lra)). specialize (B3 ltac:(lra)). lra.
    - specialize (A1 K'). specialize (B1 K'). specialize (C1 K'). assert (s1 <= s2) as W by (assert (0 <= s2 - s1) by (apply C1; lra); lra).
      rewrite Rmin_left, Rmax_right by exact W. split; intros [G1 G2].
      + destruct A1 as [_ A1]. destruct B1 as [_ B1]. specialize (A1 ltac:(lra)). specialize (B1 ltac:(lra)). lra.
      + destruct A1 as [A1 _]. destruct B1 as [B1 _]. specialize (A1 ltac:(lra)). specialize (B1 ltac:(lra)). lra. }
  split.
  - intros O. pose proof O as [N T]. destruct (same_sign_between lo hi H _ T) as [P1 P2]. now apply (EQ (TT s) N eq_refl P1 P2).
  - intros S. destruct (between_nonzero lo hi H s S) as [P1 P2]. assert (s * p + q <> 0) as N by (intros Z; rewrite Z in P1; lra). split; [exact N|].
    apply (EQ (TT s) N eq_refl); [| |exact S]; rewrite mob_YT by exact N; [now apply (proj1 (recip_sign _ (YY lo) N))|now apply (proj1 (recip_sign _ (YY hi) N))].
Qed.
(** Opposite signs: the two outer half-lines. *)
Lemma mob_outside lo hi : lo <= hi -> YY lo * YY hi < 0 -> forall s, over lo hi s <-> s <= Rmin (XX lo / YY lo) (XX hi / YY hi) \/ Rmax (XX lo / YY lo) (XX hi / YY hi) <= s.
Proof.
  intros LE H s. assert (YY lo <> 0) as L0 by (intros Z; rewrite Z in H; lra). assert (YY hi <> 0) as H0 by (intros Z; rewrite Z in H; lra).
  pose proof mob_k as K. set (k := q / (b * C)) in *. pose proof (mob_diff hi lo H0 L0) as D3. fold k in D3. rewrite (Rmult_comm (YY hi) (YY lo)) in D3.
  pose proof (mob_h lo L0) as E1. pose proof (mob_h hi H0) as E2. set (s1 := XX lo / YY lo) in *. set (s2 := XX hi / YY hi) in *.
  assert (0 < (s1 * p + q) * YY lo) as K1 by (rewrite E1; replace (1 / YY lo * YY lo) with 1 by (now field); lra).
  assert (0 < (s2 * p + q) * YY hi) as K2 by (rewrite E2; replace (1 / YY hi * YY hi) with 1 by (now field); lra).
  assert (lo < hi) as LT. { destruct (Req_dec lo hi) as [E|E]; [|lra]. rewrite E in H. pose proof (Rle_0_sqr (YY hi)). unfold Rsqr in *. lra. }
  assert (s1 <> s2) as NE. { intros E. rewrite E in K1. destruct (prod_cases _ _ K1) as [[]|[]], (prod_cases _ _ K2) as [[]|[]]; nra. }
  (* on the side of lo *)
  assert (forall t, s * p + q <> 0 -> t = TT s -> 0 < YY t * YY lo -> (lo <= t <= hi <-> 0 <= (s - s1) * (s1 - s2))) as SL.
  { intros t N E P1. assert (YY t <> 0) as T0 by (intros Z; rewrite Z in P1; lra). assert (XX t / YY t = s) as ES. { rewrite E, mob_XT, mob_YT by exact N. now field. }
    pose proof (mob_diff t lo T0 L0) as D1. pose proof (mob_diff hi t H0 T0) as D2. fold k in D1, D2. rewrite ES in D1, D2. fold s1 in D1. fold s2 in D2.
    assert (YY hi * YY t < 0) as P2. { apply Ropp_lt_cancel. rewrite Ropp_0. replace (- (YY hi * YY t)) with (- YY hi * YY t) by ring. rewrite Rmult_comm. apply (prod_pos _ (YY lo)); [exact P1|]. lra. }
    destruct (Rdichotomy _ _ K) as [K'|K'].
    - assert (s1 < s2) as W. { apply Rnot_le_lt. intros G. assert (0 <= (s1 - s2) * (- (YY lo * YY hi))) by (apply Rmult_le_pos; lra). assert (0 < (hi - lo) * - k) by (apply Rmult_lt_0_compat; lra). lra. }
      destruct (mul_le_pos _ _ _ _ D1 P1) as [_ A2]. specialize (A2 K').
      destruct (mul_le_pos (s2 - s) (hi - t) (- k) (- (YY hi * YY t)) ltac:(lra) ltac:(lra)) as [B1 _]. specialize (B1 ltac:(lra)).
      destruct (mul_le_pos (s1 - s) (t - lo) (- k) (YY t * YY lo) ltac:(lra) P1) as [A1 _]. specialize (A1 ltac:(lra)).
      split; intros G.
      + destruct A1 as [_ A1]. specialize (A1 ltac:(lra)). assert (0 <= (s1 - s) * (s2 - s1)) by (apply Rmult_le_pos; lra). lra.
      + assert (0 <= s1 - s) as G1. { apply Rnot_lt_le. intros L. assert (0 < (s - s1) * (s2 - s1)) by (apply Rmult_lt_0_compat; lra). lra. }
        destruct A1 as [A1 _]. destruct B1 as [B1 _]. specialize (A1 ltac:(lra)). specialize (B1 ltac:(lra)). lra.
    - assert (s2 < s1) as W. { apply Rnot_le_lt. intros G. assert (0 <= (s2 - s1) * (- (YY lo * YY hi))) by (apply Rmult_le_pos; lra). assert (0 < (hi - lo) * k) by (apply Rmult_lt_0_compat; lra). lra. }
      destruct (mul_le_pos _ _ _ _ D1 P1) as [A1 _]. specialize (A1 K').
      destruct (mul_le_pos (s - s2) (hi - t) k (- (YY hi * YY t)) ltac:(lra) ltac:(lra)) as [B1 _]. specialize (B1 ltac:(lra)).
      split; intros G.
      + destruct A1 as [_ A1]. specialize (A1 ltac:(lra)). assert (0 <= (s - s1) * (s1 - s2)) by (apply Rmult_le_pos; lra). lra.
      + assert (0 <= s - s1) as G1. { apply Rnot_lt_le. intros L. assert (0 < (s1 - s) * (s1 - s2)) by (apply Rmult_lt_0_compat; lra). lra. }
        destruct A1 as [A1 _]. destruct B1 as [B1 _]. specialize (A1 ltac:(lra)). specialize (B1 ltac:(lra)). lra. }
  assert (forall t, s * p + q <> 0 -> t = TT s -> 0 < YY t * YY hi -> (lo <= t <= hi <-> 0 <= (s - s2) * (s2 - s1))) as SH.
  { intros t N E P2. assert (YY t <> 0) as T0 by (intros Z; rewrite Z in P2; lra). assert (XX t / YY t = s) as ES. { rewrite E, mob_XT, mob_YT by exact N. now field. }
    pose proof (mob_diff t lo T0 L0) as D1. pose proof (mob_diff hi t H0 T0) as D2. fold k in D1, D2. rewrite ES in D1, D2. fold s1 in D1. fold s2 in D2. rewrite (Rmult_comm (YY hi)) in D2.
    assert (YY t * YY lo < 0) as P1. { apply Ropp_lt_cancel. rewrite Ropp_0. replace (- (YY t * YY lo)) with (YY t * - YY lo) by ring. apply (prod_pos _ (YY hi)); [exact P2|]. lra. }
    destruct (Rdichotomy _ _ K) as [K'|K'].
    - assert (s1 < s2) as W. { apply Rnot_le_lt. intros G. assert (0 <= (s1 - s2) * (- (YY lo * YY hi))) by (apply Rmult_le_pos; lra). assert (0 < (hi - lo) * - k) by (apply Rmult_lt_0_compat; lra). lra. }
      destruct (mul_le_pos (s - s2) (hi - t) (- k) (YY t * YY hi) ltac:(lra) P2) as [B1 _]. specialize (B1 ltac:(lra)).
      destruct (mul_le_pos (s - s1) (t - lo) (- k) (- (YY t * YY lo)) ltac:(lra) ltac:(lra)) as [A1 _]. specialize (A1 ltac:(lra)).
      split; intros G.
      + destruct B1 as [_ B1]. specialize (B1 ltac:(lra)). assert (0 <= (s - s2) * (s2 - s1)) by (apply Rmult_le_pos; lra). lra.
      + assert (0 <= s - s2) as G1. { apply Rnot_lt_le. intros L. assert (0 < (s2 - s) * (s2 - s1)) by (apply Rmult_lt_0_compat; lra). lra. }
        destruct A1 as [A1 _]. destruct B1 as [B1 _]. specialize (A1 ltac:(lra)). specialize (B1 ltac:(lra)). lra.
    - assert (s2 < s1) as W. { apply Rnot_le_lt. intros G. assert (0 <= (s2 - s1) * (- (YY lo * YY hi))) by (apply Rmult_le_pos; lra). assert (0 < (hi - lo) * k) by (apply Rmult_lt_0_compat; lra). lra. }
      destruct (mul_le_pos _ _ _ _ D2 P2) as [B1 _]. specialize (B1 K').
      destruct (mul_le_pos (s1 - s) (t - lo) k (- (YY t * YY lo)) ltac:(lra) ltac:(lra)) as [A1 _]. specialize (A1 ltac:(lra)).
      split; intros G.
      + destruct B1 as [_ B1]. specialize (B1 ltac:(lra)). assert (0 <= (s2 - s) * (s1 - s2)) by (apply Rmult_le_pos; lra). lra.
      + assert (0 <= s2 - s) as G1. { apply Rnot_lt_le. intros L. assert (0 < (s - s2) * (s1 - s2)) by (apply Rmult_lt_0_compat; lra). lra. }
        destruct A1 as [A1 _]. destruct B1 as [B1 _]. specialize (A1 ltac:(lra)). specialize (B1 ltac:(lra)). lra. }
  assert ((s <= Rmin s1 s2 \/ Rmax s1 s2 <= s) <-> (0 <= (s - s1) * (s1 - s2) \/ 0 <= (s - s2) * (s2 - s1))) as OUT.
  { assert (forall x y, 0 <= x -> 0 <= y -> 0 <= x * y) as RP by (intros; now apply Rmult_le_pos). destruct (Rtotal_order s1 s2) as [L|[E|L]]; [|contradiction|].
    - rewrite Rmin_left, Rmax_right by lra. split; (intros [G|G]; [left|right]).
      + specialize (RP (s1 - s) (s2 - s1) ltac:(lra) ltac:(lra)). lra.
      + apply RP; lra.
      + apply Rnot_lt_le. intros W. assert (0 < (s - s1) * (s2 - s1)) by (apply Rmult_lt_0_compat; lra). lra.
      + apply Rnot_lt_le. intros W. assert (0 < (s2 - s) * (s2 - s1)) by (apply Rmult_lt_0_compat; lra). lra.
    - rewrite Rmin_right, Rmax_left by lra. split; (intros [G|G]; [right|left]).
      + specialize (RP (s2 - s) (s1 - s2) ltac:(lra) ltac:(lra)). lra.
      + apply RP; lra.
      + apply Rnot_lt_le. intros W. assert (0 < (s1 - s) * (s1 - s2)) by (apply Rmult_lt_0_compat; lra). lra.
      + apply Rnot_lt_le. intros W. assert (0 < (s - s2) * (s1 - s2)) by (apply Rmult_lt_0_compat; lra). lra. }
  rewrite OUT. clear OUT. split.
  - intros O. pose proof O as [N T]. destruct (over_Y _ _ _ O) as (_ & Y0 & _). destruct (mul_sign (YY (TT s)) (YY lo)) as [P|P]; [now apply Rmult_integral_contrapositive_currified| |].
    + left. now apply (SL (TT s) N eq_refl P).
    + right. apply (SH (TT s) N eq_refl); [|exact T]. replace (YY (TT s) * YY hi) with (- YY (TT s) * - YY hi) by ring. apply (prod_pos _ (YY lo)); lra.
  - (* beyond s1 the height keeps its sign *)
    assert (forall sa sb Ya Yb, sa <> sb -> 0 < (sa * p + q) * Ya -> 0 < (sb * p + q) * Yb -> Ya * Yb < 0 -> 0 <= (s - sa) * (sa - sb) -> 0 < (s * p + q) * Ya) as BEY.
    { clear. intros sa sb Ya Yb N Ka Kb H G. assert (0 < (- (sb * p + q)) * Ya) as Kc. { apply (prod_pos _ (- Yb)); lra. }
      assert ((s * p + q) * ((sa - sb) * (sa - sb)) = (sa * p + q) * ((sa - sb) * (sa - sb) + (s - sa) * (sa - sb)) + - (sb * p + q) * ((s - sa) * (sa - sb))) as E by ring.
      assert (0 < (sa - sb) * (sa - sb)) as S2 by nra. apply Rmult_lt_reg_r with ((sa - sb) * (sa - sb)); [exact S2|]. rewrite Rmult_0_l.
      replace ((s * p + q) * Ya * ((sa - sb) * (sa - sb))) with ((sa * p + q) * Ya * ((sa - sb) * (sa - sb) + (s - sa) * (sa - sb)) + - (sb * p + q) * Ya * ((s - sa) * (sa - sb))).
      - assert (0 < (sa * p + q) * Ya * ((sa - sb) * (sa - sb) + (s - sa) * (sa - sb))) by (apply Rmult_lt_0_compat; lra).
        assert (0 <= - (sb * p + q) * Ya * ((s - sa) * (sa - sb))) by (apply Rmult_le_pos; lra). lra.
      - ring. }
    intros [G|G].
    + pose proof (BEY s1 s2 (YY lo) (YY hi) NE K1 K2 H G) as P. assert (s * p + q <> 0) as N by (intros Z; rewrite Z in P; lra). split; [exact N|].
      apply (SL (TT s) N eq_refl); [rewrite mob_YT by exact N; now apply (proj1 (recip_sign _ (YY lo) N))|exact G].
    + pose proof (BEY s2 s1 (YY hi) (YY lo) ltac:(congruence) K2 K1 ltac:(lra) G) as P. assert (s * p + q <> 0) as N by (intros Z; rewrite Z in P; lra). split; [exact N|].
      apply (SH (TT s) N eq_refl); [rewrite mob_YT by exact N; now apply (proj1 (recip_sign _ (YY hi) N))|exact G].
Qed.
(** A line whose direction is over the segment. *)
Lemma mob_zero t : YY t = 0 -> p <> 0 /\ XX t = 1 / p.
Proof. intros Z. pose proof (mob_one t) as O. rewrite Z in O. assert (p <> 0) as P by (intros W; rewrite W in O; lra). split; [exact P|]. apply Rmult_eq_reg_r with p; [|exact P]. transitivity 1; [lra|now field]. Qed.
Lemma mob_root lo hi : lo <= hi -> YY lo * YY hi < 0 -> exists t, lo <= t <= hi /\ YY t = 0.
Proof.
  intros LE H. set (d := YY lo - YY hi). assert (d <> 0) as D. { intros Z. unfold d in Z. assert (YY lo = YY hi) as E by lra. rewrite E in H. pose proof (Rle_0_sqr (YY hi)). unfold Rsqr in *. lra. }
  set (x := YY lo / d). exists ((1 - x) * lo + x * hi). split.
  - assert (0 <= x <= 1) as [X1 X2].
    { assert (x = YY lo * d / (d * d)) as E by (unfold x; now field). assert (0 < d * d) as DD by nra. assert (0 <= YY lo * d <= d * d) as [G1 G2].
      { unfold d. pose proof (Rle_0_sqr (YY lo)). pose proof (Rle_0_sqr (YY hi)). unfold Rsqr in *. split; lra. }
      rewrite E. split; [apply Rmult_le_pos; [exact G1|left; now apply Rinv_0_lt_compat]|]. apply Rmult_le_reg_r with (d * d); [exact DD|]. unfold Rdiv. rewrite Rmult_assoc, Rinv_l by lra. lra. }
    assert (0 <= x * (hi - lo)) by (apply Rmult_le_pos; lra). assert (0 <= (1 - x) * (hi - lo)) by (apply Rmult_le_pos; lra). lra.
  - rewrite mob_Ymix. unfold x, d. field. exact D.
Qed.
End Mobius.
Lemma smin x y : VecNModel.std_min x y = Rmin x y.
Proof. unfold VecNModel.std_min, Rmin. destruct (Rlt_dec _ _), (Rle_dec _ _); lra. Qed.
Lemma smax x y : VecNModel.std_max x y = Rmax x y.
Proof. unfold VecNModel.std_max, Rmax. destruct (Rlt_dec _ _), (Rle_dec _ _); lra. Qed.
Lemma frac_is N a x : ~ all_zero N x -> fraction_on N a x = Some (inner N a x / inner N x x).
Proof. intros H. unfold fraction_on, div_opt. rewrite mag2_is, dot_is. destruct (Req_EM_T _ _) as [Z|Z]; [apply inner_zero in Z; tauto|reflexivity]. Qed.
Lemma inner_pos N x : ~ all_zero N x -> 0 < inner N x x.
Proof. intros H. pose proof (inner_nonneg N x). destruct (Req_dec (inner N x x) 0) as [Z|Z]; [apply inner_zero in Z; tauto|lra]. Qed.
Lemma inner_comb2 N r s a b c : inner N (fun i => r * a i + s * b i) c = r * inner N a c + s * inner N b c.
Proof. vlin N. Qed.

Section F.
Variables (M : nat) (X : region) (height : @rect R_ord).
Hypothesis RX : respects M X.
Notation lh := (lo height 0%nat : R).
Notation hh := (hi height 0%nat : R).
Hypothesis LH : lh <= hh.
Notation F := (frustum_set M X lh hh).
Notation N := (S M).
Notation cl := (lo (clipped_height height) 0%nat : R).
Lemma clip_cases : (lh < 0 < hh /\ cl = 0) \/ (~ lh < 0 < hh /\ cl = lh).
Proof. cbn. destruct (Rlt_dec _ _); [destruct (Rlt_dec _ _)|]; lra. Qed.
Lemma clip_le : cl <= hh /\ (cl < 0 -> hh <= 0).
Proof. destruct clip_cases as [[A ->]|[A ->]]; split; lra. Qed.
Lemma clip_has x : height_has (clipped_height height) x = true <-> cl <= x <= hh.
Proof. exact (has_iff (clipped_height height) x). Qed.
Lemma clip_set x : (cl <= x <= hh) <-> lh <= x <= hh /\ (lh < 0 < hh -> 0 <= x).
Proof. destruct clip_cases as [[A ->]|[A ->]]; split; intros; (split; [lra|]); lra. Qed.
Lemma frustum_alt p : F p <-> cl <= p M <= hh /\ (p M = 0 -> all_zero M p) /\ (p M <> 0 -> X (fun i => p i / p M)).
Proof. unfold frustum_set. rewrite clip_set. tauto. Qed.
Lemma x_ext p q : same M p q -> X p <-> X q.
Proof. intros S. split; apply RX; [exact S|now apply same_sym]. Qed.
Lemma contains_ok b_contains p : (forall q, b_contains q = true <-> X q) -> (frustum_contains M b_contains height p = true <-> F p).
Proof.
  intros E. rewrite frustum_alt. unfold frustum_contains. pose proof (clip_has (p M)) as H. destruct (height_has _ _); [|split; [discriminate|intros [C _]; now apply H in C]].
  destruct (Req_EM_T (p M) 0) as [Z|Z].
  - rewrite is_zero_spec. split; [intros A; split; [now apply H|]; split; [intros _ i L; apply A; lia|tauto]|]. intros (_ & A & _) i L. destruct (Nat.eq_dec i M) as [->|]; [exact Z|]. apply A; [exact Z|lia].
  - rewrite E, (x_ext (base_pt M (fun i => p i / p M)) (fun i => p i / p M) (base_same M _)). tauto.
Qed.
(** ** Support *)
Lemma dot_S p d : dot N p d = inner M p d + p M * d M.
Proof. rewrite dot_is. reflexivity. Qed.
Lemma support_ok b_support d : (0 < M)%nat -> (forall d', ~ all_zero M d' -> is_support M X d' (b_support d')) -> is_support N F d (frustum_support M b_support height d).
Proof.
  intros MP H. unfold frustum_support. cbv zeta. set (sg := if Rlt_dec cl 0 then -1 else 1). destruct clip_le as [CL CN].
  set (ds := if is_zero M (fun i => sg * base_pt M d i) then _ else _). set (x := b_support ds).
  assert (X x /\ forall y, X y -> sg * inner M y d <= sg * inner M x d) as [X1 X2].
  { unfold x, ds. destruct (is_zero M _) eqn:Z.
    - split; [apply H; intros AZ; specialize (AZ 0%nat MP); cbn in AZ; lra|]. intros y _. apply is_zero_spec in Z.
      assert (sg <> 0) as SG by (unfold sg; destruct (Rlt_dec _ _); lra).
      assert (all_zero M d) as Z' by (intros i L; specialize (Z i L); cbv beta in Z; rewrite (base_same M d i L) in Z; apply Rmult_integral in Z as [|]; [contradiction|assumption]).
      assert (forall z, inner M z d = 0) as E. { intros z. rewrite (inner_ext M z z d (fun _ => 0) (same_refl _ _) Z'). vlin M. } rewrite !E. lra.
    - destruct (H (fun i => sg * base_pt M d i)) as [S1 S2]; [intros AZ; apply is_zero_spec in AZ; congruence|]. split; [exact S1|]. intros y Y. specialize (S2 y Y).
      assert (forall z, inner M z (fun i => sg * base_pt M d i) = sg * inner M z d) as E.
      { intros z. rewrite inner_sym, inner_mul_l. f_equal. rewrite inner_sym. apply inner_ext; [apply same_refl|apply base_same]. }
      now rewrite !E in S2. }
  set (p := join M x 1). set (m := inner M x d + d M). assert (dot N p d = m) as DM. { unfold p, m. rewrite dot_S, join_top, (inner_ext M (join M x 1) x d d (join_low M x 1) (same_refl _ _)). ring. }
  rewrite DM. set (z := if Rlt_dec 0 m then hi (clipped_height height) 0%nat else cl).
  assert (cl <= z <= hh /\ forall t, cl <= t <= hh -> t * m <= z * m) as [Z1 Z2].
  { unfold z. change (hi (clipped_height height) 0%nat) with (hh). destruct (Rlt_dec 0 m) as [D|D]; (split; [lra|]); intros t T.
    - assert (0 <= (hh - t) * m) by (apply Rmult_le_pos; lra). lra.
    - assert (0 <= (t - cl) * - m) by (apply Rmult_le_pos; lra). lra. }
  assert (inner N (fun i => z * p i) d = z * m) as EV by (rewrite inner_mul_l, <- dot_is, DM; reflexivity).
  split.
  - apply frustum_alt. assert (p M = 1) as PM by (unfold p; apply join_top). rewrite PM, Rmult_1_r. split; [exact Z1|]. split.
    + intros E i L. rewrite E. ring.
    + intros E. apply (x_ext x); [|exact X1]. intros i L. unfold p. rewrite (join_low M x 1 i L). now field.
  - intros y Y. apply frustum_alt in Y as (Y1 & Y2 & Y3). rewrite EV. eapply Rle_trans; [|exact (Z2 _ Y1)]. rewrite inner_S.
    destruct (Req_EM_T (y M) 0) as [E|E].
    + specialize (Y2 E). rewrite (inner_ext M y (fun _ => 0) d d Y2 (same_refl _ _)), E. replace (inner M (fun _ => 0) d) with 0 by vlin M. lra.
    + specialize (Y3 E). specialize (X2 _ Y3). assert (inner M y d = y M * inner M (fun i => y i / y M) d) as E2.
      { rewrite <- inner_mul_l. apply inner_ext; [|apply same_refl]. intros i L. now field. }
      set (k := inner M (fun i => y i / y M) d) in *. rewrite E2. unfold m.
      assert (y M * k <= y M * inner M x d); [|lra]. unfold sg in X2. destruct (Rlt_dec cl 0) as [G|G].
      * assert (0 <= - y M * (k - inner M x d)) by (apply Rmult_le_pos; lra). lra.
      * assert (0 <= y M * (inner M x d - k)) by (apply Rmult_le_pos; lra). lra.
Qed.
(** ** Bounds *)
Lemma mul_between a b t l h : l <= t <= h -> (0 <= l \/ h <= 0) -> forall x, a <= x <= b -> Rmin (Rmin (a * l) (b * l)) (Rmin (a * h) (b * h)) <= t * x <= Rmax (Rmax (a * l) (b * l)) (Rmax (a * h) (b * h)).
Proof.
  intros T S x W. assert (Rmin (a * l) (a * h) <= t * a <= Rmax (a * l) (a * h)) as A.
  { clear - T. destruct (Rle_dec 0 a).
    - assert (0 <= (t - l) * a) by (apply Rmult_le_pos; lra). assert (0 <= (h - t) * a) by (apply Rmult_le_pos; lra). rewrite Rmin_left, Rmax_right by lra. lra.
    - assert (0 <= (t - l) * - a) by (apply Rmult_le_pos; lra). assert (0 <= (h - t) * - a) by (apply Rmult_le_pos; lra). rewrite Rmin_right, Rmax_left by lra. lra. }
  assert (Rmin (b * l) (b * h) <= t * b <= Rmax (b * l) (b * h)) as B.
  { clear - T. destruct (Rle_dec 0 b).
    - assert (0 <= (t - l) * b) by (apply Rmult_le_pos; lra). assert (0 <= (h - t) * b) by (apply Rmult_le_pos; lra). rewrite Rmin_left, Rmax_right by lra. lra.
    - assert (0 <= (t - l) * - b) by (apply Rmult_le_pos; lra). assert (0 <= (h - t) * - b) by (apply Rmult_le_pos; lra). rewrite Rmin_right, Rmax_left by lra. lra. }
  assert (Rmin (t * a) (t * b) <= t * x <= Rmax (t * a) (t * b)) as D.
  { destruct S.
    - assert (0 <= t * (x - a)) by (apply Rmult_le_pos; lra). assert (0 <= t * (b - x)) by (apply Rmult_le_pos; lra). rewrite Rmin_left, Rmax_right by lra. lra.
    - assert (0 <= - t * (x - a)) by (apply Rmult_le_pos; lra). assert (0 <= - t * (b - x)) by (apply Rmult_le_pos; lra). rewrite Rmin_right, Rmax_left by lra. lra. }
  clear - A B D. pose proof (Rmin_l (a * l) (b * l)). pose proof (Rmin_r (a * l) (b * l)). pose proof (Rmin_l (a * h) (b * h)). pose proof (Rmin_r (a * h) (b * h)).
  pose proof (Rmax_l (a * l) (b * l)). pose proof (Rmax_r (a * l) (b * l)). pose proof (Rmax_l (a * h) (b * h)). pose proof (Rmax_r (a * h) (b * h)).
  set (m1 := Rmin (a * l) (b * l)) in *. set (m2 := Rmin (a * h) (b * h)) in *. set (n1 := Rmax (a * l) (b * l)) in *. set (n2 := Rmax (a * h) (b * h)) in *.
  pose proof (Rmin_l m1 m2). pose proof (Rmin_r m1 m2). pose proof (Rmax_l n1 n2). pose proof (Rmax_r n1 n2).
  set (mm := Rmin m1 m2) in *. set (nn := Rmax n1 n2) in *.
  destruct A as [A1 A2], B as [B1 B2], D as [D1 D2]. revert A1 A2 B1 B2 D1 D2. unfold Rmin, Rmax.
  destruct (Rle_dec (a * l) (a * h)), (Rle_dec (b * l) (b * h)), (Rle_dec (t * a) (t * b)); lra.
Qed.
Lemma omin_R (x y : R) : @omin R_ord x y = Rmin x y.
Proof. unfold omin, Rmin. cbn. unfold Rltb. destruct (Rlt_dec _ _), (Rle_dec _ _); lra. Qed.
Lemma omax_R (x y : R) : @omax R_ord x y = Rmax x y.
Proof. unfold omax, Rmax. cbn. unfold Rltb. destruct (Rlt_dec _ _), (Rle_dec _ _); lra. Qed.
Lemma bounds_ok b : (0 < M)%nat -> tight_box M X b -> tight_box N F (frustum_bounds M b height).
Proof.
  intros MP [A B]. assert (exists x0, X x0) as [x0 XX0] by (destruct (B 0%nat MP) as [(x & Q & _) _]; eauto). destruct clip_le as [CL CN].
  assert (forall x t, X x -> cl <= t <= hh -> F (fun i => t * join M x 1 i)) as IN.
  { intros x t H T. apply frustum_alt. rewrite join_top, Rmult_1_r. split; [exact T|]. split; [intros -> i L; ring|]. intros E. apply (x_ext x); [|exact H]. intros i L. rewrite (join_low M x 1 i L). now field. }
  assert (forall i, (i < M)%nat -> lo (frustum_bounds M b height) i = Rmin (Rmin (lo b i * cl) (hi b i * cl)) (Rmin (lo b i * hh) (hi b i * hh)) /\
    hi (frustum_bounds M b height) i = Rmax (Rmax (lo b i * cl) (hi b i * cl)) (Rmax (lo b i * hh) (hi b i * hh))) as EB.
  { intros i L. unfold frustum_bounds, cartesian, union, r_scale. cbv zeta. cbn [lo hi]. destruct (Nat.ltb_spec i M); [|lia]. unfold vmin, vmax. now rewrite !omin_R, !omax_R. }
  assert (lo (frustum_bounds M b height) M = cl /\ hi (frustum_bounds M b height) M = hh) as [ET1 ET2].
  { unfold frustum_bounds, cartesian. cbv zeta. cbn [lo hi]. destruct (Nat.ltb_spec M M); [lia|]. split; reflexivity. }
  split.
  - intros p Fp i L. apply frustum_alt in Fp as (F1 & F2 & F3). destruct (Nat.eq_dec i M) as [->|NE]; [now rewrite ET1, ET2|]. destruct (EB i ltac:(lia)) as [-> ->].
    destruct (Req_dec (p M) 0) as [Z|Z].
    + rewrite (F2 Z i ltac:(lia)). pose proof (A x0 XX0 i ltac:(lia)) as W. cbn beta in W. pose proof (mul_between (lo b i) (hi b i) 0 cl hh ltac:(lra) ltac:(lra) (x0 i) W). lra.
    + pose proof (A _ (F3 Z) i ltac:(lia)) as W. cbn beta in W. pose proof (mul_between (lo b i) (hi b i) (p M) cl hh F1 ltac:(lra) _ W) as G. replace (p M * (p i / p M)) with (p i) in G by (now field). exact G.
  - intros i L. destruct (Nat.eq_dec i M) as [->|NE].
    + rewrite ET1, ET2. split; [exists (fun i => cl * join M x0 1 i)|exists (fun i => hh * join M x0 1 i)]; (split; [apply IN; [exact XX0|lra]|rewrite join_top; ring]).
    + assert (i < M)%nat as LM by lia. destruct (EB i LM) as [-> ->]. destruct (B i LM) as [(x1 & Q1 & E1) (x2 & Q2 & E2)].
      assert (forall t x, X x -> cl <= t <= hh -> exists p, F p /\ p i = x i * t) as WIT.
      { intros t x H T. exists (fun i => t * join M x 1 i). split; [now apply IN|]. rewrite (join_low M x 1 i LM). ring. }
      rewrite <- E1, <- E2. pose proof (WIT cl x1 Q1 ltac:(lra)). pose proof (WIT hh x1 Q1 ltac:(lra)). pose proof (WIT cl x2 Q2 ltac:(lra)). pose proof (WIT hh x2 Q2 ltac:(lra)).
      split; unfold Rmin, Rmax; repeat destruct (Rle_dec _ _); assumption.
Qed.
(** ** Rays *)
Lemma slab_ok o d s : in_interval (ray_intersect 1 (clipped_height height) (fun _ => o) (fun _ => d)) s <-> cl <= o + s * d <= hh.
Proof.
  destruct clip_le as [CL _]. rewrite interval_has, ray_intersect_ok.
  - rewrite inside_R. split; [intros H; exact (H 0%nat ltac:(lia))|]. intros H i L. exact H.
  - apply nonempty_R. intros i L. exact CL.
Qed.
Lemma slab_lo o d : d <> 0 -> lo (ray_intersect 1 (clipped_height height) (fun _ => o) (fun _ => d)) 0%nat = Fin (Rmin ((cl - o) / d) ((hh - o) / d)).
Proof.
  intros D. destruct clip_le as [CL _]. unfold ray_intersect. cbn [List.seq ray_axes]. destruct (Req_EM_T d 0); [contradiction|]. set (x := (cl - o) / d).
  change ((hi (clipped_height height) 0%nat - o) / d) with ((hh - o) / d). set (y := (hh - o) / d). cbn. unfold vmin, vmax, omin, omax. cbn. unfold Rltb, Rmin. destruct (Rlt_dec _ _), (Rle_dec _ _); cbn; f_equal; lra.
Qed.
Variables (b_contains : vec -> bool) (b_ray : ray -> interval).
Hypothesis BC : forall q, b_contains q = true <-> X q.
Hypothesis BR : forall o d, ~ all_zero M d -> ray_in X o d (b_ray (mkRay o d)).
Variables (o d : vec).
Hypothesis DZ : ~ all_zero N d.
Notation a := (inner N d d).
Notation p := (d M).
Definition ox := inner N o d / inner N d d.
Definition ow : vec := fun i => o i - ox * d i.
Notation b := (inner N ow ow).
Notation q := (ow M).
Let z : vec := fun i => if (i =? M)%nat then 1 else 0.
Let o_ortho := vec_sub o (project_on N o d).
Lemma ortho_is i : o_ortho i = ow i.
Proof. unfold o_ortho, vec_sub, ow, ox. now rewrite project_spec. Qed.
Lemma a_pos : 0 < a.
Proof. now apply inner_pos. Qed.
Lemma wu : inner N ow d = 0.
Proof. pose proof a_pos. unfold ow. rewrite (inner_ext N _ (fun i => o i + (- ox) * d i) d d) by (try apply same_refl; intros i L; ring). rewrite inner_add_mul. unfold ox. field. lra. Qed.
Lemma z_inner x : inner N z x = x M.
Proof. rewrite inner_sym. exact (inner_axis N M x ltac:(lia)). Qed.
Let c := vec_add (project_on N z d) (project_on N z o_ortho).
(** The line does not pass the origin. *)
Section Off.
Hypothesis WZ : ~ all_zero N ow.
Lemma b_pos : 0 < b.
Proof. now apply inner_pos. Qed.
Definition CC := p * p / a + q * q / b.
Lemma c_is i : c i = p / a * d i + q / b * ow i.
Proof.
  unfold c, vec_add. rewrite project_spec by exact DZ. assert (same N o_ortho ow) as S by (intros j _; apply ortho_is).
  assert (~ all_zero N o_ortho) as OZ by (intros H; apply WZ; intros j L; rewrite <- ortho_is; now apply H).
  rewrite project_spec by exact OZ. rewrite !z_inner. rewrite (inner_ext N o_ortho ow o_ortho ow S S), !ortho_is. reflexivity.
Qed.
Lemma c_M : c M = CC.
Proof. rewrite c_is. unfold CC. field. pose proof a_pos. pose proof b_pos. lra. Qed.
Lemma dc : inner N d c = p.
Proof.
  rewrite inner_sym. rewrite (inner_ext N c (fun i => p / a * d i + q / b * ow i) d d) by (try apply same_refl; intros j _; apply c_is). rewrite inner_comb2, wu. pose proof a_pos. field. pose proof b_pos. lra.
Qed.
Lemma wc : inner N ow c = q.
Proof.
  rewrite inner_sym. rewrite (inner_ext N c (fun i => p / a * d i + q / b * ow i) ow ow) by (try apply same_refl; intros j _; apply c_is). rewrite inner_comb2, (inner_sym N d ow), wu. pose proof b_pos. field. pose proof a_pos. lra.
Qed.
Lemma cc : inner N c c = CC.
Proof.
  rewrite (inner_ext N c (fun i => p / a * d i + q / b * ow i) c c) by (try apply same_refl; intros j _; apply c_is). rewrite inner_comb2, dc, wc. unfold CC. field. pose proof a_pos. pose proof b_pos. lra.
Qed.
Let g := vec_sub d (project_on N d c).
Lemma g_is i : CC <> 0 -> g i = d i - p / CC * c i.
Proof. intros H. unfold g, vec_sub. rewrite project_spec; [now rewrite dc, cc|]. intros AZ. apply inner_zero in AZ. rewrite cc in AZ. contradiction. Qed.
Section Foot.
Hypothesis QZ : q <> 0.
Notation XX' := (XX a b p q CC).
Notation YY' := (YY b p q CC).
Notation TT' := (TT a b p q CC).
Lemma C_pos : 0 < CC.
Proof. exact (mob_C a b p q CC a_pos b_pos QZ eq_refl). Qed.
Lemma g_M : g M = 0.
Proof. pose proof C_pos. rewrite g_is, c_M by lra. field. lra. Qed.
Lemma g_d : inner N g d <> 0.
Proof.
  pose proof C_pos as CP. pose proof a_pos as AP. pose proof b_pos as BP.
  rewrite (inner_ext N g (fun i => 1 * d i + - (p / CC) * c i) d d) by (try apply same_refl; intros j _; rewrite g_is by lra; ring). rewrite inner_comb2, (inner_sym N c d), dc.
  assert (1 * a + - (p / CC) * p = a * (q * q / b) / CC) as ->.
  { apply Rmult_eq_reg_r with CC; [|lra]. transitivity (a * CC - p * p); [field; lra|]. transitivity (a * (q * q / b)); [|field; lra]. unfold CC. field. lra. }
  assert (0 < q * q) by nra. assert (0 < q * q / b) by now apply Rdiv_lt_0_compat. assert (0 < a * (q * q / b)) by now apply Rmult_lt_0_compat. assert (0 < a * (q * q / b) / CC) by now apply Rdiv_lt_0_compat. lra.
Qed.
Lemma g_nz : ~ all_zero M g.
Proof.
  intros AZ. apply g_d. assert (all_zero N g) as AZ' by (intros i L; destruct (Nat.eq_dec i M) as [->|]; [apply g_M|apply AZ; lia]).
  rewrite (inner_ext N g (fun _ => 0) d d AZ' (same_refl _ _)). vlin (S M).
Qed.
Lemma P_is t i : c i / CC + t * g i = XX' t * d i + YY' t * ow i.
Proof.
  pose proof C_pos. pose proof a_pos. pose proof b_pos. rewrite g_is, c_is by lra. unfold XX, YY.
  transitivity (p / (a * CC) * d i + q / (b * CC) * ow i + t * (d i * CC / CC - p / CC * (p / a * d i + q / b * ow i))); [field; lra|].
  replace (d i * CC) with (d i * (p * p / a + q * q / b)) by (unfold CC; reflexivity). field. lra.
Qed.
Definition proj_pt (t : R) : vec := fun i => XX' t * d i + YY' t * ow i.
Let c1 : vec := fun i => c i / c M.
Let rb := mkRay (base_pt M c1) (base_pt M g).
Lemma rb_in t : in_interval (b_ray rb) t <-> X (proj_pt t).
Proof.
  assert (~ all_zero M (base_pt M g)) as NZ by (intros AZ; apply g_nz; intros i L; rewrite <- (base_same M g i L); now apply AZ).
  eapply iff_trans; [exact (BR (base_pt M c1) (base_pt M g) NZ t)|]. apply x_ext. intros i L. rewrite (base_same M c1 i L), (base_same M g i L). unfold c1. rewrite c_M. apply P_is.
Qed.
Lemma proj_M t : proj_pt t M = 1.
Proof. exact (mob_one a b p q CC a_pos b_pos QZ eq_refl t). Qed.
Lemma hit_is t : same N (join M (at_multiple rb t) 1) (proj_pt t).
Proof.
  intros i L. destruct (Nat.eq_dec i M) as [->|]; [now rewrite join_top, proj_M|]. rewrite (join_low M _ 1 i) by lia. unfold at_multiple, vec_add, vec_scale, rb. cbn [origin direction].
  rewrite (base_same M c1 i), (base_same M g i) by lia. unfold c1. rewrite c_M. rewrite (Rmult_comm (g i) t). apply P_is.
Qed.
Lemma proj_d t : inner N (proj_pt t) d / a = XX' t.
Proof. unfold proj_pt. rewrite inner_comb2, wu. pose proof a_pos. field. lra. Qed.
Lemma proj_w t : inner N (proj_pt t) ow / b = YY' t.
Proof. unfold proj_pt. rewrite inner_comb2, (inner_sym N d ow), wu. pose proof b_pos. field. lra. Qed.
Lemma in_F s : F (fun i => o i + s * d i) <-> cl <= o M + s * p <= hh /\ o M + s * p <> 0 /\ in_interval (b_ray rb) (TT' (s + ox)).
Proof.
  rewrite frustum_alt. assert ((s + ox) * p + q = o M + s * p) as EH by (unfold ow; ring). rewrite rb_in. destruct (Req_EM_T (o M + s * p) 0) as [Z|Z].
  - split; [|tauto]. intros (_ & H & _). exfalso. specialize (H Z). assert (all_zero N (fun i => o i + s * d i)) as AZ. { intros i L. destruct (Nat.eq_dec i M) as [->|]; [exact Z|apply H; lia]. }
    assert (s = - ox) as ->.
    { pose proof a_pos. assert (inner N (fun i => o i + s * d i) d = 0) as E. { rewrite (inner_ext N _ (fun _ => 0) d d AZ (same_refl _ _)). vlin (S M). }
      rewrite inner_add_mul in E. unfold ox. apply Rmult_eq_reg_r with a; [|lra]. transitivity (- inner N o d); [lra|field; lra]. }
    apply WZ. intros i L. rewrite <- (AZ i L). unfold ow. ring.
  - assert (X (fun i => (o i + s * d i) / (o M + s * p)) <-> X (proj_pt (TT' (s + ox)))) as E; [|tauto]. apply x_ext. intros i L. unfold proj_pt.
    rewrite (mob_XT a b p q CC a_pos b_pos QZ eq_refl), (mob_YT a b p q CC a_pos b_pos QZ eq_refl) by (rewrite EH; exact Z). rewrite EH. unfold ow. field. exact Z.
Qed.
(** What the code computes in the general case. *)
Notation slab_range := (ray_intersect 1 (clipped_height height) (fun _ => o M) (fun _ => p)).
Lemma ray_general : frustum_ray M b_contains b_ray height (mkRay o d) =
  if is_empty 1 (b_ray rb) then Some iv_empty
  else match lo (b_ray rb) 0%nat, hi (b_ray rb) 0%nat with
  | Fin s_lo, Fin s_hi =>
    match div_opt (XX' s_lo) (YY' s_lo), div_opt (XX' s_hi) (YY' s_hi) with
    | Some x0, Some x1 =>
      let lo := Rmin (x0 - ox) (x1 - ox) in
      let hi := Rmax (x0 - ox) (x1 - ox) in
      let s := if Bool.eqb (Rltb (o M + lo * p) 0) (Rltb (o M + hi * p) 0) then mk_interval (Fin lo) (Fin hi)
        else if ext_ltb (RectModel.lo slab_range 0%nat) (Fin 0) then mk_interval NInf (Fin lo) else mk_interval (Fin hi) PInf in
      Some (inter s slab_range)
    | _, _ => None
    end
  | _, _ => None
  end.
Proof.
  unfold frustum_ray. cbn [origin direction]. cbv zeta. fold z. fold o_ortho. fold c. fold g. fold c1. fold rb.
  pose proof C_pos as CP. destruct (Req_EM_T (c M) 0) as [Z|_]; [rewrite c_M in Z; lra|].
  destruct (is_zero N g) eqn:EZ; [exfalso; apply is_zero_spec in EZ; apply g_nz; intros i L; apply EZ; lia|].
  destruct (is_empty 1 (b_ray rb)); [reflexivity|]. destruct (lo (b_ray rb) 0%nat) as [|s_lo|]; try reflexivity. destruct (hi (b_ray rb) 0%nat) as [|s_hi|]; try reflexivity.
  assert (same N o_ortho ow) as S by (intros j _; apply ortho_is).
  assert (~ all_zero N o_ortho) as OZ by (intros H; apply WZ; intros j L; rewrite <- ortho_is; now apply H).
  rewrite (frac_is N o d DZ), !(frac_is N _ o_ortho OZ), !(frac_is N _ d DZ). fold ox.
  rewrite (inner_ext N o_ortho ow o_ortho ow S S), !(inner_ext N _ _ o_ortho ow (hit_is _) S), !(inner_ext N _ _ d d (hit_is _) (same_refl _ _)), !proj_d, !proj_w.
  destruct (div_opt (XX' s_lo) (YY' s_lo)) as [x0|]; [|reflexivity]. destruct (div_opt (XX' s_hi) (YY' s_hi)) as [x1|]; [|reflexivity]. now rewrite smin, smax.
Qed.
Lemma empty_iff (iv : interval) : is_empty 1 iv = true <-> match lo iv 0%nat, hi iv 0%nat with
  | Fin x, Fin y => y < x | PInf, Fin _ => True | Fin _, NInf => True | PInf, NInf => True | _, _ => False end.
Proof.
  unfold is_empty, all_axes. cbn. destruct (lo iv 0%nat) as [|x|], (hi iv 0%nat) as [|y|]; cbn; try (split; easy). unfold Rltb. destruct (Rlt_dec y x); cbn; split; intros; easy.
Qed.
Lemma empty_none (iv : interval) s : is_empty 1 iv = true -> ~ in_interval iv s.
Proof. intros E. apply empty_iff in E. unfold in_interval. destruct (lo iv 0%nat), (hi iv 0%nat); try tauto; lra. Qed.
Lemma fin_has x y s (iv : interval) : lo iv 0%nat = Fin x -> hi iv 0%nat = Fin y -> in_interval iv s <-> x <= s <= y.
Proof. intros A B. unfold in_interval. rewrite A, B. tauto. Qed.
Lemma h_ltb x y : 0 < (o M + x * p) * (o M + y * p) -> Bool.eqb (Rltb (o M + x * p) 0) (Rltb (o M + y * p) 0) = true.
Proof. intros H. destruct (prod_cases _ _ H) as [[A B]|[A B]]; unfold Rltb; destruct (Rlt_dec _ _), (Rlt_dec _ _); try lra; reflexivity. Qed.
Lemma h_ltb' x y : (o M + x * p) * (o M + y * p) < 0 -> Bool.eqb (Rltb (o M + x * p) 0) (Rltb (o M + y * p) 0) = false.
Proof.
  intros H. unfold Rltb. destruct (Rlt_dec (o M + x * p) 0) as [A|A], (Rlt_dec (o M + y * p) 0) as [B|B]; try reflexivity; exfalso.
  - assert (0 < - (o M + x * p) * - (o M + y * p)) by (apply Rmult_lt_0_compat; lra). lra.
  - assert (0 <= (o M + x * p) * (o M + y * p)) by (apply Rmult_le_pos; lra). lra.
Qed.
(** The end points of the base interval, seen along the ray. *)
Section Ends.
Variables s_lo s_hi : R.
Hypothesis (EL : lo (b_ray rb) 0%nat = Fin s_lo) (EH : hi (b_ray rb) 0%nat = Fin s_hi) (LE : s_lo <= s_hi) (YL : YY' s_lo <> 0) (YH : YY' s_hi <> 0).
Notation x0 := (XX' s_lo / YY' s_lo).
Notation x1 := (XX' s_hi / YY' s_hi).
Lemma over_iff s : over a b p q CC s_lo s_hi (s + ox) <-> o M + s * p <> 0 /\ in_interval (b_ray rb) (TT' (s + ox)).
Proof. unfold over. rewrite (fin_has _ _ _ _ EL EH). assert ((s + ox) * p + q = o M + s * p) as -> by (unfold ow; ring). tauto. Qed.
Lemma height_lo : o M + (x0 - ox) * p = 1 / YY' s_lo.
Proof. rewrite <- (mob_h a b p q CC a_pos b_pos QZ eq_refl s_lo YL). unfold ow. ring. Qed.
Lemma height_hi : o M + (x1 - ox) * p = 1 / YY' s_hi.
Proof. rewrite <- (mob_h a b p q CC a_pos b_pos QZ eq_refl s_hi YH). unfold ow. ring. Qed.
Lemma min_shift x y k : Rmin (x - k) (y - k) = Rmin x y - k.
Proof. unfold Rmin. destruct (Rle_dec _ _), (Rle_dec _ _); lra. Qed.
Lemma max_shift x y k : Rmax (x - k) (y - k) = Rmax x y - k.
Proof. unfold Rmax. destruct (Rle_dec _ _), (Rle_dec _ _); lra. Qed.
Lemma min_max_height (f : R -> R) x y : f (Rmin x y) * f (Rmax x y) = f x * f y.
Proof. unfold Rmin, Rmax. destruct (Rle_dec x y); ring. Qed.
Lemma recip_prod : (o M + (x0 - ox) * p) * (o M + (x1 - ox) * p) * ((YY' s_lo * YY' s_hi) * (YY' s_lo * YY' s_hi)) = YY' s_lo * YY' s_hi.
Proof. rewrite height_lo, height_hi. field. now split. Qed.
Lemma sq_pos x : x <> 0 -> 0 < x * x.
Proof. intros. nra. Qed.
Lemma same_case : 0 < YY' s_lo * YY' s_hi -> 0 < (o M + Rmin (x0 - ox) (x1 - ox) * p) * (o M + Rmax (x0 - ox) (x1 - ox) * p).
Proof.
  intros H. rewrite (min_max_height (fun x => o M + x * p)). pose proof recip_prod as R. rewrite <- R in H. assert (0 < (YY' s_lo * YY' s_hi) * (YY' s_lo * YY' s_hi)) as P.
  { apply sq_pos. now apply Rmult_integral_contrapositive_currified. }
  apply Rmult_lt_reg_r with ((YY' s_lo * YY' s_hi) * (YY' s_lo * YY' s_hi)); lra.
Qed.
Lemma opp_case : YY' s_lo * YY' s_hi < 0 -> (o M + Rmin (x0 - ox) (x1 - ox) * p) * (o M + Rmax (x0 - ox) (x1 - ox) * p) < 0.
Proof.
  intros H. rewrite (min_max_height (fun x => o M + x * p)). pose proof recip_prod as R. rewrite <- R in H. assert (0 < (YY' s_lo * YY' s_hi) * (YY' s_lo * YY' s_hi)) as P.
  { apply sq_pos. now apply Rmult_integral_contrapositive_currified. }
  apply Rmult_lt_reg_r with ((YY' s_lo * YY' s_hi) * (YY' s_lo * YY' s_hi)); lra.
Qed.
End Ends.
(** The direction is in the (double, infinite) cone. *)
Definition cone_dir : Prop := p <> 0 /\ X (fun i => d i / p).
Lemma dir_root t : YY' t = 0 -> X (proj_pt t) -> cone_dir.
Proof.
  intros Z H. destruct (mob_zero a b p q CC a_pos b_pos QZ eq_refl t Z) as [P E]. split; [exact P|]. apply (x_ext (proj_pt t)); [|exact H].
  intros i L. unfold proj_pt. rewrite Z, E. now field.
Qed.
Lemma root_dir : cone_dir -> exists t, YY' t = 0 /\ X (proj_pt t).
Proof.
  intros [P H]. pose proof C_pos as CP. pose proof b_pos as BP. exists (1 / p). assert (YY' (1 / p) = 0) as Z by (unfold YY; field; lra). split; [exact Z|].
  destruct (mob_zero a b p q CC a_pos b_pos QZ eq_refl (1 / p) Z) as [_ E]. apply (x_ext (fun i => d i / p)); [|exact H]. intros i L. unfold proj_pt. rewrite Z, E. now field.
Qed.
(** All base intervals are bounded or empty. *)
Hypothesis BD : forall o d, ~ all_zero M d -> let iv := b_ray (mkRay o d) in is_empty 1 iv = false -> exists x y, lo iv 0%nat = Fin x /\ hi iv 0%nat = Fin y.
Lemma rb_bounded : is_empty 1 (b_ray rb) = false -> exists x y, lo (b_ray rb) 0%nat = Fin x /\ hi (b_ray rb) 0%nat = Fin y.
Proof. apply (BD (base_pt M c1) (base_pt M g)). intros AZ. apply g_nz. intros i L. rewrite <- (base_same M g i L). now apply AZ. Qed.
(** Defined for directions in the interior of the cone. *)
Lemma ray_defined : p <> 0 -> (exists e, 0 < e /\ forall y, distance M (fun i => d i / p) y < e -> X y) -> exists iv, frustum_ray M b_contains b_ray height (mkRay o d) = Some iv.
Proof.
  intros P (e & EP & IN). rewrite ray_general. destruct (is_empty 1 (b_ray rb)) eqn:EE; [eauto|]. destruct (rb_bounded EE) as (s_lo & s_hi & EL & EH). rewrite EL, EH.
  assert (forall t0, YY' t0 = 0 -> exists k, 0 < k /\ forall t, Rabs (t - t0) < k -> s_lo <= t <= s_hi) as NB.
  { intros t0 Z. pose proof (length_nonneg M g) as GN. set (G := length M g + 1). assert (0 < G) as GP by (unfold G; lra). exists (e / G). split; [now apply Rdiv_lt_0_compat|]. intros t T.
    apply (fin_has _ _ _ _ EL EH), rb_in, IN. destruct (mob_zero a b p q CC a_pos b_pos QZ eq_refl t0 Z) as [_ EX].
    assert (same M (fun i => d i / p) (proj_pt t0)) as S0 by (intros i L; unfold proj_pt; rewrite Z, EX; now field).
    assert (same M (proj_pt t) (fun i => proj_pt t0 i + (t - t0) * g i)) as S1 by (intros i L; unfold proj_pt; rewrite <- !P_is; ring).
    rewrite (distance_ext M _ _ _ _ S0 S1). rewrite distance_sym. unfold distance. rewrite (length_ext M _ (fun i => (t - t0) * g i)) by (intros i L; ring). rewrite length_scale.
    assert (Rabs (t - t0) * length M g <= Rabs (t - t0) * G) by (apply Rmult_le_compat_l; [apply Rabs_pos|unfold G; lra]).
    assert (Rabs (t - t0) * G < e / G * G) by (apply Rmult_lt_compat_r; assumption). replace (e / G * G) with e in * by (field; lra). lra. }
  unfold div_opt. destruct (Req_EM_T (YY' s_lo) 0) as [Z|_].
  - destruct (NB _ Z) as (k & K & H). specialize (H (s_lo - k / 2)). exfalso. destruct H as [H _]; [unfold Rabs; destruct (Rcase_abs _); lra|lra].
  - destruct (Req_EM_T (YY' s_hi) 0) as [Z|_]; [|cbv zeta; eauto]. destruct (NB _ Z) as (k & K & H). specialize (H (s_hi + k / 2)). exfalso. destruct H as [_ H]; [unfold Rabs; destruct (Rcase_abs _); lra|lra].
Qed.
Lemma ray_aside : ~ cone_dir -> exists iv, frustum_ray M b_contains b_ray height (mkRay o d) = Some iv /\ ray_in F o d iv.
Proof.
  intros ND. rewrite ray_general. destruct (is_empty 1 (b_ray rb)) eqn:EE.
  - eexists. split; [reflexivity|]. intros s. rewrite in_F. split; [intros [W _]; destruct W|]. intros (_ & _ & W). destruct (empty_none _ _ EE W).
  - destruct (rb_bounded EE) as (s_lo & s_hi & EL & EH). rewrite EL, EH. assert (s_lo <= s_hi) as LE.
    { apply Rnot_lt_le. intros L. assert (is_empty 1 (b_ray rb) = true) as W by (apply empty_iff; rewrite EL, EH; exact L). congruence. }
    assert (forall t, s_lo <= t <= s_hi -> YY' t <> 0) as NZ. { intros t T Z. apply ND. apply (dir_root t Z). apply rb_in. now apply (fin_has _ _ _ _ EL EH). }
    assert (YY' s_lo <> 0) as YL by (apply NZ; lra). assert (YY' s_hi <> 0) as YH by (apply NZ; lra).
    unfold div_opt. destruct (Req_EM_T (YY' s_lo) 0); [contradiction|]. destruct (Req_EM_T (YY' s_hi) 0); [contradiction|]. cbv zeta. eexists. split; [reflexivity|].
    destruct (mul_sign (YY' s_lo) (YY' s_hi)) as [SG|SG]; [now apply Rmult_integral_contrapositive_currified| |].
    + rewrite h_ltb by (now apply same_case). intros s. rewrite inter_has, slab_ok, in_F, <- (over_iff s_lo s_hi EL EH).
      rewrite (mob_between a b p q CC a_pos b_pos QZ eq_refl s_lo s_hi LE SG). rewrite (fin_has (Rmin (XX' s_lo / YY' s_lo - ox) (XX' s_hi / YY' s_hi - ox)) (Rmax (XX' s_lo / YY' s_lo - ox) (XX' s_hi / YY' s_hi - ox))) by reflexivity.
      rewrite min_shift, max_shift. lra.
    + exfalso. destruct (mob_root b p q CC s_lo s_hi LE SG) as (t & T & Z). exact (NZ t T Z).
Qed.
Definition low_side : Prop := (0 < p /\ cl < o M) \/ (p < 0 /\ o M < hh).
Lemma slab_neg : p <> 0 -> ext_ltb (lo slab_range 0%nat) (Fin 0) = true <-> low_side.
Proof.
  intros P. destruct clip_le as [CL _]. rewrite slab_lo by exact P. cbn. unfold Rltb, low_side.
  assert (forall x, (x / p) * p = x) as DP by (intros; now field). assert (Rmin ((cl - o M) / p) ((hh - o M) / p) < 0 <-> (0 < p /\ cl < o M) \/ (p < 0 /\ o M < hh)) as E.
  { pose proof (DP (cl - o M)) as D1. pose proof (DP (hh - o M)) as D2. set (u := (cl - o M) / p) in *. set (v := (hh - o M) / p) in *. destruct (Rdichotomy _ _ P) as [G|G].
    - assert (v <= u) as W by (apply Rnot_lt_le; intros W; assert (0 < (v - u) * - p) by (apply Rmult_lt_0_compat; lra); lra). rewrite Rmin_right by exact W.
      split; [intros H; right; assert (0 < - v * - p) by (apply Rmult_lt_0_compat; lra); lra|]. intros [H|H]; [lra|]. apply Rnot_le_lt. intros K. assert (0 <= v * - p) by (apply Rmult_le_pos; lra). lra.
    - assert (u <= v) as W by (apply Rnot_lt_le; intros W; assert (0 < (u - v) * p) by (apply Rmult_lt_0_compat; lra); lra). rewrite Rmin_left by exact W.
      split; [intros H; left; assert (0 < - u * p) by (apply Rmult_lt_0_compat; lra); lra|]. intros [H|H]; [|lra]. apply Rnot_le_lt. intros K. assert (0 <= u * p) by (apply Rmult_le_pos; lra). lra. }
  destruct (Rlt_dec _ _) as [L|L]; rewrite <- E; split; intros; try easy; lra.
Qed.
(** Whether the frustum lies on the low-parameter side of the plane h = 0. *)
Definition low_frustum : Prop := (0 < p /\ hh <= 0) \/ (p < 0 /\ 0 <= cl).
Definition high_frustum : Prop := (0 < p /\ 0 <= cl) \/ (p < 0 /\ hh <= 0).
Lemma ray_opposite iv : cone_dir -> frustum_ray M b_contains b_ray height (mkRay o d) = Some iv ->
  exists x y, x < y /\ (o M + x * p) * (o M + y * p) < 0 /\ (forall s, F (fun i => o i + s * d i) <-> cl <= o M + s * p <= hh /\ (s <= x \/ y <= s)) /\
  (low_side -> forall s, in_interval iv s <-> cl <= o M + s * p <= hh /\ s <= x) /\
  (~ low_side -> forall s, in_interval iv s <-> cl <= o M + s * p <= hh /\ y <= s).
Proof.
  intros CD E. rewrite ray_general in E. destruct (root_dir CD) as (t & TZ & TX). apply rb_in in TX. destruct (is_empty 1 (b_ray rb)) eqn:EE; [destruct (empty_none _ _ EE TX)|].
  destruct (lo (b_ray rb) 0%nat) as [|s_lo|] eqn:EL; try discriminate E. destruct (hi (b_ray rb) 0%nat) as [|s_hi|] eqn:EH; try discriminate E.
  apply (fin_has _ _ _ _ EL EH) in TX. unfold div_opt in E. destruct (Req_EM_T (YY' s_lo) 0) as [|YL]; [discriminate|]. destruct (Req_EM_T (YY' s_hi) 0) as [|YH]; [discriminate|]. cbv zeta in E.
  assert (YY' s_lo * YY' s_hi < 0) as SG.
  { destruct (mul_sign (YY' s_lo) (YY' s_hi)) as [SG|SG]; [now apply Rmult_integral_contrapositive_currified| |exact SG]. exfalso.
    destruct (same_sign_between b p q CC s_lo s_hi SG t TX) as [W _]. rewrite TZ in W. lra. }
  rewrite h_ltb' in E by (now apply opp_case). assert (s_lo <= s_hi) as LE by lra. pose proof (opp_case s_lo s_hi YL YH SG) as OC.
  exists (Rmin (XX' s_lo / YY' s_lo - ox) (XX' s_hi / YY' s_hi - ox)), (Rmax (XX' s_lo / YY' s_lo - ox) (XX' s_hi / YY' s_hi - ox)). split; [|split; [exact OC|split; [|split]]].
  - set (u := XX' s_lo / YY' s_lo - ox) in *. set (v := XX' s_hi / YY' s_hi - ox) in *. destruct (Req_dec u v) as [W|W].
    + rewrite W, Rmin_left, Rmax_left in OC by lra. pose proof (Rle_0_sqr (o M + v * p)). unfold Rsqr in *. lra.
    + unfold Rmin, Rmax. destruct (Rle_dec u v); lra.
  - intros s. rewrite in_F, <- (over_iff s_lo s_hi EL EH), (mob_outside a b p q CC a_pos b_pos QZ eq_refl s_lo s_hi LE SG), min_shift, max_shift. lra.
  - intros LS. rewrite (proj2 (slab_neg (proj1 CD)) LS) in E. injection E as <-. intros s. rewrite inter_has, slab_ok. unfold in_interval. cbn. tauto.
  - intros LS. destruct (ext_ltb _ _) eqn:W; [apply (slab_neg (proj1 CD)) in W; contradiction|]. injection E as <-. intros s. rewrite inter_has, slab_ok. unfold in_interval. cbn. tauto.
Qed.
Lemma low_only x y s : p <> 0 -> x < y -> (o M + x * p) * (o M + y * p) < 0 -> low_frustum -> cl <= o M + s * p <= hh -> ~ y <= s.
Proof.
  intros P XY H LF B S. assert (0 < p -> o M + x * p < 0 < o M + y * p) as H1. { intros G. assert (0 < (y - x) * p) by (apply Rmult_lt_0_compat; lra). split; apply Rnot_le_lt; intros W; [assert (0 <= (o M + x * p) * (o M + y * p)) by (apply Rmult_le_pos; lra)|assert (0 <= - (o M + x * p) * - (o M + y * p)) by (apply Rmult_le_pos; lra)]; lra. }
  assert (p < 0 -> o M + y * p < 0 < o M + x * p) as H2. { intros G. assert (0 < (y - x) * - p) by (apply Rmult_lt_0_compat; lra). split; apply Rnot_le_lt; intros W; [assert (0 <= (o M + x * p) * (o M + y * p)) by (apply Rmult_le_pos; lra)|assert (0 <= - (o M + x * p) * - (o M + y * p)) by (apply Rmult_le_pos; lra)]; lra. }
  destruct LF as [[G LF]|[G LF]].
  - specialize (H1 G). assert (0 <= (s - y) * p) by (apply Rmult_le_pos; lra). lra.
  - specialize (H2 G). assert (0 <= (s - y) * - p) by (apply Rmult_le_pos; lra). lra.
Qed.
Lemma high_only x y s : p <> 0 -> x < y -> (o M + x * p) * (o M + y * p) < 0 -> high_frustum -> cl <= o M + s * p <= hh -> ~ s <= x.
Proof.
  intros P XY H LF B S. assert (0 < p -> o M + x * p < 0 < o M + y * p) as H1. { intros G. assert (0 < (y - x) * p) by (apply Rmult_lt_0_compat; lra). split; apply Rnot_le_lt; intros W; [assert (0 <= (o M + x * p) * (o M + y * p)) by (apply Rmult_le_pos; lra)|assert (0 <= - (o M + x * p) * - (o M + y * p)) by (apply Rmult_le_pos; lra)]; lra. }
  assert (p < 0 -> o M + y * p < 0 < o M + x * p) as H2. { intros G. assert (0 < (y - x) * - p) by (apply Rmult_lt_0_compat; lra). split; apply Rnot_le_lt; intros W; [assert (0 <= (o M + x * p) * (o M + y * p)) by (apply Rmult_le_pos; lra)|assert (0 <= - (o M + x * p) * - (o M + y * p)) by (apply Rmult_le_pos; lra)]; lra. }
  destruct LF as [[G LF]|[G LF]].
  - specialize (H1 G). assert (0 <= (x - s) * p) by (apply Rmult_le_pos; lra). lra.
  - specialize (H2 G). assert (0 <= (x - s) * - p) by (apply Rmult_le_pos; lra). lra.
Qed.
Lemma ray_along iv : cone_dir -> frustum_ray M b_contains b_ray height (mkRay o d) = Some iv ->
  (low_side /\ low_frustum) \/ (~ low_side /\ high_frustum) -> ray_in F o d iv.
Proof.
  intros CD E H. destruct (ray_opposite iv CD E) as (x & y & XY & OP & FI & L1 & L2). intros s. rewrite FI. destruct H as [[A B]|[A B]].
  - rewrite (L1 A). split; [tauto|]. intros [G [W|W]]; [tauto|]. destruct (low_only x y s (proj1 CD) XY OP B G W).
  - rewrite (L2 A). split; [tauto|]. intros [G [W|W]]; [|tauto]. destruct (high_only x y s (proj1 CD) XY OP B G W).
Qed.
Lemma ray_along_wrong iv : cone_dir -> frustum_ray M b_contains b_ray height (mkRay o d) = Some iv ->
  (low_side /\ high_frustum) \/ (~ low_side /\ low_frustum) -> forall s, ~ in_interval iv s.
Proof.
  intros CD E H s W. destruct (ray_opposite iv CD E) as (x & y & XY & OP & FI & L1 & L2). destruct H as [[A B]|[A B]].
  - destruct (proj1 (L1 A s) W) as [G W']. exact (high_only x y s (proj1 CD) XY OP B G W').
  - destruct (proj1 (L2 A s) W) as [G W']. exact (low_only x y s (proj1 CD) XY OP B G W').
Qed.
End Foot.
End Off.
(** Lines whose point nearest the origin has height 0. *)
Lemma c_flat : q = 0 -> same N c (fun i => p / a * d i).
Proof.
  intros QZ i L. unfold c, vec_add. rewrite project_spec by exact DZ. rewrite z_inner. enough (project_on N z o_ortho i = 0) as -> by ring.
  destruct (Req_EM_T (inner N o_ortho o_ortho) 0) as [E|E]; [apply inner_zero in E; now apply project_zero|]. rewrite project_spec by (intros AZ; apply inner_zero in AZ; contradiction).
  rewrite z_inner, ortho_is, QZ. unfold Rdiv. ring.
Qed.
Lemma ray_flat : q = 0 -> p <> 0 -> exists iv, frustum_ray M b_contains b_ray height (mkRay o d) = Some iv /\
  (X (fun i => p / a * d i) -> forall s, in_interval iv s <-> cl <= o M + s * p <= hh) /\ (~ X (fun i => p / a * d i) -> forall s, ~ in_interval iv s).
Proof.
  intros QZ PZ. unfold frustum_ray. cbn [origin direction]. cbv zeta. fold z. fold o_ortho. fold c. pose proof a_pos as AP. pose proof (c_flat QZ) as CF.
  assert (c M <> 0) as CM. { rewrite (CF M) by lia. replace (p / a * p) with (p * p / a) by (field; lra). assert (0 < p * p) by nra. assert (0 < p * p / a) by now apply Rdiv_lt_0_compat. lra. }
  destruct (Req_EM_T (c M) 0); [contradiction|]. assert (is_zero N (vec_sub d (project_on N d c)) = true) as ->.
  { apply is_zero_spec. intros i L. unfold vec_sub. rewrite project_spec by (intros AZ; apply CM, AZ; lia). rewrite (inner_ext N d d c _ (same_refl _ _) CF), (inner_ext N c _ c _ CF CF), (CF i L).
    assert (inner N d (fun i => p / a * d i) = p / a * a) as -> by (rewrite inner_sym; apply inner_mul_l).
    assert (inner N (fun i => p / a * d i) (fun i => p / a * d i) = p / a * (p / a * a)) as -> by (rewrite inner_mul_l; f_equal; rewrite inner_sym; apply inner_mul_l).
    field. lra. }
  eexists. split; [reflexivity|]. assert (b_contains (base_pt M c) = true <-> X (fun i => p / a * d i)) as E.
  { rewrite BC. apply x_ext. intros i L. rewrite (base_same M c i L). apply CF. lia. }
  destruct (b_contains (base_pt M c)).
  - split; [intros _ s; apply slab_ok|]. intros H. exfalso. now apply H, E.
  - split; [intros H; apply E in H; discriminate|]. intros _ s [W _]. exact W.
Qed.
Lemma through_foot : (exists s, all_zero N (fun i => o i + s * d i)) -> all_zero N ow.
Proof.
  intros (s & AZ). pose proof a_pos. assert (s = - ox) as ->.
  { assert (inner N (fun i => o i + s * d i) d = 0) as E. { rewrite (inner_ext N _ (fun _ => 0) d d AZ (same_refl _ _)). vlin (S M). }
    rewrite inner_add_mul in E. unfold ox. apply Rmult_eq_reg_r with a; [|lra]. transitivity (- inner N o d); [lra|field; lra]. }
  intros i L. rewrite <- (AZ i L). unfold ow. ring.
Qed.
Lemma ray_through : (exists s, all_zero N (fun i => o i + s * d i)) -> p <> 0 -> exists iv, frustum_ray M b_contains b_ray height (mkRay o d) = Some iv /\
  (X (fun i => p / a * d i) -> X (fun i => d i / p) -> ray_in F o d iv) /\ (X (fun i => p / a * d i) -> forall s, in_interval iv s <-> cl <= o M + s * p <= hh) /\
  (~ X (fun i => d i / p) -> forall s, F (fun i => o i + s * d i) -> o M + s * p = 0).
Proof.
  intros TH PZ. pose proof (through_foot TH) as WZ. destruct (ray_flat (WZ M ltac:(lia)) PZ) as (iv & E & I1 & I2). exists iv. split; [exact E|].
  assert (forall s i, (i < N)%nat -> o i + s * d i = (ox + s) * d i) as EO by (intros s i L; specialize (WZ i L); unfold ow in WZ; lra).
  assert (forall s, o M + s * p <> 0 -> (X (fun i => (o i + s * d i) / (o M + s * p)) <-> X (fun i => d i / p))) as EX.
  { intros s H. apply x_ext. intros i L. rewrite (EO s i), (EO s M) by lia. rewrite (EO s M) in H by lia. assert (ox + s <> 0) by (intros Z; rewrite Z in H; lra). field. now split. }
  split; [|split; [exact I1|]].
  - intros X1 X2 s. rewrite (I1 X1), frustum_alt. split; [|tauto]. intros B. split; [exact B|]. split.
    + intros Z i L. rewrite (EO s M) in Z by lia. rewrite (EO s i) by lia. apply Rmult_integral in Z as [->|]; [ring|contradiction].
    + intros H. now apply EX.
  - intros NX s H. apply frustum_alt in H as (_ & _ & H). destruct (Req_dec (o M + s * p) 0) as [|W]; [assumption|]. exfalso. apply NX, (EX s W), H, W.
Qed.
Lemma ray_level : o M = 0 -> p = 0 -> ~ all_zero N o -> let s0 := inner N d o / inner N o o in
  exists iv, frustum_ray M b_contains b_ray height (mkRay o d) = Some iv /\ (forall s, in_interval iv s <-> s = s0 /\ cl <= 0 <= hh) /\ ~ F (fun i => o i + s0 * d i).
Proof.
  intros OM P OZ s0. pose proof (inner_pos N o OZ) as OP. assert (q = 0) as QZ by (unfold ow; rewrite OM, P; ring). pose proof (c_flat QZ) as CF.
  assert (all_zero N c) as CZ by (intros i L; rewrite (CF i L), P; unfold Rdiv; ring).
  unfold frustum_ray. cbn [origin direction]. cbv zeta. fold z. fold o_ortho. fold c. destruct (Req_EM_T (c M) 0) as [_|H]; [|destruct H; apply CZ; lia].
  rewrite (proj2 (is_zero_spec N c) CZ), (frac_is N d o OZ). fold s0. eexists. split; [reflexivity|]. split.
  - intros s. rewrite inter_has, slab_ok, OM, P. unfold in_interval. cbn. replace (0 + s * 0) with 0 by ring. split; intros [A B]; (split; [lra|exact B]).
  - rewrite frustum_alt. intros (_ & H & _). rewrite OM, P in H. specialize (H ltac:(ring)).
    assert (all_zero N (fun i => o i + s0 * d i)) as AZ. { intros i L. destruct (Nat.eq_dec i M) as [->|]; [rewrite OM, P; ring|apply H; lia]. }
    assert (forall x, inner N (fun i => o i + s0 * d i) x = 0) as E. { intros x. rewrite (inner_ext N _ (fun _ => 0) x x AZ (same_refl _ _)). vlin (S M). }
    pose proof (E o) as E1. rewrite inner_add_mul in E1. assert (inner N d o = s0 * inner N o o) as E2 by (unfold s0; field; lra). rewrite E2 in E1.
    pose proof (Rle_0_sqr s0). unfold Rsqr in *. assert (0 <= s0 * s0 * inner N o o) by (apply Rmult_le_pos; lra). lra.
Qed.
End F.
