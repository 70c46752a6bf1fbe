(** Lemmas for the real-number helpers. *)
From Coq Require Import Reals ZArith Lra Lia Arith.
From Verif Require Import PerlinSpec PerlinProofs PerlinDiffProofs RealUtilModel RealUtilSpec.
Open Scope R_scope.

Lemma dop_is a b c d : diff_of_products a b c d = a * b - c * d.
Proof. unfold diff_of_products. ring. Qed.
Lemma mix_is t a b : mix t a b = (1 - t) * a + t * b.
Proof. unfold mix, sum_of_products. ring. Qed.
Lemma floor_spec x : floor x <= x < floor x + 1.
Proof. unfold floor. pose proof (base_Int_part x). lra. Qed.
Lemma ceil_spec x : ceil x - 1 < x <= ceil x.
Proof. unfold ceil. pose proof (floor_spec (- x)). lra. Qed.
Lemma floor_int x : exists k, floor x = IZR k.
Proof. now exists (Int_part x). Qed.
Lemma ceil_int x : exists k, ceil x = IZR k.
Proof. unfold ceil. destruct (floor_int (- x)) as [k ->]. exists (- k)%Z. now rewrite opp_IZR. Qed.

(** ** Linear interpolation *)
Lemma multilinear_S m s p : multilinear (S m) s p = (1 - s m) * multilinear m s p + s m * multilinear m s (fun i => p (2 ^ m + i)%nat).
Proof.
  unfold multilinear. rewrite rsum_pow, <- !rsum_scal. f_equal; apply rsum_ext; intros c L; unfold corner_weight; cbn [rprod].
  - rewrite bit_low by exact L. ring.
  - rewrite bit_top by exact L. rewrite (rprod_ext m (fun i => if Nat.testbit (2 ^ m + c) i then _ else _) (fun i => if Nat.testbit c i then s i else 1 - s i)); [ring|].
    intros i Li. now rewrite bit_rest.
Qed.
Lemma multilinear_0 s p : multilinear 0 s p = p 0%nat.
Proof. unfold multilinear, corner_weight. cbn. ring. Qed.
Lemma interp_linear_SS d s p : interp_linear (S (S d)) s p = mix (s (S d)) (interp_linear (S d) s p) (interp_linear (S d) s (fun i => p (2 ^ S d + i)%nat)).
Proof. reflexivity. Qed.
Lemma interp_linear_is d s p : interp_linear (S d) s p = multilinear (S d) s p.
Proof.
  revert p. induction d as [|d IH]; intros p.
  - rewrite multilinear_S, !multilinear_0. cbn. now rewrite mix_is.
  - rewrite interp_linear_SS, !IH, mix_is. now rewrite (multilinear_S (S d)).
Qed.
Lemma multilinear_corner m s p c : (c < 2 ^ m)%nat -> (forall i, (i < m)%nat -> s i = if Nat.testbit c i then 1 else 0) -> multilinear m s p = p c.
Proof.
  revert p c. induction m as [|m IH]; intros p c L H.
  - rewrite multilinear_0. cbn in L. now replace c with 0%nat by lia.
  - rewrite multilinear_S, (H m) by lia. rewrite Nat.pow_succ_r' in L. destruct (le_lt_dec (2 ^ m) c) as [G|G].
    + replace c with (2 ^ m + (c - 2 ^ m))%nat in * by lia. set (c' := (c - 2 ^ m)%nat) in *.
      rewrite bit_top by lia. rewrite (IH (fun i => p (2 ^ m + i)%nat) c'); [ring|lia|].
      intros i Li. rewrite H by lia. now rewrite bit_rest.
    + rewrite bit_low by exact G. rewrite (IH p c); [ring|exact G|]. intros i Li. apply H. lia.
Qed.
Lemma multilinear_bounds m s p lo hi : (forall i, (i < m)%nat -> 0 <= s i <= 1) -> (forall c, (c < 2 ^ m)%nat -> lo <= p c <= hi) -> lo <= multilinear m s p <= hi.
Proof.
  revert p. induction m as [|m IH]; intros p H B.
  - rewrite multilinear_0. apply B. cbn. lia.
  - rewrite multilinear_S. pose proof (H m ltac:(lia)) as Hm.
    pose proof (IH p (fun i L => H i ltac:(lia)) (fun c L => B c ltac:(rewrite Nat.pow_succ_r'; lia))) as X.
    pose proof (IH (fun i => p (2 ^ m + i)%nat) (fun i L => H i ltac:(lia)) (fun c L => B (2 ^ m + c)%nat ltac:(rewrite Nat.pow_succ_r'; lia))) as Y.
    nra.
Qed.

(** ** Cubic interpolation *)
Lemma cubic1_is s p0 p1 p2 p3 : interp_cubic1 s p0 p1 p2 p3 =
  catmull_rom 0 s * p0 + catmull_rom 1 s * p1 + catmull_rom 2 s * p2 + catmull_rom 3 s * p3.
Proof. unfold interp_cubic1, catmull_rom. field. Qed.
Lemma digit_top m k c : (c < 4 ^ m)%nat -> (k < 4)%nat -> digit (k * 4 ^ m + c) m = k.
Proof.
  intros L K. unfold digit. rewrite Nat.add_comm, Nat.div_add by (apply Nat.pow_nonzero; lia). rewrite Nat.div_small by exact L. now apply Nat.mod_small.
Qed.
Lemma digit_rest m k c i : (i < m)%nat -> digit (k * 4 ^ m + c) i = digit c i.
Proof.
  intros L. unfold digit. replace (k * 4 ^ m)%nat with (k * 4 ^ (m - i - 1) * 4 * 4 ^ i)%nat.
  - rewrite Nat.add_comm, Nat.div_add by (apply Nat.pow_nonzero; lia). now rewrite Nat.mod_add by lia.
  - replace m with (S (m - i - 1) + i)%nat at 2 by lia. rewrite Nat.pow_add_r, Nat.pow_succ_r'. ring.
Qed.
Lemma rsum_pow4 m f : rsum (4 ^ S m) f = rsum (4 ^ m) f + rsum (4 ^ m) (fun c => f (1 * 4 ^ m + c)%nat) +
  rsum (4 ^ m) (fun c => f (2 * 4 ^ m + c)%nat) + rsum (4 ^ m) (fun c => f (3 * 4 ^ m + c)%nat).
Proof.
  rewrite Nat.pow_succ_r'. replace (4 * 4 ^ m)%nat with (4 ^ m + 4 ^ m + 4 ^ m + 4 ^ m)%nat by lia. rewrite !rsum_split.
  f_equal; [f_equal; [f_equal|]|]; apply rsum_ext; intros c L; f_equal; lia.
Qed.
Lemma block_weight m k c s : (c < 4 ^ m)%nat -> (k < 4)%nat ->
  rprod (S m) (fun i => catmull_rom (digit (k * 4 ^ m + c) i) (s i)) = catmull_rom k (s m) * rprod m (fun i => catmull_rom (digit c i) (s i)).
Proof.
  intros L K. cbn [rprod]. rewrite digit_top by assumption. rewrite Rmult_comm. f_equal. apply rprod_ext. intros i Li. now rewrite digit_rest.
Qed.
Lemma multicubic_S m s p : multicubic (S m) s p =
  catmull_rom 0 (s m) * multicubic m s p + catmull_rom 1 (s m) * multicubic m s (fun i => p (1 * 4 ^ m + i)%nat) +
  catmull_rom 2 (s m) * multicubic m s (fun i => p (2 * 4 ^ m + i)%nat) + catmull_rom 3 (s m) * multicubic m s (fun i => p (3 * 4 ^ m + i)%nat).
Proof.
  unfold multicubic. rewrite rsum_pow4, <- !rsum_scal. f_equal; [f_equal; [f_equal|]|]; apply rsum_ext; intros c L; cbv beta;
    try (rewrite block_weight by (assumption || lia); ring).
  pose proof (block_weight m 0 c s L ltac:(lia)) as W. cbn [Nat.mul Nat.add] in W. rewrite W. ring.
Qed.
Lemma multicubic_0 s p : multicubic 0 s p = p 0%nat.
Proof. unfold multicubic. cbn. ring. Qed.
Lemma interp_cubic_SS d s p : interp_cubic (S (S d)) s p =
  interp_cubic1 (s (S d)) (interp_cubic (S d) s p) (interp_cubic (S d) s (fun i => p (2 ^ (2 * S d) + i)%nat))
    (interp_cubic (S d) s (fun i => p (2 * 2 ^ (2 * S d) + i)%nat)) (interp_cubic (S d) s (fun i => p (3 * 2 ^ (2 * S d) + i)%nat)).
Proof. reflexivity. Qed.
Lemma pow24 m : (2 ^ (2 * m) = 4 ^ m)%nat.
Proof. now rewrite Nat.pow_mul_r. Qed.
Lemma interp_cubic_is d s p : interp_cubic (S d) s p = multicubic (S d) s p.
Proof.
  revert p. induction d as [|d IH]; intros p.
  - rewrite multicubic_S, !multicubic_0. cbn [interp_cubic]. rewrite cubic1_is. reflexivity.
  - rewrite interp_cubic_SS, !IH, cubic1_is, pow24. rewrite (multicubic_S (S d)), Nat.mul_1_l. reflexivity.
Qed.
Lemma inner_node_ext m c c' : (forall i, (i < m)%nat -> Nat.testbit c i = Nat.testbit c' i) -> inner_node m c = inner_node m c'.
Proof. induction m as [|m IH]; intros H; [reflexivity|]. cbn [inner_node]. rewrite IH, (H m); trivial; [lia|]. intros. apply H. lia. Qed.
Lemma multicubic_corner m s p c : (forall i, (i < m)%nat -> s i = if Nat.testbit c i then 1 else 0) -> multicubic m s p = p (inner_node m c).
Proof.
  revert p. induction m as [|m IH]; intros p H; [apply multicubic_0|].
  rewrite multicubic_S, !IH by (intros i Li; apply H; lia). rewrite (H m) by lia. cbn [inner_node].
  destruct (Nat.testbit c m); unfold catmull_rom.
  - rewrite (Nat.add_comm (inner_node m c)). field.
  - rewrite (Nat.add_comm (inner_node m c)). field.
Qed.
Lemma cubic1_derivative s p0 p1 p2 p3 :
  derivable_pt_lim (fun s => interp_cubic1 s p0 p1 p2 p3) s
    ((p2 - p0) / 2 + (2 * p0 - 5 * p1 + 4 * p2 - p3) * s + 3 / 2 * (3 * (p1 - p2) + p3 - p0) * s ^ 2).
Proof.
  set (k1 := (p2 - p0) / 2). set (k2 := (2 * p0 - 5 * p1 + 4 * p2 - p3)). set (k3 := (3 * (p1 - p2) + p3 - p0)).
  assert (derivable_pt_lim (fun s => p1 + (k1 * s ^ 1 + (k2 / 2 * s ^ 2 + k3 / 2 * s ^ 3))) s
    (0 + (k1 * (INR 1 * s ^ pred 1) + (k2 / 2 * (INR 2 * s ^ pred 2) + k3 / 2 * (INR 3 * s ^ pred 3))))) as D.
  { apply (derivable_pt_lim_plus (fun _ => p1) (fun s => k1 * s ^ 1 + (k2 / 2 * s ^ 2 + k3 / 2 * s ^ 3))); [apply derivable_pt_lim_const|].
    apply (derivable_pt_lim_plus (fun s => k1 * s ^ 1) (fun s => k2 / 2 * s ^ 2 + k3 / 2 * s ^ 3)); [apply derivable_pt_lim_scal, derivable_pt_lim_pow|].
    apply (derivable_pt_lim_plus (fun s => k2 / 2 * s ^ 2) (fun s => k3 / 2 * s ^ 3)); apply derivable_pt_lim_scal, derivable_pt_lim_pow. }
  replace (k1 + k2 * s + 3 / 2 * k3 * s ^ 2) with (0 + (k1 * (INR 1 * s ^ pred 1) + (k2 / 2 * (INR 2 * s ^ pred 2) + k3 / 2 * (INR 3 * s ^ pred 3)))) by (cbn; field).
  intros eps E. destruct (D eps E) as [del Hd]. exists del. intros h h0 hd. specialize (Hd h h0 hd).
  replace (interp_cubic1 (s + h) p0 p1 p2 p3) with (p1 + (k1 * (s + h) ^ 1 + (k2 / 2 * (s + h) ^ 2 + k3 / 2 * (s + h) ^ 3))) by (unfold interp_cubic1, k1, k2, k3; field).
  replace (interp_cubic1 s p0 p1 p2 p3) with (p1 + (k1 * s ^ 1 + (k2 / 2 * s ^ 2 + k3 / 2 * s ^ 3))) by (unfold interp_cubic1, k1, k2, k3; field).
  exact Hd.
Qed.

(** ** Quadratic equations *)
Lemma copysign_sq n x y : copysign n x y * copysign n x y = x * x.
Proof. unfold copysign. destruct (Rlt_dec y 0); [ring|]. destruct (Req_EM_T y 0); [|ring]. destruct n; ring. Qed.
Lemma copysign_zero n x y : 0 <= x -> y + copysign n x y = 0 -> y = 0 /\ x = 0.
Proof. intros H. unfold copysign. destruct (Rlt_dec y 0); [lra|]. destruct (Req_EM_T y 0); [|lra]. destruct n; lra. Qed.
Lemma quad_roots a b c q : a <> 0 -> a * c = - q * (b + q) -> forall x, a * x ^ 2 + b * x + c = a * (x - q / a) * (x - (- b - q) / a).
Proof. intros A H x. apply (Rmult_eq_reg_l a); [|exact A]. transitivity ((a * x - q) * (a * x - (- b - q))); [|field; exact A].
  replace (a * (a * x ^ 2 + b * x + c)) with (a * a * x ^ 2 + a * b * x + a * c) by ring. rewrite H. ring.
Qed.
Lemma quadratic_spec n a b c : (quadratic_solve n a b c = None /\ ((forall x, a * x ^ 2 + b * x + c <> 0) \/ (a = 0 /\ b = 0 /\ c = 0))) \/
  exists r0 r1, quadratic_solve n a b c = Some (Some r0, Some r1) /\ (a <> 0 \/ b <> 0) /\
    (forall x, a * x ^ 2 + b * x + c = 0 <-> x = r0 \/ x = r1) /\ (a <> 0 -> forall x, a * x ^ 2 + b * x + c = a * (x - r0) * (x - r1)).
Proof.
  unfold quadratic_solve. rewrite dop_is. set (D := b * b - 4 * a * c). destruct (Rlt_dec D 0) as [N|N].
  - left. split; [reflexivity|]. left. intros x H. pose proof (Rle_0_sqr (2 * a * x + b)) as S. unfold Rsqr in S.
    replace ((2 * a * x + b) * (2 * a * x + b)) with (D + 4 * a * (a * x ^ 2 + b * x + c)) in S by (unfold D; ring). rewrite H in S. lra.
  - assert (0 <= D) as P by lra. clear N. set (w := copysign n (sqrt D) b).
    assert (w * w = D) as W by (unfold w; rewrite copysign_sq; now apply sqrt_sqrt).
    set (q := - (1 / 2) * (b + w)). assert (q = 0 -> b = 0 /\ D = 0) as QZ.
    { intros Q. assert (b + w = 0) as Q' by (unfold q in Q; lra). apply copysign_zero in Q' as [-> Q']; [|apply sqrt_pos].
      split; [reflexivity|]. now apply sqrt_eq_0. }
    assert (q * (b + q) = - (a * c)) as QE by (unfold q; replace (_ * _) with ((w * w - b * b) / 4) by field; rewrite W; unfold D; field).
    destruct (Req_EM_T a 0) as [A|A]; [destruct (Req_EM_T b 0) as [B|B]|].
    + left. split; [reflexivity|]. destruct (Req_EM_T c 0) as [C|C]; [right; tauto|left]. intros x. rewrite A, B. lra.
    + right. assert (q <> 0) as Q by (intros Q; apply QZ in Q; tauto). unfold div_opt. destruct (Req_EM_T q 0) as [|_]; [tauto|].
      exists (c / q), (c / q). split; [reflexivity|]. split; [tauto|]. split; [|tauto].
      assert (q = - b) as -> by (rewrite A in QE; apply (Rmult_eq_reg_l q); [lra|exact Q]).
      intros x. rewrite A. assert (- b <> 0) as B' by lra. split.
      * intros H. left. apply (Rmult_eq_reg_l (- b)); [|exact B']. replace (- b * (c / - b)) with c by (now field). lra.
      * intros [-> | ->]; field; exact B.
    + right. unfold div_opt. destruct (Req_EM_T a 0) as [|_]; [tauto|].
      assert (a * c = - q * (b + q)) as QE' by lra. destruct (Req_EM_T q 0) as [Q|Q].
      * destruct (QZ Q) as [B D0]. assert (c = 0) as C by (unfold D in D0; rewrite B in D0; apply (Rmult_eq_reg_l a); [lra|exact A]).
        exists (q / a), (q / a). split; [reflexivity|]. split; [tauto|]. rewrite Q, B, C. replace (0 / a) with 0 by now field. split.
        -- intros x. split; [|intros [-> | ->]; ring]. intros H. left.
           destruct (Req_dec x 0) as [Z|Z]; [exact Z|]. exfalso. apply (Rmult_integral_contrapositive a (x * x)); [split; [exact A|]|lra].
           now apply Rmult_integral_contrapositive.
        -- intros _ x. ring.
      * assert (c / q = (- b - q) / a) as R1 by (apply (Rmult_eq_reg_l (a * q)); [|now apply Rmult_integral_contrapositive]; field_simplify; [lra|exact A|exact Q]).
        exists (q / a), (c / q). split; [reflexivity|]. split; [tauto|]. rewrite R1.
        pose proof (quad_roots a b c q A QE') as F. split.
        -- intros x. rewrite F. split.
           ++ intros H. apply Rmult_integral in H as [H|H]; [|right; lra]. apply Rmult_integral in H as [H|H]; [tauto|left; lra].
           ++ intros [-> | ->]; ring.
        -- intros _. exact F.
Qed.

(** ** Remainders and angles *)
Lemma positive_mod_spec a b : (positive_mod a b = None <-> b = 0) /\
  forall r, positive_mod a b = Some r -> (exists k, a = r + b * IZR k) /\ (0 < b -> 0 <= r < b) /\ (b < 0 -> b < r <= 0).
Proof.
  unfold positive_mod, div_opt. destruct (Req_EM_T b 0) as [Z|Z]; [split; [tauto|discriminate]|]. split; [split; [discriminate|tauto]|].
  intros r [= <-]. pose proof (floor_spec (a / b)) as [L U]. destruct (floor_int (a / b)) as [k K]. rewrite K in *.
  split; [exists k; ring|]. assert (a = a / b * b) as E by (now field). split; intros S; nra.
Qed.
Lemma angle_spec r0 r1 : exists e, angle_to r0 r1 = Some e /\ - PI <= e <= PI /\ exists k, r1 = r0 + e + 2 * PI * IZR k.
Proof.
  pose proof PI_RGT_0 as P. assert (2 * PI <> 0) as Z by lra. unfold angle_to.
  destruct (positive_mod_spec r0 (2 * PI)) as [N0 S0]. destruct (positive_mod_spec r1 (2 * PI)) as [N1 S1].
  destruct (positive_mod r0 (2 * PI)) as [a0|]; [|tauto]. destruct (positive_mod r1 (2 * PI)) as [a1|]; [|tauto].
  destruct (S0 a0 eq_refl) as ([k0 K0] & B0 & _). destruct (S1 a1 eq_refl) as ([k1 K1] & B1 & _). specialize (B0 ltac:(lra)). specialize (B1 ltac:(lra)).
  eexists. split; [reflexivity|]. split.
  - destruct (Rlt_dec (Rabs (a1 - a0)) _) as [X|X]; destruct (Rlt_dec _ _) as [Y|Y]; revert X Y; unfold Rabs; repeat destruct (Rcase_abs _); lra.
  - assert (r1 = r0 + (a1 - a0) + 2 * PI * IZR (k1 - k0)) as E by (rewrite minus_IZR; lra).
    destruct (Rlt_dec (Rabs (a1 - a0)) _) as [_|_]; destruct (Rlt_dec _ _) as [_|_].
    + eexists. exact E.
    + exists (k1 - k0 - 1)%Z. rewrite (minus_IZR (k1 - k0)). lra.
    + exists (k1 - k0 + 1)%Z. rewrite (plus_IZR (k1 - k0)). lra.
    + exists (k1 - k0 - 1)%Z. rewrite (minus_IZR (k1 - k0)). lra.
Qed.
Lemma angle_least e m : - PI <= e <= PI -> Rabs e <= Rabs (e + 2 * PI * IZR m).
Proof.
  intros B. pose proof PI_RGT_0 as P. destruct (Z.eq_dec m 0) as [->|Z]; [right; f_equal; ring|].
  assert (1 <= IZR m \/ IZR m <= -1) as [M|M] by (assert (1 <= m \/ m <= -1)%Z as [M|M] by lia; [left|right]; now apply IZR_le).
  - unfold Rabs. repeat destruct (Rcase_abs _); nra.
  - unfold Rabs. repeat destruct (Rcase_abs _); nra.
Qed.
Lemma snap_spec a b : (snap a b = None <-> b = 0) /\
  forall r, snap a b = Some r -> (exists k, r = b * IZR k) /\ (0 < b -> r - b < a <= r) /\ (b < 0 -> r <= a < r - b).
Proof.
  unfold snap, ceil_div, div_opt. destruct (Req_EM_T b 0) as [Z|Z]; [split; [tauto|discriminate]|]. split; [split; [discriminate|tauto]|].
  intros r [= <-]. pose proof (ceil_spec (a / b)) as [L U]. destruct (ceil_int (a / b)) as [k K]. rewrite K in *.
  split; [exists k; ring|]. assert (a = a / b * b) as E by (now field). split; intros S; nra.
Qed.
