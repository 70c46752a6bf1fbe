(** C59 Legendre polynomials, C60 Chebyshev polynomials. *)
From Coq Require Import Reals Arith Lra Lia List.
From Verif Require Import BasisModel BasisSpec BasisProofs.
Import ListNotations.
Open Scope R_scope.

(** ** C59 *)
(** legendre(n, x) is the n-th derivative of (x^2 - 1)^n / (2^n n!). *)
Theorem legendre_rodrigues n : nth_deriv n (rodrigues n) (legendre n).
Proof. pose proof (nth_deriv_app n 0 _ _ (legendre n) (Rr_nth n n)) as H. rewrite Nat.add_0_r in H. apply H. intros x. rewrite legendre_P. apply Rr_is_P. Qed.
Print Assumptions legendre_rodrigues.
(** Value one at 1, and even or odd with n. *)
Theorem legendre_values n x : legendre n 1 = 1 /\ legendre n (- x) = (-1) ^ n * legendre n x.
Proof. rewrite !legendre_P. split; [apply P_at_1|apply P_parity]. Qed.
Print Assumptions legendre_values.
(** Orthogonal on [-1, 1], with squared norm 2 / (2 n + 1). *)
Theorem legendre_orthogonal m n : m <> n -> integral (fun x => legendre m x * legendre n x) (-1) 1 0.
Proof. intros H. eapply integral_ext; [|exact (orthogonal_integral m n H)]. intros x. now rewrite !legendre_P. Qed.
Print Assumptions legendre_orthogonal.
Theorem legendre_norm n : integral (fun x => legendre n x * legendre n x) (-1) 1 (2 / (2 * INR n + 1)).
Proof. eapply integral_ext; [|exact (P_norm n)]. intros x. now rewrite !legendre_P. Qed.
Print Assumptions legendre_norm.
(** legendre_integral(n, x) is the integral of legendre(n, .) from -1 to x. *)
Theorem legendre_integral_spec n x : integral (legendre n) (-1) x (legendre_integral n x).
Proof.
  exists (legendre_integral n). destruct n as [|n].
  - split; [|cbn; ring]. eapply deriv_ext; [exact (deriv_plus _ _ _ _ deriv_id (deriv_const 1))| |]; intros; cbn; ring.
  - split; [eapply deriv_ext; [exact (P_integral n)| |]; intros y; [now rewrite integral_P|now rewrite legendre_P]|].
    rewrite (integral_P n (-1)).
    replace (-1) with (- (1)) by ring. rewrite !P_parity, !P_at_1. cbn [pow]. unfold Rdiv. ring.
Qed.
Print Assumptions legendre_integral_spec.
(** legendre(l, m, x) with m <= l is (-1)^m (1 - x^2)^(m/2) times the m-th derivative of the Legendre polynomial of order l
    (written as the (l + m)-th derivative of (x^2 - 1)^l / (2^l l!)). *)
Theorem assoc_legendre_spec l m : (m <= l)%nat -> exists d, nth_deriv (l + m) (rodrigues l) d /\
  forall x, -1 <= x <= 1 -> assoc_legendre l m x = Some ((-1) ^ m * sqrt (1 - x ^ 2) ^ m * d x).
Proof.
  intros L. exists (D m l). split; [apply Rr_nth|]. intros x X. destruct (assoc_defined l m x X) as [w W]. rewrite W. f_equal.
  destruct (assoc_is l m x w L W) as (v & V & ->). unfold pow_half in V. destruct (Rlt_dec _ _) as [N|N]; [nra|]. injection V as <-.
  replace (1 - x ^ 2) with (1 - x * x) by ring. reflexivity.
Qed.
Print Assumptions assoc_legendre_spec.
(** With m = 0 it is the ordinary polynomial. *)
Theorem assoc_legendre_zero l x : assoc_legendre l 0 x = Some (legendre l x).
Proof.
  destruct (assoc_legendre l 0 x) as [w|] eqn:E.
  - f_equal. destruct (assoc_is l 0 x w ltac:(lia) E) as (v & V & ->). rewrite D_0, legendre_P. cbn.
    unfold pow_half in V. destruct (Rlt_dec _ _); injection V as <-; cbn; ring.
  - unfold assoc_legendre in E. cbn [legendre_mm] in E. destruct (l =? 0)%nat; [discriminate|]. destruct (l =? 0 + 1)%nat; discriminate.
Qed.
Print Assumptions assoc_legendre_zero.
(** For m > l, where the derivative is zero, the function is not: it returns the value for l = m + 1. *)
Theorem assoc_legendre_high_refuted l m x : (l < m)%nat -> 0 < x < 1 ->
  nth_deriv (l + m) (rodrigues l) (fun _ => 0) /\ assoc_legendre l m x = assoc_legendre (m + 1) m x /\
  exists w, assoc_legendre l m x = Some w /\ w <> 0.
Proof.
  intros L X. split.
  { pose proof (nth_deriv_app (l + m) 0 _ _ (fun _ => 0) (Rr_nth l (l + m))) as H. rewrite Nat.add_0_r in H. apply H. intros y. now apply Rr_high; lia. }
  assert (assoc_legendre l m x = assoc_legendre (m + 1) m x) as E.
  { unfold assoc_legendre. destruct (legendre_mm m x); [|reflexivity]. rewrite (proj2 (Nat.eqb_neq l m)), (proj2 (Nat.eqb_neq l (m + 1))), (proj2 (Nat.eqb_neq (m + 1) m)), Nat.eqb_refl by lia.
    replace (l + 1 - (m + 2))%nat with 0%nat by lia. reflexivity. }
  split; [exact E|]. rewrite E. destruct (assoc_defined (m + 1) m x ltac:(lra)) as [w W]. exists w. split; [exact W|].
  destruct (assoc_is (m + 1) m x w ltac:(lia) W) as (v & V & ->). rewrite Nat.add_1_r, D_m1.
  unfold pow_half in V. destruct (Rlt_dec _ _); [nra|]. injection V as <-.
  replace ((-1) ^ m * sqrt (1 - x * x) ^ m * (x * (2 * INR m + 1) * D m m x)) with (sqrt (1 - x * x) ^ m * (x * (2 * INR m + 1)) * ((-1) ^ m * D m m x)) by ring.
  rewrite D_mm. pose proof (pos_INR m). repeat apply Rmult_integral_contrapositive_currified; try lra.
  - apply pow_nonzero. apply Rgt_not_eq, sqrt_lt_R0. nra.
  - clear. induction m as [|m IH]; [unfold double_factorial; cbn; lra|]. rewrite double_factorial_S. apply Rmult_integral_contrapositive_currified; [exact IH|].
    pose proof (pos_INR m). lra.
Qed.
Print Assumptions assoc_legendre_high_refuted.
Example legendre_2 x : legendre 2 x = (3 * x ^ 2 - 1) / 2.
Proof. cbn. unfold bonnet. cbn. field. Qed.

(** ** C60 *)
(** The polynomials of the first kind: T_n(cos t) = cos (n t), and beyond [-1, 1] through x = (z + 1/z) / 2. *)
Theorem chebyshev_first_kind n : (forall t, chebyshev 1 n (cos t) = cos (INR n * t)) /\
  forall z, z <> 0 -> chebyshev 1 n ((z + / z) / 2) = (z ^ n + / z ^ n) / 2.
Proof. split; [intros; apply cheb1_cos|intros; now apply cheb1_hyp]. Qed.
Print Assumptions chebyshev_first_kind.
(** Second kind: U_n(cos t) sin t = sin ((n + 1) t). *)
Theorem chebyshev_second_kind n : (forall t, chebyshev 2 n (cos t) * sin t = sin ((INR n + 1) * t)) /\
  forall z, z <> 0 -> (z - / z) * chebyshev 2 n ((z + / z) / 2) = z ^ S n - / z ^ S n.
Proof. split; [intros; rewrite Rmult_comm, cheb2_sin, S_INR; reflexivity|intros; now apply cheb2_hyp]. Qed.
Print Assumptions chebyshev_second_kind.
Example chebyshev_3 x : chebyshev 1 3 x = 4 * x ^ 3 - 3 * x /\ chebyshev 2 2 x = 4 * x ^ 2 - 1.
Proof. cbn. split; ring. Qed.
