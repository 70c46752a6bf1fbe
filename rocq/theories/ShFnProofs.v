From Coq Require Import Reals ZArith Arith List Lra Lia Bool.
From Verif Require Import Vec3Model Vec3Proofs PerlinSpec PerlinProofs BasisModel BasisSpec BasisProofs ZonalModel ZonalSpec ZonalProofs ShModel ShSpec ShProofs.
Import ListNotations.
Open Scope R_scope.

(** ** The Legendre column shared by _eval and _project *)
Lemma column_loop {A} (act : A -> nat -> R -> A) m x a0 : forall k, exists p0 p1,
  fold_left (fun '(pmm0, pmm1, a) l_i => let '(pmm0, pmm1, P_lm) := sh_column m x (Pv m m x) pmm0 pmm1 l_i in (pmm0, pmm1, act a l_i P_lm)) (seq m k) (1, 1, a0)
  = (p0, p1, fold_left (fun a l_i => act a l_i (Pv m l_i x)) (seq m k) a0) /\
  (k = 1%nat -> p0 = Pv m m x) /\ (forall j, k = S (S j) -> p0 = Pv m (m + j) x /\ p1 = Pv m (S (m + j)) x).
Proof.
  induction k as [|k IH].
  - exists 1, 1. split; [reflexivity|]. split; [discriminate|]. intros j; discriminate.
  - destruct IH as (p0 & p1 & E & H1 & H2). rewrite seq_S, !fold_left_app, E. cbn [fold_left]. unfold sh_column.
    destruct k as [|[|k]].
    + rewrite Nat.add_0_r, Nat.eqb_refl. exists (Pv m m x), p1. split; [reflexivity|]. split; [reflexivity|]. intros j; discriminate.
    + rewrite (proj2 (Nat.eqb_neq (m + 1) m)), Nat.eqb_refl by lia. rewrite (H1 eq_refl). exists (Pv m m x), (Pv m (S m) x).
      rewrite Pv_m1. split; [|split; [discriminate|]].
      * replace (m + 1)%nat with (S m) by lia. now rewrite Pv_m1.
      * intros j J. injection J as <-. rewrite Nat.add_0_r. split; [reflexivity|]. now rewrite Pv_m1.
    + destruct (H2 k eq_refl) as [-> ->]. rewrite (proj2 (Nat.eqb_neq (m + S (S k)) m)), (proj2 (Nat.eqb_neq (m + S (S k)) (m + 1))) by lia.
      replace (m + S (S k))%nat with (S (S (m + k))) by lia. rewrite <- Pv_next by lia.
      eexists. eexists. split; [reflexivity|]. split; [discriminate|]. intros j J. injection J as <-. replace (m + S k)%nat with (S (m + k)) by lia. split; reflexivity.
Qed.
Lemma fold_sum (g : nat -> R) m k s : fold_left (fun sum l => sum + g l) (seq m k) s = s + rsum k (fun i => g (m + i)%nat).
Proof. induction k as [|k IH]; [cbn; ring|]. rewrite seq_S, fold_left_app, IH. cbn [fold_left rsum]. ring. Qed.
Lemma fold_ext {A B} (f g : A -> B -> A) l : (forall a b, In b l -> f a b = g a b) -> forall a, fold_left f l a = fold_left g l a.
Proof. induction l as [|b l IH]; intros H a; [reflexivity|]. cbn [fold_left]. rewrite (H a b) by (left; reflexivity). apply IH. intros; apply H; now right. Qed.
(** ** _eval *)
Definition term (c : nat -> R) (x azi : R) (l m : nat) : R :=
  if (m =? 0)%nat then c (ixp l 0) * Y l 0 x azi else c (ixp l m) * Y l (Z.of_nat m) x azi + c (ixn l m) * Y l (- Z.of_nat m) x azi.
Lemma T_pos m phi : (0 < m)%nat -> T (Z.of_nat m) phi = sqrt 2 * cos (INR m * phi).
Proof. intros H. unfold T. destruct (Z.ltb_spec 0 (Z.of_nat m)); [|lia]. now rewrite INR_IZR_INZ. Qed.
Lemma T_neg m phi : (0 < m)%nat -> T (- Z.of_nat m) phi = sqrt 2 * sin (INR m * phi).
Proof.
  intros H. unfold T. destruct (Z.ltb_spec 0 (- Z.of_nat m)); [lia|]. destruct (Z.ltb_spec (- Z.of_nat m) 0); [|lia]. now rewrite opp_IZR, Ropp_involutive, INR_IZR_INZ.
Qed.
Lemma Y_pos l m x phi : (0 < m <= l)%nat -> -1 <= x <= 1 -> Y l (Z.of_nat m) x phi = sqrt 2 * K l m * cos (INR m * phi) * Pv m l x.
Proof. intros H X. rewrite Y_in by (trivial; lia). rewrite T_pos by lia. rewrite Zabs2Nat.id. ring. Qed.
Lemma Y_neg l m x phi : (0 < m <= l)%nat -> -1 <= x <= 1 -> Y l (- Z.of_nat m) x phi = sqrt 2 * K l m * sin (INR m * phi) * Pv m l x.
Proof. intros H X. rewrite Y_in by (trivial; lia). rewrite T_neg by lia. replace (Z.abs_nat (- Z.of_nat m)) with m by lia. ring. Qed.
Lemma Y_0 l x phi : -1 <= x <= 1 -> Y l 0 x phi = K l 0 * P l x.
Proof. intros X. rewrite Y_in by (trivial; cbn; lia). cbn [Z.abs_nat]. unfold T, Pv. cbn. rewrite D_0. ring. Qed.
Lemma raw_columns s x azi : -1 <= x <= 1 -> forall M, (M <= shn s)%nat ->
  fold_left (fun sum m => match sum, legendre_mm m x with
    | Some sum, Some pmm =>
      let c_ma := cos (INR m * azi) in
      let s_ma := sin (INR m * azi) in
      let '(_, _, sum) := fold_left (fun '(pmm0, pmm1, sum) l_i =>
          let '(pmm0, pmm1, P_lm) := sh_column m x pmm pmm0 pmm1 l_i in
          let k := sh_k l_i m in
          (pmm0, pmm1,
            if negb (m =? 0)%nat then
              sum + P_lm * sqrt 2 * k * c_ma * shc s (ixp l_i m) + P_lm * sqrt 2 * k * s_ma * shc s (ixn l_i m)
            else sum + P_lm * k * shc s (ixp l_i 0)))
        (seq m (shn s - m)) (1, 1, sum) in
      Some sum
    | _, _ => None
    end) (seq 0 M) (Some 0) = Some (rsum M (fun m => rsum (shn s - m) (fun i => term (shc s) x azi (m + i) m))).
Proof.
  intros X. induction M as [|M IH]; intros H; [reflexivity|]. rewrite seq_S, fold_left_app, IH by lia. cbn [fold_left Nat.add rsum].
  rewrite mm_in by trivial. cbv zeta.
  destruct (column_loop (fun sum l_i P_lm => if negb (M =? 0)%nat then
              sum + P_lm * sqrt 2 * sh_k l_i M * cos (INR M * azi) * shc s (ixp l_i M) + P_lm * sqrt 2 * sh_k l_i M * sin (INR M * azi) * shc s (ixn l_i M)
            else sum + P_lm * sh_k l_i M * shc s (ixp l_i 0)) M x (rsum M (fun m => rsum (shn s - m) (fun i => term (shc s) x azi (m + i) m))) (shn s - M)) as (p0 & p1 & E & _).
  rewrite E. f_equal. rewrite <- (fold_sum (fun l => term (shc s) x azi l M) M). apply fold_ext. intros sum l Hl. apply in_seq in Hl. rewrite sh_k_is by lia. unfold term.
  destruct (Nat.eqb_spec M 0) as [->|N]; cbn [negb].
  - rewrite Y_0 by trivial. unfold Pv. cbn [pow]. rewrite D_0. ring.
  - rewrite Y_pos, Y_neg by (trivial; lia). ring.
Qed.
Lemma rsumS n f : rsum (S n) f = rsum n f + f n. Proof. reflexivity. Qed.
Lemma triangle n (g : nat -> nat -> R) : rsum n (fun m => rsum (n - m) (fun i => g (m + i)%nat m)) = rsum n (fun l => rsum (S l) (fun m => g l m)).
Proof.
  induction n as [|n IH]; [reflexivity|]. rewrite !(rsumS n), <- IH. replace (S n - n)%nat with 1%nat by lia. cbn [rsum]. rewrite Nat.add_0_r.
  rewrite (rsum_ext n _ (fun m => rsum (n - m) (fun i => g (m + i)%nat m) + g n m)); [rewrite rsum_plus; change (rsum n (fun m => g n m)) with (rsum n (g n)); ring|].
  intros m M. replace (S n - m)%nat with (S (n - m)) by lia. rewrite rsumS. now replace (m + (n - m))%nat with n by lia.
Qed.
Lemma rsum_rev n h : rsum n h = rsum n (fun i => h (n - S i)%nat).
Proof.
  induction n as [|n IH]; [reflexivity|]. rewrite (rsum_shift n (fun i => h (S n - S i)%nat)), rsumS, Rplus_comm. f_equal; [f_equal; lia|].
  rewrite IH. reflexivity.
Qed.
Lemma rsum_fold n h : rsum (2 * n + 1) h = h n + rsum n (fun i => h (n + S i)%nat + h (n - S i)%nat).
Proof.
  replace (2 * n + 1)%nat with (n + S n)%nat by lia. rewrite rsum_split, (rsum_rev n h), rsum_shift, Nat.add_0_r, rsum_plus. ring.
Qed.
Lemma band_terms c x azi l : rsum (S l) (fun m => term c x azi l m) = rsum (2 * l + 1) (fun j => c (l * l + j)%nat * Y l (Z.of_nat j - Z.of_nat l) x azi).
Proof.
  rewrite rsum_shift, rsum_fold. unfold term at 1. cbn [Nat.eqb]. unfold ixp. rewrite Nat.add_0_r, Z.sub_diag. f_equal.
  apply rsum_ext. intros i I. unfold term. cbn [Nat.eqb]. unfold ixp, ixn. f_equal.
  - f_equal; [f_equal; lia|f_equal; lia].
  - f_equal; [f_equal; lia|f_equal; lia].
Qed.
Lemma eval_raw_is s x azi : -1 <= x <= 1 -> sh_eval_raw s x azi = Some (sh_fn (shn s) (shc s) x azi).
Proof.
  intros X. unfold sh_eval_raw. cbv zeta. rewrite raw_columns by (trivial; lia). f_equal. rewrite (triangle (shn s) (fun l m => term (shc s) x azi l m)).
  unfold sh_fn. apply rsum_ext. intros l _. apply band_terms.
Qed.
(** ** _project *)
Definition ban (i : nat) : nat := Nat.sqrt i.
Definition sgn (i : nat) : Z := (Z.of_nat i - Z.of_nat (ban i * ban i + ban i))%Z.
Definition sub (i : nat) : nat := Z.abs_nat (sgn i).
Lemma ban_spec i : (ban i * ban i <= i < S (ban i) * S (ban i))%nat. Proof. apply Nat.sqrt_spec. lia. Qed.
Lemma sub_le i : (sub i <= ban i)%nat. Proof. pose proof (ban_spec i). unfold sub, sgn. lia. Qed.
Lemma ban_of l j : (j <= 2 * l)%nat -> ban (l * l + j) = l. Proof. intros H. apply sqrt_band. lia. Qed.
Lemma ban_lt i n : (i < n * n)%nat -> (ban i < n)%nat. Proof. intros H. pose proof (ban_spec i). nia. Qed.
Lemma ixp_eq l m i : (m <= l)%nat -> i = ixp l m <-> ban i = l /\ sgn i = Z.of_nat m.
Proof.
  intros H. unfold ixp, sgn. split.
  - intros ->. replace (l * l + l + m)%nat with (l * l + (l + m))%nat by lia. rewrite ban_of by lia. split; [reflexivity|]. lia.
  - intros [E F]. rewrite E in F. lia.
Qed.
Lemma ixn_eq l m i : (m <= l)%nat -> i = ixn l m <-> ban i = l /\ sgn i = (- Z.of_nat m)%Z.
Proof.
  intros H. unfold ixn, sgn. split.
  - intros ->. replace (l * l + l - m)%nat with (l * l + (l - m))%nat by lia. rewrite ban_of by lia. split; [reflexivity|]. lia.
  - intros [E F]. rewrite E in F. lia.
Qed.
Lemma Yi_sgn i x phi : Yi i x phi = Y (ban i) (sgn i) x phi. Proof. reflexivity. Qed.
Definition proj_step (x azi val : R) (m : nat) (c : nat -> R) (l_i : nat) (P_lm : R) : nat -> R :=
  if negb (m =? 0)%nat then
    upd (upd c (ixp l_i m) (c (ixp l_i m) + P_lm * sqrt 2 * sh_k l_i m * cos (INR m * azi) * val)) (ixn l_i m)
      (upd c (ixp l_i m) (c (ixp l_i m) + P_lm * sqrt 2 * sh_k l_i m * cos (INR m * azi) * val) (ixn l_i m) + P_lm * sqrt 2 * sh_k l_i m * sin (INR m * azi) * val)
  else upd c (ixp l_i 0) (c (ixp l_i 0) + P_lm * sh_k l_i m * val).
Lemma proj_step_is x azi val m c l i : (m <= l)%nat -> -1 <= x <= 1 ->
  proj_step x azi val m c l (Pv m l x) i = if (ban i =? l)%nat && (sub i =? m)%nat then c i + val * Yi i x azi else c i.
Proof.
  intros H X. unfold proj_step. rewrite sh_k_is by trivial. rewrite Yi_sgn.
  pose proof (ixp_eq l m i H) as Ep. pose proof (ixn_eq l m i H) as En.
  destruct (Nat.eqb_spec m 0) as [->|N]; cbn [negb].
  - destruct (Nat.eqb_spec (ban i) l) as [B|B], (Nat.eqb_spec (sub i) 0) as [S0|S0]; cbn [andb].
    + assert (Q : sgn i = 0%Z) by (unfold sub in S0; lia). assert (I : i = ixp l 0) by (apply Ep; split; [exact B|exact Q]). rewrite <- I, upd_eq, B, Q, Y_0 by trivial.
      unfold Pv. cbn [pow]. rewrite D_0. ring.
    + apply upd_neq. intros I. apply Ep in I as [_ I]. apply S0. unfold sub. rewrite I. reflexivity.
    + apply upd_neq. intros I. apply Ep in I as [I _]. contradiction.
    + apply upd_neq. intros I. apply Ep in I as [I _]. contradiction.
  - assert (D : ixp l m <> ixn l m) by (unfold ixp, ixn; lia).
    destruct (Nat.eqb_spec (ban i) l) as [B|B]; cbn [andb].
    + destruct (Nat.eqb_spec (sub i) m) as [S0|S0].
      * destruct (Z.le_ge_cases 0 (sgn i)) as [G|G].
        -- assert (Q : sgn i = Z.of_nat m) by (unfold sub in S0; lia). assert (I : i = ixp l m) by (apply Ep; now split).
           rewrite upd_neq by (rewrite I; exact D). rewrite I at 1. rewrite upd_eq, <- I, B, Q, Y_pos by (trivial; lia). ring.
        -- assert (Q : sgn i = (- Z.of_nat m)%Z) by (unfold sub in S0; lia). assert (I : i = ixn l m) by (apply En; now split).
           rewrite I at 1. rewrite upd_eq. rewrite upd_neq by (intros Q2; now apply D). rewrite <- I, B, Q, Y_neg by (trivial; lia). ring.
      * rewrite !upd_neq; [reflexivity| |]; intros I; [apply Ep in I|apply En in I]; destruct I as [_ I]; apply S0; unfold sub; rewrite I; lia.
    + rewrite !upd_neq; [reflexivity| |]; intros I; [apply Ep in I|apply En in I]; destruct I as [I _]; contradiction.
Qed.
Lemma proj_col x azi val m c i : -1 <= x <= 1 -> forall k,
  fold_left (fun c l => proj_step x azi val m c l (Pv m l x)) (seq m k) c i = if (ban i <? m + k)%nat && (sub i =? m)%nat then c i + val * Yi i x azi else c i.
Proof.
  intros X. induction k as [|k IH].
  - cbn [seq fold_left]. destruct (Nat.ltb_spec (ban i) (m + 0)), (Nat.eqb_spec (sub i) m); try reflexivity. pose proof (sub_le i). lia.
  - rewrite seq_S, fold_left_app. cbn [fold_left]. rewrite proj_step_is by (trivial; lia). rewrite IH.
    destruct (Nat.eqb_spec (sub i) m); [|now rewrite !andb_false_r]. rewrite !andb_true_r.
    destruct (Nat.eqb_spec (ban i) (m + k)), (Nat.ltb_spec (ban i) (m + k)), (Nat.ltb_spec (ban i) (m + S k)); try lia; reflexivity.
Qed.
Lemma project_columns n x azi val c0 : -1 <= x <= 1 -> forall M, (M <= n)%nat -> exists c,
  fold_left (fun c m => match c, legendre_mm m x with
    | Some c, Some pmm =>
      let c_ma := cos (INR m * azi) in
      let s_ma := sin (INR m * azi) in
      let '(_, _, c) := fold_left (fun '(pmm0, pmm1, c) l_i =>
          let '(pmm0, pmm1, P_lm) := sh_column m x pmm pmm0 pmm1 l_i in
          let k := sh_k l_i m in
          (pmm0, pmm1,
            if negb (m =? 0)%nat then
              let c := upd c (ixp l_i m) (c (ixp l_i m) + P_lm * sqrt 2 * k * c_ma * val) in
              upd c (ixn l_i m) (c (ixn l_i m) + P_lm * sqrt 2 * k * s_ma * val)
            else upd c (ixp l_i 0) (c (ixp l_i 0) + P_lm * k * val)))
        (seq m (n - m)) (1, 1, c) in
      Some c
    | _, _ => None
    end) (seq 0 M) (Some c0) = Some c /\ forall i, c i = if (ban i <? n)%nat && (sub i <? M)%nat then c0 i + val * Yi i x azi else c0 i.
Proof.
  intros X. induction M as [|M IH]; intros H.
  - exists c0. split; [reflexivity|]. intros i. now rewrite andb_false_r.
  - destruct IH as (c & E & C); [lia|]. rewrite seq_S, fold_left_app, E. cbn [fold_left Nat.add]. rewrite mm_in by trivial. cbv zeta.
    destruct (column_loop (proj_step x azi val M) M x c (n - M)) as (p0 & p1 & E2 & _). unfold proj_step in E2 at 1. rewrite E2.
    eexists. split; [reflexivity|]. intros i. rewrite proj_col by trivial. rewrite C. replace (M + (n - M))%nat with n by lia.
    destruct (Nat.ltb_spec (ban i) n); cbn [andb]; [|reflexivity].
    destruct (Nat.eqb_spec (sub i) M), (Nat.ltb_spec (sub i) M), (Nat.ltb_spec (sub i) (S M)); try lia; reflexivity.
Qed.
Lemma project_raw_is s x azi val : -1 <= x <= 1 -> exists c, sh_project_raw x azi val s = Some (mkSh (shn s) c) /\
  forall i, (i < shn s * shn s)%nat -> c i = shc s i + val * Yi i x azi.
Proof.
  intros X. destruct (project_columns (shn s) x azi val (shc s) X (shn s) (le_n _)) as (c & E & C). exists c. split.
  - unfold sh_project_raw. cbv zeta in E |- *. now rewrite E.
  - intros i I. rewrite C. pose proof (ban_lt i (shn s) I). pose proof (sub_le i).
    now rewrite (proj2 (Nat.ltb_lt (ban i) (shn s))), (proj2 (Nat.ltb_lt (sub i) (shn s))) by lia.
Qed.
(** ** dot *)
Lemma sh_dot_is a b : sh_dot a b = rsum (Nat.min (shn a * shn a) (shn b * shn b)) (fun i => shc a i * shc b i).
Proof. unfold sh_dot. rewrite (fold_sum (fun i => shc a i * shc b i)). rewrite Rplus_0_l. reflexivity. Qed.
Lemma sh_fn_ext n c d x phi : (forall i, (i < n * n)%nat -> c i = d i) -> sh_fn n c x phi = sh_fn n d x phi.
Proof. intros H. rewrite !sh_fn_flat. apply rsum_ext. intros i I. now rewrite H. Qed.
Lemma sh_fn_delta n k x phi : (k < n * n)%nat -> sh_fn n (fun i => if (i =? k)%nat then 1 else 0) x phi = Yi k x phi.
Proof.
  intros H. rewrite sh_fn_flat. rewrite (rsum_ext _ _ (fun i => if (i =? k)%nat then Yi i x phi else 0)); [apply (rsum_one (n * n) k (fun i => Yi i x phi) H)|].
  intros i _. destruct (i =? k)%nat; ring.
Qed.
Lemma coeff_integral n c k : (k < n * n)%nat -> sphere_integral (fun x phi => sh_fn n c x phi * Yi k x phi) (c k).
Proof.
  intros H. pose proof (sh_parseval n c n (fun i => if (i =? k)%nat then 1 else 0)) as I. rewrite Nat.min_id in I.
  rewrite (rsum_ext _ _ (fun i => if (i =? k)%nat then c i else 0)) in I by (intros i _; destruct (i =? k)%nat; ring).
  rewrite (rsum_one (n * n) k c H) in I. eapply sphere_ext; [|exact I]. intros x phi _. cbv beta. now rewrite sh_fn_delta by trivial.
Qed.
Lemma K_00 : K 0 0 = / sqrt (4 * PI).
Proof. unfold K. cbn. replace ((2 * 0 + 1) / (4 * PI) * (1 / 1)) with (/ (4 * PI)) by (field; pose proof PI_RGT_0; lra). rewrite sqrt_inv. reflexivity. Qed.

(** ** Updates of whole bands *)
Lemma band_row (h : R -> R) l c i : forall k, (k <= 2 * l + 1)%nat ->
  fold_left (fun c j => upd c (l * l + j)%nat (h (c (l * l + j)%nat))) (seq 0 k) c i = if (ban i =? l)%nat && (i <? l * l + k)%nat then h (c i) else c i.
Proof.
  induction k as [|k IH]; intros H.
  - cbn [seq fold_left]. destruct (Nat.eqb_spec (ban i) l) as [E|E]; [|reflexivity]. destruct (Nat.ltb_spec i (l * l + 0)); [|reflexivity]. pose proof (ban_spec i). rewrite E in *. lia.
  - rewrite seq_S, fold_left_app. cbn [fold_left Nat.add]. destruct (Nat.eq_dec i (l * l + k)) as [->|N].
    + rewrite upd_eq. rewrite ban_of, Nat.eqb_refl by lia. rewrite (proj2 (Nat.ltb_lt (l * l + k) (l * l + S k))) by lia. cbn [andb]. f_equal.
      clear -H. assert (G : forall q, (q <= k)%nat -> fold_left (fun c j => upd c (l * l + j)%nat (h (c (l * l + j)%nat))) (seq 0 q) c (l * l + k)%nat = c (l * l + k)%nat).
      { induction q as [|q IH]; intros Q; [reflexivity|]. rewrite seq_S, fold_left_app. cbn [fold_left Nat.add]. rewrite upd_neq by lia. apply IH. lia. }
      now apply G.
    + rewrite upd_neq by trivial. rewrite IH by lia. destruct (ban i =? l)%nat; [cbn [andb]|reflexivity].
      destruct (Nat.ltb_spec i (l * l + k)), (Nat.ltb_spec i (l * l + S k)); try lia; reflexivity.
Qed.
Lemma band_all (h : nat -> R -> R) c i : forall n,
  fold_left (fun c l => fold_left (fun c j => upd c (l * l + j)%nat (h l (c (l * l + j)%nat))) (seq 0 (2 * l + 1)) c) (seq 0 n) c i = if (ban i <? n)%nat then h (ban i) (c i) else c i.
Proof.
  induction n as [|n IH]; [reflexivity|]. rewrite seq_S, fold_left_app. cbn [fold_left Nat.add]. rewrite band_row by lia. rewrite IH.
  destruct (Nat.eqb_spec (ban i) n) as [E|E].
  - pose proof (ban_spec i). rewrite E in *. rewrite (proj2 (Nat.ltb_lt i (n * n + (2 * n + 1)))) by lia. rewrite Nat.ltb_irrefl. rewrite (proj2 (Nat.ltb_lt n (S n))) by lia. reflexivity.
  - cbn [andb]. destruct (Nat.ltb_spec (ban i) n), (Nat.ltb_spec (ban i) (S n)); try lia; reflexivity.
Qed.
Lemma fold_some {A B} (f : A -> B -> option A) (g : A -> B -> A) l : (forall a b, In b l -> f a b = Some (g a b)) ->
  forall a, fold_left (fun o b => match o with Some a => f a b | None => None end) l (Some a) = Some (fold_left g l a).
Proof. induction l as [|b l IH]; intros H a; [reflexivity|]. cbn [fold_left]. rewrite (H a b) by (left; reflexivity). apply IH. intros; apply H; now right. Qed.
Lemma convolve_is z s : exists c, sh_convolve z s = Some (mkSh (shn s) c) /\
  forall i, (i < shn s * shn s)%nat -> c i = if (ban i <? zn z)%nat then shc s i * zc z (ban i) else 0.
Proof.
  set (h := fun l v => if (l <? zn z)%nat then v * zc z l else 0).
  exists (fold_left (fun c l => fold_left (fun c j => upd c (l * l + j)%nat (h l (c (l * l + j)%nat))) (seq 0 (2 * l + 1)) c) (seq 0 (shn s)) (shc s)).
  split.
  - unfold sh_convolve.
    assert (G : forall L c, fold_left (fun c l => fold_left (fun c j => match c with
      | Some c => if (l <? zn z)%nat then match zget z l with Some k => Some (upd c (l * l + j)%nat (c (l * l + j)%nat * k)) | None => None end
                  else Some (upd c (l * l + j)%nat 0)
      | None => None end) (seq 0 (2 * l + 1)) c) L (Some c) = Some (fold_left (fun c l => fold_left (fun c j => upd c (l * l + j)%nat (h l (c (l * l + j)%nat))) (seq 0 (2 * l + 1)) c) L c)).
    { induction L as [|l L IH]; intros c; [reflexivity|]. cbn [fold_left].
      rewrite (fold_some (fun c j => if (l <? zn z)%nat then match zget z l with Some k => Some (upd c (l * l + j)%nat (c (l * l + j)%nat * k)) | None => None end else Some (upd c (l * l + j)%nat 0))
        (fun c j => upd c (l * l + j)%nat (h l (c (l * l + j)%nat)))); [apply IH|].
      intros a b _. unfold h, zget. destruct (l <? zn z)%nat; reflexivity. }
    now rewrite G.
  - intros i I. rewrite (band_all h). rewrite (proj2 (Nat.ltb_lt (ban i) (shn s))) by now apply ban_lt. reflexivity.
Qed.
Lemma K_factor l : K l 0 * band_factor l = 1.
Proof.
  unfold K, band_factor. rewrite Nat.add_0_r, Nat.sub_0_r. pose proof PI_RGT_0. pose proof (pos_INR l). pose proof (fact_pos l).
  rewrite <- sqrt_mult_alt.
  - replace (_ * _) with 1; [apply sqrt_1|]. field. repeat split; lra.
  - apply Rlt_le. apply Rmult_lt_0_compat; apply Rdiv_lt_0_compat; lra.
Qed.
Lemma of_zonal_loop z n : (n <= zn z)%nat -> exists c, fold_left (fun c l => match c, zget z l with Some c, Some p => Some (upd c (ixp l 0) (p * band_factor l)) | _, _ => None end)
    (seq 0 n) (Some (fun _ => 0)) = Some c /\ forall i, c i = if (ban i <? n)%nat && (sub i =? 0)%nat then zc z (ban i) * band_factor (ban i) else 0.
Proof.
  induction n as [|n IH]; intros H.
  - exists (fun _ => 0). split; reflexivity.
  - destruct IH as (c & E & C); [lia|]. rewrite seq_S, fold_left_app, E. cbn [fold_left Nat.add]. rewrite zget_in by lia. eexists. split; [reflexivity|].
    intros i. destruct (Nat.eq_dec i (ixp n 0)) as [->|N].
    + rewrite upd_eq. destruct (proj1 (ixp_eq n 0 (ixp n 0) ltac:(lia)) eq_refl) as [B S0]. unfold sub. rewrite B, S0. rewrite (proj2 (Nat.ltb_lt n (S n))) by lia. reflexivity.
    + rewrite upd_neq by trivial. rewrite C. destruct (Nat.eqb_spec (sub i) 0) as [S0|]; [|now rewrite !andb_false_r]. rewrite !andb_true_r.
      destruct (Nat.ltb_spec (ban i) n), (Nat.ltb_spec (ban i) (S n)); try lia; try reflexivity. exfalso. apply N. apply ixp_eq; [lia|]. split; [lia|]. unfold sub in S0. lia.
Qed.
Lemma of_zonal_is st z : (sh_bands st z <= zn z)%nat -> exists c, sh_of_zonal st z = Some (mkSh (sh_bands st z) c) /\
  forall x phi, -1 <= x <= 1 -> sh_fn (sh_bands st z) c x phi = zonal_fn (sh_bands st z) (zc z) x.
Proof.
  intros H. destruct (of_zonal_loop z (sh_bands st z) H) as (c & E & C). exists c. split; [unfold sh_of_zonal; cbv zeta; now rewrite E|].
  intros x phi X. unfold sh_fn, zonal_fn. apply rsum_ext. intros l L.
  rewrite (rsum_ext _ _ (fun j => if (j =? l)%nat then zc z l * legendre l x else 0)); [apply (rsum_one (2 * l + 1) l (fun _ => zc z l * legendre l x)); lia|].
  intros j J. rewrite C. rewrite ban_of by lia. rewrite (proj2 (Nat.ltb_lt l _) L). cbn [andb].
  unfold sub, sgn. rewrite ban_of by lia. destruct (Nat.eqb_spec j l) as [->|N].
  - replace (Z.of_nat (l * l + l) - Z.of_nat (l * l + l))%Z with 0%Z by lia. cbn [Z.abs_nat Nat.eqb]. rewrite Z.sub_diag, Y_0 by trivial. rewrite legendre_P.
    replace (zc z l * band_factor l * (K l 0 * P l x)) with (zc z l * P l x * (K l 0 * band_factor l)) by ring. rewrite K_factor. ring.
  - destruct (Nat.eqb_spec (Z.abs_nat (Z.of_nat (l * l + j) - Z.of_nat (l * l + l))) 0); [lia|ring].
Qed.
Lemma of_zonal_none z l : fold_left (fun c l => match c, zget z l with Some c, Some p => Some (upd c (ixp l 0) (p * band_factor l)) | _, _ => None end) l (@None (nat -> R)) = None.
Proof. induction l; [reflexivity|exact IHl]. Qed.
Lemma of_zonal_short st z : (zn z < sh_bands st z)%nat -> sh_of_zonal st z = None.
Proof.
  intros H. unfold sh_of_zonal. cbv zeta. replace (sh_bands st z) with (zn z + S (sh_bands st z - zn z - 1))%nat at 1 by lia. rewrite seq_app, fold_left_app.
  destruct (of_zonal_loop z (zn z) (le_n _)) as (c & E & _). rewrite E. cbn [seq fold_left Nat.add]. rewrite zget_out by lia. now rewrite of_zonal_none.
Qed.
(** ** Directions *)
Lemma cos_sin_mult a b : cos a = cos b -> sin a = sin b -> forall n, cos (INR n * a) = cos (INR n * b) /\ sin (INR n * a) = sin (INR n * b).
Proof.
  intros C S. induction n as [|n [IC IS]]; [cbn; now rewrite !Rmult_0_l|]. rewrite S_INR, !Rmult_plus_distr_r, !Rmult_1_l, !cos_plus, !sin_plus. rewrite IC, IS, C, S. split; reflexivity.
Qed.
Lemma Y_phi l m x a b : (Z.abs_nat m <= l)%nat -> -1 <= x <= 1 -> sqrt (1 - x * x) * cos a = sqrt (1 - x * x) * cos b -> sqrt (1 - x * x) * sin a = sqrt (1 - x * x) * sin b -> Y l m x a = Y l m x b.
Proof.
  intros H X C S. rewrite !Y_in by trivial. destruct (Req_dec (sqrt (1 - x * x)) 0) as [Z|Z].
  - destruct (Z.eq_dec m 0) as [->|N]; [reflexivity|]. unfold Pv. rewrite Z. rewrite pow_ne_zero by lia. ring.
  - apply Rmult_eq_reg_l in C; [|trivial]. apply Rmult_eq_reg_l in S; [|trivial]. f_equal. f_equal. unfold T.
    destruct (cos_sin_mult a b C S (Z.abs_nat m)) as [A B]. rewrite abs_INR in A, B. destruct (Z.ltb_spec 0 m).
    + rewrite Z.abs_eq in A by lia. now rewrite A.
    + destruct (Z.ltb_spec m 0); [|reflexivity]. rewrite Z.abs_neq in B by lia. rewrite opp_IZR in B. now rewrite B.
Qed.
Lemma sh_fn_phi n c x a b : -1 <= x <= 1 -> sqrt (1 - x * x) * cos a = sqrt (1 - x * x) * cos b -> sqrt (1 - x * x) * sin a = sqrt (1 - x * x) * sin b -> sh_fn n c x a = sh_fn n c x b.
Proof. intros X C S. unfold sh_fn. apply rsum_ext. intros l _. apply rsum_ext. intros j J. f_equal. apply Y_phi; trivial. lia. Qed.
