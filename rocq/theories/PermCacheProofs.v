From Coq Require Import ZArith Lia List Bool Arith ZifyBool.
From Verif Require Import Mem PermModel PermSpec PermProofs PermCycleProofs PermSignProofs.
Import ListNotations.
Open Scope nat_scope.

Definition zsign (k : nat) : Z := if Nat.odd k then (-1)%Z else 1%Z.
Lemma zsign_S k : zsign (S k) = (zsign k * -1)%Z.
Proof. unfold zsign. rewrite Nat.odd_succ, <- Nat.negb_odd. destruct (Nat.odd k); reflexivity. Qed.
Lemma zsign_parity a b : Nat.odd a = Nat.odd b -> zsign a = zsign b.
Proof. intros E. unfold zsign. now rewrite E. Qed.

(** The sign cache, when set, holds the sign of the permutation. *)
Definition cache_ok (n : nat) (m : pmat) : Prop := psign m = 0%Z \/ forall k, by_swaps n k (src m) -> psign m = zsign k.
(** Operations whose swaps exchange two different lines. *)
Definition proper (o : pop) : Prop := match o with PSwapRows a b | PSwapCols a b => a <> b | _ => True end.

Lemma swap_parity n k m a b : pinv n m -> a < n -> b < n -> a <> b -> by_swaps n k (src m) -> by_swaps n (S k) (src (swap_rows m a b)).
Proof.
  intros H Ha Hb N S. apply (bs_swap n k (src m) _ a b); auto. intros i Hi. cbn [swap_rows src]. unfold swap, upd.
  destruct (Nat.eqb_spec i b) as [->|Nb].
  - destruct (Nat.eqb_spec b a); [congruence|reflexivity].
  - destruct (Nat.eqb_spec i a); reflexivity.
Qed.
Lemma cache_src n m : pinv n m -> (forall k, by_swaps n k (src m) -> psign m = zsign k) ->
  forall k, by_swaps n k (dst m) -> psign m = zsign k.
Proof.
  intros I H k S. destruct (inverse_parity n (dst m) (src m) k (inverse_sym _ _ _ I) S) as (k' & S' & E).
  rewrite (H k' S'). now apply zsign_parity.
Qed.
Lemma pinv_swaps n m : pinv n m -> exists k, by_swaps n k (src m).
Proof. intros H. apply by_swaps_exists. exact (inverse_perm _ _ _ H). Qed.

Lemma cache_step n m o : pinv n m -> cache_ok n m -> pvalid n o -> proper o -> cache_ok n (pstep n m o).
Proof.
  intros I C V Pr. destruct o; cbn [pstep pvalid proper] in *; [now left|now left| | | |].
  - destruct C as [C|C]; [left; cbn [swap_rows psign]; lia|right]. destruct V as [Ha Hb]. intros k S.
    destruct (pinv_swaps n m I) as (k0 & S0). pose proof (swap_parity n k0 m a b I Ha Hb Pr S0) as S1.
    cbn [swap_rows psign]. rewrite (C k0 S0), <- zsign_S. apply zsign_parity. exact (by_swaps_parity _ _ _ _ S1 S).
  - destruct C as [C|C]; [left; cbn [swap_cols psign]; lia|right]. destruct V as [Ha Hb]. pose proof (cache_src n m I C) as C'.
    intros k S. set (t := ptranspose m). assert (It : pinv n t) by (now apply transpose_ok).
    destruct (pinv_swaps n t It) as (k0 & S0). pose proof (swap_parity n k0 t a b It Ha Hb Pr S0) as S1.
    assert (Is : pinv n (swap_rows t a b)) by (now apply swap_rows_ok).
    destruct (inverse_parity n _ _ _ Is S1) as (k' & S' & E).
    cbn [swap_cols psign]. rewrite (C' k0 S0), <- zsign_S. apply zsign_parity. rewrite <- E. exact (by_swaps_parity _ _ _ _ S' S).
  - destruct C as [C|C]; [now left|right]. exact (cache_src n m I C).
  - right. intros k S. cbn [set_identity psign]. change 1%Z with (zsign 0). apply zsign_parity.
    refine (by_swaps_parity n 0 k _ _ S). constructor. intros i Hi. cbn [set_identity src]. now apply copy_n_lt.
Qed.
Lemma cache_fold n os : forall m, pinv n m -> cache_ok n m -> Forall (fun o => pvalid n o /\ proper o) os ->
  pinv n (fold_left (pstep n) os m) /\ cache_ok n (fold_left (pstep n) os m).
Proof.
  induction os as [|o os IH]; intros m I C V; cbn [fold_left]; [auto|]. inversion V as [|? ? [V1 V2] V3]; subst.
  apply IH; auto; [now apply pstep_ok|now apply cache_step].
Qed.
Lemma cache_identity n m : cache_ok n (set_identity n m).
Proof.
  right. intros k S. cbn [set_identity psign]. change 1%Z with (zsign 0). apply zsign_parity.
  refine (by_swaps_parity n 0 k _ _ S). constructor. intros i Hi. cbn [set_identity src]. now apply copy_n_lt.
Qed.
Lemma cache_run n m0 os : Forall (fun o => pvalid n o /\ proper o) os -> cache_ok n (prun n m0 os).
Proof. intros V. apply cache_fold; auto; [apply identity_ok|apply cache_identity]. Qed.

(** Only swaps, transpositions and resets: the cache is never cleared. *)
Definition keeps (o : pop) : Prop := match o with PSetRow _ | PSetCol _ => False | _ => True end.
Lemma cache_set n os : forall m, psign m <> 0%Z -> Forall keeps os -> psign (fold_left (pstep n) os m) <> 0%Z.
Proof.
  induction os as [|o os IH]; intros m H V; cbn [fold_left]; [auto|]. inversion V; subst. apply IH; auto.
  destruct o; cbn [pstep keeps] in *; try easy; cbn [swap_rows swap_cols psign ptranspose set_identity]; lia.
Qed.

Lemma swap_self n m a : pinv n m -> a < n ->
  (forall i, i < n -> src (swap_rows m a a) i = src m i /\ dst (swap_rows m a a) i = dst m i) /\ psign (swap_rows m a a) = (- psign m)%Z.
Proof.
  intros [A B] Ha. split; [|cbn; lia]. intros i Hi. cbn [swap_rows src dst]. unfold swap, upd. split.
  - destruct (Nat.eqb_spec i a) as [->|]; reflexivity.
  - destruct (Nat.eqb_spec i (src m a)) as [->|]; [|reflexivity]. symmetry. now apply A.
Qed.

(** permutation_sign is right exactly when the number of cycles of length at least two is even. *)
Lemma sign_right n k p : by_swaps n k p ->
  exists p', permutation_sign p n = Some (p', zsign (k + nontrivial_cycles n p)) /\ is_identity n p'.
Proof.
  intros S. pose proof (by_swaps_perm _ _ _ S) as P. destruct (sign_ok n p P) as (p' & E & Id). exists p'. split; [|exact Id].
  rewrite E. rewrite (displaced_split n p P). unfold zsign. rewrite !Nat.odd_add, (followers_by_swaps n k p S). reflexivity.
Qed.
Lemma swap_nontrivial n p a b : is_perm n p -> is_identity n p -> a < n -> b < n -> a <> b ->
  displaced n (swap p a b) = 2.
Proof.
  intros P Id Ha Hb N. unfold displaced.
  rewrite (filter_ext_length _ (fun i => (i =? a) || (i =? b))).
  - rewrite filter_or_length; [|intros x _ E; lia].
    assert (G : forall c, c < n -> length (filter (fun x => x =? c) (seq 0 n)) = 1).
    { intros c Hc. assert (Q : filter (fun x => x =? c) (seq 0 n) = [c]).
      { replace n with (c + (1 + (n - c - 1))) by lia. rewrite seq_app, filter_app. cbn [Nat.add seq filter].
        rewrite Nat.eqb_refl. 
        assert (Z : forall l, (forall x, In x l -> x <> c) -> filter (fun x => x =? c) l = []).
        { induction l as [|y l IH]; intros H; [reflexivity|]. cbn [filter]. destruct (Nat.eqb_spec y c) as [->|]; [destruct (H c); [now left|auto]|]. apply IH. intros x Hx. apply H. now right. }
        rewrite !Z; [reflexivity| |]; intros x Hx; apply in_seq in Hx; lia. }
      now rewrite Q. }
    rewrite !G by auto. reflexivity.
  - intros x Hx. apply in_seq in Hx. unfold swap, upd. pose proof (Id a Ha). pose proof (Id b Hb). pose proof (Id x ltac:(lia)).
    destruct (Nat.eqb_spec x a), (Nat.eqb_spec x b); cbn; lia.
Qed.
