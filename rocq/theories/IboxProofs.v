From Coq Require Import ZArith List Bool Lia ZifyBool FinFun.
From Verif Require Import IboxModel IboxSpec.
Import ListNotations.
Open Scope Z_scope.

Lemma chk_spec w z r : chk w z = Some r <-> r = z /\ fits w z.
Proof. unfold chk, fits, i_min, i_max. destruct (_ && _) eqn:E; split; intros H; try discriminate; [injection H as <-; lia|destruct H as (-> & _); reflexivity|lia]. Qed.
Lemma chk_ok w z : fits w z -> chk w z = Some z. Proof. intros H. now apply chk_spec. Qed.
Lemma chk_none w z : chk w z = None <-> ~ fits w z.
Proof. unfold chk, fits, i_min, i_max. destruct (_ && _) eqn:E; split; intros H; try discriminate; try reflexivity; [exfalso; apply H; lia|lia]. Qed.
Lemma each_spec {A B} (f : A -> option B) l r : each f l = Some r <-> Forall2 (fun a b => f a = Some b) l r.
Proof.
  revert r. induction l as [|a l IH]; intros r; cbn [each].
  - split; intros H; [injection H as <-; constructor|inversion H; reflexivity].
  - split.
    + destruct (f a) as [b|] eqn:E; [|discriminate]. destruct (each f l) as [s|]; [|discriminate]. intros H. injection H as <-. constructor; [exact E|]. now apply IH.
    + intros H. inversion H as [|? b ? s Hb Hs]; subst. rewrite Hb. apply IH in Hs. rewrite Hs. reflexivity.
Qed.
Lemma each_none {A B} (f : A -> option B) l : each f l = None <-> Exists (fun a => f a = None) l.
Proof.
  induction l as [|a l IH]; cbn [each]; [split; [discriminate|intros H; inversion H]|]. destruct (f a) as [b|] eqn:E.
  - destruct (each f l) as [s|]; split; intros H; try discriminate; try reflexivity.
    + inversion H as [? ? Q|? ? Q]; subst; [congruence|]. apply IH in Q. discriminate.
    + right. now apply IH.
  - split; [intros _; now left|reflexivity].
Qed.
Lemma forall2_iff {A B} (P Q : A -> B -> Prop) l r : (forall a b, P a b <-> Q a b) -> (Forall2 P l r <-> Forall2 Q l r).
Proof. intros H. split; intros F; induction F; constructor; auto; now apply H. Qed.
Ltac crush := repeat match goal with
  | H : (do _ <- chk ?w ?z; _) = Some _ |- _ => let E := fresh "E" in destruct (chk w z) eqn:E; [apply chk_spec in E; destruct E as (-> & E)|discriminate]
  | H : chk _ _ = Some _ |- _ => apply chk_spec in H; destruct H as (? & H)
  | H : Some _ = Some _ |- _ => injection H as H
  end.
Ltac ok := repeat match goal with |- context [chk ?w ?z] => rewrite (chk_ok w z) by assumption end.
Lemma dims_spec w b d : i_dims w b = Some d <-> Forall2 (fun '(l, h) x => x = h - l + 1 /\ fits w (h - l) /\ fits w (h - l + 1)) b d.
Proof. unfold i_dims. rewrite each_spec. apply forall2_iff. intros (l, h) x. split; [intros H; crush; subst; auto|intros (-> & A & B); ok; reflexivity]. Qed.
Lemma center_spec w b c : i_center w b = Some c <-> Forall2 (fun '(l, h) x => x = Z.quot (h + l + 1) 2 /\ fits w (h + l) /\ fits w (h + l + 1)) b c.
Proof. unfold i_center. rewrite each_spec. apply forall2_iff. intros (l, h) x. split; [intros H; crush; subst; auto|intros (-> & A & B); ok; reflexivity]. Qed.
Lemma from_center_spec w v b : i_from_center w v = Some b <-> Forall2 (fun '(c, d) lh => lh = i_span (c - Z.quot d 2) (c + Z.quot (d - 1) 2) /\ fits w (c - Z.quot d 2) /\ fits w (d - 1) /\ fits w (c + Z.quot (d - 1) 2)) v b.
Proof. unfold i_from_center. rewrite each_spec. apply forall2_iff. intros (c, d) x. split; [intros H; crush; subst; auto|intros (-> & A & B & C); ok; reflexivity]. Qed.
Lemma from_corner_spec w v b : i_from_corner w v = Some b <-> Forall2 (fun '(c, d) lh => lh = i_span c (c + d - 1) /\ fits w (c + d) /\ fits w (c + d - 1)) v b.
Proof. unfold i_from_corner. rewrite each_spec. apply forall2_iff. intros (c, d) x. split; [intros H; crush; subst; auto|intros (-> & A & B); ok; reflexivity]. Qed.
Lemma add_spec w v b : i_add w v = Some b <-> Forall2 (fun '(l, h, t) lh => lh = (l + t, h + t) /\ fits w (l + t) /\ fits w (h + t)) v b.
Proof. unfold i_add. rewrite each_spec. apply forall2_iff. intros ((l, h), t) x. split; [intros H; crush; subst; auto|intros (-> & A & B); ok; reflexivity]. Qed.
Lemma sub_spec w v b : i_sub w v = Some b <-> Forall2 (fun '(l, h, t) lh => lh = (l - t, h - t) /\ fits w (l - t) /\ fits w (h - t)) v b.
Proof. unfold i_sub. rewrite each_spec. apply forall2_iff. intros ((l, h), t) x. split; [intros H; crush; subst; auto|intros (-> & A & B); ok; reflexivity]. Qed.
Lemma dilated_spec w v b : i_dilated w v = Some b <-> Forall2 (fun '(l, h, t) lh => lh = (l - t, h + t) /\ fits w (l - t) /\ fits w (h + t)) v b.
Proof. unfold i_dilated. rewrite each_spec. apply forall2_iff. intros ((l, h), t) x. split; [intros H; crush; subst; auto|intros (-> & A & B); ok; reflexivity]. Qed.
Lemma mul_spec w v b : i_mul w v = Some b <-> Forall2 (fun '(l, h, t) lh => lh = i_span (l * t) (h * t) /\ fits w (l * t) /\ fits w (h * t)) v b.
Proof. unfold i_mul. rewrite each_spec. apply forall2_iff. intros ((l, h), t) x. split; [intros H; crush; subst; auto|intros (-> & A & B); ok; reflexivity]. Qed.
Lemma set_dims_spec w v b : i_set_dims w v = Some b <-> Forall2 (fun '(l, h, d) lh => let g := Z.quot (Z.abs d - (h - l + 1)) 2 in lh = (l - g, h + g) /\ fits w (Z.abs d) /\ fits w (h - l) /\ fits w (h - l + 1) /\ fits w (Z.abs d - (h - l + 1)) /\ fits w (l - g) /\ fits w (h + g)) v b.
Proof. unfold i_set_dims. rewrite each_spec. apply forall2_iff. intros ((l, h), d) x. cbv zeta. split; [intros H; crush; subst; auto 10|intros (-> & A & B & C & D & E & F); ok; reflexivity]. Qed.
(** *** Sets of cells *)
Lemma moved_cells w b t b' p : length t = length b -> length p = length b -> i_add w (beside b t) = Some b' -> (in_cells b' (with_each Z.add p t) <-> in_cells b p).
Proof.
  rewrite add_spec. unfold beside. revert t b' p. induction b as [|(l, h) b IH]; intros [|y t] b' [|x p] Lt Lp H; try discriminate; cbn [combine] in H; inversion H as [|? ? ? ? S R]; subst; cbn [with_each].
  - split; intros; constructor.
  - injection Lt as Lt. injection Lp as Lp. destruct S as (-> & _ & _). specialize (IH t _ p Lt Lp R). split; intros Q; inversion Q as [|? ? ? ? Q1 Q2]; subst; constructor; try (now apply IH); lia.
Qed.
Lemma moved_back w b t b' p : length t = length b -> length p = length b -> i_sub w (beside b t) = Some b' -> (in_cells b' (with_each Z.sub p t) <-> in_cells b p).
Proof.
  rewrite sub_spec. unfold beside. revert t b' p. induction b as [|(l, h) b IH]; intros [|y t] b' [|x p] Lt Lp H; try discriminate; cbn [combine] in H; inversion H as [|? ? ? ? S R]; subst; cbn [with_each].
  - split; intros; constructor.
  - injection Lt as Lt. injection Lp as Lp. destruct S as (-> & _ & _). specialize (IH t _ p Lt Lp R). split; intros Q; inversion Q as [|? ? ? ? Q1 Q2]; subst; constructor; try (now apply IH); lia.
Qed.
Lemma scaled_cells w b a b' p : length a = length b -> length p = length b -> i_mul w (beside b a) = Some b' -> in_cells b p -> in_cells b' (with_each Z.mul p a).
Proof.
  rewrite mul_spec. unfold beside. revert a b' p. induction b as [|(l, h) b IH]; intros [|y t] b' [|x p] Lt Lp H; try discriminate; cbn [combine] in H; inversion H as [|? ? ? ? S R]; subst; cbn [with_each].
  - intros; constructor.
  - injection Lt as Lt. injection Lp as Lp. destruct S as (-> & _ & _). intros Q; inversion Q as [|? ? ? ? Q1 Q2]; subst; constructor; [|now apply (IH t _ p Lt Lp R)]. unfold i_span. split; destruct (Z.le_gt_cases 0 y); nia.
Qed.
Lemma dilated_cells w b a b' p : length a = length b -> i_dilated w (beside b a) = Some b' -> Forall (fun y => 0 <= y) a -> in_cells b p -> in_cells b' p.
Proof.
  rewrite dilated_spec. unfold beside. revert a b' p. induction b as [|(l, h) b IH]; intros [|y t] b' p Lt H P Q; try discriminate; cbn [combine] in H; inversion H as [|? ? ? ? S R]; subst.
  - exact Q.
  - injection Lt as Lt. destruct S as (-> & _ & _). inversion Q as [|? x ? p' Q1 Q2]; subst. inversion P; subst. constructor; [lia|]. now apply (IH t).
Qed.
(** *** Volume *)
Fixpoint range (l : Z) (n : nat) : list Z := match n with O => [] | S k => l :: range (l + 1) k end.
Lemma range_in l n x : In x (range l n) <-> l <= x < l + Z.of_nat n.
Proof. revert l. induction n as [|n IH]; intros l; cbn [range In]; [lia|]. rewrite IH. lia. Qed.
Lemma range_nodup l n : NoDup (range l n).
Proof. revert l. induction n as [|n IH]; intros l; cbn [range]; constructor; [|apply IH]. rewrite range_in. lia. Qed.
Lemma range_length l n : length (range l n) = n. Proof. revert l. induction n; intros; cbn; auto. Qed.
Fixpoint cells_of (b : list (Z * Z)) : list (list Z) := match b with
  | [] => [[]]
  | (l, h) :: r => flat_map (fun x => map (cons x) (cells_of r)) (range l (Z.to_nat (h - l + 1)))
  end.
Lemma cells_in b p : In p (cells_of b) <-> in_cells b p.
Proof.
  revert p. induction b as [|(l, h) b IH]; intros p; cbn [cells_of].
  - cbn. split; [intros [<-|[]]; constructor|intros H; inversion H; auto].
  - rewrite in_flat_map. split.
    + intros (x & X & H). apply in_map_iff in H. destruct H as (q & <- & Q). apply range_in in X. constructor; [lia|now apply IH].
    + intros H. inversion H as [|? x ? q Q1 Q2]; subst. exists x. split; [apply range_in; lia|]. apply in_map. now apply IH.
Qed.
Lemma nodup_app {A} (a b : list A) : NoDup a -> NoDup b -> (forall x, In x a -> ~ In x b) -> NoDup (a ++ b).
Proof.
  intros Ha Hb D. induction Ha as [|x a Nx Ha IH]; cbn [app]; [exact Hb|]. constructor; [|apply IH; intros y Y; apply D; now right]. rewrite in_app_iff. intros [H|H]; [contradiction|]. apply (D x); [now left|exact H].
Qed.
Lemma flat_nodup (xs : list Z) (ps : list (list Z)) : NoDup xs -> NoDup ps -> NoDup (flat_map (fun x => map (cons x) ps) xs).
Proof.
  intros X P. induction X as [|x xs Nx X IH]; cbn [flat_map]; [constructor|]. apply nodup_app; [|exact IH|].
  - apply Injective_map_NoDup; [|exact P]. intros a b E. now injection E.
  - intros q Q R. apply in_map_iff in Q. destruct Q as (q' & <- & _). apply in_flat_map in R. destruct R as (y & Y & R). apply in_map_iff in R. destruct R as (q'' & E & _). injection E as -> _. contradiction.
Qed.
Lemma cells_nodup b : NoDup (cells_of b).
Proof. induction b as [|(l, h) b IH]; cbn [cells_of]; [constructor; [intros []|constructor]|]. apply flat_nodup; [apply range_nodup|exact IH]. Qed.
Lemma flat_length (xs : list Z) (ps : list (list Z)) : length (flat_map (fun x => map (cons x) ps) xs) = (length xs * length ps)%nat.
Proof. induction xs as [|x xs IH]; cbn [flat_map length]; [reflexivity|]. rewrite app_length, map_length, IH. reflexivity. Qed.
Definition total_cells (b : list (Z * Z)) : Z := fold_right (fun lh n => Z.max (snd lh - fst lh + 1) 0 * n) 1 b.
Lemma cells_length b : Z.of_nat (length (cells_of b)) = total_cells b.
Proof. induction b as [|(l, h) b IH]; [reflexivity|]. cbn [cells_of total_cells fold_right fst snd]. rewrite flat_length, range_length, Nat2Z.inj_mul, IH. fold (total_cells b). f_equal. lia. Qed.
Lemma count_total b n : cell_count b n <-> n = total_cells b.
Proof.
  split.
  - intros (cs & ND & I & <-). rewrite <- cells_length. f_equal. apply Nat.le_antisymm; apply NoDup_incl_length; auto using cells_nodup; intros p P; [apply cells_in, I, P|apply I, cells_in, P].
  - intros ->. exists (cells_of b). split; [apply cells_nodup|]. split; [apply cells_in|apply cells_length].
Qed.
Lemma fold_none w ds : fold_left (fun vol d => do v <- vol; chk w (v * Z.max d 0)) ds None = None. Proof. induction ds; auto. Qed.
Lemma fold_volume w (b : list (Z * Z)) ds a v : Forall2 (fun '(l, h) x => x = h - l + 1 /\ fits w (h - l) /\ fits w (h - l + 1)) b ds -> fold_left (fun vol d => do v <- vol; chk w (v * Z.max d 0)) ds (Some a) = Some v -> v = a * total_cells b.
Proof.
  intros F. revert a. induction F as [|(l, h) x b ds (E & _) F IH]; intros a; cbn [fold_left].
  - intros H. injection H as <-. cbn. lia.
  - destruct (chk w (a * Z.max x 0)) as [a'|] eqn:C; [|rewrite fold_none; discriminate]. apply chk_spec in C. destruct C as (-> & _). intros H. apply IH in H. rewrite H. cbn [total_cells fold_right fst snd]. subst x. unfold total_cells. ring.
Qed.
Lemma volume_count w b v : i_volume w b = Some v -> cell_count b v.
Proof.
  unfold i_volume. destruct (i_dims w b) as [ds|] eqn:D; [|discriminate]. apply dims_spec in D. intros H. apply count_total; rewrite <- (Z.mul_1_l (total_cells b)); exact (fold_volume w b ds 1 v D H).
Qed.
(** With at least one cell, the volume is defined when it and the dimensions fit. *)
Lemma total_pos b : Forall (fun '(l, h) => l <= h) b -> 1 <= total_cells b.
Proof. induction 1 as [|(l, h) b L F IH]; cbn [total_cells fold_right fst snd]; [lia|]. fold (total_cells b). nia. Qed.
Lemma fold_defined w (b : list (Z * Z)) ds a : Forall2 (fun '(l, h) x => x = h - l + 1 /\ fits w (h - l) /\ fits w (h - l + 1)) b ds -> Forall (fun '(l, h) => l <= h) b -> 1 <= a -> fits w (a * total_cells b) -> fold_left (fun vol d => do v <- vol; chk w (v * Z.max d 0)) ds (Some a) = Some (a * total_cells b).
Proof.
  intros F. revert a. induction F as [|(l, h) x b ds (E & _) F IH]; intros a P A1 T; cbn [fold_left].
  - cbn. f_equal. lia.
  - inversion P as [|? ? L P']; subst. pose proof (total_pos b P') as TB. cbn [total_cells fold_right fst snd] in T |- *. fold (total_cells b) in T |- *. set (k := Z.max (h - l + 1) 0) in *. assert (K : 1 <= k) by lia.
    assert (F1 : fits w (a * k)) by (unfold fits in *; nia). rewrite (chk_ok w _ F1). rewrite IH; auto; [f_equal; ring|nia|now rewrite <- Z.mul_assoc].
Qed.
Lemma volume_defined w b : 1 < w -> Forall (fun '(l, h) => l <= h) b -> (forall l h, In (l, h) b -> fits w (h - l + 1)) -> forall n, cell_count b n -> fits w n -> i_volume w b = Some n.
Proof.
  intros W P D n C T. apply count_total in C. subst n. assert (DS : i_dims w b = Some (map (fun '(l, h) => h - l + 1) b)).
  { apply dims_spec. clear T. induction b as [|(l, h) b IH]; cbn [map]; constructor; [|apply IH; [now inversion P|intros l' h' I; apply D; now right]]. specialize (D l h (or_introl eq_refl)). inversion P; subst. repeat split; auto; unfold fits in *; lia. }
  unfold i_volume. rewrite DS. apply dims_spec in DS. rewrite (fold_defined w b _ 1 DS P); [f_equal; ring|lia|now rewrite Z.mul_1_l].
Qed.
(** *** Where the arithmetic is undefined *)
Lemma pow_pos w : 1 < w -> 2 <= 2 ^ (w - 1). Proof. intros W. change 2 with (2 ^ 1) at 1. apply Z.pow_le_mono_r; lia. Qed.
Lemma pow_double w : 1 < w -> 2 ^ w = 2 * 2 ^ (w - 1). Proof. intros W. replace w with (1 + (w - 1)) at 1 by ring. rewrite Z.pow_add_r by lia. reflexivity. Qed.
Lemma dims_none w b : i_dims w b = None <-> Exists (fun '(l, h) => ~ (fits w (h - l) /\ fits w (h - l + 1))) b.
Proof.
  unfold i_dims. rewrite each_none. assert (E : forall a : Z * Z, (let '(l, h) := a in do d <- chk w (h - l); chk w (d + 1)) = None <-> let '(l, h) := a in ~ (fits w (h - l) /\ fits w (h - l + 1))).
  { intros (l, h). destruct (chk w (h - l)) as [d|] eqn:E1; [apply chk_spec in E1; destruct E1 as (-> & F)|apply chk_none in E1]. - rewrite chk_none. tauto. - tauto. }
  split; intros H; induction H; try (left; now apply E); right; assumption.
Qed.
Lemma default_dims w n : 1 < w -> (0 < n)%nat -> i_dims w (repeat (i_default w) n) = None /\ i_volume w (repeat (i_default w) n) = None.
Proof.
  intros W N. assert (D : i_dims w (repeat (i_default w) n) = None). { apply dims_none. destruct n; [lia|]. left. unfold i_default, i_max, i_min, fits. pose proof (pow_pos w W). lia. }
  split; [exact D|]. unfold i_volume. now rewrite D.
Qed.
Lemma default_is_empty w n p : 1 < w -> (0 < n)%nat -> ~ in_cells (repeat (i_default w) n) p.
Proof. intros W N H. destruct n; [lia|]. inversion H as [|? x ? q Q _]; subst. unfold i_default, i_max, i_min in Q. pose proof (pow_pos w W). lia. Qed.
Lemma center_none w l h b : 1 < w -> fits w l -> fits w h -> l <= h -> 2 ^ (w - 1) <= h + l + 1 -> i_center w ((l, h) :: b) = None /\ l <= (h + l + 1) / 2 <= h.
Proof.
  intros W Fl Fh L O. split; [|Z.div_mod_to_equations; lia]. unfold i_center. cbn [each]. destruct (chk w (h + l)) as [s|] eqn:E; [apply chk_spec in E; destruct E as (-> & F)|reflexivity]. destruct (chk w (h + l + 1)) as [t|] eqn:E; [apply chk_spec in E; destruct E as (_ & E); unfold fits in E; lia|reflexivity].
Qed.
Lemma from_center_dims w v b : i_from_center w v = Some b -> Forall (fun '(c, d) => 0 < d /\ fits w d) v -> i_dims w b = Some (map snd v) /\ in_cells b (map fst v).
Proof.
  rewrite from_center_spec, dims_spec. intros F. induction F as [|(c, d) lh v b (-> & A & B & C) F IH]; intros P; cbn [map]; [split; constructor|]. inversion P as [|? ? D01 P']; subst. destruct D01 as (D0 & D1). destruct (IH P') as (I1 & I2). cbn [fst snd].
  assert (Q : c + Z.quot (d - 1) 2 - (c - Z.quot d 2) + 1 = d) by (Z.quot_rem_to_equations; lia). assert (Q1 : 0 <= Z.quot d 2) by (Z.quot_rem_to_equations; lia). assert (Q2 : 0 <= Z.quot (d - 1) 2) by (Z.quot_rem_to_equations; lia).
  split; constructor; auto; unfold i_span; rewrite Z.min_l, Z.max_r by lia; [|lia]. unfold fits in *. lia.
Qed.
(** *** Unsigned types *)
Lemma u_center_ok w l h : 0 <= l <= h -> h + l + 1 < 2 ^ w -> u_center w l h = (l + h + 1) / 2 /\ l <= u_center w l h <= h.
Proof.
  intros L B. assert (E : u_center w l h = (l + h + 1) / 2). { unfold u_center, wrap. rewrite (Z.mod_small (h + l)), Z.mod_small by lia. f_equal. lia. } rewrite E. split; [reflexivity|]. Z.div_mod_to_equations; lia.
Qed.
Lemma u_center_bad w l h : 0 < w -> 0 < l <= h -> h < 2 ^ w -> 2 ^ w <= h + l + 1 -> u_center w l h < l.
Proof.
  intros W L H B. unfold u_center, wrap. assert (P : 0 < 2 ^ w) by lia. rewrite Z.add_mod_idemp_l by lia. assert (E : (h + l + 1) mod 2 ^ w = h + l + 1 - 2 ^ w). { symmetry. apply Z.mod_unique with 1; lia. } rewrite E. Z.div_mod_to_equations. lia.
Qed.
Lemma u_dims_ok w l h : 0 < w -> 0 <= l < 2 ^ w -> 0 <= h < 2 ^ w -> u_dims w l h = (h - l + 1) mod 2 ^ w /\ (l <= h -> h - l + 1 < 2 ^ w -> u_dims w l h = h - l + 1) /\ (h + 1 < l -> u_dims w l h = 2 ^ w - (l - h - 1)).
Proof.
  intros W L H. unfold u_dims, wrap. rewrite Z.add_mod_idemp_l by lia. split; [reflexivity|]. split; [intros A B; apply Z.mod_small; lia|]. intros A. symmetry. apply Z.mod_unique with (-1); lia.
Qed.
Lemma u_from_center_ok w c d : 0 < w -> 0 < d < 2 ^ w -> d / 2 <= c -> c + (d - 1) / 2 < 2 ^ w -> u_from_center w c d = (c - d / 2, c + (d - 1) / 2).
Proof.
  intros W D A B. unfold u_from_center, wrap, i_span. assert (D1 : 0 <= d / 2) by (Z.div_mod_to_equations; lia). assert (D2 : 0 <= (d - 1) / 2) by (Z.div_mod_to_equations; lia). rewrite (Z.mod_small (d - 1)) by lia. rewrite !Z.mod_small by lia. rewrite Z.min_l, Z.max_r by lia. reflexivity.
Qed.
Lemma u_from_center_bad w c d : 0 < w -> 2 < d < 2 ^ w -> 0 <= c < d / 2 -> u_from_center w c d = (c + (d - 1) / 2, 2 ^ w + c - d / 2) /\ c < fst (u_from_center w c d).
Proof.
  intros W D A. assert (D2 : 1 <= (d - 1) / 2) by (Z.div_mod_to_equations; lia). assert (DH : d / 2 + (d - 1) / 2 = d - 1) by (Z.div_mod_to_equations; lia). assert (E : u_from_center w c d = (c + (d - 1) / 2, 2 ^ w + c - d / 2)); [|rewrite E; split; [reflexivity|cbn [fst]; lia]].
  unfold u_from_center, wrap, i_span. assert (DM : (d - 1) mod 2 ^ w = d - 1) by (apply Z.mod_small; lia). rewrite DM. assert (E1 : (c - d / 2) mod 2 ^ w = 2 ^ w + c - d / 2) by (symmetry; apply Z.mod_unique with (-1); lia). rewrite E1, (Z.mod_small (c + (d - 1) / 2)) by lia. rewrite Z.min_r, Z.max_l by lia. reflexivity.
Qed.
Lemma u_add_ok w l h t x : 0 <= l -> h + t < 2 ^ w -> 0 <= t -> l <= x <= h -> fst (u_add w (l, h) t) <= x + t <= snd (u_add w (l, h) t).
Proof. intros L H T X. unfold u_add, wrap. cbn [fst snd]. rewrite !Z.mod_small by lia. lia. Qed.
Lemma u_add_bad w l h t : 0 < w -> 0 <= l <= h -> 0 <= t -> h < 2 ^ w -> t < 2 ^ w -> l + t < 2 ^ w -> 2 ^ w <= h + t -> snd (u_add w (l, h) t) < fst (u_add w (l, h) t).
Proof.
  intros W L T H T' A B. unfold u_add, wrap. cbn [fst snd]. rewrite (Z.mod_small (l + t)) by lia. assert (E : (h + t) mod 2 ^ w = h + t - 2 ^ w) by (symmetry; apply Z.mod_unique with 1; lia). rewrite E. lia.
Qed.
Lemma volume_order w : 3 <= w -> let m := 2 ^ (w - 1) - 1 in let b := [(0, m - 1); (0, m - 1); (1, 0)] in box_fits w b /\ cell_count b 0 /\ i_volume w b = None /\ i_volume w [(1, 0); (0, m - 1); (0, m - 1)] = Some 0.
Proof.
  intros W m b. assert (M4 : 4 <= 2 ^ (w - 1)) by (change 4 with (2 ^ 2); apply Z.pow_le_mono_r; lia). assert (M3 : 3 <= m) by (unfold m; lia). assert (PM : 2 ^ (w - 1) = m + 1) by (unfold m; ring).
  split; [|split; [|split]].
  - repeat constructor; unfold fits; rewrite PM; lia.
  - apply count_total. cbn [b total_cells fold_right fst snd]. rewrite (Z.max_r (0 - 1 + 1)) by lia. ring.
  - unfold i_volume, i_dims. cbn [b each]. rewrite !(chk_ok w) by (unfold fits; rewrite PM; lia). cbn [fold_left]. rewrite (chk_ok w) by (unfold fits; rewrite PM; lia). assert (E : chk w (1 * Z.max (m - 1 - 0 + 1) 0 * Z.max (m - 1 - 0 + 1) 0) = None) by (apply chk_none; unfold fits; rewrite PM; nia). rewrite E. reflexivity.
  - unfold i_volume, i_dims. cbn [each]. rewrite !(chk_ok w) by (unfold fits; rewrite PM; lia). cbn [fold_left]. rewrite (Z.max_r (0 - 1 + 1)) by lia. rewrite (chk_ok w) by (unfold fits; rewrite PM; lia). rewrite Z.mul_0_r, Z.mul_0_l. rewrite (chk_ok w) by (unfold fits; rewrite PM; lia). rewrite Z.mul_0_l. rewrite (chk_ok w) by (unfold fits; rewrite PM; lia). reflexivity.
Qed.
