From Coq Require Import List Arith Bool Lia Permutation.
From Verif Require Import TreeModel TreeSpec.
Import ListNotations.

(** ** Lists of identifiers *)
Lemma ref_eqb_spec a b : reflect (a = b) (ref_eqb a b).
Proof.
  destruct a as [x|], b as [y|]; cbn; try (constructor; congruence).
  destruct (Nat.eqb_spec x y); constructor; congruence.
Qed.
Lemma ref_eqb_refl a : ref_eqb a a = true.
Proof. destruct (ref_eqb_spec a a); congruence. Qed.
Lemma ref_eqb_neq a b : a <> b -> ref_eqb a b = false.
Proof. destruct (ref_eqb_spec a b); congruence. Qed.
Definition last_error (l : list nat) : ref := hd_error (rev l).
Lemma last_snoc l x : last_error (l ++ [x]) = Some x.
Proof. unfold last_error. now rewrite rev_app_distr. Qed.
Lemma last_app a b : b <> [] -> last_error (a ++ b) = last_error b.
Proof.
  intros H. unfold last_error. rewrite rev_app_distr. destruct (rev b) eqn:E; [|reflexivity].
  apply (f_equal (@rev nat)) in E. rewrite rev_involutive in E. now cbn in E.
Qed.
Lemma last_cases l : (l = [] /\ last_error l = None) \/ exists a x, l = a ++ [x] /\ last_error l = Some x.
Proof. destruct l as [|y r] using rev_ind; [now left|]. right. exists r, y. split; [reflexivity|]. apply last_snoc. Qed.
Lemma last_in l x : last_error l = Some x -> In x l.
Proof. destruct (last_cases l) as [[-> E]|(a & y & -> & E)]; rewrite E; [discriminate|]. intros [= ->]. apply in_app_iff. right. now left. Qed.
Lemma hd_in (l : list nat) x : hd_error l = Some x -> In x l.
Proof. destruct l; [discriminate|]. intros [= ->]. now left. Qed.
Lemma hd_app (a b : list nat) : a <> [] -> hd_error (a ++ b) = hd_error a.
Proof. now destruct a. Qed.
Lemma hd_none (l : list nat) : hd_error l = None -> l = [].
Proof. now destruct l. Qed.
Lemma after_ok a x b : ~ In x a -> after (a ++ x :: b) x = Some (hd_error b).
Proof.
  induction a as [|y a IH]; cbn; intros H; [now rewrite Nat.eqb_refl|].
  destruct (Nat.eqb_spec y x); [tauto|]. apply IH. tauto.
Qed.
Lemma nodup_mid {A} (a : list A) x b : NoDup (a ++ x :: b) -> ~ In x a /\ ~ In x b.
Proof. intros H. pose proof (NoDup_remove_2 _ _ _ H) as N. rewrite in_app_iff in N. tauto. Qed.
Lemma nodup_parts (a b : list nat) : NoDup (a ++ b) -> NoDup a /\ NoDup b /\ forall x, In x a -> ~ In x b.
Proof.
  induction a as [|y a IH]; cbn; intros H; [split; [constructor|split; [assumption|tauto]]|].
  inversion H as [|? ? N H']; subst. destruct (IH H') as (Na & Nb & D). rewrite in_app_iff in N.
  split; [constructor; tauto|]. split; [assumption|]. intros x [->|I]; [tauto|auto].
Qed.
Lemma after_nd a x b : NoDup (a ++ x :: b) -> after (a ++ x :: b) x = Some (hd_error b).
Proof. intros H. apply after_ok. now apply nodup_mid in H. Qed.
Lemma before_from_ok p a b : NoDup (a ++ b) -> before_from p (a ++ b) (hd_error b) = Some (match a with [] => p | _ => last_error a end).
Proof.
  revert p. induction a as [|y a IH]; cbn [app]; intros p H.
  - destruct b as [|z b]; [reflexivity|]. cbn. now rewrite Nat.eqb_refl.
  - inversion H as [|? ? N H']; subst. cbn [before_from]. rewrite ref_eqb_neq.
    + rewrite (IH (Some y) H'). destruct a as [|z a]; [reflexivity|].
      change (y :: z :: a) with ([y] ++ z :: a). now rewrite (last_app [y]) by discriminate.
    + intros E. apply N. rewrite in_app_iff. right. now apply hd_in.
Qed.
Lemma before_ok a b : NoDup (a ++ b) -> before (a ++ b) (hd_error b) = Some (last_error a).
Proof. intros H. unfold before. rewrite before_from_ok by assumption. now destruct a. Qed.
Lemma insert_ok a b x : NoDup (a ++ b) -> insert_at (a ++ b) (hd_error b) x = a ++ x :: b.
Proof.
  induction a as [|y a IH]; cbn [app]; intros H.
  - destruct b as [|z b]; [reflexivity|]. cbn. now rewrite Nat.eqb_refl.
  - inversion H as [|? ? N H']; subst. cbn [insert_at]. rewrite ref_eqb_neq; [now rewrite IH|].
    intros E. apply N. rewrite in_app_iff. right. now apply hd_in.
Qed.
Lemma remove_ok a x b : NoDup (a ++ x :: b) -> remove_at (a ++ x :: b) x = a ++ b.
Proof.
  induction a as [|y a IH]; cbn; intros H; [now rewrite Nat.eqb_refl|].
  inversion H as [|? ? N H']; subst. destruct (Nat.eqb_spec y x) as [->|_]; [|now rewrite IH].
  exfalso. apply N. rewrite in_app_iff. right. now left.
Qed.
Lemma walk_ok a s b fuel : NoDup (a ++ s ++ b) -> length s < fuel -> walk (a ++ s ++ b) fuel (hd_error (s ++ b)) (hd_error b) = Some s.
Proof.
  revert a fuel. induction s as [|x s IH]; intros a fuel H F; (destruct fuel as [|fuel]; [cbn in F; lia|]); cbn [walk app].
  - now rewrite ref_eqb_refl.
  - cbn [hd_error]. destruct (nodup_parts _ _ H) as (_ & H' & _). cbn [app] in H'. rewrite ref_eqb_neq.
    + rewrite (after_nd a x (s ++ b)) by assumption.
      replace (a ++ (x :: s) ++ b) with ((a ++ [x]) ++ s ++ b) in * by (now rewrite <- app_assoc).
      change (a ++ x :: s ++ b) with (a ++ [x] ++ s ++ b). rewrite (app_assoc a [x]). rewrite IH; [reflexivity|assumption|cbn in F; lia].
    + intros E. inversion H' as [|? ? N _]; subst. apply N. rewrite in_app_iff. right. now apply hd_in.
Qed.
Lemma fresh_not l : ~ In (fresh l) l.
Proof.
  intros H. assert (F : Forall (fun k => k <= list_max l) l) by (now apply list_max_le).
  rewrite Forall_forall in F. specialize (F _ H). unfold fresh in F. lia.
Qed.
Lemma in_mid {A} (x : A) a b c : In x (a ++ b :: c) <-> x = b \/ In x (a ++ c).
Proof. rewrite !in_app_iff. cbn. intuition. Qed.
Lemma nodup_insert (a b : list nat) x : NoDup (a ++ b) -> ~ In x (a ++ b) -> NoDup (a ++ x :: b).
Proof. intros H N. apply (Permutation_NoDup (l := x :: a ++ b)); [apply Permutation_middle|now constructor]. Qed.
(** ** Lists made of groups *)
Lemma map_upd_out {A} (f : nat -> A) k v l : ~ In k l -> map (upd f k v) l = map f l.
Proof. intros H. apply map_ext_in. intros x I. unfold upd. destruct (Nat.eqb_spec x k) as [->|_]; [contradiction|reflexivity]. Qed.
Lemma upd_same {A} (f : nat -> A) k v : upd f k v k = v.
Proof. unfold upd. now rewrite Nat.eqb_refl. Qed.
Lemma upd_other {A} (f : nat -> A) k v j : j <> k -> upd f k v j = f j.
Proof. unfold upd. intros H. now destruct (Nat.eqb_spec j k). Qed.
Lemma concat_nil_hd (f : nat -> list nat) g gs : f g <> [] -> hd_error (concat (map f (g :: gs))) = hd_error (f g).
Proof. intros H. cbn. now apply hd_app. Qed.
Lemma in_groups (f : nat -> list nat) gs x : In x (concat (map f gs)) <-> exists g, In g gs /\ In x (f g).
Proof.
  rewrite in_concat. split.
  - intros (l & H & I). apply in_map_iff in H. destruct H as (g & <- & H). eauto.
  - intros (g & H & I). exists (f g). split; [now apply in_map|assumption].
Qed.
Lemma groups_split (f : nat -> list nat) a g b : concat (map f (a ++ g :: b)) = concat (map f a) ++ f g ++ concat (map f b).
Proof. rewrite map_app, concat_app. reflexivity. Qed.
Lemma group_unique (f : nat -> list nat) gs g h x : NoDup (concat (map f gs)) -> In g gs -> In h gs -> NoDup gs -> In x (f g) -> In x (f h) -> g = h.
Proof.
  intros N Ig Ih Ng Xg Xh. destruct (Nat.eq_dec g h) as [|E]; [assumption|exfalso].
  apply in_split in Ig. destruct Ig as (a & b & ->). rewrite groups_split in N.
  destruct (nodup_parts _ _ N) as (_ & N' & D1). destruct (nodup_parts _ _ N') as (_ & _ & D2).
  apply in_mid in Ih. destruct Ih as [->|Ih]; [congruence|]. apply in_app_iff in Ih. destruct Ih as [Ih|Ih].
  - apply (D1 x). + apply in_groups; eauto. + apply in_app_iff; now left.
  - apply (D2 x); [assumption|]. apply in_groups; eauto.
Qed.
Lemma sum_plus1 (f f' : nat -> nat) l c : NoDup l -> In c l -> f' c = f c + 1 -> (forall x, In x l -> x <> c -> f' x = f x) -> list_sum (map f' l) = list_sum (map f l) + 1.
Proof.
  intros N I E O. apply in_split in I. destruct I as (a & b & ->). apply nodup_mid in N. destruct N as [Na Nb].
  rewrite !map_app, !list_sum_app. cbn. rewrite E.
  rewrite (map_ext_in f' f a), (map_ext_in f' f b); [lia| |].
  - intros x I. apply O; [apply in_app_iff; right; now right|]. intros ->. contradiction.
  - intros x I. apply O; [apply in_app_iff; now left|]. intros ->. contradiction.
Qed.
