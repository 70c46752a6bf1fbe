From Coq Require Import ZArith List Bool Lia ZifyBool.
From Verif Require Import Mem Fld LayoutModel GridModel FlatModel FlatSpec FlatProofs FlatMore MiterModel MiterSpec.
Import ListNotations.
Open Scope Z_scope.
Open Scope res_scope.

Lemma equal_pt g h : g_equal g h = true <-> g_pt g = g_pt h.
Proof. unfold g_equal. destruct (list_eq_dec Z.eq_dec (g_pt g) (g_pt h)); split; congruence. Qed.
(** The k-th position of a region. *)
Definition cell (r0 c0 r1 c1 k : Z) : grid_it := let w := c1 - c0 + 1 in mkG false [r0; c0] [r1; c1] [r0 + k / w; c0 + k mod w].
Lemma begin_cell r0 c0 r1 c1 : c0 <= c1 -> region_begin r0 c0 r1 c1 = cell r0 c0 r1 c1 0.
Proof. intros C. unfold region_begin, g_new, cell. rewrite Z.div_0_l, Z.mod_0_l by lia. now rewrite !Z.add_0_r. Qed.
Lemma end_cell r0 c0 r1 c1 : c0 <= c1 -> region_end r0 c0 r1 c1 = cell r0 c0 r1 c1 ((r1 - r0 + 1) * (c1 - c0 + 1)).
Proof.
  intros C. unfold region_end, region_begin, g_end, g_new, g_with, cell. cbn. rewrite Z.div_mul, Z.mod_mul by lia. do 2 f_equal; [lia|f_equal; lia].
Qed.
Lemma whole_begin_is R C : whole_begin R C = region_begin 0 0 (R - 1) (C - 1).
Proof. reflexivity. Qed.
Lemma whole_end_is R C : whole_end R C = region_end 0 0 (R - 1) (C - 1).
Proof. unfold whole_end, region_end, region_begin, g_end, g_new, g_with. cbn. do 2 f_equal. lia. Qed.
Lemma step_row k w : 0 < w -> k mod w = w - 1 -> (k + 1) / w = k / w + 1 /\ (k + 1) mod w = 0.
Proof.
  intros W E. pose proof (Z.div_mod k w ltac:(lia)). replace (k + 1) with (0 + (k / w + 1) * w) by nia. rewrite Z.div_add, Z.mod_add by lia. rewrite Z.div_0_l, Z.mod_0_l by lia. lia.
Qed.
Lemma step_col k w : 0 < w -> k mod w < w - 1 -> (k + 1) / w = k / w /\ (k + 1) mod w = k mod w + 1.
Proof.
  intros W E. pose proof (Z.div_mod k w ltac:(lia)). pose proof (Z.mod_pos_bound k w W). replace (k + 1) with ((k mod w + 1) + (k / w) * w) by nia.
  rewrite Z.div_add, Z.mod_add by lia. rewrite Z.div_small, Z.mod_small by lia. lia.
Qed.
Lemma inc_cell r0 c0 r1 c1 k : c0 <= c1 -> g_inc (cell r0 c0 r1 c1 k) = cell r0 c0 r1 c1 (k + 1).
Proof.
  intros C. unfold cell. set (w := c1 - c0 + 1). assert (W : 0 < w) by (unfold w; lia). pose proof (Z.mod_pos_bound k w W).
  unfold g_inc, g_with. cbn [g_order along g_lo g_hi g_pt rev app inc].
  destruct (Z.gtb_spec (c0 + k mod w + 1) c1) as [G|G].
  - destruct (step_row k w W ltac:(lia)) as (-> & ->). destruct (Z.gtb_spec (r0 + k / w + 1) r1); cbn [rev app]; f_equal; f_equal; try lia; f_equal; lia.
  - destruct (step_col k w W ltac:(lia)) as (-> & ->). cbn [rev app]. f_equal. f_equal. f_equal. lia.
Qed.
Lemma cell_bounds w h k : 0 < w -> 0 <= k < h * w -> 0 <= k / w < h /\ 0 <= k mod w < w.
Proof.
  intros W K. split; [|apply Z.mod_pos_bound; exact W]. split; [apply Z.div_pos; lia|]. apply Z.div_lt_upper_bound; nia.
Qed.
Lemma cell_differs r0 c0 r1 c1 k : c0 <= c1 -> 0 <= k < (r1 - r0 + 1) * (c1 - c0 + 1) -> g_equal (cell r0 c0 r1 c1 k) (region_end r0 c0 r1 c1) = false.
Proof.
  intros C K. apply not_true_iff_false. intros E. apply equal_pt in E. unfold region_end, region_begin, g_end, g_new, g_with in E. cbn in E. injection E as E _.
  pose proof (cell_bounds (c1 - c0 + 1) (r1 - r0 + 1) k ltac:(lia) K). lia.
Qed.
Lemma listing_step {A} k n (f : Z -> A) : 0 <= k < n -> map (fun i => f (Z.of_nat i)) (seq (Z.to_nat k) (Z.to_nat (n - k))) = f k :: map (fun i => f (Z.of_nat i)) (seq (Z.to_nat (k + 1)) (Z.to_nat (n - (k + 1)))).
Proof.
  intros K. replace (Z.to_nat (n - k)) with (S (Z.to_nat (n - (k + 1)))) by lia. cbn [seq map]. rewrite Z2Nat.id by lia. replace (Z.to_nat (k + 1)) with (S (Z.to_nat k)) by lia. reflexivity.
Qed.
Section Read.
Context {A : Type}.
Lemma collect_from (at_ : Z -> Z -> res A) f r0 c0 r1 c1 : c0 <= c1 -> r0 <= r1 + 1 -> (forall r c, in_region r0 c0 r1 c1 r c -> at_ r c = Ok (f r c)) ->
  forall n k fuel, Z.to_nat ((r1 - r0 + 1) * (c1 - c0 + 1) - k) = n -> 0 <= k <= (r1 - r0 + 1) * (c1 - c0 + 1) -> (n <= fuel)%nat ->
  it_collect fuel at_ (cell r0 c0 r1 c1 k) (region_end r0 c0 r1 c1) =
  Some (Ok (map (fun i => f (r0 + Z.of_nat i / (c1 - c0 + 1)) (c0 + Z.of_nat i mod (c1 - c0 + 1))) (seq (Z.to_nat k) n))).
Proof.
  intros C R H. set (N := (r1 - r0 + 1) * (c1 - c0 + 1)). induction n as [|n IH]; intros k fuel En K Fu.
  - assert (k = N) as -> by lia. rewrite end_cell by exact C. fold N. destruct fuel; cbn [it_collect]; rewrite (proj2 (equal_pt _ _) eq_refl); reflexivity.
  - destruct fuel as [|fuel]; [lia|]. assert (KN : 0 <= k < N) by lia. cbn [it_collect]. rewrite cell_differs by (try exact C; exact KN).
    pose proof (cell_bounds (c1 - c0 + 1) (r1 - r0 + 1) k ltac:(lia) KN) as B. unfold it_read at 1. cbn [cell g_pt]. rewrite H by (unfold in_region; lia).
    rewrite inc_cell by exact C. rewrite (IH (k + 1) fuel) by lia. cbn [seq map]. rewrite Z2Nat.id by lia. replace (Z.to_nat (k + 1)) with (S (Z.to_nat k)) by lia. reflexivity.
Qed.
Lemma collect_region (at_ : Z -> Z -> res A) f r0 c0 r1 c1 fuel : c0 <= c1 -> r0 <= r1 + 1 -> (forall r c, in_region r0 c0 r1 c1 r c -> at_ r c = Ok (f r c)) ->
  (r1 - r0 + 1) * (c1 - c0 + 1) <= Z.of_nat fuel -> it_collect fuel at_ (region_begin r0 c0 r1 c1) (region_end r0 c0 r1 c1) = Some (Ok (row_major r0 c0 r1 c1 f)).
Proof.
  intros C R H F. rewrite begin_cell by exact C. assert (P : 0 <= (r1 - r0 + 1) * (c1 - c0 + 1)) by nia. rewrite (collect_from at_ f r0 c0 r1 c1 C R H _ 0 fuel eq_refl) by lia.
  rewrite Z.sub_0_r. reflexivity.
Qed.
(** A fault at some cell is met. *)
Lemma collect_fault (at_ : Z -> Z -> res A) r0 c0 r1 c1 : c0 <= c1 ->
  forall n k fuel, Z.to_nat ((r1 - r0 + 1) * (c1 - c0 + 1) - k) = n -> 0 <= k <= (r1 - r0 + 1) * (c1 - c0 + 1) -> (n <= fuel)%nat ->
  (exists j, k <= j < (r1 - r0 + 1) * (c1 - c0 + 1) /\ is_ok (at_ (r0 + j / (c1 - c0 + 1)) (c0 + j mod (c1 - c0 + 1))) = false) ->
  exists x, it_collect fuel at_ (cell r0 c0 r1 c1 k) (region_end r0 c0 r1 c1) = Some (Fault x) /\ exists j, k <= j < (r1 - r0 + 1) * (c1 - c0 + 1) /\ at_ (r0 + j / (c1 - c0 + 1)) (c0 + j mod (c1 - c0 + 1)) = Fault x.
Proof.
  intros C. set (N := (r1 - r0 + 1) * (c1 - c0 + 1)). induction n as [|n IH]; intros k fuel En K Fu (j & J & B); [lia|].
  destruct fuel as [|fuel]; [lia|]. assert (KN : 0 <= k < N) by lia. cbn [it_collect]. rewrite cell_differs by (try exact C; exact KN). unfold it_read at 1. cbn [cell g_pt].
  destruct (at_ (r0 + k / (c1 - c0 + 1)) (c0 + k mod (c1 - c0 + 1))) as [x|x] eqn:E; [|exists x; split; [reflexivity|exists k; split; [lia|exact E]]].
  destruct (IH (k + 1) fuel ltac:(lia) ltac:(lia) ltac:(lia)) as (y & Y & j' & J' & E').
  - exists j. split; [|exact B]. assert (j <> k); [|lia]. intros ->. rewrite E in B. discriminate.
  - exists y. split; [rewrite inc_cell by exact C; now rewrite Y|]. exists j'. split; [lia|exact E'].
Qed.
End Read.
Lemma cell_number r0 c0 r1 c1 r c : in_region r0 c0 r1 c1 r c -> let w := c1 - c0 + 1 in let k := (r - r0) * w + (c - c0) in
  0 <= k < (r1 - r0 + 1) * w /\ r0 + k / w = r /\ c0 + k mod w = c.
Proof.
  intros (R & C) w k. assert (W : 0 < w) by (unfold w; lia). unfold k. replace ((r - r0) * w + (c - c0)) with ((c - c0) + (r - r0) * w) by ring. rewrite Z.div_add, Z.mod_add by lia.
  rewrite Z.div_small, Z.mod_small by (unfold w in *; lia). split; [nia|lia].
Qed.
Lemma in_row_major {A} r0 c0 r1 c1 (f : Z -> Z -> A) r c : in_region r0 c0 r1 c1 r c -> In (f r c) (row_major r0 c0 r1 c1 f).
Proof.
  intros H. destruct (cell_number r0 c0 r1 c1 r c H) as (K & E1 & E2). unfold row_major, listing. apply in_map_iff. exists (Z.to_nat ((r - r0) * (c1 - c0 + 1) + (c - c0))).
  rewrite Z2Nat.id by lia. rewrite E1, E2. split; [reflexivity|]. apply in_seq. lia.
Qed.
(** ** Arithmetic *)
Lemma advance_region r0 c0 r1 c1 p n : r0 <= r1 -> c0 <= c1 -> 0 <= n -> g_advance (mkG false [r0; c0] [r1; c1] p) n = Ok (mkG false [r0; c0] [r1; c1] [n / (c1 - c0 + 1); n mod (c1 - c0 + 1)]).
Proof.
  intros R C P. unfold g_advance, g_with. cbn [g_order g_lo g_hi along dims rev app volume fold_right adv].
  unfold volume. cbn [dims fold_right]. rewrite !Z.max_l by lia. rewrite Z.mul_1_r. set (h := r1 - r0 + 1). set (w := c1 - c0 + 1). assert (0 < h /\ 0 < w) by (unfold h, w; lia).
  destruct (Z.eqb_spec h 0); [lia|]. replace (h * w ÷ h) with w by (rewrite Z.mul_comm; symmetry; apply Z.quot_mul; lia). destruct (Z.eqb_spec w 0); [lia|].
  replace (w ÷ w) with 1 by (symmetry; apply Z.quot_same; lia). cbn [Z.eqb bind].
  rewrite Z.quot_1_r. rewrite Z.rem_mod_nonneg, Z.quot_div_nonneg by lia. reflexivity.
Qed.
Lemma read_at {A} (at_ : Z -> Z -> res A) R C p n : 0 < R -> 0 < C -> 0 <= n -> it_read_at at_ (mkG false [0; 0] [R - 1; C - 1] p) n = at_ (n / C) (n mod C).
Proof.
  intros HR HC N. unfold it_read_at. rewrite advance_region by lia. cbn [bind]. unfold it_read. cbn [g_pt]. replace (C - 1 - 0 + 1) with C by lia. reflexivity.
Qed.
Lemma whole_distance R C : 0 <= R -> 0 <= C -> g_dist (whole_begin R C) (whole_end R C) = R * C.
Proof. intros HR HC. unfold g_dist, whole_begin, whole_end. cbn [g_order g_lo g_hi g_pt along dims rev app dist]. rewrite Z.max_l by lia. lia. Qed.
Lemma dec_end R C : 0 < R -> 0 < C -> g_pt (g_dec (whole_end R C)) = [R - 1; C - 2].
Proof. intros HR HC. unfold g_dec, whole_end, g_with. cbn [g_order g_lo g_hi g_pt along rev app dec]. destruct (Z.ltb_spec (0 - 1) 0); [|lia]. destruct (Z.ltb_spec (R - 1) 0); [lia|]. cbn [rev app]. f_equal. f_equal. lia. Qed.
(** ** Writing *)
Section Write.
Context {K : field}.
Implicit Types (mem : memory K) (src : Z -> K).
Lemma store_from m src r0 c0 r1 c1 : c0 <= c1 -> r0 <= r1 + 1 -> (forall r c, in_region r0 c0 r1 c1 r c -> within (f_rows m) (f_cols m) r c) ->
  forall n k fuel mem, Z.to_nat ((r1 - r0 + 1) * (c1 - c0 + 1) - k) = n -> 0 <= k <= (r1 - r0 + 1) * (c1 - c0 + 1) -> (n <= fuel)%nat ->
  exists mem', it_store fuel mem m src k (cell r0 c0 r1 c1 k) (region_end r0 c0 r1 c1) = Some (Ok mem') /\ only m mem mem' /\
  (forall r c, within (f_rows m) (f_cols m) r c -> f_get mem' m r c =
     if ((r0 <=? r) && (r <=? r1) && (c0 <=? c) && (c <=? c1) && (k <=? (r - r0) * (c1 - c0 + 1) + (c - c0)))%bool then Ok (src ((r - r0) * (c1 - c0 + 1) + (c - c0))) else f_get mem m r c).
Proof.
  intros C R H. set (N := (r1 - r0 + 1) * (c1 - c0 + 1)). induction n as [|n IH]; intros k fuel mem En Kk Fu.
  - assert (k = N) as -> by lia. rewrite end_cell by exact C. fold N. exists mem. split; [destruct fuel; cbn [it_store]; rewrite (proj2 (equal_pt _ _) eq_refl); reflexivity|].
    split; [intros a _; reflexivity|]. intros r c W. destruct (Z.leb_spec N ((r - r0) * (c1 - c0 + 1) + (c - c0))) as [L|L]; [|now rewrite andb_false_r].
    replace (_ && _)%bool with false; [reflexivity|]. symmetry. apply not_true_iff_false. intros T. destruct (cell_number r0 c0 r1 c1 r c) as (B & _); [unfold in_region; lia|]. unfold N in L. cbv zeta in B. lia.
  - destruct fuel as [|fuel]; [lia|]. assert (KN : 0 <= k < N) by lia. cbn [it_store]. rewrite cell_differs by (try exact C; exact KN). cbn [cell g_pt].
    pose proof (cell_bounds (c1 - c0 + 1) (r1 - r0 + 1) k ltac:(lia) KN) as B. set (w := c1 - c0 + 1) in *.
    assert (IR : in_region r0 c0 r1 c1 (r0 + k / w) (c0 + k mod w)) by (unfold in_region; lia).
    destruct (set_get mem m (r0 + k / w) (c0 + k mod w) (src k) (H _ _ IR)) as (mem1 & E & G1 & G2 & O). rewrite E. rewrite inc_cell by exact C.
    destruct (IH (k + 1) fuel mem1 ltac:(lia) ltac:(lia) ltac:(lia)) as (mem' & E' & O' & G'). exists mem'. split; [exact E'|]. split; [intros a Na; rewrite (O' a Na); apply O; exact Na|].
    intros r c W. rewrite (G' r c W). clear G' E' O'. destruct (Z.eq_dec r (r0 + k / w)) as [Er|Er]; [destruct (Z.eq_dec c (c0 + k mod w)) as [Ec|Ec]|].
    + assert (KK : (r - r0) * w + (c - c0) = k). { pose proof (Z.div_mod k w ltac:(lia)). rewrite Er, Ec. replace (r0 + k / w - r0) with (k / w) by lia. replace (c0 + k mod w - c0) with (k mod w) by lia. lia. }
      rewrite KK. destruct (Z.leb_spec (k + 1) k); [lia|]. rewrite andb_false_r. rewrite Z.leb_refl, andb_true_r. replace (_ && _)%bool with true by (unfold w in *; lia). rewrite Er, Ec. exact G1.
    + rewrite (G2 r c W) by congruence. f_equal. f_equal.
      destruct (Z.leb_spec (k + 1) ((r - r0) * w + (c - c0))), (Z.leb_spec k ((r - r0) * w + (c - c0))); try lia; rewrite ?andb_true_r, ?andb_false_r; try reflexivity.
      exfalso. assert (KK : k = (r - r0) * w + (c - c0)) by lia. pose proof (Z.div_mod k w ltac:(lia)). rewrite Er in KK. replace (r0 + k / w - r0) with (k / w) in KK by lia. lia.
    + rewrite (G2 r c W) by congruence. destruct (((r0 <=? r) && (r <=? r1) && (c0 <=? c) && (c <=? c1))%bool) eqn:T; [|reflexivity]. cbn [andb].
      destruct (Z.leb_spec (k + 1) ((r - r0) * w + (c - c0))), (Z.leb_spec k ((r - r0) * w + (c - c0))); try lia; try reflexivity.
      exfalso. assert (KK : k = (r - r0) * w + (c - c0)) by lia. destruct (cell_number r0 c0 r1 c1 r c) as (_ & Q & _); [unfold in_region; lia|]. fold w in Q. rewrite <- KK in Q. lia.
Qed.
Lemma store_region mem m src r0 c0 r1 c1 fuel : c0 <= c1 -> r0 <= r1 + 1 -> (forall r c, in_region r0 c0 r1 c1 r c -> within (f_rows m) (f_cols m) r c) ->
  (r1 - r0 + 1) * (c1 - c0 + 1) <= Z.of_nat fuel ->
  exists mem', it_store fuel mem m src 0 (region_begin r0 c0 r1 c1) (region_end r0 c0 r1 c1) = Some (Ok mem') /\ only m mem mem' /\
  (forall r c, in_region r0 c0 r1 c1 r c -> f_get mem' m r c = Ok (src ((r - r0) * (c1 - c0 + 1) + (c - c0)))) /\
  (forall r c, within (f_rows m) (f_cols m) r c -> ~ in_region r0 c0 r1 c1 r c -> f_get mem' m r c = f_get mem m r c).
Proof.
  intros C R H F. rewrite begin_cell by exact C. assert (P : 0 <= (r1 - r0 + 1) * (c1 - c0 + 1)) by nia.
  destruct (store_from m src r0 c0 r1 c1 C R H _ 0 fuel mem eq_refl) as (mem' & E & O & G); [lia|lia|]. exists mem'. split; [exact E|]. split; [exact O|]. split.
  - intros r c I. rewrite (G r c (H r c I)). destruct (cell_number r0 c0 r1 c1 r c I) as (B & _). cbv zeta in B. unfold in_region in I. replace (_ && _)%bool with true by lia. reflexivity.
  - intros r c W NI. rewrite (G r c W). unfold in_region in NI. replace (((r0 <=? r) && (r <=? r1) && (c0 <=? c) && (c <=? c1))%bool) with false by lia. reflexivity.
Qed.
End Write.
(** ** Columns *)
Lemma column_from {A} (at_ : Z -> Z -> res A) f rows j : (forall r, 0 <= r < rows -> at_ r j = Ok (f r)) -> forall n k fuel, Z.to_nat (rows - k) = n -> 0 <= k <= rows -> (n <= fuel)%nat ->
  c_collect fuel at_ (mkCol k j) (mkCol rows j) = Some (Ok (map (fun i => f (Z.of_nat i)) (seq (Z.to_nat k) n))).
Proof.
  intros H. induction n as [|n IH]; intros k fuel En K Fu.
  - assert (k = rows) as -> by lia. destruct fuel; cbn [c_collect]; unfold c_equal; cbn [c_row c_col]; rewrite !Z.eqb_refl; reflexivity.
  - destruct fuel as [|fuel]; [lia|]. cbn [c_collect]. unfold c_equal at 1. cbn [c_row c_col]. replace (k =? rows) with false by lia. cbn [andb]. unfold c_read at 1. cbn [c_row c_col]. rewrite H by lia.
    unfold c_inc at 1. cbn [c_row c_col]. rewrite (IH (k + 1) fuel) by lia. cbn [seq map]. rewrite Z2Nat.id by lia. replace (Z.to_nat (k + 1)) with (S (Z.to_nat k)) by lia. reflexivity.
Qed.
Lemma c_iter i n : Nat.iter n c_inc i = c_advance i (Z.of_nat n).
Proof. induction n as [|n IH]; cbn [Nat.iter nat_rect]; [destruct i; unfold c_advance; cbn; f_equal; lia|]. unfold Nat.iter in IH. rewrite IH. unfold c_inc, c_advance. cbn [c_row c_col]. f_equal. lia. Qed.
Lemma c_equal_iff j k j' k' : c_equal (c_advance (col_begin j) k) (c_advance (col_begin j') k') = true <-> j = j' /\ k = k'.
Proof. unfold c_equal, c_advance, col_begin. cbn [c_row c_col]. lia. Qed.
