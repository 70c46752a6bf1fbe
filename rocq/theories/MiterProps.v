(** C90: iterating over matrices and over regions of them. *)
From Coq Require Import ZArith List Bool Lia ZifyBool QArith Qcanon.
From Verif Require Import Mem Fld LayoutModel GridModel FlatModel FlatSpec MiterModel MiterSpec MiterProofs.
Import ListNotations.
Open Scope Z_scope.

(** Looping from begin() to end() gives all elements in row-major order. *)
Theorem matrix_iteration {A} (at_ : Z -> Z -> res A) f rows cols fuel : 0 <= rows -> 0 < cols -> (forall r c, within rows cols r c -> at_ r c = Ok (f r c)) -> rows * cols <= Z.of_nat fuel ->
  it_collect fuel at_ (whole_begin rows cols) (whole_end rows cols) = Some (Ok (listing (rows * cols) (fun k => f (k / cols) (k mod cols)))).
Proof.
  intros R C H F. rewrite whole_begin_is, whole_end_is. rewrite (collect_region at_ f 0 0 (rows - 1) (cols - 1) fuel); [|lia|lia|intros r c (I1 & I2); apply H; unfold within; lia|replace (cols - 1 - 0 + 1) with cols by lia; replace (rows - 1 - 0 + 1) with rows by lia; exact F].
  unfold row_major. replace (cols - 1 - 0 + 1) with cols by lia. replace (rows - 1 - 0 + 1) with rows by lia. reflexivity.
Qed.
Print Assumptions matrix_iteration.
Example matrix_iteration_example : it_collect 6 (fun r c => Ok (10 * r + c)) (whole_begin 2 3) (whole_end 2 3) = Some (Ok [0; 1; 2; 10; 11; 12]).
Proof. reflexivity. Qed.
(** But with rows and no columns there is nothing to visit and yet it reads the first column: for a diagonal matrix, outside its storage. *)
Theorem matrix_iteration_refuted (K : field) (mem : memory K) base rows fuel : 0 < rows ->
  it_collect (S fuel) (d_get mem (mkDiag base 0 rows 0)) (whole_begin rows 0) (whole_end rows 0) = Some (Fault OutOfBounds).
Proof.
  intros R. cbn [it_collect]. replace (g_equal (whole_begin rows 0) (whole_end rows 0)) with false; [reflexivity|]. symmetry. apply not_true_iff_false. intros E. apply equal_pt in E. cbn in E. injection E. lia.
Qed.
Print Assumptions matrix_iteration_refuted.

(** Looping over a region gives its elements in row-major order, with both corners included. *)
Theorem region_iteration {A} (at_ : Z -> Z -> res A) f r0 c0 r1 c1 fuel : r0 <= r1 -> c0 <= c1 -> (forall r c, in_region r0 c0 r1 c1 r c -> at_ r c = Ok (f r c)) ->
  (r1 - r0 + 1) * (c1 - c0 + 1) <= Z.of_nat fuel ->
  it_collect fuel at_ (region_begin r0 c0 r1 c1) (region_end r0 c0 r1 c1) = Some (Ok (row_major r0 c0 r1 c1 f)).
Proof. intros R C. apply collect_region; lia. Qed.
Print Assumptions region_iteration.
Example region_iteration_example : it_collect 6 (fun r c => Ok (10 * r + c)) (region_begin 1 2 2 4) (region_end 1 2 2 4) = Some (Ok [12; 13; 14; 22; 23; 24]).
Proof. reflexivity. Qed.
(** The upper corner is documented as the index just beyond the last element; but its element is visited too... *)
Theorem region_upper_refuted {A} (at_ : Z -> Z -> res A) f r0 c0 r1 c1 fuel : r0 <= r1 -> c0 <= c1 -> (forall r c, in_region r0 c0 r1 c1 r c -> at_ r c = Ok (f r c)) ->
  (r1 - r0 + 1) * (c1 - c0 + 1) <= Z.of_nat fuel ->
  exists l, it_collect fuel at_ (region_begin r0 c0 r1 c1) (region_end r0 c0 r1 c1) = Some (Ok l) /\ In (f r1 c1) l.
Proof.
  intros R C H F. eexists. split; [apply (region_iteration at_ f); assumption|]. apply in_row_major. unfold in_region. lia.
Qed.
Print Assumptions region_upper_refuted.
(** ...so the region of the whole matrix, as documented, is read past the end of the storage... *)
Theorem region_whole_refuted (K : field) (mem : memory K) m fuel : 0 < f_rows m -> 0 < f_cols m -> (f_rows m + 1) * (f_cols m + 1) <= Z.of_nat fuel ->
  it_collect fuel (f_get mem m) (region_begin 0 0 (f_rows m) (f_cols m)) (region_end 0 0 (f_rows m) (f_cols m)) = Some (Fault OutOfBounds).
Proof.
  intros R C F. rewrite begin_cell by lia. destruct (cell_number 0 0 (f_rows m) (f_cols m) (f_rows m) (f_cols m)) as (B & E1 & E2); [unfold in_region; lia|]. cbv zeta in *.
  destruct (collect_fault (f_get mem m) 0 0 (f_rows m) (f_cols m) ltac:(lia) _ 0 fuel eq_refl) as (x & E & j & J & Ej).
  - nia.
  - rewrite !Z.sub_0_r. lia.
  - eexists. split; [exact B|]. rewrite E1, E2. unfold f_get, peek. replace (_ && _)%bool with false; [reflexivity|]. symmetry. unfold f_size, ix. destruct (f_layout m); nia.
  - rewrite E. unfold f_get, peek in Ej. destruct (_ && _)%bool in Ej; [discriminate|]. now injection Ej as <-.
Qed.
Print Assumptions region_whole_refuted.
(** ...and the example of the documentation, region (1,1)-(3,2) of a 3x3 matrix, writes past its end. *)
Theorem region_documented_refuted (K : field) (mem : memory K) base src fuel : it_store (S (S (S (S (S fuel))))) mem (mkFlat base 3 3 RowMajor) src 0 (region_begin 1 1 3 2) (region_end 1 1 3 2) = Some (Fault OutOfBounds).
Proof. reflexivity. Qed.
Print Assumptions region_documented_refuted.

(** Writing through a region iterator stores the values in row-major order and changes nothing else. *)
Theorem region_writing (K : field) (mem : memory K) m src r0 c0 r1 c1 fuel : r0 <= r1 -> c0 <= c1 -> (forall r c, in_region r0 c0 r1 c1 r c -> within (f_rows m) (f_cols m) r c) ->
  (r1 - r0 + 1) * (c1 - c0 + 1) <= Z.of_nat fuel ->
  exists mem', it_store fuel mem m src 0 (region_begin r0 c0 r1 c1) (region_end r0 c0 r1 c1) = Some (Ok mem') /\ only m mem mem' /\
  (forall r c, in_region r0 c0 r1 c1 r c -> f_get mem' m r c = Ok (src ((r - r0) * (c1 - c0 + 1) + (c - c0)))) /\
  (forall r c, within (f_rows m) (f_cols m) r c -> ~ in_region r0 c0 r1 c1 r c -> f_get mem' m r c = f_get mem m r c).
Proof. intros R C. apply store_region; lia. Qed.
Print Assumptions region_writing.
Example region_writing_example : forall r c, in_region 1 1 2 2 r c -> within 3 3 r c.
Proof. unfold in_region, within. lia. Qed.

(** begin() + n is the n-th element in row-major order, and end() - begin() their number. *)
Theorem matrix_random_access {A} (at_ : Z -> Z -> res A) rows cols n : 0 < rows -> 0 < cols -> 0 <= n < rows * cols ->
  it_read_at at_ (whole_begin rows cols) n = at_ (n / cols) (n mod cols) /\ g_dist (whole_begin rows cols) (whole_end rows cols) = rows * cols.
Proof. intros R C N. split; [apply read_at; lia|apply whole_distance; lia]. Qed.
Print Assumptions matrix_random_access.
(** From any other position i + n is still the n-th element of all, not the n-th from there... *)
Theorem matrix_random_access_refuted {A} (at_ : Z -> Z -> res A) rows cols k n : 0 < rows -> 0 < cols -> 0 <= k -> 0 <= n ->
  exists i, g_advance (whole_begin rows cols) k = Ok i /\ g_pt i = [k / cols; k mod cols] /\ it_read_at at_ i n = at_ (n / cols) (n mod cols).
Proof.
  intros R C Kk N. eexists. split; [apply advance_region; lia|]. replace (cols - 1 - 0 + 1) with cols by lia. split; [reflexivity|]. apply read_at; lia.
Qed.
Print Assumptions matrix_random_access_refuted.
(** ...and the iterator before end() is not at the last element but one column before it. *)
Theorem matrix_backwards_refuted rows cols : 0 < rows -> 0 < cols -> g_pt (g_dec (whole_end rows cols)) = [rows - 1; cols - 2].
Proof. exact (dec_end rows cols). Qed.
Print Assumptions matrix_backwards_refuted.

(** Column iterators visit the column from the top, and their arithmetic agrees with stepping. *)
Theorem column_iteration {A} (at_ : Z -> Z -> res A) f rows j fuel : 0 <= rows -> (forall r, 0 <= r < rows -> at_ r j = Ok (f r)) -> rows <= Z.of_nat fuel ->
  c_collect fuel at_ (col_begin j) (c_advance (col_begin j) rows) = Some (Ok (listing rows f)).
Proof.
  intros R H F. unfold col_begin, c_advance. cbn [c_row c_col]. rewrite Z.add_0_l. rewrite (column_from at_ f rows j H _ 0 fuel eq_refl) by lia. rewrite Z.sub_0_r. reflexivity.
Qed.
Print Assumptions column_iteration.
Theorem column_arithmetic i n k : Nat.iter n c_inc i = c_advance i (Z.of_nat n) /\ c_dec (c_inc i) = i /\ c_inc (c_dec i) = i /\ c_dist i (c_advance i k) = k /\
  (forall at_ : Z -> Z -> res Z, c_read at_ (c_advance i k) = at_ (c_row i + k) (c_col i)).
Proof.
  split; [apply c_iter|]. destruct i as [r c]. unfold c_dec, c_inc, c_dist, c_advance, c_read. cbn [c_row c_col]. repeat split; try (f_equal; lia); lia.
Qed.
Print Assumptions column_arithmetic.
Example column_example : c_collect 3 (fun r c => Ok (10 * r + c)) (col_begin 2) (c_advance (col_begin 2) 3) = Some (Ok [2; 12; 22]).
Proof. reflexivity. Qed.
(** They compare equal exactly at the same element: in different columns never. *)
Theorem column_equality j k j' k' : c_equal (c_advance (col_begin j) k) (c_advance (col_begin j') k') = true <-> j = j' /\ k = k'.
Proof. exact (c_equal_iff j k j' k'). Qed.
Print Assumptions column_equality.
Example column_equality_example : c_equal (c_advance (col_begin 1) 2) (c_inc (c_inc (col_begin 1))) = true /\ c_equal (col_begin 1) (col_begin 2) = false.
Proof. split; reflexivity. Qed.
