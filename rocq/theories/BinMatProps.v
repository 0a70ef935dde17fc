(* Property theorems C01-C15 (and C94, C95) for binary matrices. *)
From Coq Require Import Sorted.
From Verif Require Import Base BinMatModel BinMatSpec BinMatProofs BinMatProofs2.

(* C01: any history of set/clear/block set/block clear calls with non-negative coordinates *)
Theorem C01_history : forall r c ops, Forall nonneg_op ops ->
  exists m, mrun (bm_zero r c) ops = Ok m /\ valid m /\
    shows m r c (fold_left (spec_op r c) ops (fun _ _ => false)).
Proof. intros r c ops H. exact (mrun_spec ops _ r c _ (bm_zero_valid r c) (bm_zero_shows r c) H). Qed.
(* starting from any well-formed matrix, not only a fresh one *)
Theorem C01_history_from : forall m r c f ops, valid m -> shows m r c f -> Forall nonneg_op ops ->
  exists m', mrun m ops = Ok m' /\ valid m' /\ shows m' r c (fold_left (spec_op r c) ops f).
Proof. intros m r c f ops. exact (mrun_spec ops m r c f). Qed.
Theorem C01_out_of_range_throws : forall m i j,
  (Z.of_nat (nr m) <= i \/ Z.of_nat (nc m) <= j)%Z -> set m i j = Throw /\ clear m i j = Throw.
Proof. intros m i j H. exact (conj (soc_throw true m i j H) (soc_throw false m i j H)). Qed.
Example C01_ex : let ops := [MSet 2 69; MSet 0 1; MClear 2 69; MSet 3 0; MBlockSet 1 1 2 2; MSet 2 69] in
  Forall nonneg_op ops /\
  match mrun (bm_zero 3 70) ops with
  | Ok m => get m 2 69 = Ok true /\ get m 0 1 = Ok true /\ get m 2 68 = Ok false /\ get m 1 2 = Ok true
  | _ => False end.
Proof. split; [repeat constructor; lia | vm_compute; auto]. Qed.
Print Assumptions C01_history.

(* C94: negative coordinates are out of range and should be rejected; they are not *)
Theorem C94_negative_column_refuted :
  exists m m', valid m /\ set m 1 (-1) = Ok m' /\ get m 0 2 = Ok false /\ get m' 0 2 = Ok true.
Proof. exists (bm_zero 3 3). eexists. split; [apply bm_zero_valid|]. vm_compute. auto. Qed.
Theorem C94_negative_row_refuted : exists m, valid m /\ set m (-1) 0 = UB /\ clear m (-1) 0 = UB.
Proof. exists (bm_zero 3 3). split; [apply bm_zero_valid|]. vm_compute. auto. Qed.
Print Assumptions C94_negative_column_refuted.

(* C02: storage layout *)
Theorem C02_layout : forall m i j, valid m -> i < nr m -> j < nc m ->
  exists w, nth_error (data m) ((i * nc m + j) / 64) = Some w /\
    get m (Z.of_nat i) (Z.of_nat j) = Ok (N.testbit w (N.of_nat ((i * nc m + j) mod 64))).
Proof.
  intros m i j V Hi Hj.
  exact (ex_intro _ _ (conj (nth_error_nth' _ 0%N (valid_flat_lt m _ V (flat_lt _ _ _ _ Hi Hj)))
                            (valid_get m i j V Hi Hj))).
Qed.
Theorem C02_no_collision : forall m i j x y, i < nr m -> j < nc m -> x < nr m -> y < nc m ->
  (i * nc m + j) / 64 = (x * nc m + y) / 64 ->
  (i * nc m + j) mod 64 = (x * nc m + y) mod 64 -> i = x /\ j = y.
Proof. exact packing_inj. Qed.
Theorem C02_expressions : forall e, wf e -> blocks_good e -> packs_hold e.
Proof. exact packs_ok. Qed.
Example C02_ex : wf (XNot (XMat (ones 3 70))) /\ blocks_good (XNot (XMat (ones 3 70))).
Proof. split; [split; [exact (ones_valid 3 70) | reflexivity] | exact I]. Qed.
Print Assumptions C02_layout.
Print Assumptions C02_expressions.

(* C03: bitwise expressions *)
Theorem C03_coefficient : forall e, wf e -> forall i j, i < rows e -> j < cols e -> coeff e i j = Ok (den e i j).
Proof. exact coeff_den. Qed.
Theorem C03_materialize : forall e, wf e -> blocks_good e ->
  exists m, materialize e = Ok m /\ valid m /\ shows m (rows e) (cols e) (den e).
Proof. exact materialize_ok. Qed.
Theorem C03_mismatch_throws : forall o e1 e2, build e1 = Ok tt -> build e2 = Ok tt ->
  (rows e1 <> rows e2 \/ cols e1 <> cols e2) -> build (XBin o e1 e2) = Throw.
Proof.
  intros o e1 e2 H1 H2 H. cbn [build]. rewrite H1, H2; cbn [bind].
  replace ((rows e1 =? rows e2) && (cols e1 =? cols e2)) with false by lia. reflexivity.
Qed.
Example C03_ex : let e := XBin BXor (XNot (XMat (ones 5 30))) (XBin BAnd (XMat (bm_zero 5 30)) (XMat (ones 5 30))) in
  wf e /\ blocks_good e /\ size e = 150.
Proof.
  cbv zeta. split; [|split; [cbn; auto | reflexivity]]. split; [|reflexivity].
  cbn [leaves_valid]. auto using ones_valid, bm_zero_valid.
Qed.
Print Assumptions C03_coefficient.
Print Assumptions C03_materialize.

(* C04: factories *)
Theorem C04_ones : forall r c, valid (ones r c) /\ shows (ones r c) r c (fun _ _ => true).
Proof. intros r c. exact (conj (ones_valid r c) (ones_shows r c)). Qed.
Theorem C04_zero : forall r c, valid (bm_zero r c) /\ shows (bm_zero r c) r c (fun _ _ => false).
Proof. intros r c. exact (conj (bm_zero_valid r c) (bm_zero_shows r c)). Qed.
Theorem C04_identity : forall r c, exists m, identity r c = Ok m /\ valid m /\ shows m r c (fun i j => i =? j).
Proof. exact identity_ok. Qed.
Theorem C04_resize : forall m r c, valid (resize m r c) /\ shows (resize m r c) r c (fun _ _ => false).
Proof. intros m r c. exact (conj (bm_zero_valid r c) (bm_zero_shows r c)). Qed.
Print Assumptions C04_identity.

(* C05: all() *)
Theorem C05_all_partial : forall e, wf e -> blocks_good e -> (size e < 64 \/ size e mod 64 = 0) ->
  exists b, all_ e = Ok b /\ (b = true <-> forall i j, i < rows e -> j < cols e -> den e i j = true).
Proof.
  intros e W G H. exists (all_spec e). split; [|exact (all_spec_iff e)].
  destruct H as [H|H]; [exact (all_small e (packs_ok e W G) H) | exact (all_multiple e (packs_ok e W G) H)].
Qed.
Example C05_ex : all_ (XMat (ones 4 16)) = Ok true /\ all_ (XNot (XMat (ones 4 7))) = Ok false.
Proof. vm_compute; auto. Qed.
(* missing: sizes above 64 that are not multiples of 64, where the property is false *)
Theorem C05_all_refuted : exists ops m, Forall nonneg_op ops /\ mrun (bm_zero 1 65) ops = Ok m /\
  (forall i j, i < 1 -> j < 65 -> get m (Z.of_nat i) (Z.of_nat j) = Ok true) /\ all_ (XMat m) = Ok false.
Proof.
  exists [MBlockSet 0 0 1 65]. eexists. split; [repeat constructor|]. split; [vm_compute; reflexivity|]. split.
  - assert (F : forallb (fun j => match get (mkbm 1 65 2 [18446744073709551615; 1]%N) 0 (Z.of_nat j) with Ok b => b | _ => false end)
               (seq 0 65) = true) by (vm_compute; reflexivity).
    rewrite forallb_forall in F. intros i j Hi Hj. assert (i = 0) by lia. subst i.
    specialize (F j ltac:(apply in_seq; lia)). change (Z.of_nat 0) with 0%Z.
    destruct (get (mkbm 1 65 2 [18446744073709551615%N; 1%N]) 0 (Z.of_nat j)) as [[|]| | |]; congruence.
  - vm_compute. reflexivity.
Qed.
Theorem C05_all_refuted_false_positive : exists ops m, Forall nonneg_op ops /\ mrun (bm_zero 1 104) ops = Ok m /\
  get m 0 103 = Ok false /\ all_ (XMat m) = Ok true.
Proof.
  exists [MBlockSet 0 0 1 103]. eexists. split; [repeat constructor|]. split; [vm_compute; reflexivity|].
  vm_compute; auto.
Qed.
Theorem C05_all_exact : forall e, wf e -> blocks_good e -> 64 < size e -> size e mod 64 <> 0 ->
  exists w, bitpack e (size e / 64) = Ok w /\
  all_ e = Ok (forallb (fun p => den e (p / cols e) (p mod cols e)) (seq 0 (size e / 64 * 64)) &&
               forallb (fun b => N.testbit w (N.of_nat b)) (seq 0 (64 - size e mod 64))).
Proof. intros e W G. exact (all_remainder e (packs_ok e W G)). Qed.
Print Assumptions C05_all_partial.
Print Assumptions C05_all_refuted.

(* C06: any() *)
Theorem C06_any_partial : forall e, wf e -> blocks_good e -> (size e = 0 \/ 64 <= size e) ->
  exists b, any_ e = Ok b /\ (b = true <-> exists i j, i < rows e /\ j < cols e /\ den e i j = true).
Proof.
  intros e W G H. exists (any_spec e). split; [exact (any_large e (packs_ok e W G) H) | exact (any_spec_iff e)].
Qed.
Example C06_ex : any_ (XNot (XMat (ones 9 9))) = Ok false /\ any_ (XMat (ones 9 9)) = Ok true.
Proof. vm_compute; auto. Qed.
(* missing: sizes 1..63, where the property is false (both ways) *)
Theorem C06_any_refuted_missed : exists ops m, Forall nonneg_op ops /\ mrun (bm_zero 1 40) ops = Ok m /\
  get m 0 39 = Ok true /\ any_ (XMat m) = Ok false.
Proof.
  exists [MSet 0 39]. eexists. split; [repeat constructor; lia|]. split; [vm_compute; reflexivity|]. vm_compute; auto.
Qed.
Theorem C06_any_refuted_padding : exists e, wf e /\ blocks_good e /\
  (forall i j, i < rows e -> j < cols e -> den e i j = false) /\ any_ e = Ok true.
Proof.
  exists (XNot (XBlock (XMat (ones 2 2)) 0 0 2 2)). split; [|split; [cbn; unfold good_block; lia|split]].
  - split; [exact (ones_valid 2 2) | reflexivity].
  - intros [|[|i]] [|[|j]] Hi Hj; cbn in Hi, Hj; try lia; reflexivity.
  - vm_compute. reflexivity.
Qed.
Theorem C06_any_exact_small : forall e, wf e -> blocks_good e -> 0 < size e < 64 ->
  exists w, bitpack e 0 = Ok w /\ any_ e = Ok (existsb (fun b => N.testbit w (N.of_nat b)) (seq 0 (64 - size e))).
Proof. intros e W G. exact (any_small e (packs_ok e W G)). Qed.
Print Assumptions C06_any_partial.
Print Assumptions C06_any_refuted_missed.

(* C07: count() *)
Theorem C07_count : forall e, wf e -> blocks_good e ->
  count e = Ok (count_occ Bool.bool_dec (coeffs e) true).
Proof. intros e W G. rewrite <- (count_coeffs e). exact (count_ok e (packs_ok e W G)). Qed.
Example C07_ex : count (XNot (XMat (bm_zero 9 15))) = Ok 135 /\ count (XNot (XMat (ones 9 15))) = Ok 0.
Proof. vm_compute; auto. Qed.
Print Assumptions C07_count.

(* C08: equality *)
Theorem C08_equality_partial : forall e1 e2, wf e1 -> wf e2 -> blocks_good e1 -> blocks_good e2 ->
  rows e1 = rows e2 -> cols e1 = cols e2 -> size e1 mod 64 <> 0 ->
  exists b, beq e1 e2 = Ok b /\ bneq e1 e2 = Ok (negb b) /\
    (b = true <-> forall i j, i < rows e1 -> j < cols e1 -> den e1 i j = den e2 i j).
Proof.
  intros e1 e2 W1 W2 G1 G2 Er Ec Hs.
  destruct (beq_core e1 e2 (packs_ok e1 W1 G1) (packs_ok e2 W2 G2) Er Ec Hs) as [A B].
  exact (ex_intro _ (agree e1 e2) (conj A (conj B (agree_iff e1 e2 Er Ec)))).
Qed.
Example C08_ex : beq (XMat (ones 3 31)) (XNot (XMat (bm_zero 3 31))) = Ok true /\
                 bneq (XMat (ones 3 31)) (XMat (bm_zero 3 31)) = Ok true.
Proof. vm_compute; auto. Qed.
(* missing: for sizes that are multiples of 64 (0 included) the comparison is undefined *)
Theorem C08_undefined_on_multiples_refuted : forall e1 e2, wf e1 -> wf e2 -> blocks_good e1 -> blocks_good e2 ->
  rows e1 = rows e2 -> cols e1 = cols e2 -> size e1 mod 64 = 0 -> beq e1 e2 = UB /\ bneq e1 e2 = UB.
Proof. intros e1 e2 W1 W2 G1 G2. exact (beq_ub e1 e2 (packs_ok e1 W1 G1) (packs_ok e2 W2 G2)). Qed.
Theorem C08_mismatch_throws : forall e1 e2, (rows e1 <> rows e2 \/ cols e1 <> cols e2) ->
  beq e1 e2 = Throw /\ bneq e1 e2 = Throw.
Proof.
  intros e1 e2 H. unfold beq, bneq.
  replace ((rows e1 =? rows e2) && (cols e1 =? cols e2)) with false by lia. auto.
Qed.
Print Assumptions C08_equality_partial.

(* C09: which *)
Theorem C09_which : forall e b, wf e -> exists l, which e b = Ok l /\ StronglySorted lt l /\
  forall p, In p l <-> p < size e /\ den e (p / cols e) (p mod cols e) = b.
Proof.
  intros e b W. exists (filter (fun p => Bool.eqb (cat e p) b) (seq 0 (size e))).
  split; [exact (which_ok e b W)|split; [apply filter_seq_sorted|]].
  intros p. rewrite filter_In, in_seq. unfold cat. rewrite eqb_true_iff. intuition lia.
Qed.
Example C09_ex : which (XNot (XMat (bm_zero 2 3))) true = Ok [0; 1; 2; 3; 4; 5].
Proof. vm_compute; auto. Qed.
Print Assumptions C09_which.

(* C10: select *)
Theorem C10_select_dense : forall A (zero : A) e vals, wf e -> length vals = size e ->
  exists out, select_dense zero e (rows e) (cols e) vals = Ok out /\ length out = size e /\
    forall i j, i < rows e -> j < cols e ->
      nth_error out (i * cols e + j) = if den e i j then nth_error vals (i * cols e + j) else Some zero.
Proof. exact @select_dense_ok. Qed.
Theorem C10_select_sparse : forall A (zero : A) e entries, wf e ->
  Forall (fun t => fst (fst t) < rows e /\ snd (fst t) < cols e) entries ->
  select_sparse zero e (rows e) (cols e) entries =
  Ok (map (fun t => let '(i, j, v) := t in (i, j, if den e i j then v else zero)) entries).
Proof. exact @select_sparse_ok. Qed.
Theorem C10_mismatch_throws : forall A (zero : A) e r c vals entries, (rows e <> r \/ cols e <> c) ->
  select_dense zero e r c vals = Throw /\ select_sparse zero e r c entries = Throw.
Proof.
  intros A zero e r c vals entries H. unfold select_dense, select_sparse.
  replace ((rows e =? r) && (cols e =? c)) with false by lia. auto.
Qed.
Example C10_ex : select_dense 0 (XMat (match identity 2 2 with Ok m => m | _ => bm_default end)) 2 2 [7; 8; 9; 10]
  = Ok [7; 0; 0; 10].
Proof. vm_compute; auto. Qed.
Print Assumptions C10_select_dense.

(* C11: views *)
Theorem C11_view_reads_parent : forall e sr sc br bc, wf e -> sr + br <= rows e -> sc + bc <= cols e ->
  build (XBlock e sr sc br bc) = Ok tt /\
  forall i j, i < br -> j < bc -> coeff (XBlock e sr sc br bc) i j = coeff e (sr + i) (sc + j).
Proof.
  intros e sr sc br bc W H1 H2.
  assert (B : build (XBlock e sr sc br bc) = Ok tt).
  { cbn [build]. rewrite (proj2 W); cbn [bind]. apply assert_ok. lia. }
  split; [exact B|]. intros i j Hi Hj. cbn [coeff].
  replace ((i <? br) && (j <? bc)) with true by lia. cbn [assert_ bind].
  now rewrite (Nat.add_comm i), (Nat.add_comm j).
Qed.
(* the named views: row, col, topRows, bottomRows, leftCols, rightCols *)
Theorem C11_named_views : forall e n, wf e ->
  (n < rows e -> build (xrow e n) = Ok tt /\ rows (xrow e n) = 1 /\ cols (xrow e n) = cols e /\ forall j, j < cols e -> coeff (xrow e n) 0 j = coeff e n j) /\
  (n < cols e -> build (xcol e n) = Ok tt /\ rows (xcol e n) = rows e /\ cols (xcol e n) = 1 /\ forall i, i < rows e -> coeff (xcol e n) i 0 = coeff e i n) /\
  (n <= rows e -> build (top_rows e n) = Ok tt /\ rows (top_rows e n) = n /\ cols (top_rows e n) = cols e /\
     build (bottom_rows e n) = Ok tt /\ rows (bottom_rows e n) = n /\ cols (bottom_rows e n) = cols e /\
     forall i j, i < n -> j < cols e -> coeff (top_rows e n) i j = coeff e i j /\ coeff (bottom_rows e n) i j = coeff e (rows e - n + i) j) /\
  (n <= cols e -> build (left_cols e n) = Ok tt /\ rows (left_cols e n) = rows e /\ cols (left_cols e n) = n /\
     build (right_cols e n) = Ok tt /\ rows (right_cols e n) = rows e /\ cols (right_cols e n) = n /\
     forall i j, i < rows e -> j < n -> coeff (left_cols e n) i j = coeff e i j /\ coeff (right_cols e n) i j = coeff e i (cols e - n + j)).
Proof.
  intros e n W. unfold xrow, xcol, top_rows, bottom_rows, left_cols, right_cols. split; [|split; [|split]]; intros Hn.
  - destruct (C11_view_reads_parent e n 0 1 (cols e) W) as [B R]; [lia|lia|]. repeat split; auto. intros j Hj. rewrite R by lia. f_equal; lia.
  - destruct (C11_view_reads_parent e 0 n (rows e) 1 W) as [B R]; [lia|lia|]. repeat split; auto. intros j Hj. rewrite R by lia. f_equal; lia.
  - destruct (C11_view_reads_parent e 0 0 n (cols e) W) as [B R]; [lia|lia|]. destruct (C11_view_reads_parent e (rows e - n) 0 n (cols e) W) as [B' R']; [lia|lia|].
    repeat split; auto; [rewrite R by lia|rewrite R' by lia]; f_equal; lia.
  - destruct (C11_view_reads_parent e 0 0 (rows e) n W) as [B R]; [lia|lia|]. destruct (C11_view_reads_parent e 0 (cols e - n) (rows e) n W) as [B' R']; [lia|lia|].
    repeat split; auto; [rewrite R by lia|rewrite R' by lia]; f_equal; lia.
Qed.
Theorem C11_view_out_of_range_throws : forall e sr sc br bc, build e = Ok tt ->
  (rows e < sr + br \/ cols e < sc + bc) -> build (XBlock e sr sc br bc) = Throw.
Proof.
  intros e sr sc br bc B H. cbn [build]. rewrite B; cbn [bind].
  replace ((sr + br <=? rows e) && (sc + bc <=? cols e)) with false by lia. reflexivity.
Qed.
Theorem C11_view_set_clear : forall (v : bool) m sr sc br bc r c f, valid m -> shows m r c f -> sr + br <= r -> sc + bc <= c ->
  exists m', (if v then block_set m sr sc br bc else block_clear m sr sc br bc) = Ok m' /\ valid m' /\
    shows m' r c (rect sr sc br bc v f).
Proof.
  intros v m sr sc br bc r c f V S H1 H2.
  destruct (block_fold v m sr sc br bc r c f V S H1 H2) as (m' & E & R).
  exists m'. split; [|exact R]. destruct v; exact E.
Qed.
(* row and column views can always be materialised *)
Theorem C11_row_materialize : forall e i, wf e -> i < rows e -> 0 < cols e ->
  exists m, materialize_vec true (xrow e i) = Ok m /\ valid m /\ shows m (cols e) 1 (fun j _ => den e (i + 0) j).
Proof.
  intros e i W Hi Hc. refine (materialize_vec_row (xrow e i) _ _ eq_refl).
  - split; [exact (proj1 W)|]. cbn. rewrite (proj2 W); cbn [bind]. apply assert_ok. lia.
  - cbn. unfold good_block. lia.
Qed.
Theorem C11_col_materialize : forall e j, wf e -> j < cols e ->
  exists m, materialize_vec false (xcol e j) = Ok m /\ valid m /\ shows m (rows e) 1 (fun i k => den e i (j + k)).
Proof.
  intros e j W Hj. refine (materialize_vec_col (xcol e j) _ _ eq_refl).
  - split; [exact (proj1 W)|]. cbn. rewrite (proj2 W); cbn [bind]. apply assert_ok. lia.
  - cbn. unfold good_block. split; [lia|]. right; right. reflexivity.
Qed.
Theorem C11_materialize_partial : forall e sr sc br bc, wf e -> sr + br <= rows e -> sc + bc <= cols e ->
  good_block br bc ->
  exists m, materialize (XBlock e sr sc br bc) = Ok m /\ valid m /\
    shows m br bc (fun i j => den e (sr + i) (sc + j)).
Proof.
  intros e sr sc br bc W H1 H2 G. refine (materialize_ok (XBlock e sr sc br bc) _ G).
  split; [exact (proj1 W)|]. cbn [build]. rewrite (proj2 W); cbn [bind]. apply assert_ok. lia.
Qed.
(* missing: blocks larger than one pack whose column count does not divide 64 *)
Theorem C11_materialize_refuted : exists m sr sc br bc m',
  valid m /\ build (XBlock (XMat m) sr sc br bc) = Ok tt /\
  materialize (XBlock (XMat m) sr sc br bc) = Ok m' /\
  coeff (XBlock (XMat m) sr sc br bc) 2 0 = Ok false /\ get m' 2 0 = Ok true.
Proof.
  exists (match set (bm_zero 3 41) 1 40 with Ok m => m | _ => bm_default end), 0, 0, 3, 40. eexists.
  split; [|vm_compute; auto].
  destruct (soc_shows true (bm_zero 3 41) 1 40 3 41 _ (bm_zero_valid 3 41) (bm_zero_shows 3 41)) as (m & E & V & _); try lia.
  change (set (bm_zero 3 41) 1 40) with (set_or_clear true (bm_zero 3 41) (Z.of_nat 1) (Z.of_nat 40)).
  rewrite E. exact V.
Qed.
Theorem C11_materialize_empty_refuted : exists m, valid m /\ build (XBlock (XMat m) 0 0 1 0) = Ok tt /\
  materialize (XBlock (XMat m) 0 0 1 0) = UB.
Proof. exists (bm_zero 3 3). split; [apply bm_zero_valid|]. vm_compute; auto. Qed.
Print Assumptions C11_view_set_clear.
Print Assumptions C11_named_views.
Print Assumptions C11_materialize_refuted.

(* C12: block assignment *)
Theorem C12_block_assign_partial : forall m sr sc rhs r c f, valid m -> shows m r c f -> wf rhs ->
  sr + rows rhs <= r -> sc + cols rhs <= c ->
  (forall x y, sr <= x < sr + rows rhs -> sc <= y < sc + cols rhs -> f x y = false) ->
  exists m', block_assign m sr sc (rows rhs) (cols rhs) rhs = Ok m' /\ valid m' /\
    shows m' r c (fun x y =>
      if (sr <=? x) && (x <? sr + rows rhs) && (sc <=? y) && (y <? sc + cols rhs)
      then den rhs (x - sr) (y - sc) else f x y).
Proof.
  intros m sr sc rhs r c f V S W H1 H2 H3.
  destruct (block_assign_ok m sr sc rhs r c f V S W H1 H2) as (m' & E & V' & S').
  exists m'. split; [exact E|split; [exact V'|]]. refine (shows_ext _ _ _ _ _ _ S').
  intros x y _ _. cbv beta. destruct ((sr <=? x) && (x <? sr + rows rhs) && (sc <=? y) && (y <? sc + cols rhs)) eqn:E1; auto.
  rewrite H3 by lia. apply orb_false_r.
Qed.
(* missing: a block that already holds true coefficients; the assignment only ORs *)
Theorem C12_block_assign_refuted : exists m rhs m', valid m /\ wf rhs /\
  block_assign m 0 0 2 2 rhs = Ok m' /\ coeff rhs 1 1 = Ok false /\ get m' 1 1 = Ok true.
Proof.
  exists (ones 2 2), (XMat (bm_zero 2 2)). eexists.
  split; [apply ones_valid|]. split; [split; [apply bm_zero_valid|reflexivity]|]. vm_compute; auto.
Qed.
Theorem C12_block_assign_exact : forall m sr sc rhs r c f, valid m -> shows m r c f -> wf rhs ->
  sr + rows rhs <= r -> sc + cols rhs <= c ->
  exists m', block_assign m sr sc (rows rhs) (cols rhs) rhs = Ok m' /\ valid m' /\
    shows m' r c (fun x y =>
      if (sr <=? x) && (x <? sr + rows rhs) && (sc <=? y) && (y <? sc + cols rhs)
      then den rhs (x - sr) (y - sc) || f x y else f x y).
Proof. exact block_assign_ok. Qed.
Print Assumptions C12_block_assign_partial.

(* C13: repeat *)
Theorem C13_repeat_coefficient : forall e a b, wf e -> forall i j, i < rows e * a -> j < cols e * b ->
  coeff (XRepeat e a b) i j = Ok (den e (i mod rows e) (j mod cols e)).
Proof. intros e a b W. exact (coeff_den (XRepeat e a b) W). Qed.
Theorem C13_repeat_materialize : forall e a b, wf e ->
  exists m, materialize (XRepeat e a b) = Ok m /\ valid m /\
    shows m (rows e * a) (cols e * b) (fun i j => den e (i mod rows e) (j mod cols e)).
Proof. intros e a b W. exact (materialize_ok (XRepeat e a b) W I). Qed.
Theorem C13_repeat_count : forall e a b n, wf e -> blocks_good e -> count e = Ok n ->
  count (XRepeat e a b) = Ok (a * b * n).
Proof.
  intros e a b n W G H. rewrite (count_ok e (packs_ok e W G)) in H. injection H as <-.
  rewrite (count_ok (XRepeat e a b) (packs_ok (XRepeat e a b) W I)). now rewrite repeat_tally.
Qed.
Example C13_ex : let m := match identity 3 5 with Ok m => m | _ => bm_default end in
  count (XMat m) = Ok 3 /\ count (XRepeat (XMat m) 4 3) = Ok 36.
Proof. vm_compute; auto. Qed.
Print Assumptions C13_repeat_count.

(* C14: reshape *)
Theorem C14_reshape_sequence : forall e r c, wf e -> r * c = size e ->
  build (XReshape e r c) = Ok tt /\ rows (XReshape e r c) = r /\ cols (XReshape e r c) = c /\
  forall p, p < size e -> coeff (XReshape e r c) (p / c) (p mod c) = coeff e (p / cols e) (p mod cols e).
Proof.
  intros e r c W H.
  assert (B : build (XReshape e r c) = Ok tt).
  { cbn [build]. rewrite (proj2 W); cbn [bind]. apply assert_ok. apply Nat.eqb_eq. exact H. }
  split; [exact B|]. split; [reflexivity|]. split; [reflexivity|]. intros p Hp.
  assert (Hc : c <> 0) by (intros ->; lia). assert (He : cols e <> 0) by (intros E; unfold size in Hp; rewrite E in Hp; lia).
  cbn [coeff]. assert (p / c < r) by (apply Nat.div_lt_upper_bound; lia). pose proof (Nat.mod_upper_bound p c Hc).
  replace ((p / c <? r) && (p mod c <? c)) with true by lia. cbn [assert_ bind].
  replace (cols e =? 0) with false by lia.
  replace (p / c * c + p mod c) with p by (rewrite (Nat.div_mod p c Hc) at 1; lia). reflexivity.
Qed.
Theorem C14_vector_view : forall e p, wf e -> p < size e ->
  build (vector_view e) = Ok tt /\ rows (vector_view e) = size e /\ cols (vector_view e) = 1 /\ coeff (vector_view e) p 0 = coeff e (p / cols e) (p mod cols e).
Proof.
  intros e p W Hp. destruct (C14_reshape_sequence e (size e) 1 W) as (B & R & C & S); [lia|]. repeat split; auto.
  specialize (S p Hp). rewrite Nat.div_1_r, Nat.mod_1_r in S. exact S.
Qed.
Theorem C14_reshape_round_trip : forall e r c i j, wf e -> r * c = size e -> i < rows e -> j < cols e ->
  build (XReshape (XReshape e r c) (rows e) (cols e)) = Ok tt /\
  coeff (XReshape (XReshape e r c) (rows e) (cols e)) i j = coeff e i j.
Proof.
  intros e r c i j W H Hi Hj.
  assert (B1 : build (XReshape e r c) = Ok tt).
  { cbn [build]. rewrite (proj2 W); cbn [bind]. apply assert_ok. apply Nat.eqb_eq. exact H. }
  assert (B2 : build (XReshape (XReshape e r c) (rows e) (cols e)) = Ok tt).
  { cbn [build] in *. rewrite B1; cbn [bind]. apply assert_ok. apply Nat.eqb_eq. symmetry. exact H. }
  split; [exact B2|].
  rewrite (coeff_den (XReshape (XReshape e r c) (rows e) (cols e)) (conj (proj1 W) B2) i j Hi Hj), (coeff_den e W i j Hi Hj). cbn [den rows cols]. f_equal.
  assert (c <> 0) by (intros ->; pose proof (flat_lt _ _ _ _ Hi Hj); unfold size in H; lia).
  pose proof (Nat.div_mod (i * cols e + j) c H0) as D.
  replace ((i * cols e + j) / c * c + (i * cols e + j) mod c) with (i * cols e + j) by lia.
  destruct (div_flat i (cols e) j Hj) as [-> ->]. reflexivity.
Qed.
Theorem C14_reshape_mismatch_throws : forall e r c, build e = Ok tt -> r * c <> size e ->
  build (XReshape e r c) = Throw.
Proof.
  intros e r c B H. cbn [build]. rewrite B; cbn [bind].
  destruct (Nat.eqb_spec (r * c) (rows e * cols e)); [contradiction|reflexivity].
Qed.
Theorem C14_reshape_materialize : forall e r c, wf e -> blocks_good e -> r * c = size e ->
  exists m, materialize (XReshape e r c) = Ok m /\ valid m /\
    shows m r c (fun i j => den e ((i * c + j) / cols e) ((i * c + j) mod cols e)).
Proof.
  intros e r c W G H. refine (materialize_ok (XReshape e r c) _ G).
  split; [exact (proj1 W)|]. cbn [build]. rewrite (proj2 W); cbn [bind]. apply assert_ok, Nat.eqb_eq, H.
Qed.
Example C14_ex : build (XReshape (XMat (ones 6 35)) 10 21) = Ok tt /\ build (XReshape (XMat (ones 6 35)) 10 20) = Throw.
Proof. vm_compute; auto. Qed.
Print Assumptions C14_reshape_round_trip.

(* C15: ranges *)
Theorem C15_range_square_partial : forall n l, length l = n * n ->
  exists m, of_range l n n = Ok m /\ valid m /\ shows m n n (fun i j => nth (i * n + j) l false).
Proof. exact of_range_square. Qed.
Theorem C15_range_vector : forall n l, length l = n ->
  exists m, of_range_vec l n = Ok m /\ valid m /\ shows m n 1 (fun i _ => nth i l false).
Proof. exact of_range_vec_ok. Qed.
Example C15_ex : length [true; false; true; true] = 2 * 2 /\
  match of_range [true; false; true; true] 2 2 with Ok m => get m 1 0 | _ => UB end = Ok true.
Proof. vm_compute; auto. Qed.
(* missing: non-square shapes; a wide one throws, a tall one stores at wrong places *)
Theorem C15_range_refuted_throws : exists l, length l = 2 * 5 /\ of_range l 2 5 = Throw.
Proof. exists (repeat true 10). vm_compute; auto. Qed.
Theorem C15_range_refuted_misplaced : exists l m, length l = 3 * 2 /\ of_range l 3 2 = Ok m /\
  nth (2 * 2 + 1) l false = true /\ get m 2 1 = Ok false.
Proof. exists (repeat true 6). eexists. vm_compute; auto. Qed.
Print Assumptions C15_range_square_partial.

(* C95: conversion from dense numeric matrices *)
Theorem C95_of_dense : forall r c f, exists m, of_dense r c f = Ok m /\ valid m /\ shows m r c f.
Proof. exact of_dense_ok. Qed.
Theorem C95_assign_dense_dynamic : forall m r c f, exists m', assign_dense true m r c f = Ok m' /\ valid m' /\ shows m' r c f.
Proof. exact assign_dense_dyn. Qed.
Theorem C95_assign_dense_static_partial : forall m r c f g, valid m -> shows m r c g ->
  exists m', assign_dense false m r c f = Ok m' /\ valid m' /\ shows m' r c (fun i j => f i j || g i j).
Proof. exact assign_dense_static. Qed.
(* missing for static sized matrices: the old true coefficients survive *)
Theorem C95_assign_dense_static_refuted : exists m f m', valid m /\ assign_dense false m 2 2 f = Ok m' /\
  f 0 0 = false /\ get m' 0 0 = Ok true.
Proof. exists (ones 2 2), (fun _ _ => false). eexists. split; [apply ones_valid|]. vm_compute; auto. Qed.
Print Assumptions C95_of_dense.
