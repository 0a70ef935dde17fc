(* Properties C38, C39: one-dimensional meshes. *)
From Coq Require Import Lqa.
From Verif Require Import Base IntervalModel.

Lemma q_lt_iff : forall x y, q_lt x y = true <-> (x < y)%Q.
Proof.
  intros x y. unfold q_lt. rewrite negb_true_iff. split; intros H.
  - apply Qnot_le_lt. intros L. apply Qle_bool_iff in L. congruence.
  - destruct (Qle_bool y x) eqn:E; auto. apply Qle_bool_iff in E. lra.
Qed.
Lemma q_lt_false : forall x y, q_lt x y = false <-> (y <= x)%Q.
Proof. intros x y. unfold q_lt. rewrite negb_false_iff. apply Qle_bool_iff. Qed.

(* neighbours the property asks for *)
Definition want_neigh (nc i : nat) : Z * Z :=
  (if i =? 0 then (-1)%Z else (Z.of_nat i - 1)%Z, if i =? nc - 1 then (-1)%Z else (Z.of_nat i + 1)%Z).

Lemma set_neigh_get : forall m i j v x, nth_error m i = Some x -> (j = 0 \/ j = 1) ->
  exists m', set_neigh m i j v = Ok m' /\ length m' = length m /\
    nth_error m' i = Some (if j =? 0 then (v, snd x) else (fst x, v)) /\
    forall k, k <> i -> nth_error m' k = nth_error m k.
Proof.
  intros m i j v x Hx Hj. unfold set_neigh, nth_res, upd_res. rewrite Hx. cbn [bind].
  assert (Hi: i < length m) by (apply nth_error_Some; congruence).
  replace (i <? length m) with true by (symmetry; apply Nat.ltb_lt; auto).
  destruct Hj; subst j; eexists; (split; [reflexivity|]); (split; [apply upd_length|]);
    (split; [rewrite nth_error_upd_same; auto|intros; rewrite nth_error_upd_other; auto]).
Qed.

Lemma mid_loop : forall n s m, (forall i, s <= i < s + n -> exists x, nth_error m i = Some x) ->
  exists m', foldM (fun m i => m' <- set_neigh m i 0 (Z.of_nat i - 1)%Z ;; set_neigh m' i 1 (Z.of_nat i + 1)%Z) (seq s n) m = Ok m' /\
    length m' = length m /\ (forall i, s <= i < s + n -> nth_error m' i = Some (Z.of_nat i - 1, Z.of_nat i + 1)%Z) /\
    (forall i, ~ (s <= i < s + n) -> nth_error m' i = nth_error m i).
Proof.
  induction n as [|n IH]; intros s m Hm; simpl.
  - exists m. split; [auto|]. split; [auto|]. split; [intros; lia|auto].
  - destruct (Hm s) as [x Hx]; [lia|].
    destruct (set_neigh_get m s 0 (Z.of_nat s - 1)%Z x Hx ltac:(auto)) as (m1 & A1 & B1 & C1 & D1). rewrite A1. cbn [bind].
    destruct (set_neigh_get m1 s 1 (Z.of_nat s + 1)%Z _ C1 ltac:(auto)) as (m2 & A2 & B2 & C2 & D2). rewrite A2. cbn [bind].
    destruct (IH (S s) m2) as (m3 & A3 & B3 & C3 & D3).
    { intros i Hi. rewrite D2, D1 by lia. apply Hm; lia. }
    exists m3. split; [exact A3|]. split; [lia|]. split.
    + intros i Hi. destruct (Nat.eq_dec i s) as [->|]; [|apply C3; lia]. rewrite D3, C2 by lia. reflexivity.
    + intros i Hi. rewrite D3, D2, D1 by lia. reflexivity.
Qed.

(* ---- C39 ---------------------------------------------------------------------------------- *)
Theorem interval_neighbours_partial : forall nodes, 3 <= length nodes ->
  exists t, interval_ctor nodes = Ok t /\ iv_nodes t = nodes /\ iv_nn t = length nodes /\ iv_nc t = length nodes - 1 /\
    length (iv_neigh t) = iv_nc t /\
    (forall i, i < iv_nc t -> nth_error (iv_neigh t) i = Some (want_neigh (iv_nc t) i)) /\
    (forall i, i < iv_nc t -> nth_error (iv_cells t) i = Some (i, i + 1)) /\
    (forall id, id < iv_nn t -> boundary_marker t id = Ok ((id =? 0) || (id =? iv_nn t - 1)) /\
       is_node_on_boundary t id = ((id =? 0) || (id =? iv_nn t - 1))).
Proof.
  intros nodes Hn. unfold interval_ctor. cbv zeta.
  set (nn := length nodes) in *. set (nc := nn - 1).
  destruct (nth_error nodes 0) as [x0|] eqn:E0; [|apply nth_error_None in E0; lia].
  destruct (nth_error nodes nc) as [x1|] eqn:E1; [|apply nth_error_None in E1; lia].
  rewrite (proj2 (nth_res_ok _ _ _) E0). cbn [bind]. rewrite (proj2 (nth_res_ok _ _ _) E1). cbn [bind]. fold nn nc.
  assert (R: forall i, i < nc -> nth_error (repeat (-1, -1)%Z nc) i = Some (-1, -1)%Z).
  { intros i Hi. rewrite nth_error_repeat'. destruct (i <? nc) eqn:E; auto. apply Nat.ltb_ge in E. lia. }
  destruct (set_neigh_get (repeat (-1, -1)%Z nc) 0 1 1%Z _ (R 0 ltac:(unfold nc; lia)) ltac:(auto)) as (m1 & A1 & B1 & C1 & D1).
  rewrite A1. cbn [bind]. rewrite repeat_length in B1.
  destruct (mid_loop (nc - 1 - 1) 1 m1) as (m2 & A2 & B2 & C2 & D2).
  { intros i Hi. rewrite D1 by lia. rewrite R by lia. eauto. }
  rewrite A2. cbn [bind]. replace (nc =? 0) with false by (symmetry; apply Nat.eqb_neq; unfold nc; lia).
  assert (L2: nth_error m2 (nc - 1) = Some (-1, -1)%Z).
  { rewrite D2 by lia. rewrite D1 by (unfold nc; lia). apply R. unfold nc; lia. }
  destruct (set_neigh_get m2 (nc - 1) 0 (Z.of_nat nc - 2)%Z _ L2 ltac:(auto)) as (m3 & A3 & B3 & C3 & D3).
  rewrite A3. cbn [bind]. unfold upd_res. rewrite repeat_length.
  replace (0 <? nn) with true by (symmetry; apply Nat.ltb_lt; lia). cbn [bind].
  rewrite upd_length, repeat_length. replace (nc <? nn) with true by (symmetry; apply Nat.ltb_lt; lia). cbn [bind].
  eexists. split; [reflexivity|]. cbn [iv_nodes iv_nn iv_nc iv_neigh iv_cells iv_markers].
  split; [auto|]. split; [auto|]. split; [auto|]. split; [lia|]. split; [|split].
  - intros i Hi. unfold want_neigh.
    destruct (Nat.eq_dec i (nc - 1)) as [->|Hl].
    + rewrite C3. cbn [Nat.eqb snd]. rewrite Nat.eqb_refl. replace (nc - 1 =? 0) with false by (symmetry; apply Nat.eqb_neq; lia).
      do 2 f_equal. lia.
    + rewrite D3 by auto. replace (i =? nc - 1) with false by (symmetry; apply Nat.eqb_neq; auto).
      destruct (Nat.eq_dec i 0) as [->|H0].
      * rewrite D2 by lia. rewrite C1. reflexivity.
      * rewrite C2 by lia. replace (i =? 0) with false by (symmetry; apply Nat.eqb_neq; auto). reflexivity.
  - intros i Hi. rewrite nth_error_map'. rewrite nth_error_seq. fold nc. destruct (i <? nc) eqn:E; [reflexivity|]. apply Nat.ltb_ge in E; lia.
  - intros id Hid. split; [|reflexivity]. unfold boundary_marker, nth_res. cbn [iv_markers].
    assert (Hr: nth_error (repeat false nn) id = Some false).
    { rewrite nth_error_repeat'. destruct (id <? nn) eqn:E; auto. apply Nat.ltb_ge in E. lia. }
    destruct (Nat.eq_dec id (nn - 1)) as [->|Hl].
    + rewrite nth_error_upd_same by (rewrite upd_length, repeat_length; lia). rewrite Nat.eqb_refl, orb_true_r. reflexivity.
    + rewrite nth_error_upd_other by auto. replace (id =? nn - 1) with false by (symmetry; apply Nat.eqb_neq; auto).
      destruct (Nat.eq_dec id 0) as [->|H0].
      * rewrite nth_error_upd_same by (rewrite repeat_length; lia). reflexivity.
      * rewrite nth_error_upd_other, Hr by auto. replace (id =? 0) with false by (symmetry; apply Nat.eqb_neq; auto). reflexivity.
Qed.
Print Assumptions interval_neighbours_partial.
(* one cell: cell 0 is given the neighbour 1, which does not exist; no cell: out of range write *)
Theorem interval_neighbours_refuted : forall a b : Q,
  (exists t, interval_ctor [a; b] = Ok t /\ iv_nc t = 1 /\ nth_error (iv_neigh t) 0 = Some (-1, 1)%Z) /\
  interval_ctor [a] = UB /\ interval_ctor [] = UB.
Proof. intros a b. split; [eexists; split; [reflexivity|split; reflexivity]|split; reflexivity]. Qed.
Print Assumptions interval_neighbours_refuted.

(* ---- C38 ---------------------------------------------------------------------------------- *)
Definition at_ (l : list Q) (i : nat) : Q := nth i l 0%Q.
Definition sorted (l : list Q) : Prop := forall i j, i <= j < length l -> (at_ l i <= at_ l j)%Q.

Lemma nth_res_at : forall l i, i < length l -> nth_res l i = Ok (at_ l i).
Proof. intros l i Hi. unfold nth_res, at_. rewrite (nth_error_nth' l 0%Q Hi). reflexivity. Qed.

Lemma ctor_fields : forall nodes t, interval_ctor nodes = Ok t -> iv_nodes t = nodes /\ iv_nn t = length nodes /\ 2 <= length nodes /\
  iv_range t = (at_ nodes 0, at_ nodes (length nodes - 1)).
Proof.
  intros nodes t H. unfold interval_ctor in H. cbv zeta in H.
  destruct nodes as [|x0 [|x1 nodes]]; [discriminate|discriminate|].
  rewrite !nth_res_at in H by (simpl; lia). cbn [bind] in H.
  destruct (set_neigh _ _ _ _); try discriminate. cbn [bind] in H.
  destruct (foldM _ _ _); try discriminate. cbn [bind] in H.
  destruct (if _ =? 0 then _ else _); try discriminate. cbn [bind] in H.
  destruct (upd_res _ 0 _); try discriminate. cbn [bind] in H.
  destruct (upd_res _ _ _); try discriminate. cbn [bind] in H.
  injection H as <-. cbn [iv_nodes iv_nn iv_range]. split; [auto|]. split; [auto|]. split; [simpl; lia|auto].
Qed.

Lemma locate_loop_ok : forall nodes t, iv_nodes t = nodes -> forall fuel x h_min h_max,
  h_min < h_max <= length nodes -> (at_ nodes h_min <= x)%Q -> (x < at_ nodes (length nodes - 1))%Q ->
  (h_max < length nodes -> (x < at_ nodes h_max)%Q) -> h_max - h_min <= fuel ->
  exists j, locate_loop t x fuel h_min h_max = Ok j /\ j + 1 < length nodes /\ (at_ nodes j <= x)%Q /\ (x < at_ nodes (j + 1))%Q.
Proof.
  intros nodes t Ht; induction fuel as [|fuel IH]; intros x a b Hab Ha Hx Hb Hf; [lia|].
  cbn [locate_loop]. rewrite Ht. set (j := a + (b - a) / 2).
  assert (Hj: a <= j < b). { unfold j. pose proof (Nat.div_lt (b - a) 2 ltac:(lia) ltac:(lia)). lia. }
  assert (Hj1: b - a = 1 -> j = a). { intros E. unfold j. rewrite E. simpl. lia. }
  assert (Hj2: 2 <= b - a -> a < j). { intros E. unfold j. pose proof (Nat.div_le_mono 2 (b - a) 2 ltac:(lia) E). simpl in H. lia. }
  rewrite nth_res_at by lia. cbn [bind].
  destruct (Qle_bool (at_ nodes j) x) eqn:E.
  - apply Qle_bool_iff in E.
    assert (Hjn: j + 1 < length nodes).
    { destruct (Nat.eq_dec j (length nodes - 1)) as [Ej|]; [|lia]. rewrite Ej in E. exfalso; lra. }
    rewrite nth_res_at by lia. cbn [bind]. destruct (q_lt x (at_ nodes (j + 1))) eqn:E2.
    + apply q_lt_iff in E2. exists j. auto.
    + apply q_lt_false in E2. replace (q_lt x (at_ nodes j)) with false by (symmetry; apply q_lt_false; auto).
      assert (2 <= b - a).
      { destruct (Nat.eq_dec (b - a) 1) as [E3|]; [|lia]. specialize (Hj1 E3). subst j. exfalso.
        destruct (Nat.eq_dec b (length nodes)) as [->|]; [lia|]. specialize (Hb ltac:(lia)). replace b with (a + (b - a) / 2 + 1) in Hb by lia. lra. }
      apply IH; auto; lia.
  - cbn [bind]. replace (q_lt x (at_ nodes j)) with true.
    + assert (a < j).
      { destruct (Nat.eq_dec (b - a) 1) as [E3|]; [|apply Hj2; lia]. rewrite (Hj1 E3) in E. apply Qle_bool_iff in Ha. congruence. }
      apply IH; auto; try lia. intros _. apply Qnot_le_lt. intros L. apply Qle_bool_iff in L. congruence.
    + symmetry. apply q_lt_iff. apply Qnot_le_lt. intros L. apply Qle_bool_iff in L. congruence.
Qed.

(* everywhere but at the right end point *)
Theorem interval_locate_partial : forall nodes t x fuel, interval_ctor nodes = Ok t -> sorted nodes ->
  length nodes <= fuel -> ~ (x == at_ nodes (length nodes - 1))%Q ->
  (((x < at_ nodes 0)%Q \/ (at_ nodes (length nodes - 1) < x)%Q) /\ locate_point t fuel x = Ok (-1)%Z /\
     forall i, i + 1 < length nodes -> ~ ((at_ nodes i <= x)%Q /\ (x <= at_ nodes (i + 1))%Q)) \/
  (exists i, locate_point t fuel x = Ok (Z.of_nat i) /\ i + 1 < length nodes /\
     (at_ nodes i <= x)%Q /\ (x <= at_ nodes (i + 1))%Q).
Proof.
  intros nodes t x fuel Hc Hs Hf Hne. destruct (ctor_fields nodes t Hc) as (A & B & C & D).
  unfold locate_point. rewrite D, B. cbn [fst snd].
  destruct (q_lt x (at_ nodes 0) || q_lt (at_ nodes (length nodes - 1)) x) eqn:E.
  - left. apply orb_true_iff in E. rewrite !q_lt_iff in E. split; [auto|]. split; [reflexivity|].
    intros i Hi [H1 H2]. destruct E as [E|E].
    + pose proof (Hs 0 i ltac:(lia)). lra.
    + pose proof (Hs (i + 1) (length nodes - 1) ltac:(lia)). lra.
  - right. apply orb_false_iff in E. rewrite !q_lt_false in E.
    assert (Hx: (x < at_ nodes (length nodes - 1))%Q).
    { destruct (Qlt_le_dec x (at_ nodes (length nodes - 1))); auto. exfalso. apply Hne. lra. }
    destruct (locate_loop_ok nodes t A fuel x 0 (length nodes)) as (j & J1 & J2 & J3 & J4); auto; try lia; [lra|].
    exists j. rewrite J1. cbn [bind]. split; [auto|]. split; [auto|]. split; [auto|]. lra.
Qed.
Print Assumptions interval_locate_partial.

(* locate(points): one answer per point, in the order of the points *)
Theorem interval_locate_points_partial : forall nodes t xs fuel, interval_ctor nodes = Ok t -> sorted nodes -> length nodes <= fuel ->
  (forall x, In x xs -> ~ (x == at_ nodes (length nodes - 1))%Q) ->
  exists ids, interval_locate t fuel xs = Ok ids /\ length ids = length xs /\
    forall k x, nth_error xs k = Some x ->
      (((x < at_ nodes 0)%Q \/ (at_ nodes (length nodes - 1) < x)%Q) /\ nth_error ids k = Some (-1)%Z) \/
      (exists i, nth_error ids k = Some (Z.of_nat i) /\ i + 1 < length nodes /\ (at_ nodes i <= x)%Q /\ (x <= at_ nodes (i + 1))%Q).
Proof.
  intros nodes t xs fuel Hc Hs Hf Hne. unfold interval_locate. induction xs as [|x xs IH].
  - exists []. split; [reflexivity|]. split; [reflexivity|]. intros [|k] y Hy; discriminate.
  - destruct IH as (ids & E & L & H); [intros y Hy; apply Hne; now right|]. cbn [mapM].
    assert (P := interval_locate_partial nodes t x fuel Hc Hs Hf (Hne x (or_introl eq_refl))).
    destruct P as [(O & P & _)|(i & P & Hi)]; rewrite P; cbn [bind]; rewrite E; cbn [bind]; eexists; (split; [reflexivity|]); (split; [cbn [length]; lia|]); intros [|k] y Hy.
    + injection Hy as <-. left. auto.
    + apply H. exact Hy.
    + injection Hy as <-. right. exists i. auto.
    + apply H. exact Hy.
Qed.
Print Assumptions interval_locate_points_partial.

(* at the right end point every search reads one element past the nodes *)
Lemma locate_loop_end : forall nodes t, iv_nodes t = nodes -> sorted nodes -> forall fuel x a,
  (x == at_ nodes (length nodes - 1))%Q -> a < length nodes -> length nodes - a <= fuel ->
  (exists j, locate_loop t x fuel a (length nodes) = Ok j) \/ locate_loop t x fuel a (length nodes) = UB.
Proof.
  intros nodes t Ht Hs; induction fuel as [|fuel IH]; intros x a Hx Ha Hf; [lia|].
  cbn [locate_loop]. rewrite Ht. set (j := a + (length nodes - a) / 2).
  assert (Hj: a <= j < length nodes). { unfold j. pose proof (Nat.div_lt (length nodes - a) 2 ltac:(lia) ltac:(lia)). lia. }
  rewrite nth_res_at by lia. cbn [bind].
  pose proof (Hs j (length nodes - 1) ltac:(lia)) as Hle.
  replace (Qle_bool (at_ nodes j) x) with true by (symmetry; apply Qle_bool_iff; lra).
  destruct (Nat.eq_dec j (length nodes - 1)) as [Ej|].
  - unfold nth_res. replace (nth_error nodes (j + 1)) with (@None Q) by (symmetry; apply nth_error_None; lia). cbn [bind]. auto.
  - rewrite nth_res_at by lia. cbn [bind]. destruct (q_lt x (at_ nodes (j + 1))); [eauto|].
    replace (q_lt x (at_ nodes j)) with false by (symmetry; apply q_lt_false; lra).
    assert (Hj2: a < j \/ (a = j /\ length nodes - a = 1)).
    { destruct (Nat.eq_dec (length nodes - a) 1); [right; unfold j; rewrite e; simpl; lia|].
      left. unfold j. pose proof (Nat.div_le_mono 2 (length nodes - a) 2 ltac:(lia) ltac:(lia)). simpl in H. lia. }
    destruct Hj2 as [Hj2|[E1 E2]]; [|lia]. apply IH; auto; lia.
Qed.
Theorem interval_locate_right_end : forall nodes t x fuel, interval_ctor nodes = Ok t -> sorted nodes ->
  length nodes <= fuel -> (x == at_ nodes (length nodes - 1))%Q -> locate_point t fuel x = UB.
Proof.
  intros nodes t x fuel Hc Hs Hf Hx. destruct (ctor_fields nodes t Hc) as (A & B & C & D).
  unfold locate_point. rewrite D, B. cbn [fst snd].
  pose proof (Hs 0 (length nodes - 1) ltac:(lia)) as H0.
  replace (q_lt x (at_ nodes 0)) with false by (symmetry; apply q_lt_false; lra).
  replace (q_lt (at_ nodes (length nodes - 1)) x) with false by (symmetry; apply q_lt_false; lra). cbn [orb].
  destruct (locate_loop_end nodes t A Hs fuel x 0 Hx ltac:(lia) ltac:(lia)) as [[j E]|E]; [|rewrite E; reflexivity].
  exfalso. revert E. clear - A Hs Hx C.
  (* a hit at j would need x < nodes[j+1] <= nodes[last] *)
  assert (G: forall fuel a b, locate_loop t x fuel a b <> Ok j).
  { induction fuel0 as [|fuel0 IH]; intros a b; cbn [locate_loop]; [discriminate|]. rewrite A.
    unfold nth_res. destruct (nth_error nodes (a + (b - a) / 2)) as [xj|] eqn:E1; [|discriminate]. cbn [bind].
    destruct (Qle_bool xj x); cbn [bind].
    - destruct (nth_error nodes (a + (b - a) / 2 + 1)) as [xj1|] eqn:E2; [|discriminate]. cbn [bind].
      destruct (q_lt x xj1) eqn:E3.
      + exfalso. apply q_lt_iff in E3. assert (L: a + (b - a) / 2 + 1 < length nodes) by (apply nth_error_Some; congruence).
        pose proof (Hs (a + (b - a) / 2 + 1) (length nodes - 1) ltac:(lia)) as H. unfold at_ at 1 in H.
        rewrite (nth_error_nth nodes _ 0%Q E2) in H. lra.
      + destruct (q_lt x xj); apply IH.
    - destruct (q_lt x xj); apply IH. }
  apply G.
Qed.
Print Assumptions interval_locate_right_end.
Definition mesh3 : list Q := [0; 1; 2]%Q.
Example mesh3_sorted : sorted mesh3.
Proof. intros i j [H1 H2]. simpl in H2. do 3 (destruct j as [|j]; [do 3 (destruct i as [|i]; [vm_compute; try discriminate; lia|]); lia|]). lia. Qed.
Theorem interval_locate_refuted : exists t, interval_ctor mesh3 = Ok t /\ sorted mesh3 /\ locate_point t 100 2 = UB /\
  locate_point t 100 1 = Ok 1%Z /\ locate_point t 100 (1 # 2) = Ok 0%Z.
Proof. eexists. split; [reflexivity|]. split; [exact mesh3_sorted|]. split; [|split]; vm_compute; reflexivity. Qed.
Print Assumptions interval_locate_refuted.
