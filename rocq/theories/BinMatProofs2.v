From Coq Require Import Sorted.
From Verif Require Import Base BinMatModel BinMatSpec BinMatProofs.

Local Arguments N.of_nat : simpl never.
Local Arguments N.pow : simpl never.
Local Arguments N.ones : simpl never.
Local Arguments Nat.div : simpl never.
Local Arguments Nat.modulo : simpl never.
Local Arguments Nat.mul : simpl never.

(* ---------- flat order of coordinates ---------- *)
Lemma list_prod_map_cons {A B} (x : A) (l : list A) (m : list B) :
  list_prod (x :: l) m = map (fun y => (x, y)) m ++ list_prod l m.
Proof. reflexivity. Qed.

Lemma coords_flat r c : map (fun ij => fst ij * c + snd ij) (coords r c) = seq 0 (r * c).
Proof.
  unfold coords.
  assert (G : forall a, map (fun ij => fst ij * c + snd ij) (list_prod (seq a r) (seq 0 c)) = seq (a * c) (r * c)).
  { induction r as [|r IH]; intros a; [reflexivity|].
    cbn [seq]. rewrite list_prod_map_cons, map_app, IH, map_map. cbn [fst snd].
    replace (S r * c) with (c + r * c) by lia. rewrite seq_app. f_equal.
    - clear. replace (seq (a * c) c) with (map (fun y => a * c + y) (seq 0 c)); [reflexivity|].
      replace (seq (a * c) c) with (seq (a * c + 0) c) by (f_equal; lia). generalize 0 as b. generalize (a * c) as q.
      generalize c as n. induction n as [|n IHn]; intros q b; auto. cbn [seq map]. f_equal.
      rewrite IHn. f_equal. lia.
    - f_equal. lia. }
  rewrite G. f_equal.
Qed.

Lemma coords_nodup_pos r c : NoDup (map (fun ij => fst ij * c + snd ij) (coords r c)).
Proof. rewrite coords_flat. apply seq_NoDup. Qed.

(* ---------- which ---------- *)
Lemma which_ok e b : wf e ->
  which e b = Ok (filter (fun p => Bool.eqb (cat e p) b) (seq 0 (size e))).
Proof.
  intros W. unfold which, size. rewrite <- coords_flat.
  assert (G : forall l acc, (forall ij, In ij l -> fst ij < rows e /\ snd ij < cols e) ->
     foldM (fun acc ij => v <- coeff e (fst ij) (snd ij) ;;
           Ok (if Bool.eqb v b then acc ++ [fst ij * cols e + snd ij] else acc)) l acc =
     Ok (acc ++ filter (fun p => Bool.eqb (cat e p) b) (map (fun ij => fst ij * cols e + snd ij) l))).
  { induction l as [|[i j] t IH]; intros acc H; cbn [foldM map filter fst snd].
    - now rewrite app_nil_r.
    - destruct (H (i, j)) as [Hi Hj]; [now left|]. cbn [fst snd] in *.
      rewrite coeff_den by auto. cbn [bind]. rewrite IH by (intros; apply H; now right).
      unfold cat at 2. destruct (div_flat i (cols e) j Hj) as [-> ->].
      destruct (Bool.eqb (den e i j) b); [|reflexivity]. rewrite <- app_assoc. reflexivity. }
  rewrite G; [reflexivity|]. intros [i j] Hin. now apply in_coords in Hin.
Qed.

Lemma filter_seq_sorted f a n : StronglySorted lt (filter f (seq a n)).
Proof.
  revert a; induction n as [|n IH]; intros a; cbn [seq filter]; [constructor|].
  destruct (f a); [|apply IH]. constructor; [apply IH|].
  apply Forall_forall. intros x Hx. apply filter_In in Hx as [Hx _]. apply in_seq in Hx. lia.
Qed.

(* ---------- select ---------- *)
Lemma select_dense_ok {A} (zero : A) e vals : wf e -> length vals = size e ->
  exists out, select_dense zero e (rows e) (cols e) vals = Ok out /\ length out = size e /\
    forall i j, i < rows e -> j < cols e ->
      nth_error out (i * cols e + j) =
      if den e i j then nth_error vals (i * cols e + j) else Some zero.
Proof.
  intros W L. unfold select_dense. rewrite !Nat.eqb_refl; cbn [andb assert_ bind].
  set (F := fun (acc : list A) (ij : nat * nat) => _).
  destruct (foldM_inv (fun done acc => length acc = size e /\ forall p, nth_error acc p =
       if existsb (fun ij => (fst ij * cols e + snd ij =? p) && negb (den e (fst ij) (snd ij))) done
       then Some zero else nth_error vals p) F (coords (rows e) (cols e)) vals) as (out & E & L' & P).
  - split; auto.
  - intros done [i j] s (rest & El) [Ls P].
    assert (Hij : i < rows e /\ j < cols e).
    { apply in_coords. rewrite El. apply in_or_app. right; now left. }
    destruct Hij as [Hi Hj]. unfold F. cbn [fst snd]. rewrite coeff_den by auto. cbn [bind].
    destruct (den e i j) eqn:Ed.
    + exists s. split; [reflexivity|]. split; [exact Ls|]. intros p. rewrite P, existsb_app. cbn [existsb fst snd].
      rewrite Ed, andb_false_r, !orb_false_r. reflexivity.
    + unfold upd_res. pose proof (flat_lt _ _ _ _ Hi Hj) as F'. unfold size in *.
      replace (i * cols e + j <? length s) with true by (symmetry; apply Nat.ltb_lt; lia).
      eexists; split; [reflexivity|]. split; [now rewrite upd_length|]. intros p.
      rewrite nth_error_upd, P, existsb_app. cbn [existsb fst snd]. rewrite Ed, andb_true_r, orb_false_r.
      replace (i * cols e + j <? length s) with true by (symmetry; apply Nat.ltb_lt; lia). rewrite andb_true_r.
      destruct (existsb _ done); cbn [orb]; destruct (i * cols e + j =? p); reflexivity.
  - exists out. split; [exact E|]. split; [exact L'|]. intros i j Hi Hj. rewrite P.
    match goal with |- (if ?b then _ else _) = _ => replace b with (negb (den e i j)) end.
    + destruct (den e i j); reflexivity.
    + apply eq_true_iff_eq. rewrite existsb_exists. split.
      * intros H. exists (i, j). rewrite in_coords. cbn [fst snd]. rewrite Nat.eqb_refl, H. auto.
      * intros ([x y] & Hin & H). apply in_coords in Hin. cbn [fst snd] in H.
        apply andb_true_iff in H as [H1 H2]. apply Nat.eqb_eq, flat_inj in H1; try lia. destruct H1; subst. exact H2.
Qed.

Lemma select_sparse_ok {A} (zero : A) e entries : wf e ->
  Forall (fun t => fst (fst t) < rows e /\ snd (fst t) < cols e) entries ->
  select_sparse zero e (rows e) (cols e) entries =
  Ok (map (fun t => let '(i, j, v) := t in (i, j, if den e i j then v else zero)) entries).
Proof.
  intros W H. unfold select_sparse. rewrite !Nat.eqb_refl; cbn [andb assert_ bind].
  induction H as [|[[i j] v] t [Hi Hj] _ IH]; [reflexivity|]. cbn [mapM map fst snd] in *.
  rewrite coeff_den by auto. cbn [bind]. rewrite IH. reflexivity.
Qed.

(* ---------- equality ---------- *)
Lemma eq_loop_ok e1 e2 : packs_hold e1 -> packs_hold e2 -> rows e1 = rows e2 -> cols e1 = cols e2 ->
  forall a n, (a + n) * 64 <= size e1 -> 
  eq_loop e1 e2 (seq a n) = Ok (forallb (fun p => Bool.eqb (cat e1 p) (cat e2 p)) (seq (a * 64) (n * 64))).
Proof.
  intros [B1 H1] [B2 H2] Er Ec a n; revert a; induction n as [|n IH]; intros a Hs; [reflexivity|].
  cbn [seq eq_loop].
  assert (Sz : size e2 = size e1) by (unfold size; now rewrite Er, Ec).
  destruct (H1 a) as (w1 & E1 & L1 & T1); [rewrite B1; unfold n_packs, size in *; lia|].
  destruct (H2 a) as (w2 & E2 & L2 & T2); [rewrite B2; unfold n_packs, size in *; lia|].
  rewrite E1, E2; cbn [bind].
  replace (S n * 64) with (64 + n * 64) by lia. rewrite seq_app, forallb_app.
  assert (EW : N.eqb w1 w2 = forallb (fun p => Bool.eqb (cat e1 p) (cat e2 p)) (seq (a * 64) 64)).
  { apply eq_true_iff_eq. rewrite N.eqb_eq, forallb_forall. split.
    - intros <- p Hp. apply in_seq in Hp.
      assert (X1 := T1 (p - a * 64) ltac:(lia) ltac:(lia)). assert (X2 := T2 (p - a * 64) ltac:(lia) ltac:(lia)).
      replace (a * 64 + (p - a * 64)) with p in * by lia. unfold cat. rewrite <- X1, <- X2. apply eqb_reflx.
    - intros H. apply N.bits_inj. intros b. destruct (N.lt_ge_cases b 64) as [C|C].
      + specialize (H (a * 64 + N.to_nat b)).
        assert (X1 := T1 (N.to_nat b) ltac:(lia) ltac:(lia)). assert (X2 := T2 (N.to_nat b) ltac:(lia) ltac:(lia)).
        rewrite N2Nat.id in *. rewrite X1, X2. apply eqb_prop, H, in_seq. lia.
      + rewrite !(proj1 (bounded_bits _)) by auto. reflexivity. }
  rewrite EW. destruct (forallb _ (seq (a * 64) 64)); cbn [andb]; [|reflexivity].
  replace (a * 64 + 64) with (S a * 64) by lia. apply IH. lia.
Qed.

Definition agree (e1 e2 : xpr) : bool := forallb (fun p => Bool.eqb (cat e1 p) (cat e2 p)) (seq 0 (size e1)).

Lemma last_mask_ok e : packs_hold e -> size e mod 64 <> 0 ->
  last_mask e (bitpacks e - 1) = Ok (N.shiftr word_ones (N.of_nat (64 - size e mod 64))).
Proof.
  intros [B _] Hr. unfold last_mask. rewrite B. unfold n_packs. fold (size e).
  replace (1 + size e / 64 - 1) with (size e / 64) by lia.
  replace (size e <? 64 * (size e / 64)) with false by lia.
  replace (size e - 64 * (size e / 64)) with (size e mod 64) by lia.
  replace ((size e mod 64 =? 0) || (64 <? size e mod 64)) with false by lia. reflexivity.
Qed.
Lemma last_mask_ub e : packs_hold e -> size e mod 64 = 0 -> last_mask e (bitpacks e - 1) = UB.
Proof.
  intros [B _] Hr. unfold last_mask. rewrite B. unfold n_packs. fold (size e).
  replace (1 + size e / 64 - 1) with (size e / 64) by lia.
  replace (size e <? 64 * (size e / 64)) with false by lia.
  replace (size e - 64 * (size e / 64)) with (size e mod 64) by lia.
  replace ((size e mod 64 =? 0) || (64 <? size e mod 64)) with true by lia. reflexivity.
Qed.

Lemma masked_eq n w1 w2 : n <= 64 ->
  N.eqb (N.land (N.shiftr word_ones (N.of_nat (64 - n))) w1) (N.land (N.shiftr word_ones (N.of_nat (64 - n))) w2)
  = forallb (fun b => Bool.eqb (N.testbit w1 (N.of_nat b)) (N.testbit w2 (N.of_nat b))) (seq 0 n).
Proof.
  intros Hn. apply eq_true_iff_eq. rewrite N.eqb_eq, forallb_forall. split.
  - intros H b Hb. apply in_seq in Hb.
    assert (E : forall w, N.testbit w (N.of_nat b) =
      N.testbit (N.land (N.shiftr word_ones (N.of_nat (64 - n))) w) (N.of_nat b)).
    { intros w. rewrite N.land_spec, mask_shr_bit by auto. replace (N.of_nat b <? N.of_nat n)%N with true by lia. reflexivity. }
    rewrite (E w1), (E w2), H. apply eqb_reflx.
  - intros H. apply N.bits_inj. intros b. rewrite !N.land_spec, mask_shr_bit by auto.
    destruct (N.ltb_spec b (N.of_nat n)); cbn [andb]; [|reflexivity].
    rewrite <- (N2Nat.id b). apply eqb_prop, H, in_seq. lia.
Qed.

Lemma beq_core e1 e2 : packs_hold e1 -> packs_hold e2 -> rows e1 = rows e2 -> cols e1 = cols e2 ->
  size e1 mod 64 <> 0 ->
  beq e1 e2 = Ok (agree e1 e2) /\ bneq e1 e2 = Ok (negb (agree e1 e2)).
Proof.
  intros P1 P2 Er Ec Hr.
  assert (A : ((rows e1 =? rows e2) && (cols e1 =? cols e2)) = true) by lia.
  unfold beq, bneq. rewrite A; cbn [assert_ bind].
  assert (Bn : bitpacks e1 = 1 + size e1 / 64) by (destruct P1 as [-> _]; reflexivity).
  replace (bitpacks e1 =? 0) with false by lia.
  rewrite (eq_loop_ok e1 e2 P1 P2 Er Ec) by lia. cbn [bind].
  rewrite last_mask_ok by auto. cbn [bind]. rewrite Bn.
  replace (1 + size e1 / 64 - 1) with (size e1 / 64) by lia.
  destruct (proj2 P1 (size e1 / 64)) as (w1 & E1 & L1 & T1); [lia|].
  assert (Sz : size e2 = size e1) by (unfold size; now rewrite Er, Ec).
  destruct (proj2 P2 (size e1 / 64)) as (w2 & E2 & L2 & T2).
  { destruct P2 as [-> _]. unfold n_packs. fold (size e2). lia. }
  rewrite E1, E2; cbn [bind]. rewrite masked_eq by lia.
  assert (EW : forallb (fun b => Bool.eqb (N.testbit w1 (N.of_nat b)) (N.testbit w2 (N.of_nat b))) (seq 0 (size e1 mod 64))
     = forallb (fun p => Bool.eqb (cat e1 p) (cat e2 p)) (seq (size e1 / 64 * 64) (size e1 mod 64))).
  { rewrite (forallb_seq_shift _ (size e1 / 64 * 64)). apply forallb_ext_in. intros b Hb. apply in_seq in Hb.
    rewrite T1, T2 by lia. reflexivity. }
  rewrite EW.
  assert (EA : agree e1 e2 = forallb (fun p => Bool.eqb (cat e1 p) (cat e2 p)) (seq (0 * 64) (size e1 / 64 * 64)) &&
     forallb (fun p => Bool.eqb (cat e1 p) (cat e2 p)) (seq (size e1 / 64 * 64) (size e1 mod 64))).
  { unfold agree. rewrite (seq_split_at (size e1) (size e1 / 64 * 64)) by lia. rewrite forallb_app.
    replace (size e1 - size e1 / 64 * 64) with (size e1 mod 64) by lia. reflexivity. }
  rewrite EA. split; [reflexivity|]. f_equal. rewrite negb_andb. reflexivity.
Qed.

Lemma beq_ub e1 e2 : packs_hold e1 -> packs_hold e2 -> rows e1 = rows e2 -> cols e1 = cols e2 ->
  size e1 mod 64 = 0 -> beq e1 e2 = UB /\ bneq e1 e2 = UB.
Proof.
  intros P1 P2 Er Ec Hr.
  assert (A : ((rows e1 =? rows e2) && (cols e1 =? cols e2)) = true) by lia.
  unfold beq, bneq. rewrite A; cbn [assert_ bind].
  assert (Bn : bitpacks e1 = 1 + size e1 / 64) by (destruct P1 as [-> _]; reflexivity).
  replace (bitpacks e1 =? 0) with false by lia.
  rewrite (eq_loop_ok e1 e2 P1 P2 Er Ec) by lia. cbn [bind].
  rewrite last_mask_ub by auto. auto.
Qed.

Lemma pos_coords e1 : forall P : nat -> nat -> Prop,
  (forall i j, i < rows e1 -> j < cols e1 -> P i j) <->
  (forall p, p < size e1 -> P (p / cols e1) (p mod cols e1)).
Proof.
  intros P. split; intros H.
  - intros p Hp. destruct (size_block_pos_div _ _ _ Hp). auto.
  - intros i j Hi Hj. destruct (div_flat i (cols e1) j Hj) as [E1 E2].
    specialize (H (i * cols e1 + j) (flat_lt _ _ _ _ Hi Hj)). now rewrite E1, E2 in H.
Qed.

Lemma agree_iff e1 e2 : rows e1 = rows e2 -> cols e1 = cols e2 ->
  agree e1 e2 = true <-> forall i j, i < rows e1 -> j < cols e1 -> den e1 i j = den e2 i j.
Proof.
  intros Er Ec. rewrite (pos_coords e1 (fun i j => den e1 i j = den e2 i j)). unfold agree.
  rewrite forallb_forall. split.
  - intros H p Hp. specialize (H p). rewrite in_seq in H. apply eqb_prop. unfold cat in H. rewrite Ec in *.
    apply H. lia.
  - intros H p Hp. apply in_seq in Hp. specialize (H p ltac:(lia)). unfold cat. rewrite Ec in *. rewrite H. apply eqb_reflx.
Qed.

Lemma all_spec_iff e : all_spec e = true <-> forall i j, i < rows e -> j < cols e -> den e i j = true.
Proof.
  rewrite (pos_coords e (fun i j => den e i j = true)). unfold all_spec. rewrite forallb_forall. unfold cat.
  split; intros H p Hp; [apply H, in_seq; lia|]. apply in_seq in Hp. apply H; lia.
Qed.
Lemma any_spec_iff e : any_spec e = true <-> exists i j, i < rows e /\ j < cols e /\ den e i j = true.
Proof.
  unfold any_spec. rewrite existsb_exists. unfold cat. split.
  - intros (p & Hp & H). apply in_seq in Hp. destruct (size_block_pos_div p (rows e) (cols e)); [unfold size in *; lia|].
    eauto.
  - intros (i & j & Hi & Hj & H). exists (i * cols e + j). destruct (div_flat i (cols e) j Hj) as [-> ->].
    split; auto. apply in_seq. pose proof (flat_lt _ _ _ _ Hi Hj). unfold size; lia.
Qed.

(* ---------- count by coordinates ---------- *)
Lemma count_coeffs e : tally (cat e) 0 (size e) = count_occ Bool.bool_dec (coeffs e) true.
Proof.
  unfold tally, coeffs. generalize (seq 0 (size e)). intros l; induction l as [|p t IH]; auto.
  cbn [filter map]. unfold cat at 1. destruct (den e (p / cols e) (p mod cols e)) eqn:E.
  - rewrite count_occ_cons_eq by reflexivity. cbn [length]. now rewrite IH.
  - rewrite count_occ_cons_neq by discriminate. exact IH.
Qed.

(* ---------- block assignment ---------- *)
Lemma block_assign_ok m sr sc rhs r c f : valid m -> shows m r c f -> wf rhs ->
  sr + rows rhs <= r -> sc + cols rhs <= c ->
  exists m', block_assign m sr sc (rows rhs) (cols rhs) rhs = Ok m' /\ valid m' /\
    shows m' r c (fun x y =>
      if (sr <=? x) && (x <? sr + rows rhs) && (sc <=? y) && (y <? sc + cols rhs)
      then den rhs (x - sr) (y - sc) || f x y else f x y).
Proof.
  intros V S W H1 H2. unfold block_assign. rewrite !Nat.eqb_refl; cbn [andb assert_ bind].
  destruct (soc_loop true (coords (rows rhs) (cols rhs)) (fun ij => den rhs (fst ij) (snd ij))
     (fun ij => (fst ij + sr, snd ij + sc)) m r c f V S) as (m' & E & V' & S').
  { intros [i j] Hin _. apply in_coords in Hin. cbn [fst snd]. lia. }
  exists m'. split; [|split; [exact V'|]].
  - rewrite <- E. clear E S' V'. cbn [fst snd set_or_clear].
    assert (G : forall l m, (forall ij, In ij l -> fst ij < rows rhs /\ snd ij < cols rhs) ->
      foldM (fun m ij => b <- coeff rhs (fst ij) (snd ij) ;;
           if b then set m (Z.of_nat (fst ij + sr)) (Z.of_nat (snd ij + sc)) else Ok m) l m =
      foldM (fun m ij => if den rhs (fst ij) (snd ij)
           then set m (Z.of_nat (fst ij + sr)) (Z.of_nat (snd ij + sc)) else Ok m) l m).
    { induction l as [|ij t IH]; intros m0 H; auto. cbn [foldM].
      destruct (H ij) as [Hi Hj]; [now left|]. rewrite coeff_den by auto. cbn [bind].
      destruct (if den rhs (fst ij) (snd ij) then _ else _); cbn [bind]; auto. apply IH. intros; apply H; now right. }
    apply G. intros [i j] Hin. now apply in_coords in Hin.
  - eapply shows_ext; [|exact S']. intros x y Hx Hy. cbn [fst snd].
    match goal with |- (if ?b then _ else _) = _ => destruct b eqn:Eb end.
    + apply existsb_exists in Eb as ([i j] & Hin & E1). apply in_coords in Hin. cbn [fst snd] in E1.
      apply andb_true_iff in E1 as [E1 E3]. apply andb_true_iff in E1 as [E1 E2].
      replace ((sr <=? x) && (x <? sr + rows rhs) && (sc <=? y) && (y <? sc + cols rhs)) with true by lia.
      replace (x - sr) with i by lia. replace (y - sc) with j by lia. now rewrite E1.
    + destruct ((sr <=? x) && (x <? sr + rows rhs) && (sc <=? y) && (y <? sc + cols rhs)) eqn:E1; auto.
      destruct (den rhs (x - sr) (y - sc)) eqn:E2; auto.
      assert (X : existsb (fun ij : nat * nat => den rhs (fst ij) (snd ij) && (fst ij + sr =? x) && (snd ij + sc =? y))
                 (coords (rows rhs) (cols rhs)) = true).
      { apply existsb_exists. exists (x - sr, y - sc). rewrite in_coords. cbn [fst snd]. rewrite E2. lia. }
      congruence.
Qed.

(* ---------- ranges ---------- *)
Lemma range_loop_square n l : forall i m f,
  valid m -> shows m n n f -> i + length l = n * n ->
  exists m', range_loop n n l i m = Ok m' /\ valid m' /\
    shows m' n n (fun x y => f x y || ((i <=? x * n + y) && nth (x * n + y - i) l false)).
Proof.
  induction l as [|b t IH]; intros i m f V Sh L; cbn [length range_loop] in *.
  - replace (i <? n * n) with false by lia. exists m. split; [reflexivity|split; [exact V|]].
    eapply shows_ext; [|exact Sh]. intros x y _ _. cbv beta. destruct (x * n + y - i); cbn [nth]; now rewrite andb_false_r, orb_false_r.
  - assert (Hn : n <> 0) by nia.
    assert (Hi : i / n < n /\ i mod n < n) by (apply size_block_pos_div; lia).
    assert (Ei : i / n * n + i mod n = i) by (pose proof (Nat.div_mod i n Hn); lia).
    assert (STEP : exists m1, (if b then if (n =? 0) || (n =? 0) then UB
               else set m (Z.of_nat (i / n)) (Z.of_nat (i mod n)) else Ok m) = Ok m1 /\ valid m1 /\
             shows m1 n n (fun x y => f x y || ((x * n + y =? i) && b))).
    { destruct b.
      - replace ((n =? 0) || (n =? 0)) with false by lia.
        destruct (soc_shows true m (i / n) (i mod n) n n f V Sh) as (m1 & E1 & V1 & S1); try tauto.
        exists m1. split; [exact E1|split; [exact V1|]]. eapply shows_ext; [|exact S1].
        intros x y Hx Hy. unfold point. rewrite andb_true_r.
        destruct (Nat.eqb_spec (x * n + y) i) as [E|E].
        + rewrite <- Ei in E. apply flat_inj in E; try tauto. destruct E as [<- <-]. rewrite !Z.eqb_refl. cbn. now rewrite orb_true_r.
        + replace ((Z.of_nat x =? Z.of_nat (i / n))%Z && (Z.of_nat y =? Z.of_nat (i mod n))%Z) with false.
          * now rewrite orb_false_r.
          * symmetry. apply not_true_is_false. intros H. apply E.
            assert (x = i / n) by lia. assert (y = i mod n) by lia. subst x y. exact Ei.
      - exists m. split; [reflexivity|split; [exact V|]]. eapply shows_ext; [|exact Sh].
        intros x y _ _. cbv beta. now rewrite andb_false_r, orb_false_r. }
    destruct STEP as (m1 & E1 & V1 & S1). rewrite E1; cbn [bind].
    destruct (IH (S i) m1 _ V1 S1) as (m2 & E2 & V2 & S2); [lia|].
    exists m2. split; [exact E2|split; [exact V2|]]. eapply shows_ext; [|exact S2].
    intros x y Hx Hy. cbv beta. rewrite <- orb_assoc. f_equal.
    destruct (Nat.eqb_spec (x * n + y) i) as [E|E].
    + rewrite E, Nat.sub_diag. cbn [nth]. replace (S i <=? i) with false by lia. replace (i <=? i) with true by lia.
      cbn [andb]. now rewrite orb_false_r.
    + cbn [andb orb]. destruct (Nat.leb_spec i (x * n + y)).
      * replace (S i <=? x * n + y) with true by lia. replace (x * n + y - i) with (S (x * n + y - S i)) by lia. reflexivity.
      * replace (S i <=? x * n + y) with false by lia. reflexivity.
Qed.

Lemma of_range_square n l : length l = n * n ->
  exists m, of_range l n n = Ok m /\ valid m /\ shows m n n (fun i j => nth (i * n + j) l false).
Proof.
  intros L. unfold of_range.
  destruct (range_loop_square n l 0 (bm_zero n n) _ (bm_zero_valid n n) (bm_zero_shows n n)) as (m & E & V & Sh); [lia|].
  exists m. split; [exact E|split; [exact V|]]. eapply shows_ext; [|exact Sh].
  intros x y _ _. cbv beta. rewrite Nat.sub_0_r. reflexivity.
Qed.

Lemma of_range_vec_loop n l : forall i m f,
  valid m -> shows m n 1 f -> i + length l = n ->
  exists m', range_loop_vec n l i m = Ok m' /\ valid m' /\
    shows m' n 1 (fun x y => f x y || ((i <=? x) && nth (x - i) l false)).
Proof.
  induction l as [|b t IH]; intros i m f V Sh L; cbn [length range_loop_vec] in *.
  - replace (i <? n) with false by lia. exists m. split; [reflexivity|split; [exact V|]].
    eapply shows_ext; [|exact Sh]. intros x y _ _. cbv beta. destruct (x - i); cbn [nth]; now rewrite andb_false_r, orb_false_r.
  - assert (STEP : exists m1, (if b then set m (Z.of_nat i) 0 else Ok m) = Ok m1 /\ valid m1 /\
             shows m1 n 1 (fun x y => f x y || ((x =? i) && b))).
    { destruct b.
      - destruct (soc_shows true m i 0 n 1 f V Sh) as (m1 & E1 & V1 & S1); try lia.
        exists m1. split; [exact E1|split; [exact V1|]]. eapply shows_ext; [|exact S1].
        intros x y Hx Hy. unfold point. rewrite andb_true_r. assert (y = 0) by lia. subst y.
        cbn [Z.of_nat]. rewrite Z.eqb_refl, andb_true_r.
        replace (Z.of_nat x =? Z.of_nat i)%Z with (x =? i) by lia. destruct (x =? i); [now rewrite orb_true_r|now rewrite orb_false_r].
      - exists m. split; [reflexivity|split; [exact V|]]. eapply shows_ext; [|exact Sh].
        intros x y _ _. cbv beta. now rewrite andb_false_r, orb_false_r. }
    destruct STEP as (m1 & E1 & V1 & S1). rewrite E1; cbn [bind].
    destruct (IH (S i) m1 _ V1 S1) as (m2 & E2 & V2 & S2); [lia|].
    exists m2. split; [exact E2|split; [exact V2|]]. eapply shows_ext; [|exact S2].
    intros x y Hx Hy. cbv beta. rewrite <- orb_assoc. f_equal.
    destruct (Nat.eqb_spec x i) as [E|E].
    + rewrite E, Nat.sub_diag. cbn [nth]. replace (S i <=? i) with false by lia. replace (i <=? i) with true by lia.
      cbn [andb]. now rewrite orb_false_r.
    + cbn [andb orb]. destruct (Nat.leb_spec i x).
      * replace (S i <=? x) with true by lia. replace (x - i) with (S (x - S i)) by lia. reflexivity.
      * replace (S i <=? x) with false by lia. reflexivity.
Qed.
Lemma of_range_vec_ok n l : length l = n ->
  exists m, of_range_vec l n = Ok m /\ valid m /\ shows m n 1 (fun i _ => nth i l false).
Proof.
  intros L. unfold of_range_vec.
  destruct (of_range_vec_loop n l 0 (bm_zero n 1) _ (bm_zero_valid n 1) (bm_zero_shows n 1)) as (m & E & V & Sh); [lia|].
  exists m. split; [exact E|split; [exact V|]]. eapply shows_ext; [|exact Sh].
  intros x y _ _. cbv beta. rewrite Nat.sub_0_r. reflexivity.
Qed.

(* ---------- repeat and count ---------- *)
Lemma tally_rows g c : forall r a,
  tally (fun p => g (p / c) (p mod c)) (a * c) (r * c) = list_sum (map (fun i => tally (g i) 0 c) (seq a r)).
Proof.
  induction r as [|r IH]; intros a; [reflexivity|].
  replace (S r * c) with (c + r * c) by lia. rewrite tally_app. cbn [seq map list_sum fold_right].
  replace (a * c + c) with (S a * c) by lia. rewrite IH. f_equal.
  unfold tally. rewrite <- (tally_shift (fun p => g (p / c) (p mod c)) (a * c) c). f_equal.
  apply filter_ext_in. intros b Hb. apply in_seq in Hb. destruct (div_flat a c b) as [-> ->]; [lia|reflexivity].
Qed.
Lemma tally_tile h c : c <> 0 -> forall b a, tally (fun j => h (j mod c)) (a * c) (b * c) = b * tally h 0 c.
Proof.
  intros Hc. induction b as [|b IH]; intros a; [reflexivity|].
  replace (S b * c) with (c + b * c) by lia. rewrite tally_app.
  replace (a * c + c) with (S a * c) by lia. rewrite IH.
  replace (S b * tally h 0 c) with (tally h 0 c + b * tally h 0 c) by lia. f_equal.
  unfold tally. rewrite <- (tally_shift (fun j => h (j mod c)) (a * c) c). f_equal.
  apply filter_ext_in. intros x Hx. apply in_seq in Hx. destruct (div_flat a c x) as [_ ->]; [lia|reflexivity].
Qed.
Lemma sum_tile (h : nat -> nat) r : r <> 0 -> forall b a,
  list_sum (map (fun i => h (i mod r)) (seq (a * r) (b * r))) = b * list_sum (map h (seq 0 r)).
Proof.
  intros Hr. induction b as [|b IH]; intros a; [reflexivity|].
  replace (S b * r) with (r + b * r) by lia. rewrite seq_app, map_app, list_sum_app.
  replace (a * r + r) with (S a * r) by lia. rewrite IH.
  replace (S b * list_sum (map h (seq 0 r))) with (list_sum (map h (seq 0 r)) + b * list_sum (map h (seq 0 r))) by lia.
  f_equal. f_equal.
  assert (G : forall n k, k + n <= r -> map (fun i => h (i mod r)) (seq (a * r + k) n) = map h (seq k n)).
  { induction n as [|n IHn]; intros k Hk; [reflexivity|]. cbn [seq map].
    destruct (div_flat a r k) as [_ ->]; [lia|]. f_equal. replace (S (a * r + k)) with (a * r + S k) by lia. apply IHn. lia. }
  specialize (G r 0). rewrite Nat.add_0_r in G. apply G. lia.
Qed.

Lemma repeat_tally e a b : tally (cat (XRepeat e a b)) 0 (size (XRepeat e a b)) = a * b * tally (cat e) 0 (size e).
Proof.
  unfold cat, size. cbn [rows cols den].
  destruct (Nat.eq_dec (rows e) 0) as [Er|Er]; [rewrite Er; replace (0 * a * (cols e * b)) with 0 by lia; replace (0 * cols e) with 0 by lia; unfold tally; cbn [seq filter length]; lia|].
  destruct (Nat.eq_dec (cols e) 0) as [Ec|Ec]; [rewrite Ec; replace (rows e * a * (0 * b)) with 0 by lia; replace (rows e * 0) with 0 by lia; unfold tally; cbn [seq filter length]; lia|].
  pose proof (tally_rows (den e) (cols e) (rows e) 0) as T1. replace (0 * cols e) with 0 in T1 by lia. rewrite T1. clear T1.
  pose proof (tally_rows (fun i j => den e (i mod rows e) (j mod cols e)) (cols e * b) (rows e * a) 0) as T2.
  replace (0 * (cols e * b)) with 0 in T2 by lia. rewrite T2. clear T2.
  transitivity (list_sum (map (fun i => b * tally (den e (i mod rows e)) 0 (cols e)) (seq 0 (rows e * a)))).
  - f_equal. apply map_ext. intros i. replace (cols e * b) with (b * cols e) by lia.
    apply (tally_tile (den e (i mod rows e)) (cols e) Ec b 0).
  - pose proof (sum_tile (fun i => b * tally (den e i) 0 (cols e)) (rows e) Er a 0) as S1.
    replace (0 * rows e) with 0 in S1 by lia. replace (rows e * a) with (a * rows e) by lia. rewrite S1.
    rewrite <- Nat.mul_assoc. f_equal. clear. induction (seq 0 (rows e)) as [|x t IH]; cbn [map list_sum fold_right] in *; [lia|].
    unfold list_sum in *. rewrite IH. lia.
Qed.

(* ---------- reshape ---------- *)
Lemma reshape_coeffs e r c : build (XReshape e r c) = Ok tt -> coeffs (XReshape e r c) = coeffs e.
Proof.
  cbn [build]. intros B. apply bind_ok in B as ([] & _ & B). apply assert_ok, Nat.eqb_eq in B.
  unfold coeffs, size. cbn [rows cols den]. rewrite B. apply map_ext_in. intros p Hp. apply in_seq in Hp.
  destruct (Nat.eq_dec c 0) as [->|Hc]; [lia|]. pose proof (Nat.div_mod p c Hc) as D.
  replace (p / c * c + p mod c) with p by lia. reflexivity.
Qed.
