From Verif Require Import Base BinMatModel BinMatSpec.

Local Arguments N.of_nat : simpl never.
Local Arguments N.pow : simpl never.
Local Arguments N.ones : simpl never.
Local Arguments Nat.div : simpl never.
Local Arguments Nat.modulo : simpl never.
Local Arguments Nat.mul : simpl never.

(* ---------- words ---------- *)
Lemma testbit_bit1 k b : N.testbit (bit1 k) b = N.eqb b (N.of_nat k).
Proof. unfold bit1. rewrite N.shiftl_1_l, N.pow2_bits_eqb, N.eqb_sym. reflexivity. Qed.

Lemma land_bit1 w k : negb (N.eqb (N.land w (bit1 k)) 0) = N.testbit w (N.of_nat k).
Proof.
  destruct (N.testbit w (N.of_nat k)) eqn:E.
  - apply negb_true_iff, N.eqb_neq. intros H.
    assert (T : N.testbit (N.land w (bit1 k)) (N.of_nat k) = true).
    { rewrite N.land_spec, E, testbit_bit1, N.eqb_refl; reflexivity. }
    rewrite H, N.bits_0 in T; discriminate.
  - apply negb_false_iff, N.eqb_eq. apply N.bits_inj_0. intros b.
    rewrite N.land_spec, testbit_bit1. destruct (N.eqb_spec b (N.of_nat k)) as [->|_].
    + now rewrite E.
    + apply andb_false_r.
Qed.

Lemma bounded_bits w : (w < 2 ^ 64)%N <-> forall b, (64 <= b)%N -> N.testbit w b = false.
Proof.
  split.
  - intros H b Hb. destruct (N.eq_dec w 0) as [->|Hw]; [apply N.bits_0|].
    apply N.bits_above_log2. apply N.log2_lt_pow2 in H; lia.
  - intros H. destruct (N.eq_dec w 0) as [->|Hw]; [reflexivity|].
    apply N.log2_lt_pow2; [lia|].
    destruct (N.lt_ge_cases (N.log2 w) 64) as [L|L]; [exact L|].
    specialize (H _ L). rewrite N.bit_log2 in H; [discriminate|exact Hw].
Qed.

Lemma bounded_lor a b : (a < 2^64)%N -> (b < 2^64)%N -> (N.lor a b < 2^64)%N.
Proof.
  rewrite !bounded_bits. intros Ha Hb x Hx. now rewrite N.lor_spec, Ha, Hb.
Qed.
Lemma bounded_lxor a b : (a < 2^64)%N -> (b < 2^64)%N -> (N.lxor a b < 2^64)%N.
Proof.
  rewrite !bounded_bits. intros Ha Hb x Hx. now rewrite N.lxor_spec, Ha, Hb.
Qed.
Lemma bounded_land a b : (a < 2^64)%N -> (N.land a b < 2^64)%N.
Proof. rewrite !bounded_bits. intros Ha x Hx. now rewrite N.land_spec, Ha. Qed.
Lemma bounded_lnot a : (a < 2^64)%N -> (N.lnot a 64 < 2^64)%N.
Proof.
  rewrite !bounded_bits. intros Ha x Hx.
  rewrite N.lnot_spec_high by lia. now apply Ha.
Qed.
Lemma bounded_bit1 k : k < 64 -> (bit1 k < 2^64)%N.
Proof.
  intros H; apply bounded_bits; intros b Hb; rewrite testbit_bit1.
  apply N.eqb_neq. lia.
Qed.
Lemma lnot_bit a b : b < 64 -> N.testbit (N.lnot a 64) (N.of_nat b) = negb (N.testbit a (N.of_nat b)).
Proof. intros H. apply N.lnot_spec_low. lia. Qed.

Lemma bounded_ones : (word_ones < 2^64)%N.
Proof. reflexivity. Qed.

Lemma ones_bit b : b < 64 -> N.testbit word_ones (N.of_nat b) = true.
Proof. intros H. unfold word_ones. apply N.ones_spec_low. lia. Qed.

(* ---------- matrices ---------- *)
Definition bitat (m : bm) (f : nat) : bool :=
  N.testbit (nth (f / 64) (data m) 0%N) (N.of_nat (f mod 64)).

Lemma flat_lt r c i j : i < r -> j < c -> i * c + j < r * c.
Proof. intros; nia. Qed.

Lemma flat_nat m i j : flat m (Z.of_nat i) (Z.of_nat j) = Z.of_nat (i * nc m + j).
Proof. unfold flat; lia. Qed.

Lemma pack_in r c p : p < r * c -> p / 64 < n_packs r c.
Proof.
  intros H; unfold n_packs.
  pose proof (Nat.div_le_mono p (r*c) 64 ltac:(lia) ltac:(lia)). lia.
Qed.

Lemma valid_flat_lt m p : valid m -> p < nr m * nc m -> p / 64 < length (data m).
Proof. intros (_ & L & _) H; rewrite L; now apply pack_in. Qed.

Lemma get_flat m i j :
  (i * nc m + j) / 64 < length (data m) ->
  get m (Z.of_nat i) (Z.of_nat j) = Ok (bitat m (i * nc m + j)).
Proof.
  intros H. unfold get. rewrite flat_nat.
  destruct (Z.ltb_spec (Z.of_nat (i * nc m + j)) 0) as [L|L]; [lia|].
  rewrite Nat2Z.id. unfold nth_res.
  rewrite (nth_error_nth' _ 0%N H). cbn [bind]. rewrite land_bit1. reflexivity.
Qed.

Lemma valid_get m i j : valid m -> i < nr m -> j < nc m ->
  get m (Z.of_nat i) (Z.of_nat j) = Ok (bitat m (i * nc m + j)).
Proof. intros V Hi Hj. apply get_flat. apply valid_flat_lt; [exact V|]. now apply flat_lt. Qed.

Lemma nth_nth_error {A} (l : list A) i d : nth i l d = match nth_error l i with Some x => x | None => d end.
Proof. revert i; induction l; intros [|i]; simpl; auto. Qed.

Lemma nth_upd {A} (l : list A) i x j d :
  nth j (upd l i x) d = if (i =? j) && (i <? length l) then x else nth j l d.
Proof. rewrite !nth_nth_error, nth_error_upd. destruct ((i =? j) && (i <? length l)); auto. Qed.

Lemma divmod_eq p q : p / 64 = q / 64 -> p mod 64 = q mod 64 -> p = q.
Proof. intros. lia. Qed.

(* write of one bit *)
Definition wr (v : bool) (w : N) (k : nat) : N :=
  if v then N.lor w (bit1 k) else N.land w (N.lnot (bit1 k) 64).

Lemma wr_bit v w k b : k < 64 -> b < 64 ->
  N.testbit (wr v w k) (N.of_nat b) = if b =? k then v else N.testbit w (N.of_nat b).
Proof.
  intros Hk Hb. unfold wr. destruct v.
  - rewrite N.lor_spec, testbit_bit1.
    destruct (Nat.eqb_spec b k) as [->|E].
    + rewrite N.eqb_refl. apply orb_true_r.
    + replace (N.of_nat b =? N.of_nat k)%N with false by lia. apply orb_false_r.
  - rewrite N.land_spec, lnot_bit, testbit_bit1 by exact Hb.
    destruct (Nat.eqb_spec b k) as [->|E].
    + rewrite N.eqb_refl. apply andb_false_r.
    + replace (N.of_nat b =? N.of_nat k)%N with false by lia. apply andb_true_r.
Qed.

Lemma wr_bounded v w k : k < 64 -> (w < 2^64)%N -> (wr v w k < 2^64)%N.
Proof.
  intros Hk Hw; unfold wr; destruct v.
  - apply bounded_lor; [exact Hw | now apply bounded_bit1].
  - now apply bounded_land.
Qed.

Definition wrm (v : bool) (m : bm) (p : nat) : bm :=
  mkbm (nr m) (nc m) (npk m)
    (upd (data m) (p / 64) (wr v (nth (p / 64) (data m) 0%N) (p mod 64))).

Definition set_or_clear (v : bool) := if v then set else clear.

Lemma soc_ok v m i j : valid m -> i < nr m -> j < nc m ->
  set_or_clear v m (Z.of_nat i) (Z.of_nat j) = Ok (wrm v m (i * nc m + j)).
Proof.
  intros V Hi Hj.
  assert (L : (i * nc m + j) / 64 < length (data m))
    by (apply valid_flat_lt; [exact V | now apply flat_lt]).
  assert (A : ((Z.of_nat i <? Z.of_nat (nr m))%Z && (Z.of_nat j <? Z.of_nat (nc m))%Z) = true) by lia.
  assert (B : (flat m (Z.of_nat i) (Z.of_nat j) <? 0)%Z = false) by (rewrite flat_nat; lia).
  unfold set_or_clear; destruct v; unfold set, clear; rewrite A; cbn [assert_ bind];
    rewrite B, flat_nat, Nat2Z.id; unfold nth_res;
    rewrite (nth_error_nth' _ 0%N L); cbn [bind]; reflexivity.
Qed.

Lemma soc_throw v m i j : (Z.of_nat (nr m) <= i \/ Z.of_nat (nc m) <= j)%Z ->
  set_or_clear v m i j = Throw.
Proof.
  intros H.
  assert (A : ((i <? Z.of_nat (nr m))%Z && (j <? Z.of_nat (nc m))%Z) = false) by lia.
  unfold set_or_clear; destruct v; unfold set, clear; rewrite A; reflexivity.
Qed.

Lemma wrm_valid v m p : valid m -> p < nr m * nc m -> valid (wrm v m p).
Proof.
  intros V Hp. pose proof (valid_flat_lt _ _ V Hp) as L. destruct V as (V1 & V2 & V3).
  unfold valid, wrm; simpl. rewrite upd_length. repeat split; auto.
  rewrite Forall_forall in *. intros w Hw.
  apply In_nth_error in Hw as [k Hk]. rewrite nth_error_upd in Hk.
  destruct ((p / 64 =? k) && (p / 64 <? length (data m))) eqn:E.
  - injection Hk as <-. apply wr_bounded; [lia|]. apply V3. apply nth_In. exact L.
  - apply V3. eapply nth_error_In; eauto.
Qed.

Lemma wrm_bitat v m p q : valid m -> p < nr m * nc m ->
  bitat (wrm v m p) q = if p =? q then v else bitat m q.
Proof.
  intros V Hp. pose proof (valid_flat_lt _ _ V Hp) as L.
  unfold bitat, wrm; simpl. rewrite nth_upd.
  destruct (Nat.eqb_spec (p/64) (q/64)) as [E|E].
  - replace (p/64 <? length (data m)) with true by (symmetry; now apply Nat.ltb_lt).
    cbn [andb]. rewrite wr_bit by lia.
    destruct (Nat.eqb_spec (q mod 64) (p mod 64)) as [E2|E2].
    + assert (p = q) by lia. subst. now rewrite Nat.eqb_refl.
    + destruct (Nat.eqb_spec p q) as [->|]; [lia|]. now rewrite E.
  - cbn [andb]. destruct (Nat.eqb_spec p q) as [->|]; [lia|]. reflexivity.
Qed.

Lemma shows_bitat m r c f : valid m -> nr m = r -> nc m = c ->
  shows m r c f <-> forall i j, i < r -> j < c -> bitat m (i * c + j) = f i j.
Proof.
  intros V <- <-. unfold shows. split.
  - intros (_ & _ & H) i j Hi Hj. specialize (H i j Hi Hj).
    rewrite valid_get in H by auto. congruence.
  - intros H; repeat split; auto. intros i j Hi Hj. rewrite valid_get by auto. now rewrite H.
Qed.

Lemma flat_inj c i j x y : j < c -> y < c -> i * c + j = x * c + y -> i = x /\ j = y.
Proof. intros. assert (i = x) by nia. subst. split; lia. Qed.

Lemma soc_shows v m i j r c f :
  valid m -> shows m r c f -> i < r -> j < c ->
  exists m', set_or_clear v m (Z.of_nat i) (Z.of_nat j) = Ok m' /\ valid m' /\
     shows m' r c (point (Z.of_nat i) (Z.of_nat j) v f).
Proof.
  intros V S Hi Hj. pose proof S as (<- & <- & S').
  exists (wrm v m (i * nc m + j)).
  pose proof (flat_lt _ _ _ _ Hi Hj) as L.
  split; [now apply soc_ok|split; [now apply wrm_valid|]].
  { apply (proj2 (shows_bitat (wrm v m (i * nc m + j)) _ _ _ (wrm_valid _ _ _ V L) eq_refl eq_refl)); auto.
    intros x y Hx Hy. simpl in *. rewrite wrm_bitat by auto. unfold point.
    destruct (Nat.eqb_spec (i * nc m + j) (x * nc m + y)) as [E|E].
    + apply flat_inj in E; auto. destruct E as [-> ->]. rewrite !Z.eqb_refl; reflexivity.
    + replace ((Z.of_nat x =? Z.of_nat i)%Z && (Z.of_nat y =? Z.of_nat j)%Z) with false.
      * specialize (S' x y Hx Hy). rewrite valid_get in S' by auto. congruence.
      * symmetry. apply not_true_is_false. intros H. apply E.
        assert (x = i) by lia. assert (y = j) by lia. congruence. }
Qed.

Lemma bm_zero_valid r c : valid (bm_zero r c).
Proof.
  unfold valid, bm_zero; cbn [nr nc npk data]. rewrite repeat_length. repeat split; auto.
  apply Forall_forall. intros w Hw. apply repeat_spec in Hw. subst; reflexivity.
Qed.
Lemma nth_repeat' {A} (x d : A) n k : k < n -> nth k (repeat x n) d = x.
Proof. revert k; induction n; intros [|k] H; simpl; auto; lia || apply IHn; lia. Qed.

Lemma bm_zero_shows r c : shows (bm_zero r c) r c (fun _ _ => false).
Proof.
  apply shows_bitat; auto using bm_zero_valid. intros i j Hi Hj.
  unfold bitat, bm_zero; cbn [data]. rewrite nth_repeat'; [apply N.bits_0|].
  apply pack_in. now apply flat_lt.
Qed.

Lemma shows_ext m r c f g : (forall i j, i < r -> j < c -> f i j = g i j) ->
  shows m r c f -> shows m r c g.
Proof. intros E (A & B & C). repeat split; auto. intros i j Hi Hj. rewrite C, E; auto. Qed.

(* loops of set/clear over a list of coordinates *)
Lemma soc_loop v (l : list (nat * nat)) (sel : nat * nat -> bool) (tr : nat * nat -> nat * nat) m r c f :
  valid m -> shows m r c f ->
  (forall ij, In ij l -> sel ij = true -> fst (tr ij) < r /\ snd (tr ij) < c) ->
  exists m',
    foldM (fun m ij => if sel ij then set_or_clear v m (Z.of_nat (fst (tr ij))) (Z.of_nat (snd (tr ij)))
                       else Ok m) l m = Ok m' /\ valid m' /\
    shows m' r c (fun x y => if existsb (fun ij => sel ij && (fst (tr ij) =? x) && (snd (tr ij) =? y)) l
                             then v else f x y).
Proof.
  revert m f; induction l as [|ij t IH]; intros m f V S H.
  - exists m; simpl; auto.
  - cbn [foldM]. destruct (sel ij) eqn:E.
    + destruct (H ij) as [Hi Hj]; [now left | exact E|].
      destruct (soc_shows v m _ _ r c f V S Hi Hj) as (m1 & E1 & V1 & S1).
      rewrite E1; cbn [bind].
      destruct (IH m1 _ V1 S1) as (m2 & E2 & V2 & S2).
      { intros; apply H; auto. now right. }
      exists m2; split; [exact E2|split; [exact V2|]].
      destruct S2 as (A1 & A2 & S2). split; [exact A1|split; [exact A2|]].
      intros i j Hi2 Hj2. rewrite S2 by auto.
      cbn [existsb]. rewrite E. cbn [andb]. unfold point.
      destruct (existsb _ t) eqn:ET.
      * now rewrite orb_true_r.
      * rewrite orb_false_r.
        replace ((Z.of_nat i =? Z.of_nat (fst (tr ij)))%Z && (Z.of_nat j =? Z.of_nat (snd (tr ij)))%Z)
          with ((fst (tr ij) =? i) && (snd (tr ij) =? j)) by lia. reflexivity.
    + cbn [bind]. destruct (IH m f V S) as (m2 & E2 & V2 & S2).
      { intros; apply H; auto. now right. }
      exists m2; split; [exact E2|split; [exact V2|]].
      destruct S2 as (A1 & A2 & S2). split; [exact A1|split; [exact A2|]].
      intros i j Hi2 Hj2. rewrite S2 by auto.
      cbn [existsb]. rewrite E. reflexivity.
Qed.

Lemma in_coords r c i j : In (i, j) (coords r c) <-> i < r /\ j < c.
Proof. unfold coords. rewrite in_prod_iff, !in_seq. lia. Qed.

Lemma rect_exists sr sc br bc x y :
  existsb (fun ij : nat * nat => true && (fst ij + sr =? x) && (snd ij + sc =? y)) (coords br bc)
  = (sr <=? x) && (x <? sr + br) && (sc <=? y) && (y <? sc + bc).
Proof.
  apply eq_true_iff_eq. rewrite existsb_exists. split.
  - intros ([i j] & Hin & E). apply in_coords in Hin. cbn [fst snd] in E. lia.
  - intros H. exists (x - sr, y - sc). rewrite in_coords. cbn [fst snd]. lia.
Qed.

Lemma block_fold v m sr sc br bc r c f :
  valid m -> shows m r c f -> sr + br <= r -> sc + bc <= c ->
  exists m', foldM (fun m ij => set_or_clear v m (Z.of_nat (fst ij + sr)) (Z.of_nat (snd ij + sc)))
               (coords br bc) m = Ok m' /\ valid m' /\ shows m' r c (rect sr sc br bc v f).
Proof.
  intros V S H1 H2.
  destruct (soc_loop v (coords br bc) (fun _ => true) (fun ij => (fst ij + sr, snd ij + sc)) m r c f V S)
    as (m' & E & V' & S').
  { intros [i j] Hin _. apply in_coords in Hin. cbn [fst snd]. lia. }
  exists m'; split; [exact E|split; [exact V'|]].
  eapply shows_ext; [|exact S']. intros x y _ _. cbn [fst snd]. rewrite rect_exists. reflexivity.
Qed.

Lemma mcall_spec m o r c f :
  valid m -> shows m r c f -> nonneg_op o ->
  match mcall m o with
  | Ok m' => valid m' /\ shows m' r c (spec_op r c f o)
  | Throw => spec_op r c f o = f
  | _ => False
  end.
Proof.
  intros V S Ho. pose proof S as (Hr & Hc & _).
  destruct o as [i j|i j|sr sc br bc|sr sc br bc]; cbn [mcall spec_op nonneg_op] in *.
  - change (set m i j) with (set_or_clear true m i j).
    unfold in_shape. destruct ((0 <=? i) && (i <? Z.of_nat r) && (0 <=? j) && (j <? Z.of_nat c))%Z eqn:E.
    + destruct (soc_shows true m (Z.to_nat i) (Z.to_nat j) r c f V S) as (m' & E' & V' & S'); try lia.
      rewrite !Z2Nat.id in * by lia. rewrite E'. auto.
    + rewrite soc_throw by lia. reflexivity.
  - change (clear m i j) with (set_or_clear false m i j).
    unfold in_shape. destruct ((0 <=? i) && (i <? Z.of_nat r) && (0 <=? j) && (j <? Z.of_nat c))%Z eqn:E.
    + destruct (soc_shows false m (Z.to_nat i) (Z.to_nat j) r c f V S) as (m' & E' & V' & S'); try lia.
      rewrite !Z2Nat.id in * by lia. rewrite E'. auto.
    + rewrite soc_throw by lia. reflexivity.
  - rewrite Hr, Hc. destruct ((sr + br <=? r) && (sc + bc <=? c)) eqn:E; cbn [assert_ bind]; [|auto].
    destruct (block_fold true m sr sc br bc r c f V S) as (m' & E' & V' & S'); try lia.
    unfold block_set. cbn [set_or_clear] in E'. rewrite E'. auto.
  - rewrite Hr, Hc. destruct ((sr + br <=? r) && (sc + bc <=? c)) eqn:E; cbn [assert_ bind]; [|auto].
    destruct (block_fold false m sr sc br bc r c f V S) as (m' & E' & V' & S'); try lia.
    unfold block_clear. cbn [set_or_clear] in E'. rewrite E'. auto.
Qed.

Lemma mrun_spec ops : forall m r c f,
  valid m -> shows m r c f -> Forall nonneg_op ops ->
  exists m', mrun m ops = Ok m' /\ valid m' /\ shows m' r c (fold_left (spec_op r c) ops f).
Proof.
  induction ops as [|o t IH]; intros m r c f V S H.
  - exists m; simpl; auto.
  - inversion H as [|? ? Ho Ht]; subst. cbn [mrun fold_left].
    pose proof (mcall_spec m o r c f V S Ho) as M.
    destruct (mcall m o) as [m1| | |]; try contradiction.
    + destruct M as [V1 S1]. apply IH; auto.
    + rewrite M. apply IH; auto.
Qed.

(* ---------- packing ---------- *)
Lemma packing_inj m i j x y : i < nr m -> j < nc m -> x < nr m -> y < nc m ->
  (i * nc m + j) / 64 = (x * nc m + y) / 64 ->
  (i * nc m + j) mod 64 = (x * nc m + y) mod 64 -> i = x /\ j = y.
Proof. intros. apply (flat_inj (nc m)); auto. now apply divmod_eq. Qed.

(* ---------- factories ---------- *)
Lemma ones_valid r c : valid (ones r c).
Proof.
  unfold valid, ones; cbn [nr nc npk data]. rewrite map_length, repeat_length. repeat split; auto.
  apply Forall_forall. intros w Hw. apply in_map_iff in Hw as (? & <- & _). apply bounded_ones.
Qed.
Lemma ones_shows r c : shows (ones r c) r c (fun _ _ => true).
Proof.
  apply shows_bitat; auto using ones_valid. intros i j Hi Hj.
  unfold bitat, ones; cbn [data].
  rewrite (nth_indep _ 0%N word_ones).
  - rewrite (map_nth (fun _ => word_ones) _ 0%N). apply ones_bit. lia.
  - rewrite map_length, repeat_length. apply pack_in. now apply flat_lt.
Qed.

Lemma identity_ok r c : exists m, identity r c = Ok m /\ valid m /\ shows m r c (fun i j => i =? j).
Proof.
  unfold identity.
  destruct (soc_loop true (map (fun k => (k, k)) (seq 0 (Nat.min r c))) (fun _ => true) (fun ij => ij)
              (bm_zero r c) r c (fun _ _ => false) (bm_zero_valid r c) (bm_zero_shows r c))
    as (m & E & V & S).
  { intros ij Hin _. apply in_map_iff in Hin as (k & <- & Hk). apply in_seq in Hk. cbn [fst snd]. lia. }
  exists m. split; [|split; [exact V|]].
  - rewrite <- E. clear. generalize (bm_zero r c) as m. generalize (seq 0 (Nat.min r c)) as l.
    induction l as [|k t IH]; intros m; cbn [map foldM]; auto.
    cbn [set_or_clear fst snd]. destruct (set m (Z.of_nat k) (Z.of_nat k)); cbn [bind]; auto.
  - eapply shows_ext; [|exact S]. intros i j Hi Hj. cbv beta.
    match goal with |- (if ?b then _ else _) = _ => replace b with (i =? j) end.
    + destruct (i =? j); reflexivity.
    + apply eq_true_iff_eq. rewrite existsb_exists. split.
      * intros H. exists (i, i). split; [|cbn [fst snd]; lia].
        apply in_map_iff. exists i. split; auto. apply in_seq. lia.
      * intros (ij & Hin & E'). apply in_map_iff in Hin as (k & <- & _). cbn [fst snd] in E'. lia.
Qed.

(* ---------- dense conversion ---------- *)
Lemma sel_coords_exists (f : nat -> nat -> bool) r c x y : x < r -> y < c ->
  existsb (fun ij : nat * nat => f (fst ij) (snd ij) && (fst ij =? x) && (snd ij =? y)) (coords r c) = f x y.
Proof.
  intros Hx Hy. apply eq_true_iff_eq. rewrite existsb_exists. split.
  - intros ([i j] & _ & E). cbn [fst snd] in E.
    assert (i = x) by lia. assert (j = y) by lia. subst. destruct (f x y); auto.
  - intros H. exists (x, y). rewrite in_coords. cbn [fst snd]. rewrite H, !Nat.eqb_refl. auto.
Qed.

Lemma dense_loop r c (f : nat -> nat -> bool) g m : valid m -> shows m r c g ->
  exists m', foldM (fun m (ij : nat * nat) => if f (fst ij) (snd ij)
                     then set m (Z.of_nat (fst ij)) (Z.of_nat (snd ij)) else Ok m)
        (coords r c) m = Ok m' /\ valid m' /\ shows m' r c (fun i j => f i j || g i j).
Proof.
  intros V S.
  destruct (soc_loop true (coords r c) (fun ij => f (fst ij) (snd ij)) (fun ij => ij) m r c g V S)
    as (m' & E & V' & S').
  { intros [i j] Hin _. now apply in_coords in Hin. }
  exists m'. split; [exact E|split; [exact V'|]].
  eapply shows_ext; [|exact S']. intros x y Hx Hy. cbv beta.
  rewrite (sel_coords_exists f) by auto. destruct (f x y); reflexivity.
Qed.

Lemma of_dense_ok r c f : exists m, of_dense r c f = Ok m /\ valid m /\ shows m r c f.
Proof.
  destruct (dense_loop r c f _ _ (bm_zero_valid r c) (bm_zero_shows r c)) as (m & E & V & S).
  exists m; split; [exact E|split; [exact V|]]. eapply shows_ext; [|exact S].
  intros; cbv beta; apply orb_false_r.
Qed.

Lemma assign_dense_dyn m r c f : exists m', assign_dense true m r c f = Ok m' /\ valid m' /\ shows m' r c f.
Proof. exact (of_dense_ok r c f). Qed.

Lemma assign_dense_static m r c f g : valid m -> shows m r c g ->
  exists m', assign_dense false m r c f = Ok m' /\ valid m' /\ shows m' r c (fun i j => f i j || g i j).
Proof.
  intros V S. pose proof S as (Hr & Hc & _). unfold assign_dense.
  replace (mkbm r c (npk m) (data m)) with m by (destruct m; simpl in *; subst; reflexivity).
  now apply dense_loop.
Qed.

(* ---------- expressions ---------- *)
Lemma assert_ok b : assert_ b = Ok tt <-> b = true.
Proof. destruct b; simpl; split; congruence. Qed.

Lemma mod_lt_size i r a : i < r * a -> i mod r < r.
Proof. intros. destruct r; [lia|]. apply Nat.mod_upper_bound. lia. Qed.

Lemma coeff_den e : wf e -> forall i j, i < rows e -> j < cols e -> coeff e i j = Ok (den e i j).
Proof.
  unfold wf. induction e as [m|e IH|o e1 IH1 e2 IH2|e IH sr sc br bc|e IH rr rc|e IH r c];
    cbn [leaves_valid build rows cols coeff den]; intros [L B] i j Hi Hj.
  - rewrite (valid_get m i j) by auto. reflexivity.
  - rewrite IH by auto. reflexivity.
  - destruct L as [L1 L2]. apply bind_ok in B as ([] & B1 & B).
    apply bind_ok in B as ([] & B2 & B). apply assert_ok in B.
    rewrite IH1, IH2 by (auto; lia). cbn [bind]. destruct o; reflexivity.
  - apply bind_ok in B as ([] & B1 & B). apply assert_ok in B.
    replace ((i <? br) && (j <? bc)) with true by lia. cbn [assert_ bind].
    rewrite (Nat.add_comm i), (Nat.add_comm j). apply IH; auto; lia.
  - replace ((i <? rows e * rr) && (j <? cols e * rc)) with true by lia. cbn [assert_ bind].
    apply IH; auto; eapply mod_lt_size; eauto.
  - apply bind_ok in B as ([] & B1 & B). apply assert_ok in B.
    replace ((i <? r) && (j <? c)) with true by lia. cbn [assert_ bind].
    assert (Hs : i * c + j < rows e * cols e).
    { apply Nat.eqb_eq in B. rewrite <- B. now apply flat_lt. }
    destruct (Nat.eqb_spec (cols e) 0) as [E|E]; [rewrite E in Hs; lia|].
    apply IH; auto.
    + apply Nat.div_lt_upper_bound; lia.
    + apply Nat.mod_upper_bound; auto.
Qed.

(* packs assembled bit by bit *)
Lemma assemble_ok sz k f g :
  (forall j, j < 64 -> k * 64 + j < sz -> f j = Ok (g j)) ->
  exists w, assemble_pack sz k f = Ok w /\ (w < 2^64)%N /\
    forall b, N.testbit w b = if (b <? 64)%N && (k * 64 + N.to_nat b <? sz) then g (N.to_nat b) else false.
Proof.
  intros H. unfold assemble_pack.
  destruct (foldM_inv
    (fun done w => forall b, N.testbit w b =
        if (N.to_nat b <? length done) && (k * 64 + N.to_nat b <? sz) then g (N.to_nat b) else false)
    (fun out j => if k * 64 + j <? sz
                      then b <- f j ;; Ok (N.lor out (N.shiftl (b2w b) (N.of_nat j)))
                      else Ok out) (seq 0 64) 0%N) as (w & E & P).
  - intros b. rewrite N.bits_0. reflexivity.
  - intros done x s0 (rest & El) P.
    assert (Lx : x = length done /\ length done < 64).
    { assert (N1 : nth_error (seq 0 64) (length done) = Some x).
      { rewrite El, nth_error_app2, Nat.sub_diag by lia. reflexivity. }
      rewrite nth_error_seq in N1. destruct (length done <? 64) eqn:E; [|discriminate].
      injection N1 as <-. lia. }
    destruct Lx as [-> Lx].
    rewrite app_length; cbn [length].
    destruct (k * 64 + length done <? sz) eqn:Ek.
    + rewrite H by lia. cbn [bind]. eexists; split; [reflexivity|].
      intros b. rewrite N.lor_spec, P. clear P.
      destruct (Nat.eq_dec (N.to_nat b) (length done)) as [Eb|Eb].
      * rewrite Eb. replace (length done <? length done) with false by lia.
        replace (length done <? length done + 1) with true by lia. rewrite Ek. cbn [andb orb].
        rewrite N.shiftl_spec_high' by lia.
        replace (b - N.of_nat (length done))%N with 0%N by lia. destruct (g (length done)); reflexivity.
      * replace (N.testbit (N.shiftl (b2w (g (length done))) (N.of_nat (length done))) b) with false.
        -- rewrite orb_false_r. replace (N.to_nat b <? length done + 1) with (N.to_nat b <? length done) by lia.
           reflexivity.
        -- symmetry. destruct (N.lt_ge_cases b (N.of_nat (length done))) as [C|C].
           ++ apply N.shiftl_spec_low; exact C.
           ++ rewrite N.shiftl_spec_high' by exact C.
              destruct (g (length done)); cbn [b2w]; [|apply N.bits_0].
              destruct (b - N.of_nat (length done))%N eqn:D; [lia|]. reflexivity.
    + eexists; split; [reflexivity|]. intros b. rewrite P.
      destruct (Nat.eq_dec (N.to_nat b) (length done)) as [Eb|Eb].
      * rewrite Eb, Ek, !andb_false_r. reflexivity.
      * replace (N.to_nat b <? length done + 1) with (N.to_nat b <? length done) by lia. reflexivity.
  - exists w. split; [exact E|]. rewrite seq_length in P.
    assert (Q : forall b, N.testbit w b = if (b <? 64)%N && (k * 64 + N.to_nat b <? sz) then g (N.to_nat b) else false).
    { intros b. rewrite P. replace (N.to_nat b <? 64) with (b <? 64)%N by lia. reflexivity. }
    split; [|exact Q]. apply bounded_bits. intros b Hb. rewrite Q.
    replace (b <? 64)%N with false by lia. reflexivity.
Qed.

Lemma build_bin o e1 e2 : wf (XBin o e1 e2) -> wf e1 /\ wf e2 /\ rows e1 = rows e2 /\ cols e1 = cols e2.
Proof.
  intros [[L1 L2] B]. cbn [build] in B. apply bind_ok in B as ([] & B1 & B).
  apply bind_ok in B as ([] & B2 & B). apply assert_ok in B. repeat split; auto; lia.
Qed.

Lemma block_index sr sc br bc k b :
  good_block br bc -> b < 64 -> k * 64 + b < br * bc ->
  sr + (k * 64) / bc + b / bc = sr + (k * 64 + b) / bc /\
  sc + (if k =? 0 then 0 else bc - (bc - (k * 64) mod bc)) + b mod bc = sc + (k * 64 + b) mod bc.
Proof.
  intros (Hbc & G) Hb Hs.
  assert (E1 : bc - (bc - (k * 64) mod bc) = (k * 64) mod bc).
  { pose proof (Nat.mod_upper_bound (k * 64) bc Hbc). lia. }
  rewrite E1. replace (if k =? 0 then 0 else (k * 64) mod bc) with ((k * 64) mod bc).
  2:{ destruct (Nat.eqb_spec k 0) as [->|]; auto. cbn. apply Nat.mod_0_l; auto. }
  destruct G as [G|[G|G]].
  - assert (k = 0) by nia. subst k. replace (0 * 64) with 0 by lia.
    rewrite Nat.div_0_l, Nat.mod_0_l by auto. cbn. split; lia.
  - subst br. replace (1 * bc) with bc in Hs by lia.
    rewrite (Nat.div_small (k * 64)), (Nat.div_small b), (Nat.div_small (k * 64 + b)) by lia.
    rewrite (Nat.mod_small (k * 64)), (Nat.mod_small b), (Nat.mod_small (k * 64 + b)) by lia. lia.
  - apply Nat.mod_divides in G as [q Eq]; auto.
    replace (k * 64 + b) with (b + (k * q) * bc) by nia.
    replace (k * 64) with (0 + (k * q) * bc) by nia.
    rewrite !Nat.div_add, !Nat.mod_add by auto. rewrite Nat.div_0_l, Nat.mod_0_l by auto. lia.
Qed.

Lemma size_block_pos_div p r c : p < r * c -> p / c < r /\ p mod c < c.
Proof.
  intros H. assert (c <> 0) by (intros ->; lia). split.
  - apply Nat.div_lt_upper_bound; lia.
  - apply Nat.mod_upper_bound; auto.
Qed.

(* p mod (c*rc) mod c = p mod c *)
Lemma mod_mod_mul p c rc : c <> 0 -> rc <> 0 -> (p mod (c * rc)) mod c = p mod c.
Proof.
  intros. rewrite (Nat.div_mod p (c * rc)) at 2 by nia.
  replace (c * rc * (p / (c * rc)) + p mod (c * rc)) with (p mod (c * rc) + (rc * (p / (c * rc))) * c) by nia.
  rewrite Nat.mod_add by auto. reflexivity.
Qed.

Lemma packs_ok e : wf e -> blocks_good e -> packs_hold e.
Proof.
  unfold packs_hold.
  induction e as [m|e IH|o e1 IH1 e2 IH2|e IH sr sc br bc|e IH rr rc|e IH r c]; intros W G.
  - destruct W as [V _]. cbn [leaves_valid] in V. pose proof V as (V1 & V2 & V3).
    cbn [bitpacks rows cols]. split; [exact V1|]. intros k Hk. cbn [bitpack].
    rewrite V1, <- V2 in Hk. exists (nth k (data m) 0%N). split; [|split].
    + unfold nth_res. rewrite (nth_error_nth' _ 0%N Hk). reflexivity.
    + rewrite Forall_forall in V3. apply V3. now apply nth_In.
    + intros b Hb Hs. cbn [den]. unfold size in Hs. cbn [rows cols] in Hs.
      destruct (size_block_pos_div _ _ _ Hs) as [Hd Hm].
      rewrite valid_get by auto. unfold bitat.
      replace ((k * 64 + b) / nc m * nc m + (k * 64 + b) mod nc m) with (k * 64 + b).
      2:{ assert (nc m <> 0) by (intros E; rewrite E in Hs; lia).
          pose proof (Nat.div_mod (k * 64 + b) (nc m) H). lia. }
      rewrite (Nat.add_comm (k*64)), Nat.div_add, Nat.mod_add by lia.
      rewrite (Nat.div_small b), (Nat.mod_small b) by lia. reflexivity.
  - destruct (IH W G) as [B H]. cbn [bitpacks rows cols]. split; [reflexivity|].
    intros k Hk. destruct (H k) as (w & E & L & T); [rewrite B; exact Hk|].
    cbn [bitpack]. rewrite E; cbn [bind]. exists (N.lnot w 64). split; [reflexivity|split].
    + now apply bounded_lnot.
    + intros b Hb Hs. rewrite lnot_bit by auto. cbn [den]. rewrite T by auto. reflexivity.
  - apply build_bin in W as (W1 & W2 & Er & Ec). cbn [blocks_good] in G. destruct G as [G1 G2].
    destruct (IH1 W1 G1) as [B1 H1]. destruct (IH2 W2 G2) as [B2 H2].
    cbn [bitpacks rows cols]. split; [reflexivity|]. intros k Hk.
    destruct (H1 k) as (w1 & E1 & L1 & T1); [rewrite B1; exact Hk|].
    destruct (H2 k) as (w2 & E2 & L2 & T2); [rewrite B2, <- Er, <- Ec; exact Hk|].
    cbn [bitpack]. rewrite E1, E2; cbn [bind]. exists (bop_word o w1 w2). split; [reflexivity|split].
    + destruct o; cbn [bop_word]; [apply bounded_land|apply bounded_lor|apply bounded_lxor]; auto.
    + intros b Hb Hs.
      assert (T1' := T1 b Hb Hs). assert (T2' : N.testbit w2 (N.of_nat b) = den e2 ((k * 64 + b) / cols e1) ((k * 64 + b) mod cols e1)).
      { rewrite Ec. apply T2; [exact Hb|]. unfold size in *. cbn [rows cols] in Hs. rewrite <- Er, <- Ec. exact Hs. }
      cbn [cols den]. destruct o; cbn [bop_word den];
        rewrite ?N.land_spec, ?N.lor_spec, ?N.lxor_spec, T1', T2'; reflexivity.
  - cbn [blocks_good] in G. split; [reflexivity|]. intros k Hk. cbn [bitpack].
    destruct G as [Hbc G]. destruct (Nat.eqb_spec bc 0) as [|_]; [contradiction|].
    assert (W' : wf e /\ sr + br <= rows e /\ sc + bc <= cols e).
    { destruct W as [L B]. cbn [build leaves_valid] in *. apply bind_ok in B as ([] & B1 & B).
      apply assert_ok in B. repeat split; auto; lia. }
    destruct W' as (We & Hr & Hc).
    match goal with |- context[assemble_pack ?s ?k ?f] =>
      destruct (assemble_ok s k f (fun b => den e (sr + (k * 64 + b) / bc) (sc + (k * 64 + b) mod bc)))
        as (w & E & L & T) end.
    { intros j Hj Hs. destruct (block_index sr sc br bc k j) as [I1 I2]; [split; auto|auto|auto|].
      rewrite I1, I2. destruct (size_block_pos_div _ _ _ Hs).
      apply coeff_den; auto; lia. }
    exists w. split; [exact E|split; [exact L|]]. intros b Hb Hs. unfold size in Hs. cbn [rows cols] in *.
    rewrite T, Nat2N.id. replace ((N.of_nat b <? 64)%N && (k * 64 + b <? br * bc)) with true by lia.
    reflexivity.
  - split; [reflexivity|]. intros k Hk. cbn [bitpack].
    assert (We : wf e) by exact W.
    match goal with |- context[assemble_pack ?s ?k ?f] =>
      destruct (assemble_ok s k f (fun b => den e (((k * 64 + b) / (cols e * rc)) mod rows e) ((k * 64 + b) mod cols e)))
        as (w & E & L & T) end.
    { intros j Hj Hs. assert (rows e <> 0) by (intros Z; rewrite Z in Hs; lia).
      assert (cols e <> 0) by (intros Z; rewrite Z in Hs; lia).
      apply coeff_den; auto; apply Nat.mod_upper_bound; auto. }
    exists w. split; [exact E|split; [exact L|]]. intros b Hb Hs. unfold size in Hs. cbn [rows cols den] in *.
    rewrite T, Nat2N.id.
    replace ((N.of_nat b <? 64)%N && (k * 64 + b <? rows e * rr * (cols e * rc))) with true by lia.
    assert (cols e <> 0) by (intros Z; rewrite Z in Hs; lia).
    assert (rc <> 0) by (intros Z; rewrite Z in Hs; lia).
    rewrite mod_mod_mul by auto. reflexivity.
  - destruct W as [L B]. cbn [build leaves_valid] in *. apply bind_ok in B as ([] & B1 & B).
    apply assert_ok, Nat.eqb_eq in B. cbn [blocks_good] in G.
    destruct (IH (conj L B1) G) as [B2 H]. split; [reflexivity|].
    intros k Hk. cbn [bitpack bitpacks rows cols] in *.
    destruct (H k) as (w & E & Lw & T); [rewrite B2; unfold n_packs in *; rewrite <- B; exact Hk|].
    exists w. split; [exact E|split; [exact Lw|]]. intros b Hb Hs. unfold size in Hs; cbn [rows cols] in Hs.
    rewrite T by (auto; unfold size; rewrite <- B; exact Hs). cbn [den].
    replace ((k * 64 + b) / c * c + (k * 64 + b) mod c) with (k * 64 + b); [reflexivity|].
    assert (c <> 0) by (intros ->; lia). pose proof (Nat.div_mod (k * 64 + b) c H0). lia.
Qed.

(* copying packs into a matrix whose flat layout has the same length *)
Lemma copy_packs_ok e r c : packs_hold e -> r * c = size e ->
  exists m, copy_packs e r c = Ok m /\ valid m /\
    shows m r c (fun i j => den e ((i * c + j) / cols e) ((i * c + j) mod cols e)).
Proof.
  intros [B H] Hs. unfold copy_packs.
  assert (M : exists ws, mapM (bitpack e) (seq 0 (bitpacks e)) = Ok ws /\ length ws = bitpacks e /\
     forall k, k < bitpacks e -> bitpack e k = Ok (nth k ws 0%N)).
  { assert (Hb : forall k, In k (seq 0 (bitpacks e)) -> exists w, bitpack e k = Ok w).
    { intros k Hk. apply in_seq in Hk. destruct (H k) as (w & E & _); [lia|eauto]. }
    assert (X : exists ws, Forall2 (fun k w => bitpack e k = Ok w) (seq 0 (bitpacks e)) ws).
    { revert Hb. generalize (seq 0 (bitpacks e)). induction l as [|k t IHl]; intros Hb.
      - exists []; constructor.
      - destruct (Hb k) as [w E]; [now left|]. destruct IHl as [ws F]; [intros; apply Hb; now right|].
        exists (w :: ws); constructor; auto. }
    destruct X as [ws F]. exists ws. split; [now apply mapM_ok|].
    pose proof (Forall2_length _ _ _ F) as FL. rewrite seq_length in FL. split; [auto|].
    intros k Hk. clear -F Hk FL.
    assert (G : forall (a n : nat) l, Forall2 (fun k w => bitpack e k = Ok w) (seq a n) l ->
                 forall k, k < n -> bitpack e (a + k) = Ok (nth k l 0%N)).
    { intros a n; revert a; induction n as [|n IHn]; intros a l Fl x Hx; [lia|].
      cbn [seq] in Fl. inversion Fl as [|? w ? l' E Fl']; subst. destruct x as [|x].
      - rewrite Nat.add_0_r; exact E.
      - replace (a + S x) with (S a + x) by lia. cbn [nth]. apply IHn; auto; lia. }
    exact (G 0 _ _ F k Hk). }
  destruct M as (ws & E & L & P). rewrite E; cbn [bind]. eexists; split; [reflexivity|].
  assert (NP : bitpacks e = n_packs r c) by (rewrite B; unfold n_packs; unfold size in Hs; now rewrite Hs).
  assert (V : valid (mkbm r c (bitpacks e) ws)).
  { unfold valid; cbn [nr nc npk data]. repeat split; auto; [now rewrite L|].
    apply Forall_forall. intros w Hw. apply (In_nth _ _ 0%N) in Hw as (k & Hk & <-).
    destruct (H k) as (w & E' & L' & _); [now rewrite <- L|]. rewrite P in E' by now rewrite <- L. congruence. }
  split; [exact V|]. apply (shows_bitat _ r c _ V eq_refl eq_refl). intros i j Hi Hj.
  unfold bitat; cbn [data].
  pose proof (flat_lt _ _ _ _ Hi Hj) as F. set (p := i * c + j) in *.
  destruct (H (p / 64)) as (w & E' & _ & T).
  { rewrite NP. now apply pack_in. }
  rewrite P in E' by (rewrite NP; now apply pack_in). injection E' as ->.
  rewrite T; [| lia | lia]. replace (p / 64 * 64 + p mod 64) with p by lia. reflexivity.
Qed.

Lemma div_flat i c j : j < c -> (i * c + j) / c = i /\ (i * c + j) mod c = j.
Proof.
  intros H. assert (c <> 0) by lia.
  rewrite (Nat.add_comm (i * c)), Nat.div_add, Nat.mod_add by auto.
  rewrite Nat.div_small, Nat.mod_small by auto. lia.
Qed.

Lemma materialize_ok e : wf e -> blocks_good e ->
  exists m, materialize e = Ok m /\ valid m /\ shows m (rows e) (cols e) (den e).
Proof.
  intros W G. destruct (copy_packs_ok e (rows e) (cols e) (packs_ok e W G) eq_refl) as (m & E & V & S).
  exists m. split; [exact E|split; [exact V|]]. eapply shows_ext; [|exact S].
  intros i j Hi Hj. cbv beta. destruct (div_flat i (cols e) j Hj) as [-> ->]. reflexivity.
Qed.

Lemma materialize_vec_row e : wf e -> blocks_good e -> rows e = 1 ->
  exists m, materialize_vec true e = Ok m /\ valid m /\ shows m (cols e) 1 (fun i _ => den e 0 i).
Proof.
  intros W G R. destruct (copy_packs_ok e (cols e) 1 (packs_ok e W G)) as (m & E & V & S).
  { unfold size; rewrite R; lia. }
  exists m. split; [exact E|split; [exact V|]]. eapply shows_ext; [|exact S].
  intros i j Hi Hj. cbv beta. replace (i * 1 + j) with i by lia.
  rewrite Nat.div_small, Nat.mod_small by auto. reflexivity.
Qed.

Lemma materialize_vec_col e : wf e -> blocks_good e -> cols e = 1 ->
  exists m, materialize_vec false e = Ok m /\ valid m /\ shows m (rows e) 1 (den e).
Proof.
  intros W G R. destruct (copy_packs_ok e (rows e) 1 (packs_ok e W G)) as (m & E & V & S).
  { unfold size; rewrite R; lia. }
  exists m. split; [exact E|split; [exact V|]]. eapply shows_ext; [|exact S].
  intros i j Hi Hj. cbv beta. rewrite R, Nat.div_1_r. replace (i * 1 + j) with i by lia.
  rewrite Nat.mod_1_r. f_equal; lia.
Qed.

(* ---------- visitors ---------- *)
Lemma word_all w : (w < 2^64)%N -> N.eqb (N.lnot w 64) 0 = forallb (fun b => N.testbit w (N.of_nat b)) (seq 0 64).
Proof.
  intros Hw. apply eq_true_iff_eq. rewrite N.eqb_eq, forallb_forall. split.
  - intros H b Hb. apply in_seq in Hb.
    assert (E : N.testbit (N.lnot w 64) (N.of_nat b) = false) by (rewrite H; apply N.bits_0).
    rewrite lnot_bit in E by lia. now apply negb_false_iff in E.
  - intros H. apply N.bits_inj_0. intros b. destruct (N.lt_ge_cases b 64) as [L|L].
    + rewrite <- (N2Nat.id b). rewrite lnot_bit by lia. rewrite H; auto. apply in_seq. lia.
    + rewrite N.lnot_spec_high by exact L. now apply bounded_bits.
Qed.

Lemma word_any w : (w < 2^64)%N -> negb (N.eqb w 0) = existsb (fun b => N.testbit w (N.of_nat b)) (seq 0 64).
Proof.
  intros Hw. apply eq_true_iff_eq. rewrite negb_true_iff, N.eqb_neq, existsb_exists. split.
  - intros H. exists (N.to_nat (N.log2 w)). rewrite N2Nat.id. split.
    + apply in_seq. apply N.log2_lt_pow2 in Hw; lia.
    + now apply N.bit_log2.
  - intros (b & _ & H) ->. rewrite N.bits_0 in H; discriminate.
Qed.

Lemma mask_low_bit n b : N.testbit (N.shiftl 1 (N.of_nat n) - 1) b = (b <? N.of_nat n)%N.
Proof.
  rewrite N.shiftl_1_l. replace (2 ^ N.of_nat n - 1)%N with (N.ones (N.of_nat n)).
  - destruct (N.ltb_spec b (N.of_nat n)); [now apply N.ones_spec_low | now apply N.ones_spec_high].
  - rewrite N.ones_equiv. lia.
Qed.
Lemma mask_shr_bit n b : n <= 64 -> N.testbit (N.shiftr word_ones (N.of_nat (64 - n))) b = (b <? N.of_nat n)%N.
Proof.
  intros H. rewrite N.shiftr_spec'. unfold word_ones.
  destruct (N.ltb_spec b (N.of_nat n)); [apply N.ones_spec_low | apply N.ones_spec_high]; lia.
Qed.

Lemma mask_all n w : N.eqb (N.land (N.shiftl 1 (N.of_nat n) - 1) w) (N.shiftl 1 (N.of_nat n) - 1)
  = forallb (fun b => N.testbit w (N.of_nat b)) (seq 0 n).
Proof.
  apply eq_true_iff_eq. rewrite N.eqb_eq, forallb_forall. split.
  - intros H b Hb. apply in_seq in Hb.
    assert (E : N.testbit (N.land (N.shiftl 1 (N.of_nat n) - 1) w) (N.of_nat b) = true).
    { rewrite H, mask_low_bit. lia. }
    rewrite N.land_spec in E. now apply andb_true_iff in E.
  - intros H. apply N.bits_inj. intros b. rewrite N.land_spec, mask_low_bit.
    destruct (N.ltb_spec b (N.of_nat n)); auto. rewrite <- (N2Nat.id b). rewrite H; auto. apply in_seq; lia.
Qed.
Lemma mask_any n w : n <= 64 ->
  negb (N.eqb (N.land (N.shiftr word_ones (N.of_nat (64 - n))) w) 0)
  = existsb (fun b => N.testbit w (N.of_nat b)) (seq 0 n).
Proof.
  intros Hn. apply eq_true_iff_eq. rewrite negb_true_iff, N.eqb_neq, existsb_exists. split.
  - intros H. set (v := N.land _ w) in *. pose proof (N.bit_log2 v H) as T.
    unfold v in T at 1. rewrite N.land_spec, mask_shr_bit in T by auto.
    apply andb_true_iff in T as [T1 T2]. exists (N.to_nat (N.log2 v)). rewrite N2Nat.id. split; auto.
    apply in_seq. lia.
  - intros (b & Hb & T) E. apply in_seq in Hb.
    assert (X : N.testbit (N.land (N.shiftr word_ones (N.of_nat (64 - n))) w) (N.of_nat b) = true).
    { rewrite N.land_spec, mask_shr_bit, T by auto. lia. }
    rewrite E, N.bits_0 in X; discriminate.
Qed.

(* coefficient at flat position p *)
Definition cat (e : xpr) (p : nat) : bool := den e (p / cols e) (p mod cols e).

Definition all_spec (e : xpr) : bool := forallb (cat e) (seq 0 (size e)).
Definition any_spec (e : xpr) : bool := existsb (cat e) (seq 0 (size e)).

Lemma forallb_ext_in {A} (f g : A -> bool) l : (forall x, In x l -> f x = g x) -> forallb f l = forallb g l.
Proof. induction l as [|x t IH]; intros H; simpl; auto. rewrite H, IH; auto; [|now left]. intros; apply H; now right. Qed.
Lemma existsb_ext_in {A} (f g : A -> bool) l : (forall x, In x l -> f x = g x) -> existsb f l = existsb g l.
Proof. induction l as [|x t IH]; intros H; simpl; auto. rewrite H, IH; auto; [|now left]. intros; apply H; now right. Qed.

Lemma forallb_seq_shift f a n : forallb f (seq a n) = forallb (fun b => f (a + b)) (seq 0 n).
Proof.
  apply eq_true_iff_eq. rewrite !forallb_forall. split; intros H x Hx; apply in_seq in Hx.
  - apply H, in_seq. lia.
  - replace x with (a + (x - a)) by lia. apply H, in_seq. lia.
Qed.
Lemma existsb_seq_shift f a n : existsb f (seq a n) = existsb (fun b => f (a + b)) (seq 0 n).
Proof.
  apply eq_true_iff_eq. rewrite !existsb_exists. split; intros (x & Hx & H); apply in_seq in Hx.
  - exists (x - a). split; [apply in_seq; lia|]. replace (a + (x - a)) with x by lia. exact H.
  - exists (a + x). split; [apply in_seq; lia|exact H].
Qed.

(* the loop of linear_bitpack_visit for all(): exact result, last mask included *)
Lemma visit_all e : packs_hold e -> forall fuel k i,
  i = k * 64 -> size e - i <= fuel * 64 ->
  i <= size e ->
  forallb (cat e) (seq 0 i) = true ->
  exists w, (w < 2^64)%N /\
   (forall b, b < 64 -> size e / 64 * 64 + b < size e -> N.testbit w (N.of_nat b) = cat e (size e / 64 * 64 + b)) /\
   (bitpack e (size e / 64) = Ok w) /\
   visit_packs all_visitor e fuel k i true =
   Ok (forallb (cat e) (seq i (size e / 64 * 64 - i)) &&
       (if size e mod 64 =? 0 then true
        else forallb (fun b => N.testbit w (N.of_nat b)) (seq 0 (64 - size e mod 64)))).
Proof.
  intros [B H].
  destruct (H (size e / 64)) as (wl & El & Ll & Tl).
  { rewrite B. unfold n_packs, size. lia. }
  intros fuel; induction fuel as [|fuel IH]; intros k i Ei Hf Hi Hd; exists wl.
  - assert (i = size e) by lia. split; [exact Ll|split; [exact Tl|split; [exact El|]]].
    cbn [visit_packs]. replace (i + 64 - 1 <? size e) with false by lia.
    replace (i <? size e) with false by lia.
    replace (size e mod 64 =? 0) with true by lia.
    replace (size e / 64 * 64 - i) with 0 by lia. reflexivity.
  - split; [exact Ll|split; [exact Tl|split; [exact El|]]]. cbn [visit_packs].
    destruct (i + 64 - 1 <? size e) eqn:E1.
    + destruct (H k) as (w & E & L & T); [rewrite B; unfold n_packs; unfold size in *; lia|].
      rewrite E; cbn [bind all_visitor v_full v_stop]. cbn [andb].
      rewrite word_all by exact L.
      assert (EW : forallb (fun b => N.testbit w (N.of_nat b)) (seq 0 64) = forallb (cat e) (seq i 64)).
      { rewrite (forallb_seq_shift (cat e)). apply forallb_ext_in. intros b Hb. apply in_seq in Hb.
        rewrite T by lia. unfold cat. rewrite Ei. reflexivity. }
      rewrite EW. clear EW.
      replace (size e / 64 * 64 - i) with (64 + (size e / 64 * 64 - (i + 64))) by lia.
      rewrite seq_app, forallb_app.
      destruct (forallb (cat e) (seq i 64)) eqn:E2; cbn [negb andb].
      * destruct (IH (S k) (i + 64)) as (w' & _ & _ & El' & R); try lia.
        { replace (seq 0 (i + 64)) with (seq 0 i ++ seq i 64) by (rewrite <- seq_app; reflexivity).
          rewrite forallb_app, Hd, E2. reflexivity. }
        rewrite El in El'. injection El' as <-. exact R.
      * reflexivity.
    + destruct (i <? size e) eqn:E3.
      * assert (Ek : k = size e / 64) by lia. subst k. rewrite El; cbn [bind all_visitor v_part].
        replace ((size e - i =? 0) || (64 <? size e - i)) with false by lia.
        cbn [andb]. rewrite mask_all.
        replace (size e / 64 * 64 - i) with 0 by lia. cbn [seq forallb andb].
        replace (size e mod 64 =? 0) with false by lia.
        replace (size e - i) with (size e mod 64) by lia. reflexivity.
      * replace (size e / 64 * 64 - i) with 0 by lia. cbn [seq forallb andb].
        replace (size e mod 64 =? 0) with true by lia. reflexivity.
Qed.

Lemma seq_split_at n m : m <= n -> seq 0 n = seq 0 m ++ seq m (n - m).
Proof. intros. replace n with (m + (n - m)) at 1 by lia. rewrite seq_app. reflexivity. Qed.

(* complete characterisation of all() *)
Lemma all_small e : packs_hold e -> size e < 64 -> all_ e = Ok (all_spec e).
Proof.
  intros [B H] Hs. unfold all_, pack_visit, all_spec.
  destruct (Nat.eqb_spec (size e) 0) as [E|E]; [rewrite E; reflexivity|].
  replace (size e <? 64) with true by lia.
  destruct (H 0) as (w & Ew & L & T); [rewrite B; unfold n_packs; lia|].
  rewrite Ew; cbn [bind all_visitor v_part].
  replace ((64 - size e =? 0) || (64 <? 64 - size e)) with false by lia.
  replace (64 - (64 - size e)) with (size e) by lia. rewrite mask_all. cbn [andb]. f_equal.
  apply forallb_ext_in. intros b Hb. apply in_seq in Hb. rewrite T by lia. reflexivity.
Qed.

Lemma all_multiple e : packs_hold e -> size e mod 64 = 0 -> all_ e = Ok (all_spec e).
Proof.
  intros P Hs. unfold all_, pack_visit.
  destruct (Nat.eqb_spec (size e) 0) as [E|E]; [unfold all_spec; rewrite E; reflexivity|].
  replace (size e <? 64) with false by lia.
  destruct (visit_all e P (size e) 0 0) as (w & _ & _ & _ & R); try lia; auto.
  rewrite R. replace (size e mod 64 =? 0) with true by lia. rewrite andb_true_r.
  unfold all_spec. do 2 f_equal. f_equal. lia.
Qed.

(* what all() computes when a partial pack is left: it tests 64 - r bits of it instead of r *)
Lemma all_remainder e : packs_hold e -> 64 < size e -> size e mod 64 <> 0 ->
  exists w, bitpack e (size e / 64) = Ok w /\
  all_ e = Ok (forallb (cat e) (seq 0 (size e / 64 * 64)) &&
               forallb (fun b => N.testbit w (N.of_nat b)) (seq 0 (64 - size e mod 64))).
Proof.
  intros P Hs Hr. unfold all_, pack_visit.
  replace (size e =? 0) with false by lia. replace (size e <? 64) with false by lia.
  destruct (visit_all e P (size e) 0 0) as (w & _ & _ & El & R); try lia; auto.
  exists w. split; [exact El|]. rewrite R. replace (size e mod 64 =? 0) with false by lia.
  rewrite Nat.sub_0_r. reflexivity.
Qed.

Lemma visit_any e : packs_hold e -> forall fuel k i,
  i = k * 64 -> size e - i <= fuel * 64 -> i <= size e ->
  visit_packs any_visitor e fuel k i false = Ok (existsb (cat e) (seq i (size e - i))).
Proof.
  intros [B H].
  intros fuel; induction fuel as [|fuel IH]; intros k i Ei Hf Hi.
  - cbn [visit_packs]. replace (i + 64 - 1 <? size e) with false by lia.
    replace (i <? size e) with false by lia. replace (size e - i) with 0 by lia. reflexivity.
  - cbn [visit_packs]. destruct (i + 64 - 1 <? size e) eqn:E1.
    + destruct (H k) as (w & E & L & T); [rewrite B; unfold n_packs; unfold size in *; lia|].
      rewrite E; cbn [bind any_visitor v_full v_stop]. cbn [orb].
      rewrite word_any by exact L.
      assert (EW : existsb (fun b => N.testbit w (N.of_nat b)) (seq 0 64) = existsb (cat e) (seq i 64)).
      { rewrite (existsb_seq_shift (cat e)). apply existsb_ext_in. intros b Hb. apply in_seq in Hb.
        rewrite T by lia. unfold cat. rewrite Ei. reflexivity. }
      rewrite EW. clear EW.
      replace (size e - i) with (64 + (size e - (i + 64))) by lia.
      rewrite seq_app, existsb_app.
      destruct (existsb (cat e) (seq i 64)) eqn:E2; cbn [orb]; [reflexivity|].
      apply IH; lia.
    + destruct (i <? size e) eqn:E3.
      * destruct (H k) as (w & E & L & T); [rewrite B; unfold n_packs; unfold size in *; lia|].
        rewrite E; cbn [bind any_visitor v_part].
        replace ((size e - i =? 0) || (64 <? size e - i)) with false by lia.
        cbn [orb]. rewrite mask_any by lia. f_equal. rewrite (existsb_seq_shift (cat e)).
        apply existsb_ext_in. intros b Hb. apply in_seq in Hb. rewrite T by lia. unfold cat. now rewrite Ei.
      * replace (size e - i) with 0 by lia. reflexivity.
Qed.

Lemma any_large e : packs_hold e -> size e = 0 \/ 64 <= size e -> any_ e = Ok (any_spec e).
Proof.
  intros P Hs. unfold any_, pack_visit, any_spec.
  destruct (Nat.eqb_spec (size e) 0) as [E|E]; [rewrite E; reflexivity|].
  replace (size e <? 64) with false by lia.
  rewrite (visit_any e P); try lia. now rewrite Nat.sub_0_r.
Qed.

(* what any() computes on a small matrix: the 64 - size low bits of the pack *)
Lemma any_small e : packs_hold e -> 0 < size e < 64 ->
  exists w, bitpack e 0 = Ok w /\
  any_ e = Ok (existsb (fun b => N.testbit w (N.of_nat b)) (seq 0 (64 - size e))).
Proof.
  intros [B H] Hs. unfold any_, pack_visit.
  replace (size e =? 0) with false by lia. replace (size e <? 64) with true by lia.
  destruct (H 0) as (w & Ew & L & T); [rewrite B; unfold n_packs; lia|].
  exists w. split; [exact Ew|]. rewrite Ew; cbn [bind any_visitor v_part].
  replace ((64 - size e =? 0) || (64 <? 64 - size e)) with false by lia.
  rewrite mask_any by lia. reflexivity.
Qed.

(* count *)
Definition tally (f : nat -> bool) (a n : nat) : nat := length (filter f (seq a n)).
Lemma tally_app f a n m : tally f a (n + m) = tally f a n + tally f (a + n) m.
Proof. unfold tally. rewrite seq_app, filter_app, app_length. reflexivity. Qed.
Lemma tally_ext f g a n : (forall x, a <= x < a + n -> f x = g x) -> tally f a n = tally g a n.
Proof. intros H. unfold tally. f_equal. apply filter_ext_in. intros x Hx. apply in_seq in Hx. now apply H. Qed.

Lemma tally_shift f i n : length (filter (fun b => f (i + b)) (seq 0 n)) = length (filter f (seq i n)).
Proof.
  replace (seq i n) with (seq (i + 0) n) by (f_equal; lia). generalize 0 as a.
  induction n as [|n IH]; intros a; auto.
  cbn [seq filter]. specialize (IH (S a)). rewrite <- plus_n_Sm in IH.
  destruct (f (i + a)); cbn [length]; auto.
Qed.

Lemma count_bits_tally n w acc :
  count_bits n w acc = acc + tally (fun b => N.testbit w (N.of_nat b)) 0 n.
Proof.
  revert w acc; induction n as [|n IH]; intros w acc; cbn [count_bits].
  - unfold tally; simpl; lia.
  - rewrite IH.
    assert (E : N.eqb (N.land w 1) 1 = N.testbit w 0).
    { change (N.land w 1) with (N.land w (N.ones 1)). rewrite N.land_ones. change (2^1)%N with 2%N.
      rewrite <- N.bit0_mod. destruct (N.testbit w 0); reflexivity. }
    rewrite E. replace (S n) with (1 + n) by lia. rewrite tally_app. change (0 + 1) with 1.
    unfold tally at 2. cbn [seq filter]. change (N.of_nat 0) with 0%N.
    assert (E2 : tally (fun b => N.testbit (N.shiftr w 1) (N.of_nat b)) 0 n
                 = tally (fun b => N.testbit w (N.of_nat b)) 1 n).
    { unfold tally. rewrite <- seq_shift. generalize (seq 0 n). induction l as [|x t IHt]; auto.
      cbn [map filter]. rewrite N.shiftr_spec'.
      replace (N.of_nat (S x)) with (N.of_nat x + 1)%N by lia.
      destruct (N.testbit w (N.of_nat x + 1)); cbn [length]; auto. }
    rewrite E2. destruct (N.testbit w 0); cbn [length]; lia.
Qed.

Lemma count_ok e : packs_hold e -> count e = Ok (tally (cat e) 0 (size e)).
Proof.
  intros [B H]. unfold count.
  destruct (Nat.eqb_spec (size e) 0) as [E0|E0]; [rewrite E0; reflexivity|].
  set (F := fun (st : nat * nat) k => _).
  destruct (foldM_inv (fun done st => fst st = Nat.min (length done * 64) (size e) /\
                           snd st = tally (cat e) 0 (fst st)) F (seq 0 (bitpacks e)) (0, 0)) as (st & E & P1 & P2).
  - cbn. split; [lia|reflexivity].
  - intros done x [i acc] (rest & El) [P1 P2]. cbn [fst snd] in *.
    assert (Lx : x = length done /\ length done < bitpacks e).
    { assert (N1 : nth_error (seq 0 (bitpacks e)) (length done) = Some x).
      { rewrite El, nth_error_app2, Nat.sub_diag by lia. reflexivity. }
      rewrite nth_error_seq in N1. destruct (length done <? bitpacks e) eqn:E; [|discriminate].
      injection N1 as <-. lia. }
    destruct Lx as [-> Lx]. rewrite app_length; cbn [length]. unfold F.
    destruct (H (length done) Lx) as (w & Ew & L & T). rewrite Ew; cbn [bind].
    destruct (i + 64 <? size e) eqn:E1.
    + eexists; split; [reflexivity|]. cbn [fst snd]. split; [lia|].
      rewrite count_bits_tally, tally_app, P2. f_equal.
      assert (Ei : i = length done * 64) by lia.
      cbn [Nat.add]. unfold tally.
      transitivity (length (filter (fun b => cat e (i + b)) (seq 0 64))).
      * f_equal. apply filter_ext_in. intros b Hb. apply in_seq in Hb. rewrite T by lia. unfold cat. now rewrite Ei.
      * apply tally_shift.
    + eexists; split; [reflexivity|]. cbn [fst snd]. split; [lia|].
      rewrite count_bits_tally. replace (Nat.max i (size e)) with (i + (size e - i)) by lia.
      rewrite tally_app, P2. f_equal. cbn [Nat.add].
      destruct (Nat.eq_dec i (size e)) as [Ei|Ei].
      { replace (size e - i) with 0 by lia. reflexivity. }
      assert (Ei2 : i = length done * 64) by lia. unfold tally.
      transitivity (length (filter (fun b => cat e (i + b)) (seq 0 (size e - i)))).
      * f_equal. apply filter_ext_in. intros b Hb. apply in_seq in Hb. rewrite T by lia. unfold cat. now rewrite Ei2.
      * apply tally_shift.
  - rewrite E; cbn [bind]. rewrite seq_length in P1. f_equal. rewrite P2. f_equal.
    rewrite P1, B. unfold n_packs. unfold size. lia.
Qed.
