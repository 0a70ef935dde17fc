(* Properties C23-C27 (block frame) and C93 (block vector). *)
From Verif Require Import Base FrameModel FrameSpec FrameProofs.
From Coq Require Import Permutation.

Section P.
Variable V : Type.
Notation mat := (mat V). Notation frame := (frame V).

(* ---- C23, C24: histories ---------------------------------------------------------------- *)
Definition agrees (f : frame) (h : list (call V)) : Prop :=
  shape V f /\
  (forall t k, find_key V k (data f t) = last_block V t k h) /\
  (forall t, NoDup (map fst (data f t))) /\
  (forall k, In k (columns f) <-> Exists (inserts V k) h) /\
  (forall k, In k (columns f) -> nth_error (dirty f) (position k (columns f)) = Some (last_flag V k h)) /\
  (forall t k m, find_key V k (data f t) = Some m -> wf_mat V m /\ (mrows m = frows f \/ mrows m = 0)).

Lemma last_block_snoc : forall t k h c, last_block V t k (h ++ [c]) =
  match c with
  | CInsert t' k' m _ => if (t =? t') && (k =? k') then Some m else last_block V t k h
  | CStack t' k' m => if (t =? t') && (k =? k') then Some (below V m) else last_block V t k h
  | CClear _ => last_block V t k h
  end.
Proof. intros. unfold last_block. rewrite fold_left_app. reflexivity. Qed.
Lemma last_flag_snoc : forall k h c, last_flag V k (h ++ [c]) =
  match c with
  | CInsert _ k' _ b => if k =? k' then b else last_flag V k h
  | CStack _ k' _ => if k =? k' then true else last_flag V k h
  | CClear k' => if k =? k' then false else last_flag V k h
  end.
Proof. intros. unfold last_flag. rewrite fold_left_app. reflexivity. Qed.
Lemma exists_snoc : forall k h c, Exists (inserts V k) (h ++ [c]) <-> inserts V k c \/ Exists (inserts V k) h.
Proof. intros. rewrite Exists_app. split; [intros [H|H]; [auto|inversion H; subst; auto; inversion H1]|intros [H|H]; auto]. Qed.

Lemma agrees_insert : forall f h t k m b c, agrees f h -> wf_mat V m -> frows f = 0 \/ mrows m = frows f ->
  (forall t' k', last_block V t' k' (h ++ [c]) = if (t' =? t) && (k' =? k) then Some m else last_block V t' k' h) ->
  (forall k', last_flag V k' (h ++ [c]) = if k' =? k then b else last_flag V k' h) ->
  (forall k', inserts V k' c <-> k' = k) ->
  exists g, insert V t k m b f = Ok g /\ agrees g (h ++ [c]) /\ frows g = (if frows f =? 0 then mrows m else frows f).
Proof.
  intros f h t k m b c [SH [A [B [C [D F]]]]] W HR HB HF HI.
  destruct (insert_effect V t k m b f SH HR) as [g [E [S1 [S2 [S3 [S4 [S5 S6]]]]]]].
  exists g; split; [auto|]. split; [|auto]. split; [auto|]. split; [|split; [|split; [|split]]].
  - intros t' k'. rewrite S2, HB, A. auto.
  - intros t'. apply S3, B.
  - intros k'. rewrite S4, exists_snoc, HI, C. tauto.
  - intros k' Hk. rewrite S5 by auto. rewrite HF. destruct (k' =? k) eqn:Ek; auto. apply D. apply S4 in Hk. apply Nat.eqb_neq in Ek. tauto.
  - intros t' k' m' Hm. rewrite S2 in Hm. rewrite S6. destruct ((t' =? t) && (k' =? k)).
    + inversion Hm; subst. split; auto. destruct (frows f =? 0) eqn:E0; auto. left. apply Nat.eqb_neq in E0. destruct HR; congruence.
    + destruct (F _ _ _ Hm) as [W' HH]. split; auto. destruct (frows f =? 0) eqn:E0; auto. apply Nat.eqb_eq in E0. right; destruct HH; lia.
Qed.

Lemma agrees_step : forall f h c, agrees f h -> wf_call V c ->
  (exists g, exec V c f = Ok g /\ agrees g (h ++ [c]) /\
     (forall n, height V c = Some n -> (frows f = 0 \/ n = frows f) /\ frows g = if frows f =? 0 then n else frows f)) \/
  (exec V c f = Throw /\ frows f <> 0 /\ exists n, height V c = Some n /\ n <> frows f).
Proof.
  intros f h c AG W. destruct c as [t k m b|t k m|k]; cbn [exec].
  - destruct (Nat.eq_dec (frows f) 0) as [Z|Z]; [|destruct (Nat.eq_dec (mrows m) (frows f)) as [Y|Y]].
    3:{ right. split; [apply insert_throw; auto|]. split; auto. exists (mrows m). split; [reflexivity|auto]. }
    all: left; destruct (agrees_insert f h t k m b (CInsert t k m b) AG W) as [g [E [AG' R]]]; auto;
      try (intros; rewrite ?last_block_snoc, ?last_flag_snoc; reflexivity); try (intros; cbn; tauto);
      exists g; split; [auto|]; split; [auto|]; intros n Hn; inversion Hn; subst; split; auto.
  - unfold stack. rewrite stacked_ok by exact W. cbn [bind].
    destruct (Nat.eq_dec (frows f) 0) as [Z|Z]; [|destruct (Nat.eq_dec (mrows (below V m)) (frows f)) as [Y|Y]].
    3:{ right. split; [apply insert_throw; auto|]. split; auto. eexists. split; [reflexivity|]. rewrite <- below_rows; auto. }
    all: left; destruct (agrees_insert f h t k (below V m) true (CStack t k m) AG (below_wf V m)) as [g [E [AG' R]]]; auto;
      try (intros; rewrite ?last_block_snoc, ?last_flag_snoc; reflexivity); try (intros; cbn; tauto);
      exists g; split; [auto|]; split; [auto|]; intros n Hn; inversion Hn; subst; rewrite <- below_rows by exact W; split; auto.
  - left. unfold clear_dirty_bit, has_block. destruct AG as [[ND LD] [A [B [C [D F]]]]].
    destruct (existsb (Nat.eqb k) (columns f)) eqn:EH.
    + apply existsb_In in EH. pose proof (position_lt _ _ EH) as PL. unfold upd_res.
      replace (position k (columns f) <? length (dirty f)) with true by lia. cbn [bind].
      eexists; split; [reflexivity|]. split; [|discriminate]. unfold agrees, shape; cbn [data columns dirty frows].
      split; [split; [auto|rewrite upd_length; auto]|]. split; [intros; rewrite last_block_snoc; apply A|split; [auto|split; [|split; [|auto]]]].
      * intros k'. rewrite exists_snoc. cbn. rewrite C. tauto.
      * intros k' Hk. rewrite last_flag_snoc. destruct (k' =? k) eqn:E.
        { apply Nat.eqb_eq in E; subst. apply nth_error_upd_same. lia. }
        rewrite nth_error_upd_other; auto. intros Heq. apply Nat.eqb_neq in E. apply E. symmetry. eapply position_inj; eauto.
    + exists f; split; [reflexivity|]. split; [|discriminate]. split; [split; auto|]. split; [intros; rewrite last_block_snoc; apply A|split; [auto|split; [|split; [|auto]]]].
      * intros k'. rewrite exists_snoc. cbn. rewrite C. tauto.
      * intros k' Hk. rewrite last_flag_snoc. destruct (k' =? k) eqn:E; auto.
        apply Nat.eqb_eq in E; subst. apply existsb_In in Hk. congruence.
Qed.

Lemma session_agrees : forall h f h0, agrees f h0 -> Forall (wf_call V) h ->
  exists g L, session V f h = Ok (g, L) /\ agrees g (h0 ++ L).
Proof.
  induction h as [|c h IH]; intros f h0 AG W; cbn.
  - exists f, []. rewrite app_nil_r; auto.
  - inversion W; subst. destruct (agrees_step f h0 c AG) as [[g [E [AG' _]]]|[E _]]; auto; rewrite E.
    + destruct (IH g _ AG' H2) as [g' [L [E' AG2]]]. rewrite E'. cbn. exists g', (c :: L). split; auto.
      rewrite <- app_assoc in AG2. exact AG2.
    + apply IH; auto.
Qed.
Lemma agrees_init : forall r, agrees (frame0 r) [].
Proof.
  intros r. unfold agrees, shape; cbn. split; [split; [constructor|auto]|]. split; [auto|]. split; [constructor|]. split; [|split].
  - intros k; split; [tauto|intros H; inversion H].
  - tauto.
  - discriminate.
Qed.

Theorem frame_is_a_map : forall r h, Forall (wf_call V) h ->
  exists f L, session V (frame0 r) h = Ok (f, L) /\
    (forall k, has_block V k f = true <-> Exists (inserts V k) L) /\
    (forall t k, get V t k f = match last_block V t k L with Some m => Ok m | None => Throw end) /\
    (forall t k m, get V t k f = Ok m -> mrows m = frows f \/ mrows m = 0).
Proof.
  intros r h W. destruct (session_agrees h (frame0 r) [] (agrees_init r) W) as [f [L [E [SH [A [B [C [D F]]]]]]]].
  exists f, L. split; [auto|]. rewrite ?app_nil_l in *. cbn [app] in *.
  assert (LB: forall t k m, last_block V t k L = Some m -> In k (columns f)).
  { intros t k m. rewrite C. clear. induction L as [|c L IH] using rev_ind; [discriminate|]. rewrite last_block_snoc, exists_snoc.
    destruct c as [t' k' m' b|t' k' m'|k']; cbn; auto; destruct ((t =? t') && (k =? k')) eqn:EE; auto;
    apply andb_true_iff in EE; destruct EE as [_ EE]; apply Nat.eqb_eq in EE; auto. }
  assert (G: forall t k, get V t k f = match last_block V t k L with Some m => Ok m | None => Throw end).
  { intros t k. unfold get, has_block. rewrite A. destruct (last_block V t k L) as [m|] eqn:EL.
    - apply LB in EL. apply existsb_In in EL. rewrite EL. auto.
    - destruct (existsb _ _); auto. }
  split; [|split; [exact G|]].
  - intros k. unfold has_block. rewrite existsb_In. apply C.
  - intros t k m Hg. rewrite G in Hg. destruct (last_block V t k L) as [m'|] eqn:EL; [|discriminate]. inversion Hg; subst.
    rewrite <- A in EL. apply F in EL. tauto.
Qed.
(* blocks have exactly rows() rows when no empty block was accepted *)
Theorem frame_heights_partial : forall r h f L, Forall (wf_call V) h -> session V (frame0 r) h = Ok (f, L) ->
  Forall (fun c => height V c <> Some 0) L -> forall t k m, get V t k f = Ok m -> mrows m = frows f.
Proof.
  intros r h f L W E NZ t k m Hg. destruct (frame_is_a_map r h W) as [f' [L' [E' [_ [G HH]]]]]. rewrite E in E'. inversion E'; subst f' L'.
  destruct (HH _ _ _ Hg) as [X|X]; auto. exfalso. rewrite G in Hg.
  destruct (last_block V t k L) as [m'|] eqn:EL; [|discriminate]. inversion Hg; subst m'. clear - NZ EL X W E.
  assert (WL: Forall (wf_call V) L).
  { clear - W E. revert E. generalize (@frame0 V r). revert f L. induction h as [|c h IH]; intros f L f0 E; cbn in E.
    - inversion E; constructor.
    - inversion W; subst. destruct (exec V c f0) as [f1| | |] eqn:EC; try discriminate.
      + apply bind_ok in E. destruct E as [[g L1] [E1 E2]]. inversion E2; subst. cbn. constructor; auto. eapply IH; eauto.
      + eapply IH; eauto. }
  clear W E. induction L as [|c L IH] using rev_ind; [discriminate|]. rewrite last_block_snoc in EL.
  apply Forall_app in NZ. destruct NZ as [NZ1 NZ2]. inversion NZ2; subst. apply Forall_app in WL. destruct WL as [WL1 WL2]. inversion WL2; subst.
  destruct c as [t' k' m' b|t' k' m'|k']; cbn in *; auto; destruct ((t =? t') && (k =? k')); auto.
  - inversion EL; subst. unfold mrows in X. congruence.
  - inversion EL; subst. rewrite below_rows in X by auto. congruence.
Qed.
(* an insertion is refused exactly when its height differs from a non-zero rows(), and then
   nothing changes (exec returns no frame, so [session] keeps the old one) *)
Theorem frame_refuses : forall r h f L c n, Forall (wf_call V) h -> session V (frame0 r) h = Ok (f, L) ->
  wf_call V c -> height V c = Some n ->
  (exec V c f = Throw <-> frows f <> 0 /\ n <> frows f) /\ (exec V c f = Throw \/ exists g, exec V c f = Ok g).
Proof.
  intros r h f L c n W E Wc Hn. destruct (session_agrees h (frame0 r) [] (agrees_init r) W) as [f' [L' [E' AG]]].
  rewrite E in E'. inversion E'; subst f' L'. destruct (agrees_step f _ c AG Wc) as [[g [Eg [_ HH]]]|[Et [Z [n' [Hn' NE]]]]].
  - destruct (HH _ Hn) as [HH1 _]. split; [rewrite Eg; split; [discriminate|intros [X Y]; destruct HH1; congruence]|eauto].
  - rewrite Hn in Hn'; inversion Hn'; subst. split; [tauto|auto].
Qed.

Theorem stack_layout : forall m, wf_mat V m -> forall i j, i < mrows m -> j < mcols m ->
  stacked V m = Ok (below V m) /\ mrows (below V m) = mrows m * mcols m /\
  exists rw x, nth_error (mdata m) i = Some rw /\ nth_error rw j = Some x /\ nth_error (mdata (below V m)) (j * mrows m + i) = Some [x].
Proof.
  intros [c rows] W i j Hi Hj. split; [apply stacked_ok; auto|]. split; [apply below_rows; auto|].
  unfold wf_mat, mrows, below in *; cbn [mdata mcols] in *.
  set (colj := fun j => flat_map (fun r => match nth_error r j with Some x => [[x]] | None => [] end) rows : list (list V)).
  assert (CL: forall j, j < c -> length (colj j) = length rows).
  { intros j0 Hj0. unfold colj. clear colj Hi. induction rows as [|r rows IH]; auto. inversion W; subst. cbn.
    destruct (nth_error r j0) eqn:E; [cbn; rewrite IH; auto|]. apply nth_error_None in E; lia. }
  assert (CN: exists rw x, nth_error rows i = Some rw /\ nth_error rw j = Some x /\ nth_error (colj j) i = Some [x]).
  { unfold colj. clear colj CL. revert i Hi. induction rows as [|r0 rows IH]; intros i Hi; cbn in Hi; [lia|].
    inversion W; subst. cbn. destruct (nth_error r0 j) as [x0|] eqn:E; [|apply nth_error_None in E; lia].
    destruct i; cbn; [exists r0, x0; auto|]. apply IH; auto; lia. }
  destruct CN as [rw [x [E1 [E2 E3]]]]. exists rw, x. split; [auto|]. split; [auto|].
  assert (G: forall k, k <= c -> length (flat_map colj (seq 0 k)) = k * length rows).
  { induction k as [|k IHk]; intros Hk; auto. rewrite seq_S, flat_map_app, app_length, IHk by lia. cbn. rewrite app_nil_r, CL; lia. }
  replace c with (j + (1 + (c - j - 1))) by lia. rewrite seq_app, flat_map_app. fold colj.
  rewrite nth_error_app2 by (rewrite G; lia). rewrite G by lia. replace (j * length rows + i - j * length rows) with i by lia.
  rewrite seq_app, flat_map_app. cbn [seq flat_map Nat.add]. rewrite app_nil_r, nth_error_app1; auto. rewrite CL; auto.
Qed.

(* C24 *)
Theorem dirty_flags : forall r h f L, Forall (wf_call V) h -> session V (frame0 r) h = Ok (f, L) ->
  (forall k, is_dirty V k f = Ok (last_flag V k L)) /\
  exists ds, dirty_cols V f = Ok ds /\ NoDup ds /\ (forall k, In k ds <-> last_flag V k L = true).
Proof.
  intros r h f L W E. destruct (session_agrees h (frame0 r) [] (agrees_init r) W) as [f' [L' [E' AG]]].
  rewrite E in E'. inversion E'; subst f' L'. cbn [app] in AG. destruct AG as [[ND LD] [A [B [C [D F]]]]].
  assert (NF: forall k, ~ In k (columns f) -> last_flag V k L = false).
  { intros k. rewrite C. clear. induction L as [|c L IH] using rev_ind; auto. rewrite exists_snoc, last_flag_snoc. intros H.
    destruct c as [t' k' m' b|t' k' m'|k']; cbn in H; destruct (k =? k') eqn:Ek; auto;
    apply Nat.eqb_eq in Ek; tauto. }
  split.
  - intros k. unfold is_dirty, has_block. destruct (existsb (Nat.eqb k) (columns f)) eqn:EH.
    + apply existsb_In in EH. unfold nth_res. rewrite D; auto.
    + rewrite NF; auto. rewrite <- existsb_In. congruence.
  - assert (G: forall n, n <= length (dirty f) -> foldM (fun acc i => b <- nth_res (dirty f) i ;;
        if (b : bool) then c <- nth_res (columns f) i ;; Ok (acc ++ [c]) else Ok acc) (seq 0 n) [] =
        Ok (filter (fun k => last_flag V k L) (firstn n (columns f)))).
    { induction n as [|n IHn]; intros Hn; [reflexivity|]. rewrite seq_S, foldM_app, IHn by lia. cbn [bind foldM Nat.add].
      destruct (nth_error (columns f) n) as [k|] eqn:Ek; [|apply nth_error_None in Ek; lia].
      pose proof (position_at _ _ _ ND Ek) as PA. unfold nth_res. rewrite <- PA at 1. rewrite D by (eapply nth_error_In; eauto). cbn [bind].
      assert (FS: firstn (S n) (columns f) = firstn n (columns f) ++ [k]).
      { clear - Ek. revert n Ek. induction (columns f) as [|a l IH]; intros [|n] Ek; try discriminate; cbn in *; [congruence|]. f_equal. auto. }
      rewrite FS, filter_app. cbn [filter]. destruct (last_flag V k L); [|rewrite app_nil_r; auto]. rewrite Ek. reflexivity. }
    specialize (G (length (dirty f)) (le_n _)). unfold dirty_cols. rewrite G. rewrite LD, firstn_all.
    eexists; split; [reflexivity|]. split; [apply NoDup_filter; auto|]. intros k. rewrite filter_In. split; [tauto|].
    intros H; split; auto. destruct (in_dec Nat.eq_dec k (columns f)); auto. rewrite NF in H; auto; discriminate.
Qed.

(* ---- C25 -------------------------------------------------------------------------------- *)
Section Uniq.
Variable Veqb : V -> V -> bool.
Hypothesis Veqb_ok : forall x y, Veqb x y = true <-> x = y.
Lemma row_eqb_ok : forall a b, row_eqb V Veqb a b = true <-> a = b.
Proof.
  induction a as [|x a IH]; intros [|y b]; cbn; try (split; congruence). rewrite andb_true_iff, Veqb_ok, IH.
  split; [intros [-> ->]; auto|intros H; inversion H; auto].
Qed.
Lemma existsb_row : forall r l, existsb (row_eqb V Veqb r) l = true <-> In r l.
Proof.
  intros; rewrite existsb_exists. split; [intros [x [H E]]; apply row_eqb_ok in E; subst; auto|].
  intros H; exists r; split; auto. apply row_eqb_ok; auto.
Qed.
Lemma row_find_combine : forall u i a, NoDup u -> forall r, nth_error u i = Some r -> row_find V Veqb r (combine u (seq a (length u))) = Some (a + i).
Proof.
  induction u as [|x u IH]; intros i a ND r E; [destruct i; discriminate|]. inversion ND; subst. cbn.
  destruct i; cbn in E.
  - inversion E; subst. replace (row_eqb V Veqb r r) with true by (symmetry; apply row_eqb_ok; auto). f_equal; lia.
  - destruct (row_eqb V Veqb r x) eqn:Ex; [apply row_eqb_ok in Ex; subst; apply nth_error_In in E; tauto|].
    rewrite (IH i (S a)); auto. f_equal; lia.
Qed.
Lemma combine_snoc : forall A B (a : list A) (b : list B) x y, length a = length b -> combine (a ++ [x]) (b ++ [y]) = combine a b ++ [(x, y)].
Proof. induction a; intros [|? ?] x y H; cbn in *; try lia; auto. rewrite IHa; auto. Qed.

Definition ustep := (fun '(uniques, row_map, i) r =>
      if existsb (row_eqb V Veqb r) uniques then (uniques, row_map, i)
      else (uniques ++ [r], row_map ++ [(r, i)], S i)) : list (list V) * list (list V * nat) * nat -> list V -> list (list V) * list (list V * nat) * nat.
Lemma ustep_inv : forall l, exists u, fold_left ustep l ([], [], 0) = (u, combine u (seq 0 (length u)), length u) /\ distinct_in_order V l u.
Proof.
  induction l as [|r l IH] using rev_ind.
  - exists []. split; [reflexivity|]. split; [constructor|]. split; [tauto|]. intros [|a]; discriminate.
  - destruct IH as [u [E [ND [IN OR]]]]. rewrite fold_left_app, E. cbn [fold_left ustep].
    destruct (existsb (row_eqb V Veqb r) u) eqn:EX.
    + apply existsb_row in EX. exists u. split; auto. split; auto. split.
      * intros x. rewrite in_app_iff, IN; cbn. split; [tauto|]. intros [H|[->|[]]]; auto. apply IN; auto.
      * assert (FA: forall x i, In x u -> first_at V (l ++ [r]) x i -> first_at V l x i).
        { intros x i Hx [F1 F2]. apply IN in Hx. 
          assert (Hi: i < length l). { destruct (Nat.lt_ge_cases i (length l)) as [Hl|Hl]; auto. exfalso.
            apply In_nth_error in Hx. destruct Hx as [j Hj]. assert (j < length l) by (apply nth_error_Some; congruence).
            apply (F2 j); [lia|]. rewrite nth_error_app1; auto. }
          split; [rewrite nth_error_app1 in F1; auto|]. intros j Hj Ej. apply (F2 j Hj). rewrite nth_error_app1; auto. lia. }
        intros a b x y i j Ea Eb Hab Fi Fj. eapply (OR a b x y); eauto; apply FA; auto; eapply nth_error_In; eauto.
    + assert (NI: ~ In r u) by (rewrite <- existsb_row; congruence). exists (u ++ [r]).
      rewrite app_length, Nat.add_1_r, seq_S. cbn [Nat.add]. rewrite combine_snoc by (rewrite seq_length; auto). cbn [length].
      split; [f_equal; f_equal|]. split; [apply NoDup_snoc; auto|]. split.
      * intros x. rewrite !in_app_iff, IN. tauto.
      * assert (FA: forall x i, In x u -> first_at V (l ++ [r]) x i -> first_at V l x i).
        { intros x i Hx [F1 F2]. apply IN in Hx. 
          assert (Hi: i < length l). { destruct (Nat.lt_ge_cases i (length l)) as [Hl|Hl]; auto. exfalso.
            apply In_nth_error in Hx. destruct Hx as [j Hj]. assert (j < length l) by (apply nth_error_Some; congruence).
            apply (F2 j); [lia|]. rewrite nth_error_app1; auto. }
          split; [rewrite nth_error_app1 in F1; auto|]. intros j Hj Ej. apply (F2 j Hj). rewrite nth_error_app1; auto. lia. }
        intros a b x y i j Ea Eb Hab Fi Fj.
        assert (Ha: a < length u). { assert (b < length (u ++ [r])) by (apply nth_error_Some; congruence). rewrite app_length in H; cbn in H; lia. }
        rewrite nth_error_app1 in Ea by auto. destruct (Nat.lt_ge_cases b (length u)) as [Hb|Hb].
        { rewrite nth_error_app1 in Eb by auto. eapply (OR a b x y); eauto; apply FA; auto; eapply nth_error_In; eauto. }
        assert (y = r). { rewrite nth_error_app2 in Eb by auto. destruct (b - length u) as [|[|q]]; cbn in Eb; congruence. }
        subst y. apply FA in Fi; [|eapply nth_error_In; eauto]. destruct Fi as [F1 _]. assert (i < length l) by (apply nth_error_Some; congruence).
        destruct Fj as [F2 _]. destruct (Nat.lt_ge_cases j (length l)) as [Hj|Hj]; [|lia]. exfalso. apply NI. apply IN.
        rewrite nth_error_app1 in F2 by auto. eapply nth_error_In; eauto.
Qed.
Lemma place_ok : forall u p, NoDup u -> Permutation p u ->
  foldM (fun acc r => match row_find V Veqb r (combine u (seq 0 (length u))) with Some i => upd_res acc i r | None => Throw end)
    p (repeat [] (length u)) = Ok u.
Proof.
  intros u p ND PE.
  assert (NP: NoDup p) by (eapply Permutation_NoDup; [apply Permutation_sym; eauto|auto]).
  edestruct (foldM_inv (fun done acc => length acc = length u /\ forall i r, nth_error u i = Some r -> In r done -> nth_error acc i = Some r))
    as [s' [E [L H]]]; [| |rewrite E].
  - split; [apply repeat_length|cbn; tauto].
  - intros done x s0 [rest Hs] [L H].
    assert (Hx: In x u) by (eapply Permutation_in; [exact PE|]; rewrite Hs; apply in_or_app; cbn; auto).
    apply In_nth_error in Hx. destruct Hx as [i Hi]. rewrite (row_find_combine u i 0 ND x Hi). cbn [Nat.add].
    assert (i < length u) by (apply nth_error_Some; congruence). unfold upd_res. replace (i <? length s0) with true by lia.
    eexists; split; [reflexivity|]. split; [rewrite upd_length; auto|]. intros j r Hj Hin. apply in_app_or in Hin.
    destruct (Nat.eq_dec i j) as [->|Hne].
    + rewrite nth_error_upd_same by lia. congruence.
    + rewrite nth_error_upd_other by auto. apply H; auto. destruct Hin as [Hin|[<-|[]]]; auto. exfalso. apply Hne.
      apply (proj1 (NoDup_nth_error u) ND); auto. congruence.
  - f_equal. apply nth_error_ext. intros i. destruct (nth_error u i) as [r|] eqn:Ei.
    + apply H; auto. eapply Permutation_in; [apply Permutation_sym; exact PE|]. eapply nth_error_In; eauto.
    + apply nth_error_None. apply nth_error_None in Ei. lia.
Qed.
Theorem extract_unique_spec : forall ord t k f m, (forall l, Permutation (ord l) l) -> get V t k f = Ok m ->
  exists u, extract_unique V Veqb ord t k f = Ok (Mat (mcols m) u) /\ distinct_in_order V (mdata m) u.
Proof.
  intros ord t k f m PO G. unfold extract_unique. rewrite G. cbn [bind].
  destruct (ustep_inv (mdata m)) as [u [E DU]]. fold ustep. rewrite E.
  rewrite place_ok; [|apply DU|apply PO]. cbn [bind]. eauto.
Qed.
End Uniq.

(* ---- C26 -------------------------------------------------------------------------------- *)
Lemma middle_ok : forall m b e, (0 <= b)%Z -> (b <= e + 1)%Z -> (e < Z.of_nat (mrows m))%Z ->
  exists r, middle_rows V m b (e - b + 1) = Ok r /\ mcols r = mcols m /\ Z.of_nat (mrows r) = (e - b + 1)%Z /\
  forall i, i < mrows r -> nth_error (mdata r) i = nth_error (mdata m) (Z.to_nat b + i).
Proof.
  intros m b e H1 H2 H3. unfold middle_rows.
  replace ((0 <=? b)%Z && (0 <=? e - b + 1)%Z && (b + (e - b + 1) <=? Z.of_nat (mrows m))%Z) with true by lia.
  eexists; split; [reflexivity|]. unfold mrows in *; cbn. rewrite firstn_length, skipn_length. split; [auto|]. split; [lia|].
  intros i Hi. rewrite nth_error_firstn. replace (i <? Z.to_nat (e - b + 1)) with true by lia. apply nth_error_skipn'.
Qed.
Theorem range_view : forall t k f m b e, get V t k f = Ok m -> (0 <= b)%Z -> (b <= e + 1)%Z -> (e < Z.of_nat (mrows m))%Z ->
  exists r, view_get V (at_range b e) t k f = Ok r /\ mcols r = mcols m /\ Z.of_nat (mrows r) = (e - b + 1)%Z /\
  forall i, i < mrows r -> nth_error (mdata r) i = nth_error (mdata m) (Z.to_nat b + i).
Proof. intros t k f m b e G H1 H2 H3. unfold view_get, at_range. rewrite G. cbn [bind]. apply middle_ok; auto. Qed.
Theorem tail_view : forall t k f m b, get V t k f = Ok m -> mrows m = frows f -> b <= frows f ->
  view_get V (tail V (Z.of_nat b) f) t k f = Ok (Mat (mcols m) (skipn b (mdata m))).
Proof.
  intros t k f m b G H1 H2. unfold view_get, tail. rewrite G. cbn [bind].
  unfold middle_rows. rewrite H1.
  replace (_ && _) with true by lia. f_equal. f_equal. rewrite firstn_all2; [rewrite Nat2Z.id; auto|].
  rewrite skipn_length. unfold mrows in H1. lia.
Qed.
Theorem row_view : forall t k f m i r, get V t k f = Ok m -> nth_error (mdata m) i = Some r ->
  view_get V (at_row (Z.of_nat i)) t k f = Ok (Mat (mcols m) [r]).
Proof.
  intros t k f m i r G E. unfold view_get, at_row. rewrite G. cbn [bind]. unfold row. replace (Z.of_nat i <? 0)%Z with false by lia.
  rewrite Nat2Z.id. unfold nth_res. rewrite E. auto.
Qed.
Theorem list_view : forall t k f m l rs, get V t k f = Ok m -> Forall2 (fun i r => nth_error (mdata m) i = Some r) l rs ->
  view_get V (at_list (map Z.of_nat l)) t k f = Ok (Mat (mcols m) rs).
Proof.
  intros t k f m l rs G H. unfold view_get, at_list. rewrite G. cbn [bind].
  replace (mapM (row V m) (map Z.of_nat l)) with (@Ok (list (list V)) rs); [reflexivity|]. symmetry. apply mapM_ok.
  clear G. induction H; constructor; auto. unfold row. replace (Z.of_nat x <? 0)%Z with false by lia. rewrite Nat2Z.id. apply nth_res_ok; auto.
Qed.
(* head(n) views n+1 rows, so it never is "the first n rows" and head(rows()) is out of range *)
Theorem head_view_exact : forall t k f m n, get V t k f = Ok m -> n < mrows m ->
  view_get V (head V (Z.of_nat n) f) t k f = Ok (Mat (mcols m) (firstn (S n) (mdata m))).
Proof.
  intros t k f m n G H1. unfold view_get, head. rewrite G. cbn [bind]. unfold middle_rows.
  replace (_ && _) with true by lia. f_equal. f_equal. cbn [Z.to_nat skipn]. f_equal. lia.
Qed.
Theorem head_full_refuted : forall t k f m, get V t k f = Ok m -> view_get V (head V (Z.of_nat (mrows m)) f) t k f = UB.
Proof.
  intros t k f m G. unfold view_get, head. rewrite G. cbn [bind]. unfold middle_rows.
  replace (_ && _) with false by lia. auto.
Qed.
(* col(k, j): throws for every existing column, undefined beyond *)
Theorem col_refuted : forall t k f m j, get V t k f = Ok m -> col V t k j f = if (j <=? Z.of_nat (mcols m))%Z then Throw else UB.
Proof.
  intros t k f m j G. unfold col. rewrite G. cbn [bind]. destruct (j <=? Z.of_nat (mcols m))%Z eqn:E.
  - replace (Z.of_nat (mcols m) <? j)%Z with false by lia. reflexivity.
  - replace (Z.of_nat (mcols m) <? j)%Z with true by lia. cbn [assert_ bind]. replace (_ || _) with true by lia. auto.
Qed.
(* several keys: blocks side by side *)
Lemma many_fold : forall v t f ks bs acc, Forall2 (fun k b => view_get V v t k f = Ok b) ks bs ->
  Forall (fun b => mrows b = length acc) bs ->
  exists rows, foldM (fun acc k => b <- view_get V v t k f ;;
      if mrows b =? length acc then Ok (map (fun '(a, r) => a ++ r) (combine acc (mdata b))) else UB) ks acc = Ok rows /\
    length rows = length acc /\
    forall i a, nth_error acc i = Some a -> exists rs, Forall2 (fun b r => nth_error (mdata b) i = Some r) bs rs /\ nth_error rows i = Some (a ++ concat rs).
Proof.
  induction ks as [|k ks IH]; intros bs acc F H; inversion F; subst.
  - exists acc. split; [reflexivity|]. split; [auto|]. intros i a E. exists []. split; [constructor|]. cbn. rewrite app_nil_r. auto.
  - inversion H as [|? ? HY HL]; subst. cbn [foldM].
    match goal with HV : view_get V v t k f = Ok y |- _ => rewrite HV end. cbn [bind]. rewrite HY, Nat.eqb_refl. cbn [bind].
    set (acc' := map (fun '(a, r) => a ++ r) (combine acc (mdata y))).
    assert (LA: length acc' = length acc). { unfold acc'. rewrite map_length, combine_length. unfold mrows in HY. lia. }
    edestruct (IH l' acc') as [rows [E [L N]]]; eauto. { rewrite LA; auto. }
    exists rows. split; [auto|]. split; [congruence|]. intros i a Ea.
    assert (Hi: i < length (mdata y)). { unfold mrows in HY. rewrite HY. apply nth_error_Some; congruence. }
    destruct (nth_error (mdata y) i) as [r|] eqn:Er; [|apply nth_error_None in Er; lia].
    assert (Ec: nth_error acc' i = Some (a ++ r)).
    { unfold acc'. rewrite nth_error_map'. clear - Ea Er. revert i Ea Er. generalize (mdata y). induction acc as [|x acc IH]; intros l [|i] Ea Er; try discriminate; destruct l; try discriminate; cbn in *; [congruence|]. eauto. }
    destruct (N i _ Ec) as [rs [F2 Nr]]. exists (r :: rs). split; [constructor; auto|]. cbn. rewrite app_assoc; auto.
Qed.
Theorem range_view_many : forall t f ks ms b e, Forall2 (fun k m => get V t k f = Ok m) ks ms ->
  (0 <= b)%Z -> (b <= e + 1)%Z -> Forall (fun m => (e < Z.of_nat (mrows m))%Z) ms ->
  exists res, view_get_many V (at_range b e) t ks f = Ok res /\ mcols res = list_sum (map mcols ms) /\
    Z.of_nat (mrows res) = (e - b + 1)%Z /\
    forall i, i < mrows res -> exists rs, Forall2 (fun m r => nth_error (mdata m) (Z.to_nat b + i) = Some r) ms rs /\ nth_error (mdata res) i = Some (concat rs).
Proof.
  intros t f ks ms b e F H1 H2 H3. unfold view_get_many.
  assert (EM: mapM (fun k => get V t k f) ks = Ok ms) by (apply mapM_ok; auto). rewrite EM. cbn [bind].
  unfold at_range, view_rows. replace (e - b + 1 <? 0)%Z with false by lia.
  assert (BS: exists bs, Forall2 (fun k r => view_get V (VRange b e) t k f = Ok r) ks bs /\
     Forall2 (fun m r => Z.of_nat (mrows r) = (e - b + 1)%Z /\ forall i, i < mrows r -> nth_error (mdata r) i = nth_error (mdata m) (Z.to_nat b + i)) ms bs).
  { clear EM. induction F; [exists []; split; constructor|]. inversion H3; subst. destruct IHF as [bs [X Y]]; auto.
    destruct (range_view t x f y b e H H1 H2 H5) as [r [E1 [E2 [E3 E4]]]]. exists (r :: bs). split; constructor; auto. }
  destruct BS as [bs [B1 B2]].
  edestruct (many_fold (VRange b e) t f ks bs (repeat [] (Z.to_nat (e - b + 1)))) as [rows [E [L N]]]; [exact B1| |].
  { rewrite repeat_length. clear - B2. induction B2; constructor; auto. destruct H as [H _]. lia. }
  rewrite E. cbn [bind]. eexists; split; [reflexivity|]. unfold mrows at 1 2; cbn [mcols mdata]. rewrite L, repeat_length. split; [auto|]. split; [lia|].
  intros i Hi. destruct (N i []) as [rs [R1 R2]]. { rewrite nth_error_repeat'. replace (i <? _) with true by lia. auto. }
  exists rs. split; [|exact R2]. clear - B2 R1 Hi. revert rs R1. induction B2; intros rs R1; inversion R1; subst; constructor; auto.
  destruct H as [Ha Hb]. rewrite <- Hb; auto. lia.
Qed.

(* ---- C27 -------------------------------------------------------------------------------- *)
(* reading the rows of m in the order given by p *)
Definition reordered (p : list nat) (m : mat) (m' : mat) : Prop :=
  mcols m' = mcols m /\ Forall2 (fun i r => nth_error (mdata m) i = Some r) p (mdata m').

Lemma reorder_exists : forall p (m : mat), Forall (fun i => i < mrows m) p -> exists rs, Forall2 (fun i r => nth_error (mdata m) i = Some r) p rs.
Proof.
  induction p as [|i p IH]; intros m H; [exists []; constructor|]. inversion H; subst. destruct (IH m H3) as [rs R].
  destruct (nth_error (mdata m) i) as [r|] eqn:E; [exists (r :: rs); constructor; auto|]. apply nth_error_None in E. unfold mrows in *; lia.
Qed.

Lemma extract_list_ok : forall nt ord f p,
  (forall l, Permutation (ord l) l) -> (forall t, NoDup (map fst (data f t))) ->
  (forall t k, In k (map fst (data f t)) -> In k (columns f)) ->
  (forall t k m, find_key V k (data f t) = Some m -> Forall (fun i => i < mrows m) p) ->
  exists g, extract V nt ord (VSparse (map Z.of_nat p)) f = Ok g /\
    (frows g = length p \/ frows g = 0 /\ forall t k, t < nt -> find_key V k (data f t) = None) /\
    (forall k, In k (columns g) <-> exists t m, t < nt /\ find_key V k (data f t) = Some m) /\
    (forall t k, t < nt -> match find_key V k (data f t) with
       | Some m => exists m', get V t k g = Ok m' /\ reordered p m m'
       | None => find_key V k (data g t) = None end) /\
    (forall k, In k (columns g) -> is_dirty V k g = Ok true).
Proof.
  intros nt ord f p PO ND KC HP. unfold extract.
  set (seen := fun (T : list nat) (K : nat * list nat) (t k : nat) => In t T \/ (t = fst K /\ In k (snd K))).
  set (Q := fun T K (g : frame) => shape V g /\ (frows g = 0 /\ (forall t k, find_key V k (data f t) <> None -> ~ seen T K t k) \/ frows g = length p) /\
     (forall k, In k (columns g) <-> exists t m, seen T K t k /\ find_key V k (data f t) = Some m) /\
     (forall k, In k (columns g) -> nth_error (dirty g) (position k (columns g)) = Some true) /\
     (forall t k m, seen T K t k -> find_key V k (data f t) = Some m -> exists m', find_key V k (data g t) = Some m' /\ reordered p m m') /\
     (forall t k, ~ seen T K t k \/ find_key V k (data f t) = None -> find_key V k (data g t) = None)).
  assert (ST: forall T t dn k g, Q T (t, dn) g -> ~ In t T -> In k (map fst (data f t)) -> ~ In k dn ->
     exists g', (m <- view_get V (VSparse (map Z.of_nat p)) t k f ;; insert V t k m true g) = Ok g' /\ Q T (t, dn ++ [k]) g').
  { intros T t dn k g [SH [HR [HC [HD [HF HN]]]]] NT HK ND'.
    destruct (proj1 (find_in V k _) HK) as [m Hm].
    destruct (reorder_exists p m (HP _ _ _ Hm)) as [rs Hrs].
    assert (G: get V t k f = Ok m). { unfold get, has_block. rewrite (proj2 (FrameProofs.existsb_In k (columns f))) by (eapply KC; eauto). rewrite Hm. auto. }
    pose proof (list_view t k f m p rs G Hrs) as VG. unfold at_list in VG. rewrite VG. cbn [bind].
    assert (LR: mrows (Mat (mcols m) rs) = length p) by (unfold mrows; cbn; symmetry; eapply Forall2_length; eauto).
    destruct (insert_effect V t k (Mat (mcols m) rs) true g SH) as [g' [E [S1 [S2 [S3 [S4 [S5 S6]]]]]]].
    { destruct HR as [[HR _]|HR]; [auto|right; congruence]. }
    exists g'. split; [exact E|].
    assert (SN: forall t' k', seen T (t, dn ++ [k]) t' k' <-> seen T (t, dn) t' k' \/ (t' = t /\ k' = k)).
    { intros t' k'. unfold seen; cbn. rewrite in_app_iff; cbn. intuition. }
    split; [auto|]. split; [|split; [|split; [|split]]].
    - right. rewrite S6, LR. destruct (frows g =? 0) eqn:E0; auto. destruct HR as [[HR _]|HR]; auto. apply Nat.eqb_neq in E0; lia.
    - intros k'. rewrite S4, HC. split.
      + intros [->|[t' [m' [Hs Hm']]]]; [exists t, m; rewrite SN; auto|exists t', m'; rewrite SN; auto].
      + intros [t' [m' [Hs Hm']]]. apply SN in Hs. destruct Hs as [Hs|[-> ->]]; eauto.
    - intros k' Hk'. rewrite S5 by auto. destruct (k' =? k) eqn:Ek; auto. apply HD. apply S4 in Hk'. apply Nat.eqb_neq in Ek. tauto.
    - intros t' k' m' Hs Hm'. rewrite S2. destruct ((t' =? t) && (k' =? k)) eqn:Ek.
      + assert (t' = t /\ k' = k) as [-> ->] by (split; lia). exists (Mat (mcols m) rs). split; auto. rewrite Hm in Hm'; inversion Hm'; subst. split; auto.
      + apply SN in Hs. destruct Hs as [Hs|[-> ->]]; [eauto|]. rewrite !Nat.eqb_refl in Ek; discriminate.
    - intros t' k' Hs. rewrite S2. destruct ((t' =? t) && (k' =? k)) eqn:Ek.
      + assert (t' = t /\ k' = k) as [-> ->] by (split; lia). exfalso. destruct Hs as [Hs|Hs]; [apply Hs, SN; auto|congruence].
      + apply HN. destruct Hs as [Hs|Hs]; auto. left. intros Hx. apply Hs, SN; auto. }
  edestruct (foldM_inv (fun T g => Q T (0, []) g)) as [g [E HQ]]; [| |rewrite E].
  - unfold Q, shape, seen; cbn. split; [split; [constructor|auto]|]. split; [left; split; [auto|intros; tauto]|]. split; [|split; [|split]]; try tauto.
    intros k; split; [tauto|]. intros [t [m [[[]|[_ []]] _]]].
  - intros T t g0 [rest Hs] HQ0.
    assert (NT: ~ In t T). { pose proof (seq_NoDup nt 0) as N. rewrite Hs in N. apply NoDup_app_inv in N. destruct N as [_ [_ N]]. intros X. apply (N t X). cbn; auto. }
    assert (NO: NoDup (ord (map fst (data f t)))) by (eapply Permutation_NoDup; [apply Permutation_sym, PO|apply ND]).
    edestruct (foldM_inv (fun dn g => Q T (t, dn) g)) as [g1 [E1 HQ1]]; [| |exists g1; split; [exact E1|]].
    + unfold Q, seen in *; cbn in *. destruct HQ0 as [A [B [C [D [F G]]]]]. split; [auto|]. 
      split; [destruct B as [[B1 B2]|B]; [left; split; auto; intros t' k' X Y; apply (B2 t' k' X); tauto|auto]|].
      split; [|split; [auto|split]].
      * intros k. rewrite C. split; intros [t' [m' [X Y]]]; exists t', m'; split; auto; tauto.
      * intros t' k' m' X Y. apply (F t' k' m'); auto. tauto.
      * intros t' k' X. apply G. tauto.
    + intros dn k g1 [rest' Hs'] HQ1. apply ST; auto.
      * eapply Permutation_in; [apply PO|]. rewrite Hs'. apply in_or_app; cbn; auto.
      * rewrite Hs' in NO. apply NoDup_app_inv in NO. destruct NO as [_ [_ NO]]. intros X. apply (NO k X); cbn; auto.
    + destruct HQ1 as [A [B [C [D [F G]]]]].
      assert (SEQ: forall t' k' m', find_key V k' (data f t') = Some m' -> (seen (T ++ [t]) (0, []) t' k' <-> seen T (t, ord (map fst (data f t))) t' k')).
      { intros t' k' m' Hm. unfold seen; cbn. rewrite in_app_iff; cbn. split.
        - intros [[X|[<-|[]]]|[_ []]]; auto. right; split; auto. eapply Permutation_in; [apply Permutation_sym, PO|]. apply find_in; eauto.
        - intros [X|[-> X]]; auto. }
      split; [auto|]. split; [destruct B as [[B1 B2]|B]; [left; split; auto|auto]|split; [|split; [auto|split]]].
      * intros t' k' X Y. destruct (find_key V k' (data f t')) as [m'|] eqn:Em; [|congruence]. apply (B2 t' k'); [congruence|]. eapply SEQ; eauto.
      * intros k. rewrite C. split; intros [t' [m' [X Y]]]; exists t', m'; split; auto; eapply SEQ; eauto.
      * intros t' k' m' X Y. apply (F t' k' m'); auto. eapply SEQ; eauto.
      * intros t' k' X. apply G. destruct (find_key V k' (data f t')) as [m'|] eqn:Em; auto. left. intros Y. destruct X as [X|X]; [|discriminate]. apply X. eapply SEQ; eauto.
  - exists g. split; [auto|]. destruct HQ as [A [B [C [D [F G]]]]].
    assert (SEE: forall t k, seen (seq 0 nt) (0, []) t k <-> t < nt). { intros t k. unfold seen; cbn. rewrite in_seq. split; [intros [X|[_ []]]; lia|intros; left; lia]. }
    split; [|split; [|split]].
    + destruct B as [[B1 B2]|B]; auto. right; split; auto. intros t k Ht. destruct (find_key V k (data f t)) eqn:Ek; auto. exfalso. apply (B2 t k); [congruence|apply SEE; auto].
    + intros k. rewrite C. split; intros [t [m [X Y]]]; exists t, m; split; auto; eapply SEE; eauto.
    + intros t k Ht. destruct (find_key V k (data f t)) as [m|] eqn:Ek.
      * destruct (F t k m) as [m' [X Y]]; [apply SEE; auto|auto|]. exists m'. split; auto. unfold get, has_block.
        rewrite (proj2 (existsb_In k (columns g))); [rewrite X; auto|]. apply C. exists t, m. split; auto. apply SEE; auto.
      * apply G; auto.
    + intros k Hk. unfold is_dirty, has_block. rewrite (proj2 (existsb_In k (columns g))) by auto. apply nth_res_ok; auto.
Qed.

(* for every permutation the generator may produce, all blocks are reordered by that permutation *)
Theorem shuffle_common_permutation : forall nt ord perm r h f L,
  (forall l, Permutation (ord l) l) -> (forall l, Permutation (perm l) l) ->
  Forall (wf_call V) h -> session V (frame0 r) h = Ok (f, L) ->
  Forall (fun c => height V c <> Some 0) L -> Forall (fun c => match type_of V c with Some t => t < nt | None => True end) L ->
  exists g, shuffle V nt ord perm f = Ok g /\
    (forall k, has_block V k g = has_block V k f) /\
    (forall t k, t < nt -> match get V t k f with
       | Ok m => exists m', get V t k g = Ok m' /\ reordered (perm (seq 0 (frows f))) m m'
       | _ => get V t k g = Throw end) /\
    (columns f <> [] -> frows g = frows f).
Proof.
  intros nt ord perm r h f L PO PP W E NZ TY.
  destruct (session_agrees h (frame0 r) [] (agrees_init r) W) as [f' [L' [E' AG]]].
  rewrite E in E'. inversion E'; subst f' L'. cbn [app] in AG. destruct AG as [SH [A [B [C [D F]]]]].
  destruct (frame_is_a_map r h W) as [f' [L' [E2 [HB [G HH]]]]]. rewrite E in E2; inversion E2; subst f' L'. clear E' E2.
  assert (COL: forall t k m, find_key V k (data f t) = Some m -> In k (columns f)).
  { intros t k m Hm. apply C. rewrite A in Hm. clear - Hm. induction L as [|c L IH] using rev_ind; [discriminate|]. rewrite last_block_snoc in Hm. rewrite exists_snoc.
    destruct c as [t' k' m' b|t' k' m'|k']; cbn; auto; destruct ((t =? t') && (k =? k')) eqn:EE; auto;
    apply andb_true_iff in EE; destruct EE as [_ EE]; apply Nat.eqb_eq in EE; auto. }
  assert (GF: forall t k m, find_key V k (data f t) = Some m -> get V t k f = Ok m).
  { intros t k m Hm. rewrite G, <- A, Hm. auto. }
  destruct (extract_list_ok nt ord f (perm (seq 0 (frows f)))) as [g [EX [ER [EC [EG ED]]]]]; auto.
  - intros t k Hk. apply find_in in Hk. destruct Hk as [m Hm]. eauto.
  - intros t k m Hm. apply GF in Hm. rewrite (frame_heights_partial r h f L W E NZ t k m Hm). rewrite Forall_forall. intros i Hi.
    eapply Permutation_in in Hi; [|apply PP]. apply in_seq in Hi. lia.
  - exists g. split; [exact EX|].
    assert (CC: forall k, In k (columns g) <-> In k (columns f)).
    { intros k. rewrite EC. split; [intros [t [m [_ Hm]]]; eauto|]. intros Hk. apply C in Hk.
      assert (X: exists t m, t < nt /\ last_block V t k L = Some m).
      { clear - Hk TY. induction L as [|c L IH] using rev_ind; [inversion Hk|]. apply exists_snoc in Hk. apply Forall_app in TY. destruct TY as [T1 T2]. inversion T2; subst.
        destruct Hk as [Hk|Hk].
        - destruct c as [t' k' m' b|t' k' m'|k']; cbn in *; subst; try tauto; exists t'; eexists; (split; [auto|]); rewrite last_block_snoc, !Nat.eqb_refl; reflexivity.
        - destruct (IH T1 Hk) as [t [m [Ht Hm]]]. exists t.
          destruct c as [t' k' m' b|t' k' m'|k']; rewrite last_block_snoc; try destruct ((t =? t') && (k =? k')); eauto. }
      destruct X as [t [m [Ht Hm]]]. exists t, m. rewrite A. auto. }
    split; [|split].
    + intros k. unfold has_block. apply eq_true_iff_eq. rewrite !existsb_In. apply CC.
    + intros t k Ht. specialize (EG t k Ht). destruct (find_key V k (data f t)) as [m|] eqn:Em.
      * rewrite (GF _ _ _ Em). exact EG.
      * rewrite G, <- A, Em. unfold get. rewrite EG. destruct (has_block V k g); auto.
    + intros NC. destruct ER as [ER|[_ ER]]; [rewrite ER, (Permutation_length (PP _)), seq_length; auto|].
      exfalso. destruct (columns f) as [|k l] eqn:EQ; [congruence|]. assert (X: In k (columns g)) by (apply CC; cbn; auto).
      apply EC in X. destruct X as [t [m [Ht Hm]]]. rewrite ER in Hm; [discriminate|auto].
Qed.
End P.
Print Assumptions frame_is_a_map.
Print Assumptions frame_heights_partial.
Print Assumptions frame_refuses.
Print Assumptions stack_layout.
Print Assumptions dirty_flags.
Print Assumptions extract_unique_spec.
Print Assumptions range_view.
Print Assumptions tail_view.
Print Assumptions row_view.
Print Assumptions list_view.
Print Assumptions head_view_exact.
Print Assumptions head_full_refuted.
Print Assumptions col_refuted.
Print Assumptions range_view_many.
Print Assumptions shuffle_common_permutation.

(* ---- witnesses --------------------------------------------------------------------------- *)
Definition m1 : mat nat := Mat 1 [[1]; [2]; [1]].
Definition m2 : mat nat := Mat 2 [[1; 4]; [2; 5]; [3; 6]].
(* an empty first block lets a block of another height in *)
Theorem frame_heights_refuted : exists f L, session nat (frame0 0) [CInsert 0 1 (Mat 2 []) true; CInsert 0 2 m1 true] = Ok (f, L) /\
  frows f = 3 /\ get nat 0 1 f = Ok (Mat 2 []).
Proof. eexists; eexists; split; [reflexivity|]. split; reflexivity. Qed.
Print Assumptions frame_heights_refuted.
(* one key used with two types: removing one of them hides the other, extract brings it back *)
Theorem remove_two_types_refuted : exists f L g h, session nat (frame0 0) [CInsert 0 1 m1 true; CInsert 1 1 m2 true] = Ok (f, L) /\
  remove nat 0 1 f = Ok g /\ get nat 1 1 g = Throw /\ data g 1 = [(1, m2)] /\ remove nat 1 1 g = UB /\
  insert nat 0 2 (Mat 1 [[1]]) true g = Throw /\ extract nat 2 (fun l => l) (VSparse [0%Z]) f = Ok h /\ has_block nat 1 h = true.
Proof. do 4 eexists. split; [reflexivity|]. split; [reflexivity|]. do 4 (split; [reflexivity|]). split; reflexivity. Qed.
Print Assumptions remove_two_types_refuted.
Example frame_history : exists f L, session nat (frame0 0) [CInsert 0 1 m1 true; CInsert 0 2 m2 false; CStack 0 3 m2; CClear 1; CInsert 1 2 m1 true] = Ok (f, L) /\
  length L = 4 /\ is_dirty nat 1 f = Ok false /\ dirty_cols nat f = Ok [2] /\ get nat 0 3 f = Throw /\
  extract_unique nat Nat.eqb (@rev _) 0 1 f = Ok (Mat 1 [[1]; [2]]) /\
  (exists g, shuffle nat 2 (@rev _) (fun l => match l with a :: b :: t => b :: a :: t | _ => l end) f = Ok g /\ get nat 0 2 g = Ok (Mat 2 [[2; 5]; [1; 4]; [3; 6]])).
Proof. do 2 eexists. split; [reflexivity|]. do 5 (split; [reflexivity|]). eexists. split; reflexivity. Qed.
Example views_witness : exists f L, session nat (frame0 0) [CInsert 0 1 m1 true; CInsert 0 2 m2 false] = Ok (f, L) /\
  view_get nat (at_range 1 2) 0 2 f = Ok (Mat 2 [[2; 5]; [3; 6]]) /\ view_get nat (tail nat 2 f) 0 2 f = Ok (Mat 2 [[3; 6]]) /\
  view_get nat (head nat 1 f) 0 1 f = Ok (Mat 1 [[1]; [2]]) /\ col nat 0 2 1 f = Throw /\
  view_get_many nat (at_range 0 1) 0 [1; 2] f = Ok (Mat 3 [[1; 1; 4]; [2; 2; 5]]).
Proof. do 2 eexists. repeat (split; [reflexivity|]). reflexivity. Qed.

(* ---- C93 -------------------------------------------------------------------------------- *)
Section B.
Variable V : Type.
Definition wf_bvec (b : bvec V) : Prop := length (bdata b) = bn b * bm b.
Lemma span_ok : forall (b : bvec V) s l, s + l <= length (bdata b) -> span V b (Z.of_nat s) (Z.of_nat l) = Ok (s, l).
Proof. intros. unfold span. replace (_ && _) with true by lia. rewrite !Nat2Z.id. auto. Qed.

Theorem block_vector_block : forall (b : bvec V) i, wf_bvec b -> i < bn b -> bv_block V b i = Ok (i * bm b, bm b).
Proof. intros b i W H. unfold bv_block. rewrite <- Nat2Z.inj_mul. apply span_ok. unfold wf_bvec in W. nia. Qed.
Theorem block_vector_blocks : forall (b : bvec V) i j, wf_bvec b -> i + j <= bn b -> bv_blocks V b i j = Ok (i * bm b, j * bm b).
Proof. intros b i j W H. unfold bv_blocks. rewrite <- !Nat2Z.inj_mul. apply span_ok. unfold wf_bvec in W. nia. Qed.
Theorem block_vector_head : forall (b : bvec V) i, wf_bvec b -> i <= bn b -> bv_head V b i = Ok (0, i * bm b).
Proof. intros b i W H. unfold bv_head. rewrite <- !Nat2Z.inj_mul. apply (span_ok b 0). unfold wf_bvec in W. nia. Qed.
Theorem block_vector_tail : forall (b : bvec V) i, wf_bvec b -> i <= bn b -> bv_tail V b i = Ok ((bn b - i) * bm b, i * bm b).
Proof. intros b i W H. unfold bv_tail. rewrite <- Nat2Z.inj_sub, <- !Nat2Z.inj_mul by auto. apply span_ok. unfold wf_bvec in W. nia. Qed.
(* blocks that do not exist are not handed out *)
Theorem block_vector_bounds : forall (b : bvec V), wf_bvec b -> 0 < bm b ->
  (forall i, bn b <= i -> bv_block V b i = UB) /\ (forall i j, bn b < i + j -> bv_blocks V b i j = UB) /\
  (forall i, bn b < i -> bv_head V b i = UB) /\ (forall i, bn b < i -> bv_tail V b i = UB).
Proof.
  intros b W Hm. unfold wf_bvec in W. unfold bv_block, bv_blocks, bv_head, bv_tail, span.
  repeat split; intros; match goal with |- context [if ?c then _ else _] => destruct c eqn:E end; auto; exfalso; nia.
Qed.
(* writing a block changes exactly its rows *)
Theorem block_vector_write : forall (b b' : bvec V) s l x, s + l <= length (bdata b) -> length x = l ->
  sp_write V b (s, l) x = Ok b' ->
  (forall i, nth_error (bdata b') i = if (s <=? i) && (i <? s + l) then nth_error x (i - s) else nth_error (bdata b) i) /\
  bn b' = bn b /\ bm b' = bm b /\ (wf_bvec b -> wf_bvec b') /\ sp_read V b' (s, l) = x.
Proof.
  intros b b' s l x H HX E. unfold sp_write in E; cbn in E. rewrite HX, Nat.eqb_refl in E. inversion E; subst b'; clear E. cbn.
  assert (N: forall i, nth_error (firstn s (bdata b) ++ x ++ skipn (s + l) (bdata b)) i = if (s <=? i) && (i <? s + l) then nth_error x (i - s) else nth_error (bdata b) i).
  { intros i. assert (LF: length (firstn s (bdata b)) = s) by (rewrite firstn_length; lia).
    destruct (Nat.lt_ge_cases i s) as [Hi|Hi].
    - rewrite nth_error_app1 by lia. rewrite nth_error_firstn. replace (i <? s) with true by lia. replace (s <=? i) with false by lia. auto.
    - rewrite nth_error_app2, LF by lia. destruct (Nat.lt_ge_cases i (s + l)) as [Hj|Hj].
      + rewrite nth_error_app1 by lia. replace (_ && _) with true by lia. auto.
      + rewrite nth_error_app2 by lia. rewrite nth_error_skipn'. replace (_ && _) with false by lia. f_equal. lia. }
  split; [exact N|]. split; [auto|]. split; [auto|]. split.
  - unfold wf_bvec; cbn. rewrite !app_length, firstn_length, skipn_length. lia.
  - unfold sp_read; cbn. rewrite skipn_app, skipn_all2, firstn_length by (rewrite firstn_length; lia).
    replace (s - Nat.min s (length (bdata b))) with 0 by lia. cbn. rewrite firstn_app, firstn_all2, HX, Nat.sub_diag by lia. cbn. apply app_nil_r.
Qed.
(* distinct blocks do not overlap *)
Theorem block_vector_disjoint : forall (b : bvec V) i j k, wf_bvec b -> i < bn b -> j < bn b ->
  i * bm b <= k < i * bm b + bm b -> j * bm b <= k < j * bm b + bm b -> i = j.
Proof. intros b i j k W Hi Hj H1 H2. nia. Qed.
Theorem block_vector_init : forall z n m, wf_bvec (bvec_init V z n m) /\ forall i, i < n * m -> nth_error (bdata (bvec_init V z n m)) i = Some z.
Proof.
  intros. unfold wf_bvec; cbn. split; [apply repeat_length|]. intros i Hi. rewrite nth_error_repeat'. replace (i <? n * m) with true by lia. auto.
Qed.
End B.
Print Assumptions block_vector_block.
Print Assumptions block_vector_blocks.
Print Assumptions block_vector_head.
Print Assumptions block_vector_tail.
Print Assumptions block_vector_bounds.
Print Assumptions block_vector_write.
Print Assumptions block_vector_disjoint.
Print Assumptions block_vector_init.
Example block_vector_witness : exists s b, bv_tail nat (bvec_init nat 0 3 2) 1 = Ok s /\ sp_write nat (bvec_init nat 0 3 2) s [7; 8] = Ok b /\ bdata b = [0; 0; 0; 0; 7; 8].
Proof. do 2 eexists. split; [reflexivity|]. split; reflexivity. Qed.
