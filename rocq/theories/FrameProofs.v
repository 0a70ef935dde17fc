From Verif Require Import Base FrameModel FrameSpec.
From Coq Require Import Permutation.

Section P.
Variable V : Type.
Notation mat := (mat V). Notation frame := (frame V).

Lemma find_set : forall k m l k', find_key V k' (set_key V k m l) = if k' =? k then Some m else find_key V k' l.
Proof.
  induction l as [|[a b] l IH]; intros k'; cbn.
  - destruct (k' =? k); auto.
  - destruct (k =? a) eqn:E; cbn.
    + apply Nat.eqb_eq in E; subst. destruct (k' =? a); auto.
    + rewrite IH. destruct (k' =? a) eqn:E1; auto. apply Nat.eqb_eq in E1; subst. rewrite Nat.eqb_sym, E. auto.
Qed.
Lemma set_keys : forall k m l, map fst (set_key V k m l) = if existsb (Nat.eqb k) (map fst l) then map fst l else map fst l ++ [k].
Proof.
  induction l as [|[a b] l IH]; cbn; auto. destruct (k =? a) eqn:E; cbn.
  - apply Nat.eqb_eq in E; subst; auto.
  - rewrite IH. destruct (existsb (Nat.eqb k) (map fst l)); auto.
Qed.
Lemma existsb_In : forall k l, existsb (Nat.eqb k) l = true <-> In k l.
Proof.
  intros; rewrite existsb_exists. split.
  - intros [x [H E]]. apply Nat.eqb_eq in E; subst; auto.
  - intros H; exists k; rewrite Nat.eqb_refl; auto.
Qed.
Lemma NoDup_snoc : forall A (l : list A) x, NoDup l -> ~ In x l -> NoDup (l ++ [x]).
Proof. intros. apply NoDup_app_intro; auto. { repeat constructor; auto. } intros c Hc [->|[]]; auto. Qed.
Lemma set_nodup : forall k m l, NoDup (map fst l) -> NoDup (map fst (set_key V k m l)).
Proof.
  intros k m l H. rewrite set_keys. destruct (existsb (Nat.eqb k) (map fst l)) eqn:E; auto.
  apply NoDup_snoc; auto. rewrite <- existsb_In. congruence.
Qed.
Lemma find_in : forall k l, In k (map fst l) <-> exists m, find_key V k l = Some m.
Proof.
  induction l as [|[a b] l IH]; cbn.
  - split; [tauto|intros [? ?]; discriminate].
  - destruct (k =? a) eqn:E.
    + apply Nat.eqb_eq in E; subst; split; eauto.
    + apply Nat.eqb_neq in E. rewrite <- IH. split; [intros [H|H]; [congruence|auto]|auto].
Qed.
Lemma position_lt : forall k l, In k l -> position k l < length l.
Proof.
  induction l as [|a l IH]; cbn; [tauto|]. intros H. destruct (k =? a) eqn:E; [lia|]. apply Nat.eqb_neq in E.
  assert (In k l) by intuition congruence. specialize (IH H0). lia.
Qed.
Lemma position_nth : forall k l, In k l -> nth_error l (position k l) = Some k.
Proof.
  induction l as [|a l IH]; cbn; [tauto|]. intros H. destruct (k =? a) eqn:E.
  - apply Nat.eqb_eq in E; subst; auto.
  - apply Nat.eqb_neq in E. apply IH. intuition congruence.
Qed.
Lemma position_inj : forall a b l, In a l -> In b l -> position a l = position b l -> a = b.
Proof. intros a b l Ha Hb E. apply position_nth in Ha. apply position_nth in Hb. congruence. Qed.
Lemma position_app : forall k l l', In k l -> position k (l ++ l') = position k l.
Proof.
  induction l as [|a l IH]; cbn; [tauto|]. intros l' H. destruct (k =? a) eqn:E; auto. apply Nat.eqb_neq in E.
  rewrite IH; auto. intuition congruence.
Qed.
Lemma position_new : forall k l, ~ In k l -> position k (l ++ [k]) = length l.
Proof.
  induction l as [|a l IH]; cbn; intros H; [rewrite Nat.eqb_refl; auto|]. destruct (k =? a) eqn:E.
  - apply Nat.eqb_eq in E; subst; tauto.
  - rewrite IH; auto.
Qed.
Lemma position_at : forall l i k, NoDup l -> nth_error l i = Some k -> position k l = i.
Proof.
  intros l i k ND E. apply (proj1 (NoDup_nth_error l) ND).
  - apply position_lt. eapply nth_error_In; eauto.
  - rewrite position_nth; [congruence|eapply nth_error_In; eauto].
Qed.

(* bookkeeping invariant *)
Definition shape (f : frame) : Prop := NoDup (columns f) /\ length (dirty f) = length (columns f).

Lemma insert_effect : forall t k m b f, shape f -> frows f = 0 \/ mrows m = frows f ->
  exists g, insert V t k m b f = Ok g /\ shape g /\
    (forall t' k', find_key V k' (data g t') = if (t' =? t) && (k' =? k) then Some m else find_key V k' (data f t')) /\
    (forall t', NoDup (map fst (data f t')) -> NoDup (map fst (data g t'))) /\
    (forall k', In k' (columns g) <-> k' = k \/ In k' (columns f)) /\
    (forall k', In k' (columns g) -> nth_error (dirty g) (position k' (columns g)) =
        if k' =? k then Some b else nth_error (dirty f) (position k' (columns f))) /\
    frows g = (if frows f =? 0 then mrows m else frows f).
Proof.
  intros t k m b f [ND LD] HR. unfold insert.
  replace ((frows f =? 0) || (mrows m =? frows f)) with true by (destruct HR as [->| ->]; rewrite ?Nat.eqb_refl, ?orb_true_r; auto).
  cbn [assert_ bind]. unfold has_block. destruct (existsb (Nat.eqb k) (columns f)) eqn:EH.
  - apply existsb_In in EH. unfold upd_res. pose proof (position_lt _ _ EH) as PL.
    replace (position k (columns f) <? length (dirty f)) with true by lia. cbn [bind].
    eexists; split; [reflexivity|]. unfold shape; cbn. split; [split; [auto|rewrite upd_length; auto]|].
    split; [|split; [|split; [|split]]]; auto.
    + intros t' k'. unfold set_type. destruct (t' =? t) eqn:E; cbn; auto. rewrite find_set. apply Nat.eqb_eq in E; subst; auto.
    + intros t' H. unfold set_type. destruct (t' =? t) eqn:E; auto. apply set_nodup. apply Nat.eqb_eq in E; subst; auto.
    + intros k'; split; auto. intros [->|H]; auto.
    + intros k' Hk. destruct (k' =? k) eqn:E.
      * apply Nat.eqb_eq in E; subst. apply nth_error_upd_same. lia.
      * apply nth_error_upd_other. intros Heq. apply Nat.eqb_neq in E. apply E. symmetry. eapply position_inj; eauto.
  - assert (NI: ~ In k (columns f)) by (rewrite <- existsb_In; congruence).
    eexists; split; [reflexivity|]. unfold shape; cbn. split; [split; [apply NoDup_snoc; auto|rewrite !app_length; cbn; lia]|].
    split; [|split; [|split; [|split]]]; auto.
    + intros t' k'. unfold set_type. destruct (t' =? t) eqn:E; cbn; auto. rewrite find_set. apply Nat.eqb_eq in E; subst; auto.
    + intros t' H. unfold set_type. destruct (t' =? t) eqn:E; auto. apply set_nodup. apply Nat.eqb_eq in E; subst; auto.
    + intros k'. rewrite in_app_iff; cbn. intuition.
    + intros k' Hk. destruct (k' =? k) eqn:E.
      * apply Nat.eqb_eq in E; subst. rewrite position_new, nth_error_app2 by (auto; lia). rewrite LD, Nat.sub_diag. auto.
      * apply Nat.eqb_neq in E. apply in_app_or in Hk. destruct Hk as [Hk|[Hk|[]]]; [|congruence].
        rewrite position_app by auto. pose proof (position_lt _ _ Hk). apply nth_error_app1. lia.
Qed.
Lemma insert_throw : forall t k m b f, frows f <> 0 -> mrows m <> frows f -> insert V t k m b f = Throw.
Proof.
  intros. unfold insert. replace ((frows f =? 0) || (mrows m =? frows f)) with false; auto. lia.
Qed.

(* ---- stacking ---- *)
Lemma stacked_ok : forall m, wf_mat V m -> stacked V m = Ok (below V m).
Proof.
  intros [c rows] W. unfold wf_mat in W; cbn in W. unfold stacked, below, mrows; cbn [mdata mcols].
  set (n := length rows).
  set (colj := fun j => flat_map (fun r => match nth_error r j with Some x => [[x]] | None => [] end) rows : list (list V)).
  assert (CL: forall j, j < c -> length (colj j) = n).
  { intros j Hj. unfold colj, n. clear n colj. induction rows as [|r rows IH]; auto. inversion W; subst. cbn.
    destruct (nth_error r j) eqn:E; [cbn; rewrite IH; auto|]. apply nth_error_None in E; lia. }
  assert (CN: forall j r, j < c -> r < n -> exists rw x, nth_error rows r = Some rw /\ nth_error rw j = Some x /\ nth_error (colj j) r = Some [x]).
  { intros j r Hj Hr. unfold colj, n in *. clear n colj CL. revert r Hr. induction rows as [|r0 rows IH]; intros r Hr; cbn in Hr; [lia|].
    inversion W; subst. cbn. destruct (nth_error r0 j) as [x0|] eqn:E; [|apply nth_error_None in E; lia].
    destruct r; cbn; [exists r0, x0; auto|]. apply IH; auto; lia. }
  set (P := fun (done : list nat) (acc : list (list V)) => acc = flat_map colj done ++ repeat [] (n * (c - length done))).
  edestruct (foldM_inv P) as (s' & E & HP); [| |rewrite E].
  - unfold P. cbn. rewrite Nat.sub_0_r. reflexivity.
  - intros done j s0 [rest Hs] HP. unfold P in HP. 
    assert (Dj: done = seq 0 j /\ j < c).
    { assert (L: length done < c) by (rewrite <- (seq_length c 0), Hs, app_length; cbn; lia).
      assert (J: nth_error (seq 0 c) (length done) = Some j) by (rewrite Hs, nth_error_app2, Nat.sub_diag by lia; auto).
      rewrite nth_error_seq in J. replace (length done <? c) with true in J by lia. inversion J; subst j. cbn.
      split; [|auto]. assert (F: firstn (length done) (seq 0 c) = done) by (rewrite Hs, firstn_app, Nat.sub_diag, firstn_all; cbn; apply app_nil_r).
      rewrite <- F at 1. replace c with (length done + (c - length done)) by lia. rewrite seq_app, firstn_app, firstn_all2, seq_length, Nat.sub_diag by (rewrite seq_length; auto). cbn. apply app_nil_r. }
    destruct Dj as [-> Hj]. rewrite seq_length in HP.
    set (Q := fun (dn : list nat) (acc : list (list V)) => acc = flat_map colj (seq 0 j) ++ firstn (length dn) (colj j) ++ repeat [] (n * (c - j) - length dn)).
    assert (PL: length (flat_map colj (seq 0 j)) = j * n).
    { assert (G: forall k, k <= c -> length (flat_map colj (seq 0 k)) = k * n).
      { induction k as [|k IHk]; intros Hk; auto. rewrite seq_S, flat_map_app, app_length, IHk by lia. cbn. rewrite app_nil_r, CL; lia. }
      apply G; lia. }
    edestruct (foldM_inv Q) as (s2 & E2 & HQ); [| |].
    3:{ exists s2; split; [exact E2|]. unfold P, Q in *. rewrite HQ, seq_length, app_length, seq_length, flat_map_app. cbn [length flat_map].
        rewrite app_nil_r, <- app_assoc. f_equal. rewrite firstn_all2 by (rewrite CL; lia). f_equal. f_equal. replace (c - (j + 1)) with (c - j - 1) by lia. nia. }
    + unfold Q. cbn. rewrite HP, Nat.sub_0_r. reflexivity.
    + intros dn r s1 [rest2 Hs2] HQ.
      assert (L: length dn < n) by (rewrite <- (seq_length n 0), Hs2, app_length; cbn; lia).
      assert (J: nth_error (seq 0 n) (length dn) = Some r) by (rewrite Hs2, nth_error_app2, Nat.sub_diag by lia; auto).
      rewrite nth_error_seq in J. replace (length dn <? n) with true in J by lia. inversion J; subst r. cbn [Nat.add] in *.
      destruct (CN j (length dn) Hj L) as [rw [x [E1 [Ex Ec]]]].
      unfold nth_res. rewrite E1. cbn. rewrite Ex. cbn. unfold Q in HQ.
      assert (LS: length s1 = j * n + n * (c - j)).
      { rewrite HQ, !app_length, PL, repeat_length, firstn_length, CL by auto. nia. }
      unfold upd_res. replace (j * n + length dn <? length s1) with true by nia.
      eexists; split; [reflexivity|]. unfold Q. rewrite app_length. cbn [length]. rewrite HQ.
      apply nth_error_ext. intros i. rewrite nth_error_upd.
      set (A := flat_map colj (seq 0 j)) in *.
      assert (LT: length (firstn (length dn) (colj j)) = length dn) by (rewrite firstn_length, CL by auto; lia).
      assert (LT2: length (firstn (length dn + 1) (colj j)) = length dn + 1) by (rewrite firstn_length, CL by auto; lia).
      destruct (j * n + length dn =? i) eqn:EI.
      * apply Nat.eqb_eq in EI; subst i. rewrite HQ in LS. replace (j * n + length dn <? length _) with true by (symmetry; apply Nat.ltb_lt; rewrite LS; nia). cbn [andb].
        rewrite nth_error_app2, PL by lia. replace (j * n + length dn - j * n) with (length dn) by lia.
        rewrite nth_error_app1 by lia. rewrite nth_error_firstn. destruct (length dn <? length dn + 1) eqn:Z; [congruence|lia].
      * cbn [andb]. apply Nat.eqb_neq in EI. destruct (Nat.lt_ge_cases i (j * n)) as [Hi|Hi].
        { rewrite !nth_error_app1 by lia. auto. }
        rewrite !(nth_error_app2 A) by lia. rewrite PL. set (i' := i - j * n).
        destruct (Nat.lt_ge_cases i' (length dn)) as [Hi'|Hi'].
        { rewrite !nth_error_app1 by lia. rewrite !nth_error_firstn. replace (i' <? length dn) with true by lia. replace (i' <? length dn + 1) with true by lia. auto. }
        rewrite !nth_error_app2 by lia. rewrite LT, LT2.
        assert (HH: forall k q, nth_error (repeat (@nil V) k) q = if q <? k then Some [] else None).
        { clear. induction k; intros [|q]; cbn; auto. rewrite IHk. reflexivity. }
        rewrite !HH. destruct (i' - length dn <? _) eqn:Z1, (i' - (length dn + 1) <? _) eqn:Z2; auto; lia.
  - cbn [bind]. unfold P in HP. rewrite seq_length, Nat.sub_diag, Nat.mul_0_r in HP. cbn in HP. rewrite app_nil_r in HP. rewrite HP. reflexivity.
Qed.
Lemma below_rows : forall m, wf_mat V m -> mrows (below V m) = length (mdata m) * mcols m.
Proof.
  intros [c rows] W. unfold wf_mat in W; cbn in W. unfold below, mrows; cbn [mdata mcols].
  assert (CL: forall j, j < c -> length (flat_map (fun r => match nth_error r j with Some x => [[x]] | None => [] end) rows) = length rows).
  { intros j Hj. induction rows as [|r rows IH]; auto. inversion W; subst. cbn.
    destruct (nth_error r j) eqn:E; [cbn; rewrite IH; auto|]. apply nth_error_None in E; lia. }
  assert (G: forall k, k <= c -> length (flat_map (fun j => flat_map (fun r => match nth_error r j with Some x => [[x]] | None => [] end) rows) (seq 0 k)) = length rows * k).
  { induction k as [|k IHk]; intros Hk; [cbn; lia|]. rewrite seq_S, flat_map_app, app_length, IHk by lia. cbn [flat_map Nat.add]. rewrite app_nil_r, CL by lia. lia. }
  apply G; lia.
Qed.
Lemma below_wf : forall m, wf_mat V (below V m).
Proof.
  intros m. unfold wf_mat, below; cbn. rewrite Forall_forall. intros x Hx. apply in_flat_map in Hx. destruct Hx as [j [_ Hx]].
  apply in_flat_map in Hx. destruct Hx as [r [_ Hx]]. destruct (nth_error r j); [destruct Hx as [<-|[]]; auto|destruct Hx].
Qed.
End P.
