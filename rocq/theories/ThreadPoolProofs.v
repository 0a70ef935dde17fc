(* Invariants of the thread pool model. *)
From Coq Require Import Permutation.
From Verif Require Import Base ThreadPoolModel.

Lemma upd_inv : forall A (l : list A) i x j w, nth_error (upd l i x) j = Some w ->
  (j = i /\ w = x) \/ (j <> i /\ nth_error l j = Some w).
Proof.
  intros A l i x j w H. rewrite nth_error_upd in H. destruct (i =? j) eqn:E; simpl in H.
  - apply Nat.eqb_eq in E; subst j. destruct (i <? length l) eqn:L.
    + inversion H; auto.
    + apply Nat.ltb_ge in L. apply nth_error_None in L. congruence.
  - apply Nat.eqb_neq in E. right; auto.
Qed.
Lemma upd_get_same : forall A (l : list A) i x w, nth_error l i = Some w -> nth_error (upd l i x) i = Some x.
Proof.
  intros A l i x w H. rewrite nth_error_upd, Nat.eqb_refl. 
  assert (i < length l) by (apply nth_error_Some; congruence).
  destruct (i <? length l) eqn:L; [auto|lia].
Qed.
Lemma upd_get_other : forall A (l : list A) i x j, j <> i -> nth_error (upd l i x) j = nth_error l j.
Proof. intros A l i x j H. rewrite nth_error_upd. destruct (i =? j) eqn:E; [lia|auto]. Qed.
Lemma upd_split : forall A (l : list A) i w, nth_error l i = Some w ->
  exists l1 l2, l = l1 ++ w :: l2 /\ forall x, upd l i x = l1 ++ x :: l2.
Proof.
  induction l as [|a l IH]; intros i w H; [destruct i; discriminate|].
  destruct i as [|i]; simpl in H.
  - inversion H; subst. exists [], l; auto.
  - destruct (IH i w H) as [l1 [l2 [E F]]]. exists (a :: l1), l2. subst l. split; auto. intros x; simpl. f_equal; auto.
Qed.

(* split a step into its cases; the new state becomes explicit *)
Ltac dmatch H :=
  match type of H with
  | context [match ?x with _ => _ end] => destruct x eqn:?; try discriminate H
  end.
Lemma notify_worker_inv : forall s k s', notify_worker s k = Some s' ->
  (s' = s /\ forall i, nth_error (ws s) i <> Some WWait) \/ (nth_error (ws s) k = Some WWait /\ s' = set_w s k WWoken).
Proof.
  unfold notify_worker; intros s k s' H. destruct (existsb is_wwait (ws s)) eqn:E.
  - destruct (nth_error (ws s) k) as [[]|]; try discriminate. inversion H; auto.
  - inversion H; subst. left; split; auto. intros i Hi. apply nth_error_In in Hi.
    assert (existsb is_wwait (ws s') = true) by (apply existsb_exists; eauto). congruence.
Qed.
Lemma notify_client_inv : forall s k s', notify_client s k = Some s' ->
  (s' = s /\ forall i b, nth_error (cs s) i <> Some (SWait b)) \/
  (exists b, nth_error (cs s) k = Some (SWait b) /\ s' = set_c s k (SWoken b)).
Proof.
  unfold notify_client; intros s k s' H. destruct (existsb is_swait (cs s)) eqn:E.
  - destruct (nth_error (cs s) k) as [[]|]; try discriminate. inversion H; eauto.
  - inversion H; subst. left; split; auto. intros i b Hi. apply nth_error_In in Hi.
    assert (existsb is_swait (cs s') = true) by (apply existsb_exists; eauto). congruence.
Qed.
Ltac step_cases H :=
  unfold pstep, wstep, cstep in H;
  repeat dmatch H; inversion H; subst; clear H;
  repeat match goal with
  | N : notify_worker _ _ = Some _ |- _ => apply notify_worker_inv in N; destruct N as [[-> ?]|[? ->]]
  | N : notify_client _ _ = Some _ |- _ => apply notify_client_inv in N; destruct N as [[-> ?]|[? [? ->]]]
  end.
Ltac fields := cbn [ws flags cs queue mtx smtx kill syncf joined sub deq started finished dropped rets
  set_w set_c set_ws set_flag set_mtx set_smtx enqueue dequeue log_start log_finish log_drop log_ret
  set_kill set_sync set_joined notify_all] in *.

Lemma step_lengths : forall a s s', pstep a s = Some s' ->
  length (ws s') = length (ws s) /\ length (flags s') = length (flags s) /\ length (cs s') = length (cs s).
Proof. intros a s s' H. destruct a; step_cases H; fields; rewrite ?upd_length, ?map_length; auto. Qed.

(* ---- mutex_ ---- *)
Definition holdW (w : wpc) : bool := match w with WPred | WSleep | WOut _ => true | _ => false end.
Definition holdC (c : cpc) : bool := match c with CNotify | CNUnlock | KSet | KUnlock => true | _ => false end.
Definition inv_mtx (s : pool) : Prop :=
  (forall i w, nth_error (ws s) i = Some w -> holdW w = true -> mtx s = Some (OW i)) /\
  (forall j c, nth_error (cs s) j = Some c -> holdC c = true -> mtx s = Some (OC j)).

Ltac use_upd :=
  repeat match goal with
  | H : nth_error (upd _ _ _) _ = Some _ |- _ => apply upd_inv in H; destruct H as [[? ?]|[? ?]]; subst
  end.
Lemma map_woken : forall l i w, nth_error (map (fun w => match w with WWait => WWoken | _ => w end) l) i = Some w ->
  exists w0, nth_error l i = Some w0 /\ w = match w0 with WWait => WWoken | _ => w0 end.
Proof.
  intros l i w H. rewrite nth_error_map in H. destruct (nth_error l i) as [w0|]; simpl in H; inversion H; eauto.
Qed.
Ltac use_map :=
  repeat match goal with
  | H : nth_error (map _ (ws _)) _ = Some _ |- _ => apply map_woken in H; destruct H as [? [? ?]]; subst
  end.

Lemma inv_mtx_step : forall a s s', inv_mtx s -> pstep a s = Some s' -> inv_mtx s'.
Proof.
  intros a s s' [Hw Hc] H.
  destruct a; step_cases H; fields;
    (split; [intros i0 w0 E Hh; fields; use_map; use_upd; try discriminate; fields|
             intros j0 c0 E Hh; fields; use_upd; try discriminate; fields]);
    repeat match goal with x : wpc |- _ => destruct x; try discriminate end;
    repeat match goal with
    | E : nth_error (ws s) _ = Some _ |- _ => pose proof (Hw _ _ E); clear E
    | E : nth_error (cs s) _ = Some _ |- _ => pose proof (Hc _ _ E); clear E
    end;
    repeat match goal with X : true = true -> _ |- _ => specialize (X eq_refl) | X : holdW _ = true -> _, Y : holdW _ = true |- _ => specialize (X Y)
      | X : holdC _ = true -> _, Y : holdC _ = true |- _ => specialize (X Y) | X : holdW _ = true -> _ |- _ => simpl in X; specialize (X eq_refl)
      | X : holdC _ = true -> _ |- _ => simpl in X; specialize (X eq_refl) end;
    try congruence.
Qed.

(* ---- task accounting ---- *)
Definition cnt (l : list task) (x : task) : nat := count_occ Nat.eq_dec l x.
Lemma cnt_app : forall a b x, cnt (a ++ b) x = cnt a x + cnt b x.
Proof. intros; apply count_occ_app. Qed.
Lemma cnt_upd : forall (f : wpc -> list task) l i w w' x, nth_error l i = Some w ->
  cnt (flat_map f (upd l i w')) x + cnt (f w) x = cnt (flat_map f l) x + cnt (f w') x.
Proof.
  intros f l i w w' x H. destruct (upd_split _ _ _ _ H) as [l1 [l2 [E F]]]. rewrite F, E, !flat_map_app. simpl.
  rewrite !cnt_app. lia.
Qed.
(* task popped but not yet started / started but not finished *)
Definition hand (w : wpc) : list task := match w with WOut (Some t) | WKill (Some t) | WBusy t | WCall t => [t] | _ => [] end.
Definition running (w : wpc) : list task := match w with WRunning t => [t] | _ => [] end.

Definition inv_acc (s : pool) : Prop :=
  sub s = deq s ++ queue s /\ NoDup (sub s) /\
  (forall x, cnt (deq s) x = cnt (started s) x + cnt (flat_map hand (ws s)) x + cnt (dropped s) x) /\
  (forall x, cnt (started s) x = cnt (finished s) x + cnt (flat_map running (ws s)) x).

Lemma flat_map_woken : forall (f : wpc -> list task) l, f WWoken = [] -> f WWait = [] ->
  flat_map f (map (fun w => match w with WWait => WWoken | _ => w end) l) = flat_map f l.
Proof. intros f l H1 H2; induction l as [|w l IH]; simpl; auto. rewrite IH. destruct w; auto. rewrite H1, H2; auto. Qed.

Lemma inv_acc_step : forall a s s', inv_acc s -> pstep a s = Some s' -> inv_acc s'.
Proof.
  intros a s s' [A [B [C D]]] H.
  assert (UH: forall i w w' x, nth_error (ws s) i = Some w -> cnt (flat_map hand (upd (ws s) i w')) x + cnt (hand w) x = cnt (flat_map hand (ws s)) x + cnt (hand w') x)
    by (intros; apply cnt_upd; auto).
  assert (UR: forall i w w' x, nth_error (ws s) i = Some w -> cnt (flat_map running (upd (ws s) i w')) x + cnt (running w) x = cnt (flat_map running (ws s)) x + cnt (running w') x)
    by (intros; apply cnt_upd; auto).
  destruct a; step_cases H; unfold inv_acc; fields; rewrite ?flat_map_woken by reflexivity; rewrite ?app_nil_r;
    (split; [try (rewrite A; rewrite <- ?app_assoc; try match goal with E : queue s = _ |- _ => rewrite E end; reflexivity)|]);
    (split; [try assumption|]);
    try (split; intros tsk;
      repeat match goal with E : nth_error (ws s) ?i = Some ?w |- context [upd (ws s) ?i ?w'] => pose proof (UH i w w' tsk E); pose proof (UR i w w' tsk E); clear E end;
      specialize (C tsk); specialize (D tsk); rewrite ?cnt_app in *; cbn [hand running] in *; 
      repeat match goal with o : option task |- _ => destruct o end; cbn [cnt count_occ hand running] in *; lia).
  - (* fresh label *)
    apply NoDup_app_intro; auto; [repeat constructor; simpl; auto|].
    intros c Hc [<-|[]].
    match goal with E : existsb _ _ = false |- _ => rewrite <- not_true_iff_false in E; apply E end.
    apply existsb_exists. exists t. split; auto. apply Nat.eqb_refl.
Qed.

(* ---- kill ---- *)
Definition killer (c : cpc) : bool := match c with KUnlock | KNotify | KJoin _ => true | _ => false end.
Definition inv_kill (s : pool) : Prop :=
  (forall i w, nth_error (ws s) i = Some w -> w = WOut None \/ w = WKill None -> kill s = true) /\
  (forall i, nth_error (ws s) i <> Some WCrash) /\
  (dropped s <> [] -> kill s = true) /\
  (kill s = true -> forall i, nth_error (ws s) i <> Some WSleep) /\
  (forall j c, nth_error (cs s) j = Some c -> killer c = true -> kill s = true) /\
  (forall j k i, nth_error (cs s) j = Some (KJoin k) -> nth_error (ws s) i <> Some WWait).

Lemma inv_kill_step : forall a s s', inv_mtx s -> inv_kill s -> pstep a s = Some s' -> inv_kill s'.
Proof.
  intros a s s' IM IK H.
  assert (DW: forall j c i, nth_error (cs s) j = Some c -> holdC c = true -> nth_error (ws s) i <> Some WSleep).
  { intros j c i H1 H2 H3. destruct IM as [Hw Hc]. pose proof (Hc _ _ H1 H2). pose proof (Hw _ _ H3 eq_refl). congruence. }
  destruct a; step_cases H; destruct IK as [KA [KB [KC [KD [KE KF]]]]]; unfold inv_kill; fields;
  (split; [intros i00 w00 X Y; use_map; use_upd; try reflexivity; try assumption; try (destruct Y; discriminate); try (eapply KA; eauto; fail)|]).
  all: try (split; [intros i00 X; use_map; use_upd; try discriminate; try (eapply KB; eauto; fail)|]).
  all: try (split; [intros X; try reflexivity; try assumption; try (apply KC; auto; fail)|]).
  all: try (split; [intros X i00 Y; use_map; use_upd; try discriminate; try congruence; try (eapply KD; eauto; fail)|]).
  all: try (split; [intros j00 c00 X XK; use_upd; try discriminate XK; try reflexivity; try assumption; try (eapply KE; eauto; fail)|]).
  all: try (intros j00 k00 i00 X Y; use_map; use_upd; try discriminate; try congruence; try (eapply KF; eauto; fail)).
  all: try (match goal with x : wpc |- _ => destruct x; try discriminate; eauto end; fail).
  all: try (match goal with Hq : nth_error (cs ?st) _ = Some (KJoin _), Hs : nth_error (ws ?st) _ = Some WSleep |- False =>
     exact (KD (KE _ _ Hq eq_refl) _ Hs) end).
  all: try (match goal with Hq : nth_error (cs ?st) _ = Some ?c |- kill ?st = true => exact (KE _ _ Hq eq_refl) end).
  - destruct Y as [Y|Y]; inversion Y; subst. eapply KA; eauto.
  - match goal with Hq : nth_error (ws ?st) _ = Some (WKill None) |- _ => pose proof (KA _ _ Hq (or_intror eq_refl)) end. congruence.
  - match goal with Hq : nth_error (cs _) _ = Some KSet |- _ => exact (DW _ _ _ Hq eq_refl Y) end.
  - destruct x; try discriminate. eapply KB; eauto.
  - destruct x; try discriminate. eapply KD; eauto.
Qed.

(* ---- busy flags ---- *)
Definition busy (w : wpc) : bool := match w with WCall _ | WRunning _ | WIdle => true | _ => false end.
Definition inv_flags (s : pool) : Prop :=
  length (flags s) = length (ws s) /\
  forall i w b, nth_error (ws s) i = Some w -> nth_error (flags s) i = Some b -> b = busy w.

Lemma inv_flags_step : forall a s s', inv_flags s -> pstep a s = Some s' -> inv_flags s'.
Proof.
  intros a s s' [L IF] H. pose proof (step_lengths _ _ _ H) as [L1 [L2 _]].
  split; [lia|]. clear L L1 L2.
  destruct a; step_cases H; fields; intros i00 w00 b00 X Y; use_map; use_upd; try congruence;
    try (eapply IF; eauto; fail); try reflexivity;
    try (match goal with Hq : nth_error (ws _) ?i = Some ?w, Hf : nth_error (flags _) ?i = Some ?b |- _ => rewrite (IF _ _ _ Hq Hf); try reflexivity end).
  destruct x; reflexivity.
Qed.

(* ---- the reachable invariant ---- *)
Record pinv (s : pool) : Prop := {
  p_mtx : inv_mtx s; p_acc : inv_acc s; p_kill : inv_kill s; p_flags : inv_flags s }.
Lemma repeat_nth : forall A (x : A) n i y, nth_error (repeat x n) i = Some y -> y = x.
Proof. intros A x n i y H. apply nth_error_In in H. eapply repeat_spec; eauto. Qed.
Lemma flat_map_repeat : forall (f : wpc -> list task) n, f WStart = [] -> flat_map f (repeat WStart n) = [].
Proof. intros f n H; induction n; simpl; auto. rewrite H; auto. Qed.
Lemma pinv_init : forall n m, pinv (pool_init n m).
Proof.
  intros n m. split.
  - split; cbn; intros i w H; apply repeat_nth in H; subst; discriminate.
  - split; [reflexivity|]. split; [constructor|]. cbn. rewrite !flat_map_repeat by reflexivity. auto.
  - split; cbn; [intros i w H; apply repeat_nth in H; subst; intros [?|?]; discriminate|].
    split; [intros i H; apply repeat_nth in H; discriminate|]. split; [congruence|]. split; [discriminate|].
    split; [intros j c H; apply repeat_nth in H; subst; discriminate|]. intros j k i H; apply repeat_nth in H; discriminate.
  - split; cbn; [rewrite !repeat_length; auto|]. intros i w b H1 H2. apply repeat_nth in H1; apply repeat_nth in H2; subst; auto.
Qed.
Lemma pinv_step : forall a s s', pinv s -> pstep a s = Some s' -> pinv s'.
Proof.
  intros a s s' [A B C D] H. split.
  - eapply inv_mtx_step; eauto.
  - eapply inv_acc_step; eauto.
  - eapply inv_kill_step; eauto.
  - eapply inv_flags_step; eauto.
Qed.
Lemma pinv_reach : forall n m s, preach n m s -> pinv s.
Proof. induction 1; [apply pinv_init|eapply pinv_step; eauto]. Qed.
Lemma reach_lengths : forall n m s, preach n m s -> length (ws s) = n /\ length (cs s) = m.
Proof.
  induction 1 as [|s a s' R [IH1 IH2] E]; [cbn; rewrite !repeat_length; auto|].
  destruct (step_lengths _ _ _ E) as [A [B C]]. lia.
Qed.

(* ---- no lost wake-up of workers ---- *)
Definition asleep (w : wpc) : bool := match w with WWait | WSleep => true | _ => false end.
Definition notifying (c : cpc) : bool := match c with CNLock | CNotify => true | _ => false end.
Definition inv_wake (s : pool) : Prop :=
  queue s <> [] -> (forall i w, nth_error (ws s) i = Some w -> asleep w = true) ->
  exists j c, nth_error (cs s) j = Some c /\ notifying c = true.
Lemma inv_wake_step : forall a s s', 0 < length (ws s) -> inv_mtx s -> inv_wake s -> pstep a s = Some s' -> inv_wake s'.
Proof.
  intros a s s' Hn [Hw Hc] IW H Q AS.
  assert (NoI: forall i w, nth_error (ws s') i = Some w -> asleep w = false -> exists j c, nth_error (cs s') j = Some c /\ notifying c = true).
  { intros i w H1 H2. rewrite (AS _ _ H1) in H2. discriminate. }
  destruct a.
  - (* worker *)
    unfold pstep in H. destruct (nth_error (ws s) i) as [w|] eqn:Ei; [|discriminate].
    assert (Hs: nth_error (ws s') i = None \/ exists w', nth_error (ws s') i = Some w') by (destruct (nth_error (ws s') i); eauto).
    destruct w; cbn [wstep] in H; repeat dmatch H; inversion H; subst; clear H; fields;
      try (eapply NoI; [eapply upd_get_same; eauto|reflexivity]; fail); try congruence.
    + (* sleep -> wait *)
      apply IW; auto. intros i0 w0 E0. destruct (Nat.eq_dec i0 i) as [->|Hne].
      * rewrite Ei in E0; inversion E0; auto.
      * apply (AS i0). rewrite upd_get_other; auto.
    + exfalso. apply notify_client_inv in Heqo. 
      assert (asleep WSyncUnlock = true); [|discriminate]. apply (AS i). eapply upd_get_same with (w := WSyncNotify).
      destruct Heqo as [[-> _]|[b [_ ->]]]; auto.
  - unfold pstep in H. destruct (nth_error (ws s) i) as [w|] eqn:Ei; [|discriminate]. destruct w; try discriminate.
    inversion H; subst; clear H. eapply NoI; [eapply upd_get_same; eauto|reflexivity].
  - unfold pstep in H. destruct (nth_error (cs s) j) as [c|] eqn:Ej; [|discriminate].
    assert (Keep: forall c', ws s' = ws s -> queue s' = queue s -> cs s' = upd (cs s) j c' -> (notifying c = true -> notifying c' = true) ->
       exists j0 c0, nth_error (cs s') j0 = Some c0 /\ notifying c0 = true).
    { intros c' E1 E2 E3 E4. rewrite E1, E2 in *. destruct (IW Q AS) as [j0 [c0 [G1 G2]]]. rewrite E3.
      destruct (Nat.eq_dec j0 j) as [->|Hne].
      - exists j, c'. split; [eapply upd_get_same; eauto|]. apply E4. congruence.
      - exists j0, c0. rewrite upd_get_other; auto. }
    destruct c; cbn [cstep] in H; try dmatch H; repeat dmatch H; inversion H; subst; clear H;
      try (eapply Keep; [reflexivity|reflexivity || assumption|reflexivity|cbn; auto; discriminate]; fail); try (exfalso; fields; congruence).
    + (* send *) exists j, CNLock. split; [eapply upd_get_same; eauto|reflexivity].
    + (* notify *)
      apply notify_worker_inv in Heqo. destruct Heqo as [[-> Hnone]|[Hk ->]].
      * destruct (nth_error (ws s) 0) as [w|] eqn:E0; [|apply nth_error_None in E0; lia].
        pose proof (AS 0 w E0) as Hs. destruct w; try discriminate.
        -- pose proof (Hw _ _ E0 eq_refl). pose proof (Hc _ _ Ej eq_refl). congruence.
        -- exfalso; eapply Hnone; eauto.
      * eapply NoI; [fields; eapply upd_get_same; eauto|reflexivity].
    + (* notify_all *)
      fields. destruct (nth_error (ws s) 0) as [w|] eqn:E0; [|apply nth_error_None in E0; lia].
      assert (G: nth_error (map (fun w => match w with WWait => WWoken | _ => w end) (ws s)) 0 = Some (match w with WWait => WWoken | _ => w end)).
      { rewrite nth_error_map, E0; auto. }
      pose proof (AS _ _ G) as X. destruct w; try discriminate.
      destruct (IW Q) as [j0 [c0 [G1 G2]]].
      * intros i0 w0 Ei. specialize (AS i0). rewrite nth_error_map, Ei in AS. cbn in AS. specialize (AS _ eq_refl).
        destruct w0; auto.
      * exists j0, c0. split; auto. rewrite upd_get_other; auto. intros ->. rewrite Ej in G1; inversion G1; subst; discriminate.
  - unfold pstep in H. destruct (nth_error (cs s) j) as [c|] eqn:Ej; [|discriminate]. destruct c; try discriminate.
    inversion H; subst; clear H. fields. destruct (IW Q AS) as [j0 [c0 [G1 G2]]].
    exists j0, c0. split; auto. rewrite upd_get_other; auto. intros ->. rewrite Ej in G1; inversion G1; subst; discriminate.
Qed.

Lemma wake_reach : forall n m s, 0 < n -> preach n m s -> inv_wake s.
Proof.
  intros n m s Hn R. induction R as [|s a s' R IH E].
  - intros Q. cbn in Q. congruence.
  - eapply inv_wake_step; eauto.
    + destruct (reach_lengths _ _ _ R); lia.
    + apply (pinv_reach _ _ _ R).
Qed.

(* ---- owners of the two mutexes really are inside the critical section ---- *)
Definition sholdW (w : wpc) : bool := match w with WSyncNotify | WSyncUnlock => true | _ => false end.
Definition sholdC (c : cpc) : bool := match c with SSet _ | SPred _ | SCheck _ _ _ _ | SSleep _ | SRet _ _ _ => true | _ => false end.
Definition inv_smtx (s : pool) : Prop :=
  (forall i w, nth_error (ws s) i = Some w -> sholdW w = true -> smtx s = Some (OW i)) /\
  (forall j c, nth_error (cs s) j = Some c -> sholdC c = true -> smtx s = Some (OC j)).
Definition inv_owner (s : pool) : Prop :=
  match mtx s with
  | Some (OW i) => exists w, nth_error (ws s) i = Some w /\ holdW w = true
  | Some (OC j) => exists c, nth_error (cs s) j = Some c /\ holdC c = true
  | None => True
  end /\
  match smtx s with
  | Some (OW i) => exists w, nth_error (ws s) i = Some w /\ sholdW w = true
  | Some (OC j) => exists c, nth_error (cs s) j = Some c /\ sholdC c = true
  | None => True
  end.

Lemma inv_smtx_step : forall a s s', inv_smtx s -> pstep a s = Some s' -> inv_smtx s'.
Proof.
  intros a s s' [Hw Hc] H.
  destruct a; step_cases H; fields;
    (split; [intros i0 w0 E Hh; fields; use_map; use_upd; try discriminate; fields|
             intros j0 c0 E Hh; fields; use_upd; try discriminate; fields]);
    repeat match goal with x : wpc |- _ => destruct x; try discriminate end;
    repeat match goal with
    | E : nth_error (ws _) _ = Some _ |- _ => pose proof (Hw _ _ E); clear E
    | E : nth_error (cs _) _ = Some _ |- _ => pose proof (Hc _ _ E); clear E
    end;
    repeat match goal with X : true = true -> _ |- _ => specialize (X eq_refl) | X : sholdW _ = true -> _, Y : sholdW _ = true |- _ => specialize (X Y)
      | X : sholdC _ = true -> _, Y : sholdC _ = true |- _ => specialize (X Y) | X : sholdW _ = true -> _ |- _ => simpl in X; specialize (X eq_refl)
      | X : sholdC _ = true -> _ |- _ => simpl in X; specialize (X eq_refl) end;
    try congruence.
Qed.

Lemma keep_upd : forall A (l : list A) i a x j (P : A -> Prop), nth_error l i = Some a ->
  (exists w, nth_error l j = Some w /\ P w) -> (P a -> P x) -> exists w, nth_error (upd l i x) j = Some w /\ P w.
Proof.
  intros A l i a x j P E [w [H1 H2]] H. destruct (Nat.eq_dec j i) as [->|Hn].
  - exists x. split; [eapply upd_get_same; eauto|]. rewrite E in H1; inversion H1; subst; auto.
  - exists w. rewrite upd_get_other; auto.
Qed.
Lemma inv_owner_step : forall a s s', inv_mtx s -> inv_smtx s -> inv_owner s -> pstep a s = Some s' -> inv_owner s'.
Proof.
  intros a s s' [Hw Hc] [Sw Sc] [IO SO] H.
  destruct a; step_cases H; fields; (split; fields);
   repeat match goal with
    | E : nth_error (ws _) _ = Some _ |- _ => pose proof (Hw _ _ E); pose proof (Sw _ _ E); revert E
    | E : nth_error (cs _) _ = Some _ |- _ => pose proof (Hc _ _ E); pose proof (Sc _ _ E); revert E
    end; intros; cbn [holdW holdC sholdW sholdC] in *;
   repeat match goal with X : true = true -> _ |- _ => specialize (X eq_refl) end;
   repeat match goal with X : mtx _ = _ |- _ => rewrite X in * | X : smtx _ = _ |- _ => rewrite X in * end;
   try exact I; try assumption;
   try (eexists; split; [eapply upd_get_same; eauto|reflexivity]; fail);
   repeat match goal with |- context [match ?x with _ => _ end] => destruct x end; try exact I; try assumption;
   try (eapply keep_upd; [eassumption|assumption|cbn; intros; congruence]; fail);
   try (eapply keep_upd; [eassumption|eapply keep_upd; [eassumption|assumption|cbn; intros; congruence]|cbn; intros; congruence]; fail);
   try (match goal with Ex : exists w, nth_error (ws _) _ = Some w /\ _ |- exists w, nth_error (map _ (ws _)) _ = Some w /\ _ =>
     let G1 := fresh in let G2 := fresh in destruct Ex as [w0 [G1 G2]]; exists w0; rewrite nth_error_map, G1; cbn; split; [destruct w0; try reflexivity; discriminate|exact G2] end).
   all: try (match goal with |- exists w, nth_error (upd (ws _) _ _) _ = Some w /\ _ => idtac end).

Qed.
