(* Deadlock freedom and sync() invariants of the thread pool model. *)
From Verif Require Import Base ThreadPoolModel ThreadPoolProofs.

Lemma owner_reach : forall n m s, preach n m s -> inv_smtx s /\ inv_owner s.
Proof.
  induction 1 as [|s a s' R [IH1 IH2] E].
  - split.
    + split; cbn; intros i w H; apply repeat_nth in H; subst; discriminate.
    + split; exact I.
  - split; [eapply inv_smtx_step; eauto|]. eapply inv_owner_step; eauto. apply (pinv_reach _ _ _ R).
Qed.

(* ---- what a client inside sync() knows ---- *)
Definition accounted (s : pool) (missed : list task) (k : nat) (t : task) : Prop :=
  In t (finished s) \/ In t (dropped s) \/ In t missed \/
  exists i w, k <= i /\ nth_error (ws s) i = Some w /\ In t (hand w ++ running w).
Definition sync_ok (s : pool) (c : cpc) : Prop :=
  match c with
  | SLock b | SSet b | SPred b | SSleep b | SWait b | SWoken b => incl b (sub s)
  | SCheck b k D m => incl b (sub s) /\ incl b D /\ forall t, In t D -> accounted s m k t
  | SRet b D m => incl b (sub s) /\ incl b D /\ forall t, In t D -> In t (finished s) \/ In t (dropped s) \/ In t m
  | _ => True
  end.
Definition inv_sync (s : pool) : Prop :=
  (forall j c, nth_error (cs s) j = Some c -> sync_ok s c) /\
  (forall b m t, In (b, m) (rets s) -> In t b -> In t (finished s) \/ In t (dropped s) \/ In t m).

(* the parts of the state sync_ok depends on only grow *)
Definition grows (s s' : pool) : Prop :=
  incl (sub s) (sub s') /\ incl (finished s) (finished s') /\ incl (dropped s) (dropped s') /\
  forall m k t, accounted s m k t -> accounted s' m k t.
Lemma grows_sync_ok : forall s s' c, grows s s' -> sync_ok s c -> sync_ok s' c.
Proof.
  intros s s' c [G1 [G2 [G3 G4]]] H. destruct c; simpl in *; auto; try (intros x Hx; apply G1, H; auto).
  - destruct H as [A [B C]]. split; [intros x Hx; apply G1; auto|]. split; auto.
  - destruct H as [A [B C]]. split; [intros x Hx; apply G1; auto|]. split; auto.
    intros t Ht. destruct (C t Ht) as [X|[X|X]]; auto.
Qed.

Lemma accounted_upd : forall s s' i w w' m k t, nth_error (ws s) i = Some w -> ws s' = upd (ws s) i w' ->
  incl (finished s) (finished s') -> incl (dropped s) (dropped s') ->
  (In t (hand w ++ running w) -> In t (finished s') \/ In t (dropped s') \/ In t (hand w' ++ running w')) ->
  accounted s m k t -> accounted s' m k t.
Proof.
  intros s s' i w w' m k t E Ew If Id Hm [A|[A|[A|[i0 [w0 [Hk [E0 Hi]]]]]]]; unfold accounted; auto.
  rewrite Ew. destruct (Nat.eq_dec i0 i) as [->|Hn].
  - rewrite E in E0; inversion E0; subst w0. destruct (Hm Hi) as [X|[X|X]]; auto.
    right; right; right. exists i, w'. split; auto. split; auto. eapply upd_get_same; eauto.
  - right; right; right. exists i0, w0. rewrite upd_get_other; auto.
Qed.
Lemma grows_same : forall s s', ws s' = ws s -> incl (sub s) (sub s') -> incl (finished s) (finished s') ->
  incl (dropped s) (dropped s') -> grows s s'.
Proof.
  intros s s' E A B C. split; auto. split; auto. split; auto. intros m k t H. unfold accounted in *. rewrite E.
  destruct H as [H|[H|[H|H]]]; auto.
Qed.
Lemma incl_app_l : forall A (a b : list A), incl a (a ++ b).
Proof. intros A a b x H; apply in_or_app; auto. Qed.

Lemma step_grows : forall a s s', inv_kill s -> pstep a s = Some s' -> grows s s'.
Proof.
  intros a s s' IK H. destruct a.
  - unfold pstep in H. destruct (nth_error (ws s) i) as [w|] eqn:Ei; [|discriminate].
    assert (U: forall w', ws s' = upd (ws s) i w' -> incl (sub s) (sub s') -> incl (finished s) (finished s') -> incl (dropped s) (dropped s') ->
       (forall t, In t (hand w ++ running w) -> In t (finished s') \/ In t (dropped s') \/ In t (hand w' ++ running w')) -> grows s s').
    { intros w' A B C D F. split; auto. split; auto. split; auto. intros m k0 t. eapply accounted_upd; eauto. }
    destruct w; cbn [wstep] in H; repeat dmatch H; inversion H; subst; clear H;
      try (apply notify_client_inv in Heqo; destruct Heqo as [[-> _]|[b [_ ->]]]);
      (eapply U; [reflexivity|try apply incl_refl; apply incl_app_l|try apply incl_refl; apply incl_app_l|try apply incl_refl; apply incl_app_l|]);
      cbn [hand running app finished dropped set_w log_finish log_drop]; intros x Hx; repeat match goal with o : option task |- _ => destruct o end; cbn in *;
      rewrite ?in_app_iff; cbn; tauto.
  - step_cases H. split; [apply incl_refl|]. split; [apply incl_refl|]. split; [apply incl_refl|].
    intros m k t Ha. eapply accounted_upd; [eassumption|reflexivity|apply incl_refl|apply incl_refl| |exact Ha]. cbn; tauto.
  - destruct (nth_error (cs s) j) as [c|] eqn:Ej; unfold pstep in H; rewrite Ej in H; [|discriminate].
    destruct c; cbn [cstep] in H; repeat dmatch H; inversion H; subst; clear H;
      try (apply grows_same; [reflexivity|try apply incl_refl; apply incl_app_l|apply incl_refl|apply incl_refl]; fail).
    + apply notify_worker_inv in Heqo. destruct Heqo as [[-> _]|[Hk ->]];
      [apply grows_same; try reflexivity; apply incl_refl|].
      split; [apply incl_refl|]. split; [apply incl_refl|]. split; [apply incl_refl|].
      intros m k0 t Ha. eapply accounted_upd; [eassumption|reflexivity|apply incl_refl|apply incl_refl| |exact Ha]. cbn; tauto.
    + split; [apply incl_refl|]. split; [apply incl_refl|]. split; [apply incl_refl|].
      intros m k0 t [A|[A|[A|[i [w [Hk [Ei Hi]]]]]]]; unfold accounted; auto. fields.
      right; right; right. exists i, (match w with WWait => WWoken | _ => w end). split; auto. split.
      * rewrite nth_error_map, Ei; auto.
      * destruct w; auto.
  - step_cases H. apply grows_same; try reflexivity; apply incl_refl.
Qed.

Lemma cnt_In : forall l x, 0 < cnt l x <-> In x l.
Proof. intros l x. unfold cnt. symmetry. apply (count_occ_In Nat.eq_dec l x). Qed.

Lemma inv_sync_step : forall a s s', pinv s -> inv_sync s -> pstep a s = Some s' -> inv_sync s'.
Proof.
  intros a s s' PI [IC IR] H.
  pose proof (step_grows _ _ _ (p_kill _ PI) H) as G.
  assert (IC': forall j c, nth_error (cs s) j = Some c -> sync_ok s' c) by (intros; eapply grows_sync_ok; eauto).
  assert (IR': forall b m t, In (b, m) (rets s) -> In t b -> In t (finished s') \/ In t (dropped s') \/ In t m).
  { intros b m t H1 H2. destruct G as [_ [G2 [G3 _]]]. destruct (IR _ _ _ H1 H2) as [X|[X|X]]; auto. }
  destruct a.
  - unfold pstep in H. destruct (nth_error (ws s) i) as [w|] eqn:Ei; [|discriminate].
    destruct w; cbn [wstep] in H; repeat dmatch H; inversion H; subst; clear H;
      try (split; [exact IC'|exact IR']; fail).
    apply notify_client_inv in Heqo. destruct Heqo as [[-> _]|[b [Hk ->]]]; [split; [exact IC'|exact IR']|].
    split; [|exact IR']. intros j0 c0 E0. fields. apply upd_inv in E0. destruct E0 as [[-> ->]|[_ E0]]; [|apply (IC' _ _ E0)].
    exact (IC' _ _ Hk).
  - unfold pstep in H. repeat dmatch H; inversion H; subst; clear H. split; [exact IC'|exact IR'].
  - unfold pstep in H. destruct (nth_error (cs s) j) as [c|] eqn:Ej; [|discriminate].
    assert (U: forall c', cs s' = upd (cs s) j c' -> rets s' = rets s -> sync_ok s' c' -> inv_sync s').
    { intros c' E1 E2 E3. split.
      - intros j0 c0 E0. rewrite E1 in E0. apply upd_inv in E0. destruct E0 as [[-> ->]|[_ E0]]; [auto|apply (IC' _ _ E0)].
      - rewrite E2. exact IR'. }
    pose proof (IC _ _ Ej) as Hok. pose proof (IC' _ _ Ej) as Hok'.
    destruct c; cbn [cstep] in H; repeat dmatch H; inversion H; subst; clear H;
      try (eapply U; [reflexivity|reflexivity|exact I]; fail);
      try (eapply U; [reflexivity|reflexivity|exact Hok']; fail).
    + eapply U; [reflexivity|reflexivity|]. cbn. apply incl_refl.
    + apply notify_worker_inv in Heqo. destruct Heqo as [[-> _]|[Hk ->]]; (eapply U; [reflexivity|reflexivity|exact I]).
    + (* queue empty: start checking *)
      eapply U; [reflexivity|reflexivity|]. cbn in *. split; auto.
      destruct (p_acc _ PI) as [A [B [C D]]]. rewrite Heql, app_nil_r in A. split; [rewrite <- A; auto|].
      intros t Ht. unfold accounted; fields. apply cnt_In in Ht. specialize (C t). specialize (D t).
      destruct (cnt (dropped s) t) eqn:E1; [|right; left; apply cnt_In; lia].
      destruct (cnt (finished s) t) eqn:E2; [|left; apply cnt_In; lia].
      assert (Hx: 0 < cnt (flat_map hand (ws s)) t \/ 0 < cnt (flat_map running (ws s)) t) by lia.
      right; right; right. destruct Hx as [Hx|Hx]; apply cnt_In, in_flat_map in Hx; destruct Hx as [w [Hw Ht2]];
        apply In_nth_error in Hw; destruct Hw as [i Hi]; exists i, w; (split; [lia|]); split; auto; apply in_or_app; auto.
    + (* flag true *)
      eapply U; [reflexivity|reflexivity|]. cbn in *. tauto.
    + (* flag false *)
      eapply U; [reflexivity|reflexivity|]. cbn in *. destruct Hok as [A [B C]]. split; auto. split; auto.
      intros t Ht. destruct (C t Ht) as [X|[X|[X|[i [w0 [Hk [Ei Hi]]]]]]]; unfold accounted; fields; auto.
      { right; right; left; apply in_or_app; auto. }
      destruct (Nat.eq_dec i k0) as [->|Hne].
      * rewrite Heqo0 in Ei; inversion Ei; subst w0.
        pose proof (proj2 (p_flags _ PI) _ _ _ Heqo0 Heqo) as Hb.
        right; right; left. apply in_or_app; right. destruct w; cbn in *; try tauto; try discriminate;
          repeat match goal with o : option task |- _ => destruct o end; cbn in *; tauto.
      * right; right; right. exists i, w0. split; [lia|auto].
    + (* worker index out of range: impossible *)
      exfalso. apply nth_error_None in Heqo0. assert (k0 < length (flags s)) by (apply nth_error_Some; congruence).
      destruct (p_flags _ PI). lia.
    + eapply U; [reflexivity|reflexivity|]. cbn in *. destruct Hok as [A [B C]]. split; auto. split; auto.
      intros t Ht. destruct (C t Ht) as [X|[X|[X|[i [w0 [Hk [Ei Hi]]]]]]]; auto. exfalso.
      apply nth_error_None in Heqo. assert (i < length (ws s)) by (apply nth_error_Some; congruence).
      destruct (p_flags _ PI). lia.
    + (* return *)
      split.
      * intros j0 c0 E0. fields. apply upd_inv in E0. destruct E0 as [[-> ->]|[_ E0]]; [exact I|apply (IC' _ _ E0)].
      * fields. intros b m t Hi Ht. apply in_app_or in Hi. destruct Hi as [Hi|[Hi|[]]]; [apply (IR' _ _ _ Hi Ht)|].
        inversion Hi; subst. cbn in Hok. destruct Hok as [A [B C]]. apply C, B; auto.
  - unfold pstep in H. repeat dmatch H; inversion H; subst; clear H.
    split; [|exact IR']. intros j0 c0 E0. fields. apply upd_inv in E0. destruct E0 as [[-> ->]|[_ E0]]; [|apply (IC' _ _ E0)].
    exact (IC' _ _ Heqo).
Qed.
Lemma sync_reach : forall n m s, preach n m s -> inv_sync s.
Proof.
  induction 1 as [|s a s' R IH E].
  - split; cbn; [|tauto]. intros j c H. apply repeat_nth in H. subst. exact I.
  - eapply inv_sync_step; eauto. eapply pinv_reach; eauto.
Qed.

(* ---- deadlock freedom ---- *)
(* an action of a worker, or of a client in the middle of an operation; no spurious wake-up *)
Definition internal (s : pool) (a : action) : Prop :=
  match a with
  | AW _ _ => True
  | AC j _ _ => exists c, nth_error (cs s) j = Some c /\ c <> CIdle
  | _ => False
  end.
Definition can_move (s : pool) : Prop := exists a s', internal s a /\ pstep a s = Some s'.
Lemma existsb_nth : forall A (f : A -> bool) l, existsb f l = true -> exists k x, nth_error l k = Some x /\ f x = true.
Proof.
  intros A f l H. apply existsb_exists in H. destruct H as [x [H1 H2]]. apply In_nth_error in H1. destruct H1 as [k Hk]. eauto.
Qed.
Lemma notify_worker_some : forall s, exists k s', notify_worker s k = Some s'.
Proof.
  intros s. unfold notify_worker. destruct (existsb is_wwait (ws s)) eqn:E; [|exists 0; eauto].
  destruct (existsb_nth _ _ _ E) as [k [x [H1 H2]]]. exists k. rewrite H1. destruct x; try discriminate. eauto.
Qed.
Lemma notify_client_some : forall s, exists k s', notify_client s k = Some s'.
Proof.
  intros s. unfold notify_client. destruct (existsb is_swait (cs s)) eqn:E; [|exists 0; eauto].
  destruct (existsb_nth _ _ _ E) as [k [x [H1 H2]]]. exists k. rewrite H1. destruct x; try discriminate. eauto.
Qed.
Lemma move_w : forall s i w, nth_error (ws s) i = Some w -> (exists k s', wstep s i k w = Some s') -> can_move s.
Proof. intros s i w E [k [s' H]]. exists (AW i k), s'. split; [exact I|]. cbn. rewrite E; auto. Qed.
Lemma move_c : forall s j c, nth_error (cs s) j = Some c -> c <> CIdle -> (exists k s', cstep s j Sync k c = Some s') -> can_move s.
Proof. intros s j c E N [k [s' H]]. exists (AC j Sync k), s'. split; [cbn; eauto|]. cbn. rewrite E; auto. Qed.

Lemma mtx_move : forall s, inv_owner s -> mtx s <> None -> can_move s.
Proof.
  intros s [IO _] H. destruct (mtx s) as [[i|j]|]; [| |congruence].
  - destruct IO as [w [E Hh]]. eapply move_w; eauto. exists 0. destruct w; try discriminate; cbn; eauto.
    destruct (kill s); eauto. destruct (queue s); eauto.
  - destruct IO as [c [E Hh]]. destruct c; try discriminate;
      (eapply move_c; [exact E|discriminate|]); cbn [cstep]; try (exists 0; eauto; fail).
    destruct (notify_worker_some s) as [k [s' Hn]]. exists k. rewrite Hn; eauto.
Qed.
Lemma smtx_move : forall s, inv_owner s -> smtx s <> None -> can_move s.
Proof.
  intros s [_ IO] H. destruct (smtx s) as [[i|j]|]; [| |congruence].
  - destruct IO as [w [E Hh]]. eapply move_w; eauto. destruct w; try discriminate; cbn [wstep]; try (exists 0; eauto; fail).
    destruct (notify_client_some s) as [k [s' Hn]]. exists k. rewrite Hn; eauto.
  - destruct IO as [c [E Hh]]. destruct c; try discriminate;
      (eapply move_c; [exact E|discriminate|]); cbn [cstep]; exists 0; eauto.
    + destruct (queue s); eauto.
    + destruct (nth_error (flags s) k) as [[]|]; eauto. destruct (nth_error (ws s) k); eauto.
Qed.
Lemma worker_move : forall s i w, inv_owner s -> nth_error (ws s) i = Some w ->
  w <> WWait -> w <> WExit -> w <> WCrash -> can_move s.
Proof.
  intros s i w IO E N1 N2 N3.
  destruct (mtx s) as [o|] eqn:Em; [apply mtx_move; auto; congruence|].
  destruct (smtx s) as [o|] eqn:Es; [apply smtx_move; auto; congruence|].
  eapply move_w; eauto.
  destruct w; try congruence; cbn [wstep]; rewrite ?Em, ?Es; try (exists 0; eauto; fail).
  - exists 0. destruct (kill s); eauto. destruct (queue s); eauto.
  - exists 0. destruct (kill s); eauto. destruct o; eauto.
  - exists 0. destruct (syncf s); eauto.
  - destruct (notify_client_some s) as [k [s' Hn]]. exists k. rewrite Hn; eauto.
Qed.

(* exits only happen after kill *)
Definition inv_exit (s : pool) : Prop := forall i, nth_error (ws s) i = Some WExit -> kill s = true.
Lemma kill_mono : forall a s s', pstep a s = Some s' -> kill s = true -> kill s' = true.
Proof. intros a s s' H K. destruct a; step_cases H; fields; auto; congruence. Qed.
Lemma inv_exit_step : forall a s s', inv_exit s -> pstep a s = Some s' -> inv_exit s'.
Proof.
  intros a s s' IE H i0 E. pose proof (kill_mono _ _ _ H) as KM.
  destruct a; step_cases H; fields; use_map; use_upd; try discriminate; auto;
    try (apply KM; eapply IE; eauto; fail).
  all: try congruence.
  all: try (eapply IE; eauto; fail).
  all: try (destruct x; try discriminate; eapply IE; eauto).
  Qed.
Lemma exit_reach : forall n m s, preach n m s -> inv_exit s.
Proof.
  induction 1; [|eapply inv_exit_step; eauto]. intros i E. cbn in E. apply repeat_nth in E. discriminate.
Qed.

Lemma no_deadlock : forall n m s, 0 < n -> preach n m s -> kill s = false -> queue s <> [] -> can_move s.
Proof.
  intros n m s Hn R K Q.
  pose proof (wake_reach _ _ _ Hn R) as W. destruct (owner_reach _ _ _ R) as [_ IO].
  pose proof (pinv_reach _ _ _ R) as PI. pose proof (exit_reach _ _ _ R) as EX.
  destruct (existsb (fun w => negb (is_wwait w)) (ws s)) eqn:Ex.
  - destruct (existsb_nth _ _ _ Ex) as [i [w [E1 E2]]]. apply (worker_move s i w IO E1).
    + intros ->; discriminate.
    + intros ->. rewrite (EX _ E1) in K; discriminate.
    + intros ->. destruct (p_kill _ PI) as [_ [B _]]. eapply B; eauto.
  - destruct W as [j [c [E Hc]]]; auto.
    + intros i w E. destruct w; auto; exfalso; apply nth_error_In in E;
      rewrite <- not_true_iff_false in Ex; apply Ex, existsb_exists; eexists; split; eauto.
    + destruct (mtx s) as [o|] eqn:Em; [apply mtx_move; auto; congruence|].
      destruct c; try discriminate; (eapply move_c; [exact E|discriminate|]); cbn [cstep].
      * rewrite Em. exists 0; eauto.
      * destruct (notify_worker_some s) as [k [s' Hk]]. exists k. rewrite Hk; eauto.
Qed.

(* ---- wake-up of sync(), at most one client synchronising at a time ---- *)
Definition in_sync (c : cpc) : bool :=
  match c with SLock _ | SSet _ | SPred _ | SCheck _ _ _ _ | SSleep _ | SWait _ | SWoken _ | SRet _ _ _ => true | _ => false end.
Definition one_sync (a : action) (s : pool) : Prop :=
  match a with
  | AC j Sync _ => nth_error (cs s) j = Some CIdle -> forall k c, nth_error (cs s) k = Some c -> in_sync c = false
  | _ => True
  end.
(* executions in which sync() is never called while another client is inside sync() *)
Inductive preach1 (n m : nat) : pool -> Prop :=
| preach1_0 : preach1 n m (pool_init n m)
| preach1_S : forall s a s', preach1 n m s -> one_sync a s -> pstep a s = Some s' -> preach1 n m s'.
Lemma preach1_reach : forall n m s, preach1 n m s -> preach n m s.
Proof. induction 1; [constructor|econstructor; eauto]. Qed.

Definition inv_one (s : pool) : Prop :=
  forall j k c d, nth_error (cs s) j = Some c -> nth_error (cs s) k = Some d -> in_sync c = true -> in_sync d = true -> j = k.
Lemma inv_one_step : forall a s s', inv_one s -> one_sync a s -> pstep a s = Some s' -> inv_one s'.
Proof.
  intros a s s' IO OS H j0 k0 c0 d0 E1 E2 S1 S2.
  assert (U: forall (l : list cpc) i c c', nth_error l i = Some c ->
     (forall j k c d, nth_error l j = Some c -> nth_error l k = Some d -> in_sync c = true -> in_sync d = true -> j = k) ->
     (in_sync c' = true -> in_sync c = true \/ forall k d, nth_error l k = Some d -> in_sync d = false) ->
     nth_error (upd l i c') j0 = Some c0 -> nth_error (upd l i c') k0 = Some d0 -> j0 = k0).
  { intros l i c c' Hi HO Hc A B. apply upd_inv in A. apply upd_inv in B.
    destruct A as [[-> ->]|[A1 A2]]; destruct B as [[-> ->]|[B1 B2]]; auto.
    - destruct (Hc S1) as [X|X]; [eapply HO; eauto|]. rewrite (X _ _ B2) in S2; discriminate.
    - destruct (Hc S2) as [X|X]; [eapply HO; eauto|]. rewrite (X _ _ A2) in S1; discriminate.
    - eapply HO; eauto. }
  destruct a; cbn [one_sync] in OS; step_cases H; fields;
    try (eapply IO; eauto; fail);
    try (eapply U; [| | |exact E1|exact E2]; [eassumption|exact IO|cbn; intros; auto; discriminate]; fail).
  eapply U; [| | |exact E1|exact E2]; [eassumption|exact IO|intros _; right; intros; eapply OS; eauto].
Qed.

Definition active (w : wpc) : bool :=
  match w with
  | WOut (Some _) | WKill (Some _) | WBusy _ | WCall _ | WRunning _ | WIdle | WSyncChk | WSyncLock | WSyncNotify => true
  | _ => false
  end.
Definition after_set (c : cpc) : bool :=
  match c with SPred _ | SCheck _ _ _ _ | SSleep _ | SWait _ | SWoken _ | SRet _ _ _ => true | _ => false end.
Definition inv_syncf (s : pool) : Prop := forall j c, nth_error (cs s) j = Some c -> after_set c = true -> syncf s = true.
Lemma syncf_mono : forall a s s', pstep a s = Some s' -> syncf s = true -> syncf s' = true.
Proof. intros a s s' H K. destruct a; step_cases H; fields; auto; congruence. Qed.
Lemma inv_syncf_step : forall a s s', inv_syncf s -> pstep a s = Some s' -> inv_syncf s'.
Proof.
  intros a s s' IS H j0 c0 E A. pose proof (syncf_mono _ _ _ H) as M.
  destruct a; step_cases H; fields; use_upd; try discriminate; auto;
    try (apply M; eapply IS; eauto; fail); try reflexivity; try (eapply IS; eauto; fail); try congruence.
Qed.

Definition sleeping (c : cpc) : bool := match c with SSleep _ | SWait _ => true | _ => false end.
Definition inv_sw (s : pool) : Prop := kill s = false -> forall j c, nth_error (cs s) j = Some c -> sleeping c = true ->
  queue s <> [] \/ exists i w, nth_error (ws s) i = Some w /\ active w = true.

Lemma inv_sw_step : forall a s s', pinv s -> inv_smtx s -> inv_one s -> inv_syncf s -> inv_sw s -> pstep a s = Some s' -> inv_sw s'.
Proof.
  intros a s s' PI [Sw Sc] IO IS IW H K j0 c0 E Hs.
  assert (K0: kill s = false). { destruct (kill s) eqn:X; auto. rewrite (kill_mono _ _ _ H X) in K; discriminate. }
  specialize (IW K0).
  destruct a.
  - unfold pstep in H. destruct (nth_error (ws s) i) as [w|] eqn:Ei; [|discriminate].
    assert (U: forall w', ws s' = upd (ws s) i w' -> (active w' = true \/ queue s' <> []) ->
        queue s' <> [] \/ exists i w, nth_error (ws s') i = Some w /\ active w = true).
    { intros w' E1 [A|Q]; auto. right. exists i, w'. rewrite E1. split; auto. eapply upd_get_same; eauto. }
    assert (V: forall w', ws s' = upd (ws s) i w' -> cs s' = cs s -> queue s' = queue s -> (active w = true -> active w' = true) ->
        queue s' <> [] \/ exists i w, nth_error (ws s') i = Some w /\ active w = true).
    { intros w' E1 E2 E3 A. rewrite E2 in E. rewrite E3. destruct (IW _ _ E Hs) as [Q|[i1 [w1 [G1 G2]]]]; auto.
      right. rewrite E1. destruct (Nat.eq_dec i1 i) as [->|Hne].
      - exists i, w'. split; [eapply upd_get_same; eauto|]. apply A. congruence.
      - exists i1, w1. rewrite upd_get_other; auto. }
    destruct w; cbn [wstep] in H; repeat dmatch H; inversion H; subst; clear H;
      try (eapply V; [reflexivity|reflexivity|reflexivity|cbn; auto; discriminate]; fail);
      try (eapply U; [reflexivity|left; reflexivity]; fail); try (fields; congruence).
    + eapply V; [reflexivity|reflexivity|fields; congruence|cbn; auto].
    + (* WSyncChk with sync_ false *)
      exfalso. fields. rewrite (IS _ _ E) in Heqb; [discriminate|destruct c0; auto].
    + (* notify *)
      fields. apply notify_client_inv in Heqo. pose proof (Sw _ _ Ei eq_refl) as O.
      destruct Heqo as [[-> Hnone]|[b [Hk ->]]].
      * exfalso. destruct c0; try discriminate.
        -- pose proof (Sc _ _ E eq_refl). congruence.
        -- eapply Hnone; eauto.
      * exfalso. fields. apply upd_inv in E. destruct E as [[-> ->]|[Hne E]]; [discriminate|].
        apply Hne. eapply (IO j0 k); eauto. destruct c0; auto.
  - unfold pstep in H. repeat dmatch H; inversion H; subst; clear H. fields.
    destruct (IW _ _ E Hs) as [Q|[i1 [w1 [G1 G2]]]]; auto. right. exists i1, w1. rewrite upd_get_other; auto. intros ->.
    rewrite G1 in Heqo; inversion Heqo; subst; discriminate.
  - unfold pstep in H. destruct (nth_error (cs s) j) as [c|] eqn:Ej; [|discriminate].
    assert (V: forall c', ws s' = ws s -> cs s' = upd (cs s) j c' -> (queue s <> [] -> queue s' <> []) -> (sleeping c' = true -> sleeping c = true) ->
        queue s' <> [] \/ exists i w, nth_error (ws s') i = Some w /\ active w = true).
    { intros c' E1 E2 E3 A. rewrite E2 in E. rewrite E1. apply upd_inv in E. destruct E as [[-> ->]|[Hne E]].
      - destruct (IW _ _ Ej (A Hs)) as [Q|X]; auto.
      - destruct (IW _ _ E Hs) as [Q|X]; auto. }
    destruct c; cbn [cstep] in H; repeat dmatch H; inversion H; subst; clear H;
      try (eapply V; [reflexivity|reflexivity|fields; auto; congruence|cbn; auto; discriminate]; fail).
    + eapply V; [reflexivity|reflexivity| |cbn; auto; discriminate]. fields. intros _ X. destruct (queue s); discriminate.
    + apply notify_worker_inv in Heqo. destruct Heqo as [[-> _]|[Hk ->]].
      * eapply V; [reflexivity|reflexivity|auto|cbn; auto; discriminate].
      * fields. apply upd_inv in E. destruct E as [[-> ->]|[Hne E]]; [discriminate|].
        destruct (IW _ _ E Hs) as [Q|[i1 [w1 [G1 G2]]]]; auto. right. exists i1, w1. rewrite upd_get_other; auto. intros ->.
        rewrite G1 in Hk; inversion Hk; subst; discriminate.
    + (* SPred, queue nonempty *) left. fields. congruence.
    + (* SCheck, flag true *) right. fields.
      destruct (nth_error (ws s) k0) as [w|] eqn:Ew.
      * pose proof (proj2 (p_flags _ PI) _ _ _ Ew Heqo) as Hb. exists k0, w. split; auto. destruct w; cbn in *; auto; discriminate.
      * exfalso. apply nth_error_None in Ew. assert (k0 < length (flags s)) by (apply nth_error_Some; congruence).
        destruct (p_flags _ PI). lia.
    + (* notify_all *) fields. apply upd_inv in E. destruct E as [[-> ->]|[Hne E]]; [discriminate|].
      destruct (IW _ _ E Hs) as [Q|[i1 [w1 [G1 G2]]]]; auto. right. exists i1, w1. rewrite nth_error_map, G1. split; auto.
      destruct w1; auto; discriminate.
  - unfold pstep in H. repeat dmatch H; inversion H; subst; clear H. fields.
    apply upd_inv in E. destruct E as [[-> ->]|[Hne E]]; [discriminate|]. apply (IW _ _ E Hs).
Qed.

Lemma sw_reach : forall n m s, preach1 n m s -> inv_one s /\ inv_syncf s /\ inv_sw s.
Proof.
  induction 1 as [|s a s' R [I1 [I2 I3]] OS E].
  - split; [|split].
    + intros j k c d E1 _ S1 _. cbn in E1. apply repeat_nth in E1. subst; discriminate.
    + intros j c E A. cbn in E. apply repeat_nth in E. subst; discriminate.
    + intros _ j c E A. cbn in E. apply repeat_nth in E. subst; discriminate.
  - pose proof (preach1_reach _ _ _ R) as R'. split; [eapply inv_one_step; eauto|]. split; [eapply inv_syncf_step; eauto|].
    eapply inv_sw_step; eauto.
    + eapply pinv_reach; eauto.
    + eapply owner_reach; eauto.
Qed.
