(* Liveness of the thread pool (C58, C59, C60): every operation in progress and every worker comes to
   rest after a bounded number of steps, and what holds when nothing can move any more.  Tasks are
   assumed to return (the step WRunning -> WIdle); the scheduler is arbitrary. *)
From Verif Require Import Base ThreadPoolModel ThreadPoolProofs ThreadPoolProofs2.

(* a run of workers and of clients inside an operation: no new operation, no spurious wake-up *)
Inductive irun : pool -> nat -> pool -> Prop :=
| irun0 : forall s, irun s 0 s
| irunS : forall s a s1 k s2, internal s a -> pstep a s = Some s1 -> irun s1 k s2 -> irun s (S k) s2.
(* nothing is left to run: a worker or a client inside an operation can make no step *)
Definition at_rest (s : pool) : Prop := forall a s', internal s a -> pstep a s <> Some s'.

(* ---- a measure that every step decreases ---- *)
Definition wrank (n : nat) (w : wpc) : nat :=
  match w with
  | WExit | WCrash | WWait => 0
  | WSleep => 1 | WKill None => 1 | WOut None => 2 | WPred => 3 | WStart | WWoken => 4
  | WSyncUnlock => 5 | WSyncNotify => n + 10 | WSyncLock => n + 11 | WSyncChk => n + 12 | WIdle => n + 13
  | WRunning _ => n + 14 | WCall _ => n + 15 | WBusy _ => n + 16 | WKill (Some _) => n + 17 | WOut (Some _) => n + 18
  end.
Definition crank (n : nat) (c : cpc) : nat :=
  match c with
  | CIdle | CThrow | SWait _ => 0
  | CNUnlock => 1 | CNotify => 6 | CNLock => 7
  | SRet _ _ _ | SSleep _ => 1 | SCheck _ k _ _ => n - k + 2 | SPred _ => n + 3 | SWoken _ | SSet _ => n + 4 | SLock _ => n + 5
  | KJoin k => n - k + 1 | KNotify => 5 * n + 2 | KUnlock => 5 * n + 3 | KSet => 5 * n + 4 | KLock => 5 * n + 5
  end.
Definition total {A} (f : A -> nat) (l : list A) : nat := list_sum (map f l).
Definition work (s : pool) : nat :=
  (length (ws s) + 19) * length (queue s) + total (wrank (length (ws s))) (ws s) + total (crank (length (ws s))) (cs s).

Lemma total_upd : forall A (f : A -> nat) l i w x, nth_error l i = Some w -> total f (upd l i x) + f w = total f l + f x.
Proof.
  intros A f l i w x H. destruct (upd_split _ _ _ _ H) as [l1 [l2 [E F]]]. unfold total. rewrite F, E, !map_app, !list_sum_app. cbn. lia.
Qed.
Lemma total_woken : forall n l, total (wrank n) (map (fun w => match w with WWait => WWoken | _ => w end) l) <= total (wrank n) l + 4 * length l.
Proof.
  intros n l. induction l as [|w l IH]; [cbn; lia|]. cbn [map length].
  assert (C: forall a t, total (wrank n) (a :: t) = wrank n a + total (wrank n) t) by reflexivity. rewrite !C.
  destruct w; cbn [wrank]; lia.
Qed.

Lemma work_decreases : forall n m s a s', preach n m s -> internal s a -> pstep a s = Some s' -> work s' < work s.
Proof.
  intros n m s a s' R I H. pose proof (step_lengths _ _ _ H) as [LW [_ _]].
  pose proof (pinv_reach _ _ _ R) as PI. destruct (p_flags _ PI) as [LF _].
  unfold work. rewrite LW. set (N := length (ws s)) in *.
  assert (UW: forall i w x, nth_error (ws s) i = Some w -> total (wrank N) (upd (ws s) i x) + wrank N w = total (wrank N) (ws s) + wrank N x)
    by (intros; apply total_upd; auto).
  assert (UC: forall i w x, nth_error (cs s) i = Some w -> total (crank N) (upd (cs s) i x) + crank N w = total (crank N) (cs s) + crank N x)
    by (intros; apply total_upd; auto).
  destruct a as [i k|i|j c k|j]; cbn [internal] in I; try contradiction.
  - step_cases H; fields;
    repeat match goal with E : nth_error (ws s) ?i = Some ?w |- context [upd (ws s) ?i ?w'] => pose proof (UW i w w' E); clear E
      | E : nth_error (cs s) ?i = Some ?w |- context [upd (cs s) ?i ?w'] => pose proof (UC i w w' E); clear E end;
    try match goal with E : queue s = _ |- _ => rewrite E in * end; cbn [length wrank crank] in *; try lia.
    all: repeat match goal with o : option task |- _ => destruct o; cbn [wrank] in * end; try lia.
  - destruct I as [c0 [E0 N0]]. unfold pstep in H. rewrite E0 in H. destruct c0; try congruence; cbn [cstep] in H;
    repeat dmatch H; inversion H; subst; clear H;
    try (match goal with N : notify_worker _ _ = Some _ |- _ => apply notify_worker_inv in N; destruct N as [[-> ?]|[? ->]] end); fields;
    repeat match goal with E : nth_error (ws s) ?i = Some ?w |- context [upd (ws s) ?i ?w'] => pose proof (UW i w w' E); clear E
      | E : nth_error (cs s) ?i = Some ?w |- context [upd (cs s) ?i ?w'] => pose proof (UC i w w' E); clear E end;
    try match goal with E : queue s = _ |- _ => rewrite E in * end; cbn [length wrank crank] in *; try lia.
    + assert (k0 < length (flags s)) by (apply nth_error_Some; congruence). lia.
    + pose proof (total_woken N (ws s)). fold N in H0. lia.
    + assert (k0 < N) by (apply nth_error_Some; congruence). lia.
Qed.

Lemma irun_reach : forall n m s k s', preach n m s -> irun s k s' -> preach n m s'.
Proof. intros n m s k s' R H. induction H; auto. apply IHirun. econstructor; eauto. Qed.
Lemma irun_bound : forall n m s k s', preach n m s -> irun s k s' -> k + work s' <= work s.
Proof.
  intros n m s k s' R H. induction H; [lia|]. pose proof (work_decreases _ _ _ _ _ R H H0).
  assert (preach n m s1) by (econstructor; eauto). specialize (IHirun H3). lia.
Qed.
(* C58, C60: whatever the scheduler does, the pool comes to rest after at most [work s] steps *)
Theorem pool_runs_are_bounded : forall n m s k s', preach n m s -> irun s k s' -> k <= work s.
Proof. intros n m s k s' R H. pose proof (irun_bound _ _ _ _ _ R H). lia. Qed.
Print Assumptions pool_runs_are_bounded.

(* ---- kill reaches every sleeping worker ---- *)
Definition waking (c : cpc) : bool := match c with KUnlock | KNotify => true | _ => false end.
Definition inv_killed (s : pool) : Prop :=
  kill s = true -> (exists j c, nth_error (cs s) j = Some c /\ waking c = true) \/ forall i, nth_error (ws s) i <> Some WWait.
Lemma inv_killed_step : forall a s s', inv_kill s -> inv_killed s -> pstep a s = Some s' -> inv_killed s'.
Proof.
  intros a s s' IK IH H K.
  destruct (kill s) eqn:K0.
  - specialize (IH K0). destruct IH as [[j0 [c0 [E0 H0]]]|IH].
    + assert (KEEP: forall l c, cs s' = upd (cs s) l c -> nth_error (cs s) l <> Some c0 -> exists j c, nth_error (cs s') j = Some c /\ waking c = true).
      { intros l c EC NE. exists j0, c0. split; auto. rewrite EC, upd_get_other; auto. intros ->; auto. }
      assert (SAME: cs s' = cs s -> exists j c, nth_error (cs s') j = Some c /\ waking c = true).
      { intros EC. exists j0, c0. rewrite EC; auto. }
      destruct a; step_cases H; fields;
        try (left; apply SAME; reflexivity);
        try (left; eapply KEEP; [reflexivity|]; match goal with Z : nth_error (cs s) _ = Some _ |- _ => rewrite Z end; intros X; inversion X; subst; discriminate).
      * left. exists j, KNotify. split; [eapply upd_get_same; eauto|reflexivity].
      * right. intros i Hi. apply map_woken in Hi. destruct Hi as [w0 [_ Hw]]. destruct w0; discriminate.
    + right. intros i Hi. destruct IK as [_ [_ [_ [KD _]]]]. specialize (KD K0).
      destruct a; step_cases H; fields; use_map; use_upd; try discriminate; try congruence; try (eapply IH; eauto; fail).
      all: try (eapply KD; eauto; fail).
      all: try (destruct x; try discriminate; fail).
  - left. destruct a; step_cases H; fields; try congruence.
    exists j, KUnlock. split; [eapply upd_get_same; eauto|reflexivity].
Qed.
Lemma killed_reach : forall n m s, preach n m s -> inv_killed s.
Proof.
  induction 1; [intros K; discriminate|]. eapply inv_killed_step; eauto. apply (p_kill _ (pinv_reach _ _ _ H)).
Qed.

(* ---- the pool at rest ---- *)
Lemma rest_move : forall s, at_rest s -> can_move s -> False.
Proof. intros s H [a [s' [I E]]]. exact (H a s' I E). Qed.
Lemma rest_workers : forall n m s i w, preach n m s -> at_rest s -> nth_error (ws s) i = Some w -> w = WWait \/ w = WExit.
Proof.
  intros n m s i w R H E. destruct (owner_reach _ _ _ R) as [_ IO]. pose proof (p_kill _ (pinv_reach _ _ _ R)) as [_ [KB _]].
  destruct w; auto; try (exfalso; eapply rest_move; eauto; eapply worker_move; eauto; discriminate).
  exfalso. eapply KB; eauto.
Qed.
Lemma rest_clients : forall n m s j c, preach n m s -> at_rest s -> nth_error (cs s) j = Some c ->
  match c with CIdle | CThrow | SWait _ | KJoin _ => True | _ => False end.
Proof.
  intros n m s j c R H E. destruct (owner_reach _ _ _ R) as [_ IO].
  destruct (mtx s) as [o|] eqn:Em; [exfalso; eapply rest_move; eauto; apply mtx_move; auto; congruence|].
  destruct (smtx s) as [o|] eqn:Es; [exfalso; eapply rest_move; eauto; apply smtx_move; auto; congruence|].
  destruct c; auto; eapply rest_move; eauto; (eapply move_c; [exact E|discriminate|]); cbn [cstep]; rewrite ?Em, ?Es; try (exists 0; eauto; fail).
  - destruct (notify_worker_some s) as [k [s' Hk]]. exists k. rewrite Hk; eauto.
  - exists 0. destruct (queue s); eauto.
  - exists 0. destruct (nth_error (flags s) k) as [[]|]; eauto. destruct (nth_error (ws s) k); eauto.
Qed.

(* C58: a pool with at least one worker and not shut down executes every task submitted to it *)
Theorem pool_executes_all : forall n m s, 0 < n -> preach n m s -> kill s = false -> at_rest s ->
  (forall t, In t (sub s) -> In t (finished s)) /\ (forall i w, nth_error (ws s) i = Some w -> w = WWait) /\
  (forall j c, nth_error (cs s) j = Some c -> c = CIdle \/ exists b, c = SWait b).
Proof.
  intros n m s Hn R K H. pose proof (pinv_reach _ _ _ R) as PI.
  assert (Q: queue s = []). { destruct (queue s) eqn:Q; auto. exfalso. eapply rest_move; eauto. eapply no_deadlock; eauto. congruence. }
  assert (W: forall i w, nth_error (ws s) i = Some w -> w = WWait).
  { intros i w E. destruct (rest_workers _ _ _ _ _ R H E) as [X|X]; auto. subst. rewrite (exit_reach _ _ _ R _ E) in K. discriminate. }
  split; [|split; [exact W|]].
  - intros t Ht. destruct (p_acc _ PI) as [A [B [C D]]]. rewrite Q, app_nil_r in A. rewrite A in Ht. apply cnt_In in Ht.
    assert (Z: forall f : wpc -> list task, f WWait = [] -> flat_map f (ws s) = []).
    { intros f F. clear - F W. induction (ws s) as [|w l IH]; auto. cbn. rewrite (W 0 w eq_refl), F. cbn. apply IH. intros i v E. apply (W (S i) v E). }
    assert (DR: dropped s = []). { destruct (p_kill _ PI) as [_ [_ [KC _]]]. destruct (dropped s); auto. rewrite KC in K; discriminate. }
    apply cnt_In. specialize (C t). specialize (D t). rewrite DR, !Z in * by reflexivity. cbn in *. lia.
  - intros j c E. pose proof (rest_clients _ _ _ _ _ R H E) as X. destruct c; try contradiction; eauto.
    + destruct (p_kill _ PI) as [_ [_ [_ [_ [KE _]]]]]. rewrite (KE _ _ E eq_refl) in K. discriminate.
    + exfalso. clear - R E K. assert (G: forall s, preach n m s -> forall j, nth_error (cs s) j = Some CThrow -> kill s = true).
      { clear. induction 1 as [|s a s' R IH H]; intros j E; [cbn in E; apply repeat_nth in E; discriminate|].
        destruct (kill s) eqn:K0; [eapply kill_mono; eauto|].
        pose proof (p_kill _ (pinv_reach _ _ _ R)) as [_ [_ [_ [_ [KE _]]]]].
        destruct a; step_cases H; fields; use_upd; try discriminate; try (rewrite <- (IH _ ltac:(eassumption)); auto; fail); try congruence.
        all: try (rewrite (IH _ ltac:(eassumption)) in K0; discriminate).
        all: try (match goal with Hq : nth_error (cs _) _ = Some (KJoin _) |- _ => rewrite (KE _ _ Hq eq_refl) in K0; discriminate end). }
      rewrite (G s R j E) in K. discriminate.
Qed.
Print Assumptions pool_executes_all.

(* C60: once kill_ is set every worker leaves its loop and no shutdown() call is left waiting *)
Theorem shutdown_terminates : forall n m s, preach n m s -> kill s = true -> at_rest s ->
  (forall i w, nth_error (ws s) i = Some w -> w = WExit) /\
  (forall j c, nth_error (cs s) j = Some c -> c = CIdle \/ c = CThrow \/ exists b, c = SWait b).
Proof.
  intros n m s R K H.
  assert (W: forall i w, nth_error (ws s) i = Some w -> w = WExit).
  { intros i w E. destruct (rest_workers _ _ _ _ _ R H E) as [X|X]; auto. subst.
    destruct (killed_reach _ _ _ R K) as [[j [c [Ej Hc]]]|X]; [|exfalso; eapply X; eauto].
    pose proof (rest_clients _ _ _ _ _ R H Ej) as Y. destruct c; try discriminate; contradiction. }
  split; [exact W|]. intros j c E. pose proof (rest_clients _ _ _ _ _ R H E) as X. destruct c; try contradiction; eauto.
  exfalso. eapply rest_move; eauto. eapply move_c; [exact E|discriminate|]. cbn [cstep]. exists 0.
  destruct (joined s); eauto. destruct (nth_error (ws s) k) as [w|] eqn:Ek; eauto. rewrite (W _ _ Ek). eauto.
Qed.
Print Assumptions shutdown_terminates.

(* C59: if at most one client synchronises at a time, sync() returns *)
Theorem sync_returns_partial : forall n m s, 0 < n -> preach1 n m s -> kill s = false -> at_rest s ->
  forall j c, nth_error (cs s) j = Some c -> c = CIdle.
Proof.
  intros n m s Hn R1 K H j c E. assert (R: preach n m s) by (apply preach1_reach; auto).
  destruct (pool_executes_all n m s Hn R K H) as [A [B C]]. destruct (C _ _ E) as [X|[b X]]; auto. subst. exfalso.
  destruct (sw_reach _ _ _ R1) as [_ [_ IW]].
  assert (Q: queue s = []). { destruct (queue s) eqn:Q; auto. exfalso. eapply rest_move; eauto. eapply no_deadlock; eauto. congruence. }
  destruct (IW K _ _ E eq_refl) as [X|[i [w [E1 E2]]]]; [congruence|]. rewrite (B _ _ E1) in E2; discriminate.
Qed.
Print Assumptions sync_returns_partial.

(* two workers, two clients; two tasks sent and waited for, then the pool rests; then it is shut down *)
Fixpoint prun' (l : list action) (s : pool) : option pool :=
  match l with [] => Some s | a :: l' => match pstep a s with Some s' => prun' l' s' | None => None end end.
Lemma prun'_reach : forall n m l s s', preach n m s -> prun' l s = Some s' -> preach n m s'.
Proof.
  induction l as [|a l IH]; cbn; intros s s' R E; [inversion E; subst; auto|].
  destruct (pstep a s) eqn:P; [|discriminate]. eapply IH; [|exact E]. econstructor; eauto.
Qed.
Definition sched_rest : list action :=
  [AC 0 (Send 1) 0; AC 0 Sync 0; AC 0 Sync 0; AC 0 Sync 0; AC 1 (Send 2) 0; AC 1 Sync 0; AC 1 Sync 0; AC 1 Sync 0;
   AW 0 0; AW 0 0; AW 0 0; AW 1 0; AW 1 0; AW 1 0; AW 0 0; AW 1 0; AW 0 0; AW 0 0; AW 1 0; AW 1 0; AW 1 0; AW 0 0;
   AW 0 0; AW 0 0; AW 1 0; AW 1 0; AW 0 0; AW 0 0; AW 0 0; AW 1 0; AW 1 0; AW 1 0].
Example pool_rest_case : exists s, preach 2 2 s /\ sub s = [1; 2] /\ finished s = [2; 1] /\ ws s = [WWait; WWait] /\ at_rest s /\ 0 < work (pool_init 2 2).
Proof.
  destruct (prun' sched_rest (pool_init 2 2)) as [s|] eqn:E; [|vm_compute in E; discriminate].
  exists s. split; [eapply prun'_reach; [constructor|exact E]|]. vm_compute in E. inversion E; subst; clear E.
  split; [reflexivity|]. split; [reflexivity|]. split; [reflexivity|]. split; [|vm_compute; lia].
  intros [i k|i|j c k|j] s' HI HS; cbn in HI; try contradiction.
  - destruct i as [|[|[|i]]]; cbn in HS; discriminate.
  - destruct HI as [c0 [E0 N0]]. destruct j as [|[|[|j]]]; cbn in E0; try discriminate; congruence.
Qed.
Definition sched_off : list action :=
  sched_rest ++ [AC 1 Shutdown 0; AC 1 Sync 0; AC 1 Sync 0; AC 1 Sync 0; AC 1 Sync 0;
   AW 0 0; AW 0 0; AW 0 0; AW 0 0; AW 1 0; AW 1 0; AW 1 0; AW 1 0; AC 1 Sync 0; AC 1 Sync 0; AC 1 Sync 0].
Example pool_off_case : exists s, preach 2 2 s /\ kill s = true /\ ws s = [WExit; WExit] /\ cs s = [CIdle; CIdle] /\ at_rest s.
Proof.
  destruct (prun' sched_off (pool_init 2 2)) as [s|] eqn:E; [|vm_compute in E; discriminate].
  exists s. split; [eapply prun'_reach; [constructor|exact E]|]. vm_compute in E. inversion E; subst; clear E.
  split; [reflexivity|]. split; [reflexivity|]. split; [reflexivity|].
  intros [i k|i|j c k|j] s' HI HS; cbn in HI; try contradiction.
  - destruct i as [|[|[|i]]]; cbn in HS; discriminate.
  - destruct HI as [c0 [E0 N0]]. destruct j as [|[|[|j]]]; cbn in E0; try discriminate; congruence.
Qed.
(* C125: sync() returns when one client synchronises at a time *)
Corollary sync_returns_single_client : forall n m s, 0 < n -> preach1 n m s -> kill s = false -> at_rest s ->
  forall j c, nth_error (cs s) j = Some c -> c = CIdle.
Proof. exact sync_returns_partial. Qed.
