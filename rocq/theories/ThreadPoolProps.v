(* Properties C58-C60: the thread pool, for every schedule and any number of workers and clients. *)
From Verif Require Import Base ThreadPoolModel ThreadPoolProofs ThreadPoolProofs2.

Fixpoint prun (l : list action) (s : pool) : option pool :=
  match l with [] => Some s | a :: t => match pstep a s with Some s' => prun t s' | None => None end end.
Lemma prun_reach : forall n m l s s', preach n m s -> prun l s = Some s' -> preach n m s'.
Proof.
  intros n m; induction l as [|a l IH]; intros s s' R E; simpl in E; [inversion E; subst; auto|].
  destruct (pstep a s) eqn:Es; [|discriminate]. eapply IH; [|exact E]. econstructor; eauto.
Qed.

(* ---- C58 -------------------------------------------------------------------------------- *)
(* each submitted task is dequeued, started and finished at most once *)
Theorem pool_at_most_once : forall n m s, preach n m s ->
  NoDup (deq s) /\ NoDup (started s) /\ NoDup (finished s) /\
  incl (finished s) (started s) /\ incl (started s) (deq s) /\ incl (deq s) (sub s).
Proof.
  intros n m s R. pose proof (pinv_reach _ _ _ R) as PI. destruct (p_acc _ PI) as [A [B [C D]]].
  assert (ND: NoDup (deq s)). { rewrite A in B. apply NoDup_app_inv in B. tauto. }
  pose proof ND as ND'. rewrite (NoDup_count_occ Nat.eq_dec) in ND'. change (forall x, cnt (deq s) x <= 1) in ND'.
  split; [auto|]. split; [|split; [|split; [|split]]].
  - rewrite (NoDup_count_occ Nat.eq_dec). intros x. specialize (C x). specialize (ND' x). unfold cnt in *. lia.
  - rewrite (NoDup_count_occ Nat.eq_dec). intros x. specialize (C x). specialize (D x). specialize (ND' x). unfold cnt in *. lia.
  - intros x Hx. apply cnt_In in Hx. apply cnt_In. specialize (D x). lia.
  - intros x Hx. apply cnt_In in Hx. apply cnt_In. specialize (C x). lia.
  - rewrite A. intros x Hx. apply in_or_app; auto.
Qed.
Print Assumptions pool_at_most_once.

(* tasks leave the queue in the order they were submitted *)
Theorem pool_fifo : forall n m s, preach n m s -> sub s = deq s ++ queue s.
Proof. intros n m s R. apply (p_acc _ (pinv_reach _ _ _ R)). Qed.
Print Assumptions pool_fifo.

(* no lost wake-up: with a task queued, if every worker sleeps then some client still has its
   notification to deliver *)
Theorem pool_no_lost_wakeup : forall n m s, 0 < n -> preach n m s -> queue s <> [] ->
  (forall i w, nth_error (ws s) i = Some w -> w = WWait) ->
  exists j, nth_error (cs s) j = Some CNLock \/ nth_error (cs s) j = Some CNotify.
Proof.
  intros n m s Hn R Q AW. destruct (wake_reach _ _ _ Hn R Q) as [j [c [E Hc]]].
  - intros i w E. rewrite (AW _ _ E). reflexivity.
  - exists j. destruct c; try discriminate; auto.
Qed.
Print Assumptions pool_no_lost_wakeup.

(* while a task is queued and the pool is alive, something other than a new client call can happen *)
Theorem pool_no_deadlock : forall n m s, 0 < n -> preach n m s -> kill s = false -> queue s <> [] ->
  exists a s', internal s a /\ pstep a s = Some s'.
Proof. intros n m s. exact (no_deadlock n m s). Qed.
Print Assumptions pool_no_deadlock.

(* an empty std::function is never called *)
Theorem pool_never_calls_empty : forall n m s i, preach n m s -> nth_error (ws s) i <> Some WCrash.
Proof. intros n m s i R. apply (p_kill _ (pinv_reach _ _ _ R)). Qed.
Print Assumptions pool_never_calls_empty.

(* workers pop under mutex_: at most one thread is between lock and unlock *)
Theorem pool_mutual_exclusion : forall n m s i j v w, preach n m s ->
  nth_error (ws s) i = Some v -> nth_error (ws s) j = Some w -> holdW v = true -> holdW w = true -> i = j.
Proof.
  intros n m s i j v w R E1 E2 H1 H2. destruct (p_mtx _ (pinv_reach _ _ _ R)) as [A _].
  pose proof (A _ _ E1 H1). pose proof (A _ _ E2 H2). congruence.
Qed.
Print Assumptions pool_mutual_exclusion.

(* ---- C59 -------------------------------------------------------------------------------- *)
(* when sync() has returned, every task submitted before the call has finished, except those that
   were dropped by a shutdown and those in [missed]: popped by a worker which had not yet raised
   its busy flag when sync() read it *)
Theorem sync_waits_partial : forall n m s before missed t, preach n m s -> In (before, missed) (rets s) -> In t before ->
  In t (finished s) \/ In t (dropped s) \/ In t missed.
Proof. intros n m s before missed t R. apply (sync_reach _ _ _ R). Qed.
Print Assumptions sync_waits_partial.
Corollary sync_waits_no_window : forall n m s before t, preach n m s -> kill s = false -> In (before, []) (rets s) -> In t before ->
  In t (finished s).
Proof.
  intros n m s before t R K H Ht. destruct (sync_waits_partial _ _ _ _ _ _ R H Ht) as [X|[X|[]]]; auto.
  destruct (p_kill _ (pinv_reach _ _ _ R)) as [_ [_ [C _]]]. rewrite C in K; [discriminate|]. intros E; rewrite E in X; destruct X.
Qed.
Print Assumptions sync_waits_no_window.

(* one worker, one client: sync() returns while the only task has not even started *)
Definition sched_sync : list action :=
  [AC 0 (Send 7) 0; AC 0 Sync 0; AC 0 Sync 0; AC 0 Sync 0;     (* send_async completes *)
   AW 0 0; AW 0 0; AW 0 0;                                     (* worker pops the task *)
   AC 0 Sync 0; AC 0 Sync 0; AC 0 Sync 0; AC 0 Sync 0; AC 0 Sync 0; AC 0 Sync 0; AC 0 Sync 0].
Theorem sync_waits_refuted : exists s, preach 1 1 s /\ rets s = [([7], [7])] /\ started s = [] /\ finished s = [] /\ kill s = false.
Proof.
  destruct (prun sched_sync (pool_init 1 1)) as [s|] eqn:E; [|vm_compute in E; discriminate].
  exists s. split; [eapply prun_reach; [constructor|exact E]|]. vm_compute in E. inversion E; subst; auto.
Qed.
Print Assumptions sync_waits_refuted.

(* if at most one client synchronises at a time, sync() is not left asleep in a finished pool *)
Theorem sync_no_lost_wakeup_partial : forall n m s, preach1 n m s -> kill s = false -> queue s = [] ->
  (forall i w, nth_error (ws s) i = Some w -> w = WWait) -> forall j b, nth_error (cs s) j <> Some (SWait b).
Proof.
  intros n m s R K Q AW j b E. destruct (sw_reach _ _ _ R) as [_ [_ IW]].
  destruct (IW K _ _ E eq_refl) as [X|[i [w [E1 E2]]]]; [congruence|]. rewrite (AW _ _ E1) in E2; discriminate.
Qed.
Print Assumptions sync_no_lost_wakeup_partial.

(* with two synchronising clients the second one sleeps forever although all work is done: no
   worker or client inside an operation can move *)
Definition sched_two : list action :=
  [AC 0 (Send 7) 0; AC 0 Sync 0; AC 0 Sync 0; AC 0 Sync 0;
   AW 0 0; AW 0 0; AW 0 0; AW 0 0; AW 0 0; AW 0 0;                               (* task running *)
   AC 0 Sync 0; AC 0 Sync 0; AC 0 Sync 0; AC 0 Sync 0; AC 0 Sync 0; AC 0 Sync 0; (* client 0 waits *)
   AC 1 Sync 0; AC 1 Sync 0; AC 1 Sync 0; AC 1 Sync 0; AC 1 Sync 0; AC 1 Sync 0; (* client 1 waits *)
   AW 0 0; AW 0 0; AW 0 0; AW 0 0; AW 0 0; AW 0 0;                                (* finish, notify client 0 *)
   AC 0 Sync 0; AC 0 Sync 0; AC 0 Sync 0; AC 0 Sync 0; AC 0 Sync 0;              (* client 0 returns *)
   AW 0 0; AW 0 0; AW 0 0].                                                       (* worker waits *)
Theorem sync_two_clients_refuted : exists s, preach 1 2 s /\ queue s = [] /\ finished s = [7] /\ ws s = [WWait] /\
  cs s = [CIdle; SWait [7]] /\ (forall a s', internal s a -> pstep a s <> Some s').
Proof.
  destruct (prun sched_two (pool_init 1 2)) as [s|] eqn:E; [|vm_compute in E; discriminate].
  exists s. split; [eapply prun_reach; [constructor|exact E]|]. vm_compute in E. inversion E; subst; clear E.
  split; [reflexivity|]. split; [reflexivity|]. split; [reflexivity|]. split; [reflexivity|].
  intros [i k|i|j c k|j] s' HI HS; cbn in HI; try contradiction.
  - destruct i as [|[|i]]; cbn in HS; discriminate.
  - destruct HI as [c0 [E0 N0]]. destruct j as [|[|[|j]]]; cbn in E0, HS; try discriminate. congruence.
Qed.
Print Assumptions sync_two_clients_refuted.

(* ---- C60 -------------------------------------------------------------------------------- *)
(* accounting of every dequeued task; without shutdown none is dropped *)
Theorem shutdown_accounting_partial : forall n m s t, preach n m s -> In t (sub s) ->
  In t (queue s) \/ In t (started s) \/ In t (dropped s) \/ exists i w, nth_error (ws s) i = Some w /\ In t (hand w).
Proof.
  intros n m s t R Ht. destruct (p_acc _ (pinv_reach _ _ _ R)) as [A [B [C D]]]. rewrite A in Ht.
  apply in_app_or in Ht. destruct Ht as [Ht|Ht]; auto. right. apply cnt_In in Ht. specialize (C t).
  destruct (cnt (started s) t) eqn:E1; [|left; apply cnt_In; lia]. right.
  destruct (cnt (dropped s) t) eqn:E2; [|left; apply cnt_In; lia]. right.
  assert (Hx: 0 < cnt (flat_map hand (ws s)) t) by lia.
  apply cnt_In, in_flat_map in Hx. destruct Hx as [w [Hw Hi]]. apply In_nth_error in Hw. destruct Hw as [i Hi']. eauto.
Qed.
Print Assumptions shutdown_accounting_partial.
Theorem no_shutdown_no_drop : forall n m s, preach n m s -> kill s = false -> dropped s = [].
Proof.
  intros n m s R K. destruct (p_kill _ (pinv_reach _ _ _ R)) as [_ [_ [C _]]]. destruct (dropped s); auto.
  rewrite C in K; discriminate.
Qed.
Print Assumptions no_shutdown_no_drop.

(* one worker: the task popped just before kill_ is set is never executed *)
Definition sched_drop : list action :=
  [AC 0 (Send 7) 0; AC 0 Sync 0; AC 0 Sync 0; AC 0 Sync 0;
   AW 0 0; AW 0 0; AW 0 0;
   AC 0 Shutdown 0; AC 0 Sync 0; AC 0 Sync 0; AC 0 Sync 0;
   AW 0 0; AC 0 Sync 0; AC 0 Sync 0; AC 0 Sync 0].
Theorem shutdown_drops_refuted : exists s, preach 1 1 s /\ deq s = [7] /\ dropped s = [7] /\ started s = [] /\ joined s = true /\ ws s = [WExit].
Proof.
  destruct (prun sched_drop (pool_init 1 1)) as [s|] eqn:E; [|vm_compute in E; discriminate].
  exists s. split; [eapply prun_reach; [constructor|exact E]|]. vm_compute in E. inversion E; subst. repeat split.
Qed.
Print Assumptions shutdown_drops_refuted.

(* a second shutdown() calls join() on a joined thread and throws *)
Theorem shutdown_twice_refuted : exists s, preach 1 1 s /\ nth_error (cs s) 0 = Some CThrow.
Proof.
  destruct (prun (sched_drop ++ [AC 0 Shutdown 0; AC 0 Sync 0; AC 0 Sync 0; AC 0 Sync 0; AC 0 Sync 0; AC 0 Sync 0]) (pool_init 1 1)) as [s|] eqn:E; [|vm_compute in E; discriminate].
  exists s. split; [eapply prun_reach; [constructor|exact E]|]. vm_compute in E. inversion E; subst. reflexivity.
Qed.
Print Assumptions shutdown_twice_refuted.

(* a task that has started runs to its end before its worker exits *)
Theorem shutdown_finishes_started : forall n m s t, preach n m s -> (forall i w, nth_error (ws s) i = Some w -> w = WExit) ->
  In t (started s) -> In t (finished s).
Proof.
  intros n m s t R AE Ht. destruct (p_acc _ (pinv_reach _ _ _ R)) as [A [B [C D]]].
  apply cnt_In in Ht. apply cnt_In. specialize (D t).
  assert (E: flat_map running (ws s) = []).
  { clear - AE. induction (ws s) as [|w l IH]; auto. cbn. rewrite (AE 0 w eq_refl). cbn. apply IH. intros i v E. apply (AE (S i) v E). }
  rewrite E in D. cbn in D. lia.
Qed.
Print Assumptions shutdown_finishes_started.

(* shutdown() returns only after every worker has left its loop *)
Definition inv_joined (s : pool) : Prop :=
  (forall j k, nth_error (cs s) j = Some (KJoin k) -> forall i, i < k -> nth_error (ws s) i = Some WExit) /\
  (joined s = true -> forall i w, nth_error (ws s) i = Some w -> w = WExit).
Lemma exit_stays : forall a s s' i, pstep a s = Some s' -> nth_error (ws s) i = Some WExit -> nth_error (ws s') i = Some WExit.
Proof.
  intros a s s' i H E. destruct a; step_cases H; fields; auto;
    try (rewrite upd_get_other; [auto|intros ->; congruence]).
  rewrite nth_error_map, E. reflexivity.
Qed.
Lemma inv_joined_step : forall a s s', inv_joined s -> pstep a s = Some s' -> inv_joined s'.
Proof.
  intros a s s' [A B] H. pose proof (fun i => exit_stays a s s' i H) as X. pose proof (step_lengths _ _ _ H) as [L [_ _]].
  assert (B': joined s = true -> forall i w, nth_error (ws s') i = Some w -> w = WExit).
  { intros J i w E. assert (i < length (ws s)) by (rewrite <- L; apply nth_error_Some; congruence).
    destruct (nth_error (ws s) i) as [w0|] eqn:E0; [|apply nth_error_None in E0; lia].
    rewrite (B J _ _ E0) in E0. rewrite (X _ E0) in E. inversion E; auto. }
  split.
  - intros j0 k0 E i Hi. 
    assert (G: (exists k1, nth_error (cs s) j0 = Some (KJoin k1) /\ k0 <= k1) \/ (k0 = 0) \/
      (exists k1, k0 = S k1 /\ nth_error (cs s) j0 = Some (KJoin k1) /\ nth_error (ws s) k1 = Some WExit)).
    { destruct a; step_cases H; fields; use_upd; try discriminate; eauto;
      match goal with Z : KJoin _ = KJoin _ |- _ => inversion Z; subst; eauto end.
      right; right; eauto. }
    destruct G as [[k1 [G1 G2]]|[G|[k1 [G1 [G2 G3]]]]].
    + apply X. eapply A; eauto. lia.
    + lia.
    + apply X. destruct (Nat.eq_dec i k1) as [->|Hne]; auto. eapply A; eauto. lia.
  - intros J. destruct (joined s) eqn:J0; [apply B'; auto|].
    destruct a; step_cases H; fields; try congruence.
    intros i w Ei. apply nth_error_None in Heqo0. assert (i < length (ws s)) by (apply nth_error_Some; congruence).
    rewrite (A _ _ Heqo i) in Ei; [inversion Ei; auto|lia].
Qed.
Theorem shutdown_joins_all : forall n m s, preach n m s -> joined s = true -> forall i w, nth_error (ws s) i = Some w -> w = WExit.
Proof.
  intros n m s R. assert (IJ: inv_joined s); [|apply IJ].
  induction R as [|s a s' R IH E]; [|eapply inv_joined_step; eauto].
  split; cbn; [|discriminate]. intros j k H. apply repeat_nth in H. discriminate.
Qed.
Print Assumptions shutdown_joins_all.

(* a non-trivial execution: two workers, two clients, three tasks, all finished *)
Example pool_run : exists s, preach 2 1 s /\ sub s = [1; 2] /\ finished s = [2; 1].
Proof.
  destruct (prun [AC 0 (Send 1) 0; AC 0 Sync 0; AC 0 Sync 0; AC 0 Sync 0; AC 0 (Send 2) 0; AC 0 Sync 0; AC 0 Sync 0; AC 0 Sync 0;
     AW 0 0; AW 0 0; AW 0 0; AW 1 0; AW 1 0; AW 1 0; AW 0 0; AW 1 0; AW 0 0; AW 0 0; AW 1 0; AW 1 0; AW 1 0; AW 0 0] (pool_init 2 1)) as [s|] eqn:E;
    [|vm_compute in E; discriminate].
  exists s. split; [eapply prun_reach; [constructor|exact E]|]. vm_compute in E. inversion E; subst. split; reflexivity.
Qed.
