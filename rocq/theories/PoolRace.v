(* Property C223: data races of the thread pool and of the concurrent queue, over every schedule. *)
From Verif Require Import Base ThreadPoolModel ThreadPoolProofs ThreadPoolProofs2 ThreadPoolProps ConcQueueModel ConcQueueProps PoolRaceModel.

(* ---- specification ---- *)
(* two accesses conflict: same location, at least one writes, not both under the queue's own mutex *)
Definition conflict (x y : access) : Prop :=
  a_loc x = a_loc y /\ (a_write x = true \/ a_write y = true) /\ ~ (a_queue_mutex x = true /\ a_queue_mutex y = true).
(* a data race: two different threads can both take their next step, and the two steps conflict *)
Definition data_race (s : pool) (a b : action) (l : loc) : Prop :=
  actor a <> actor b /\ pstep a s <> None /\ pstep b s <> None /\
  exists x y, In x (accs a s) /\ In y (accs b s) /\ conflict x y /\ a_loc x = l.
(* the four racing pairs of statements *)
Inductive racing_pair (s : pool) : action -> action -> loc -> Prop :=
| race_kill : forall i j k k' c o, nth_error (ws s) i = Some (WKill o) -> nth_error (cs s) j = Some KSet ->
    racing_pair s (AW i k) (AC j c k') LKill                   (* 43 against 104 *)
| race_sync : forall i j k k' c b, nth_error (ws s) i = Some WSyncChk -> nth_error (cs s) j = Some (SSet b) ->
    racing_pair s (AW i k) (AC j c k') LSync                   (* 47 against 93 *)
| race_state : forall i j k k' c w b D m, nth_error (ws s) i = Some w -> (w = WIdle \/ exists t, w = WBusy t) ->
    nth_error (cs s) j = Some (SCheck b i D m) ->
    racing_pair s (AW i k) (AC j c k') (LState i)              (* 44, 46 against 96 *)
| race_pop : forall i j k k' c b, nth_error (ws s) i = Some WPred -> kill s = false -> nth_error (cs s) j = Some (SPred b) ->
    racing_pair s (AW i k) (AC j c k') LQueue                  (* the pop of 39 against the empty() of 95 *)
| race_push : forall i j k k' c t b, nth_error (cs s) i = Some CIdle -> nth_error (cs s) j = Some (SPred b) ->
    racing_pair s (AC i (Send t) k) (AC j c k') LQueue.        (* the push of 83 against the empty() of 95 *)

(* every data race of every execution is one of these five kinds *)
Theorem C223_races_partial : forall n m s a b l, preach n m s -> data_race s a b l ->
  racing_pair s a b l \/ racing_pair s b a l.
Proof.
  intros n m s a b l R [NE [Ea [Eb [x [y [Ix [Iy [[L [W G]] Lx]]]]]]]].
  destruct (p_mtx _ (pinv_reach _ _ _ R)) as [Mw Mc]. destruct (owner_reach _ _ _ R) as [[Sw Sc] _].
  destruct a as [i k|i|j ca k|j]; cbn [accs] in Ix; try contradiction;
  destruct b as [i' k'|i'|j' ca' k'|j']; cbn [accs] in Iy; try contradiction; cbn [actor] in NE.
  - destruct (nth_error (ws s) i) as [w|] eqn:E1; [|contradiction]. destruct (nth_error (ws s) i') as [w'|] eqn:E2; [|contradiction].
    exfalso.
    destruct w; cbn [wacc] in Ix; try contradiction; destruct w'; cbn [wacc] in Iy; try contradiction; destruct (kill s); cbn [In] in Ix, Iy;
      repeat match goal with H : _ \/ _ |- _ => destruct H end; try contradiction; subst x y; cbn [a_loc a_write a_queue_mutex] in *; try discriminate; try (apply G; auto; fail);
      try (inversion L; subst; congruence).
  - destruct (nth_error (ws s) i) as [w|] eqn:E1; [|contradiction]. destruct (nth_error (cs s) j') as [c|] eqn:E2; [|contradiction]. left.
    pose proof (Mw _ _ E1) as M1. pose proof (Mc _ _ E2) as M2.
    destruct w; cbn [wacc] in Ix; try contradiction; destruct c; cbn [cacc] in Iy; try contradiction;
      try (destruct ca'; cbn [In] in Iy; try contradiction);
      try (destruct (Nat.ltb k0 (length (flags s))) in Iy; cbn [In] in Iy; try contradiction);
      destruct (kill s) eqn:K; cbn [In] in Ix, Iy;
      repeat match goal with H : In _ _ |- _ => cbn [In] in H | H : _ \/ False |- _ => destruct H; [|contradiction] | H : _ = x \/ _ |- _ => destruct H end; try contradiction;
      subst x y; cbn [a_loc a_write a_queue_mutex holdW holdC] in *; try discriminate; subst l;
      try (exfalso; apply G; auto; fail); try (destruct W; discriminate);
      try (rewrite (M1 eq_refl) in M2; specialize (M2 eq_refl); discriminate);
      try (inversion L; subst); try (econstructor; eauto; fail).
  - destruct (nth_error (cs s) j) as [c|] eqn:E2; [|contradiction]. destruct (nth_error (ws s) i') as [w|] eqn:E1; [|contradiction]. right.
    pose proof (Mw _ _ E1) as M1. pose proof (Mc _ _ E2) as M2.
    destruct w; cbn [wacc] in Iy; try contradiction; destruct c; cbn [cacc] in Ix; try contradiction;
      try (destruct ca; cbn [In] in Ix; try contradiction);
      try (destruct (Nat.ltb k0 (length (flags s))) in Ix; cbn [In] in Ix; try contradiction);
      destruct (kill s) eqn:K; cbn [In] in Ix, Iy;
      repeat match goal with H : In _ _ |- _ => cbn [In] in H | H : _ \/ False |- _ => destruct H; [|contradiction] | H : _ = y \/ _ |- _ => destruct H end; try contradiction;
      subst x y; cbn [a_loc a_write a_queue_mutex holdW holdC] in *; try discriminate; subst l;
      try (exfalso; apply G; auto; fail); try (destruct W; discriminate);
      try (rewrite (M1 eq_refl) in M2; specialize (M2 eq_refl); discriminate);
      try (inversion L; subst); try (econstructor; eauto; fail).
  - destruct (nth_error (cs s) j) as [c|] eqn:E1; [|contradiction]. destruct (nth_error (cs s) j') as [c'|] eqn:E2; [|contradiction].
    pose proof (Mc _ _ E1) as M1. pose proof (Mc _ _ E2) as M2. pose proof (Sc _ _ E1) as S1. pose proof (Sc _ _ E2) as S2.
    destruct c; cbn [cacc] in Ix; try contradiction; destruct c'; cbn [cacc] in Iy; try contradiction;
      try (destruct ca; cbn [In] in Ix; try contradiction); try (destruct ca'; cbn [In] in Iy; try contradiction);
      repeat match goal with H : In _ (if ?t then _ else _) |- _ => destruct t; cbn [In] in H; try contradiction end;
      cbn [In] in Ix, Iy;
      repeat match goal with H : In _ _ |- _ => cbn [In] in H | H : _ \/ False |- _ => destruct H; [|contradiction] end;
      subst x y; cbn [a_loc a_write a_queue_mutex holdC sholdC] in *; try discriminate; subst l;
      try (exfalso; apply G; auto; fail); try (destruct W; discriminate);
      try (exfalso; rewrite (M1 eq_refl) in M2; specialize (M2 eq_refl); congruence);
      try (exfalso; rewrite (S1 eq_refl) in S2; specialize (S2 eq_refl); congruence);
      try (left; econstructor; eauto; fail); try (right; econstructor; eauto; fail).
Qed.
Print Assumptions C223_races_partial.

(* so a pool whose clients only submit tasks has no data race *)
Definition only_sends (a : action) : Prop := forall j c k, a = AC j c k -> exists t, c = Send t.
Inductive sreach (n m : nat) : pool -> Prop :=
| sreach0 : sreach n m (pool_init n m)
| sreachS : forall s a s', sreach n m s -> only_sends a -> pstep a s = Some s' -> sreach n m s'.
Lemma sreach_preach : forall n m s, sreach n m s -> preach n m s.
Proof. induction 1; econstructor; eauto. Qed.
Lemma sreach_clients : forall n m s, sreach n m s -> forall j c, nth_error (cs s) j = Some c -> c = CIdle \/ c = CNLock \/ c = CNotify \/ c = CNUnlock.
Proof.
  induction 1 as [|s a s' R IH O H]; intros j c E; [cbn in E; apply repeat_nth in E; auto|].
  assert (O': forall j c k, a = AC j c k -> c <> Sync /\ c <> Shutdown) by (intros j0 c0 k0 E0; destruct (O _ _ _ E0) as [t ->]; split; discriminate).
  clear O. destruct a; [| |destruct (O' _ _ _ eq_refl)|]; step_cases H; fields; use_upd; auto; try congruence; eauto.
  all: try (match goal with Hq : nth_error (cs _) _ = Some _ |- _ => destruct (IH _ _ Hq) as [?|[?|[?|?]]]; try discriminate; eauto end; fail).
Qed.
Theorem C223_no_race_without_sync_or_shutdown : forall n m s a b l, sreach n m s -> ~ data_race s a b l.
Proof.
  intros n m s a b l R D. pose proof (sreach_clients _ _ _ R) as C.
  destruct (C223_races_partial _ _ _ _ _ _ (sreach_preach _ _ _ R) D) as [P|P]; inversion P; subst;
    match goal with H : nth_error (cs s) _ = Some ?c |- _ => destruct (C _ _ H) as [X|[X|[X|X]]]; discriminate X end
    || (match goal with H : nth_error (cs s) _ = Some (SPred _) |- _ => destruct (C _ _ H) as [X|[X|[X|X]]]; discriminate X end).
Qed.
Print Assumptions C223_no_race_without_sync_or_shutdown.

(* all five races happen, in a pool with one worker and two clients *)
Definition race_at (sch : list action) (a b : action) (l : loc) : Prop :=
  exists s, prun sch (pool_init 1 2) = Some s /\ data_race s a b l.
Ltac show_race := eexists; split; [vm_compute; reflexivity|]; split; [discriminate|]; split; [vm_compute; discriminate|]; split; [vm_compute; discriminate|];
  eexists; eexists; split; [vm_compute; eauto|]; split; [vm_compute; eauto|]; split; [split; [reflexivity|]; split; [vm_compute; auto|intros [A B]; discriminate]|reflexivity].
Definition send_all : list action := [AC 0 (Send 7) 0; AC 0 Sync 0; AC 0 Sync 0; AC 0 Sync 0].
Definition to_kill : list action := [AW 0 0; AW 0 0; AW 0 0].
Theorem C223_refuted :
  (* if(kill_) of a worker against kill_ = true of shutdown() *)
  race_at (send_all ++ to_kill ++ [AC 1 Shutdown 0; AC 1 Sync 0]) (AW 0 0) (AC 1 Sync 0) LKill /\
  (* if(sync_) of a worker against sync_ = true of sync() *)
  race_at (send_all ++ to_kill ++ [AW 0 0; AW 0 0; AW 0 0; AW 0 0; AW 0 0; AC 1 Sync 0; AC 1 Sync 0]) (AW 0 0) (AC 1 Sync 0) LSync /\
  (* state_[i] = BUSY of a worker against the all_of of sync() *)
  race_at (send_all ++ to_kill ++ [AW 0 0; AC 1 Sync 0; AC 1 Sync 0; AC 1 Sync 0; AC 1 Sync 0]) (AW 0 0) (AC 1 Sync 0) (LState 0) /\
  (* task_queue_.pop of a worker against task_queue_.empty() of sync() *)
  race_at (send_all ++ [AW 0 0; AC 1 Sync 0; AC 1 Sync 0; AC 1 Sync 0]) (AW 0 0) (AC 1 Sync 0) LQueue /\
  (* task_queue_.push of send_async against task_queue_.empty() of sync() *)
  race_at [AC 1 Sync 0; AC 1 Sync 0; AC 1 Sync 0] (AC 0 (Send 7) 0) (AC 1 Sync 0) LQueue.
Proof. repeat split; show_race. Qed.
Print Assumptions C223_refuted.

(* ---- the queue alone ---- *)
(* two different threads are about to touch the container, and one of them may modify it *)
Definition queue_race {V} (x : xqueue V) (i j : nat) : Prop :=
  i <> j /\ exists p q, touches x i = Some p /\ touches x j = Some q /\ (p = true \/ q = true).
Lemma xreach_qreach : forall V (l : list V) x, xreach l x -> qreach l (xq x).
Proof.
  intros V l x R. induction R as [|x a x' R IH E]; [constructor|]. destruct a; cbn [xstep] in E.
  - destruct (reading x i); [discriminate|]. destruct (qstep i o (xq x)) eqn:Q; [|discriminate]. inversion E; subst. cbn. econstructor; eauto.
  - destruct (pcs (xq x) i); try discriminate. destruct (reading x i); [discriminate|]. inversion E; subst. auto.
  - destruct (reading x i); [|discriminate]. inversion E; subst. auto.
Qed.
(* push, emplace, pop and clear never race with each other: in a race one side is size() or empty(), the other modifies the queue *)
Theorem C223_queue_partial : forall V (l : list V) x i j, xreach l x -> queue_race x i j ->
  (reading x i = true /\ reading x j = false) \/ (reading x i = false /\ reading x j = true).
Proof.
  intros V l x i j R [NE [p [q [Ti [Tj W]]]]]. pose proof (xreach_qreach _ _ _ R) as Q. unfold touches in Ti, Tj.
  destruct (reading x i) eqn:Ri, (reading x j) eqn:Rj; auto; exfalso.
  - inversion Ti; inversion Tj; subst. destruct W; discriminate.
  - apply NE. apply (queue_mutual_exclusion _ _ _ _ _ Q).
    + destruct (pcs (xq x) i); try discriminate; reflexivity.
    + destruct (pcs (xq x) j); try discriminate; reflexivity.
Qed.
Print Assumptions C223_queue_partial.
Fixpoint xrun {V} (l : list (xact V)) (x : xqueue V) : option (xqueue V) :=
  match l with [] => Some x | a :: t => match xstep a x with Some x' => xrun t x' | None => None end end.
Lemma xrun_reach : forall V (q : list V) l x x', xreach q x -> xrun l x = Some x' -> xreach q x'.
Proof.
  intros V q; induction l as [|a l IH]; intros x x' R E; cbn [xrun] in E; [inversion E; subst; auto|].
  destruct (xstep a x) eqn:Es; [|discriminate]. eapply IH; [|exact E]. econstructor; eauto.
Qed.
(* "can be queried by any thread": size() while another thread pushes, or pops, is a race *)
Theorem C223_queue_refuted :
  (exists x, xreach ([] : list nat) x /\ queue_race x 0 1 /\ pcs (xq x) 0 = PIn (OPush 7)) /\
  (exists x, xreach [5] x /\ queue_race x 0 1 /\ pcs (xq x) 0 = PFront 5).
Proof.
  split.
  - destruct (xrun [XOp 0 (OPush 7); XOp 0 OPop; XCall 1] (mkxq (initial []) (fun _ => false) [])) as [x|] eqn:E; [|vm_compute in E; discriminate].
    exists x. split; [eapply xrun_reach; [constructor|exact E]|]. vm_compute in E. inversion E; subst. split; [|reflexivity].
    split; [lia|]. exists true, false. repeat split; auto.
  - destruct (xrun [XOp 0 (@OPop nat); XOp 0 OPop; XOp 0 OPop; XCall 1] (mkxq (initial [5]) (fun _ => false) [])) as [x|] eqn:E; [|vm_compute in E; discriminate].
    exists x. split; [eapply xrun_reach; [constructor|exact E]|]. vm_compute in E. inversion E; subst. split; [|reflexivity].
    split; [lia|]. exists true, false. repeat split; auto.
Qed.
Print Assumptions C223_queue_refuted.

(* the race-free case is not empty: a reachable state of a pool fed by two clients with a task running *)
Example C223_sends : exists s, sreach 1 2 s /\ started s = [7] /\ queue s = [8].
Proof.
  assert (G: forall l s s', sreach 1 2 s -> Forall (fun a => only_sends a) l -> prun l s = Some s' -> sreach 1 2 s').
  { induction l as [|a l IH]; intros s s' R F E; cbn [prun] in E; [inversion E; subst; auto|].
    destruct (pstep a s) eqn:Es; [|discriminate]. inversion F; subst. eapply IH; [|eassumption|exact E]. econstructor; eauto. }
  destruct (prun [AC 0 (Send 7) 0; AC 1 (Send 8) 0; AC 0 (Send 9) 0; AC 0 (Send 9) 0; AC 0 (Send 9) 0; AW 0 0; AW 0 0; AW 0 0; AW 0 0; AW 0 0; AW 0 0] (pool_init 1 2)) as [s|] eqn:E; [|vm_compute in E; discriminate].
  exists s. split; [|vm_compute in E; inversion E; subst; auto].
  eapply G; [constructor| |exact E]. repeat constructor; intros j c k H; inversion H; eauto.
Qed.
