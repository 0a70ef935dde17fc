(* Property C224: what the future returned by send_async yields, for every schedule. *)
From Verif Require Import Base ThreadPoolModel ThreadPoolProofs ThreadPoolProofs2 ThreadPoolProps ThreadPoolLive PoolFutureModel.

Section C224.
Context {V E M A : Type}.
Implicit Types s : fpool V E M A.

(* ---- what one step of the pool does to the histories ---- *)
Lemma step_fields : forall a (p p' : pool), pstep a p = Some p' ->
  sub p' = sub p ++ match a with AC j (Send t) _ => match nth_error (cs p) j with Some CIdle => [t] | _ => [] end | _ => [] end /\
  finished p' = finished p ++ match a with AW i _ => match nth_error (ws p) i with Some (WRunning t) => [t] | _ => [] end | _ => [] end /\
  dropped p' = dropped p ++ match a with AW i _ => match nth_error (ws p) i with Some (WKill (Some t)) => if kill p then [t] else [] | _ => [] end | _ => [] end.
Proof.
  intros a p p' H.
  destruct a as [i k|i|j call k|j]; cbn [pstep] in H.
  - destruct (nth_error (ws p) i) as [w|] eqn:Ew; [|discriminate].
    destruct w; cbn [wstep] in H; repeat dmatch H; inversion H; subst; clear H;
      repeat match goal with N : notify_client _ _ = Some _ |- _ => apply notify_client_inv in N; destruct N as [[-> ?]|[? [? ->]]] end;
      fields; rewrite ?app_nil_r; auto.
    all: destruct o; auto; rewrite ?app_nil_r; auto.
  - destruct (nth_error (ws p) i) as [w|] eqn:Ew; [|discriminate]. destruct w; inversion H; subst. fields; rewrite ?app_nil_r; auto.
  - destruct (nth_error (cs p) j) as [c|] eqn:Ec; [|discriminate].
    destruct c; cbn [cstep] in H; repeat dmatch H; inversion H; subst; clear H;
      repeat match goal with N : notify_worker _ _ = Some _ |- _ => apply notify_worker_inv in N; destruct N as [[-> ?]|[? ->]] end;
      fields; rewrite ?app_nil_r; auto.
    all: try (destruct call; rewrite ?app_nil_r; auto).
  - destruct (nth_error (cs p) j) as [c|] eqn:Ec; [|discriminate]. destruct c; inversion H; subst. fields; rewrite ?app_nil_r; auto.
Qed.

Definition outcome (s : fpool V E M A) (t : task) (r : V + E) : Prop :=
  exists f a m, In (t, (f, a)) (calls s) /\ In (t, m) (runs s) /\ r = fst (f a m).
Record finv (n m : nat) (s : fpool V E M A) : Prop := {
  v_reach : preach n m (base s);
  v_calls : map fst (calls s) = sub (base s);
  v_jobs : forall t, match jobs s t with Some j => In (t, j) (calls s) | None => ~ In t (sub (base s)) end;
  v_runs : map fst (runs s) = finished (base s);
  v_futs : forall t, match futs s t with
                     | Pending => ~ In t (finished (base s)) /\ ~ In t (dropped (base s))
                     | Done r => In t (finished (base s)) /\ outcome s t r
                     | Broken => In t (dropped (base s))
                     end }.

(* a task is in at most one of: running, in hand, finished, dropped *)
Lemma running_not_over : forall n m (p : pool) i t, preach n m p -> nth_error (ws p) i = Some (WRunning t) ->
  In t (sub p) /\ ~ In t (finished p) /\ ~ In t (dropped p).
Proof.
  intros n m p i t R H. destruct (p_acc _ (pinv_reach _ _ _ R)) as [Ha [B [C D]]].
  assert (X: 0 < cnt (flat_map running (ws p)) t). { apply cnt_In, in_flat_map. exists (WRunning t). split; [eapply nth_error_In; eauto|left; auto]. }
  specialize (C t). specialize (D t).
  assert (Y: cnt (deq p) t <= 1). { pose proof B as B'. rewrite Ha in B'. assert (B2: cnt (deq p ++ queue p) t <= 1) by exact (proj1 (NoDup_count_occ Nat.eq_dec _) B' t). rewrite cnt_app in B2. lia. }
  rewrite Ha. split; [|split].
  - apply in_or_app. left. apply cnt_In. lia.
  - intros Z. apply cnt_In in Z. lia.
  - intros Z. apply cnt_In in Z. lia.
Qed.
Lemma hand_not_over : forall n m (p : pool) i w t, preach n m p -> nth_error (ws p) i = Some w -> In t (hand w) ->
  In t (sub p) /\ ~ In t (finished p) /\ ~ In t (dropped p).
Proof.
  intros n m p i w t R H Hw. destruct (p_acc _ (pinv_reach _ _ _ R)) as [Ha [B [C D]]].
  assert (X: 0 < cnt (flat_map hand (ws p)) t). { apply cnt_In, in_flat_map. exists w. split; [eapply nth_error_In; eauto|auto]. }
  specialize (C t). specialize (D t).
  assert (Y: cnt (deq p) t <= 1). { pose proof B as B'. rewrite Ha in B'. assert (B2: cnt (deq p ++ queue p) t <= 1) by exact (proj1 (NoDup_count_occ Nat.eq_dec _) B' t). rewrite cnt_app in B2. lia. }
  rewrite Ha. split; [|split].
  - apply in_or_app. left. apply cnt_In. lia.
  - intros Z. apply cnt_In in Z. lia.
  - intros Z. apply cnt_In in Z. lia.
Qed.
Lemma over_submitted : forall n m (p : pool) t, preach n m p -> In t (finished p) \/ In t (dropped p) -> In t (sub p) /\ ~ In t (queue p).
Proof.
  intros n m p t R H. destruct (p_acc _ (pinv_reach _ _ _ R)) as [Ha [B [C D]]]. specialize (C t). specialize (D t).
  assert (X: In t (deq p)). { apply cnt_In. destruct H as [H|H]; apply cnt_In in H; lia. }
  rewrite Ha in *. split; [apply in_or_app; auto|]. intros Q. apply NoDup_app_inv in B. destruct B as [_ [_ B]]. eapply B; eauto.
Qed.
Lemma put_same : forall X (g : task -> X) t x, put g t x t = x.
Proof. intros; unfold put; rewrite Nat.eqb_refl; auto. Qed.
Lemma put_other : forall X (g : task -> X) t x u, u <> t -> put g t x u = g u.
Proof. intros X g t x u H; unfold put. destruct (Nat.eqb_spec u t); congruence. Qed.

Lemma runs_have_jobs : forall n m s i t, finv n m s -> nth_error (ws (base s)) i = Some (WRunning t) -> jobs s t <> None.
Proof.
  intros n m s i t I H X. pose proof (v_jobs _ _ _ I t) as J. rewrite X in J. apply J.
  apply (running_not_over _ _ _ _ _ (v_reach _ _ _ I) H).
Qed.
Lemma outcome_mono : forall s s' t r, incl (calls s) (calls s') -> incl (runs s) (runs s') -> outcome s t r -> outcome s' t r.
Proof. intros s s' t r C R [f [a [m [X [Y Z]]]]]. exists f, a, m. auto. Qed.
(* a step that only moves the pool *)
Lemma finv_quiet : forall n m s a p, finv n m s -> pstep a (base s) = Some p -> sub p = sub (base s) -> finished p = finished (base s) -> dropped p = dropped (base s) ->
  finv n m (mkf p (jobs s) (futs s) (mem s) (vars s) (calls s) (runs s)).
Proof.
  intros n m s a p [R C J U F] H S1 S2 S3. constructor; cbn [base calls jobs runs futs]; rewrite ?S1, ?S2, ?S3; auto. econstructor; eauto.
Qed.
Lemma finv_step : forall n m s x s', finv n m s -> fstep x s = Some s' -> finv n m s'.
Proof.
  intros n m s x s' I H. destruct x as [a f v|m'|v y]; cbn [fstep] in H.
  2,3: inversion H; subst; destruct I as [R C J U F]; constructor; cbn [base calls jobs runs futs]; auto.
  destruct (pstep a (base s)) as [p|] eqn:Ep; [|discriminate]. pose proof (step_fields _ _ _ Ep) as [S1 [S2 S3]].
  destruct a as [i k|i|j call k|j].
  - rewrite app_nil_r in S1. destruct (nth_error (ws (base s)) i) as [w|] eqn:Ew; [|cbn [pstep] in Ep; rewrite Ew in Ep; discriminate].
    assert (Q: S2 = S2) by reflexivity. clear Q.
    destruct w; try (rewrite ?app_nil_r in S2, S3; inversion H; subst; eapply finv_quiet; eauto; fail).
    + destruct o as [t|]; [|rewrite ?app_nil_r in S2, S3; inversion H; subst; eapply finv_quiet; eauto].
      rewrite app_nil_r in S2. destruct (kill (base s)) eqn:K; [|rewrite app_nil_r in S3; inversion H; subst; eapply finv_quiet; eauto].
      inversion H; subst; clear H. pose proof (hand_not_over _ _ _ _ _ t (v_reach _ _ _ I) Ew (or_introl eq_refl)) as [T1 [T2 T3]].
      destruct I as [R C J U F]. constructor; cbn [base calls jobs runs futs]; rewrite ?S1, ?S2, ?S3; auto; [econstructor; eauto|].
      intros u. destruct (Nat.eq_dec u t) as [->|Ne]; [rewrite put_same; apply in_or_app; right; left; auto|]. rewrite put_other by auto. specialize (F u).
      destruct (futs s u).
      * split; [tauto|]. intros X. apply in_app_or in X. destruct X as [X|[X|[]]]; [tauto|congruence].
      * exact F.
      * apply in_or_app; auto.
    + rewrite app_nil_r in S3. destruct (jobs s t) as [[g y]|] eqn:Ej; [|discriminate]. destruct (g y (mem s)) as [r m'] eqn:Eg. inversion H; subst; clear H.
      pose proof (running_not_over _ _ _ _ _ (v_reach _ _ _ I) Ew) as [T1 [T2 T3]].
      destruct I as [R C J U F]. constructor; cbn [base calls jobs runs futs]; rewrite ?S1, ?S2, ?S3; auto; [econstructor; eauto| |].
      * rewrite map_app, U. reflexivity.
      * intros u. destruct (Nat.eq_dec u t) as [->|Ne].
        -- rewrite put_same. split; [apply in_or_app; right; left; auto|]. exists g, y, (mem s). cbn [calls runs].
           pose proof (J t) as Jt. rewrite Ej in Jt. split; auto. split; [apply in_or_app; right; left; auto|]. rewrite Eg. reflexivity.
        -- rewrite put_other by auto. specialize (F u). destruct (futs s u).
           ++ split; [|tauto]. intros X. apply in_app_or in X. destruct X as [X|[X|[]]]; [tauto|congruence].
           ++ destruct F as [F1 F2]. split; [apply in_or_app; auto|]. eapply outcome_mono; [| |exact F2]; cbn [calls runs]; intros z Hz; auto. apply in_or_app; auto.
           ++ exact F.
  - rewrite ?app_nil_r in *. inversion H; subst; eapply finv_quiet; eauto.
  - rewrite ?app_nil_r in S2, S3. destruct call as [t| |]; try (rewrite ?app_nil_r in *; inversion H; subst; eapply finv_quiet; eauto; fail).
    destruct (nth_error (cs (base s)) j) as [c|] eqn:Ec; [|cbn [pstep] in Ep; rewrite Ec in Ep; discriminate].
    destruct c; try (rewrite ?app_nil_r in *; inversion H; subst; eapply finv_quiet; eauto; fail).
    inversion H; subst; clear H.
    assert (NT: ~ In t (sub (base s))).
    { pose proof (p_acc _ (pinv_reach _ _ _ (preachS _ _ _ _ _ (v_reach _ _ _ I) Ep))) as [_ [B _]]. rewrite S1 in B. apply NoDup_app_inv in B.
      intros X. destruct B as [_ [_ B]]. eapply B; eauto. left; auto. }
    destruct I as [R C J U F]. constructor; cbn [base calls jobs runs futs]; rewrite ?S1, ?S2, ?S3; auto; [econstructor; eauto| | |].
    + rewrite map_app, C. reflexivity.
    + intros u. destruct (Nat.eq_dec u t) as [->|Ne]; [rewrite put_same; apply in_or_app; right; left; auto|]. rewrite put_other by auto. specialize (J u).
      destruct (jobs s u); [apply in_or_app; auto|]. intros X. apply in_app_or in X. destruct X as [X|[X|[]]]; [tauto|congruence].
    + intros u. specialize (F u). destruct (futs s u); auto. destruct F as [F1 F2]. split; auto.
      eapply outcome_mono; [| |exact F2]; cbn [calls runs]; intros z Hz; auto. apply in_or_app; auto.
  - rewrite ?app_nil_r in *. inversion H; subst; eapply finv_quiet; eauto.
Qed.
Lemma finv_reach : forall n m m0 v0 s, freach n m m0 v0 s -> finv n m s.
Proof.
  intros n m m0 v0 s R. induction R as [|s x s' R IH H]; [|eapply finv_step; eauto].
  constructor; cbn; auto. constructor.
Qed.

(* a future that is ready holds what one call of its function returned or threw: on the arguments as they were
   when send_async was called, and on the shared memory as it was when the task ran *)
Theorem C224_result : forall n m m0 v0 s t r, freach n m m0 v0 s -> futs s t = Done r ->
  exists f a mem_at_run, In (t, (f, a)) (calls s) /\ In (t, mem_at_run) (runs s) /\ r = fst (f a mem_at_run).
Proof. intros n m m0 v0 s t r R H. pose proof (v_futs _ _ _ (finv_reach _ _ _ _ _ R) t) as F. rewrite H in F. apply F. Qed.
(* every call of send_async is made once, and its function is run at most once *)
Theorem C224_once : forall n m m0 v0 s, freach n m m0 v0 s -> NoDup (map fst (calls s)) /\ NoDup (map fst (runs s)) /\
  incl (map fst (runs s)) (map fst (calls s)).
Proof.
  intros n m m0 v0 s R. pose proof (finv_reach _ _ _ _ _ R) as [P C J U F]. pose proof (pool_at_most_once _ _ _ P) as Q.
  rewrite C, U. destruct Q as [Q1 [Q2 [Q3 Q4]]].
  split; [apply (p_acc _ (pinv_reach _ _ _ P))|]. split; [tauto|]. intros t Ht. apply (over_submitted _ _ _ _ P). auto.
Qed.
(* the state of a future tells what has happened to its task *)
Theorem C224_status : forall n m m0 v0 s t, freach n m m0 v0 s ->
  ((exists r, futs s t = Done r) <-> In t (map fst (runs s))) /\
  (futs s t = Broken <-> In t (dropped (base s))) /\
  (kill (base s) = false -> futs s t <> Broken).
Proof.
  intros n m m0 v0 s t R. pose proof (finv_reach _ _ _ _ _ R) as [P C J U F]. specialize (F t). rewrite U.
  destruct (p_acc _ (pinv_reach _ _ _ P)) as [Ha [B [CC D]]].
  assert (X: In t (finished (base s)) -> In t (dropped (base s)) -> False).
  { intros X Y. apply cnt_In in X. apply cnt_In in Y. specialize (CC t). specialize (D t).
    rewrite Ha in B. pose proof (proj1 (NoDup_count_occ Nat.eq_dec _) B t) as B2. change (cnt (deq (base s) ++ queue (base s)) t <= 1) in B2. rewrite cnt_app in B2. lia. }
  split; [|split].
  - split.
    + intros [r E1]. rewrite E1 in F. tauto.
    + intros H. destruct (futs s t); [tauto|eauto|]. exfalso; auto.
  - split.
    + intros E1. rewrite E1 in F. auto.
    + intros H. destruct (futs s t); [tauto| |auto]. exfalso; apply X; tauto.
  - intros K E1. rewrite E1 in F. rewrite (no_shutdown_no_drop _ _ _ P K) in F. contradiction.
Qed.
(* once ready a future never changes *)
Theorem C224_stable : forall n m m0 v0 s s' t, freach n m m0 v0 s -> fsteps s s' -> futs s t <> Pending -> futs s' t = futs s t.
Proof.
  intros n m m0 v0 s s' t R S. revert R. induction S as [s|s x s1 s2 H S IH]; intros R NP; auto.
  assert (E1: futs s1 t = futs s t).
  { pose proof (finv_reach _ _ _ _ _ R) as [P C J U F]. specialize (F t).
    assert (O: In t (finished (base s)) \/ In t (dropped (base s))) by (destruct (futs s t); [congruence|tauto|tauto]).
    destruct x as [a f v|m'|v y]; cbn [fstep] in H; [|inversion H; reflexivity|inversion H; reflexivity].
    destruct (pstep a (base s)) as [p|] eqn:Ep; [|discriminate].
    destruct a as [i k|i|j call k|j]; [|inversion H; reflexivity| |inversion H; reflexivity].
    - destruct (nth_error (ws (base s)) i) as [w|] eqn:Ew; [|inversion H; reflexivity].
      destruct w; try (inversion H; reflexivity).
      + destruct o as [u|]; [|inversion H; reflexivity]. inversion H; subst. cbn [futs]. destruct (kill (base s)); auto. apply put_other. intros ->.
        pose proof (hand_not_over _ _ _ _ _ u P Ew (or_introl eq_refl)). tauto.
      + destruct (jobs s t0) as [[g y]|]; [|discriminate]. destruct (g y (mem s)). inversion H; subst. cbn [futs]. apply put_other. intros ->.
        pose proof (running_not_over _ _ _ _ _ P Ew). tauto.
    - destruct call; try (inversion H; reflexivity). destruct (nth_error (cs (base s)) j) as [[]|]; inversion H; reflexivity. }
  rewrite <- E1. apply IH; [econstructor; eauto|congruence].
Qed.
(* while the pool is not shut down nobody waits for ever: when nothing is left to run every future is ready *)
Theorem C224_all_ready_partial : forall n m m0 v0 s t, 0 < n -> freach n m m0 v0 s -> kill (base s) = false -> at_rest (base s) ->
  In t (map fst (calls s)) -> exists r, futs s t = Done r.
Proof.
  intros n m m0 v0 s t Hn R K H Ht. pose proof (finv_reach _ _ _ _ _ R) as [P C J U F].
  apply (C224_status _ _ _ _ _ t R). rewrite U. destruct (pool_executes_all _ _ _ Hn P K H) as [X _]. apply X. rewrite <- C. exact Ht.
Qed.
(* the steps of the pool are never blocked by the futures *)
Theorem C224_runs : forall n m m0 v0 s a f v p, freach n m m0 v0 s -> pstep a (base s) = Some p ->
  exists s', fstep (FPool a f v) s = Some s' /\ base s' = p.
Proof.
  intros n m m0 v0 s a f v p R H. pose proof (finv_reach _ _ _ _ _ R) as I. cbn [fstep]. rewrite H.
  destruct a as [i k|i|j call k|j]; eauto.
  - destruct (nth_error (ws (base s)) i) as [w|] eqn:Ew; eauto. destruct w; eauto.
    + destruct o; eauto.
    + destruct (jobs s t) as [[g y]|] eqn:Ej; [destruct (g y (mem s)); eauto|]. exfalso. eapply runs_have_jobs; eauto.
  - destruct call; eauto. destruct (nth_error (cs (base s)) j) as [[]|]; eauto.
Qed.
(* a step of the pool either leaves the shared memory alone or is the run of one submitted function, whose effects are kept *)
Theorem C224_effects : forall n m m0 v0 s a f v s', freach n m m0 v0 s -> fstep (FPool a f v) s = Some s' ->
  (mem s' = mem s /\ runs s' = runs s) \/
  (exists t g x, runs s' = runs s ++ [(t, mem s)] /\ In (t, (g, x)) (calls s) /\ futs s t = Pending /\
     futs s' t = Done (fst (g x (mem s))) /\ mem s' = snd (g x (mem s))).
Proof.
  intros n m m0 v0 s a f v s' R H. pose proof (finv_reach _ _ _ _ _ R) as I. cbn [fstep] in H.
  destruct (pstep a (base s)) as [p|] eqn:Ep; [|discriminate].
  destruct a as [i k|i|j call k|j]; [|inversion H; auto| |inversion H; auto].
  - destruct (nth_error (ws (base s)) i) as [w|] eqn:Ew; [|inversion H; auto]. destruct w; try (inversion H; auto; fail).
    + destruct o; inversion H; auto.
    + destruct (jobs s t) as [[g x]|] eqn:Ej; [|discriminate]. destruct (g x (mem s)) as [r m'] eqn:Eg. inversion H; subst; clear H. right. exists t, g, x.
      cbn [runs futs mem calls]. rewrite put_same, Eg. pose proof (v_jobs _ _ _ I t) as J. rewrite Ej in J. repeat split; auto.
      pose proof (v_futs _ _ _ I t) as F. pose proof (running_not_over _ _ _ _ _ (v_reach _ _ _ I) Ew) as [_ [N1 N2]]. destruct (futs s t); tauto.
  - destruct call; try (inversion H; auto; fail). destruct (nth_error (cs (base s)) j) as [[]|]; inversion H; auto.
Qed.
(* after shutdown() has returned, the tasks left in the queue are never run and nobody breaks their promises *)
Theorem C224_left_pending : forall n m m0 v0 s s' t, freach n m m0 v0 s -> joined (base s) = true -> In t (queue (base s)) ->
  fsteps s s' -> futs s' t = Pending.
Proof.
  intros n m m0 v0 s s' t R JO Q S.
  assert (AE: forall i w, nth_error (ws (base s)) i = Some w -> w = WExit) by (eapply shutdown_joins_all; eauto; apply (v_reach _ _ _ (finv_reach _ _ _ _ _ R))).
  assert (F: futs s t = Pending).
  { pose proof (finv_reach _ _ _ _ _ R) as [P C J U F]. specialize (F t). destruct (futs s t); auto; exfalso.
    - destruct F as [F _]. eapply over_submitted; eauto.
    - eapply over_submitted; eauto. }
  clear JO Q R. induction S as [s|s x s1 s2 H S IH]; auto.
  apply IH.
  - intros i w Ew. destruct x as [a f v|m'|v y]; cbn [fstep] in H; [|inversion H; subst; eauto|inversion H; subst; eauto].
    destruct (pstep a (base s)) as [p|] eqn:Ep; [|discriminate].
    assert (EB: base s1 = p).
    { destruct a as [i' k|i'|j call k|j]; [|inversion H; reflexivity| |inversion H; reflexivity].
      - destruct (nth_error (ws (base s)) i') as [w'|] eqn:Ew'; [|inversion H; reflexivity]. apply AE in Ew'. subst w'. inversion H; reflexivity.
      - destruct call; try (inversion H; reflexivity). destruct (nth_error (cs (base s)) j) as [[]|]; inversion H; reflexivity. }
    rewrite EB in Ew.
    assert (L: i < length (ws (base s))). { destruct (step_lengths _ _ _ Ep) as [L _]. rewrite <- L. apply nth_error_Some. congruence. }
    apply nth_error_Some in L. destruct (nth_error (ws (base s)) i) as [w0|] eqn:E0; [|congruence]. pose proof (AE _ _ E0) as ->.
    pose proof (exit_stays _ _ _ _ Ep E0). congruence.
  - destruct x as [a f v|m'|v y]; cbn [fstep] in H; [|inversion H; subst; auto|inversion H; subst; auto].
    destruct (pstep a (base s)) as [p|] eqn:Ep; [|discriminate].
    destruct a as [i' k|i'|j call k|j]; [|inversion H; subst; auto| |inversion H; subst; auto].
    + destruct (nth_error (ws (base s)) i') as [w'|] eqn:Ew'; [|inversion H; subst; auto]. apply AE in Ew'. subst w'. inversion H; subst; auto.
    + destruct call; try (inversion H; subst; auto; fail). destruct (nth_error (cs (base s)) j) as [[]|]; inversion H; subst; auto.
Qed.
End C224.
Print Assumptions C224_result.
Print Assumptions C224_once.
Print Assumptions C224_status.
Print Assumptions C224_stable.
Print Assumptions C224_all_ready_partial.
Print Assumptions C224_runs.
Print Assumptions C224_effects.
Print Assumptions C224_left_pending.

(* ---- a run: values and exceptions are numbers, the shared memory a counter; f adds the counter to its argument and
   increments it, g throws its argument ---- *)
Definition f_add : callable nat nat nat nat := fun a m => (inl (a + m), S m).
Definition g_throw : callable nat nat nat nat := fun a m => (inr a, m).
Fixpoint frun (l : list (faction nat nat nat nat)) (s : fpool nat nat nat nat) : option (fpool nat nat nat nat) :=
  match l with [] => Some s | x :: t => match fstep x s with Some s' => frun t s' | None => None end end.
Lemma frun_reach : forall n m m0 v0 l s s', freach n m m0 v0 s -> frun l s = Some s' -> freach n m m0 v0 s'.
Proof.
  intros n m m0 v0; induction l as [|a l IH]; intros s s' R E; cbn [frun] in E; [inversion E; subst; auto|].
  destruct (fstep a s) eqn:Es; [|discriminate]. eapply IH; [|exact E]. econstructor; eauto.
Qed.
Definition w_ : faction nat nat nat nat := FPool (AW 0 0) f_add 0.
Definition c_ : faction nat nat nat nat := FPool (AC 0 Sync 0) f_add 0.
(* the argument is changed after the call and the memory before the run: 10 was captured, 5 is read *)
Definition two_tasks : list (faction nat nat nat nat) :=
  [FPool (AC 0 (Send 7) 0) f_add 3; FVar 3 99; c_; c_; c_; FPool (AC 0 (Send 8) 0) g_throw 3; c_; c_; c_; FMem 5] ++
  [w_; w_; w_; w_; w_; w_; w_; w_; w_] ++ [w_; w_; w_; w_; w_; w_; w_; w_; w_] ++ [w_; w_; w_].
Example C224_two_tasks : exists s, freach 1 1 0 (fun _ => 10) s /\ futs s 7 = Done (inl 15) /\ futs s 8 = Done (inr 99) /\ mem s = 6 /\
  kill (base s) = false /\ at_rest (base s) /\ map fst (calls s) = [7; 8].
Proof.
  assert (T: match frun two_tasks (finit 1 1 0 (fun _ => 10)) with
             | Some s => futs s 7 = Done (inl 15) /\ futs s 8 = Done (inr 99) /\ mem s = 6 /\ kill (base s) = false /\ ws (base s) = [WWait] /\ cs (base s) = [CIdle] /\ map fst (calls s) = [7; 8]
             | None => False end) by (vm_compute; repeat split).
  destruct (frun two_tasks (finit 1 1 0 (fun _ => 10))) as [s|] eqn:E; [|contradiction].
  exists s. split; [eapply frun_reach; [constructor|exact E]|].
  destruct T as [X1 [X2 [X3 [X4 [X5 [X6 X7]]]]]]. repeat (split; auto).
  clear E.   intros a s' I H. destruct a as [i k|i|j call k|j]; cbn [pstep internal] in *.
  - rewrite X5 in H. destruct i as [|[|]]; cbn in H; discriminate.
  - rewrite X5 in *. destruct i as [|[|]]; cbn in *; try discriminate; auto.
  - rewrite X6 in *. destruct j as [|[|]]; cbn in *; try discriminate. destruct I as [c0 [I1 I2]]; congruence.
  - rewrite X6 in *. destruct j as [|[|]]; cbn in *; try discriminate.
Qed.

(* a task submitted to a pool that is then shut down before the worker wakes up: shutdown() returns, the worker is gone, nobody
   can make a step, and the future is not ready: get() waits for ever.  A task already taken gets a broken promise. *)
Definition shut_early : list (faction nat nat nat nat) :=
  [FPool (AC 0 (Send 7) 0) f_add 0; c_; c_; c_; FPool (AC 0 Shutdown 0) f_add 0; c_; c_; c_; c_; w_; w_; w_; w_; c_; c_].
Theorem C224_refuted :
  exists s, freach 1 1 0 (fun _ => 10) s /\ In (7, (f_add, 10)) (calls s) /\ joined (base s) = true /\
    (forall s', fsteps s s' -> futs s' 7 = Pending).
Proof.
  assert (X: match frun shut_early (finit 1 1 0 (fun _ => 10)) with
             | Some s => In (7, (f_add, 10)) (calls s) /\ joined (base s) = true /\ In 7 (queue (base s))
             | None => False end) by (vm_compute; auto).
  destruct (frun shut_early (finit 1 1 0 (fun _ => 10))) as [s|] eqn:E; [|contradiction].
  assert (R: freach 1 1 0 (fun _ => 10) s) by (eapply frun_reach; [constructor|exact E]).
  exists s. split; auto.
  destruct X as [X1 [X2 X3]]. split; auto. split; auto. intros s' S. eapply C224_left_pending; eauto.
Qed.
Print Assumptions C224_refuted.
