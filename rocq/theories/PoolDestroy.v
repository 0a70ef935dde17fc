(* Property C225: the end of a thread pool. *)
From Verif Require Import Base ThreadPoolModel ThreadPoolProofs ThreadPoolProofs2 ThreadPoolProps ThreadPoolLive PoolFutureModel PoolFuture PoolDestroyModel.

Section C225.
Context {V E M A : Type}.
(* after shutdown() the pool can be destroyed; then every future obtained from it is ready: the tasks that had run keep their
   results and all the others have a broken promise *)
Theorem C225_after_shutdown_partial : forall n m m0 v0 (s : fpool V E M A), freach n m m0 v0 s -> joined (base s) = true ->
  exists after, destroy s = Destroyed after /\
    (forall t, In t (map fst (calls s)) -> after t <> Pending) /\
    (forall t r, after t = Done r <-> futs s t = Done r) /\
    (forall t, In t (map fst (calls s)) -> (after t = Broken <-> ~ In t (map fst (runs s)))).
Proof.
  intros n m m0 v0 s R J. unfold destroy. rewrite J. eexists. split; [reflexivity|].
  pose proof (finv_reach _ _ _ _ _ R) as [P C JB U F].
  assert (AE: forall i w, nth_error (ws (base s)) i = Some w -> w = WExit) by (eapply shutdown_joins_all; eauto).
  assert (Z: forall f : wpc -> list task, f WExit = [] -> flat_map f (ws (base s)) = []).
  { intros f Hf. clear - AE Hf. induction (ws (base s)) as [|w l IH]; auto. cbn. rewrite (AE 0 w eq_refl), Hf. cbn. apply IH. intros i v Ei. apply (AE (S i) v Ei). }
  assert (Q: forall t, existsb (Nat.eqb t) (queue (base s)) = true <-> In t (queue (base s))).
  { intros t. rewrite existsb_exists. split; [intros [u [H1 H2]]; apply Nat.eqb_eq in H2; subst; auto|intros H; exists t; split; auto; apply Nat.eqb_refl]. }
  destruct (p_acc _ (pinv_reach _ _ _ P)) as [Ha [B [CC D]]].
  assert (SP: forall t, In t (map fst (calls s)) -> In t (queue (base s)) \/ In t (finished (base s)) \/ In t (dropped (base s))).
  { intros t Ht. rewrite C, Ha in Ht. apply in_app_or in Ht. destruct Ht as [Ht|Ht]; auto. right. apply cnt_In in Ht. specialize (CC t). specialize (D t).
    rewrite !Z in * by reflexivity. cbn in CC, D. destruct (cnt (finished (base s)) t) eqn:E1; [right|left]; apply cnt_In; lia. }
  assert (NQ: forall t, In t (finished (base s)) \/ In t (dropped (base s)) -> ~ In t (queue (base s))) by (intros t Ht; eapply over_submitted; eauto).
  split; [|split].
  - intros t Ht. destruct (existsb (Nat.eqb t) (queue (base s))) eqn:X; [discriminate|].
    assert (N: ~ In t (queue (base s))) by (rewrite <- Q; congruence). specialize (F t). destruct (SP t Ht) as [?|O]; [contradiction|].
    destruct (futs s t); [|discriminate|discriminate]. tauto.
  - intros t r. destruct (existsb (Nat.eqb t) (queue (base s))) eqn:X; [|tauto]. split; [discriminate|]. intros Y. exfalso.
    specialize (F t). rewrite Y in F. apply Q in X. eapply NQ; eauto. left; tauto.
  - intros t Ht. rewrite U. destruct (existsb (Nat.eqb t) (queue (base s))) eqn:X.
    + split; auto. intros _ Y. apply Q in X. eapply NQ; eauto.
    + assert (N: ~ In t (queue (base s))) by (rewrite <- Q; congruence).
      destruct (C224_status _ _ _ _ _ t R) as [S1 [S2 _]]. rewrite U in S1. split.
      * intros Y W. apply S1 in W. destruct W as [r W]. congruence.
      * intros Y. apply S2. destruct (SP t Ht) as [?|[?|?]]; tauto.
Qed.
(* before shutdown() has returned the destruction of a pool with threads ends the program, whatever the pool is doing *)
Theorem C225_terminates : forall n m m0 v0 (s : fpool V E M A), 0 < n -> freach n m m0 v0 s -> joined (base s) = false -> destroy s = Terminate.
Proof.
  intros n m m0 v0 s Hn R J. unfold destroy. rewrite J. pose proof (v_reach _ _ _ (finv_reach _ _ _ _ _ R)) as P.
  destruct (reach_lengths _ _ _ P) as [L _]. destruct (ws (base s)); auto. cbn in L. lia.
Qed.
End C225.
Print Assumptions C225_after_shutdown_partial.
Print Assumptions C225_terminates.

(* even when every task has finished, nobody is inside an operation and nothing is left to run *)
Theorem C225_refuted : exists s : fpool nat nat nat nat, freach 1 1 0 (fun _ => 10) s /\ at_rest (base s) /\ nobody_inside (base s) /\
  queue (base s) = [] /\ finished (base s) = [7; 8] /\ destroy s = Terminate.
Proof.
  assert (T: match frun two_tasks (finit 1 1 0 (fun _ => 10)) with
             | Some s => ws (base s) = [WWait] /\ cs (base s) = [CIdle] /\ queue (base s) = [] /\ finished (base s) = [7; 8] /\ joined (base s) = false
             | None => False end) by (vm_compute; repeat split).
  destruct (frun two_tasks (finit 1 1 0 (fun _ => 10))) as [s|] eqn:E; [|contradiction].
  assert (R: freach 1 1 0 (fun _ => 10) s) by (eapply frun_reach; [constructor|exact E]). clear E.
  destruct T as [X5 [X6 [X7 [X8 X9]]]]. exists s. split; auto. split; [|split; [|split; [|split]]]; auto.
  - intros a s' I H. destruct a as [i k|i|j call k|j]; cbn [pstep internal] in *.
    + rewrite X5 in H. destruct i as [|[|]]; cbn in H; discriminate.
    + contradiction.
    + rewrite X6 in *. destruct j as [|[|]]; cbn in *; try discriminate. destruct I as [c0 [I1 I2]]; congruence.
    + contradiction.
  - intros j c H. rewrite X6 in H. destruct j as [|[|]]; cbn in H; inversion H; auto.
  - eapply C225_terminates; eauto.
Qed.
Print Assumptions C225_refuted.
(* one task run, one left in the queue by shutdown() *)
Definition half_done : list (faction nat nat nat nat) :=
  [FPool (AC 0 (Send 7) 0) f_add 3; c_; c_; c_; FPool (AC 0 (Send 8) 0) g_throw 3; c_; c_; c_] ++
  [w_; w_; w_; w_; w_; w_] ++ [FPool (AC 0 Shutdown 0) f_add 0; c_; c_; c_; c_] ++ [w_; w_; w_; w_; w_; w_; w_] ++ [c_; c_].
Example C225_half_done : exists s : fpool nat nat nat nat, freach 1 1 0 (fun _ => 10) s /\ joined (base s) = true /\ nobody_inside (base s) /\
  map fst (calls s) = [7; 8] /\ map fst (runs s) = [7] /\
  match destroy s with Destroyed after => after 7 = Done (inl 10) /\ after 8 = Broken | Terminate => False end.
Proof.
  assert (T: match frun half_done (finit 1 1 0 (fun _ => 10)) with
             | Some s => joined (base s) = true /\ cs (base s) = [CIdle] /\ map fst (calls s) = [7; 8] /\ map fst (runs s) = [7] /\
                match destroy s with Destroyed after => after 7 = Done (inl 10) /\ after 8 = Broken | Terminate => False end
             | None => False end) by (vm_compute; repeat split).
  destruct (frun half_done (finit 1 1 0 (fun _ => 10))) as [s|] eqn:E; [|contradiction].
  destruct T as [X1 [X2 [X3 [X4 X5]]]]. exists s. split; [eapply frun_reach; [constructor|exact E]|]. clear E. repeat (split; auto).
  intros j c H. rewrite X2 in H. destruct j as [|[|]]; cbn in H; inversion H; auto.
Qed.
