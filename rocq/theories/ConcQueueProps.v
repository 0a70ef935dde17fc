(* Property C57: the queue is linearizable with respect to the sequential FIFO queue. *)
From Verif Require Import Base ConcQueueModel.

(* ---- specification ---------------------------------------------------------------------- *)
Section Spec.
Context {V : Type}.

(* sequential FIFO queue: contents before, operation, result, contents after *)
Definition fifo (q : list V) (o : op V) (r : result V) (q' : list V) : Prop :=
  match o with
  | OPush v => r = RUnit /\ q' = q ++ [v]
  | OPop => match q with
            | [] => r = ROpt None /\ q' = []
            | v :: t => r = ROpt (Some v) /\ q' = t
            end
  | OClear => r = RUnit /\ q' = []
  end.
(* a sequential execution *)
Inductive fifo_run : list V -> list (op V * result V) -> list V -> Prop :=
| fr_nil : forall q, fifo_run q [] q
| fr_snoc : forall q l q1 o r q2, fifo_run q l q1 -> fifo q1 o r q2 -> fifo_run q (l ++ [(o, r)]) q2.

(* the order in which the operations took effect *)
Definition effects (h : list (event V)) : list (op V * result V) :=
  flat_map (fun e => match e with ELin _ o r => [(o, r)] | _ => [] end) h.

(* the events of one thread: each call takes effect exactly once, after it starts and before it
   returns, and returns the result of its effect *)
Inductive phase := Outside | Called (o : op V) | Effected (o : op V) (r : result V).
Inductive well_formed (i : nat) : list (event V) -> phase -> Prop :=
| wf_nil : well_formed i [] Outside
| wf_other : forall h p e, well_formed i h p ->
    match e with EInv j _ => j | ELin j _ _ => j | ERes j _ _ => j end <> i -> well_formed i (h ++ [e]) p
| wf_inv : forall h o, well_formed i h Outside -> well_formed i (h ++ [EInv i o]) (Called o)
| wf_lin : forall h o r, well_formed i h (Called o) -> well_formed i (h ++ [ELin i o r]) (Effected o r)
| wf_res : forall h o r, well_formed i h (Effected o r) -> well_formed i (h ++ [ERes i o r]) Outside.

(* values handed out by pops, values pushed, in order of effect *)
Definition popped (l : list (op V * result V)) : list V :=
  flat_map (fun x => match x with (OPop, ROpt (Some v)) => [v] | _ => [] end) l.
Definition pushed (l : list (op V * result V)) : list V :=
  flat_map (fun x => match x with (OPush v, _) => [v] | _ => [] end) l.
End Spec.

(* ---- proof ------------------------------------------------------------------------------ *)
Section Proof.
Context {V : Type}.
Variable q0 : list V.

Definition in_cs (p : pc V) : bool := match p with PIdle | PWant _ => false | _ => true end.
Definition phase_of (p : pc V) : phase :=
  match p with
  | PIdle => Outside
  | PWant o => Called o
  | PIn o => Called o
  | PFront _ => Called OPop
  | PClearing => Called OClear
  | POut o r => Effected o r
  end.
Definition abs_ok (s : qstate V) (A : list V) : Prop :=
  match owner s with
  | Some i => match pcs s i with
              | PClearing => exists ini, A = ini ++ items s
              | PFront v => A = items s /\ exists t, items s = v :: t
              | _ => A = items s
              end
  | None => A = items s
  end.
Record inv (s : qstate V) : Prop := {
  i_mutex : forall i, in_cs (pcs s i) = true <-> owner s = Some i;
  i_abs : exists A, fifo_run q0 (effects (hist s)) A /\ abs_ok s A;
  i_wf : forall i, well_formed i (hist s) (phase_of (pcs s i)) }.

Lemma effects_app : forall h e, effects (h ++ [e]) = effects h ++ @effects V [e].
Proof. intros; unfold effects; rewrite flat_map_app; auto. Qed.

Lemma set_pc_same : forall f i (p : pc V), set_pc f i p i = p.
Proof. intros; unfold set_pc; now rewrite Nat.eqb_refl. Qed.
Lemma set_pc_other : forall f i (p : pc V) j, j <> i -> set_pc f i p j = f j.
Proof. intros; unfold set_pc; destruct (j =? i) eqn:?; [lia|auto]. Qed.

Lemma mutex_keep : forall s i p, inv s -> pcs s i <> PIdle -> owner s = Some i -> in_cs p = true ->
  forall j, in_cs (set_pc (pcs s) i p j) = true <-> owner s = Some j.
Proof.
  intros s i p I _ E Hp j. destruct (Nat.eq_dec j i) as [->|Hn].
  - rewrite set_pc_same. tauto.
  - rewrite set_pc_other by auto. apply I.
Qed.
Lemma mutex_out : forall s i p, inv s -> in_cs (pcs s i) = false -> in_cs p = false ->
  forall j, in_cs (set_pc (pcs s) i p j) = true <-> owner s = Some j.
Proof.
  intros s i p I E Hp j. destruct (Nat.eq_dec j i) as [->|Hn].
  - rewrite set_pc_same. rewrite <- (i_mutex s I), E, Hp. tauto.
  - rewrite set_pc_other by auto. apply I.
Qed.
Lemma wf_step : forall h i f p (e : event V),
  (forall j, well_formed j h (phase_of (f j))) ->
  match e with EInv j _ => j | ELin j _ _ => j | ERes j _ _ => j end = i ->
  well_formed i (h ++ [e]) (phase_of p) ->
  forall j, well_formed j (h ++ [e]) (phase_of (set_pc f i p j)).
Proof.
  intros h i f p e H E W j. destruct (Nat.eq_dec j i) as [->|Hn].
  - rewrite set_pc_same; auto.
  - rewrite set_pc_other by auto. apply wf_other; auto. lia.
Qed.
Lemma wf_same : forall h i f p, (forall j, well_formed j h (phase_of (f j))) -> phase_of p = phase_of (f i) ->
  forall j, @well_formed V j h (phase_of (set_pc f i p j)).
Proof.
  intros h i f p H E j. destruct (Nat.eq_dec j i) as [->|Hn].
  - rewrite set_pc_same, E; auto.
  - rewrite set_pc_other by auto. auto.
Qed.

Lemma inv_init : inv (initial q0).
Proof.
  split; simpl.
  - intros; split; discriminate.
  - exists q0. split; [constructor|reflexivity].
  - intros; constructor.
Qed.

Lemma inv_step : forall s i c s', inv s -> qstep i c s = Some s' -> inv s'.
Proof.
  intros s i c s' I E. pose proof I as [Hm [A [HR HA]] HW].
  unfold qstep in E. destruct (pcs s i) as [|o|o|v| |o r] eqn:Ep.
  - inversion E; subst s'; clear E. split; cbn [items owner pcs hist].
    + apply mutex_out; auto. rewrite Ep; auto.
    + exists A. rewrite effects_app. cbn. rewrite app_nil_r. split; auto.
      unfold abs_ok in *; cbn [items owner pcs]. destruct (owner s) as [k|] eqn:Ek; auto.
      rewrite set_pc_other; auto. intros ->. pose proof (proj2 (Hm i) eq_refl) as Z. rewrite Ep in Z. discriminate.
    + apply wf_step; auto. cbn [phase_of]. apply wf_inv. specialize (HW i). rewrite Ep in HW; exact HW.
  - destruct (owner s) as [k|] eqn:Ek; [discriminate|]. inversion E; subst s'; clear E. split; cbn [items owner pcs hist].
    + intros j. destruct (Nat.eq_dec j i) as [->|Hn].
      * rewrite set_pc_same. cbn. tauto.
      * rewrite set_pc_other by auto. rewrite Hm. split; [discriminate|]. intros X; inversion X; congruence.
    + exists A. split; auto. unfold abs_ok in *; cbn [items owner pcs]. rewrite Ek in HA. rewrite set_pc_same. auto.
    + apply wf_same; auto. rewrite Ep; auto.
  - assert (Eo: owner s = Some i) by (apply Hm; rewrite Ep; auto).
    unfold abs_ok in HA. rewrite Eo, Ep in HA. subst A.
    pose proof (HW i) as HWi. rewrite Ep in HWi. cbn [phase_of] in HWi.
    destruct o as [v| |].
    + inversion E; subst s'; clear E. split; cbn [items owner pcs hist].
      * apply mutex_keep; auto. rewrite Ep; discriminate.
      * exists (items s ++ [v]). rewrite effects_app. split.
        -- cbn. econstructor; [exact HR|]. simpl; auto.
        -- unfold abs_ok; cbn [items owner pcs]. rewrite Eo, set_pc_same. auto.
      * apply wf_step; auto. apply wf_lin; auto.
    + destruct (items s) as [|v t] eqn:Ei.
      * inversion E; subst s'; clear E. split; cbn [items owner pcs hist].
        -- apply mutex_keep; auto. rewrite Ep; discriminate.
        -- exists []. rewrite effects_app. split.
           ++ cbn. econstructor; [exact HR|]. simpl; auto.
           ++ unfold abs_ok; cbn [items owner pcs]. rewrite Eo, set_pc_same. auto.
        -- apply wf_step; auto. apply wf_lin; auto.
      * inversion E; subst s'; clear E. split; cbn [items owner pcs hist].
        -- apply mutex_keep; auto. rewrite Ep; discriminate.
        -- exists (v :: t). split; auto. unfold abs_ok; cbn [items owner pcs]. rewrite Eo, set_pc_same. split; eauto.
        -- apply wf_same; auto. rewrite Ep; auto.
    + inversion E; subst s'; clear E. split; cbn [items owner pcs hist].
      * apply mutex_keep; auto. rewrite Ep; discriminate.
      * exists (items s). split; auto. unfold abs_ok; cbn [items owner pcs]. rewrite Eo, set_pc_same. exists []; auto.
      * apply wf_same; auto. rewrite Ep; auto.
  - assert (Eo: owner s = Some i) by (apply Hm; rewrite Ep; auto).
    unfold abs_ok in HA. rewrite Eo, Ep in HA. destruct HA as [-> [t Et]].
    pose proof (HW i) as HWi. rewrite Ep in HWi. cbn [phase_of] in HWi.
    inversion E; subst s'; clear E. split; cbn [items owner pcs hist].
    + apply mutex_keep; auto. rewrite Ep; discriminate.
    + exists t. rewrite effects_app. split.
      * cbn. econstructor; [exact HR|]. rewrite Et. simpl; auto.
      * unfold abs_ok; cbn [items owner pcs]. rewrite Eo, set_pc_same, Et. auto.
    + apply wf_step; auto. apply wf_lin; auto.
  - assert (Eo: owner s = Some i) by (apply Hm; rewrite Ep; auto).
    unfold abs_ok in HA. rewrite Eo, Ep in HA. destruct HA as [ini HA].
    pose proof (HW i) as HWi. rewrite Ep in HWi. cbn [phase_of] in HWi.
    destruct (items s) as [|v t] eqn:Ei.
    + inversion E; subst s'; clear E. split; cbn [items owner pcs hist].
      * apply mutex_keep; auto. rewrite Ep; discriminate.
      * exists []. rewrite effects_app. split.
        -- cbn. econstructor; [exact HR|]. simpl; auto.
        -- unfold abs_ok; cbn [items owner pcs]. rewrite Eo, set_pc_same. auto.
      * apply wf_step; auto. apply wf_lin; auto.
    + inversion E; subst s'; clear E. split; cbn [items owner pcs hist].
      * apply mutex_keep; auto. rewrite Ep; discriminate.
      * exists A. split; auto. unfold abs_ok; cbn [items owner pcs]. rewrite Eo, set_pc_same. exists (ini ++ [v]).
        rewrite <- app_assoc; auto.
      * apply wf_same; auto. rewrite Ep; auto.
  - assert (Eo: owner s = Some i) by (apply Hm; rewrite Ep; auto).
    unfold abs_ok in HA. rewrite Eo, Ep in HA. subst A.
    inversion E; subst s'; clear E. split; cbn [items owner pcs hist].
    + intros j. destruct (Nat.eq_dec j i) as [->|Hn].
      * rewrite set_pc_same. cbn. split; discriminate.
      * rewrite set_pc_other by auto. rewrite Hm. split; [|discriminate]. intros X; congruence.
    + exists (items s). rewrite effects_app. cbn. rewrite app_nil_r. split; auto.
    + apply wf_step; auto. cbn [phase_of]. apply wf_res. specialize (HW i). rewrite Ep in HW; exact HW.
Qed.

Lemma inv_reach : forall s, qreach q0 s -> inv s.
Proof. induction 1; [apply inv_init|eapply inv_step; eauto]. Qed.
End Proof.

(* every interleaving of any number of threads is linearizable *)
Theorem queue_linearizable : forall V (q0 : list V) s, qreach q0 s ->
  (exists A, fifo_run q0 (effects (hist s)) A /\ (owner s = None -> A = items s)) /\
  (forall i, exists p, well_formed i (hist s) p).
Proof.
  intros V q0 s R. apply inv_reach in R. destruct R as [Hm [A [HR HA]] HW]. split.
  - exists A. split; auto. intros E. unfold abs_ok in HA. rewrite E in HA. auto.
  - intros i. eauto.
Qed.
Print Assumptions queue_linearizable.

(* at most one thread is inside a critical section *)
Theorem queue_mutual_exclusion : forall V (q0 : list V) s i j, qreach q0 s ->
  in_cs (pcs s i) = true -> in_cs (pcs s j) = true -> i = j.
Proof.
  intros V q0 s i j R Hi Hj. apply inv_reach in R. apply (i_mutex _ _ R) in Hi. apply (i_mutex _ _ R) in Hj. congruence.
Qed.
Print Assumptions queue_mutual_exclusion.

Lemma fifo_run_values : forall V (q : list V) l q', fifo_run q l q' -> (forall o r, In (o, r) l -> o <> OClear) ->
  q ++ pushed l = popped l ++ q'.
Proof.
  induction 1 as [q|q l q1 o r q2 HR IH HF]; intros NC.
  - simpl. apply app_nil_r.
  - unfold pushed, popped in *. rewrite !flat_map_app, app_assoc, IH.
    2:{ intros; apply (NC o0 r0). apply in_or_app; auto. }
    destruct o as [v| |]; simpl in HF.
    + destruct HF as [-> ->]. simpl. rewrite app_nil_r, <- app_assoc. reflexivity.
    + destruct q1 as [|v t]; destruct HF as [-> ->]; simpl; rewrite ?app_nil_r; auto. rewrite <- app_assoc. reflexivity.
    + exfalso; apply (NC OClear r); auto. apply in_or_app; simpl; auto.
Qed.

(* without clear(): pops hand out the initial and pushed items in order, each once, nothing is lost *)
Theorem queue_fifo_no_loss : forall V (q0 : list V) s, qreach q0 s -> (forall i r, ~ In (ELin i OClear r) (hist s)) ->
  owner s = None -> q0 ++ pushed (effects (hist s)) = popped (effects (hist s)) ++ items s.
Proof.
  intros V q0 s R NC Ho. destruct (queue_linearizable _ _ _ R) as [[A [HR HA]] _]. rewrite <- (HA Ho).
  apply fifo_run_values; auto. intros o r Hi ->. unfold effects in Hi. apply in_flat_map in Hi. destruct Hi as [e [He Hi]].
  destruct e as [?|j o r'|?]; simpl in Hi; try tauto. destruct Hi as [Hi|[]]. inversion Hi; subst. eapply NC; eauto.
Qed.
Print Assumptions queue_fifo_no_loss.

(* a non-trivial reachable state: two threads, interleaved push and pop *)
Fixpoint qrun (l : list (nat * op nat)) (s : qstate nat) : option (qstate nat) :=
  match l with [] => Some s | (i, c) :: t => match qstep i c s with Some s' => qrun t s' | None => None end end.
Lemma qrun_reach : forall q0 l s s', qreach q0 s -> qrun l s = Some s' -> qreach q0 s'.
Proof.
  intros q0; induction l as [|[i c] l IH]; intros s s' R E; simpl in E; [inversion E; subst; auto|].
  destruct (qstep i c s) eqn:Es; [|discriminate]. eapply IH; [|exact E]. econstructor; eauto.
Qed.
Example queue_reachable : exists s, qreach [1] s /\ owner s = None /\ items s = [7] /\
  effects (hist s) = [(OPush 7, RUnit); (OPop, ROpt (Some 1))].
Proof.
  destruct (qrun [(0, OPush 7); (1, OPop); (0, OPop); (0, OPop); (0, OPop); (1, OPop); (1, OPop); (1, OPop); (1, OPop)] (initial [1])) as [s|] eqn:E; [|discriminate].
  exists s. split; [eapply qrun_reach; [constructor|exact E]|]. vm_compute in E. inversion E; subst; auto.
Qed.
