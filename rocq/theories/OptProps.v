(* Optimizers and their callbacks (C52, C53, C56, C104, C105, C107). *)
From Verif Require Import SimplexModel SimplexProps HyperProps OptModel.

(* ---- C52: grid search ---- *)
Section GridProofs.
Variables (V M : Type) (f : V -> R).
(* the callbacks never ask to stop and leave x_current alone *)
Definition passive (cbs : list (callback (V * M))) : Prop :=
  forall x m, exists m', execute_post cbs (x, m) = ((x, m'), false).
(* position k of the grid: x there is less than everything before and no greater than everything after *)
Definition first_minimiser (grid : list V) (x : V) : Prop :=
  exists k, nth_error grid k = Some x /\
    (forall i y, (i < k)%nat -> nth_error grid i = Some y -> f x < f y) /\
    (forall i y, nth_error grid i = Some y -> f x <= f y).
Lemma first_minimiser_snoc : forall l x y, first_minimiser l x ->
  (f y < f x -> first_minimiser (l ++ [y]) y) /\ (f x <= f y -> first_minimiser (l ++ [y]) x).
Proof.
  intros l x y (k & Hk & Hb & Ha). split; intros H.
  - exists (length l). split; [rewrite nth_error_app2, Nat.sub_diag by lia; reflexivity|]. split.
    + intros i z Hi Hz. rewrite nth_error_app1 in Hz by auto. specialize (Ha i z Hz). lra.
    + intros i z Hz. destruct (Nat.lt_ge_cases i (length l)).
      * rewrite nth_error_app1 in Hz by auto. specialize (Ha i z Hz). lra.
      * rewrite nth_error_app2 in Hz by auto. destruct (i - length l)%nat as [|n]; [|destruct n; discriminate]. injection Hz as <-. lra.
  - assert (Hkl : (k < length l)%nat) by (apply nth_error_Some; congruence).
    exists k. split; [rewrite nth_error_app1; auto|]. split.
    + intros i z Hi Hz. rewrite nth_error_app1 in Hz by lia. eauto.
    + intros i z Hz. destruct (Nat.lt_ge_cases i (length l)).
      * rewrite nth_error_app1 in Hz by auto. eauto.
      * rewrite nth_error_app2 in Hz by auto. destruct (i - length l)%nat as [|n]; [|destruct n; discriminate]. injection Hz as <-. lra.
Qed.
Lemma grid_loop_spec : forall cbs, passive cbs -> forall rest l m x, first_minimiser l x ->
  exists y, grid_loop V M f cbs rest m (f x) x false = (y, f y) /\ first_minimiser (l ++ rest) y.
Proof.
  intros cbs HP rest. induction rest as [|y rest IH]; intros l m x Hx; cbn [grid_loop].
  - exists x. rewrite app_nil_r. auto.
  - destruct (HP y m) as (m' & Hm). rewrite Hm. destruct (first_minimiser_snoc l x y Hx) as [H1 H2].
    replace (l ++ y :: rest) with ((l ++ [y]) ++ rest) by (rewrite <- app_assoc; reflexivity).
    destruct (ltb (f y) (f x)) eqn:E.
    + apply IH. apply H1. now apply ltb_true.
    + apply IH. apply H2. now apply ltb_false.
Qed.
Theorem C52_grid : forall cbs grid m, passive cbs -> grid <> [] ->
  exists x, grid_optimize V M f cbs grid m = Ok (x, f x) /\ first_minimiser grid x.
Proof.
  intros cbs grid m HP Hne. destruct grid as [|x rest]; [contradiction|]. cbn [grid_optimize].
  destruct (grid_loop_spec cbs HP rest [x] m x) as (y & Hy & Hm).
  - exists 0%nat. split; auto. split; [intros; lia|]. intros [|i] y Hy; cbn in Hy; [injection Hy as <-; lra|destruct i; discriminate].
  - exists y. rewrite Hy. auto.
Qed.
End GridProofs.
(* optimizers without callbacks are passive *)
Example C52_no_callbacks : forall V M, passive V M [].
Proof. intros V M x m. exists m. reflexivity. Qed.
(* with a callback that stops the search, the points seen so far are covered *)
Theorem C52_grid_early_stop : forall (V : Type) (f : V -> R) (stop_at : V -> bool) grid, grid <> [] ->
  let cb := Callback None (Some (fun w : V * unit => (w, stop_at (fst w)))) in
  exists x pre post, grid = pre ++ post /\ pre <> [] /\ grid_optimize V unit f [cb] grid tt = Ok (x, f x) /\ first_minimiser V f pre x /\
    (post = [] \/ exists l y, pre = l ++ [y] /\ stop_at y = true).
Proof.
  intros V f stop_at grid Hne cb. destruct grid as [|x0 rest]; [contradiction|]. cbn [grid_optimize].
  assert (G : forall rest l x, l <> [] -> first_minimiser V f l x ->
    exists y pre post, l ++ rest = pre ++ post /\ pre <> [] /\ grid_loop V unit f [cb] rest tt (f x) x false = (y, f y) /\ first_minimiser V f pre y /\
      (post = [] \/ exists l' z, pre = l' ++ [z] /\ stop_at z = true)).
  { clear. induction rest as [|y rest IH]; intros l x Hl Hx; cbn [grid_loop].
    - exists x, l, []. split; auto.
    - assert (E : execute_post [cb] (y, tt) = ((y, tt), stop_at y)) by reflexivity. rewrite E.
      destruct (first_minimiser_snoc V f l x y Hx) as [H1 H2].
      assert (Hnn : l ++ [y] <> []) by (destruct l; discriminate).
      assert (Hs : forall v, first_minimiser V f (l ++ [y]) v -> exists u pre post, l ++ y :: rest = pre ++ post /\ pre <> [] /\
         grid_loop V unit f [cb] rest tt (f v) v (stop_at y) = (u, f u) /\ first_minimiser V f pre u /\ (post = [] \/ exists l' z, pre = l' ++ [z] /\ stop_at z = true)).
      { intros v Hv. destruct (stop_at y) eqn:Es.
        - exists v, (l ++ [y]), rest. split; [rewrite <- app_assoc; reflexivity|]. split; auto. split; [destruct rest; reflexivity|]. split; auto.
          right. eauto.
        - destruct (IH (l ++ [y]) v Hnn Hv) as (u & pre & post & Hu). exists u, pre, post. rewrite <- app_assoc in Hu. exact Hu. }
      destruct (ltb (f y) (f x)) eqn:El; apply Hs; [apply H1; now apply ltb_true|apply H2; now apply ltb_false]. }
  destruct (G rest [x0] x0) as (y & pre & post & H1 & H2 & H3 & H4 & H5); [discriminate| |].
  - exists 0%nat. split; auto. split; [intros; lia|]. intros [|i] y Hy; cbn in Hy; [injection Hy as <-; lra|destruct i; discriminate].
  - exists y, pre, post. rewrite H3. auto.
Qed.

(* ---- C56: callbacks ---- *)
(* the hooks run one after the other, each on the state left by the previous one; flags are their answers *)
Inductive runs {W : Type} : list (W -> W * bool) -> W -> W -> list bool -> Prop :=
| runs_nil : forall w, runs [] w w []
| runs_cons : forall h hs w w1 w2 b bs, h w = (w1, b) -> runs hs w1 w2 bs -> runs (h :: hs) w w2 (b :: bs).
Fixpoint present {A} (l : list (option A)) : list A :=
  match l with [] => [] | Some a :: t => a :: present t | None :: t => present t end.
Lemma runs_length : forall W (hs : list (W -> W * bool)) w w' bs, runs hs w w' bs -> length bs = length hs.
Proof. induction 1; cbn; auto. Qed.
Lemma exec_hooks_run : forall W (hs : list (option (W -> W * bool))) w b0, let r := fold_left exec_hook hs (w, b0) in
  exists bs, runs (present hs) w (fst r) bs /\ (snd r = true <-> b0 = true \/ In true bs).
Proof.
  intros W hs. induction hs as [|h hs IH]; intros w b0; cbn [fold_left present].
  - exists []. split; [constructor|]. cbn. tauto.
  - destruct h as [g|]; cbn [exec_hook]; [|apply IH]. cbn [fst snd]. destruct (g w) as [w1 b] eqn:E.
    destruct (IH w1 (b0 || b)%bool) as (bs & Hr & Hb). exists (b :: bs). split; [econstructor; eauto|].
    rewrite Hb, orb_true_iff. cbn. intuition (subst; auto).
Qed.
Theorem C56_all_hooks_run : forall W (cbs : list (callback W)) w,
  (exists bs, runs (present (map pre_hook cbs)) w (fst (execute_pre cbs w)) bs /\ (snd (execute_pre cbs w) = true <-> In true bs)) /\
  (exists bs, runs (present (map post_hook cbs)) w (fst (execute_post cbs w)) bs /\ (snd (execute_post cbs w) = true <-> In true bs)).
Proof.
  intros W cbs w. split; unfold execute_pre, execute_post;
    [destruct (exec_hooks_run W (map pre_hook cbs) w false) as (bs & H1 & H2)|destruct (exec_hooks_run W (map post_hook cbs) w false) as (bs & H1 & H2)];
    exists bs; split; auto; rewrite H2; intuition discriminate.
Qed.

Lemma eqb_eq_R : forall a b, eqb_ a b = true -> a = b.
Proof. intros a b. unfold eqb_. destruct (Req_EM_T a b); auto; discriminate. Qed.
Lemma finish_next : forall M cbs crit w e b, exists w' s, finish M cbs crit w e b = Next w' e s.
Proof.
  intros. unfold finish. destruct (execute_post cbs w) as [w1 b1]. destruct (if b1 then _ else _) as [w2 b2]. eauto.
Qed.
Section OptProofs.
Variables (N : nat) (M : Type) (obj : vec -> R) (grad : vec -> vec) (cbs : list (callback (pub * M))) (crit : option (pub * M -> (pub * M) * bool)).
Variables (max_iter : nat) (tol : R) (hess : vec -> nat -> nat -> R) (solve : (nat -> nat -> R) -> vec -> vec).
Variables (w0 : pub) (step : R) (m0 : M).
Let gd := gd_body N M grad cbs crit.
Let nw := newton_body N M grad cbs crit hess solve.
Let bf := bfgs_body N M grad cbs crit.
Let lp := loop M tol.

(* the world right before the post hooks of a pass *)
Definition gd_mid (w : pub * M) := let w1 := on_pub M (fun p => set_update p (vscale (-1) (grad_old p))) w in
  (on_pub M (move grad) (fst (execute_pre cbs w1)), snd (execute_pre cbs w1)).
Definition nw_mid (w : pub * M) := let w1 := on_pub M (fun p => let p1 := set_old p (grad (x_old p)) (hess (x_old p)) in
                             set_update p1 (vscale (-1) (solve (hess_ p1) (grad_old p1)))) w in
  (on_pub M (move grad) (fst (execute_pre cbs w1)), snd (execute_pre cbs w1)).
Definition bf_mid (w : pub * M) := let w1 := on_pub M (fun p => set_update p (vscale (-1) (mulv N (inv_hess p) (grad_old p)))) w in
  (on_pub M (move grad) (fst (execute_pre cbs w1)), snd (execute_pre cbs w1)).
Lemma gd_mid_eq : forall w, gd w = finish M cbs crit (fst (gd_mid w)) (norm N (grad_new (fst (fst (gd_mid w))))) (snd (gd_mid w)).
Proof. intros w. unfold gd, gd_body, gd_mid. cbn [fst snd]. now destruct (execute_pre cbs _). Qed.
Lemma nw_mid_eq : forall w, nw w = finish M cbs crit (fst (nw_mid w)) (norm N (grad_new (fst (fst (nw_mid w))))) (snd (nw_mid w)).
Proof. intros w. unfold nw, newton_body, nw_mid. cbn [fst snd]. now destruct (execute_pre cbs _). Qed.
Definition bf_upd (w : pub * M) := on_pub M (fun p => set_inv p (bfgs_update N (inv_hess p) (vsub (x_new p) (x_old p)) (vsub (grad_new p) (grad_old p)))) w.
Lemma bf_mid_eq : forall w, bf w = if is_zero N (grad_new (fst (fst (bf_mid w)))) then Return (fst (bf_mid w))
   else finish M cbs crit (bf_upd (fst (bf_mid w))) (norm N (grad_new (fst (fst (bf_mid w))))) (snd (bf_mid w)).
Proof. intros w. unfold bf, bfgs_body, bf_mid, bf_upd. cbn [fst snd]. now destruct (execute_pre cbs _). Qed.

(* C56: a pass asks to stop exactly when one of the hooks it ran, or the objective, asked to *)
Theorem C56_pass_stops : forall w error b,
  exists w' s, finish M cbs crit w error b = Next w' error s /\
  (s = true <-> b = true \/ snd (execute_post cbs w) = true \/
                (exists g, crit = Some g /\ snd (g (fst (execute_post cbs w))) = true)).
Proof.
  intros w error b. unfold finish. destruct (execute_post cbs w) as [w1 b1] eqn:E. cbn [fst snd]. destruct b1.
  - do 2 eexists. split; [reflexivity|]. rewrite orb_true_iff. tauto.
  - unfold execute_criterion, exec_hook. cbn [fst snd]. destruct crit as [g|].
    + destruct (g w1) as [w2 b2] eqn:Eg. do 2 eexists. split; [reflexivity|]. cbn [orb]. rewrite orb_true_iff.
      split; intros H; [destruct H as [|H]; auto; right; right; exists g; rewrite Eg; auto|].
      destruct H as [|[H|(g' & Hg' & H)]]; auto; [discriminate|]. injection Hg' as <-. rewrite Eg in H. auto.
    + do 2 eexists. split; [reflexivity|]. rewrite orb_false_r. split; auto. intros [|[|(g' & Hg' & _)]]; auto; discriminate.
Qed.
(* and the loop then ends without another pass *)
Theorem C56_loop_stops : forall body rem n w e, lp body rem n w e true = (w, n, e, true).
Proof. intros body rem n w e. destruct rem; cbn; auto. now rewrite andb_false_r. Qed.

(* ---- C53 ---- *)
Lemma loop_n : forall body rem n w e s, (snd (fst (fst (lp body rem n w e s))) <= n + rem)%nat.
Proof.
  intros body. induction rem as [|rem IH]; intros n w e s; cbn; [lia|].
  destruct (_ && _)%bool; cbn; [|lia]. destruct (body w); cbn; [|lia]. specialize (IH (S n) w1 (Some error) stop).
  fold lp. lia.
Qed.
Lemma close_consistent : forall r, value (close M obj r) = obj (optimum (close M obj r)).
Proof. intros [[[w n] e] s]. reflexivity. Qed.
Theorem C53_consistent : forall x0,
  let g := gradient_descent N M obj grad cbs crit max_iter tol w0 step m0 x0 in
  let n := newton N M obj grad cbs crit max_iter tol hess solve w0 step m0 x0 in
  let b := bfgs N M obj grad cbs crit max_iter tol w0 step m0 x0 in
  (n_iter g <= max_iter)%nat /\ (n_iter n <= max_iter)%nat /\ (n_iter b <= max_iter)%nat /\
  value g = obj (optimum g) /\ value n = obj (optimum n) /\ value b = obj (optimum b).
Proof.
  intros x0 g n b.
  assert (HL : forall body w e s, (n_iter (close M obj (lp body max_iter 0 w e s)) <= max_iter)%nat).
  { intros body w e s. assert (H := loop_n body max_iter 0 w e s). destruct (lp body max_iter 0 w e s) as [[[w1 n1] e1] s1]. exact H. }
  split; [apply HL|]. split; [apply HL|]. split.
  - unfold b, bfgs. destruct (is_zero _ _); [cbn; lia|apply HL].
  - split; [apply close_consistent|]. split; [apply close_consistent|]. unfold b, bfgs. destruct (is_zero _ _); [reflexivity|apply close_consistent].
Qed.

(* the hooks that run after the move do not touch the new point (line searches have no such hook) *)
Definition keeps_new (h : option (pub * M -> (pub * M) * bool)) : Prop :=
  forall g w, h = Some g -> x_new (fst (fst (g w))) = x_new (fst w) /\ grad_new (fst (fst (g w))) = grad_new (fst w).
Definition hooks_keep : Prop := (forall cb, In cb cbs -> keeps_new (post_hook cb)) /\ keeps_new crit.
Lemma exec_keeps : forall hs w b, (forall h, In h hs -> keeps_new h) ->
  x_new (fst (fst (fold_left exec_hook hs (w, b)))) = x_new (fst w) /\ grad_new (fst (fst (fold_left exec_hook hs (w, b)))) = grad_new (fst w).
Proof.
  induction hs as [|h hs IH]; intros w b H; cbn [fold_left]; auto. destruct h as [g|]; cbn [exec_hook fst snd].
  - destruct (g w) as [w1 b1] eqn:E. destruct (IH w1 (b || b1)%bool) as [-> ->]; [intros; apply H; right; auto|].
    assert (Hk := H (Some g) (or_introl eq_refl) g w eq_refl). rewrite E in Hk. exact Hk.
  - apply IH. intros; apply H; right; auto.
Qed.
Lemma finish_keeps : hooks_keep -> forall w e b w' e' s, finish M cbs crit w e b = Next w' e' s ->
  e' = e /\ x_old (fst w') = x_new (fst w) /\ grad_old (fst w') = grad_new (fst w).
Proof.
  intros [H1 H2] w e b w' e' s H. unfold finish in H.
  assert (Hp := exec_keeps (map post_hook cbs) w false). fold (execute_post cbs w) in Hp.
  destruct Hp as [Hp Hg]. { intros h Hh. apply in_map_iff in Hh. destruct Hh as (cb & <- & Hcb). auto. }
  destruct (execute_post cbs w) as [w1 b1]. cbn [fst] in Hp, Hg. destruct b1.
  - injection H as <- <- _. cbn. auto.
  - unfold execute_criterion in H. assert (Hc := exec_keeps [crit] w1 false). cbn [fold_left] in Hc.
    destruct (exec_hook (w1, false) crit) as [w2 b2] eqn:E. injection H as <- <- _. cbn. split; auto. rewrite <- Hp, <- Hg.
    cbn [fst] in Hc. apply Hc. intros h [<-|[]]; auto.
Qed.
(* invariant of the loop: the last error is the gradient norm at the current point *)
Definition err_ok (w : pub * M) (e : option R) : Prop := forall r, e = Some r -> r = norm N (grad (x_old (fst w))).
Definition body_ok (body : pub * M -> pass M) : Prop :=
  forall w w' e s, body w = Next w' e s -> e = norm N (grad (x_old (fst w'))).
Lemma loop_exit : forall body, body_ok body -> forall rem n w e s, err_ok w e ->
  let '(w', n', e', s') := lp body rem n w e s in
  n' = (n + rem)%nat \/ s' = true \/ norm N (grad (x_old (fst w'))) <= tol \/
  (exists wp, body wp = Return w').
Proof.
  intros body Hb. induction rem as [|rem IH]; intros n w e s He; cbn [lp loop]; [left; lia|].
  destruct (match e with None => true | Some r => ltb tol r end && negb s)%bool eqn:E; cbn.
  - destruct (body w) as [w' e' s'|w'] eqn:Eb.
    + specialize (IH (S n) w' (Some e') s'). fold lp. destruct (lp body rem (S n) w' (Some e') s') as [[[wf nf] ef] sf].
      destruct IH as [H|H]; auto. { intros r Hr. injection Hr as <-. eapply Hb; eauto. } left. lia.
    + right. right. right. eauto.
  - apply andb_false_iff in E. destruct E as [E|E].
    + destruct e as [r|]; [|discriminate]. apply ltb_false in E. right. right. left. rewrite <- (He r eq_refl). auto.
    + apply negb_false_iff in E. auto.
Qed.
Lemma mid_grad : forall w, grad_new (fst (on_pub M (move grad) w)) = grad (x_new (fst (on_pub M (move grad) w))).
Proof. intros w. reflexivity. Qed.
Lemma gd_ok : hooks_keep -> body_ok gd.
Proof.
  intros HK w w' e s H. rewrite gd_mid_eq in H. apply (finish_keeps HK) in H. destruct H as (-> & -> & _).
  unfold gd_mid. cbn [fst]. now rewrite mid_grad.
Qed.
Lemma nw_ok : hooks_keep -> body_ok nw.
Proof.
  intros HK w w' e s H. rewrite nw_mid_eq in H. apply (finish_keeps HK) in H. destruct H as (-> & -> & _).
  unfold nw_mid. cbn [fst]. now rewrite mid_grad.
Qed.
Lemma bf_ok : hooks_keep -> body_ok bf.
Proof.
  intros HK w w' e s H. rewrite bf_mid_eq in H. destruct (is_zero _ _); [discriminate|]. apply (finish_keeps HK) in H. destruct H as (-> & -> & _).
  reflexivity.
Qed.
(* stopping before max_iter without a request means convergence at the returned point *)
Theorem C53_converged : hooks_keep -> forall x0,
  let g := gradient_descent N M obj grad cbs crit max_iter tol w0 step m0 x0 in
  let n := newton N M obj grad cbs crit max_iter tol hess solve w0 step m0 x0 in
  ((n_iter g < max_iter)%nat -> stopped g = false -> norm N (grad (optimum g)) <= tol) /\
  ((n_iter n < max_iter)%nat -> stopped n = false -> norm N (grad (optimum n)) <= tol).
Proof.
  intros HK x0 g n. split; intros Hn Hs.
  - assert (H := loop_exit gd (gd_ok HK) max_iter 0 (set_old (start w0 step x0) (grad x0) (hess_ w0), m0) None false).
    unfold g, gradient_descent in *. fold gd lp in Hn, Hs |- *.
    destruct (lp gd max_iter 0 _ None false) as [[[wf nf] ef] sf]. cbn in *.
    destruct H as [H|[H|[H|(wp & H)]]]; [intros r Hr; discriminate|lia|congruence|auto|].
    rewrite gd_mid_eq in H. destruct (C56_pass_stops (fst (gd_mid wp)) (norm N (grad_new (fst (fst (gd_mid wp))))) (snd (gd_mid wp))) as (a & b & E & _).
    rewrite E in H. discriminate.
  - assert (H := loop_exit nw (nw_ok HK) max_iter 0 (start w0 step x0, m0) None false).
    unfold n, newton in *. fold nw lp in Hn, Hs |- *.
    destruct (lp nw max_iter 0 _ None false) as [[[wf nf] ef] sf]. cbn in *.
    destruct H as [H|[H|[H|(wp & H)]]]; [intros r Hr; discriminate|lia|congruence|auto|].
    rewrite nw_mid_eq in H. destruct (C56_pass_stops (fst (nw_mid wp)) (norm N (grad_new (fst (fst (nw_mid wp))))) (snd (nw_mid wp))) as (a & b & E & _).
    rewrite E in H. discriminate.
Qed.
(* BFGS: the same, except that when an iterate hits an exactly zero gradient the previous iterate is returned *)
Theorem C53_bfgs_converged_partial : hooks_keep -> 0 <= tol -> forall x0,
  let b := bfgs N M obj grad cbs crit max_iter tol w0 step m0 x0 in
  (n_iter b < max_iter)%nat -> stopped b = false ->
  norm N (grad (optimum b)) <= tol \/
  (exists p : pub, optimum b = x_old p /\ x_new p = vadd (x_old p) (vscale (h_ p) (update p)) /\
     grad_new p = grad (x_new p) /\ dot N (grad_new p) (grad_new p) = 0).
Proof.
  intros HK Ht x0 b Hn Hs. unfold b, bfgs in *. destruct (is_zero N _) eqn:Ez.
  - left. cbn in *. unfold is_zero in Ez. apply eqb_eq_R in Ez. unfold norm. rewrite Ez, sqrt_0. auto.
  - assert (H := loop_exit bf (bf_ok HK) max_iter 0 (set_old (set_inv (start w0 step x0) identity) (grad x0) (hess_ w0), m0) (Some (norm N (grad x0))) false).
    fold bf lp in Hn, Hs |- *. cbn [grad_old set_old] in *.
    destruct (lp bf max_iter 0 _ _ false) as [[[wf nf] ef] sf]. cbn in *.
    destruct H as [H|[H|[H|(wp & H)]]]; [intros r Hr; now injection Hr as <-|lia|congruence|auto|].
    right. rewrite bf_mid_eq in H. destruct (is_zero N (grad_new (fst (fst (bf_mid wp))))) eqn:Ez2.
    + injection H as <-. exists (fst (fst (bf_mid wp))). split; [reflexivity|]. split; [reflexivity|]. split; [reflexivity|now apply eqb_eq_R in Ez2].
    + destruct (C56_pass_stops (bf_upd (fst (bf_mid wp))) (norm N (grad_new (fst (fst (bf_mid wp))))) (snd (bf_mid wp))) as (a & c & E & _).
      rewrite E in H. discriminate.
Qed.
End OptProofs.

(* f(x) = x^2 / 2 from 1 with unit step: BFGS reaches the minimum 0 and returns 1 *)
Theorem C53_bfgs_converged_refuted : exists (obj : vec -> R) (grad : vec -> vec) x0, forall w0,
  let b := bfgs 1 unit obj grad [] None 10 (1 / 10) w0 1 tt x0 in
  (n_iter b < 10)%nat /\ stopped b = false /\ 1 / 10 < norm 1 (grad (optimum b)).
Proof.
  exists (fun x => x 0%nat * x 0%nat / 2), (fun x => x), (fun _ => 1). intros w0 b.
  assert (Hn1 : norm 1 (fun _ => 1) = 1) by (unfold norm, dot; cbn; replace (0 + 1 * 1) with 1 by ring; apply sqrt_1).
  assert (Hz : is_zero 1 (fun _ => 1) = false).
  { unfold is_zero, eqb_, dot. cbn. destruct (Req_EM_T _ _); auto; lra. }
  assert (E : b = Report (fun _ => 1) (1 * 1 / 2) 0 (Some (norm 1 (fun _ => 1))) false).
  { unfold b, bfgs. cbn [grad_old set_old]. rewrite Hz. cbn [loop].
    rewrite Hn1. replace (ltb (1 / 10) 1) with true by (symmetry; apply ltb_true; lra). cbn [andb negb].
    unfold bfgs_body. cbn [execute_pre map fold_left].
    replace (is_zero 1 _) with true; [reflexivity|].
    symmetry. unfold is_zero, eqb_, dot. cbn. unfold vadd, vscale, mulv, identity. cbn.
    destruct (Req_EM_T _ _) as [|Hne]; auto. exfalso. apply Hne. ring. }
  rewrite E. cbn [n_iter stopped optimum]. split; [lia|]. split; auto. rewrite Hn1. lra.
Qed.

(* ---- C104: with a line search satisfying Armijo, gradient descent never increases the objective ---- *)
Section Descent.
Variables (N : nat) (M : Type) (obj : vec -> R) (grad : vec -> vec) (cbs : list (callback (pub * M))) (crit : option (pub * M -> (pub * M) * bool)).
Hypothesis obj_ext : forall x y, (forall r, (r < N)%nat -> x r = y r) -> obj x = obj y.
(* the pre hooks choose h only, and along the steepest descent direction their step satisfies Armijo *)
Definition armijo_hooks (gamma : R) : Prop := forall w : pub * M, let w' := fst (execute_pre cbs w) in
  grad_old (fst w) = grad (x_old (fst w)) -> update (fst w) = vscale (-1) (grad_old (fst w)) ->
  x_old (fst w') = x_old (fst w) /\ update (fst w') = update (fst w) /\
  (dot N (grad_old (fst w)) (update (fst w)) < 0 ->
     0 <= h_ (fst w') /\
     obj (vadd (x_old (fst w)) (vscale (h_ (fst w')) (update (fst w))))
       <= obj (x_old (fst w)) + gamma * h_ (fst w') * dot N (grad_old (fst w)) (update (fst w))).
Lemma gd_pass_descends : forall gamma, 0 <= gamma -> armijo_hooks gamma -> hooks_keep M cbs crit -> forall w w' e s,
  grad_old (fst w) = grad (x_old (fst w)) -> gd_body N M grad cbs crit w = Next w' e s ->
  obj (x_old (fst w')) <= obj (x_old (fst w)) /\ grad_old (fst w') = grad (x_old (fst w')).
Proof.
  intros gamma Hg HA HK w w' e s HG H. rewrite gd_mid_eq in H. apply (finish_keeps M cbs crit HK) in H. destruct H as (_ & -> & ->).
  unfold gd_mid. cbn [fst]. split; [|apply mid_grad]. set (w1 := on_pub M (fun p => set_update p (vscale (-1) (grad_old p))) w).
  destruct (HA w1) as (Hx & Hu & Hd); [exact HG|reflexivity|]. cbn [on_pub move fst set_new x_new]. rewrite Hx, Hu.
  change (x_old (fst w1)) with (x_old (fst w)) in *. change (grad_old (fst w1)) with (grad_old (fst w)) in *.
  change (update (fst w1)) with (vscale (-1) (grad_old (fst w))) in *.
  rewrite dot_scale_r in Hd. destruct (Rle_lt_or_eq_dec _ _ (dot_pos N (grad_old (fst w)))) as [Hp|Hz].
  - destruct Hd as [H0 H1]; [lra|]. assert (0 <= gamma * h_ (fst (fst (execute_pre cbs w1)))) by (apply Rmult_le_pos; auto). nra.
  - right. apply obj_ext. intros r Hr. unfold vadd, vscale. rewrite (dot_zero N _ (eq_sym Hz) r Hr). ring.
Qed.
Theorem C104_monotone : forall gamma, 0 <= gamma -> armijo_hooks gamma -> hooks_keep M cbs crit ->
  forall max_iter tol w0 step m0 x0,
  value (gradient_descent N M obj grad cbs crit max_iter tol w0 step m0 x0) <= obj x0.
Proof.
  intros gamma Hg HA HK max_iter tol w0 step m0 x0. unfold gradient_descent.
  assert (G : forall rem n w e s, grad_old (fst w) = grad (x_old (fst w)) -> let r := loop M tol (gd_body N M grad cbs crit) rem n w e s in
     obj (x_old (fst (fst (fst (fst r))))) <= obj (x_old (fst w))).
  { induction rem as [|rem IH]; intros n w e s HG; cbn [loop]; [cbn; lra|].
    destruct (_ && _)%bool; [|cbn; lra]. destruct (gd_body N M grad cbs crit w) as [w' e' s'|w'] eqn:E.
    - destruct (gd_pass_descends gamma Hg HA HK w w' e' s' HG E) as [H1 HG']. specialize (IH (S n) w' (Some e') s' HG'). cbn zeta in IH. lra.
    - rewrite gd_mid_eq in E. destruct (finish_next M cbs crit (fst (gd_mid M grad cbs w)) (norm N (grad_new (fst (fst (gd_mid M grad cbs w))))) (snd (gd_mid M grad cbs w))) as (a & b & E').
      rewrite E' in E. discriminate. }
  specialize (G max_iter 0%nat (set_old (start w0 step x0) (grad x0) (hess_ w0), m0) None false eq_refl).
  destruct (loop _ _ _ _ _ _ _ _) as [[[w n] e] s]. exact G.
Qed.
End Descent.

(* ---- C105: the BFGS update ---- *)
Lemma classic_nonzero : forall N (u : vec), (exists r, (r < N)%nat /\ u r <> 0) \/ (forall r, (r < N)%nat -> u r = 0).
Proof.
  induction N as [|N IH]; intros u; [right; intros; lia|]. destruct (IH u) as [(r & Hr & Hn)|H].
  - left. exists r. split; auto.
  - destruct (Req_EM_T (u N) 0) as [E|E]; [right|left; exists N; auto]. intros r Hr. destruct (Nat.eq_dec r N) as [->|]; auto. apply H. lia.
Qed.
Section Bfgs.
Variable N : nat.
Definition symmetric (B : nat -> nat -> R) : Prop := forall i j, (i < N)%nat -> (j < N)%nat -> B i j = B j i.
Definition quad (B : nat -> nat -> R) (z : vec) : R := dot N z (mulv N B z).
Definition positive_definite (B : nat -> nat -> R) : Prop := forall z, (exists r, (r < N)%nat /\ z r <> 0) -> 0 < quad B z.

Lemma bfgs_mulv : forall B s g z i, mulv N (bfgs_update N B s g) z i =
  mulv N B z i + ((1 + dot N g (mulv N B g) / dot N s g) * (s i * dot N s z / dot N s g)
   - (mulv N B g i * dot N s z + s i * dot N (mulv N B g) z) / dot N s g).
Proof.
  intros. unfold mulv at 1, bfgs_update. set (xg := dot N s g). set (hx := mulv N B g).
  rewrite (rsum_ext N _ (fun j => B i j * z j + ((1 + dot N g hx / xg) * (s i / xg) * (s j * z j)
     - (hx i / xg * (s j * z j) + s i / xg * (hx j * z j))))).
  2:{ intros j Hj. unfold Rdiv. ring. }
  rewrite rsum_plus, rsum_minus, rsum_scal, rsum_plus, !rsum_scal. fold (mulv N B z i). unfold dot, Rdiv. ring.
Qed.
(* quasi-Newton condition *)
Theorem C105_secant : forall B s g, dot N s g <> 0 -> forall i, (i < N)%nat -> mulv N (bfgs_update N B s g) g i = s i.
Proof. intros B s g H i Hi. rewrite bfgs_mulv. rewrite (dot_comm N (mulv N B g) g). field. auto. Qed.
Theorem C105_symmetric : forall B s g, symmetric B -> symmetric (bfgs_update N B s g).
Proof.
  intros B s g HB i j Hi Hj. unfold bfgs_update. rewrite (HB i j Hi Hj). unfold Rdiv. ring.
Qed.
Lemma dot_mulv_sym : forall B u v, symmetric B -> dot N u (mulv N B v) = dot N v (mulv N B u).
Proof.
  intros B u v HB. unfold dot, mulv.
  rewrite (rsum_ext N _ (fun i => rsum N (fun j => u i * B i j * v j))) by (intros; rewrite <- rsum_scal; apply rsum_ext; intros; ring).
  rewrite rsum_swap. apply rsum_ext. intros j Hj. rewrite <- rsum_scal. apply rsum_ext. intros i Hi. rewrite (HB i j Hi Hj). ring.
Qed.
Lemma mulv_sub : forall B u v a i, mulv N B (vsub u (vscale a v)) i = mulv N B u i - a * mulv N B v i.
Proof.
  intros. unfold mulv, vsub, vscale. rewrite <- rsum_scal, <- rsum_minus. apply rsum_ext. intros; ring.
Qed.
Lemma bfgs_quad : forall B s g z, symmetric B -> dot N s g <> 0 ->
  quad (bfgs_update N B s g) z =
    quad B (vsub z (vscale (dot N s z / dot N s g) g)) + (dot N s z / dot N s g) * (dot N s z / dot N s g) * dot N s g.
Proof.
  intros B s g z HB Hx. unfold quad. set (xg := dot N s g) in *. set (sz := dot N s z).
  assert (E1 : dot N z (mulv N (bfgs_update N B s g) z) = dot N z (mulv N B z) + ((1 + dot N g (mulv N B g) / xg) * (sz * sz / xg)
       - 2 * (dot N z (mulv N B g) * sz) / xg)).
  { rewrite (dot_ext N z z _ (fun i => mulv N B z i + ((1 + dot N g (mulv N B g) / xg) * sz / xg - dot N (mulv N B g) z / xg) * s i - sz / xg * mulv N B g i)).
    - unfold dot at 1. rewrite (rsum_ext N _ (fun i => z i * mulv N B z i + ((1 + dot N g (mulv N B g) / xg) * sz / xg - dot N (mulv N B g) z / xg) * (s i * z i) - sz / xg * (z i * mulv N B g i))) by (intros; ring).
      rewrite rsum_minus, rsum_plus, !rsum_scal. fold (dot N z (mulv N B z)). fold (dot N s z). fold (dot N z (mulv N B g)). fold sz.
      rewrite (dot_comm N (mulv N B g) z). field. auto.
    - auto.
    - intros r Hr. rewrite bfgs_mulv. fold xg sz. field. auto. }
  rewrite E1. set (a := sz / xg).
  rewrite (dot_ext N (vsub z (vscale a g)) (vsub z (vscale a g)) (mulv N B (vsub z (vscale a g))) (vsub (mulv N B z) (vscale a (mulv N B g)))) by (auto; intros; rewrite mulv_sub; reflexivity).
  rewrite dot_sub_l, !dot_sub_r, !dot_scale_l, !dot_scale_r. rewrite (dot_mulv_sym B g z HB). unfold a. field. auto.
Qed.
Theorem C105_positive_definite : forall B s g, symmetric B -> positive_definite B -> 0 < dot N s g ->
  positive_definite (bfgs_update N B s g).
Proof.
  intros B s g HB HP Hx z (r & Hr & Hz). rewrite bfgs_quad by (auto; lra). set (a := dot N s z / dot N s g).
  assert (Q : forall u, 0 <= quad B u).
  { intros u. destruct (Rle_lt_or_eq_dec _ _ (dot_pos N u)) as [Hp|Hp].
    - left. apply HP. destruct (classic_nonzero N u) as [H|H]; auto. exfalso.
      rewrite (dot_ext N u (fun _ => 0) u (fun _ => 0)) in Hp by auto. unfold dot in Hp. rewrite rsum_zero in Hp by (intros; ring). lra.
    - right. unfold quad, dot. symmetry. apply rsum_zero. intros i Hi. rewrite (dot_zero N u (eq_sym Hp) i Hi). ring. }
  destruct (Req_EM_T a 0) as [Ha|Ha].
  - rewrite Ha. replace (quad B (vsub z (vscale 0 g)) + 0 * 0 * dot N s g) with (quad B (vsub z (vscale 0 g))) by ring.
    apply HP. exists r. split; auto. unfold vsub, vscale. rewrite Rmult_0_l, Rminus_0_r. auto.
  - assert (0 < a * a) by nra. specialize (Q (vsub z (vscale a g))). nra.
Qed.
(* the search direction -B grad is then a descent direction *)
Corollary C105_descent_direction : forall B g, positive_definite B -> (exists r, (r < N)%nat /\ g r <> 0) ->
  dot N g (vscale (-1) (mulv N B g)) < 0.
Proof. intros B g HP Hg. rewrite dot_scale_r. specialize (HP g Hg). unfold quad in HP. lra. Qed.
(* the initial approximation is symmetric positive definite *)
Theorem C105_identity : symmetric identity /\ positive_definite identity.
Proof.
  split; [intros i j _ _; unfold identity; now rewrite Nat.eqb_sym|]. intros z Hz. unfold quad.
  rewrite (dot_ext N z z _ z); auto; [now apply dot_nonzero|]. intros i Hi. unfold mulv. exact (rsum_delta_l N i z Hi).
Qed.
End Bfgs.

(* ---- C107: Newton on a quadratic objective ---- *)
(* grad x = A x - b, solve inverts A, unit step, no callback: one iteration reaches the stationary point *)
Theorem C107_newton_quadratic : forall N A (b : vec) obj solve max_iter tol w0 x0,
  let grad := fun x : vec => vsub (mulv N A x) b in
  (forall v i, (i < N)%nat -> mulv N A (solve A v) i = v i) ->
  (1 <= max_iter)%nat -> 0 <= tol ->
  let r := newton N unit obj grad [] None max_iter tol (fun _ => A) solve w0 1 tt x0 in
  n_iter r = 1%nat /\ forall i, (i < N)%nat -> grad (optimum r) i = 0.
Proof.
  intros N A b obj solve max_iter tol w0 x0 grad Hs Hm Ht r.
  set (x1 := vadd x0 (vscale 1 (vscale (-1) (solve A (grad x0))))).
  assert (G : forall i, (i < N)%nat -> grad x1 i = 0).
  { intros i Hi. unfold grad at 1, vsub, x1.
    assert (E : mulv N A (vadd x0 (vscale 1 (vscale (-1) (solve A (grad x0))))) i = mulv N A x0 i - mulv N A (solve A (grad x0)) i).
    { unfold mulv. rewrite <- rsum_minus. apply rsum_ext. intros. unfold vadd, vscale. ring. }
    rewrite E, Hs by auto. unfold grad, vsub. ring. }
  assert (Hn : norm N (grad x1) = 0).
  { unfold norm, dot. rewrite rsum_zero; [apply sqrt_0|]. intros i Hi. rewrite G by auto. ring. }
  assert (E : optimum r = x1 /\ n_iter r = 1%nat).
  { unfold r, newton. destruct max_iter as [|k]; [lia|]. cbn [loop andb negb]. unfold newton_body. cbn [execute_pre map fold_left].
    unfold finish. cbn [execute_post map fold_left]. unfold execute_criterion, exec_hook, on_pub. cbn [fst snd].
    cbn [move set_new set_update set_old start x_old x_new update grad_old grad_new hess_ h_ inv_hess shift]. fold x1. rewrite Hn.
    destruct k; cbn [loop]; [cbn; auto|]. replace (ltb tol 0) with false by (symmetry; apply ltb_false; auto). cbn. auto. }
  destruct E as [E1 E2]. rewrite E1. auto.
Qed.
(* A = 2 I meets the hypothesis *)
Example C107_instance : forall N v i, (i < N)%nat -> mulv N (fun i j => 2 * delta i j) (vscale (1 / 2) v) i = v i.
Proof.
  intros N v i Hi. unfold mulv, vscale. rewrite (rsum_ext N _ (fun j => delta i j * v j)) by (intros; field).
  now rewrite rsum_delta_l.
Qed.

Print Assumptions C52_grid.
Print Assumptions C53_converged.
Print Assumptions C56_pass_stops.
Print Assumptions C104_monotone.
Print Assumptions C105_positive_definite.
Print Assumptions C107_newton_quadratic.
