(* Line searches (C54, C55, C104, C106). *)
From Verif Require Import SimplexModel SimplexProps HyperProps OptModel OptProps.

Definition armijo (phi : R -> R) (c m a : R) : Prop := phi a <= phi 0 + c * a * m.
Lemma armijo_test : forall phi c m a, (ltb (phi 0 - phi a + c * a * m) 0 = false <-> armijo phi c m a) /\
  (ltb (phi 0 - phi a + c * a * m) 0 = true <-> ~ armijo phi c m a).
Proof.
  intros. unfold armijo. rewrite ltb_true, ltb_false. split; split; intros; lra.
Qed.
Lemma armijo_dec : forall phi c m a, {armijo phi c m a} + {~ armijo phi c m a}.
Proof.
  intros. destruct (ltb (phi 0 - phi a + c * a * m) 0) eqn:E; [right|left]; now apply armijo_test.
Qed.

(* ---- C54 ---- *)
(* along a descent direction the step returned is the first of alpha, alpha beta, alpha beta^2, ... to
   satisfy the Armijo condition *)
Theorem C54_backtracking : forall phi m fuel alpha beta gamma a, m < 0 ->
  backtracking phi m fuel alpha beta gamma = Ok a ->
  exists k, a = alpha * beta ^ k /\ armijo phi gamma m a /\ forall j, (j < k)%nat -> ~ armijo phi gamma m (alpha * beta ^ j).
Proof.
  intros phi m fuel alpha beta gamma a Hm H. unfold backtracking in H. replace (ltb m 0) with true in H by (symmetry; now apply ltb_true).
  revert alpha H. induction fuel as [|f IH]; intros alpha H; cbn in H; [discriminate|].
  destruct (ltb _ 0) eqn:E.
  - apply IH in H. destruct H as (k & Ha & Hs & Hj). exists (S k). split; [rewrite Ha; cbn; ring|]. split; auto.
    intros [|j] Hlt; [rewrite pow_O, Rmult_1_r; now apply armijo_test|].
    replace (alpha * beta ^ S j) with (alpha * beta * beta ^ j) by (cbn; ring). apply Hj. lia.
  - injection H as <-. exists O. split; [cbn; ring|]. split; [now apply armijo_test|]. intros; lia.
Qed.
(* any other direction: the initial step, whatever it does to the objective *)
Theorem C54_not_descent : forall phi m fuel alpha beta gamma, 0 <= m -> backtracking phi m fuel alpha beta gamma = Ok alpha.
Proof. intros. unfold backtracking. now replace (ltb m 0) with false by (symmetry; now apply ltb_false). Qed.
(* with 0 < beta < 1 "earlier tried" is "larger" *)
Corollary C54_no_larger_step : forall phi m fuel alpha beta gamma a, m < 0 -> 0 < alpha -> 0 < beta < 1 ->
  backtracking phi m fuel alpha beta gamma = Ok a ->
  0 < a <= alpha /\ forall j, a < alpha * beta ^ j -> ~ armijo phi gamma m (alpha * beta ^ j).
Proof.
  intros phi m fuel alpha beta gamma a Hm Ha Hb H. apply C54_backtracking in H; auto. destruct H as (k & -> & _ & Hj).
  assert (Hp : forall n, 0 < beta ^ n <= 1).
  { induction n as [|n IHn]; cbn; [lra|]. split; nra. }
  specialize (Hp k) as Hk. split; [split; nra|]. intros j Hlt. apply Hj. destruct (Nat.lt_ge_cases j k) as [|Hge]; auto. exfalso.
  replace j with (k + (j - k))%nat in Hlt by lia. rewrite pow_add in Hlt. specialize (Hp (j - k)%nat).
  assert (0 < alpha * beta ^ k) by nra. nra.
Qed.

(* ---- C106, backtracking ---- *)
Lemma backtrack_terminates : forall phi m beta gamma n alpha, armijo phi gamma m (alpha * beta ^ n) ->
  exists a, backtrack phi m (S n) beta gamma alpha = Ok a.
Proof.
  intros phi m beta gamma. induction n as [|n IH]; intros alpha H.
  - cbn [pow] in H. rewrite Rmult_1_r in H. exists alpha. cbn [backtrack]. now rewrite (proj2 (proj1 (armijo_test _ _ _ _)) H).
  - change (backtrack phi m (S (S n)) beta gamma alpha) with
      (if ltb (phi 0 - phi alpha + gamma * alpha * m) 0 then backtrack phi m (S n) beta gamma (alpha * beta) else Ok alpha).
    destruct (ltb _ 0); [|eauto]. apply IH. replace (alpha * beta * beta ^ n) with (alpha * beta ^ S n) by (cbn; ring). auto.
Qed.
Lemma pow_small : forall beta alpha delta, 0 < beta < 1 -> 0 < alpha -> 0 < delta -> exists n, 0 < alpha * beta ^ n < delta.
Proof.
  intros beta alpha delta Hb Ha Hd. destruct (pow_lt_1_zero beta) with (y := delta / alpha) as (n & Hn).
  - rewrite Rabs_pos_eq; lra.
  - apply Rdiv_lt_0_compat; auto.
  - exists n. specialize (Hn n (Nat.le_refl n)). assert (0 < beta ^ n) by (apply pow_lt; lra). rewrite Rabs_pos_eq in Hn by lra.
    split; [now apply Rmult_lt_0_compat|]. apply (Rmult_lt_compat_l alpha) in Hn; auto. replace (alpha * (delta / alpha)) with delta in Hn by (field; lra). auto.
Qed.
Theorem C106_backtracking_terminates : forall phi m alpha beta gamma,
  derivable_pt_lim phi 0 m -> 0 < alpha -> 0 < beta < 1 -> gamma < 1 ->
  exists fuel a, backtracking phi m fuel alpha beta gamma = Ok a.
Proof.
  intros phi m alpha beta gamma HD Ha Hb Hg. unfold backtracking. destruct (ltb m 0) eqn:E; [|exists O, alpha; auto].
  apply ltb_true in E. destruct (HD ((1 - gamma) * - m)) as (delta & Hd); [apply Rmult_lt_0_compat; lra|].
  destruct (pow_small beta alpha delta Hb Ha (cond_pos delta)) as (n & Hn).
  destruct (backtrack_terminates phi m beta gamma n alpha) as (a & H); [|exists (S n), a; auto].
  set (h := alpha * beta ^ n) in *. specialize (Hd h ltac:(lra)). rewrite Rabs_pos_eq in Hd by lra. specialize (Hd (proj2 Hn)).
  rewrite Rplus_0_l in Hd. apply Rabs_def2 in Hd. destruct Hd as [Hd _]. unfold armijo.
  assert (HH : (phi h - phi 0) / h * h < (m + (1 - gamma) * - m) * h) by (apply Rmult_lt_compat_r; lra).
  replace ((phi h - phi 0) / h * h) with (phi h - phi 0) in HH by (field; lra). nra.
Qed.

(* ---- C55 ---- *)
Section Wolfe.
Variables (phi dphi : R -> R) (m c1 c2 : R).
Theorem C55_wolfe : forall fuel alpha a, wolfe phi m dphi c1 c2 fuel alpha = Ok a ->
  phi a <= phi 0 + c1 * a * m /\ c2 * m <= dphi a.
Proof.
  intros fuel alpha a. unfold wolfe. generalize (Bracket alpha 0 None) as s. induction fuel as [|f IH]; intros s H; cbn [wolfe_loop] in H; [discriminate|].
  unfold wolfe_step in H. destruct (ltb (phi 0 - _ + _) 0) eqn:E1; [eauto|]. destruct (ltb (dphi _) _) eqn:E2; [eauto|].
  injection H as <-. split; [now apply armijo_test in E1|now apply ltb_false in E2].
Qed.
(* the bracket after n passes *)
Fixpoint after (n : nat) (s : bracket) : option bracket :=
  match n with O => Some s | S k => match wolfe_step phi m dphi c1 c2 s with None => None | Some s' => after k s' end end.
Definition bracket_ok (alpha0 : R) (s : bracket) : Prop :=
  0 <= w_min s < w_alpha s /\
  (w_min s = 0 \/ (armijo phi c1 m (w_min s) /\ dphi (w_min s) < c2 * m)) /\
  match w_max s with
  | Some b => w_alpha s = (w_min s + b) / 2 /\ ~ armijo phi c1 m b
  | None => w_alpha s = alpha0 \/ w_alpha s = 2 * w_min s
  end.
Lemma step_ok : forall alpha0 s s', bracket_ok alpha0 s -> wolfe_step phi m dphi c1 c2 s = Some s' -> bracket_ok alpha0 s'.
Proof.
  intros alpha0 [a lo hi] s' (H1 & H2 & H3) H. unfold wolfe_step in H. cbn [w_alpha w_min w_max] in *.
  destruct (ltb (phi 0 - _ + _) 0) eqn:E1; [|destruct (ltb (dphi _) _) eqn:E2; [|discriminate]]; injection H as <-; unfold bracket_ok; cbn [w_alpha w_min w_max].
  - split; [lra|]. split; auto. split; [lra|]. now apply armijo_test.
  - apply armijo_test in E1. apply ltb_true in E2. split; [destruct hi; lra|]. split; auto. destruct hi; [|auto]. destruct H3. split; [lra|auto].
Qed.
Theorem C55_bracket : forall alpha n s, 0 < alpha -> after n (Bracket alpha 0 None) = Some s -> bracket_ok alpha s.
Proof.
  intros alpha n s Ha. assert (H0 : bracket_ok alpha (Bracket alpha 0 None)) by (split; [|split]; cbn; auto; lra).
  revert H0. generalize (Bracket alpha 0 None) as s0. induction n as [|n IH]; intros s0 H0 H; cbn in H; [now injection H as <-|].
  destruct (wolfe_step _ _ _ _ _ s0) as [s1|] eqn:E; [|discriminate]. exact (IH s1 (step_ok alpha s0 s1 H0 E) H).
Qed.

(* ---- C106, Wolfe ---- *)
Hypothesis Hc : 0 < c1 < c2.
Hypothesis Hc2 : c2 < 1.
Hypothesis Hm : m < 0.
Hypothesis Hd0 : dphi 0 = m.
Hypothesis HD : forall x, derivable_pt_lim phi x (dphi x).
Hypothesis Hcont : continuity dphi.
Variable low : R.
Hypothesis Hlow : forall x, 0 <= x -> low <= phi x.

Lemma bracket_phase : forall B, exists delta, 0 < delta /\ forall n lo hi, 0 <= lo < hi -> hi <= B -> armijo phi c1 m lo -> dphi lo < c2 * m -> ~ armijo phi c1 m hi ->
  hi - lo < delta * 2 ^ n -> exists a, wolfe_loop phi m dphi c1 c2 (S n) (Bracket ((lo + hi) / 2) lo (Some hi)) = Ok a.
Proof.
  intros B. assert (Heps : 0 < (c1 - c2) * m) by nra.
  destruct (Heine dphi (fun x => 0 <= x <= B)) with (eps := mkposreal _ Heps) as (delta & Hdelta).
  { apply compact_P3. } { intros x _. apply Hcont. }
  exists delta. split; [apply cond_pos|].
  assert (G : forall lo hi, 0 <= lo < hi -> hi <= B -> armijo phi c1 m lo -> dphi lo < c2 * m -> ~ armijo phi c1 m hi -> delta <= hi - lo).
  { intros lo hi H1 H2 H3 H4 H5. destruct (Rlt_le_dec (hi - lo) delta) as [Hlt|]; auto. exfalso.
    destruct (MVT_cor2 phi dphi lo hi) as (xi & Hx & Hxi); [lra|intros; apply HD|].
    unfold armijo in H3, H5. assert (phi hi - phi lo > c1 * m * (hi - lo)) by lra.
    assert (dphi xi > c1 * m) by (apply Rmult_lt_reg_r with (hi - lo); lra).
    assert (HH := Hdelta xi lo). cbn [pos] in HH. rewrite (Rabs_pos_eq (xi - lo)) in HH by lra.
    specialize (HH ltac:(lra) ltac:(lra) ltac:(lra)). apply Rabs_def2 in HH. lra. }
  induction n as [|n IH]; intros lo hi H1 H2 H3 H4 H5 H6.
  - cbn in H6. specialize (G lo hi H1 H2 H3 H4 H5). lra.
  - change (wolfe_loop phi m dphi c1 c2 (S (S n)) (Bracket ((lo + hi) / 2) lo (Some hi))) with
      (match wolfe_step phi m dphi c1 c2 (Bracket ((lo + hi) / 2) lo (Some hi)) with None => Ok ((lo + hi) / 2) | Some s' => wolfe_loop phi m dphi c1 c2 (S n) s' end).
    unfold wolfe_step. cbn [w_alpha w_min w_max]. set (mid := (lo + hi) / 2) in *. cbn [pow] in H6.
    destruct (ltb (phi 0 - _ + _) 0) eqn:E1; [|destruct (ltb (dphi _) _) eqn:E2; [|eauto]].
    + apply armijo_test in E1. replace ((lo + mid) * (1 / 2)) with ((lo + mid) / 2) by lra. apply IH; auto; unfold mid; try lra.
    + apply armijo_test in E1. apply ltb_true in E2. replace ((mid + hi) * (1 / 2)) with ((mid + hi) / 2) by lra. apply IH; auto; unfold mid; try lra.
Qed.
Lemma pow2_large : forall r, exists n, r < 2 ^ n.
Proof.
  intros r. destruct (Pow_x_infinity 2) with (b := r + 1) as (n & Hn); [rewrite Rabs_pos_eq; lra|].
  exists n. specialize (Hn n (Nat.le_refl n)). rewrite Rabs_pos_eq in Hn by (apply pow_le; lra). lra.
Qed.
Lemma bracket_phase' : forall lo hi, 0 <= lo < hi -> armijo phi c1 m lo -> dphi lo < c2 * m -> ~ armijo phi c1 m hi ->
  exists fuel a, wolfe_loop phi m dphi c1 c2 fuel (Bracket ((lo + hi) / 2) lo (Some hi)) = Ok a.
Proof.
  intros lo hi H1 H2 H3 H4. destruct (bracket_phase hi) as (delta & Hdl & G). destruct (pow2_large ((hi - lo) / delta)) as (n & Hn).
  exists (S n). apply G; auto; try lra. apply (Rmult_lt_compat_l delta) in Hn; auto. replace (delta * ((hi - lo) / delta)) with (hi - lo) in Hn by (field; lra). auto.
Qed.
Lemma expand_phase : forall n lo alpha, 0 <= lo < alpha -> armijo phi c1 m lo -> dphi lo < c2 * m -> ~ armijo phi c1 m (alpha * 2 ^ n) ->
  exists fuel a, wolfe_loop phi m dphi c1 c2 fuel (Bracket alpha lo None) = Ok a.
Proof.
  induction n as [|n IH]; intros lo alpha H1 H2 H3 H4.
  - rewrite pow_O, Rmult_1_r in H4. destruct (bracket_phase' lo alpha H1 H2 H3 H4) as (f & a & H). exists (S f), a. cbn [wolfe_loop]. unfold wolfe_step. cbn [w_alpha w_min w_max].
    rewrite (proj2 (proj2 (armijo_test _ _ _ _)) H4). replace ((lo + alpha) * (1 / 2)) with ((lo + alpha) / 2) by lra. auto.
  - destruct (ltb (phi 0 - phi alpha + c1 * alpha * m) 0) eqn:E1.
    + apply armijo_test in E1. destruct (bracket_phase' lo alpha H1 H2 H3 E1) as (f & a & H). exists (S f), a. cbn [wolfe_loop]. unfold wolfe_step. cbn [w_alpha w_min w_max].
      rewrite (proj2 (proj2 (armijo_test _ _ _ _)) E1). replace ((lo + alpha) * (1 / 2)) with ((lo + alpha) / 2) by lra. auto.
    + destruct (ltb (dphi alpha) (c2 * m)) eqn:E2.
      * destruct (IH alpha (2 * alpha)) as (f & a & H); [lra|now apply armijo_test|now apply ltb_true| |].
        { replace (2 * alpha * 2 ^ n) with (alpha * 2 ^ S n) by (cbn; ring). auto. }
        exists (S f), a. cbn [wolfe_loop]. unfold wolfe_step. cbn [w_alpha w_min w_max]. rewrite E1, E2. auto.
      * exists 1%nat, alpha. cbn [wolfe_loop]. unfold wolfe_step. cbn [w_alpha w_min w_max]. now rewrite E1, E2.
Qed.
Theorem C106_wolfe_terminates : forall alpha, 0 < alpha -> exists fuel a, wolfe phi m dphi c1 c2 fuel alpha = Ok a.
Proof.
  intros alpha Ha. unfold wolfe. destruct (pow2_large (((low - phi 0) / (c1 * m) + 1) / alpha)) as (n & Hn).
  assert (Hcm : c1 * m < 0) by nra.
  apply expand_phase with (n := n); [lra|unfold armijo; lra|rewrite Hd0; nra|].
  apply (Rmult_lt_compat_l alpha) in Hn; auto. replace (alpha * (((low - phi 0) / (c1 * m) + 1) / alpha)) with ((low - phi 0) / (c1 * m) + 1) in Hn by (field; lra).
  set (a := alpha * 2 ^ n) in *. assert (0 < 2 ^ n) by (apply pow_lt; lra). assert (0 < a) by (apply Rmult_lt_0_compat; lra).
  unfold armijo. assert (H1 := Hlow a ltac:(lra)). assert (H2 : c1 * m * ((low - phi 0) / (c1 * m)) = low - phi 0) by (field; lra).
  assert (c1 * m * a < c1 * m * ((low - phi 0) / (c1 * m))) by nra. nra.
Qed.
End Wolfe.

(* phi a = (a - 1)^2 meets the hypotheses with m = -2 *)
Example C106_instance : exists fuel a, wolfe (fun a => (a - 1) * (a - 1)) (-2) (fun a => 2 * (a - 1)) (1 / 10) (9 / 10) fuel 1 = Ok a.
Proof.
  apply C106_wolfe_terminates with (low := 0); try lra.
  - intros x. replace (2 * (x - 1)) with ((1 - 0) * (x - 1) + (x - 1) * (1 - 0)) by ring.
    apply (derivable_pt_lim_mult (fun a => a - 1) (fun a => a - 1)); apply derivable_pt_lim_minus; try apply derivable_pt_lim_id; apply derivable_pt_lim_const.
  - intros x. apply derivable_continuous_pt. apply derivable_pt_mult; [apply derivable_pt_const|apply derivable_pt_minus; [apply derivable_pt_id|apply derivable_pt_const]].
  - intros x _. apply Rle_0_sqr.
Qed.
(* the search may loop forever along a direction of unbounded descent: phi a = -a, m = -1 *)
Theorem C106_unbounded_refuted : forall fuel alpha, 0 < alpha -> wolfe (fun a => - a) (-1) (fun _ => -1) (1 / 10) (9 / 10) fuel alpha = OutOfFuel.
Proof.
  unfold wolfe. intros fuel alpha Ha. generalize 0 as lo. revert alpha Ha. induction fuel as [|f IH]; intros alpha Ha lo; auto. cbn [wolfe_loop]. unfold wolfe_step. cbn [w_alpha w_min w_max].
  replace (ltb _ 0) with false by (symmetry; apply ltb_false; lra). replace (ltb (-1) _) with true by (symmetry; apply ltb_true; lra). apply IH. lra.
Qed.

(* ---- C104 for the library's line searches ---- *)
Lemma ray_0 : forall N (obj : vec -> R), (forall x y, (forall r, (r < N)%nat -> x r = y r) -> obj x = obj y) -> forall x u, obj (ray x u 0) = obj x.
Proof. intros N obj H x u. apply H. intros r Hr. unfold ray, vadd, vscale. ring. Qed.
(* ---- C54 and C55 for the searches as an optimizer runs them ---- *)
(* everything but the step is left alone *)
Definition only_step {M : Type} (w w' : pub * M) : Prop :=
  x_old (fst w') = x_old (fst w) /\ x_new (fst w') = x_new (fst w) /\ update (fst w') = update (fst w) /\
  grad_old (fst w') = grad_old (fst w) /\ grad_new (fst w') = grad_new (fst w) /\ hess_ (fst w') = hess_ (fst w) /\
  inv_hess (fst w') = inv_hess (fst w) /\ snd w' = snd w.
(* the callback acts before the move only, never asks to stop, and leaves a step that satisfies the Armijo
   condition from the current iterate along the current direction, or the initial step if that direction
   does not descend *)
Theorem C54_callback : forall N M (obj : vec -> R) fuel alpha beta gamma (w : pub * M),
  (forall x y, (forall r, (r < N)%nat -> x r = y r) -> obj x = obj y) ->
  let p := fst w in
  let slope := rsum N (fun r => grad_old p r * update p r) in
  exists f, line_search M (backtracking_search N obj fuel alpha beta gamma) = Callback (Some f) None /\
    snd (f w) = false /\ only_step w (fst (f w)) /\
    forall a, backtracking_search N obj fuel alpha beta gamma p = Ok a -> h_ (fst (fst (f w))) = a /\
      (slope < 0 -> (exists k, a = alpha * beta ^ k) /\ obj (fun r => x_old p r + a * update p r) <= obj (x_old p) + gamma * a * slope) /\
      (0 <= slope -> a = alpha).
Proof.
  intros N M obj fuel alpha beta gamma w Hext p slope. eexists. split; [reflexivity|]. cbn beta. fold p.
  destruct (backtracking_search N obj fuel alpha beta gamma p) as [a0| | |] eqn:E; cbn [fst snd];
    (split; [reflexivity|]); (split; [unfold only_step; cbn; repeat split; reflexivity|]); intros a Ha; try discriminate.
  injection Ha as <-. split; [reflexivity|]. unfold backtracking_search in E. change (dot N (grad_old p) (update p)) with slope in E. split.
  - intros Hs. destruct (C54_backtracking _ _ _ _ _ _ _ Hs E) as (k & Hk & Ar & _). split; [eauto|].
    unfold armijo in Ar. rewrite (ray_0 N obj Hext) in Ar. exact Ar.
  - intros Hs. rewrite C54_not_descent in E by assumption. now injection E.
Qed.
Print Assumptions C54_callback.
Theorem C55_callback : forall N M (obj : vec -> R) (grad : vec -> vec) fuel alpha c1 c2 (w : pub * M),
  (forall x y, (forall r, (r < N)%nat -> x r = y r) -> obj x = obj y) ->
  let p := fst w in
  let slope := rsum N (fun r => grad_old p r * update p r) in
  exists f, line_search M (wolfe_search N obj grad fuel alpha c1 c2) = Callback (Some f) None /\
    snd (f w) = false /\ only_step w (fst (f w)) /\
    forall a, wolfe_search N obj grad fuel alpha c1 c2 p = Ok a -> h_ (fst (fst (f w))) = a /\
      obj (fun r => x_old p r + a * update p r) <= obj (x_old p) + c1 * a * slope /\
      c2 * slope <= rsum N (fun r => grad (fun r' => x_old p r' + a * update p r') r * update p r).
Proof.
  intros N M obj grad fuel alpha c1 c2 w Hext p slope. eexists. split; [reflexivity|]. cbn beta. fold p.
  destruct (wolfe_search N obj grad fuel alpha c1 c2 p) as [a0| | |] eqn:E; cbn [fst snd];
    (split; [reflexivity|]); (split; [unfold only_step; cbn; repeat split; reflexivity|]); intros a Ha; try discriminate.
  injection Ha as <-. split; [reflexivity|]. unfold wolfe_search in E. change (dot N (grad_old p) (update p)) with slope in E.
  destruct (C55_wolfe _ _ _ _ _ _ _ _ E) as [A B]. rewrite (ray_0 N obj Hext) in A. split; assumption.
Qed.
Print Assumptions C55_callback.

(* any objective below its quadratic upper model with constant L (gradient L-Lipschitz): gradient descent
   with backtracking never increases the objective, once the fuel is large enough for the search to return *)
Theorem C104_backtracking : forall N M (obj : vec -> R) (grad : vec -> vec) L alpha beta gamma,
  (forall x y, (forall r, (r < N)%nat -> x r = y r) -> obj x = obj y) ->
  (forall x u a, 0 <= a -> obj (ray x u a) <= obj x + a * dot N (grad x) u + L / 2 * (a * a) * dot N u u) ->
  0 < L -> 0 < alpha -> 0 < beta < 1 -> 0 <= gamma < 1 ->
  exists fuel0, forall fuel, (fuel0 <= fuel)%nat -> forall crit max_iter tol w0 step m0 x0, keeps_new M crit ->
  value (gradient_descent N M obj grad [line_search M (backtracking_search N obj fuel alpha beta gamma)] crit max_iter tol w0 step m0 x0) <= obj x0.
Proof.
  intros N M obj grad L alpha beta gamma Hext Hup HL Ha Hb Hg.
  destruct (pow_small beta alpha (2 * (1 - gamma) / L) Hb Ha) as (n & Hn). { apply Rdiv_lt_0_compat; lra. }
  exists (S n). intros fuel Hf crit max_iter tol w0 step m0 x0 Hcrit.
  apply C104_monotone with (gamma := gamma); auto; [lra| |].
  - intros w w' HG HU. unfold w', line_search, execute_pre. cbn [map pre_hook fold_left exec_hook fst snd].
    set (p := fst w) in *. assert (S1 : exists a, backtracking_search N obj fuel alpha beta gamma p = Ok a).
    { unfold backtracking_search, backtracking. destruct (ltb _ 0) eqn:E; [|eauto]. apply ltb_true in E.
      assert (T := backtrack_terminates (fun a => obj (ray (x_old p) (update p) a)) (dot N (grad_old p) (update p)) beta gamma).
      assert (Mono : forall f f' al b, (f <= f')%nat -> backtrack (fun a => obj (ray (x_old p) (update p) a)) (dot N (grad_old p) (update p)) f beta gamma al = Ok b ->
         backtrack (fun a => obj (ray (x_old p) (update p) a)) (dot N (grad_old p) (update p)) f' beta gamma al = Ok b).
      { induction f as [|f IH]; intros f' al b Hff Hr; cbn in Hr; [discriminate|]. destruct f' as [|f']; [lia|]. cbn [backtrack].
        destruct (ltb _ 0); auto. apply IH; auto. lia. }
      destruct (T n alpha) as (a & Hr); [|exists a; eapply Mono; eauto].
      set (h := alpha * beta ^ n) in *. unfold armijo. rewrite (ray_0 N obj Hext). assert (Hq := Hup (x_old p) (update p) h ltac:(lra)).
      rewrite <- HG in Hq. rewrite HU in Hq, E |- *. rewrite dot_scale_l, !dot_scale_r in *. set (g2 := dot N (grad_old p) (grad_old p)) in *.
      assert (0 < g2) by lra. assert (HLh : L * h < 2 * (1 - gamma)).
      { apply Rmult_lt_reg_r with (/ L); [now apply Rinv_0_lt_compat|]. replace (L * h * / L) with h by (field; lra). apply (proj2 Hn). }
      assert (0 < h * g2) by nra. nra. }
    destruct S1 as (a & S1). rewrite S1. cbn [fst set_h x_old update h_]. split; [reflexivity|]. split; [reflexivity|]. intros Hneg.
    unfold backtracking_search in S1. assert (A := C54_backtracking _ _ _ _ _ _ _ Hneg S1). destruct A as (k & Hk & Har & _).
    unfold armijo in Har. rewrite (ray_0 N obj Hext) in Har. split; [|exact Har]. rewrite Hk. apply Rmult_le_pos; [lra|apply pow_le; lra].
  - split; auto. intros cb [<-|[]] g w Hgw. discriminate.
Qed.
(* half the squared norm meets the upper model with L = 1 *)
Example C104_instance : forall N x u a, 0 <= a -> dot N (ray x u a) (ray x u a) / 2 <= dot N x x / 2 + a * dot N x u + 1 / 2 * (a * a) * dot N u u.
Proof.
  intros. right. unfold ray. rewrite dot_add_sqr, !dot_scale_r, !dot_scale_l. field.
Qed.
Print Assumptions C54_backtracking.
Print Assumptions C55_wolfe.
Print Assumptions C106_wolfe_terminates.
Print Assumptions C104_backtracking.
