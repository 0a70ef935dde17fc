(* C183-C184: gradient descent on smooth objectives reaches the tolerance within a number of iterations known in advance, and converges geometrically when the gradient dominates the gap. *)
From Coq Require Import Lia Lra Psatz.
From Verif Require Import SimplexModel SimplexProps HyperProps OptModel OptProps LineSearchProps.

(* ---- specification ---- *)
(* the objective lies below its quadratic model of constant L *)
Definition smooth (N : nat) (obj : vec -> R) (grad : vec -> vec) (L : R) : Prop :=
  forall x u a, 0 <= a -> obj (ray x u a) <= obj x + a * dot N (grad x) u + L / 2 * (a * a) * dot N u u.
Definition extensional (N : nat) (obj : vec -> R) : Prop := forall x y, (forall r, (r < N)%nat -> x r = y r) -> obj x = obj y.
(* the squared gradient is at least 2 mu times the distance of the value from the infimum (strong convexity implies it) *)
Definition dominated (N : nat) (obj : vec -> R) (grad : vec -> vec) (low mu : R) : Prop := forall x, 2 * mu * (obj x - low) <= dot N (grad x) (grad x).

(* an objective whose gradient is L-Lipschitz is smooth *)
Lemma young N a b s : 0 < s -> 2 * dot N a b <= s * dot N a a + dot N b b / s.
Proof.
  intros Hs. assert (P : 0 <= dot N (vsub (vscale s a) b) (vsub (vscale s a) b)) by apply dot_pos.
  assert (E : dot N (vsub (vscale s a) b) (vsub (vscale s a) b) = s * s * dot N a a - 2 * s * dot N a b + dot N b b).
  { unfold dot. rewrite <- !rsum_scal, <- rsum_minus, <- rsum_plus. apply rsum_ext. intros. unfold vsub, vscale. ring. }
  rewrite E in P. apply Rmult_le_reg_l with s; auto. replace (s * (s * dot N a a + dot N b b / s)) with (s * s * dot N a a + dot N b b) by (field; lra). lra.
Qed.
Theorem C183_lipschitz N (obj : vec -> R) (grad : vec -> vec) L : 0 < L -> extensional N obj ->
  (forall x u a, derivable_pt_lim (fun a => obj (ray x u a)) a (dot N (grad (ray x u a)) u)) ->
  (forall x u a, dot N (vsub (grad (ray x u a)) (grad x)) (vsub (grad (ray x u a)) (grad x)) <= L * L * (a * a) * dot N u u) ->
  smooth N obj grad L.
Proof.
  intros HL He HD HG x u a Ha. destruct Ha as [Ha| <-].
  2:{ rewrite (ray_0 N obj He). lra. }
  assert (Hsl : forall b, 0 < b -> dot N (grad (ray x u b)) u <= dot N (grad x) u + L * b * dot N u u).
  { intros b Hb. assert (Y := young N (vsub (grad (ray x u b)) (grad x)) u (/ (L * b)) ltac:(apply Rinv_0_lt_compat; nra)).
    assert (E : dot N (vsub (grad (ray x u b)) (grad x)) u = dot N (grad (ray x u b)) u - dot N (grad x) u).
    { unfold dot. rewrite <- rsum_minus. apply rsum_ext. intros. unfold vsub. ring. }
    rewrite E in Y. assert (Q := HG x u b). apply (Rmult_le_compat_l (/ (L * b))) in Q; [|left; apply Rinv_0_lt_compat; nra].
    replace (/ (L * b) * (L * L * (b * b) * dot N u u)) with (L * b * dot N u u) in Q by (field; lra).
    replace (dot N u u / / (L * b)) with (L * b * dot N u u) in Y by (field; nra). lra. }
  set (psi := fun b => obj (ray x u b) - b * dot N (grad x) u - L / 2 * (b * b) * dot N u u).
  assert (Dpsi : forall b, derivable_pt_lim psi b (dot N (grad (ray x u b)) u - dot N (grad x) u - L * b * dot N u u)).
  { intros b. unfold psi. replace (dot N (grad (ray x u b)) u - dot N (grad x) u - L * b * dot N u u) with (dot N (grad (ray x u b)) u - 1 * dot N (grad x) u - (0 * (b * b) + L / 2 * (1 * b + b * 1)) * dot N u u) by lra.
    apply (derivable_pt_lim_minus (fun b => obj (ray x u b) - b * dot N (grad x) u) (fun b => L / 2 * (b * b) * dot N u u)).
    - apply (derivable_pt_lim_minus (fun b => obj (ray x u b)) (fun b => b * dot N (grad x) u)); [apply HD|].
      replace (1 * dot N (grad x) u) with (1 * dot N (grad x) u + b * 0) by ring. apply (derivable_pt_lim_mult (fun b => b) (fun _ => dot N (grad x) u)); [apply derivable_pt_lim_id|apply derivable_pt_lim_const].
    - replace ((0 * (b * b) + L / 2 * (1 * b + b * 1)) * dot N u u) with ((0 * (b * b) + L / 2 * (1 * b + b * 1)) * dot N u u + L / 2 * (b * b) * 0) by ring.
      apply (derivable_pt_lim_mult (fun b => L / 2 * (b * b)) (fun _ => dot N u u)); [|apply derivable_pt_lim_const].
      apply (derivable_pt_lim_mult (fun _ => L / 2) (fun b => b * b)); [apply derivable_pt_lim_const|]. apply (derivable_pt_lim_mult (fun b => b) (fun b => b)); apply derivable_pt_lim_id. }
  destruct (MVT_cor2 psi _ 0 a Ha (fun b _ => Dpsi b)) as (b & E & Hb). specialize (Hsl b (proj1 Hb)).
  assert (Z : psi 0 = obj x) by (unfold psi; rewrite (ray_0 N obj He); ring). rewrite Z in E. unfold psi in E.
  assert ((dot N (grad (ray x u b)) u - dot N (grad x) u - L * b * dot N u u) * (a - 0) <= 0) by nra. lra.
Qed.

Section Run.
Variables (N : nat) (M : Type) (obj : vec -> R) (grad : vec -> vec) (cbs : list (callback (pub * M))) (crit : option (pub * M -> (pub * M) * bool)).
Variables (tol c low : R).
Let sq x := dot N (grad x) (grad x).
Variable Inv : pub * M -> Prop.
(* each pass keeps the invariant, tracks the gradient and lowers the objective by at least c |g|^2 *)
Hypothesis pass_ok : forall w, Inv w -> grad_old (fst w) = grad (x_old (fst w)) ->
  exists w' s, gd_body N M grad cbs crit w = Next w' (norm N (grad (x_old (fst w')))) s /\ Inv w' /\ grad_old (fst w') = grad (x_old (fst w')) /\ obj (x_old (fst w')) <= obj (x_old (fst w)) - c * sq (x_old (fst w)).
Hypothesis Hlow : forall x, low <= obj x.
Hypothesis Hc : 0 < c.
Hypothesis Htol : 0 < tol.
Lemma big_gradient x : tol < norm N (grad x) -> tol * tol < sq x.
Proof. intros H. unfold norm in H. assert (P := dot_pos N (grad x)). assert (S1 := sqrt_sqrt _ P). unfold sq. rewrite <- S1. nra. Qed.
Definition large (x : vec) : R := if Rlt_dec tol (norm N (grad x)) then 1 else 0.
Lemma run_until rem : forall n w e s, Inv w -> grad_old (fst w) = grad (x_old (fst w)) -> (forall r, e = Some r -> r = norm N (grad (x_old (fst w)))) ->
  let '(w', n', e', s') := loop M tol (gd_body N M grad cbs crit) rem n w e s in
  s' = true \/ norm N (grad (x_old (fst w'))) <= tol \/ (INR rem + large (x_old (fst w))) * (c * (tol * tol)) < obj (x_old (fst w)) - low.
Proof.
  induction rem as [|rem IH]; intros n w e s HI HG He.
  - cbn [loop]. destruct (Rle_lt_dec (norm N (grad (x_old (fst w)))) tol) as [L|G]; [auto|]. right. right. unfold large. destruct (Rlt_dec _ _); [|lra]. cbn [INR]. apply big_gradient in G.
    destruct (pass_ok w HI HG) as (w' & s' & _ & _ & _ & D). assert (Q := Hlow (x_old (fst w'))). assert (c * (tol * tol) < c * sq (x_old (fst w))) by (apply Rmult_lt_compat_l; auto). lra.
  - cbn [loop]. destruct (match e with None => true | Some e => ltb tol e end && negb s)%bool eqn:E.
    + destruct (pass_ok w HI HG) as (w' & s' & Eb & HI' & HG' & D). rewrite Eb.
      specialize (IH (S n) w' (Some (norm N (grad (x_old (fst w'))))) s' HI' HG').
      destruct (Rlt_dec tol (norm N (grad (x_old (fst w'))))) as [G|L].
      * destruct (loop _ _ _ _ _ _ _ _) as [[[wf nf] ef] sf]. destruct IH as [A|[A|A]]; auto; [intros r Hr; now injection Hr|]. right. right.
        unfold large in A at 1. destruct (Rlt_dec tol (norm N (grad (x_old (fst w'))))); [|lra]. rewrite S_INR.
        assert (large (x_old (fst w)) * (c * (tol * tol)) <= c * sq (x_old (fst w))).
        { unfold large. destruct (Rlt_dec _ _) as [G'|]; [apply big_gradient in G'; rewrite Rmult_1_l; left; apply Rmult_lt_compat_l; auto|]. rewrite Rmult_0_l. apply Rmult_le_pos; [lra|apply dot_pos]. }
        lra.
      * assert (T : loop M tol (gd_body N M grad cbs crit) rem (S n) w' (Some (norm N (grad (x_old (fst w'))))) s' = (w', S n, Some (norm N (grad (x_old (fst w')))), s')).
        { destruct rem; cbn [loop]; [reflexivity|]. replace (ltb tol (norm N (grad (x_old (fst w'))))) with false by (symmetry; apply ltb_false; lra). reflexivity. }
        rewrite T. right. left. lra.
    + apply andb_false_iff in E. destruct E as [E|E].
      * destruct e as [r|]; [|discriminate]. apply ltb_false in E. right. left. rewrite <- (He r eq_refl). auto.
      * apply negb_false_iff in E. auto.
Qed.
(* the gap shrinks by the factor q at every pass when it is dominated by the gradient *)
Lemma run_rate q rem : (forall x, obj x - c * sq x - low <= q * (obj x - low)) -> 0 <= q -> forall n w e s, Inv w -> grad_old (fst w) = grad (x_old (fst w)) ->
  let '(w', n', e', s') := loop M tol (gd_body N M grad cbs crit) rem n w e s in
  (n <= n')%nat /\ obj (x_old (fst w')) - low <= q ^ (n' - n) * (obj (x_old (fst w)) - low).
Proof.
  intros Hq Hq0. induction rem as [|rem IH]; intros n w e s HI HG; cbn [loop]; [split; [lia|]; rewrite Nat.sub_diag; cbn; lra|].
  destruct (_ && _)%bool; [|split; [lia|]; rewrite Nat.sub_diag; cbn; lra]. destruct (pass_ok w HI HG) as (w' & s' & Eb & HI' & HG' & D). rewrite Eb.
  specialize (IH (S n) w' (Some (norm N (grad (x_old (fst w'))))) s' HI' HG'). destruct (loop _ _ _ _ _ _ _ _) as [[[wf nf] ef] sf]. destruct IH as [A B]. split; [lia|].
  replace (nf - n)%nat with (S (nf - S n)) by lia. cbn [pow]. specialize (Hq (x_old (fst w))). assert (P : 0 <= q ^ (nf - S n)) by now apply pow_le.
  apply Rle_trans with (1 := B). rewrite (Rmult_comm q), Rmult_assoc. apply Rmult_le_compat_l; auto. lra.
Qed.
End Run.

(* ---- the passes ---- *)
Lemma fixed_pass N M obj grad L step : smooth N obj grad L -> 0 < step -> forall w : pub * M, h_ (fst w) = step -> grad_old (fst w) = grad (x_old (fst w)) ->
  exists w' s, gd_body N M grad [] None w = Next w' (norm N (grad (x_old (fst w')))) s /\ h_ (fst w') = step /\ grad_old (fst w') = grad (x_old (fst w')) /\
    obj (x_old (fst w')) <= obj (x_old (fst w)) - step * (1 - L * step / 2) * dot N (grad (x_old (fst w))) (grad (x_old (fst w))).
Proof.
  intros HS Hst w Hh HG. unfold gd_body, finish. cbn [execute_pre execute_post map fold_left execute_criterion exec_hook on_pub fst snd orb]. match goal with |- exists w' s, Next ?a _ ?b = _ /\ _ => exists a, b end. split; [reflexivity|].
  cbn [fst snd on_pub shift move set_new set_update x_old x_new update h_ grad_old grad_new hess_ inv_hess]. split; [exact Hh|]. split; [reflexivity|]. rewrite Hh.
  assert (Q := HS (x_old (fst w)) (vscale (-1) (grad_old (fst w))) step ltac:(lra)). unfold ray in Q. rewrite HG in *. rewrite dot_scale_l, !dot_scale_r in Q. lra.
Qed.
(* the search stops at the latest one factor beta below 2 (1 - gamma) / L *)
Lemma search_step N obj grad L alpha beta gamma fuel p a : smooth N obj grad L -> extensional N obj -> 0 < L -> 0 < alpha -> 0 < beta < 1 -> 0 < gamma < 1 ->
  grad_old p = grad (x_old p) -> update p = vscale (-1) (grad_old p) -> 0 < dot N (grad_old p) (grad_old p) -> backtracking_search N obj fuel alpha beta gamma p = Ok a ->
  Rmin alpha (beta * (2 * (1 - gamma) / L)) <= a /\ obj (ray (x_old p) (update p) a) <= obj (x_old p) - gamma * a * dot N (grad_old p) (grad_old p).
Proof.
  intros HS He HL Ha Hb Hg HG HU HP E. unfold backtracking_search in E. assert (Em : dot N (grad_old p) (update p) = - dot N (grad_old p) (grad_old p)) by (rewrite HU, dot_scale_r; ring).
  destruct (C54_backtracking _ (dot N (grad_old p) (update p)) _ _ _ _ _ ltac:(rewrite Em; lra) E) as (k & Ek & Ar & Hj). rewrite Em in Ar, Hj. set (g2 := dot N (grad_old p) (grad_old p)) in *.
  unfold armijo in Ar. rewrite (ray_0 N obj He) in Ar. split; [|lra]. destruct k as [|k]; [rewrite Ek; cbn [pow]; rewrite Rmult_1_r; apply Rmin_l|].
  apply Rle_trans with (1 := Rmin_r _ _). specialize (Hj k ltac:(lia)). set (b := alpha * beta ^ k) in *. assert (Hbp : 0 < b) by (apply Rmult_lt_0_compat; [auto|apply pow_lt; lra]).
  replace a with (beta * b) by (rewrite Ek; unfold b; cbn [pow]; ring). apply Rmult_le_compat_l; [lra|].
  assert (Q := HS (x_old p) (update p) b ltac:(lra)). rewrite <- HG, Em in Q. rewrite HU in Q at 2 3. rewrite dot_scale_l, dot_scale_r in Q. fold g2 in Q.
  unfold armijo in Hj. rewrite (ray_0 N obj He) in Hj. apply Rnot_le_lt in Hj.
  assert (G : (1 - gamma) * (b * g2) < L / 2 * b * (b * g2)) by lra. assert (0 < b * g2) by (apply Rmult_lt_0_compat; auto).
  apply Rmult_lt_reg_r in G; auto. left. apply Rmult_lt_reg_r with (L / 2); [lra|]. replace (2 * (1 - gamma) / L * (L / 2)) with (1 - gamma) by (field; lra). lra.
Qed.
Lemma search_returns N obj grad L alpha beta gamma : smooth N obj grad L -> extensional N obj -> 0 < L -> 0 < alpha -> 0 < beta < 1 -> 0 < gamma < 1 ->
  exists fuel0, forall fuel, (fuel0 <= fuel)%nat -> forall p, grad_old p = grad (x_old p) -> update p = vscale (-1) (grad_old p) -> exists a, backtracking_search N obj fuel alpha beta gamma p = Ok a.
Proof.
  intros HS He HL Ha Hb Hg. destruct (pow_small beta alpha (2 * (1 - gamma) / L) Hb Ha) as (n & Hn). { apply Rdiv_lt_0_compat; lra. }
  exists (S n). intros fuel Hf p HG HU. unfold backtracking_search, backtracking. destruct (ltb _ 0) eqn:E; [|eauto]. apply ltb_true in E.
  assert (Mono : forall f f' al b, (f <= f')%nat -> backtrack (fun a => obj (ray (x_old p) (update p) a)) (dot N (grad_old p) (update p)) f beta gamma al = Ok b ->
     backtrack (fun a => obj (ray (x_old p) (update p) a)) (dot N (grad_old p) (update p)) f' beta gamma al = Ok b).
  { induction f as [|f IH]; intros f' al b Hff Hr; cbn in Hr; [discriminate|]. destruct f' as [|f']; [lia|]. cbn [backtrack]. destruct (ltb _ 0); auto. apply IH; auto. lia. }
  destruct (backtrack_terminates (fun a => obj (ray (x_old p) (update p) a)) (dot N (grad_old p) (update p)) beta gamma n alpha) as (a & Hr); [|exists a; eapply Mono; eauto].
  set (h := alpha * beta ^ n) in *. unfold armijo. rewrite (ray_0 N obj He). assert (Hq := HS (x_old p) (update p) h ltac:(lra)).
  rewrite <- HG in Hq. rewrite HU in Hq, E |- *. rewrite dot_scale_l, !dot_scale_r in *. set (g2 := dot N (grad_old p) (grad_old p)) in *.
  assert (0 < g2) by lra. assert (HLh : L * h < 2 * (1 - gamma)).
  { apply Rmult_lt_reg_r with (/ L); [now apply Rinv_0_lt_compat|]. replace (L * h * / L) with h by (field; lra). apply (proj2 Hn). }
  assert (0 < h * g2) by nra. nra.
Qed.
Lemma search_pass N M obj grad L alpha beta gamma : smooth N obj grad L -> extensional N obj -> 0 < L -> 0 < alpha -> 0 < beta < 1 -> 0 < gamma < 1 ->
  exists fuel0, forall fuel, (fuel0 <= fuel)%nat -> forall w : pub * M, grad_old (fst w) = grad (x_old (fst w)) ->
  exists w' s, gd_body N M grad [line_search M (backtracking_search N obj fuel alpha beta gamma)] None w = Next w' (norm N (grad (x_old (fst w')))) s /\ True /\ grad_old (fst w') = grad (x_old (fst w')) /\
    obj (x_old (fst w')) <= obj (x_old (fst w)) - gamma * Rmin alpha (beta * (2 * (1 - gamma) / L)) * dot N (grad (x_old (fst w))) (grad (x_old (fst w))).
Proof.
  intros HS He HL Ha Hb Hg. destruct (search_returns N obj grad L alpha beta gamma HS He HL Ha Hb Hg) as (fuel0 & HR). exists fuel0. intros fuel Hf w HG.
  set (p := set_update (fst w) (vscale (-1) (grad_old (fst w)))). destruct (HR fuel Hf p HG eq_refl) as (a & Ea).
  unfold gd_body, finish, line_search. cbn [execute_pre execute_post map pre_hook post_hook fold_left execute_criterion exec_hook on_pub fst snd orb]. fold p. rewrite Ea.
  cbn [exec_hook fst snd orb on_pub]. match goal with |- exists w' s, Next ?a _ ?b = _ /\ _ => exists a, b end. split; [reflexivity|]. split; [exact I|].
  cbn [fst snd on_pub shift move set_new set_update set_h x_old x_new update h_ grad_old grad_new hess_ inv_hess p]. split; [reflexivity|].
  assert (G2 := dot_pos N (grad_old (fst w))). destruct (Rle_lt_or_eq_dec _ _ G2) as [P|Z].
  - destruct (search_step N obj grad L alpha beta gamma fuel p a HS He HL Ha Hb Hg HG eq_refl P Ea) as [S1 S2]. unfold ray in S2. cbn [p set_update x_old update grad_old] in S2. rewrite HG in *.
    apply Rle_trans with (1 := S2). set (g2 := dot N (grad (x_old (fst w))) (grad (x_old (fst w)))) in *. set (mn := Rmin alpha (beta * (2 * (1 - gamma) / L))) in *. assert (gamma * mn * g2 <= gamma * a * g2) by (apply Rmult_le_compat_r; [lra|apply Rmult_le_compat_l; lra]). lra.
  - rewrite HG in Z. rewrite <- Z, Rmult_0_r, Rminus_0_r. right. apply He. intros r Hr. unfold vadd, vscale. rewrite HG. rewrite (dot_zero N _ (eq_sym Z) r Hr). ring.
Qed.

(* ---- C183: the tolerance is reached ---- *)
Theorem C183_fixed_step N M obj grad L low step tol max_iter w0 m0 x0 : smooth N obj grad L -> (forall x, low <= obj x) -> 0 < L -> 0 < step < 2 / L -> 0 < tol ->
  obj x0 - low <= INR max_iter * (step * (1 - L * step / 2) * (tol * tol)) ->
  norm N (grad (optimum (gradient_descent N M obj grad [] None max_iter tol w0 step m0 x0))) <= tol.
Proof.
  intros HS Hl HL Hst Ht Hm. unfold gradient_descent. set (c := step * (1 - L * step / 2)) in *.
  assert (Hc : 0 < c). { apply Rmult_lt_0_compat; [lra|]. assert (L * step < 2); [|lra]. apply Rmult_lt_reg_r with (/ L); [now apply Rinv_0_lt_compat|]. replace (L * step * / L) with step by (field; lra). lra. }
  assert (R := run_until N M obj grad [] None tol c low (fun w => h_ (fst w) = step) (fun w => fixed_pass N M obj grad L step HS (proj1 Hst) w) Hl Hc Ht max_iter 0 (set_old (start w0 step x0) (grad x0) (hess_ w0), m0) None false eq_refl eq_refl ltac:(discriminate)).
  assert (NS : snd (loop M tol (gd_body N M grad [] None) max_iter 0 (set_old (start w0 step x0) (grad x0) (hess_ w0), m0) None false) = false).
  { clear. set (w := (_, m0)). generalize w. generalize (@None R). generalize 0%nat. clear w. induction max_iter as [|k IH]; intros n e w; cbn [loop]; [reflexivity|]. destruct (_ && _)%bool; [|reflexivity]. apply IH. }
  destruct (loop _ _ _ _ _ _ _ _) as [[[w n] e] s]. cbn [snd] in NS. cbn [close optimum]. destruct R as [A|[A|A]]; [congruence|auto|].
  cbn [fst set_old start x_old] in A. unfold large in A. exfalso. assert (0 < c * (tol * tol)) by (apply Rmult_lt_0_compat; nra). destruct (Rlt_dec _ _); lra.
Qed.
Theorem C183_backtracking N M obj grad L low alpha beta gamma tol max_iter x0 : smooth N obj grad L -> extensional N obj -> (forall x, low <= obj x) -> 0 < L -> 0 < alpha -> 0 < beta < 1 -> 0 < gamma < 1 -> 0 < tol ->
  obj x0 - low <= INR max_iter * (gamma * Rmin alpha (beta * (2 * (1 - gamma) / L)) * (tol * tol)) ->
  exists fuel0, forall fuel w0 step m0, (fuel0 <= fuel)%nat ->
  norm N (grad (optimum (gradient_descent N M obj grad [line_search M (backtracking_search N obj fuel alpha beta gamma)] None max_iter tol w0 step m0 x0))) <= tol.
Proof.
  intros HS He Hl HL Ha Hb Hg Ht Hm. destruct (search_pass N M obj grad L alpha beta gamma HS He HL Ha Hb Hg) as (fuel0 & HP). exists fuel0. intros fuel w0 step m0 Hf.
  set (c := gamma * Rmin alpha (beta * (2 * (1 - gamma) / L))) in *.
  assert (Hc : 0 < c). { apply Rmult_lt_0_compat; [lra|]. apply Rmin_pos; [auto|]. apply Rmult_lt_0_compat; [lra|]. apply Rdiv_lt_0_compat; lra. }
  unfold gradient_descent. set (cbs := [line_search M (backtracking_search N obj fuel alpha beta gamma)]) in *.
  assert (R := run_until N M obj grad cbs None tol c low (fun _ => True) (fun w _ => HP fuel Hf w) Hl Hc Ht max_iter 0 (set_old (start w0 step x0) (grad x0) (hess_ w0), m0) None false I eq_refl ltac:(discriminate)).
  assert (NS : snd (loop M tol (gd_body N M grad cbs None) max_iter 0 (set_old (start w0 step x0) (grad x0) (hess_ w0), m0) None false) = false).
  { clear - HP. set (w := (_, m0)). generalize w. generalize (@None R). generalize 0%nat. clear w. induction max_iter as [|k IH]; intros n e w; cbn [loop]; [reflexivity|]. destruct (_ && _)%bool; [|reflexivity].
    assert (Eb : exists w' r, gd_body N M grad cbs None w = Next w' r false).
    { unfold gd_body, finish, cbs, line_search. cbn [execute_pre execute_post map pre_hook post_hook fold_left execute_criterion exec_hook on_pub fst snd orb]. destruct (backtracking_search _ _ _ _ _ _ _); cbn [exec_hook fst snd orb on_pub]; eauto. }
    destruct Eb as (w' & r & ->). apply IH. }
  destruct (loop _ _ _ _ _ _ _ _) as [[[w n] e] s]. cbn [snd] in NS. cbn [close optimum]. destruct R as [A|[A|A]]; [congruence|auto|].
  cbn [fst set_old start x_old] in A. unfold large in A. exfalso. assert (0 < c * (tol * tol)) by (apply Rmult_lt_0_compat; nra). destruct (Rlt_dec _ _); lra.
Qed.

(* ---- C184: geometric convergence ---- *)
Theorem C184_fixed_step N M obj grad L low mu step tol max_iter w0 m0 x0 : smooth N obj grad L -> (forall x, low <= obj x) -> dominated N obj grad low mu -> 0 < step <= 2 / L -> 0 < L ->
  0 <= 2 * mu * (step * (1 - L * step / 2)) <= 1 ->
  let r := gradient_descent N M obj grad [] None max_iter tol w0 step m0 x0 in
  value r - low <= (1 - 2 * mu * (step * (1 - L * step / 2))) ^ n_iter r * (obj x0 - low).
Proof.
  intros HS Hl HD Hst HL Hq r. unfold r, gradient_descent. set (c := step * (1 - L * step / 2)) in *.
  assert (Hc : 0 <= c). { apply Rmult_le_pos; [lra|]. assert (L * step <= 2); [|lra]. apply Rmult_le_reg_r with (/ L); [now apply Rinv_0_lt_compat|]. replace (L * step * / L) with step by (field; lra). lra. }
  assert (R := run_rate N M obj grad [] None tol c low (fun w => h_ (fst w) = step) (fun w => fixed_pass N M obj grad L step HS (proj1 Hst) w) (1 - 2 * mu * c) max_iter).
  specialize (R ltac:(intros x; specialize (HD x); assert (c * (2 * mu * (obj x - low)) <= c * dot N (grad x) (grad x)) by (apply Rmult_le_compat_l; auto); lra) ltac:(lra) 0%nat (set_old (start w0 step x0) (grad x0) (hess_ w0), m0) None false eq_refl eq_refl).
  destruct (loop _ _ _ _ _ _ _ _) as [[[w n] e] s]. cbn [close value n_iter]. destruct R as [_ R]. rewrite Nat.sub_0_r in R. exact R.
Qed.
Theorem C184_backtracking N M obj grad L low mu alpha beta gamma tol max_iter x0 : smooth N obj grad L -> extensional N obj -> (forall x, low <= obj x) -> dominated N obj grad low mu -> 0 < L -> 0 < alpha -> 0 < beta < 1 -> 0 < gamma < 1 ->
  0 <= 2 * mu * (gamma * Rmin alpha (beta * (2 * (1 - gamma) / L))) <= 1 ->
  exists fuel0, forall fuel w0 step m0, (fuel0 <= fuel)%nat ->
  let r := gradient_descent N M obj grad [line_search M (backtracking_search N obj fuel alpha beta gamma)] None max_iter tol w0 step m0 x0 in
  value r - low <= (1 - 2 * mu * (gamma * Rmin alpha (beta * (2 * (1 - gamma) / L)))) ^ n_iter r * (obj x0 - low).
Proof.
  intros HS He Hl HD HL Ha Hb Hg Hq. destruct (search_pass N M obj grad L alpha beta gamma HS He HL Ha Hb Hg) as (fuel0 & HP). exists fuel0. intros fuel w0 step m0 Hf r.
  unfold r, gradient_descent. set (c := gamma * Rmin alpha (beta * (2 * (1 - gamma) / L))) in *.
  assert (Hc : 0 < c). { apply Rmult_lt_0_compat; [lra|]. apply Rmin_pos; [auto|]. apply Rmult_lt_0_compat; [lra|]. apply Rdiv_lt_0_compat; lra. }
  assert (R := run_rate N M obj grad [line_search M (backtracking_search N obj fuel alpha beta gamma)] None tol c low (fun _ => True) (fun w _ => HP fuel Hf w) (1 - 2 * mu * c) max_iter).
  specialize (R ltac:(intros x; specialize (HD x); assert (c * (2 * mu * (obj x - low)) <= c * dot N (grad x) (grad x)) by (apply Rmult_le_compat_l; lra); lra) ltac:(lra) 0%nat (set_old (start w0 step x0) (grad x0) (hess_ w0), m0) None false I eq_refl).
  destruct (loop _ _ _ _ _ _ _ _) as [[[w n] e] s]. cbn [close value n_iter]. destruct R as [_ R]. rewrite Nat.sub_0_r in R. exact R.
Qed.

(* half the squared norm: L = 1, mu = 1, infimum 0 *)
Example C183_example N : smooth N (fun x => dot N x x / 2) (fun x => x) 1 /\ extensional N (fun x => dot N x x / 2) /\ dominated N (fun x => dot N x x / 2) (fun x => x) 0 1 /\ (forall x, 0 <= dot N x x / 2).
Proof.
  split; [|split; [|split]].
  - intros x u a Ha. right. unfold ray. rewrite dot_add_sqr, !dot_scale_r, !dot_scale_l. field.
  - intros x y H. f_equal. now apply dot_ext.
  - intros x. lra.
  - intros x. assert (P := dot_pos N x). lra.
Qed.
Example C183_run M w0 m0 : norm 2 (optimum (gradient_descent 2 M (fun x => dot 2 x x / 2) (fun x => x) [] None 64 (1 / 4) w0 (1 / 2) m0 (fun _ => 1))) <= 1 / 4.
Proof.
  destruct (C183_example 2) as (A & B & C & D). apply (C183_fixed_step 2 M _ (fun x => x) 1 0 (1 / 2) (1 / 4) 64 w0 m0 (fun _ => 1) A D); try lra. unfold dot. cbn. lra.
Qed.
Print Assumptions C183_lipschitz.
Print Assumptions C183_fixed_step.
Print Assumptions C183_backtracking.
Print Assumptions C184_fixed_step.
Print Assumptions C184_backtracking.
