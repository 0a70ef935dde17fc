(* C206-C207: whole runs of gradient descent and BFGS with the Wolfe line search. *)
From Coq Require Import Lia Lra Psatz.
From Verif Require Import Base RSum SimplexModel SimplexProps HyperProps OptModel OptProps LineSearchProps OptConv.

(* ---- specification ---- *)
(* grad is the derivative of the objective along every line *)
Definition gradient_of (N : nat) (obj : vec -> R) (grad : vec -> vec) : Prop :=
  forall x u a, derivable_pt_lim (fun b => obj (ray x u b)) a (dot N (grad (ray x u a)) u).
(* the gradient varies by L times the distance at most *)
Definition gradient_lipschitz (N : nat) (grad : vec -> vec) (L : R) : Prop :=
  forall x u a, dot N (vsub (grad (ray x u a)) (grad x)) (vsub (grad (ray x u a)) (grad x)) <= L * L * (a * a) * dot N u u.

(* ---- the search ---- *)
Lemma wolfe_mono phi m dphi c1 c2 f : forall f' s a, (f <= f')%nat -> wolfe_loop phi m dphi c1 c2 f s = Ok a -> wolfe_loop phi m dphi c1 c2 f' s = Ok a.
Proof.
  induction f as [|f IH]; intros f' s a Hf H; cbn [wolfe_loop] in H; [discriminate|]. destruct f' as [|f']; [lia|]. cbn [wolfe_loop]. destruct (wolfe_step _ _ _ _ _ s); auto. apply IH; auto. lia.
Qed.
Lemma wolfe_pos phi m dphi c1 c2 fuel alpha a : 0 < alpha -> wolfe phi m dphi c1 c2 fuel alpha = Ok a -> 0 < a.
Proof.
  intros Ha. unfold wolfe. assert (H0 : bracket_ok phi dphi m c1 c2 alpha (Bracket alpha 0 None)) by (split; [|split]; cbn; auto; lra).
  revert H0. generalize (Bracket alpha 0 None) as s. induction fuel as [|f IH]; intros s H0 H; cbn [wolfe_loop] in H; [discriminate|].
  destruct (wolfe_step _ _ _ _ _ s) as [s'|] eqn:E; [exact (IH s' (step_ok phi dphi m c1 c2 alpha s s' H0 E) H)|]. injection H as <-. destruct H0 as [H0 _]. lra.
Qed.
Section Search.
Variables (N : nat) (obj : vec -> R) (grad : vec -> vec) (L low alpha c1 c2 : R).
Hypothesis HL : 0 < L.
Hypothesis Hext : extensional N obj.
Hypothesis Hgrad : gradient_of N obj grad.
Hypothesis Hgext : forall x y, (forall r, (r < N)%nat -> x r = y r) -> forall r, (r < N)%nat -> grad x r = grad y r.
Hypothesis Hlip : gradient_lipschitz N grad L.
Hypothesis Hlow : forall x, low <= obj x.
Hypothesis Ha : 0 < alpha.
Hypothesis Hc : 0 < c1 < c2.
Hypothesis Hc2 : c2 < 1.

Lemma slope_lipschitz x u a b : Rabs (dot N (grad (ray x u b)) u - dot N (grad (ray x u a)) u) <= L * Rabs (b - a) * dot N u u.
Proof using HL Hgext Hlip.
  destruct (Req_dec b a) as [->|Hne]. { rewrite !Rminus_eq_0, Rabs_R0. lra. }
  set (y := ray x u a). assert (E1 : forall r, (r < N)%nat -> grad (ray x u b) r = grad (ray y u (b - a)) r).
  { apply Hgext. intros r Hr. unfold y, ray, vadd, vscale. ring. }
  assert (Q := Hlip y u (b - a)). set (d := vsub (grad (ray y u (b - a))) (grad y)) in *. set (k := Rabs (b - a)). assert (Hk : 0 < k) by (apply Rabs_pos_lt; lra). assert (Ek : k * k = (b - a) * (b - a)) by (unfold k; rewrite <- Rabs_mult; apply Rabs_pos_eq; nra). rewrite <- Ek in Q.
  assert (E2 : dot N (grad (ray x u b)) u - dot N (grad y) u = dot N d u).
  { unfold d. rewrite dot_sub_l. f_equal. apply dot_ext; auto. }
  rewrite E2. apply (Rmult_le_compat_l (/ (L * k))) in Q; [|left; apply Rinv_0_lt_compat; nra]. replace (/ (L * k) * (L * L * (k * k) * dot N u u)) with (L * k * dot N u u) in Q by (field; lra).
  assert (Y := young N d u (/ (L * k)) ltac:(apply Rinv_0_lt_compat; nra)). assert (Y' := young N (vscale (-1) d) u (/ (L * k)) ltac:(apply Rinv_0_lt_compat; nra)).
  rewrite !dot_scale_l, dot_scale_r in Y'. replace (dot N u u / / (L * k)) with (L * k * dot N u u) in Y, Y' by (field; nra). apply Rabs_le. lra.
Qed.
(* along a descent direction the search returns, with a result independent of the fuel; the step lowers the objective and is not too small *)
Lemma wolfe_returns p : grad_old p = grad (x_old p) -> dot N (grad_old p) (update p) < 0 ->
  exists f0 a, (forall fuel, (f0 <= fuel)%nat -> wolfe_search N obj grad fuel alpha c1 c2 p = Ok a) /\ 0 < a /\
    obj (ray (x_old p) (update p) a) <= obj (x_old p) + c1 * a * dot N (grad_old p) (update p) /\
    c2 * dot N (grad_old p) (update p) <= dot N (grad (ray (x_old p) (update p) a)) (update p) /\
    (1 - c2) * - dot N (grad_old p) (update p) <= L * a * dot N (update p) (update p).
Proof.
  intros HG Hm. set (x := x_old p) in *. set (u := update p) in *. set (m := dot N (grad_old p) u) in *. unfold wolfe_search. fold x u m.
  set (phi := fun a => obj (ray x u a)). set (dphi := fun a => dot N (grad (ray x u a)) u).
  assert (Ex : forall y, (forall r, (r < N)%nat -> ray y u 0 r = y r)) by (intros y r Hr; unfold ray, vadd, vscale; ring).
  assert (D0 : dphi 0 = m). { unfold dphi, m. rewrite HG. apply dot_ext; auto. }
  assert (Cd : continuity dphi).
  { intros a eps Heps. assert (Hu := dot_pos N u). exists (eps / (L * dot N u u + 1)). split; [apply Rdiv_lt_0_compat; nra|]. intros b [_ Hb]. simpl in *. unfold R_dist in *.
    apply Rle_lt_trans with (1 := slope_lipschitz x u a b). apply (Rmult_lt_compat_r (L * dot N u u + 1)) in Hb; [|nra]. replace (eps / (L * dot N u u + 1) * (L * dot N u u + 1)) with eps in Hb by (field; nra). assert (0 <= Rabs (b - a)) by apply Rabs_pos. nra. }
  destruct (C106_wolfe_terminates phi dphi m c1 c2 Hc Hc2 Hm D0 (fun a => Hgrad x u a) Cd low (fun a _ => Hlow _) alpha Ha) as (f0 & a & E).
  exists f0, a. split; [intros fuel Hf; now apply wolfe_mono with f0|]. assert (Pa := wolfe_pos _ _ _ _ _ _ _ _ Ha E). destruct (C55_wolfe _ _ _ _ _ _ _ _ E) as [A B].
  split; auto. split; [unfold phi in A; rewrite (ray_0 N obj Hext) in A; exact A|]. split; [exact B|].
  assert (S1 := slope_lipschitz x u 0 a). fold (dphi a) (dphi 0) in S1. rewrite D0, Rminus_0_r, (Rabs_pos_eq a) in S1 by lra. assert (Q := Rle_abs (dphi a - m)). lra.
Qed.
End Search.

(* ---- C206: gradient descent ---- *)
Section Descent.
Variables (N : nat) (M : Type) (obj : vec -> R) (grad : vec -> vec) (L low alpha c1 c2 tol : R).
Hypothesis HL : 0 < L.
Hypothesis Hext : extensional N obj.
Hypothesis Hgrad : gradient_of N obj grad.
Hypothesis Hgext : forall x y, (forall r, (r < N)%nat -> x r = y r) -> forall r, (r < N)%nat -> grad x r = grad y r.
Hypothesis Hlip : gradient_lipschitz N grad L.
Hypothesis Hlow : forall x, low <= obj x.
Hypothesis Ha : 0 < alpha.
Hypothesis Hc : 0 < c1 < c2.
Hypothesis Hc2 : c2 < 1.
Let c := c1 * (1 - c2) / L.
Let body fuel := gd_body N M grad [line_search M (wolfe_search N obj grad fuel alpha c1 c2)] None.
Let sq x := dot N (grad x) (grad x).
Lemma c_pos : 0 < c.
Proof. unfold c. apply Rdiv_lt_0_compat; auto. apply Rmult_lt_0_compat; lra. Qed.
Lemma wolfe_pass (w : pub * M) : grad_old (fst w) = grad (x_old (fst w)) ->
  exists f0 w', (forall fuel, (f0 <= fuel)%nat -> body fuel w = Next w' (norm N (grad (x_old (fst w')))) false) /\ grad_old (fst w') = grad (x_old (fst w')) /\ obj (x_old (fst w')) <= obj (x_old (fst w)) - c * sq (x_old (fst w)).
Proof.
  intros HG. set (p := set_update (fst w) (vscale (-1) (grad_old (fst w)))).
  assert (Step : forall fuel a, wolfe_search N obj grad fuel alpha c1 c2 p = Ok a -> exists w', body fuel w = Next w' (norm N (grad (x_old (fst w')))) false /\ w' = (shift (set_new (set_h p a) (vadd (x_old p) (vscale a (update p))) (grad (vadd (x_old p) (vscale a (update p))))), snd w)).
  { intros fuel a Ea. unfold body, gd_body, finish, line_search. cbn [execute_pre execute_post map pre_hook post_hook fold_left execute_criterion exec_hook on_pub fst snd orb]. fold p. rewrite Ea. cbn [exec_hook fst snd orb on_pub].
    match goal with |- exists w', Next ?a _ _ = _ /\ _ => exists a end. split; reflexivity. }
  assert (Em : dot N (grad_old p) (update p) = - sq (x_old (fst w))) by (unfold p; cbn [set_update grad_old update]; rewrite dot_scale_r, HG; unfold sq; ring).
  assert (Eu : dot N (update p) (update p) = sq (x_old (fst w))) by (unfold p; cbn [set_update update]; rewrite dot_scale_l, dot_scale_r, HG; unfold sq; ring).
  destruct (Rle_lt_or_eq_dec _ _ (dot_pos N (grad (x_old (fst w))))) as [P|Z].
  - destruct (wolfe_returns N obj grad L low alpha c1 c2 HL Hext Hgrad Hgext Hlip Hlow Ha Hc Hc2 p HG) as (f0 & a & Hf & Pa & A & _ & B); [rewrite Em; unfold sq; lra|]. rewrite Em, Eu in *.
    exists f0. eexists. split; [intros fuel Hff; destruct (Step fuel a (Hf fuel Hff)) as (w' & E & ->); exact E|]. split; [reflexivity|]. cbn [fst shift set_new x_old x_new]. unfold ray in A. change (x_old p) with (x_old (fst w)) in *.
    apply Rle_trans with (1 := A). set (g2 := sq (x_old (fst w))) in *. change (dot N (grad (x_old (fst w))) (grad (x_old (fst w)))) with g2 in P. assert (La : (1 - c2) / L <= a).
    { apply Rmult_le_reg_r with (L * g2); [apply Rmult_lt_0_compat; auto|]. replace ((1 - c2) / L * (L * g2)) with ((1 - c2) * - - g2) by (field; lra). lra. }
    unfold c. assert (c1 * ((1 - c2) / L) * g2 <= c1 * a * g2) by (apply Rmult_le_compat_r; [lra|apply Rmult_le_compat_l; lra]). unfold Rdiv in *. lra.
  - assert (Zr : forall r, (r < N)%nat -> grad (x_old (fst w)) r = 0) by (intros; now apply (dot_zero N _ (eq_sym Z))).
    assert (Rx : forall a, obj (ray (x_old p) (update p) a) = obj (x_old (fst w))).
    { intros a. apply Hext. intros r Hr. unfold ray, vadd, vscale, p. cbn [set_update x_old update]. unfold vscale. rewrite HG, Zr by auto. ring. }
    assert (Ez : forall fuel, (1 <= fuel)%nat -> wolfe_search N obj grad fuel alpha c1 c2 p = Ok alpha).
    { intros [|fuel] Hf; [lia|]. unfold wolfe_search, wolfe. cbn [wolfe_loop]. unfold wolfe_step. cbn [w_alpha]. rewrite !Rx, Em. unfold sq. rewrite <- Z. replace (ltb (_ - _ + _) 0) with false by (symmetry; apply ltb_false; lra).
      replace (ltb (dot _ _ _) _) with false; [reflexivity|]. symmetry. apply ltb_false. right. rewrite Ropp_0, Rmult_0_r. symmetry. apply rsum_zero. intros r Hr. unfold p. cbn [set_update update]. unfold vscale. rewrite HG, Zr by auto. ring. }
    exists 1%nat. eexists. split; [intros fuel Hff; destruct (Step fuel alpha (Ez fuel Hff)) as (w' & E & ->); exact E|]. split; [reflexivity|]. cbn [fst shift set_new x_old x_new].
    unfold sq. rewrite <- Z, Rmult_0_r, Rminus_0_r. right. apply Rx.
Qed.
Lemma wolfe_until rem : 0 < tol -> forall n (w : pub * M) e, grad_old (fst w) = grad (x_old (fst w)) -> (forall r, e = Some r -> r = norm N (grad (x_old (fst w)))) ->
  exists f0 w' n' e', (forall fuel, (f0 <= fuel)%nat -> loop M tol (body fuel) rem n w e false = (w', n', e', false)) /\
  (norm N (grad (x_old (fst w'))) <= tol \/ (INR rem + large N grad tol (x_old (fst w))) * (c * (tol * tol)) < obj (x_old (fst w)) - low).
Proof.
  intros Htol. assert (Pc := c_pos). induction rem as [|rem IH]; intros n w e HG He.
  - exists 0%nat, w, n, e. split; [reflexivity|]. destruct (Rle_lt_dec (norm N (grad (x_old (fst w)))) tol) as [Hl|G]; [auto|]. right. unfold large. destruct (Rlt_dec _ _); [|lra]. cbn [INR]. apply big_gradient in G; auto.
    destruct (wolfe_pass w HG) as (f0 & w' & _ & _ & D). assert (Q := Hlow (x_old (fst w'))). fold (sq (x_old (fst w))) in G. assert (c * (tol * tol) < c * sq (x_old (fst w))) by (apply Rmult_lt_compat_l; auto). lra.
  - destruct (match e with None => true | Some r => ltb tol r end) eqn:E.
    + destruct (wolfe_pass w HG) as (f0 & w' & Hw & HG' & D). destruct (IH (S n) w' (Some (norm N (grad (x_old (fst w'))))) HG' ltac:(intros r Hr; now injection Hr)) as (f1 & wf & nf & ef & Hf & A).
      exists (Nat.max f0 f1), wf, nf, ef. split. { intros fuel Hff. cbn [loop]. rewrite E. cbn [negb andb]. rewrite Hw by lia. apply Hf. lia. }
      destruct (Rlt_dec tol (norm N (grad (x_old (fst w'))))) as [G|Hl].
      * destruct A as [A|A]; auto. right. unfold large in A at 1. destruct (Rlt_dec tol (norm N (grad (x_old (fst w'))))); [|lra]. rewrite S_INR.
        assert (large N grad tol (x_old (fst w)) * (c * (tol * tol)) <= c * sq (x_old (fst w))).
        { unfold large. destruct (Rlt_dec _ _) as [G'|]; [apply big_gradient in G'; [rewrite Rmult_1_l; left; apply Rmult_lt_compat_l; auto|auto]|]. rewrite Rmult_0_l. apply Rmult_le_pos; [lra|apply dot_pos]. }
        lra.
      * left. assert (T : loop M tol (body f1) rem (S n) w' (Some (norm N (grad (x_old (fst w'))))) false = (w', S n, Some (norm N (grad (x_old (fst w')))), false)).
        { destruct rem; cbn [loop]; [reflexivity|]. replace (ltb tol (norm N (grad (x_old (fst w'))))) with false by (symmetry; apply ltb_false; lra). reflexivity. }
        rewrite (Hf f1 (Nat.le_refl f1)) in T. injection T as <- _ _. lra.
    + exists 0%nat, w, n, e. split; [intros fuel _; cbn [loop]; now rewrite E|]. destruct e as [r|]; [|discriminate]. apply ltb_false in E. left. rewrite <- (He r eq_refl). auto.
Qed.
(* the tolerance is reached as soon as max_iter is the initial gap divided by c1 (1 - c2) / L tol^2 *)
Theorem C206_tolerance : forall max_iter w0 step m0 x0, 0 < tol -> obj x0 - low <= INR max_iter * (c1 * (1 - c2) / L * (tol * tol)) ->
  exists f0, forall fuel, (f0 <= fuel)%nat ->
  let r := gradient_descent N M obj grad [line_search M (wolfe_search N obj grad fuel alpha c1 c2)] None max_iter tol w0 step m0 x0 in
  norm N (grad (optimum r)) <= tol.
Proof.
  intros max_iter w0 step m0 x0 Ht Hm. destruct (wolfe_until max_iter Ht 0 (set_old (start w0 step x0) (grad x0) (hess_ w0), m0) None eq_refl ltac:(discriminate)) as (f0 & w & n & e & Hf & A).
  exists f0. intros fuel Hff r. unfold r, gradient_descent. rewrite (Hf fuel Hff : loop M tol (gd_body N M grad [line_search M (wolfe_search N obj grad fuel alpha c1 c2)] None) _ _ _ _ _ = _). cbn [close optimum]. destruct A as [A|A]; auto.
  cbn [fst set_old start x_old] in A. fold c in Hm. assert (0 < c * (tol * tol)) by (apply Rmult_lt_0_compat; [apply c_pos|nra]). unfold large in A. exfalso. destruct (Rlt_dec _ _); lra.
Qed.
(* geometric convergence when the gradient dominates the gap *)
Theorem C206_geometric : forall mu max_iter w0 step m0 x0, dominated N obj grad low mu -> 0 <= 2 * mu * (c1 * (1 - c2) / L) <= 1 ->
  exists f0, forall fuel, (f0 <= fuel)%nat ->
  let r := gradient_descent N M obj grad [line_search M (wolfe_search N obj grad fuel alpha c1 c2)] None max_iter tol w0 step m0 x0 in
  value r - low <= (1 - 2 * mu * (c1 * (1 - c2) / L)) ^ n_iter r * (obj x0 - low).
Proof.
  intros mu max_iter w0 step m0 x0 HD Hq. fold c in Hq |- *. assert (Pc := c_pos). set (q := 1 - 2 * mu * c).
  assert (R : forall rem n (w : pub * M) e, grad_old (fst w) = grad (x_old (fst w)) -> exists f0 w' n' e', (forall fuel, (f0 <= fuel)%nat -> loop M tol (body fuel) rem n w e false = (w', n', e', false)) /\ (n <= n')%nat /\ obj (x_old (fst w')) - low <= q ^ (n' - n) * (obj (x_old (fst w)) - low)).
  { induction rem as [|rem IH]; intros n w e HG.
    - exists 0%nat, w, n, e. split; [reflexivity|]. split; [lia|]. rewrite Nat.sub_diag. cbn. lra.
    - destruct (match e with None => true | Some r => ltb tol r end) eqn:E.
      + destruct (wolfe_pass w HG) as (f0 & w' & Hw & HG' & D). destruct (IH (S n) w' (Some (norm N (grad (x_old (fst w'))))) HG') as (f1 & wf & nf & ef & Hf & A & B).
        exists (Nat.max f0 f1), wf, nf, ef. split. { intros fuel Hff. cbn [loop]. rewrite E. cbn [negb andb]. rewrite Hw by lia. apply Hf. lia. }
        split; [lia|]. replace (nf - n)%nat with (S (nf - S n)) by lia. cbn [pow]. assert (P : 0 <= q ^ (nf - S n)) by (apply pow_le; unfold q; lra).
        apply Rle_trans with (1 := B). rewrite (Rmult_comm q), Rmult_assoc. apply Rmult_le_compat_l; auto. specialize (HD (x_old (fst w))). fold (sq (x_old (fst w))) in HD.
        assert (c * (2 * mu * (obj (x_old (fst w)) - low)) <= c * sq (x_old (fst w))) by (apply Rmult_le_compat_l; lra). unfold q. lra.
      + exists 0%nat, w, n, e. split; [intros fuel _; cbn [loop]; now rewrite E|]. split; [lia|]. rewrite Nat.sub_diag. cbn. lra. }
  destruct (R max_iter 0%nat (set_old (start w0 step x0) (grad x0) (hess_ w0), m0) None eq_refl) as (f0 & w & n & e & Hf & _ & B).
  exists f0. intros fuel Hff r. unfold r, gradient_descent. rewrite (Hf fuel Hff : loop M tol (gd_body N M grad [line_search M (wolfe_search N obj grad fuel alpha c1 c2)] None) _ _ _ _ _ = _). cbn [close value n_iter]. rewrite Nat.sub_0_r in B. exact B.
Qed.
End Descent.

(* half the squared norm meets the hypotheses with L = 1 *)
Example C206_example N : gradient_of N (fun x => dot N x x / 2) (fun x => x) /\ gradient_lipschitz N (fun x => x) 1 /\ extensional N (fun x => dot N x x / 2) /\ dominated N (fun x => dot N x x / 2) (fun x => x) 0 1.
Proof.
  split; [|split; [|split]].
  - intros x u a. assert (E : forall b, dot N (ray x u b) (ray x u b) / 2 = dot N x x / 2 + b * dot N x u + b * b * (dot N u u / 2)).
    { intros b. unfold ray. rewrite dot_add_sqr, !dot_scale_r, !dot_scale_l. field. }
    intros eps He. assert (Hu := dot_pos N u). assert (Hd : 0 < eps / (dot N u u / 2 + 1)) by (apply Rdiv_lt_0_compat; lra). exists (mkposreal _ Hd). intros h Hh Hl. cbn [pos] in Hl. rewrite !E.
    unfold ray at 1. rewrite dot_add_l, dot_scale_l.
    replace ((_ - _) / h - _) with (h * (dot N u u / 2)) by (field; auto). rewrite Rabs_mult, (Rabs_pos_eq (dot N u u / 2)) by lra.
    apply (Rmult_lt_compat_r (dot N u u / 2 + 1)) in Hl; [|lra]. replace (eps / (dot N u u / 2 + 1) * (dot N u u / 2 + 1)) with eps in Hl by (field; lra). assert (0 < Rabs h) by now apply Rabs_pos_lt. nra.
  - intros x u a. right. rewrite (dot_ext N _ (vscale a u) _ (vscale a u)) by (intros; unfold vsub, ray, vadd, vscale; ring). rewrite dot_scale_l, dot_scale_r. ring.
  - intros x y H. f_equal. now apply dot_ext.
  - intros x. lra.
Qed.
Example C206_run M w0 m0 : exists f0, forall fuel, (f0 <= fuel)%nat ->
  norm 2 (optimum (gradient_descent 2 M (fun x => dot 2 x x / 2) (fun x => x) [line_search M (wolfe_search 2 (fun x => dot 2 x x / 2) (fun x => x) fuel 1 (1 / 4) (1 / 2))] None 128 (1 / 4) w0 1 m0 (fun _ => 1))) <= 1 / 4.
Proof.
  destruct (C206_example 2) as (A & B & C & D).
  apply (C206_tolerance 2 M (fun x => dot 2 x x / 2) (fun x => x) 1 0 1 (1 / 4) (1 / 2) (1 / 4)); auto; try lra.
  - intros x. assert (P := dot_pos 2 x). lra.
  - unfold dot. cbn. lra.
Qed.
Print Assumptions C206_tolerance.
Print Assumptions C206_geometric.
