(* C210: BFGS with the backtracking line search on strongly convex objectives. *)
From Coq Require Import Lia Lra Psatz.
From Verif Require Import Base RSum SimplexModel SimplexProps HyperProps DiffProps OptModel OptProps LineSearchProps OptConv OptWolfe OptBfgs.

(* ---- the search along any descent direction ---- *)
Lemma backtrack_mono phi m beta gamma f : forall f' al b, (f <= f')%nat -> backtrack phi m f beta gamma al = Ok b -> backtrack phi m f' beta gamma al = Ok b.
Proof. induction f as [|f IH]; intros f' al b Hff Hr; cbn in Hr; [discriminate|]. destruct f' as [|f']; [lia|]. cbn [backtrack]. destruct (ltb _ 0); auto. apply IH; auto. lia. Qed.
Lemma backtracking_returns N obj grad L alpha beta gamma p : smooth N obj grad L -> extensional N obj -> 0 < L -> 0 < alpha -> 0 < beta < 1 -> 0 < gamma < 1 ->
  grad_old p = grad (x_old p) -> dot N (grad_old p) (update p) < 0 ->
  exists f0 a, (forall fuel, (f0 <= fuel)%nat -> backtracking_search N obj fuel alpha beta gamma p = Ok a) /\ 0 < a /\
    obj (ray (x_old p) (update p) a) <= obj (x_old p) + gamma * a * dot N (grad_old p) (update p) /\
    (a = alpha \/ beta * (2 * (1 - gamma)) * - dot N (grad_old p) (update p) <= L * a * dot N (update p) (update p)).
Proof.
  intros HS He HL Ha Hb Hg HG Hm. set (x := x_old p) in *. set (u := update p) in *. set (m := dot N (grad_old p) u) in *.
  assert (Huu : 0 < dot N u u).
  { apply dot_nonzero. destruct (classic_nonzero N u) as [G|G]; auto. exfalso. assert (m = 0) by (apply rsum_zero; intros r Hr; rewrite G by auto; ring). lra. }
  set (phi := fun a => obj (ray x u a)). assert (P0 : phi 0 = obj x) by (unfold phi; apply (ray_0 N obj He)).
  assert (Sm : forall b, 0 < b -> ~ armijo phi gamma m b -> 2 * (1 - gamma) * - m < L * b * dot N u u).
  { intros b Hbp Hn. unfold armijo in Hn. rewrite P0 in Hn. apply Rnot_le_lt in Hn. assert (Q := HS x u b ltac:(lra)). rewrite <- HG in Q. fold m in Q. unfold phi in Hn.
    assert (G : b * ((1 - gamma) * - m) < b * (L / 2 * b * dot N u u)) by lra. apply Rmult_lt_reg_l in G; auto. lra. }
  assert (Small : forall b, 0 < b -> L * b * dot N u u <= 2 * (1 - gamma) * - m -> armijo phi gamma m b).
  { intros b Hbp Hn. unfold armijo. rewrite P0. unfold phi. assert (Q := HS x u b ltac:(lra)). rewrite <- HG in Q. fold m in Q.
    assert (b * (L * b * dot N u u) <= b * (2 * (1 - gamma) * - m)) by (apply Rmult_le_compat_l; lra). lra. }
  destruct (pow_small beta alpha (2 * (1 - gamma) * - m / (L * dot N u u)) Hb Ha) as (n & Hn1 & Hn2).
  { apply Rdiv_lt_0_compat; apply Rmult_lt_0_compat; lra. }
  destruct (backtrack_terminates phi m beta gamma n alpha) as (a & Hr).
  { apply Small; auto. apply (Rmult_lt_compat_r (L * dot N u u)) in Hn2; [|apply Rmult_lt_0_compat; auto]. replace (2 * (1 - gamma) * - m / (L * dot N u u) * (L * dot N u u)) with (2 * (1 - gamma) * - m) in Hn2 by (field; split; lra). lra. }
  assert (HR : forall fuel, (S n <= fuel)%nat -> backtracking_search N obj fuel alpha beta gamma p = Ok a).
  { intros fuel Hf. unfold backtracking_search, backtracking. fold x u m. replace (ltb m 0) with true by (symmetry; now apply ltb_true). fold phi. exact (backtrack_mono phi m beta gamma (S n) fuel alpha a Hf Hr). }
  exists (S n), a. split; [exact HR|]. assert (E := HR (S n) (le_n _)). unfold backtracking_search in E. fold x u m phi in E.
  destruct (C54_backtracking phi m _ _ _ _ _ Hm E) as (k & Ek & Ar & Hj).
  assert (Pa : 0 < a) by (rewrite Ek; apply Rmult_lt_0_compat; [auto|apply pow_lt; lra]). split; [auto|]. split; [unfold armijo in Ar; rewrite P0 in Ar; exact Ar|].
  destruct k as [|k]; [left; rewrite Ek; cbn [pow]; ring|right]. specialize (Hj k ltac:(lia)). set (b := alpha * beta ^ k) in *. assert (Hbp : 0 < b) by (apply Rmult_lt_0_compat; [auto|apply pow_lt; lra]).
  assert (Q := Sm b Hbp Hj). replace a with (beta * b) by (rewrite Ek; unfold b; cbn [pow]; ring).
  assert (beta * (2 * (1 - gamma) * - m) < beta * (L * b * dot N u u)) by (apply Rmult_lt_compat_l; lra). lra.
Qed.

(* x^2 e^-x <= 4 / e^2 < 1 *)
Lemma square_exp x : 0 < x -> x * x <= 4 * exp (x - 2).
Proof.
  intros Hx. assert (Q := exp_ineq1_le (x / 2 - 1)). replace (x - 2) with ((x / 2 - 1) + (x / 2 - 1)) by lra. rewrite exp_plus. set (e := exp _) in *. assert (0 < x / 2 <= e) by lra. nra.
Qed.

(* ---- the run ---- *)
Section Run.
Variables (N : nat) (M : Type) (obj : vec -> R) (grad : vec -> vec) (L mu low alpha beta gamma tol : R).
Hypothesis HL : 0 < L.
Hypothesis Hmu : 0 < mu.
Hypothesis Hext : extensional N obj.
Hypothesis Hgrad : gradient_of N obj grad.
Hypothesis Hlip : gradient_lipschitz N grad L.
Hypothesis Hmon : strongly_monotone N grad mu.
Hypothesis Hlow : forall x, low <= obj x.
Hypothesis Ha : 0 < alpha.
Hypothesis Hb : 0 < beta < 1.
Hypothesis Hg : 0 < gamma < 1.
Hypothesis Htol : 0 < tol.
Let body fuel := bfgs_body N M grad [line_search M (backtracking_search N obj fuel alpha beta gamma)] None.
(* guaranteed decrease per iteration *)
Let kappa := Rmin (alpha / 2) (2 * beta * (1 - gamma) / L).
Let delta := gamma * kappa * exp (ln mu + 1 - L * L / mu) * (tol * tol).
Let psi := psi N.
Let paired := paired N.
Let good := good N M grad.
Lemma kappa_pos : 0 < kappa.
Proof. apply Rmin_pos; [lra|]. apply Rdiv_lt_0_compat; auto. apply Rmult_lt_0_compat; lra. Qed.
Lemma back_delta_pos : 0 < delta.
Proof. assert (K := kappa_pos). unfold delta. apply Rmult_lt_0_compat; [|nra]. apply Rmult_lt_0_compat; [|apply exp_pos]. apply Rmult_lt_0_compat; lra. Qed.
(* the ghost potential after a step s with gradient change y, when B s = - a g *)
Lemma potential_sharp H B s y : paired H B -> (exists r, (r < N)%nat /\ s r <> 0) -> mu * dot N s s <= dot N y s -> dot N y y <= L * L * dot N s s ->
  let cos2 := quad N B s * quad N B s / (dot N s s * dot N (mulv N B s) (mulv N B s)) in
  let T := dot N (mulv N B s) (mulv N B s) / quad N B s in
  0 < dot N y s /\ 0 < cos2 /\ paired (bfgs_update N H s y) (next N B s y) /\ psi (next N B s y) <= psi B + (L * L / mu - ln mu) - T + ln T + ln cos2.
Proof.
  intros (Sb & Sh & Ph & Hi) Hnz Hsc Hy cos2 T0. assert (Pb := inverse_pd N B H Sh Ph Hi). assert (HA := Pb s Hnz). assert (Hss := dot_nonzero N s Hnz).
  assert (Hsy : 0 < dot N y s) by (apply Rlt_le_trans with (2 := Hsc); apply Rmult_lt_0_compat; auto).
  assert (HBs : 0 < dot N (mulv N B s) (mulv N B s)).
  { apply dot_nonzero. destruct (classic_nonzero N (mulv N B s)) as [G|G]; auto. exfalso. unfold quad, dot in HA. rewrite rsum_zero in HA; [lra|]. intros j Hj. rewrite G by auto. ring. }
  set (A := quad N B s) in *. set (bs := dot N (mulv N B s) (mulv N B s)) in *. set (ss := dot N s s) in *. set (sy := dot N y s) in *. change T0 with (bs / A). clear T0. set (T := bs / A).
  assert (HT : 0 < T) by now apply Rdiv_lt_0_compat. assert (Hcos : 0 < cos2) by (unfold cos2; apply Rdiv_lt_0_compat; nra).
  split; auto. split; auto. split.
  - split; [now apply next_sym|]. split; [now apply C105_symmetric|]. split; [apply C105_positive_definite; auto; rewrite dot_comm; exact Hsy|]. now apply next_inverse.
  - unfold psi, OptBfgs.psi. rewrite next_trace by auto. rewrite (next_det N B H s y) by auto. fold sy A bs T. assert (Pd := sdet_pos N B Sb Pb).
    rewrite ln_mult; [|exact Pd|now apply Rdiv_lt_0_compat].
    assert (E : sy / A = sy / ss * (/ (T * cos2))) by (unfold T, cos2; field; repeat split; lra). rewrite E. rewrite ln_mult; [|now apply Rdiv_lt_0_compat|apply Rinv_0_lt_compat; nra]. rewrite ln_Rinv by nra. rewrite ln_mult by auto.
    assert (I1 : ln mu <= ln (sy / ss)).
    { assert (Q : mu <= sy / ss) by (apply Rmult_le_reg_r with ss; auto; replace (sy / ss * ss) with sy by (field; lra); auto). destruct Q as [Q|Q]; [left; now apply ln_increasing|rewrite <- Q; lra]. }
    assert (I2 : dot N y y / sy <= L * L / mu).
    { apply Rmult_le_reg_r with sy; auto. replace (dot N y y / sy * sy) with (dot N y y) by (field; lra). apply Rle_trans with (1 := Hy). replace (L * L * ss) with (L * L / mu * (mu * ss)) by (field; lra). apply Rmult_le_compat_l; [|auto]. apply Rmult_le_pos; [nra|]. left. now apply Rinv_0_lt_compat. }
    lra.
Qed.

Lemma back_pass (w : pub * M) B : good w B -> tol < norm N (grad (x_old (fst w))) ->
  exists f0 w', obj (x_old (fst w')) <= obj (x_old (fst w)) /\
   ((exists B', (forall fuel, (f0 <= fuel)%nat -> body fuel w = Next w' (norm N (grad (x_old (fst w')))) false) /\ good w' B' /\
       obj (x_old (fst w')) / delta + psi B' <= obj (x_old (fst w)) / delta + psi B - 1) \/
    ((forall fuel, (f0 <= fuel)%nat -> body fuel w = Return w') /\ x_old (fst w') = x_old (fst w) /\
       exists a u, 0 < a /\ dot N (grad (ray (x_old (fst w)) u a)) (grad (ray (x_old (fst w)) u a)) = 0 /\ obj (ray (x_old (fst w)) u a) < obj (x_old (fst w)))).
Proof.
  intros [HG HP] Hn. assert (Hd := back_delta_pos). set (x := x_old (fst w)) in *. set (g := grad x) in *. set (H := inv_hess (fst w)) in *. destruct HP as (Sb & Sh & Ph & Hi). assert (HP : paired H B) by (repeat split; auto).
  assert (Hgg : tol * tol < dot N g g) by (now apply (big_gradient N grad tol)).
  assert (Hgnz : exists r, (r < N)%nat /\ g r <> 0).
  { destruct (classic_nonzero N g) as [G|G]; auto. exfalso. assert (Z : dot N g g = 0) by (apply rsum_zero; intros r Hr; rewrite G by auto; ring). assert (0 < tol * tol) by (apply Rmult_lt_0_compat; auto). lra. }
  set (p := set_update (fst w) (vscale (-1) (mulv N H g))). set (u := update p). assert (Eu : u = vscale (-1) (mulv N H g)) by reflexivity.
  assert (Hm : dot N g u < 0) by (rewrite Eu; now apply C105_descent_direction).
  destruct (backtracking_returns N obj grad L alpha beta gamma p (C183_lipschitz N obj grad L HL Hext Hgrad Hlip) Hext HL Ha Hb Hg) as (f0 & a & Hf & Pa & Ar & Sm); [exact HG| |].
  { unfold p at 1. cbn [set_update grad_old]. rewrite HG. exact Hm. }
  replace (grad_old p) with g in Ar, Sm by (symmetry; exact HG). change (x_old p) with x in *. fold u in Ar, Sm.
  set (xn := vadd x (vscale a u)). change (ray x u a) with xn in *. set (m := dot N g u) in *.
  assert (Huu : 0 < dot N u u).
  { apply dot_nonzero. destruct (classic_nonzero N u) as [G|G]; auto. exfalso. assert (m = 0) by (apply rsum_zero; intros r Hr; rewrite G by auto; ring). lra. }
  set (p3 := set_new (set_h p a) xn (grad xn)).
  assert (Body : forall fuel, (f0 <= fuel)%nat -> body fuel w = if is_zero N (grad xn) then Return (p3, snd w) else
      Next (shift (set_inv p3 (bfgs_update N H (vsub xn x) (vsub (grad xn) (grad_old (fst w))))), snd w) (norm N (grad xn)) false).
  { intros fuel Hff. unfold body, bfgs_body, finish, line_search. cbn [execute_pre execute_post map pre_hook post_hook fold_left execute_criterion exec_hook on_pub fst snd orb].
    replace (set_update (fst w) (vscale (-1) (mulv N (inv_hess (fst w)) (grad_old (fst w))))) with p by (unfold p; rewrite HG; reflexivity). rewrite (Hf fuel Hff). cbn [exec_hook fst snd orb on_pub].
    change (move grad (set_h p a)) with p3. change (grad_new p3) with (grad xn). destruct (is_zero N (grad xn)); reflexivity. }
  destruct (is_zero N (grad xn)) eqn:Ez.
  - exists f0, (p3, snd w). split; [cbn; fold x; lra|]. right. split; [exact Body|]. split; [reflexivity|]. exists a, u. split; auto. split; [now apply eqb_eq_R in Ez|]. apply Rle_lt_trans with (1 := Ar). assert (gamma * a * m < 0); [|lra]. assert (0 < gamma * a) by (apply Rmult_lt_0_compat; lra). nra.
  - exists f0. eexists. split; [|left; eexists; split; [exact Body|]].
    + cbn [fst shift set_inv x_old x_new p3 set_new]. apply Rle_trans with (1 := Ar). assert (0 < gamma * a) by (apply Rmult_lt_0_compat; lra). nra.
    + set (s := vsub xn x). set (y := vsub (grad xn) (grad_old (fst w))). assert (Es : forall r, s r = a * u r) by (intros r; unfold s, xn, vsub, vadd, vscale; ring).
      assert (Ess : dot N s s = a * a * dot N u u) by (rewrite (dot_ext N s (vscale a u) s (vscale a u)) by (intros; apply Es); rewrite dot_scale_l, dot_scale_r; ring).
      assert (Hsnz : exists r, (r < N)%nat /\ s r <> 0).
      { destruct (classic_nonzero N s) as [G|G]; auto. exfalso. assert (Z : dot N s s = 0) by (apply rsum_zero; intros r Hr; rewrite G by auto; ring). rewrite Ess in Z. assert (0 < a * a * dot N u u) by (apply Rmult_lt_0_compat; [nra|auto]). lra. }
      assert (EBs : forall r, (r < N)%nat -> mulv N B s r = - a * g r).
      { intros r Hr. assert (E0 := inverse_comm N B H Sh Ph Hi g r Hr). rewrite <- E0. unfold mulv at 1 2. rewrite <- rsum_scal. apply rsum_ext. intros j Hj. rewrite Es, Eu. unfold vscale. ring. }
      assert (EA : quad N B s = a * a * - m).
      { unfold quad. rewrite (dot_ext N s (vscale a u) _ (vscale (- a) g)) by (intros; auto; try apply Es; now rewrite EBs). rewrite dot_scale_l, dot_scale_r, dot_comm. fold m. ring. }
      assert (Ebs : dot N (mulv N B s) (mulv N B s) = a * a * dot N g g) by (rewrite (dot_ext N _ (vscale (- a) g) _ (vscale (- a) g)) by (intros; now rewrite EBs); rewrite dot_scale_l, dot_scale_r; ring).
      destruct (potential_sharp H B s y HP Hsnz) as (Hsy & Hcos & HP' & Hpsi).
      { unfold y. rewrite HG. apply Hmon. }
      { unfold y. rewrite HG, Ess. fold g. apply Rle_trans with (1 := Hlip x u a). right. ring. }
      split; [split; [reflexivity|exact HP']|].
      cbn [fst shift set_inv x_old x_new p3 set_new]. set (cos2 := _ / _) in Hcos, Hpsi.
      assert (Ec : cos2 = m * m / (dot N u u * dot N g g)). { unfold cos2. rewrite EA, Ess, Ebs. field. assert (0 < tol * tol) by (apply Rmult_lt_0_compat; auto). repeat split; lra. }
      assert (T2 : 0 < tol * tol) by (apply Rmult_lt_0_compat; auto).
      assert (Et : dot N (mulv N B s) (mulv N B s) / quad N B s = dot N g g / - m). { rewrite EA, Ebs. field. repeat split; lra. }
      rewrite Et in Hpsi. set (T := dot N g g / - m) in *. assert (HT : 0 < T) by (apply Rdiv_lt_0_compat; lra).
      set (D := psi (next N B s y) - psi B). assert (HD : D <= L * L / mu - ln mu - T + ln T + ln cos2) by (unfold D; lra). set (E := exp (ln mu + 1 - L * L / mu)).
      assert (HE : 0 < E) by apply exp_pos. assert (K := kappa_pos).
      assert (Dec : gamma * kappa * (E * (1 + D)) * dot N g g <= obj x - obj xn).
      { destruct (Rle_dec (1 + D) 0) as [Hneg|Hpos].
        { apply Rle_trans with 0; [|assert (0 < gamma * a * - m) by (repeat apply Rmult_lt_0_compat; lra); lra].
          assert (0 <= gamma * kappa * E * dot N g g) by (repeat apply Rmult_le_pos; lra). replace (gamma * kappa * (E * (1 + D)) * dot N g g) with (- (gamma * kappa * E * dot N g g * - (1 + D))) by ring.
          assert (0 <= gamma * kappa * E * dot N g g * - (1 + D)) by (apply Rmult_le_pos; lra). lra. }
        assert (Hexp : E * (1 + D) <= exp (1 - T) * (T * cos2)).
        { apply Rle_trans with (E * exp D); [apply Rmult_le_compat_l; [lra|apply exp_ineq1_le]|]. unfold E. rewrite <- exp_plus.
          rewrite <- (exp_ln (T * cos2)) by (apply Rmult_lt_0_compat; auto). rewrite <- exp_plus, ln_mult by auto.
          assert (Q : ln mu + 1 - L * L / mu + D <= 1 - T + (ln T + ln cos2)) by lra. destruct Q as [Q|Q]; [left; now apply exp_increasing|rewrite Q; lra]. }
        assert (Hc1 : cos2 <= 1).
        { rewrite Ec. assert (Q := young N g (vscale (-1) u) (- m / dot N g g) ltac:(apply Rdiv_lt_0_compat; lra)). rewrite dot_scale_l, !dot_scale_r in Q. fold m in Q. apply (Rmult_le_compat_l (- m)) in Q; [|lra].
          replace (- m * (- m / dot N g g * dot N g g + -1 * (-1 * dot N u u) / (- m / dot N g g))) with (m * m + dot N u u * dot N g g) in Q by (field; split; lra). apply Rmult_le_reg_r with (dot N u u * dot N g g); [apply Rmult_lt_0_compat; lra|].
          replace (m * m / (dot N u u * dot N g g) * (dot N u u * dot N g g)) with (m * m) by (field; repeat split; lra). lra. }
        assert (Hgm : gamma * kappa * (E * (1 + D)) * dot N g g <= gamma * - m * a); [|lra].
        replace (gamma * kappa * (E * (1 + D)) * dot N g g) with (gamma * (kappa * (E * (1 + D) * dot N g g))) by ring. rewrite (Rmult_assoc gamma (- m) a). apply Rmult_le_compat_l; [lra|].
        assert (Hp : 0 < E * (1 + D) * dot N g g) by (repeat apply Rmult_lt_0_compat; lra).
        destruct Sm as [Sm|Sm].
        - apply Rle_trans with (alpha / 2 * (E * (1 + D) * dot N g g)); [apply Rmult_le_compat_r; [lra|apply Rmin_l]|]. rewrite Sm.
          assert (Q1 : E * (1 + D) <= 2 * (- m / dot N g g)); [|apply (Rmult_le_compat_r (dot N g g)) in Q1; [|lra]; replace (2 * (- m / dot N g g) * dot N g g) with (2 * - m) in Q1 by (field; lra); nra].
          replace (- m / dot N g g) with (/ T) by (unfold T; field; split; lra). apply Rle_trans with (1 := Hexp). apply Rmult_le_reg_r with (T * exp (T - 2)); [apply Rmult_lt_0_compat; [auto|apply exp_pos]|].
          replace (2 * / T * (T * exp (T - 2))) with (2 * exp (T - 2)) by (field; lra). replace (exp (1 - T) * (T * cos2) * (T * exp (T - 2))) with (exp (1 - T) * exp (T - 2) * (T * T * cos2)) by ring.
          rewrite <- exp_plus. replace (1 - T + (T - 2)) with (-1) by ring. assert (Q2 := square_exp T HT).
          assert (Q3 : exp (-1) <= / 2). { replace (-1) with (- (1)) by ring. rewrite exp_Ropp. apply Rinv_le_contravar; [lra|]. assert (Q := exp_ineq1_le 1). lra. }
          assert (Q4 : T * T * cos2 <= 4 * exp (T - 2)). { apply Rle_trans with (T * T * 1); [apply Rmult_le_compat_l; nra|lra]. }
          assert (Q5 : 0 <= T * T * cos2) by (apply Rmult_le_pos; nra). assert (Q6 := exp_pos (-1)).
          apply Rle_trans with (/ 2 * (T * T * cos2)); [apply Rmult_le_compat_r; auto|lra].
        - apply Rle_trans with (2 * beta * (1 - gamma) / L * (E * (1 + D) * dot N g g)); [apply Rmult_le_compat_r; [lra|apply Rmin_r]|].
          assert (Q1 : E * (1 + D) <= cos2).
          { apply Rle_trans with (1 := Hexp). assert (Q := exp_ineq1_le (T - 1)). assert (P := exp_pos (1 - T)). assert (P1 : exp (1 - T) * exp (T - 1) = 1) by (rewrite <- exp_plus; replace (1 - T + (T - 1)) with 0 by ring; apply exp_0).
            assert (exp (1 - T) * T <= 1). { apply Rle_trans with (exp (1 - T) * exp (T - 1)); [apply Rmult_le_compat_l; lra|lra]. } replace (exp (1 - T) * (T * cos2)) with (exp (1 - T) * T * cos2) by ring. nra. }
          apply Rle_trans with (2 * beta * (1 - gamma) / L * (cos2 * dot N g g)).
          { apply Rmult_le_compat_l; [left; apply Rdiv_lt_0_compat; auto; apply Rmult_lt_0_compat; lra|]. apply Rmult_le_compat_r; lra. }
          rewrite Ec. replace (2 * beta * (1 - gamma) / L * (m * m / (dot N u u * dot N g g) * dot N g g)) with (- m * (beta * (2 * (1 - gamma)) * - m / (L * dot N u u))) by (field; repeat split; lra).
          apply Rmult_le_compat_l; [lra|]. apply Rmult_le_reg_r with (L * dot N u u); [apply Rmult_lt_0_compat; auto|].
          replace (beta * (2 * (1 - gamma)) * - m / (L * dot N u u) * (L * dot N u u)) with (beta * (2 * (1 - gamma)) * - m) by (field; split; lra). lra. }
      assert (Dec2 : obj xn <= obj x - delta * (1 + (psi (next N B s y) - psi B))).
      { fold D. unfold delta. fold E. destruct (Rle_dec (1 + D) 0) as [Hneg|Hpos].
        - assert (P0 : 0 < gamma * kappa * E * (tol * tol)) by (repeat apply Rmult_lt_0_compat; lra). assert (0 < gamma * a * - m) by (repeat apply Rmult_lt_0_compat; lra). nra.
        - assert (P0 : 0 <= gamma * kappa * (E * (1 + D))) by (repeat apply Rmult_le_pos; lra). assert (gamma * kappa * (E * (1 + D)) * (tol * tol) <= gamma * kappa * (E * (1 + D)) * dot N g g) by (apply Rmult_le_compat_l; lra). lra. }
      apply Rmult_le_reg_l with delta; auto. fold s y. replace (delta * (obj xn / delta + psi (next N B s y))) with (obj xn + delta * psi (next N B s y)) by (field; lra).
      replace (delta * (obj x / delta + psi B - 1)) with (obj x + delta * psi B - delta) by (field; lra). lra.
Qed.
Lemma back_run rem : forall n (w : pub * M) B, good w B ->
  exists f0 w' n' e', (forall fuel, (f0 <= fuel)%nat -> loop M tol (body fuel) rem n w (Some (norm N (grad (x_old (fst w))))) false = (w', n', e', false)) /\ obj (x_old (fst w')) <= obj (x_old (fst w)) /\
  (norm N (grad (x_old (fst w'))) <= tol \/ step_to_zero N obj grad (x_old (fst w')) \/ INR rem + INR N + low / delta <= obj (x_old (fst w)) / delta + psi B).
Proof.
  assert (Hd := back_delta_pos). induction rem as [|rem IH]; intros n w B HI.
  - exists 0%nat, w, n, (Some (norm N (grad (x_old (fst w))))). split; [reflexivity|]. split; [lra|]. right. right. cbn [INR]. assert (P := psi_low N _ _ (proj2 HI)). change (INR N <= psi B) in P.
    assert (low / delta <= obj (x_old (fst w)) / delta) by (apply Rmult_le_compat_r; [left; now apply Rinv_0_lt_compat|auto]). lra.
  - destruct (ltb tol (norm N (grad (x_old (fst w))))) eqn:E.
    + destruct (back_pass w B HI (proj1 (ltb_true _ _) E)) as (f0 & w' & Hle & [(B' & Hbd & HI' & Hpot)|(Hbd & Ex & a & u & Pa & Z & Hlt)]).
      * destruct (IH (S n) w' B' HI') as (f1 & wf & nf & ef & Hf & Hle' & A). exists (Nat.max f0 f1), wf, nf, ef. split.
        { intros fuel Hff. cbn [loop]. rewrite E. cbn [negb andb]. rewrite Hbd by lia. apply Hf. lia. }
        split; [lra|]. destruct A as [A|[A|A]]; auto. right. right. rewrite S_INR. lra.
      * exists f0, w', n, (Some (norm N (grad (x_old (fst w))))). split; [intros fuel Hff; cbn [loop]; rewrite E; cbn [negb andb]; now rewrite Hbd|]. split; [lra|]. right. left. rewrite Ex. exists a, u. split; auto. split; auto. intros r Hr. now apply (dot_zero N _ Z).
    + exists 0%nat, w, n, (Some (norm N (grad (x_old (fst w))))). split; [intros fuel _; cbn [loop]; now rewrite E|]. split; [lra|]. left. now apply ltb_false in E.
Qed.
(* BFGS never returns a larger value, and reaches the tolerance within gap / delta iterations, delta = gamma min (alpha / 2) (2 beta (1 - gamma) / L) mu e^(1 - L^2 / mu) tol^2,
   unless an iterate has a gradient that is exactly zero: then the one before it is returned *)
Theorem C210_tolerance_partial : forall max_iter w0 step m0 x0,
  obj x0 - low < INR max_iter * (gamma * Rmin (alpha / 2) (2 * beta * (1 - gamma) / L) * (mu * exp (1 - L * L / mu)) * (tol * tol)) ->
  exists f0, forall fuel, (f0 <= fuel)%nat ->
  let r := bfgs N M obj grad [line_search M (backtracking_search N obj fuel alpha beta gamma)] None max_iter tol w0 step m0 x0 in
  value r <= obj x0 /\ (norm N (grad (optimum r)) <= tol \/ step_to_zero N obj grad (optimum r)).
Proof.
  intros max_iter w0 step m0 x0 Hm. assert (Hd := back_delta_pos). assert (Ed : gamma * Rmin (alpha / 2) (2 * beta * (1 - gamma) / L) * (mu * exp (1 - L * L / mu)) * (tol * tol) = delta).
  { unfold delta. replace (ln mu + 1 - L * L / mu) with (ln mu + (1 - L * L / mu)) by ring. rewrite exp_plus, exp_ln by auto. reflexivity. }
  rewrite Ed in Hm. destruct (identity_paired N M obj grad L mu low) as [IP IPsi]. unfold bfgs. cbn [grad_old set_old]. destruct (is_zero N (grad x0)) eqn:Ez.
  - exists 0%nat. intros fuel _. cbn [value optimum]. split; [lra|]. left. apply eqb_eq_R in Ez. unfold norm. rewrite Ez, sqrt_0. lra.
  - destruct (back_run max_iter 0 (set_old (set_inv (start w0 step x0) identity) (grad x0) (hess_ w0), m0) identity (conj eq_refl IP)) as (f0 & w & n & e & Hf & Hle & A).
    cbn [fst set_old set_inv start x_old] in Hle, A. exists f0. intros fuel Hff. match goal with |- context [loop ?a ?b ?c ?d ?k ?l ?g ?h] => replace (loop a b c d k l g h) with (w, n, e, false) by (symmetry; exact (Hf fuel Hff)) end. cbn [close optimum value]. split; auto.
    destruct A as [A|[A|A]]; auto. exfalso. change (psi identity) with (OptBfgs.psi N identity) in A. rewrite IPsi in A. apply (Rmult_le_compat_l delta) in A; [|lra].
    replace (delta * (INR max_iter + INR N + low / delta)) with (INR max_iter * delta + delta * INR N + low) in A by (field; lra). replace (delta * (obj x0 / delta + INR N)) with (obj x0 + delta * INR N) in A by (field; lra). lra.
Qed.
End Run.

(* half the squared norm meets the hypotheses with L = mu = 1 *)
Example C210_run M w0 m0 : exists f0, forall fuel, (f0 <= fuel)%nat ->
  let r := bfgs 2 M (fun x => dot 2 x x / 2) (fun x => x) [line_search M (backtracking_search 2 (fun x => dot 2 x x / 2) fuel 3 (1 / 2) (1 / 4))] None 200 (1 / 4) w0 1 m0 (fun _ => 1) in
  value r <= 1 /\ (norm 2 (optimum r) <= 1 / 4 \/ step_to_zero 2 (fun x => dot 2 x x / 2) (fun x => x) (optimum r)).
Proof.
  destruct (C207_example 2) as (A & B & C & D).
  destruct (C210_tolerance_partial 2 M (fun x => dot 2 x x / 2) (fun x => x) 1 1 0 3 (1 / 2) (1 / 4) (1 / 4)) with (max_iter := 200%nat) (w0 := w0) (step := 1) (m0 := m0) (x0 := fun _ : nat => 1) as (f0 & Hf); auto; try lra.
  - intros x. assert (P := dot_pos 2 x). lra.
  - replace (1 - 1 * 1 / 1) with 0 by field. rewrite exp_0. unfold Rmin. destruct (Rle_dec _ _); unfold dot; cbn; lra.
  - exists f0. intros fuel Hff. destruct (Hf fuel Hff) as [V W]. split; [|exact W]. apply Rle_trans with (1 := V). unfold dot. cbn. lra.
Qed.
(* x^2 / 2 from 1: the first step of the search leads to the minimum, and 1 is returned, with gradient 1 *)
Theorem C210_returned_refuted : forall M w0 m0 fuel, (1 <= fuel)%nat ->
  let r := bfgs 1 M (fun x => dot 1 x x / 2) (fun x => x) [line_search M (backtracking_search 1 (fun x => dot 1 x x / 2) fuel 1 (1 / 2) (1 / 4))] None 200 (1 / 4) w0 1 m0 (fun _ => 1) in
  n_iter r = 0%nat /\ stopped r = false /\ norm 1 (optimum r) = 1.
Proof.
  intros M w0 m0 fuel Hf. assert (Hn1 : norm 1 (fun _ => 1) = 1) by (unfold norm, dot; cbn; replace (0 + 1 * 1) with 1 by ring; apply sqrt_1).
  assert (Hz : is_zero 1 (fun _ => 1) = false) by (unfold is_zero, eqb_, dot; cbn; destruct (Req_EM_T _ _); auto; lra).
  unfold bfgs. cbn [grad_old set_old]. rewrite Hz. cbn [loop]. rewrite Hn1. replace (ltb (1 / 4) 1) with true by (symmetry; apply ltb_true; lra). cbn [andb negb].
  unfold bfgs_body, line_search. cbn [execute_pre execute_post map pre_hook post_hook fold_left exec_hook on_pub fst snd orb].
  set (p := set_update _ _).
  assert (E : backtracking_search 1 (fun x => dot 1 x x / 2) fuel 1 (1 / 2) (1 / 4) p = Ok 1).
  { destruct fuel as [|f]; [lia|]. unfold backtracking_search, backtracking. cbn [backtrack].
    assert (Eu : update p 0%nat = -1) by (unfold p, vscale, mulv, identity; cbn; ring). unfold dot, ray, vadd, vscale. cbn [rsum]. change (x_old p 0%nat) with 1. change (grad_old p 0%nat) with 1. rewrite !Eu.
    replace (ltb (0 + 1 * -1) 0) with true by (symmetry; apply ltb_true; lra). replace (ltb _ 0) with false by (symmetry; apply ltb_false; lra). reflexivity. }
  rewrite E. cbn [exec_hook fst snd orb on_pub].
  replace (is_zero 1 _) with true; [cbn [close n_iter stopped optimum]; repeat split; exact Hn1|].
  symmetry. unfold is_zero, eqb_, dot. cbn. unfold p, vadd, vscale, mulv, identity. cbn. destruct (Req_EM_T _ _) as [|Hne]; auto. exfalso. apply Hne. ring.
Qed.
Print Assumptions C210_tolerance_partial.
Print Assumptions C210_returned_refuted.
