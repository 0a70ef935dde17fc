(* C208: Newton with the Wolfe line search converges from every starting point on strongly convex objectives. *)
From Coq Require Import Lia Lra Psatz.
From Verif Require Import Base RSum SimplexModel SimplexProps HyperProps OptModel OptProps LineSearchProps OptConv DiffProps OptWolfe OptNewton.

(* ---- specification ---- *)
(* the eigenvalues of the symmetric matrix H are between mu and L: mu |d|^2 <= d . H d and |H d| <= L |d| *)
Definition conditioned (N : nat) (H : nat -> nat -> R) (mu L : R) : Prop :=
  forall d, mu * dot N d d <= dot N d (mulv N H d) /\ dot N (mulv N H d) (mulv N H d) <= L * L * dot N d d.

Section Run.
Variables (N : nat) (M : Type) (obj : vec -> R) (grad : vec -> vec) (hess : vec -> nat -> nat -> R) (solve : (nat -> nat -> R) -> vec -> vec).
Variables (L mu low alpha c1 c2 tol : R).
Hypothesis HL : 0 < L.
Hypothesis Hmu : 0 < mu.
Hypothesis Hext : extensional N obj.
Hypothesis Hgrad : gradient_of N obj grad.
Hypothesis Hgext : forall x y, (forall r, (r < N)%nat -> x r = y r) -> forall r, (r < N)%nat -> grad x r = grad y r.
Hypothesis Hlip : gradient_lipschitz N grad L.
Hypothesis Hsolve : forall x, solves N solve (hess x).
Hypothesis Hhess : forall x, conditioned N (hess x) mu L.
Hypothesis Hlow : forall x, low <= obj x.
Hypothesis Ha : 0 < alpha.
Hypothesis Hc : 0 < c1 < c2.
Hypothesis Hc2 : c2 < 1.
Let c := c1 * (1 - c2) / L * (mu * mu / (L * L)).
Let body fuel := newton_body N M grad [line_search M (wolfe_search N obj grad fuel alpha c1 c2)] None hess solve.
Let sq x := dot N (grad x) (grad x).
Lemma nc_pos : 0 < c.
Proof. unfold c. apply Rmult_lt_0_compat; apply Rdiv_lt_0_compat; try apply Rmult_lt_0_compat; lra. Qed.
Lemma newton_wolfe_pass (w : pub * M) :
  exists f0 w', (forall fuel, (f0 <= fuel)%nat -> body fuel w = Next w' (norm N (grad (x_old (fst w')))) false) /\ obj (x_old (fst w')) <= obj (x_old (fst w)) - c * sq (x_old (fst w)).
Proof.
  set (x := x_old (fst w)). set (d := solve (hess x) (grad x)). set (p := set_update (set_old (fst w) (grad x) (hess x)) (vscale (-1) d)). set (u := update p).
  assert (Step : forall fuel a, wolfe_search N obj grad fuel alpha c1 c2 p = Ok a -> exists w', body fuel w = Next w' (norm N (grad (x_old (fst w')))) false /\ w' = (shift (set_new (set_h p a) (vadd x (vscale a u)) (grad (vadd x (vscale a u)))), snd w)).
  { intros fuel a Ea. unfold body, newton_body, finish, line_search. cbn [execute_pre execute_post map pre_hook post_hook fold_left execute_criterion exec_hook on_pub fst snd orb].
    match goal with |- context [wolfe_search N obj grad fuel alpha c1 c2 ?q] => change q with p end. rewrite Ea. cbn [exec_hook fst snd orb on_pub]. match goal with |- exists w', Next ?a _ _ = _ /\ _ => exists a end. split; reflexivity. }
  destruct (Hhess x d) as [H1 H2]. assert (Ed : forall r, (r < N)%nat -> mulv N (hess x) d r = grad x r) by (intros r Hr; now apply Hsolve).
  rewrite (dot_ext N d d (mulv N (hess x) d) (grad x)) in H1 by auto. rewrite (dot_ext N (mulv N (hess x) d) (grad x) (mulv N (hess x) d) (grad x)) in H2 by auto. fold (sq x) in H2.
  assert (Em : dot N (grad x) u = - dot N d (grad x)) by (change u with (vscale (-1) d); rewrite dot_scale_r, dot_comm; ring).
  assert (Eu : dot N u u = dot N d d) by (change u with (vscale (-1) d); rewrite dot_scale_l, dot_scale_r; ring).
  destruct (Rle_lt_or_eq_dec _ _ (dot_pos N d)) as [P|Z].
  - destruct (wolfe_returns N obj grad L low alpha c1 c2 HL Hext Hgrad Hgext Hlip Hlow Ha Hc Hc2 p eq_refl) as (f0 & a & Hf & Pa & A & _ & B).
    { change (grad_old p) with (grad x). fold u. rewrite Em. assert (0 < mu * dot N d d) by (apply Rmult_lt_0_compat; auto). lra. }
    change (grad_old p) with (grad x) in A, B. change (x_old p) with x in *. fold u in A, B. rewrite Em in A, B. rewrite Eu in B. set (dd := dot N d d) in *. set (dg := dot N d (grad x)) in *.
    exists f0. eexists. split; [intros fuel Hff; destruct (Step fuel a (Hf fuel Hff)) as (w' & E & ->); exact E|]. cbn [fst shift set_new x_old x_new]. unfold ray in A. apply Rle_trans with (1 := A).
    assert (La : (1 - c2) * mu / L <= a).
    { apply Rmult_le_reg_r with (L * dd); [apply Rmult_lt_0_compat; auto|]. replace ((1 - c2) * mu / L * (L * dd)) with ((1 - c2) * (mu * dd)) by (field; lra). apply Rle_trans with ((1 - c2) * - - dg); [|lra]. apply Rmult_le_compat_l; lra. }
    assert (Q1 : (1 - c2) * mu / L * (mu * dd) <= a * dg). { apply Rmult_le_compat; auto; [|apply Rmult_le_pos; lra]. left. apply Rdiv_lt_0_compat; auto. apply Rmult_lt_0_compat; lra. }
    assert (Q2 : sq x / (L * L) <= dd). { apply Rmult_le_reg_r with (L * L); [nra|]. replace (sq x / (L * L) * (L * L)) with (sq x) by (field; lra). lra. }
    assert (Q3 : c * sq x <= c1 * ((1 - c2) * mu / L * (mu * dd))).
    { unfold c. replace (c1 * (1 - c2) / L * (mu * mu / (L * L)) * sq x) with (c1 * ((1 - c2) * mu / L) * mu * (sq x / (L * L))) by (field; lra). replace (c1 * ((1 - c2) * mu / L * (mu * dd))) with (c1 * ((1 - c2) * mu / L) * mu * dd) by ring.
      apply Rmult_le_compat_l; auto. apply Rmult_le_pos; [|lra]. apply Rmult_le_pos; [lra|]. left. apply Rdiv_lt_0_compat; auto. apply Rmult_lt_0_compat; lra. }
    assert (c1 * ((1 - c2) * mu / L * (mu * dd)) <= c1 * (a * dg)) by (apply Rmult_le_compat_l; lra). lra.
  - assert (Zr : forall r, (r < N)%nat -> u r = 0) by (intros r Hr; apply (dot_zero N u); [rewrite Eu; auto|auto]).
    assert (Rx : forall a, obj (ray x u a) = obj x) by (intros a; apply Hext; intros r Hr; unfold ray, vadd, vscale; rewrite Zr by auto; ring).
    assert (Du : forall v, dot N v u = 0) by (intros v; apply rsum_zero; intros r Hr; rewrite Zr by auto; ring).
    assert (Ez : forall fuel, (1 <= fuel)%nat -> wolfe_search N obj grad fuel alpha c1 c2 p = Ok alpha).
    { intros [|fuel] Hf; [lia|]. unfold wolfe_search, wolfe. cbn [wolfe_loop]. unfold wolfe_step. cbn [w_alpha]. change (x_old p) with x. fold u. rewrite !Rx, !Du. replace (ltb (_ - _ + _) 0) with false by (symmetry; apply ltb_false; lra).
      replace (ltb 0 _) with false by (symmetry; apply ltb_false; lra). reflexivity. }
    exists 1%nat. eexists. split; [intros fuel Hff; destruct (Step fuel alpha (Ez fuel Hff)) as (w' & E & ->); exact E|]. cbn [fst shift set_new x_old x_new].
    assert (Z2 : sq x = 0) by (assert (Q := dot_pos N (grad x)); fold (sq x) in Q; rewrite <- Z in H2; lra). rewrite Z2, Rmult_0_r, Rminus_0_r. right. apply Rx.
Qed.
Lemma newton_wolfe_until rem : 0 < tol -> forall n (w : pub * M) e, (forall r, e = Some r -> r = norm N (grad (x_old (fst w)))) ->
  exists f0 w' n' e', (forall fuel, (f0 <= fuel)%nat -> loop M tol (body fuel) rem n w e false = (w', n', e', false)) /\ obj (x_old (fst w')) <= obj (x_old (fst w)) /\
  (norm N (grad (x_old (fst w'))) <= tol \/ (INR rem + large N grad tol (x_old (fst w))) * (c * (tol * tol)) < obj (x_old (fst w)) - low).
Proof.
  intros Htol. assert (Pc := nc_pos). assert (Sp : forall y, 0 <= c * sq y) by (intros y; apply Rmult_le_pos; [lra|apply dot_pos]). induction rem as [|rem IH]; intros n w e He.
  - exists 0%nat, w, n, e. split; [reflexivity|]. split; [lra|]. destruct (Rle_lt_dec (norm N (grad (x_old (fst w)))) tol) as [Hl|G]; [auto|]. right. unfold large. destruct (Rlt_dec _ _); [|lra]. cbn [INR]. apply big_gradient in G; auto.
    destruct (newton_wolfe_pass w) as (f0 & w' & _ & D). assert (Q := Hlow (x_old (fst w'))). fold (sq (x_old (fst w))) in G. assert (c * (tol * tol) < c * sq (x_old (fst w))) by (apply Rmult_lt_compat_l; auto). lra.
  - destruct (match e with None => true | Some r => ltb tol r end) eqn:E.
    + destruct (newton_wolfe_pass w) as (f0 & w' & Hw & D). destruct (IH (S n) w' (Some (norm N (grad (x_old (fst w'))))) ltac:(intros r Hr; now injection Hr)) as (f1 & wf & nf & ef & Hf & V & A).
      exists (Nat.max f0 f1), wf, nf, ef. split. { intros fuel Hff. cbn [loop]. rewrite E. cbn [negb andb]. rewrite Hw by lia. apply Hf. lia. }
      split; [specialize (Sp (x_old (fst w))); lra|]. destruct (Rlt_dec tol (norm N (grad (x_old (fst w'))))) as [G|Hl].
      * destruct A as [A|A]; auto. right. unfold large in A at 1. destruct (Rlt_dec tol (norm N (grad (x_old (fst w'))))); [|lra]. rewrite S_INR.
        assert (large N grad tol (x_old (fst w)) * (c * (tol * tol)) <= c * sq (x_old (fst w))).
        { unfold large. destruct (Rlt_dec _ _) as [G'|]; [apply big_gradient in G'; [rewrite Rmult_1_l; left; apply Rmult_lt_compat_l; auto|auto]|]. rewrite Rmult_0_l. apply Sp. }
        lra.
      * left. assert (T : loop M tol (body f1) rem (S n) w' (Some (norm N (grad (x_old (fst w'))))) false = (w', S n, Some (norm N (grad (x_old (fst w')))), false)).
        { destruct rem; cbn [loop]; [reflexivity|]. replace (ltb tol (norm N (grad (x_old (fst w'))))) with false by (symmetry; apply ltb_false; lra). reflexivity. }
        rewrite (Hf f1 (Nat.le_refl f1)) in T. injection T as <- _ _. lra.
    + exists 0%nat, w, n, e. split; [intros fuel _; cbn [loop]; now rewrite E|]. split; [lra|]. destruct e as [r|]; [|discriminate]. apply ltb_false in E. left. rewrite <- (He r eq_refl). auto.
Qed.
(* the tolerance is reached as soon as max_iter is the initial gap divided by c1 (1 - c2) / L (mu / L)^2 tol^2 *)
Theorem C208_tolerance : forall max_iter w0 step m0 x0, 0 < tol -> obj x0 - low <= INR max_iter * (c1 * (1 - c2) / L * (mu * mu / (L * L)) * (tol * tol)) ->
  exists f0, forall fuel, (f0 <= fuel)%nat ->
  let r := newton N M obj grad [line_search M (wolfe_search N obj grad fuel alpha c1 c2)] None max_iter tol hess solve w0 step m0 x0 in
  value r <= obj x0 /\ norm N (grad (optimum r)) <= tol.
Proof.
  intros max_iter w0 step m0 x0 Ht Hm. destruct (newton_wolfe_until max_iter Ht 0 (start w0 step x0, m0) None ltac:(discriminate)) as (f0 & w & n & e & Hf & V & A).
  exists f0. intros fuel Hff r. unfold r, newton. rewrite (Hf fuel Hff : loop M tol (newton_body N M grad [line_search M (wolfe_search N obj grad fuel alpha c1 c2)] None hess solve) _ _ _ _ _ = _). cbn [close optimum value]. split; [exact V|]. destruct A as [A|A]; auto.
  cbn [fst start x_old] in A. fold c in Hm. assert (0 < c * (tol * tol)) by (apply Rmult_lt_0_compat; [apply nc_pos|nra]). unfold large in A. exfalso. destruct (Rlt_dec _ _); lra.
Qed.
End Run.

(* half the squared norm: the Hessian is the identity *)
Example C208_example N : solves N (fun _ v => v) identity /\ conditioned N identity 1 1.
Proof.
  assert (Id : forall z j, (j < N)%nat -> mulv N identity z j = z j) by (intros z j Hj; exact (rsum_delta_l N j z Hj)). split; [intros v i Hi; now apply Id|].
  intros d. rewrite (dot_ext N d d (mulv N identity d) d), (dot_ext N (mulv N identity d) d (mulv N identity d) d) by auto. lra.
Qed.
Example C208_run M w0 m0 : exists f0, forall fuel, (f0 <= fuel)%nat ->
  let r := newton 2 M (fun x => dot 2 x x / 2) (fun x => x) [line_search M (wolfe_search 2 (fun x => dot 2 x x / 2) (fun x => x) fuel 3 (1 / 4) (1 / 2))] None 128 (1 / 4) (fun _ => identity) (fun _ v => v) w0 1 m0 (fun _ => 1) in
  value r <= dot 2 (fun _ => 1) (fun _ => 1) / 2 /\ norm 2 (optimum r) <= 1 / 4.
Proof.
  destruct (C206_example 2) as (A & B & C & _). destruct (C208_example 2) as [D E].
  apply (C208_tolerance 2 M (fun x => dot 2 x x / 2) (fun x => x) (fun _ => identity) (fun _ v => v) 1 1 0 3 (1 / 4) (1 / 2) (1 / 4)); auto; try lra.
  - intros x. assert (P := dot_pos 2 x). lra.
  - unfold dot. cbn. lra.
Qed.
Print Assumptions C208_tolerance.
