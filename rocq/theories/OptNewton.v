(* C205: Newton's method converges quadratically to a stationary point with an invertible Hessian. *)
From Coq Require Import Lia Lra Psatz FunctionalExtensionality.
From Verif Require Import Base RSum SimplexModel SimplexProps HyperProps PolyProps OptModel OptProps LineSearchProps OptConv DiffProps.

(* ---- specification ---- *)
Definition dist_to (N : nat) (xs x : vec) : R := norm N (vsub x xs).
(* the linear system of one iteration is solved exactly *)
Definition solves (N : nat) (solve : (nat -> nat -> R) -> vec -> vec) (H : nat -> nat -> R) : Prop :=
  forall v i, (i < N)%nat -> mulv N H (solve H v) i = v i.
(* H stretches every vector by mu at least (for a symmetric H: its eigenvalues are at least mu in modulus) *)
Definition bounded_inverse (N : nat) (H : nat -> nat -> R) (mu : R) : Prop := forall d, mu * norm N d <= norm N (mulv N H d).
(* hess is the derivative of grad along every line *)
Definition hessian_of (N : nat) (grad : vec -> vec) (hess : vec -> nat -> nat -> R) : Prop :=
  forall x u t i, (i < N)%nat -> derivable_pt_lim (fun s => grad (ray x u s) i) t (mulv N (hess (ray x u t)) u i).
(* hess varies by K times the distance at most, on the ball of centre xs and radius rho *)
Definition hessian_lipschitz (N : nat) (hess : vec -> nat -> nat -> R) (xs : vec) (rho K : R) : Prop :=
  forall x y d, dist_to N xs x <= rho -> dist_to N xs y <= rho ->
    norm N (vsub (mulv N (hess x) d) (mulv N (hess y) d)) <= K * norm N (vsub x y) * norm N d.

Lemma norm_ext N a b : (forall i, (i < N)%nat -> a i = b i) -> norm N a = norm N b.
Proof. intros H. unfold norm. f_equal. apply dot_ext; auto. Qed.
Lemma norm_nonneg N a : 0 <= norm N a.
Proof. apply sqrt_pos. Qed.
Lemma norm_scale N k a : 0 <= k -> norm N (vscale k a) = k * norm N a.
Proof.
  intros Hk. unfold norm. rewrite dot_scale_l, dot_scale_r, <- Rmult_assoc. rewrite sqrt_mult; [|nra|apply dot_pos]. rewrite sqrt_square; auto.
Qed.
Lemma norm_neg N a : norm N (vscale (-1) a) = norm N a.
Proof. unfold norm. f_equal. rewrite dot_scale_l, dot_scale_r. ring. Qed.
Lemma cauchy_norm N a b : dot N a b <= norm N a * norm N b.
Proof. apply cauchy; [apply norm_nonneg|]. rewrite norm_sqr. lra. Qed.

(* the gradient at x differs from its linear model at the stationary point by K/2 times the squared distance at most *)
Lemma newton_remainder N grad hess xs rho K : hessian_of N grad hess -> hessian_lipschitz N hess xs rho K -> 0 <= K ->
  (forall i, (i < N)%nat -> grad xs i = 0) -> forall x, dist_to N xs x <= rho ->
  norm N (vsub (mulv N (hess x) (vsub x xs)) (grad x)) <= K / 2 * (dist_to N xs x * dist_to N xs x).
Proof.
  intros HH HL HK H0 x Hx. set (d := vsub x xs) in *. set (e := dist_to N xs x) in *. assert (He : e = norm N d) by reflexivity. assert (He0 : 0 <= e) by apply norm_nonneg.
  assert (E1 : ray xs d 1 = x). { unfold ray, vadd, vscale, d, vsub. apply functional_extensionality. intros i. ring. }
  set (v := vsub (mulv N (hess x) d) (grad x)). set (nv := norm N v). assert (Hnv : 0 <= nv) by apply norm_nonneg.
  set (phi := fun t => rsum N (fun i => v i * (t * mulv N (hess x) d i - grad (ray xs d t) i)) - K * nv * (e * e) * (t - t * t / 2)).
  assert (Dphi : forall t, derivable_pt_lim phi t (dot N v (vsub (mulv N (hess x) d) (mulv N (hess (ray xs d t)) d)) - K * nv * (e * e) * (1 - t))).
  { intros t. unfold phi. apply (derivable_pt_lim_minus (fun t => rsum N (fun i => v i * (t * mulv N (hess x) d i - grad (ray xs d t) i))) (fun t => K * nv * (e * e) * (t - t * t / 2))).
    - assert (RS : forall n, (n <= N)%nat -> derivable_pt_lim (fun s => rsum n (fun i => v i * (s * mulv N (hess x) d i - grad (ray xs d s) i))) t (rsum n (fun i => v i * (mulv N (hess x) d i - mulv N (hess (ray xs d t)) d i)))).
      { induction n as [|n IH]; intros Hn; [cbn; apply derivable_pt_lim_const|]. cbn [rsum].
        apply (derivable_pt_lim_plus (fun s => rsum n (fun i => v i * (s * mulv N (hess x) d i - grad (ray xs d s) i))) (fun s => v n * (s * mulv N (hess x) d n - grad (ray xs d s) n))); [apply IH; lia|].
        apply (derivable_pt_lim_scal (fun s => s * mulv N (hess x) d n - grad (ray xs d s) n)).
        apply (derivable_pt_lim_minus (fun s => s * mulv N (hess x) d n) (fun s => grad (ray xs d s) n)); [|apply HH; lia].
        set (k := mulv N (hess x) d n). cut (derivable_pt_lim (fun s => s * k) t (1 * k + t * 0)); [replace (1 * k + t * 0) with k by ring; auto|]. unfold k. apply (derivable_pt_lim_mult (fun s => s) (fun _ => mulv N (hess x) d n)); [apply derivable_pt_lim_id|apply derivable_pt_lim_const]. }
      exact (RS N (Nat.le_refl N)).
    - apply (derivable_pt_lim_scal (fun t => t - t * t / 2)). replace (1 - t) with (1 - (1 * t + t * 1) / 2) by field.
      apply (derivable_pt_lim_minus (fun t => t) (fun t => t * t / 2)); [apply derivable_pt_lim_id|]. unfold Rdiv.
      replace ((1 * t + t * 1) * / 2) with ((1 * t + t * 1) * / 2 + t * t * 0) by ring. apply (derivable_pt_lim_mult (fun t => t * t) (fun _ => / 2)); [|apply derivable_pt_lim_const].
      apply (derivable_pt_lim_mult (fun t => t) (fun t => t)); apply derivable_pt_lim_id. }
  destruct (MVT_cor2 phi _ 0 1 Rlt_0_1 (fun t _ => Dphi t)) as (t & E & Ht).
  assert (Hr : dist_to N xs (ray xs d t) = t * e).
  { unfold dist_to. rewrite (norm_ext N _ (vscale t d)); [rewrite norm_scale by lra; reflexivity|]. intros i Hi. unfold vsub, ray, vadd, vscale. ring. }
  assert (Hd : norm N (vsub x (ray xs d t)) = (1 - t) * e).
  { rewrite (norm_ext N _ (vscale (1 - t) d)); [rewrite norm_scale by lra; reflexivity|]. intros i Hi. unfold ray, vadd, vscale, d, vsub. ring. }
  assert (B := HL x (ray xs d t) d Hx ltac:(rewrite Hr; nra)). rewrite Hd, <- He in B.
  assert (C := cauchy_norm N v (vsub (mulv N (hess x) d) (mulv N (hess (ray xs d t)) d))). fold nv in C.
  assert (C2 : nv * norm N (vsub (mulv N (hess x) d) (mulv N (hess (ray xs d t)) d)) <= nv * (K * ((1 - t) * e) * e)) by (apply Rmult_le_compat_l; auto).
  assert (P0 : phi 0 = 0).
  { unfold phi. rewrite rsum_zero; [field|]. intros i Hi. replace (grad (ray xs d 0) i) with (grad xs i); [rewrite H0 by auto; ring|].
    replace (ray xs d 0) with xs; [reflexivity|]. unfold ray, vadd, vscale. apply functional_extensionality. intros j. ring. }
  assert (P1 : phi 1 = nv * nv - K / 2 * (e * e) * nv).
  { unfold phi, nv at 2 3. rewrite norm_sqr. unfold dot. rewrite E1. replace (K * nv * (e * e) * (1 - 1 * 1 / 2)) with (K / 2 * (e * e) * nv) by field. f_equal.
    apply rsum_ext. intros i Hi. assert (Ev : v i = mulv N (hess x) d i - grad x i) by reflexivity. rewrite Ev. ring. }
  rewrite P0, P1 in E. fold v nv. destruct Hnv as [Hnv|<-]; [|apply Rmult_le_pos; nra]. apply Rmult_le_reg_r with nv; auto. nra.
Qed.

(* ---- one iteration ---- *)
Lemma newton_step N grad H solve xs mu K x : solves N solve H -> bounded_inverse N H mu -> 0 < mu ->
  norm N (vsub (mulv N H (vsub x xs)) (grad x)) <= K / 2 * (dist_to N xs x * dist_to N xs x) ->
  dist_to N xs (vadd x (vscale 1 (vscale (-1) (solve H (grad x))))) <= K / (2 * mu) * (dist_to N xs x * dist_to N xs x).
Proof.
  intros HS HB Hmu HR. unfold dist_to at 1. set (y := vsub _ xs). specialize (HB y).
  assert (E : norm N (mulv N H y) = norm N (vsub (mulv N H (vsub x xs)) (grad x))).
  { apply norm_ext. intros i Hi. unfold vsub at 1. rewrite <- (HS (grad x) i Hi). unfold mulv, y. rewrite <- rsum_minus. apply rsum_ext. intros j Hj. unfold vsub, vadd, vscale. ring. }
  rewrite E in HB. apply Rmult_le_reg_l with mu; auto. replace (mu * (K / (2 * mu) * (dist_to N xs x * dist_to N xs x))) with (K / 2 * (dist_to N xs x * dist_to N xs x)) by (field; lra). lra.
Qed.

Section Newton.
Variables (N : nat) (M : Type) (obj : vec -> R) (grad : vec -> vec) (hess : vec -> nat -> nat -> R) (solve : (nat -> nat -> R) -> vec -> vec).
Variables (xs : vec) (rho mu K tol : R).
Hypothesis Hmu : 0 < mu.
Hypothesis HK : 0 < K.
Hypothesis Hrho : K * rho <= 2 * mu.
Hypothesis Hstat : forall i, (i < N)%nat -> grad xs i = 0.
Hypothesis Hhess : hessian_of N grad hess.
Hypothesis Hlip : hessian_lipschitz N hess xs rho K.
Hypothesis Hsolve : forall x, dist_to N xs x <= rho -> solves N solve (hess x).
Hypothesis Hinv : forall x, dist_to N xs x <= rho -> bounded_inverse N (hess x) mu.
Let scaled (x : vec) : R := K * dist_to N xs x / (2 * mu).
Lemma scaled_nonneg x : 0 <= scaled x.
Proof. unfold scaled. apply Rmult_le_pos; [apply Rmult_le_pos; [lra|apply norm_nonneg]|]. left. apply Rinv_0_lt_compat. lra. Qed.
Lemma scaled_ball x : dist_to N xs x <= rho -> scaled x <= 1.
Proof. intros H. unfold scaled. apply Rmult_le_reg_r with (2 * mu); [lra|]. replace (K * dist_to N xs x / (2 * mu) * (2 * mu)) with (K * dist_to N xs x) by (field; lra). nra. Qed.
Lemma newton_pass (w : pub * M) : h_ (fst w) = 1 -> dist_to N xs (x_old (fst w)) <= rho ->
  exists w' e, newton_body N M grad [] None hess solve w = Next w' e false /\ h_ (fst w') = 1 /\ dist_to N xs (x_old (fst w')) <= rho /\ scaled (x_old (fst w')) <= scaled (x_old (fst w)) ^ 2.
Proof.
  intros Hh Hd. unfold newton_body, finish. cbn [execute_pre execute_post map fold_left execute_criterion exec_hook on_pub fst snd orb].
  match goal with |- exists w' e, Next ?a ?b _ = _ /\ _ => exists a, b end. split; [reflexivity|]. cbn [fst snd on_pub shift move set_new set_update set_old x_old x_new update h_ grad_old grad_new hess_ inv_hess]. split; [exact Hh|]. rewrite Hh.
  set (x := x_old (fst w)) in *. assert (S1 := newton_step N grad (hess x) solve xs mu K x (Hsolve x Hd) (Hinv x Hd) Hmu (newton_remainder N grad hess xs rho K Hhess Hlip ltac:(lra) Hstat x Hd)).
  set (x' := vadd x _) in *. assert (Sc := scaled_ball x Hd). assert (Sn := scaled_nonneg x).
  assert (E : K / (2 * mu) * (dist_to N xs x * dist_to N xs x) = scaled x * dist_to N xs x) by (unfold scaled; field; lra). split.
  - apply Rle_trans with (1 := S1). rewrite E. assert (0 <= dist_to N xs x) by apply norm_nonneg. nra.
  - unfold scaled. apply Rmult_le_reg_r with (2 * mu / K); [apply Rdiv_lt_0_compat; lra|]. replace (K * dist_to N xs x' / (2 * mu) * (2 * mu / K)) with (dist_to N xs x') by (field; lra).
    replace ((K * dist_to N xs x / (2 * mu)) ^ 2 * (2 * mu / K)) with (K / (2 * mu) * (dist_to N xs x * dist_to N xs x)) by (field; lra). exact S1.
Qed.
Lemma newton_run rem : forall n (w : pub * M) e, h_ (fst w) = 1 -> dist_to N xs (x_old (fst w)) <= rho ->
  let '(w', n', e', s') := loop M tol (newton_body N M grad [] None hess solve) rem n w e false in
  (n <= n')%nat /\ s' = false /\ dist_to N xs (x_old (fst w')) <= rho /\ scaled (x_old (fst w')) <= scaled (x_old (fst w)) ^ (2 ^ (n' - n)).
Proof.
  induction rem as [|rem IH]; intros n w e Hh Hd; cbn [loop].
  - rewrite Nat.sub_diag. cbn [Nat.pow]. repeat split; auto. lra.
  - destruct (_ && _)%bool; [|rewrite Nat.sub_diag; cbn [Nat.pow]; repeat split; auto; lra].
    destruct (newton_pass w Hh Hd) as (w' & r & E & Hh' & Hd' & Hs). rewrite E. specialize (IH (S n) w' (Some r) Hh' Hd').
    destruct (loop _ _ _ _ _ _ _ _) as [[[wf nf] ef] sf]. destruct IH as (A & B & C & D). split; [lia|]. split; auto. split; auto.
    apply Rle_trans with (1 := D). replace (nf - n)%nat with (S (nf - S n)) by lia. cbn [Nat.pow]. rewrite pow_mult. apply pow_incr. split; [apply scaled_nonneg|exact Hs].
Qed.
(* after n iterations from x0 the distance, in units of 2 mu / K, is at most the initial one to the power 2^n; the method stops before max_iter only where the gradient is within the tolerance *)
Theorem C205_quadratic : forall max_iter w0 m0 x0, dist_to N xs x0 <= rho ->
  let r := newton N M obj grad [] None max_iter tol hess solve w0 1 m0 x0 in
  K * dist_to N xs (optimum r) / (2 * mu) <= (K * dist_to N xs x0 / (2 * mu)) ^ (2 ^ n_iter r) /\
  (n_iter r = max_iter \/ norm N (grad (optimum r)) <= tol).
Proof.
  intros max_iter w0 m0 x0 Hd r. assert (HK' : hooks_keep M [] None) by (split; [intros ? []|intros ? ? ?; discriminate]).
  destruct (C53_converged N M obj grad [] None max_iter tol hess solve w0 1 m0 HK' x0) as [_ CV]. fold r in CV.
  destruct (C53_consistent N M obj grad [] None max_iter tol hess solve w0 1 m0 x0) as (_ & CN & _). fold r in CN.
  assert (Q := newton_run max_iter 0 (start w0 1 x0, m0) None eq_refl Hd). unfold r, newton in *.
  destruct (loop _ _ _ _ _ _ _ _) as [[[w n] e] s]. cbn [close optimum n_iter stopped value] in *. destruct Q as (_ & Es & _ & Q). rewrite Nat.sub_0_r in Q. split; [exact Q|].
  destruct (Nat.eq_dec n max_iter); [auto|]. right. apply CV; auto. lia.
Qed.
(* a number of iterations that is sufficient for the tolerance *)
Theorem C205_tolerance : forall L max_iter w0 m0 x0, dist_to N xs x0 <= rho -> (forall x, dist_to N xs x <= rho -> norm N (grad x) <= L * dist_to N xs x) -> 0 <= L ->
  L * (2 * mu / K) * (K * dist_to N xs x0 / (2 * mu)) ^ (2 ^ max_iter) <= tol ->
  norm N (grad (optimum (newton N M obj grad [] None max_iter tol hess solve w0 1 m0 x0))) <= tol.
Proof.
  intros L max_iter w0 m0 x0 Hd HG HL Ht. assert (Q := C205_quadratic max_iter w0 m0 x0 Hd). cbv zeta in Q. set (r := newton _ _ _ _ _ _ _ _ _ _ _ _ _ _) in *. destruct Q as [Q [E|E]]; auto.
  assert (B : dist_to N xs (optimum r) <= rho).
  { assert (Q2 := newton_run max_iter 0 (start w0 1 x0, m0) None eq_refl Hd). unfold r, newton. destruct (loop _ _ _ _ _ _ _ _) as [[[w n] e] s]. cbn [close optimum]. tauto. }
  apply Rle_trans with (1 := HG _ B). apply Rle_trans with (2 := Ht). rewrite E in Q. rewrite Rmult_assoc. apply Rmult_le_compat_l; auto.
  apply Rmult_le_reg_l with (K / (2 * mu)); [apply Rdiv_lt_0_compat; lra|]. replace (K / (2 * mu) * (2 * mu / K * (K * dist_to N xs x0 / (2 * mu)) ^ (2 ^ max_iter))) with ((K * dist_to N xs x0 / (2 * mu)) ^ (2 ^ max_iter)) by (field; lra).
  apply Rle_trans with (2 := Q). right. field. lra.
Qed.
End Newton.

(* x + x^2 / 2 vanishes at 0, with derivative 1 + x: rho = 1/2, mu = 1/2, K = 1 and L = 5/4 *)
Definition ex_grad (x : vec) : vec := fun _ => x 0%nat + x 0%nat * x 0%nat / 2.
Definition ex_hess (x : vec) : nat -> nat -> R := fun _ _ => 1 + x 0%nat.
Definition ex_solve (H : nat -> nat -> R) (v : vec) : vec := fun _ => v 0%nat / H 0%nat 0%nat.
Lemma norm1 (a : vec) : norm 1 a = Rabs (a 0%nat).
Proof. unfold norm, dot. cbn [rsum]. rewrite Rplus_0_l. apply sqrt_Rsqr_abs. Qed.
Lemma ex_ball x : dist_to 1 (fun _ => 0) x <= 1 / 2 -> - (1 / 2) <= x 0%nat <= 1 / 2.
Proof. unfold dist_to. rewrite norm1. unfold vsub. rewrite Rminus_0_r. intros H. revert H. unfold Rabs. destruct (Rcase_abs _); lra. Qed.
Example C205_example : hessian_of 1 ex_grad ex_hess /\ hessian_lipschitz 1 ex_hess (fun _ => 0) (1 / 2) 1 /\
  (forall x, dist_to 1 (fun _ => 0) x <= 1 / 2 -> solves 1 ex_solve (ex_hess x) /\ bounded_inverse 1 (ex_hess x) (1 / 2) /\ norm 1 (ex_grad x) <= 5 / 4 * dist_to 1 (fun _ => 0) x).
Proof.
  split; [|split].
  - intros x u t i Hi. unfold ex_grad, ex_hess, mulv. cbn [rsum]. set (r := fun s => ray x u s 0%nat).
    assert (D : derivable_pt_lim r t (u 0%nat)).
    { cut (derivable_pt_lim r t (0 + (1 * u 0%nat + t * 0))); [replace (0 + (1 * u 0%nat + t * 0)) with (u 0%nat) by ring; auto|]. unfold r, ray, vadd, vscale. apply (derivable_pt_lim_plus (fun _ => x 0%nat) (fun s => s * u 0%nat)); [apply derivable_pt_lim_const|].
      apply (derivable_pt_lim_mult (fun s => s) (fun _ => u 0%nat)); [apply derivable_pt_lim_id|apply derivable_pt_lim_const]. }
    replace (0 + (1 + ray x u t 0%nat) * u 0%nat) with (u 0%nat + ((u 0%nat * r t + r t * u 0%nat) * / 2 + r t * r t * 0)) by (unfold r; field).
    apply (derivable_pt_lim_plus r (fun s => r s * r s / 2)); [exact D|]. apply (derivable_pt_lim_mult (fun s => r s * r s) (fun _ => / 2)); [|apply derivable_pt_lim_const]. now apply derivable_pt_lim_mult.
  - intros x y d _ _. rewrite !norm1. unfold vsub, ex_hess, mulv. cbn [rsum]. replace (0 + (1 + x 0%nat) * d 0%nat - (0 + (1 + y 0%nat) * d 0%nat)) with ((x 0%nat - y 0%nat) * d 0%nat) by ring. rewrite Rabs_mult. lra.
  - intros x Hx. assert (B := ex_ball x Hx). split; [|split].
    + intros v i Hi. unfold mulv, ex_solve, ex_hess. cbn [rsum]. replace i with 0%nat by lia. field. lra.
    + intros d. rewrite !norm1. unfold mulv, ex_hess. cbn [rsum]. rewrite Rplus_0_l, Rabs_mult. apply Rmult_le_compat_r; [apply Rabs_pos|]. rewrite Rabs_pos_eq; lra.
    + unfold dist_to. rewrite !norm1. unfold ex_grad, vsub. rewrite Rminus_0_r. replace (x 0%nat + x 0%nat * x 0%nat / 2) with ((1 + x 0%nat / 2) * x 0%nat) by field. rewrite Rabs_mult. apply Rmult_le_compat_r; [apply Rabs_pos|]. rewrite Rabs_pos_eq; lra.
Qed.
(* four iterations from 1/2 are enough for the tolerance 1/10000 *)
Example C205_run M obj w0 m0 : norm 1 (ex_grad (optimum (newton 1 M obj ex_grad [] None 4 (1 / 10000) ex_hess ex_solve w0 1 m0 (fun _ => 1 / 2)))) <= 1 / 10000.
Proof.
  destruct C205_example as (A & B & C). assert (D : dist_to 1 (fun _ => 0) (fun _ => 1 / 2) = 1 / 2) by (unfold dist_to; rewrite norm1; unfold vsub; rewrite Rabs_pos_eq; lra).
  apply (C205_tolerance 1 M obj ex_grad ex_hess ex_solve (fun _ => 0) (1 / 2) (1 / 2) 1 (1 / 10000)) with (L := 5 / 4); try lra.
  - intros i Hi. unfold ex_grad. field.
  - exact A.
  - exact B.
  - intros x Hx. apply (C x Hx).
  - intros x Hx. apply (C x Hx).
  - intros x Hx. apply (C x Hx).
  - rewrite D. change (2 ^ 4)%nat with 16%nat. cbn [pow]. lra.
Qed.
Print Assumptions C205_quadratic.
Print Assumptions C205_tolerance.
