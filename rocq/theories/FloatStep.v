(* C231: the time steps of the parabolic solver in double arithmetic satisfy the implicit Euler equations up to the residual of the linear solver and rounding. *)
From Coq Require Import Reals Lra Lia List Bool ZArith.
From Flocq Require Import Core IEEE754.BinarySingleNaN Relative Plus_error.
From Verif Require Import Base RSum SymbolsModel SymbolsProps FloatModel FloatProps FloatSearch FloatSplineModel FloatSpline FloatDiffModel FloatDiff FloatStepModel.
Open Scope R_scope.

(* ---- specification ---- *)
(* what is left of row r of  M (x - v) / tau + A x = f *)
Definition euler_residual (n : nat) (M A : nat -> nat -> R) (tau : R) (x v : nat -> R) (f : R) (r : nat) : R :=
  rsum n (fun s => M r s * (x s - v s) / tau + A r s * x s) - f.
(* sum of the absolute terms of the same row *)
Definition euler_terms (n : nat) (M A : nat -> nat -> R) (tau : R) (x v : nat -> R) (f : R) (r : nat) : R :=
  rsum n (fun s => Rabs (M r s / tau) * (Rabs (x s) + Rabs (v s)) + Rabs (A r s) * Rabs (x s)) + Rabs f.

(* the linear solver, for matrix K and right hand sides up to G: row r is satisfied up to eps times the sum of its absolute terms, and delta for underflow *)
Definition backward_stable (n : nat) (lu : (nat -> nat -> double) -> (nat -> double) -> nat -> double) (K : nat -> nat -> double) (eps delta G : R) : Prop :=
  forall g : nat -> double, (forall r, (r < n)%nat -> fin (g r) = true /\ Rabs (B2 (g r)) <= G) ->
  forall r, (r < n)%nat -> Rabs (rsum n (fun s => B2 (K r s) * B2 (lu K g s)) - B2 (g r)) <= eps * rsum n (fun s => Rabs (B2 (K r s)) * Rabs (B2 (lu K g s))) + delta.

(* ---- proofs ---- *)
Lemma rsum_nonneg n f : (forall i, (i < n)%nat -> 0 <= f i) -> 0 <= rsum n f.
Proof. induction n as [|k IH]; intros H; cbn [rsum]; [lra|]. assert (0 <= rsum k f) by (apply IH; intros; apply H; lia). assert (0 <= f k) by (apply H; lia). lra. Qed.
Lemma u_tiny : 0 < u <= / 1000000000.
Proof. assert (H := u_pos). split; auto. unfold u. apply Rle_trans with (/ 2 * bpow radix2 (-30)); [apply Rmult_le_compat_l; [lra|apply bpow_le; lia]|]. cbn. lra. Qed.
Lemma quotient_error (a t0 t1 : double) : fin (ddiv a (dsub t1 t0)) = true -> fin (dsub t1 t0) = true -> B2 t0 < B2 t1 -> let m := B2 a / (B2 t1 - B2 t0) in
  Rabs (B2 (ddiv a (dsub t1 t0)) - m) <= 4 * u * Rabs m + eta.
Proof.
  intros F FT L m. destruct (u_tiny) as [Pu Us]. set (tau := B2 t1 - B2 t0) in *. assert (Pt : 0 < tau) by (unfold tau; lra). assert (ET := dsub_error t1 t0 FT). fold tau in ET. rewrite (Rabs_pos_eq tau) in ET by lra. set (dt := B2 (dsub t1 t0)) in *.
  assert (ut : u * tau <= / 1000000000 * tau) by (apply Rmult_le_compat_r; lra). apply Rabs_le_inv in ET. assert (Pd : 0 < dt) by lra. destruct (ddiv_error a (dsub t1 t0) F FT ltac:(fold dt; lra)) as [_ E]. fold dt in E.
  assert (X : B2 a / dt - m = m * ((tau - dt) / dt)) by (unfold m; field; split; lra).
  assert (Y : Rabs ((tau - dt) / dt) <= 11 / 10 * u). { unfold Rdiv. rewrite Rabs_mult, (Rabs_pos_eq (/ dt)) by (apply Rlt_le, Rinv_0_lt_compat; lra). apply Rmult_le_reg_r with dt; [lra|]. rewrite Rmult_assoc, Rinv_l, Rmult_1_r by lra. apply Rle_trans with (u * tau); [apply Rabs_le; lra|]. rewrite (Rmult_comm _ u), Rmult_assoc. apply Rmult_le_compat_l; lra. }
  assert (Z : Rabs (B2 a / dt - m) <= 11 / 10 * u * Rabs m) by (rewrite X, Rabs_mult, Rmult_comm; apply Rmult_le_compat_r; auto using Rabs_pos).
  assert (Q : Rabs (B2 a / dt) <= 2 * Rabs m). { replace (B2 a / dt) with (m + (B2 a / dt - m)) by ring. apply Rle_trans with (1 := Rabs_triang _ _). assert (11 / 10 * u * Rabs m <= 1 * Rabs m) by (apply Rmult_le_compat_r; [apply Rabs_pos|lra]). lra. }
  replace (B2 (ddiv a (dsub t1 t0)) - m) with ((B2 (ddiv a (dsub t1 t0)) - B2 a / dt) + (B2 a / dt - m)) by ring. apply Rle_trans with (1 := Rabs_triang _ _). assert (u * Rabs (B2 a / dt) <= u * (2 * Rabs m)) by (apply Rmult_le_compat_l; lra). assert (0 <= u * Rabs m) by (apply Rmult_le_pos; [lra|apply Rabs_pos]). lra.
Qed.
Lemma n_u n : (n <= 2 ^ 40)%nat -> INR (S n) * (2 * u) <= / 100.
Proof.
  intros Hn. apply Rle_trans with (INR (S (2 ^ 40)) * (2 * u)); [apply Rmult_le_compat_r; [assert (H := u_pos); lra|apply le_INR; lia]|].
  rewrite S_INR, pow_INR. replace (INR 2) with 2 by (cbn; ring). unfold u. change (- (53) + 1)%Z with (-52)%Z. change (bpow radix2 (-52)) with (/ 4503599627370496). lra.
Qed.
Section Step.
Variables (n : nat) (bdy : nat -> bool) (M A : nat -> nat -> double) (t0 t1 : double).
Hypothesis Hn : (n <= 2 ^ 40)%nat.
Hypothesis HT : fin (dsub t1 t0) = true.
Hypothesis HL : B2 t0 < B2 t1.
Let tau := B2 t1 - B2 t0.
Let m r s := B2 (M r s) / tau.
Lemma matrix_error r s : f_visited bdy r = false -> fin (f_step_matrix bdy M A (dsub t1 t0) r s) = true ->
  Rabs (B2 (f_step_matrix bdy M A (dsub t1 t0) r s) - (m r s + B2 (A r s))) <= 6 * u * (Rabs (m r s) + Rabs (B2 (A r s))) + 2 * eta.
Proof using HT HL.
  intros V. unfold f_step_matrix. rewrite V. intros F. destruct (dadd_fin _ _ F) as (F1 & F2 & _). assert (E := dadd_error _ _ F). assert (Q := quotient_error _ t0 t1 F1 HT HL). cbv zeta in Q. fold tau in Q. fold (m r s) in Q.
  set (h := B2 (ddiv (M r s) (dsub t1 t0))) in *. set (a := B2 (A r s)) in *. set (k := B2 (dadd _ _)) in *. destruct u_tiny as [Pu Us]. assert (Pe := eta_pos). assert (Pm := Rabs_pos (m r s)). assert (Pa := Rabs_pos a).
  assert (um : u * Rabs (m r s) <= / 1000000000 * Rabs (m r s)) by (apply Rmult_le_compat_r; lra). assert (um0 : 0 <= u * Rabs (m r s)) by (apply Rmult_le_pos; lra). assert (ua0 : 0 <= u * Rabs a) by (apply Rmult_le_pos; lra). assert (ue : u * eta <= / 1000000000 * eta) by (apply Rmult_le_compat_r; lra).
  assert (H : Rabs (h + a) <= 2 * Rabs (m r s) + eta + Rabs a). { replace (h + a) with (m r s + (h - m r s) + a) by ring. apply Rle_trans with (1 := Rabs_triang _ _). apply Rplus_le_compat_r. apply Rle_trans with (1 := Rabs_triang _ _). lra. }
  assert (uh : u * Rabs (h + a) <= u * (2 * Rabs (m r s) + eta + Rabs a)) by (apply Rmult_le_compat_l; lra).
  replace (k - (m r s + a)) with ((k - (h + a)) + (h - m r s)) by ring. apply Rle_trans with (1 := Rabs_triang _ _). lra.
Qed.
Lemma rhs_error v f b r : f_visited bdy r = false -> fin (f_step_rhs n bdy M (dsub t1 t0) v f b r) = true ->
  Rabs (B2 (f_step_rhs n bdy M (dsub t1 t0) v f b r) - (rsum n (fun s => m r s * B2 (v s)) + B2 (f r))) <=
    (3 * INR n + 9) * u * (rsum n (fun s => Rabs (m r s) * Rabs (B2 (v s))) + Rabs (B2 (f r))) + 2 * eta * rsum n (fun s => Rabs (B2 (v s))) + 3 * eta * INR n.
Proof using Hn HT HL.
  intros V. unfold f_step_rhs. rewrite V. intros F. destruct (dadd_fin _ _ F) as (F1 & F2 & _). assert (E := dadd_error _ _ F). assert (D := dot_error n (fun s => ddiv (M r s) (dsub t1 t0)) v F1). assert (FS := fsum_fin _ _ F1). cbv beta in D, FS.
  set (h := fun s => B2 (ddiv (M r s) (dsub t1 t0))). change (rsum n (fun q => B2 (ddiv (M r q) (dsub t1 t0)) * B2 (v q))) with (rsum n (fun q => h q * B2 (v q))) in D. change (rsum n (fun q => Rabs (B2 (ddiv (M r q) (dsub t1 t0)) * B2 (v q)))) with (rsum n (fun q => Rabs (h q * B2 (v q)))) in D.
  destruct u_tiny as [Pu Us]. assert (Pe := eta_pos). assert (NU := n_u n Hn). rewrite S_INR in NU. assert (Pn := pos_INR n). assert (nu0 : 0 <= INR n * u) by (apply Rmult_le_pos; lra).
  assert (G := pow_linear (S n) ltac:(rewrite S_INR; lra)). rewrite S_INR in G. assert (G' := pow_linear n ltac:(lra)). assert (P1 := pow_ge1 (S n)).
  set (p := B2 (fsum n _)) in *. set (g := B2 (f r)) in *. set (Sv := rsum n (fun s => Rabs (m r s) * Rabs (B2 (v s)))). set (Av := rsum n (fun s => Rabs (B2 (v s)))).
  assert (PS : 0 <= Sv) by (apply rsum_nonneg; intros; apply Rmult_le_pos; apply Rabs_pos). assert (PA : 0 <= Av) by (apply rsum_nonneg; intros; apply Rabs_pos). assert (Pg := Rabs_pos g).
  assert (Hq : forall s, (s < n)%nat -> Rabs (h s - m r s) <= 4 * u * Rabs (m r s) + eta) by (intros s Hs; destruct (dmul_fin' _ _ (FS s Hs)) as (Fq & _ & _); exact (quotient_error _ t0 t1 Fq HT HL)).
  assert (B1 : Rabs (rsum n (fun s => h s * B2 (v s)) - rsum n (fun s => m r s * B2 (v s))) <= 4 * u * Sv + eta * Av).
  { rewrite <- rsum_minus. apply Rle_trans with (1 := rsum_abs _ _). unfold Sv, Av. rewrite <- !rsum_scal, <- rsum_plus. apply rsum_le. intros s Hs. replace (h s * B2 (v s) - m r s * B2 (v s)) with ((h s - m r s) * B2 (v s)) by ring. rewrite Rabs_mult. replace (4 * u * (Rabs (m r s) * Rabs (B2 (v s))) + eta * Rabs (B2 (v s))) with ((4 * u * Rabs (m r s) + eta) * Rabs (B2 (v s))) by ring. apply Rmult_le_compat_r; auto using Rabs_pos. }
  assert (B2' : rsum n (fun q => Rabs (h q * B2 (v q))) <= (1 + 4 * u) * Sv + eta * Av).
  { unfold Sv, Av. rewrite <- !rsum_scal, <- rsum_plus. apply rsum_le. intros s Hs. rewrite Rabs_mult. replace ((1 + 4 * u) * (Rabs (m r s) * Rabs (B2 (v s))) + eta * Rabs (B2 (v s))) with ((Rabs (m r s) + (4 * u * Rabs (m r s) + eta)) * Rabs (B2 (v s))) by ring. apply Rmult_le_compat_r; [apply Rabs_pos|]. replace (h s) with (m r s + (h s - m r s)) by ring. apply Rle_trans with (1 := Rabs_triang _ _). apply Rplus_le_compat_l. auto. }
  assert (B3 : Rabs (rsum n (fun s => m r s * B2 (v s))) <= Sv) by (apply Rle_trans with (1 := rsum_abs _ _); apply Req_le; apply rsum_ext; intros; apply Rabs_mult).
  set (H := rsum n (fun q => h q * B2 (v q))) in *. set (W := rsum n (fun s => m r s * B2 (v s))) in *. set (AH := rsum n (fun q => Rabs (h q * B2 (v q)))) in *. set (y := INR n * u) in *.
  assert (PAH : 0 <= AH) by (apply rsum_nonneg; intros; apply Rabs_pos).
  assert (uS : 0 <= u * Sv) by (apply Rmult_le_pos; lra). assert (uS1 : u * Sv <= / 1000000000 * Sv) by (apply Rmult_le_compat_r; lra). assert (yS : 0 <= y * Sv) by (apply Rmult_le_pos; lra). assert (eA : 0 <= eta * Av) by (apply Rmult_le_pos; lra). assert (en : 0 <= eta * INR n) by (apply Rmult_le_pos; lra).
  assert (K1 : ((1 + u) ^ S n - 1) * AH <= (2 * y + 2 * u) * (1001 / 1000 * Sv + eta * Av)). { apply Rmult_le_compat; try lra. unfold y. lra. }
  assert (K1b : (2 * y + 2 * u) * (eta * Av) <= / 100 * (eta * Av)) by (apply Rmult_le_compat_r; unfold y in *; lra).
  assert (K2 : (1 + u) ^ n * (INR n * eta) <= 2 * (eta * INR n)) by (rewrite (Rmult_comm eta); apply Rmult_le_compat_r; lra).
  assert (K3 : Rabs (p - W) <= (21 / 10 * y + 7 * u) * Sv + 11 / 10 * (eta * Av) + 2 * (eta * INR n)). { replace (p - W) with ((p - H) + (H - W)) by ring. apply Rle_trans with (1 := Rabs_triang _ _). lra. }
  assert (y1 : y <= / 200) by (unfold y; lra). assert (K4 : (21 / 10 * y + 7 * u) * Sv <= / 10 * Sv) by (apply Rmult_le_compat_r; lra).
  assert (K5 : Rabs (p + g) <= 2 * Sv + 2 * (eta * Av) + 2 * (eta * INR n) + Rabs g). { replace (p + g) with (W + (p - W) + g) by ring. apply Rle_trans with (1 := Rabs_triang _ _). apply Rplus_le_compat_r. apply Rle_trans with (1 := Rabs_triang _ _). lra. }
  assert (K6 : u * Rabs (p + g) <= u * (2 * Sv + 2 * (eta * Av) + 2 * (eta * INR n) + Rabs g)) by (apply Rmult_le_compat_l; lra).
  assert (K7 : u * (eta * Av) <= / 1000000000 * (eta * Av)) by (apply Rmult_le_compat_r; lra). assert (K8 : u * (eta * INR n) <= / 1000000000 * (eta * INR n)) by (apply Rmult_le_compat_r; lra). assert (ug : 0 <= u * Rabs g) by (apply Rmult_le_pos; lra). assert (yg : 0 <= y * Rabs g) by (apply Rmult_le_pos; lra).
  set (k := B2 (dadd _ _)) in *. replace (k - (W + g)) with ((k - (p + g)) + (p - W)) by ring. apply Rle_trans with (1 := Rabs_triang _ _).
  replace ((3 * INR n + 9) * u * (Sv + Rabs g)) with ((3 * y + 9 * u) * Sv + (3 * y + 9 * u) * Rabs g) by (unfold y; ring). lra.
Qed.
End Step.
Lemma B2_d1 : B2 d1 = 1.
Proof. unfold d1. apply (Bone_correct 53 1024). Qed.
Lemma boundary_row lu n bdy M A t0 t1 u0 force b i r delta : (r < n)%nat -> r = 0%nat \/ bdy r = true -> let K := f_step_matrix bdy M A (dsub t1 t0) in let x := f_columns lu n bdy M A t0 t1 u0 force b in
  (forall s, (s < n)%nat -> fin (K r s) = true) ->
  (forall s, (s < n)%nat -> B2 (K r s) = if (r =? s)%nat then 1 else 0) /\
  (Rabs (rsum n (fun s => B2 (K r s) * B2 (x (S i) s)) - B2 (f_step_rhs n bdy M (dsub t1 t0) (x i) (fun q => force (n * S i + q)%nat) (fun q => b q (S i)) r)) <= delta -> Rabs (B2 (x (S i) r) - B2 (b r (S i))) <= delta).
Proof.
  intros Hr V K x F. assert (V' : f_visited bdy r = true) by (unfold f_visited; destruct V as [-> | ->]; [reflexivity|apply orb_true_r]).
  assert (R : forall s, (s < n)%nat -> B2 (K r s) = if (r =? s)%nat then 1 else 0). { intros s Hs. specialize (F s Hs). unfold K, f_step_matrix in *. rewrite V' in *. destruct (r =? s)%nat; [apply B2_d1|]. destruct (dmul_fin' _ _ F) as (_ & _ & ->). change (B2 d0) with 0. rewrite Rmult_0_r. unfold rnd. apply round_0; auto with typeclass_instances. }
  split; [exact R|]. intros D. rewrite (rsum_single n _ r Hr) in D. 2:{ intros s Hs N. rewrite R by auto. destruct (Nat.eqb_spec r s); [congruence|ring]. } rewrite (R r Hr), Nat.eqb_refl, Rmult_1_l in D. unfold f_step_rhs in D. now rewrite V' in D.
Qed.
Lemma step_residual lu n bdy M A t0 t1 u0 force b i r delta : (r < n)%nat -> (n <= 2 ^ 40)%nat -> r <> 0%nat -> bdy r = false -> fin (dsub t1 t0) = true -> B2 t0 < B2 t1 -> let K := f_step_matrix bdy M A (dsub t1 t0) in let x := f_columns lu n bdy M A t0 t1 u0 force b in
  let rhs := f_step_rhs n bdy M (dsub t1 t0) (x i) (fun q => force (n * S i + q)%nat) (fun q => b q (S i)) in
  (forall s, (s < n)%nat -> fin (K r s) = true) -> fin (rhs r) = true -> Rabs (rsum n (fun s => B2 (K r s) * B2 (x (S i) s)) - B2 (rhs r)) <= delta ->
  let X k s := B2 (x k s) in let M' r s := B2 (M r s) in let A' r s := B2 (A r s) in let tau := B2 t1 - B2 t0 in let f := B2 (force (n * S i + r)%nat) in
  Rabs (euler_residual n M' A' tau (X (S i)) (X i) f r) <= delta + (3 * INR n + 9) * u * euler_terms n M' A' tau (X (S i)) (X i) f r + 3 * eta * rsum n (fun s => 1 + Rabs (X (S i) s) + Rabs (X i s)).
Proof.
  intros Hr Hn N0 Nb HT HL K x rhs FK FR D X M' A' tau f. assert (V : f_visited bdy r = false) by (unfold f_visited; rewrite Nb; destruct r; [congruence|reflexivity]).
  set (m := fun s => B2 (M r s) / tau). assert (E1 := rhs_error n bdy M t0 t1 Hn HT HL (x i) (fun q => force (n * S i + q)%nat) (fun q => b q (S i)) r V FR). cbv beta in E1. fold rhs in E1. fold tau in E1. change (B2 (force (n * S i + r)%nat)) with f in E1.
  change (fun s => B2 (M r s) / tau * B2 (x i s)) with (fun s => m s * X i s) in E1. change (fun s => Rabs (B2 (M r s) / tau) * Rabs (B2 (x i s))) with (fun s => Rabs (m s) * Rabs (X i s)) in E1. change (fun s => Rabs (B2 (x i s))) with (fun s => Rabs (X i s)) in E1.
  destruct u_tiny as [Pu Us]. assert (Pe := eta_pos). assert (Pn := pos_INR n).
  assert (E2 : Rabs (rsum n (fun s => B2 (K r s) * X (S i) s) - rsum n (fun s => (m s + A' r s) * X (S i) s)) <= 6 * u * rsum n (fun s => (Rabs (m s) + Rabs (A' r s)) * Rabs (X (S i) s)) + 2 * eta * rsum n (fun s => Rabs (X (S i) s))).
  { rewrite <- rsum_minus. apply Rle_trans with (1 := rsum_abs _ _). rewrite <- !rsum_scal, <- rsum_plus. apply rsum_le. intros s Hs. replace (B2 (K r s) * X (S i) s - (m s + A' r s) * X (S i) s) with ((B2 (K r s) - (m s + A' r s)) * X (S i) s) by ring. rewrite Rabs_mult.
    replace (6 * u * ((Rabs (m s) + Rabs (A' r s)) * Rabs (X (S i) s)) + 2 * eta * Rabs (X (S i) s)) with ((6 * u * (Rabs (m s) + Rabs (A' r s)) + 2 * eta) * Rabs (X (S i) s)) by ring. apply Rmult_le_compat_r; [apply Rabs_pos|]. exact (matrix_error bdy M A t0 t1 HT HL r s V (FK s Hs)). }
  assert (Q : euler_residual n M' A' tau (X (S i)) (X i) f r = rsum n (fun s => (m s + A' r s) * X (S i) s) - (rsum n (fun s => m s * X i s) + f)).
  { unfold euler_residual. rewrite Rplus_comm. replace (rsum n (fun s => (m s + A' r s) * X (S i) s) - (f + rsum n (fun s => m s * X i s))) with (rsum n (fun s => (m s + A' r s) * X (S i) s) - rsum n (fun s => m s * X i s) - f) by ring. rewrite <- rsum_minus. f_equal. apply rsum_ext. intros s _. unfold m, M'. field. unfold tau. lra. }
  set (U1 := rsum n (fun s => (m s + A' r s) * X (S i) s)) in *. set (KU := rsum n (fun s => B2 (K r s) * X (S i) s)) in *. change (Rabs (KU - B2 (rhs r)) <= delta) in D. rewrite Q.
  set (Su := rsum n (fun s => (Rabs (m s) + Rabs (A' r s)) * Rabs (X (S i) s))) in *. set (Sv := rsum n (fun s => Rabs (m s) * Rabs (X i s))) in *. set (W := rsum n (fun s => m s * X i s)) in *.
  assert (T : euler_terms n M' A' tau (X (S i)) (X i) f r = Su + Sv + Rabs f) by (unfold euler_terms, Su, Sv; rewrite <- rsum_plus; f_equal; apply rsum_ext; intros s _; unfold m, M'; ring).
  assert (Y : rsum n (fun s => 1 + Rabs (X (S i) s) + Rabs (X i s)) = INR n + rsum n (fun s => Rabs (X (S i) s)) + rsum n (fun s => Rabs (X i s))). { rewrite !rsum_plus. f_equal. f_equal. clear. induction n as [|k IH]; [reflexivity|]. cbn [rsum]. rewrite IH, S_INR. ring. }
  rewrite T, Y. set (Au := rsum n (fun s => Rabs (X (S i) s))) in *. set (Av := rsum n (fun s => Rabs (X i s))) in *.
  assert (PSu : 0 <= Su) by (apply rsum_nonneg; intros; apply Rmult_le_pos; [apply Rplus_le_le_0_compat|]; apply Rabs_pos). assert (PAu : 0 <= Au) by (apply rsum_nonneg; intros; apply Rabs_pos). assert (PAv : 0 <= Av) by (apply rsum_nonneg; intros; apply Rabs_pos).
  assert (eu : 0 <= eta * Au) by (apply Rmult_le_pos; lra). assert (ev : 0 <= eta * Av) by (apply Rmult_le_pos; lra). assert (nS : 6 * u * Su <= (3 * INR n + 9) * u * Su) by (apply Rmult_le_compat_r; auto; apply Rmult_le_compat_r; lra).
  replace (U1 - (W + f)) with ((KU - B2 (rhs r)) - (KU - U1) + (B2 (rhs r) - (W + f))) by ring. apply Rle_trans with (1 := Rabs_triang _ _). apply Rle_trans with (delta + (6 * u * Su + 2 * eta * Au) + ((3 * INR n + 9) * u * (Sv + Rabs f) + 2 * eta * Av + 3 * eta * INR n)).
  - apply Rplus_le_compat; [|exact E1]. unfold Rminus at 1. apply Rle_trans with (1 := Rabs_triang _ _). rewrite Rabs_Ropp. apply Rplus_le_compat; auto.
  - lra.
Qed.
(* C231: the first column is the initial condition; at the boundary, and at the first degree of freedom, the columns hold the boundary values *)
Theorem C231_data lu n bdy M A t0 t1 u0 force b i r eps delta G : (r < n)%nat -> r = 0%nat \/ bdy r = true -> let K := f_step_matrix bdy M A (dsub t1 t0) in let x := f_columns lu n bdy M A t0 t1 u0 force b in
  backward_stable n lu K eps delta G -> (forall s, (s < n)%nat -> fin (K r s) = true) ->
  (forall q, (q < n)%nat -> let g := f_step_rhs n bdy M (dsub t1 t0) (x i) (fun q => force (n * S i + q)%nat) (fun q => b q (S i)) q in fin g = true /\ Rabs (B2 g) <= G) ->
  x 0%nat = u0 /\ Rabs (B2 (x (S i) r) - B2 (b r (S i))) <= eps * Rabs (B2 (x (S i) r)) + delta.
Proof.
  intros Hr V K x BS F FG. split; [reflexivity|]. destruct (boundary_row lu n bdy M A t0 t1 u0 force b i r (eps * Rabs (B2 (x (S i) r)) + delta) Hr V F) as [R H]. apply H. fold K x in R |- *.
  assert (B := BS _ FG r Hr). apply Rle_trans with (1 := B). apply Req_le. f_equal. f_equal. rewrite (rsum_single n _ r Hr); [rewrite (R r Hr), Nat.eqb_refl, Rabs_R1; apply Rmult_1_l|]. intros s Hs N. rewrite (R s Hs). destruct (Nat.eqb_spec r s); [congruence|]. rewrite Rabs_R0. ring.
Qed.
(* C231: elsewhere each column solves the implicit Euler equation from the previous one, for the exact length of the time step *)
Theorem C231_step lu n bdy M A t0 t1 u0 force b i r eps delta G : (r < n)%nat -> (n <= 2 ^ 40)%nat -> r <> 0%nat -> bdy r = false -> fin (dsub t1 t0) = true -> B2 t0 < B2 t1 -> 0 <= eps <= / 4 ->
  let K := f_step_matrix bdy M A (dsub t1 t0) in let x := f_columns lu n bdy M A t0 t1 u0 force b in
  backward_stable n lu K eps delta G -> (forall s, (s < n)%nat -> fin (K r s) = true) ->
  (forall q, (q < n)%nat -> let g := f_step_rhs n bdy M (dsub t1 t0) (x i) (fun q => force (n * S i + q)%nat) (fun q => b q (S i)) q in fin g = true /\ Rabs (B2 g) <= G) ->
  let X k s := B2 (x k s) in let M' r s := B2 (M r s) in let A' r s := B2 (A r s) in let tau := B2 t1 - B2 t0 in let f := B2 (force (n * S i + r)%nat) in
  Rabs (euler_residual n M' A' tau (X (S i)) (X i) f r) <= (2 * eps + (3 * INR n + 9) * u) * euler_terms n M' A' tau (X (S i)) (X i) f r + 4 * eta * rsum n (fun s => 1 + Rabs (X (S i) s) + Rabs (X i s)) + delta.
Proof.
  intros Hr Hn N0 Nb HT HL He K x BS FK FG X M' A' tau f. assert (B := BS _ FG r Hr). apply (step_residual lu n bdy M A t0 t1 u0 force b i r _ Hr Hn N0 Nb HT HL FK (proj1 (FG r Hr))) in B.
  assert (B' : Rabs (euler_residual n M' A' tau (X (S i)) (X i) f r) <= eps * rsum n (fun s => Rabs (B2 (K r s)) * Rabs (X (S i) s)) + delta + (3 * INR n + 9) * u * euler_terms n M' A' tau (X (S i)) (X i) f r + 3 * eta * rsum n (fun s => 1 + Rabs (X (S i) s) + Rabs (X i s))) by exact B. clear B. apply Rle_trans with (1 := B'). clear B'.
  assert (V : f_visited bdy r = false) by (unfold f_visited; rewrite Nb; destruct r; [congruence|reflexivity]). destruct u_tiny as [Pu Us]. assert (Pe := eta_pos). assert (Pf := Rabs_pos f).
  set (T := euler_terms n M' A' tau (X (S i)) (X i) f r). set (E := rsum n (fun s => 1 + Rabs (X (S i) s) + Rabs (X i s))).
  assert (Q : rsum n (fun s => Rabs (B2 (K r s)) * Rabs (X (S i) s)) <= 11 / 10 * T + 2 * eta * E).
  { unfold T, euler_terms, E. rewrite Rmult_plus_distr_l, <- !rsum_scal. cbv beta.
 apply Rle_trans with (rsum n (fun s => 11 / 10 * (Rabs (M' r s / tau) * (Rabs (X (S i) s) + Rabs (X i s)) + Rabs (A' r s) * Rabs (X (S i) s))) + rsum n (fun s => 2 * eta * (1 + Rabs (X (S i) s) + Rabs (X i s)))); [|lra]. rewrite <- rsum_plus. apply rsum_le. intros s Hs.
    assert (H := matrix_error bdy M A t0 t1 HT HL r s V (FK s Hs)). cbv beta in H. fold K tau in H. change (B2 (M r s)) with (M' r s) in H. change (B2 (A r s)) with (A' r s) in H. set (mm := M' r s / tau) in *. set (k := B2 (K r s)) in *. assert (Pm := Rabs_pos mm). assert (Pa := Rabs_pos (A' r s)). assert (Px := Rabs_pos (X (S i) s)). assert (Pv := Rabs_pos (X i s)).
    assert (Hk : Rabs k <= 11 / 10 * (Rabs mm + Rabs (A' r s)) + 2 * eta). { replace k with ((k - (mm + A' r s)) + (mm + A' r s)) by ring. apply Rle_trans with (1 := Rabs_triang _ _). assert (Rabs (mm + A' r s) <= Rabs mm + Rabs (A' r s)) by apply Rabs_triang. assert (6 * u * (Rabs mm + Rabs (A' r s)) <= / 10 * (Rabs mm + Rabs (A' r s))) by (apply Rmult_le_compat_r; lra). lra. }
    assert (H1 := Rmult_le_compat_r _ _ _ Px Hk). assert (0 <= Rabs mm * Rabs (X i s)) by (apply Rmult_le_pos; lra). assert (0 <= eta * Rabs (X i s)) by (apply Rmult_le_pos; lra). lra. }
  assert (PT : 0 <= T) by (unfold T, euler_terms; apply Rplus_le_le_0_compat; [|lra]; apply rsum_nonneg; intros; apply Rplus_le_le_0_compat; apply Rmult_le_pos; try apply Rplus_le_le_0_compat; apply Rabs_pos).
  assert (PE : 0 <= eta * E) by (apply Rmult_le_pos; [lra|]; apply rsum_nonneg; intros s _; assert (H1 := Rabs_pos (X (S i) s)); assert (H2 := Rabs_pos (X i s)); lra).
  assert (Q2 : eps * rsum n (fun s => Rabs (B2 (K r s)) * Rabs (X (S i) s)) <= eps * (11 / 10 * T + 2 * eta * E)) by (apply Rmult_le_compat_l; lra).
  assert (Q3 : eps * (eta * E) <= / 4 * (eta * E)) by (apply Rmult_le_compat_r; lra). assert (Q4 : 0 <= eps * T) by (apply Rmult_le_pos; lra).
 lra.
Qed.
Print Assumptions C231_data.
Print Assumptions C231_step.
(* two degrees of freedom, identity mass matrix, time step 1, second equation coupled to the first; forward substitution is stable *)
Definition ex_mass (r s : nat) : double := if (r =? s)%nat then d1 else d0.
Definition ex_stiff (r s : nat) : double := if (r =? 1)%nat && (s =? 0)%nat then d1 else d0.
Definition ex_lu (K : nat -> nat -> double) (g : nat -> double) (s : nat) : double := if (s =? 0)%nat then g 0%nat else dsub (g 1%nat) (g 0%nat).
Example C231_example : let K := f_step_matrix (fun _ => false) ex_mass ex_stiff (dsub d1 d0) in
  fin (dsub d1 d0) = true /\ B2 d0 < B2 d1 /\ 0 <= 2 * u <= / 4 /\ backward_stable 2 ex_lu K (2 * u) 0 (bpow radix2 1000) /\ (forall r s, fin (K r s) = true) /\
  (forall q, (q < 2)%nat -> let g := f_step_rhs 2 (fun _ => false) ex_mass (dsub d1 d0) (fun _ => d1) (fun _ => d1) (fun _ => d1) q in fin g = true /\ Rabs (B2 g) <= bpow radix2 1000) /\
  f_step_rhs 2 (fun _ => false) ex_mass (dsub d1 d0) (fun _ => d1) (fun _ => d1) (fun _ => d1) 1 = dbl 2 0.
Proof.
  assert (E11 : dadd (ddiv d1 (dsub d1 d0)) d0 = d1) by (apply B2SF_inj; vm_compute; reflexivity). assert (E01 : dadd (ddiv d0 (dsub d1 d0)) d1 = d1) by (apply B2SF_inj; vm_compute; reflexivity). assert (E00 : dadd (ddiv d0 (dsub d1 d0)) d0 = d0) by (apply B2SF_inj; vm_compute; reflexivity). assert (M0 : dmul d0 d0 = d0) by (apply B2SF_inj; vm_compute; reflexivity). assert (M1 : dmul d1 d0 = d0) by (apply B2SF_inj; vm_compute; reflexivity).
  assert (Z0 : B2 d0 = 0) by reflexivity. destruct u_tiny as [Pu Us]. intros K.
  assert (K0 : forall s, K 0%nat s = if (s =? 0)%nat then d1 else d0) by (intros [|s]; unfold K, f_step_matrix, f_visited, ex_mass, ex_stiff; cbn [Nat.eqb orb andb]; [reflexivity|now rewrite E00, M0]).
  assert (K1 : forall s, K 1%nat s = if (s =? 0)%nat then d1 else if (s =? 1)%nat then d1 else d0) by (intros [|[|s]]; unfold K, f_step_matrix, f_visited, ex_mass, ex_stiff; cbn [Nat.eqb orb andb]; auto).
  split; [reflexivity|]. split; [rewrite B2_d1, Z0; lra|]. split; [lra|]. split; [|split; [|split]].
  - intros g Hg r Hr. destruct (Hg 0%nat ltac:(lia)) as [F0 G0]. destruct (Hg 1%nat ltac:(lia)) as [F1 G1]. assert (FS : fin (dsub (g 1%nat) (g 0%nat)) = true). { apply (dsub_ok _ _ 1001 ltac:(lia) F1 F0). unfold Rminus. apply Rle_trans with (1 := Rabs_triang _ _). rewrite Rabs_Ropp. replace (bpow radix2 1001) with (2 * bpow radix2 1000) by (change 1001%Z with (1 + 1000)%Z; rewrite bpow_plus; reflexivity). lra. }
    assert (ES := dsub_error _ _ FS). set (a := B2 (g 0%nat)) in *. set (c := B2 (g 1%nat)) in *. set (x := B2 (dsub (g 1%nat) (g 0%nat))) in *.
    destruct r as [|[|r]]; [| |lia]; cbn [rsum]; rewrite ?K0, ?K1; unfold ex_lu; cbn [Nat.eqb]; fold a c x; rewrite ?Z0, ?B2_d1, ?Rabs_R0, ?Rabs_R1, Rplus_0_r.
    + replace (0 + 1 * a + 0 * x - a) with 0 by ring. rewrite Rabs_R0. apply Rmult_le_pos; [lra|]. assert (H := Rabs_pos a). lra.
    + replace (0 + 1 * a + 1 * x - c) with (x - (c - a)) by ring. apply Rle_trans with (1 := ES). assert (Pa := Rabs_pos a). assert (H : Rabs (c - a) <= 2 * Rabs x). { assert (H : Rabs (c - a) <= Rabs x + u * Rabs (c - a)) by (replace (c - a) with (x + - (x - (c - a))) at 1 by ring; apply Rle_trans with (1 := Rabs_triang _ _); rewrite Rabs_Ropp; lra). assert (u * Rabs (c - a) <= / 2 * Rabs (c - a)) by (apply Rmult_le_compat_r; [apply Rabs_pos|lra]). lra. }
      rewrite (Rmult_comm 2 u), Rmult_assoc. apply Rmult_le_compat_l; lra.
  - intros r s. unfold K, f_step_matrix, f_visited, ex_mass, ex_stiff. destruct (r =? 0)%nat, (r =? s)%nat, ((r =? 1)%nat && (s =? 0)%nat); cbn [orb]; vm_compute; reflexivity.
  - intros [|[|q]] Hq; [| |lia].
    + cbv zeta. unfold f_step_rhs, f_visited. cbn [Nat.eqb orb]. split; [reflexivity|]. rewrite B2_d1, Rabs_R1. apply (bpow_le radix2 0). lia.
    + cbv zeta. replace (f_step_rhs 2 (fun _ => false) ex_mass (dsub d1 d0) (fun _ => d1) (fun _ => d1) (fun _ => d1) 1) with (dbl 2 0) by (apply B2SF_inj; vm_compute; reflexivity). destruct (B2_dbl 2 0 ltac:(cbn; lia) ltac:(lia)) as [F E]. split; [exact F|]. rewrite E, Rabs_pos_eq by (cbn; lra). apply Rle_trans with (bpow radix2 1); [cbn; lra|apply bpow_le; lia].
  - apply B2SF_inj; vm_compute; reflexivity.
Qed.
