(* C233: the solution computed by the parabolic solver in double arithmetic satisfies the exact implicit Euler - Galerkin equations up to the errors of assembly, time step and linear solver. *)
From Coq Require Import Reals Lra Lia List Bool ZArith.
From Flocq Require Import Core IEEE754.BinarySingleNaN Relative Plus_error.
From Verif Require Import Base RSum SimplexModel FloatCellModel FloatPlaneModel FloatMeasureModel FloatFemModel FloatAssemblyModel FloatLoadModel FloatMassModel FloatFem3Model FloatOperModel FloatGalerkinModel FloatParabolicModel FloatLinspaceModel SymbolsModel SymbolsProps FloatModel FloatProps FloatSearch FloatSplineModel FloatSpline FloatDiffModel FloatDiff FloatCell FloatPlane FloatMeasure FloatFem FloatAssembly FloatLoad FloatMass FloatFem3 FloatOper BinMat32 FloatStepModel FloatStep FloatGalerkin.
Import ListNotations.
Open Scope R_scope.

(* ---- specification ---- *)
(* the exact mass matrix given by the quadrature rule, and the same with absolute values *)
Definition mass (d nb n : nat) (w : nat -> double) (phi : nat -> nat -> double) (mesh : list mesh_cell) (r s : nat) : R :=
  gathered nb (fun e c i j => quadrature d n (fun q => B2 (w q)) (fun q => B2 (phi i q) * B2 (phi j q)) (fun _ => 1) e (span c)) mesh r s.
Definition amass (d nb n : nat) (w : nat -> double) (phi : nat -> nat -> double) (mesh : list mesh_cell) (r s : nat) : R :=
  gathered nb (fun e c i j => quadrature d n (fun q => Rabs (B2 (w q))) (fun q => Rabs (B2 (phi i q)) * Rabs (B2 (phi j q))) (fun _ => 1) e (span c)) mesh r s.
(* weight of the absolute errors in a row *)
Definition weight (n : nat) (tau : R) (x v : nat -> R) : R := rsum n (fun s => (Rabs (x s) + Rabs (v s)) / tau + Rabs (x s)) + 1.

(* ---- perturbation of a row ---- *)
Section Perturb.
Variables (n : nat) (M A M0 A0 Ma Aa : nat -> nat -> R) (tau : R) (x v : nat -> R) (f f0 fa alpha t : R) (r : nat).
Hypothesis Pt : 0 < tau.
Hypothesis Ha : 0 <= alpha <= / 2.
Hypothesis Ht : 0 <= t.
Hypothesis HM : forall s, (s < n)%nat -> Rabs (M r s - M0 r s) <= alpha * Ma r s + t /\ Rabs (M0 r s) <= Ma r s.
Hypothesis HA : forall s, (s < n)%nat -> Rabs (A r s - A0 r s) <= alpha * Aa r s + t /\ Rabs (A0 r s) <= Aa r s.
Hypothesis Hf : Rabs (f - f0) <= alpha * fa + t /\ Rabs f0 <= fa.
Lemma perturbed_residual : Rabs (euler_residual n M0 A0 tau x v f0 r - euler_residual n M A tau x v f r) <= alpha * euler_terms n Ma Aa tau x v fa r + t * weight n tau x v.
Proof using All.
  assert (It := Rinv_0_lt_compat _ Pt). unfold euler_residual, euler_terms, weight.
  replace (rsum n (fun s => M0 r s * (x s - v s) / tau + A0 r s * x s) - f0 - (rsum n (fun s => M r s * (x s - v s) / tau + A r s * x s) - f)) with ((rsum n (fun s => M0 r s * (x s - v s) / tau + A0 r s * x s) - rsum n (fun s => M r s * (x s - v s) / tau + A r s * x s)) + (f - f0)) by ring.
  rewrite <- rsum_minus. apply Rle_trans with (1 := Rabs_triang _ _). destruct Hf as [H1 H2]. assert (F0 := Rabs_pos f0). rewrite (Rabs_pos_eq fa) by lra. rewrite !Rmult_plus_distr_l.
  assert (S : Rabs (rsum n (fun s => M0 r s * (x s - v s) / tau + A0 r s * x s - (M r s * (x s - v s) / tau + A r s * x s))) <= rsum n (fun s => alpha * (Rabs (Ma r s / tau) * (Rabs (x s) + Rabs (v s)) + Rabs (Aa r s) * Rabs (x s)) + t * ((Rabs (x s) + Rabs (v s)) / tau + Rabs (x s)))).
  { apply Rle_trans with (1 := rsum_abs _ _). apply rsum_le. intros s Hs. destruct (HM s Hs) as [M1 M2]. destruct (HA s Hs) as [A1 A2]. assert (PM := Rabs_pos (M0 r s)). assert (PA := Rabs_pos (A0 r s)). assert (Px := Rabs_pos (x s)). assert (Pv := Rabs_pos (v s)).
    replace (M0 r s * (x s - v s) / tau + A0 r s * x s - (M r s * (x s - v s) / tau + A r s * x s)) with (- (M r s - M0 r s) * ((x s - v s) * / tau) + - (A r s - A0 r s) * x s) by (field; lra). apply Rle_trans with (1 := Rabs_triang _ _). rewrite !Rabs_mult, !Rabs_Ropp, (Rabs_pos_eq (/ tau)) by lra.
    assert (D : Rabs (x s - v s) <= Rabs (x s) + Rabs (v s)) by (unfold Rminus; apply Rle_trans with (1 := Rabs_triang _ _); rewrite Rabs_Ropp; lra).
    assert (E1 : Rabs (M r s - M0 r s) * (Rabs (x s - v s) * / tau) <= (alpha * Ma r s + t) * ((Rabs (x s) + Rabs (v s)) * / tau)) by (apply Rmult_le_compat; auto using Rabs_pos; [apply Rmult_le_pos; [apply Rabs_pos|lra]|apply Rmult_le_compat_r; lra]).
    assert (E2 : Rabs (A r s - A0 r s) * Rabs (x s) <= (alpha * Aa r s + t) * Rabs (x s)) by (apply Rmult_le_compat_r; lra).
    unfold Rdiv. rewrite (Rabs_mult (Ma r s)), (Rabs_pos_eq (/ tau)), (Rabs_pos_eq (Ma r s)), (Rabs_pos_eq (Aa r s)) by lra. lra. }
  rewrite rsum_plus, !rsum_scal in S. lra.
Qed.
Lemma perturbed_terms : euler_terms n M A tau x v f r <= 2 * euler_terms n Ma Aa tau x v fa r + t * weight n tau x v.
Proof using All.
  assert (It := Rinv_0_lt_compat _ Pt). unfold euler_terms, weight. destruct Hf as [H1 H2]. assert (F0 := Rabs_pos f0). rewrite (Rabs_pos_eq fa) by lra. rewrite !Rmult_plus_distr_l.
  assert (G : Rabs f <= 2 * fa + t). { replace f with ((f - f0) + f0) by ring. apply Rle_trans with (1 := Rabs_triang _ _). assert (alpha * fa <= 1 * fa) by (apply Rmult_le_compat_r; lra). lra. }
  assert (S : rsum n (fun s => Rabs (M r s / tau) * (Rabs (x s) + Rabs (v s)) + Rabs (A r s) * Rabs (x s)) <= rsum n (fun s => 2 * (Rabs (Ma r s / tau) * (Rabs (x s) + Rabs (v s)) + Rabs (Aa r s) * Rabs (x s)) + t * ((Rabs (x s) + Rabs (v s)) / tau + Rabs (x s)))).
  { apply rsum_le. intros s Hs. destruct (HM s Hs) as [M1 M2]. destruct (HA s Hs) as [A1 A2]. assert (PM := Rabs_pos (M0 r s)). assert (PA := Rabs_pos (A0 r s)). assert (Px := Rabs_pos (x s)). assert (Pv := Rabs_pos (v s)).
    assert (B1 : Rabs (M r s) <= 2 * Ma r s + t) by (replace (M r s) with ((M r s - M0 r s) + M0 r s) by ring; apply Rle_trans with (1 := Rabs_triang _ _); assert (alpha * Ma r s <= 1 * Ma r s) by (apply Rmult_le_compat_r; lra); lra).
    assert (B3 : Rabs (A r s) <= 2 * Aa r s + t) by (replace (A r s) with ((A r s - A0 r s) + A0 r s) by ring; apply Rle_trans with (1 := Rabs_triang _ _); assert (alpha * Aa r s <= 1 * Aa r s) by (apply Rmult_le_compat_r; lra); lra).
    unfold Rdiv. rewrite (Rabs_mult (Ma r s)), (Rabs_mult (M r s)), (Rabs_pos_eq (/ tau)), (Rabs_pos_eq (Ma r s)), (Rabs_pos_eq (Aa r s)) by lra.
    assert (E1 : Rabs (M r s) * (/ tau * (Rabs (x s) + Rabs (v s))) <= (2 * Ma r s + t) * (/ tau * (Rabs (x s) + Rabs (v s)))) by (apply Rmult_le_compat_r; auto; apply Rmult_le_pos; lra). assert (E2 : Rabs (A r s) * Rabs (x s) <= (2 * Aa r s + t) * Rabs (x s)) by (apply Rmult_le_compat_r; lra). lra. }
  match type of S with ?a <= _ => set (L := a) in * end. rewrite rsum_plus, !rsum_scal in S. lra.
Qed.
End Perturb.

(* ---- no overflow ---- *)
Lemma rounded_mag c x e : (0 <= e)%Z -> Rabs (c - x) <= u * Rabs x + eta -> Rabs x <= bpow radix2 e -> Rabs c <= bpow radix2 (e + 1).
Proof.
  intros He H Hx. destruct u_tiny as [Pu Us]. assert (Pe := eta_pos). assert (e1 : eta <= / 100) by (assert (EU := FloatDiff.eta_u); lra). assert (B1 : 1 <= bpow radix2 e) by (apply (bpow_le radix2 0); lia). rewrite bpow_plus. change (bpow radix2 1) with 2. assert (Px := Rabs_pos x).
  assert (u * Rabs x <= / 100 * bpow radix2 e) by (apply Rmult_le_compat; lra). replace c with ((c - x) + x) by ring. apply Rle_trans with (1 := Rabs_triang _ _). lra.
Qed.
Lemma fsum_mag n f e : (n <= 2 ^ 40)%nat -> (0 <= e <= 900)%Z -> (forall i, (i < n)%nat -> fin (f i) = true /\ Rabs (B2 (f i)) <= bpow radix2 e) -> fin (fsum n f) = true /\ Rabs (B2 (fsum n f)) <= bpow radix2 (e + 41).
Proof.
  intros Hn He Hf. assert (Be := bpow_gt_0 radix2 e). destruct u_tiny as [Pu Us].
  assert (G : forall k, (k <= n)%nat -> INR k <= bpow radix2 40). { intros k Hk. apply Rle_trans with (INR (2 ^ 40)); [apply le_INR; lia|]. rewrite pow_INR. replace (INR 2) with 2 by (cbn; ring). replace (bpow radix2 40) with (2 ^ 40) by (cbn; lra). lra. }
  assert (I : forall k, (k <= n)%nat -> fin (fsum k f) = true /\ Rabs (B2 (fsum k f)) <= 2 * INR k * bpow radix2 e).
  { induction k as [|k IH]; intros Hk; [split; [reflexivity|change (B2 (fsum 0 f)) with 0; rewrite Rabs_R0; cbn [INR]; lra]|]. destruct (IH ltac:(lia)) as [F B]. destruct (Hf k ltac:(lia)) as [F1 B1]. assert (Gk := G (S k) Hk). rewrite S_INR in *. assert (Pk := pos_INR k). rewrite fsum_S. assert (T := Rabs_triang (B2 (fsum k f)) (B2 (f k))).
    destruct (dadd_ok (fsum k f) (f k) (41 + e) ltac:(lia) F F1) as [FS _]. { apply Rle_trans with (1 := T). rewrite bpow_plus. apply Rle_trans with ((2 * INR k + 1) * bpow radix2 e); [lra|]. apply Rmult_le_compat_r; [lra|]. change 41%Z with (1 + 40)%Z. rewrite bpow_plus. change (bpow radix2 1) with 2. lra. }
    split; auto. assert (E := dadd_error _ _ FS). set (a := B2 (fsum k f) + B2 (f k)) in *. assert (Ba : Rabs a <= (2 * INR k + 1) * bpow radix2 e) by lra. assert (NU := n_u k ltac:(lia)). rewrite S_INR in NU. replace (B2 (dadd (fsum k f) (f k))) with ((B2 (dadd (fsum k f) (f k)) - a) + a) by ring. apply Rle_trans with (1 := Rabs_triang _ _).
    assert (u * Rabs a <= u * ((2 * INR k + 1) * bpow radix2 e)) by (apply Rmult_le_compat_l; lra). assert (Q : u * (2 * INR k + 1) * bpow radix2 e <= 1 * bpow radix2 e) by (apply Rmult_le_compat_r; lra). lra. }
  destruct (I n ltac:(lia)) as [F B]. split; auto. apply Rle_trans with (1 := B). rewrite bpow_plus, (Rmult_comm (bpow radix2 e)). apply Rmult_le_compat_r; [lra|]. change 41%Z with (1 + 40)%Z. rewrite bpow_plus. change (bpow radix2 1) with 2. assert (H := G n ltac:(lia)). lra.
Qed.
Section Overflow.
Variables (n : nat) (bdy : nat -> bool) (M A : nat -> nat -> double) (dt : double) (v f b : nat -> double).
Hypothesis Hn : (n <= 2 ^ 40)%nat.
Hypothesis Hdt : fin dt = true /\ bpow radix2 (-101) <= B2 dt.
Hypothesis HM : forall r s, (r < n)%nat -> (s < n)%nat -> fin (M r s) = true /\ Rabs (B2 (M r s)) <= bpow radix2 202.
Hypothesis HA : forall r s, (r < n)%nat -> (s < n)%nat -> fin (A r s) = true /\ Rabs (B2 (A r s)) <= bpow radix2 202.
Hypothesis Hv : forall s, (s < n)%nat -> fin (v s) = true /\ Rabs (B2 (v s)) <= bpow radix2 100.
Hypothesis Hf : forall s, (s < n)%nat -> fin (f s) = true /\ Rabs (B2 (f s)) <= bpow radix2 202.
Hypothesis Hb : forall s, (s < n)%nat -> fin (b s) = true /\ Rabs (B2 (b s)) <= bpow radix2 202.
Lemma quotient_mag r s : (r < n)%nat -> (s < n)%nat -> fin (ddiv (M r s) dt) = true /\ Rabs (B2 (ddiv (M r s) dt)) <= bpow radix2 304.
Proof using All.
  intros Hr Hs. destruct (HM r s Hr Hs) as [F B]. destruct Hdt as [Fd Bd]. assert (P101 := bpow_gt_0 radix2 (-101)). assert (I := Rinv_0_lt_compat (B2 dt) ltac:(lra)). assert (Il : / B2 dt <= bpow radix2 101) by (replace (bpow radix2 101) with (/ bpow radix2 (-101)) by (rewrite <- bpow_opp; reflexivity); apply Rinv_le_contravar; lra).
  assert (Q : Rabs (B2 (M r s) / B2 dt) <= bpow radix2 303). { unfold Rdiv. rewrite Rabs_mult, (Rabs_pos_eq (/ B2 dt)) by lra. change 303%Z with (202 + 101)%Z. rewrite bpow_plus. apply Rmult_le_compat; try lra. apply Rabs_pos. }
  destruct (ddiv_ok (M r s) dt 303 ltac:(lia) F ltac:(lra) Q) as [FD _]. split; auto. destruct (ddiv_error _ _ FD Fd ltac:(lra)) as [_ E]. exact (rounded_mag _ _ 303 ltac:(lia) E Q).
Qed.
Lemma matrix_finite r s : (r < n)%nat -> (s < n)%nat -> fin (f_step_matrix bdy M A dt r s) = true.
Proof using All.
  intros Hr Hs. destruct (quotient_mag r s Hr Hs) as [F1 B1]. destruct (HA r s Hr Hs) as [F2 B2']. assert (L : bpow radix2 202 <= bpow radix2 304) by (apply bpow_le; lia).
  destruct (dadd_ok (ddiv (M r s) dt) (A r s) 305 ltac:(lia) F1 F2) as [FK _]. { apply Rle_trans with (1 := Rabs_triang _ _). change 305%Z with (1 + 304)%Z. rewrite bpow_plus. change (bpow radix2 1) with 2. lra. }
  unfold f_step_matrix. destruct (f_visited bdy r); [|exact FK]. destruct (r =? s)%nat; [reflexivity|]. apply (dmul_ok _ _ 0 ltac:(lia) FK); [reflexivity|]. change (B2 d0) with 0. rewrite Rmult_0_r, Rabs_R0. apply bpow_ge_0.
Qed.
Lemma rhs_finite r : (r < n)%nat -> fin (f_step_rhs n bdy M dt v f b r) = true /\ Rabs (B2 (f_step_rhs n bdy M dt v f b r)) <= bpow radix2 500.
Proof using All.
  intros Hr. unfold f_step_rhs. destruct (f_visited bdy r). { destruct (Hb r Hr) as [F B]. split; auto. apply Rle_trans with (1 := B), bpow_le. lia. }
  destruct (fsum_mag n (fun s => dmul (ddiv (M r s) dt) (v s)) 405 Hn ltac:(lia)) as [FS BS].
  { intros s Hs. destruct (quotient_mag r s Hr Hs) as [F1 B1]. destruct (Hv s Hs) as [F2 B2']. assert (Q : Rabs (B2 (ddiv (M r s) dt) * B2 (v s)) <= bpow radix2 404) by (rewrite Rabs_mult; change 404%Z with (304 + 100)%Z; rewrite bpow_plus; apply Rmult_le_compat; auto using Rabs_pos).
    destruct (dmul_ok _ _ 404 ltac:(lia) F1 F2 Q) as [F _]. split; auto. exact (rounded_mag _ _ 404 ltac:(lia) (dmul_error _ _ F) Q). }
  destruct (Hf r Hr) as [F2 B2']. set (S := fsum n _) in *. assert (Q : Rabs (B2 S + B2 (f r)) <= bpow radix2 447). { apply Rle_trans with (1 := Rabs_triang _ _). assert (L : bpow radix2 202 <= bpow radix2 446) by (apply bpow_le; lia). change 447%Z with (1 + 446)%Z. rewrite bpow_plus. change (bpow radix2 1) with 2. change (405 + 41)%Z with 446%Z in BS. lra. }
  destruct (dadd_ok _ _ 447 ltac:(lia) FS F2 Q) as [F _]. split; auto. assert (E := dadd_error _ _ F). assert (Pe := eta_pos). apply Rle_trans with (bpow radix2 448); [|apply bpow_le; lia]. apply (rounded_mag _ (B2 S + B2 (f r)) 447); [lia|lra|exact Q].
Qed.
End Overflow.

Section C233.
Variables (lu : (nat -> nat -> double) -> (nat -> double) -> nat -> double) (bdy : nat -> bool) (b : nat -> nat -> double) (t0 t1 : double) (u0 : nat -> double).
Variables (left : bool) (nd d nb n m : nat) (w : nat -> double) (g : nat -> nat -> nat -> double) (phi : nat -> nat -> double) (op : f_op) (v : nat -> nat -> double) (mesh : list mesh_cell) (kappa eps delta G : R).
Hypothesis Hd : (d = 2 \/ d = 3)%nat.
Hypothesis Hc : forall e, In e mesh -> good_cell d kappa (fst e) /\ forall q i r, (q < n)%nat -> (i < nb)%nat -> (r < d)%nat -> cell_agradient d (span (fst e)) (fun s => B2 (g q i s)) r <= bpow radix2 150.
Hypothesis HK : 1 <= kappa <= 2 ^ 20.
Hypothesis Hn : (n <= 50)%nat.
Hypothesis Hw : forall q, (q < n)%nat -> fin (w q) = true /\ Rabs (B2 (w q)) <= 1.
Hypothesis Hg : forall q i s, (q < n)%nat -> (s < d)%nat -> fin (g q i s) = true /\ Rabs (B2 (g q i s)) <= 1024.
Hypothesis Hphi : forall i q, (i < nb)%nat -> (q < n)%nat -> fin (phi i q) = true /\ Rabs (B2 (phi i q)) <= 1024.
Hypothesis Hop : small_coefficients d (length mesh * n) op.
Hypothesis Hsize : (op_size op <= 10)%nat.
Hypothesis Hsym : f_symmetric op = true -> symmetric_tensors op.
Hypothesis Hv : forall i k, (k < length mesh * n)%nat -> fin (v i k) = true /\ Rabs (B2 (v i k)) <= 2 ^ 300.
(* no entry of the matrices or of the load has more than m terms *)
Hypothesis Hm : (m <= 2 ^ 20)%nat.
Hypothesis Hmr : forall r s, (r < nd)%nat -> (s < nd)%nat -> (meetings nb mesh r s <= m)%nat.
Hypothesis Hmi : forall r, (r < nd)%nat -> (incidences nb mesh r <= m)%nat.
Hypothesis Hnd : (nd <= 2 ^ 40)%nat.
Hypothesis HT : fin (dsub t1 t0) = true.
Hypothesis HL : B2 t0 < B2 t1.
Hypothesis He : 0 <= eps <= / 4.
Let K := f_step_matrix bdy (f_mass d nb n w phi mesh) (f_dirichlet_matrix true bdy (f_operator left d nb n w g phi op mesh)) (dsub t1 t0).
Let x := f_parabolic lu bdy b t0 t1 u0 left nd d nb n w g phi op v mesh.
Hypothesis Hlu : backward_stable nd lu K eps delta G.
Lemma cells_ok e : In e mesh -> cell_ok d d (fst e) /\ volume d (span (fst e)) <> 0 /\ terms d (span (fst e)) <= kappa * Rabs (volume d (span (fst e))).
Proof using All. intros H. destruct (Hc e H) as [GC _]. unfold good_cell in GC. clear - Hd GC Hn Hw Hg. destruct Hd as [-> | ->]; cbn [Nat.eqb] in GC; [exact GC|]. split; [exact (ok3 n w g _ kappa GC Hn Hw Hg)|exact (proj2 (proj2 GC))]. Qed.
Lemma m_bound : 0 <= INR m <= 1048576.
Proof using All. split; [apply pos_INR|]. apply Rle_trans with (INR (2 ^ 20)); [now apply le_INR|]. rewrite pow_INR. replace (INR 2) with 2 by (cbn; ring). lra. Qed.
Let alpha := (3 * INR n + 140 * kappa + 3 * INR m + 3) * u.
Let t := 2 * INR m * bpow radix2 (-250).
Lemma alpha_small : 0 <= alpha <= / 2.
Proof using All.
  assert (Pu := u_pos). assert (N50 : 0 <= INR n <= 50) by (split; [apply pos_INR|]; replace 50 with (INR 50) by (cbn; lra); now apply le_INR). assert (M20 := m_bound). unfold alpha. split; [apply Rmult_le_pos; lra|]. apply Rle_trans with ((3 * 50 + 140 * 1048576 + 3 * 1048576 + 3) * u); [apply Rmult_le_compat_r; lra|rewrite u_small; lra].
Qed.
Lemma weaken a k p S e : 0 <= a <= 140 -> (k <= m)%nat -> 0 <= p <= 3 -> 0 <= S -> (e <= -250)%Z -> (3 * INR n + a * kappa + 3 * INR k + p) * u * S + 2 * INR k * bpow radix2 e <= alpha * S + t.
Proof using All.
  intros Ha Hk Hp HS He'. assert (Pu := u_pos). assert (K1 : 0 <= INR k <= INR m) by (split; [apply pos_INR|now apply le_INR]). assert (P250 := bpow_gt_0 radix2 (-250)). assert (Pe' := bpow_gt_0 radix2 e). assert (L : bpow radix2 e <= bpow radix2 (-250)) by (apply bpow_le; lia). assert (ak : a * kappa <= 140 * kappa) by (apply Rmult_le_compat_r; lra).
  apply Rplus_le_compat; [apply Rmult_le_compat_r; auto; unfold alpha; apply Rmult_le_compat_r; lra|]. unfold t. apply Rmult_le_compat; lra.
Qed.
Lemma mass_abs r s : Rabs (mass d nb n w phi mesh r s) <= amass d nb n w phi mesh r s.
Proof using All.
  unfold mass, amass. rewrite !gathered_items. apply Rle_trans with (1 := lsum_abs _). rewrite map_map. apply lsum_le. intros h _. unfold at2c, quadrature. assert (Pf : 0 < INR (fact d)) by apply INR_fact_lt_0.
  match goal with |- Rabs (_ * ?z) <= _ => assert (Pz : 0 <= z) by (apply Rmult_le_pos; [apply Rabs_pos|apply Rlt_le, Rinv_0_lt_compat; lra]); rewrite Rabs_mult, (Rabs_pos_eq z Pz) end. apply Rmult_le_compat_r; auto. apply Rle_trans with (1 := rsum_abs _ _). apply Req_le, rsum_ext. intros. now rewrite !Rabs_mult, Rabs_R1.
Qed.
Lemma mass_error r s : (r < nd)%nat -> (s < nd)%nat -> Rabs (B2 (f_mass d nb n w phi mesh r s) - mass d nb n w phi mesh r s) <= alpha * amass d nb n w phi mesh r s + t.
Proof using All.
  intros Hr Hs. assert (M20 := Hmr r s Hr Hs). assert (H1 : forall k, (k < length mesh * n)%nat -> fin d1 = true /\ Rabs (B2 d1) <= 2 ^ 300) by (intros; split; [reflexivity|rewrite B2_d1, Rabs_R1; apply pow_R1_Rle; lra]).
  destruct (C228_accuracy d nb n w phi (fun _ => d1) mesh kappa ltac:(lia) cells_ok HK ltac:(lia) Hw Hphi H1 r s ltac:(lia)) as [_ E]. rewrite B2_d1, Rabs_R1 in E.
  assert (PA : 0 <= amass d nb n w phi mesh r s) by (apply Rle_trans with (2 := mass_abs r s); apply Rabs_pos). apply Rle_trans with (1 := E). assert (W := weaken 20 (meetings nb mesh r s) 0 _ (-700) ltac:(lra) M20 ltac:(lra) PA ltac:(lia)). rewrite Rplus_0_r in W. exact W.
Qed.
Lemma oper_error r s : (r < nd)%nat -> (s < nd)%nat -> Rabs (B2 (f_operator left d nb n w g phi op mesh r s) - galerkin d nb n w g phi op mesh r s) <= alpha * agalerkin d nb n w g phi op mesh r s + t /\ Rabs (galerkin d nb n w g phi op mesh r s) <= agalerkin d nb n w g phi op mesh r s.
Proof using All.
  intros Hr Hs. assert (M20 := Hmr r s Hr Hs). assert (GA : Rabs (galerkin d nb n w g phi op mesh r s) <= agalerkin d nb n w g phi op mesh r s).
  { unfold galerkin, agalerkin. rewrite !gathered_items. apply Rle_trans with (1 := lsum_abs _). rewrite map_map. apply lsum_le. intros h Hh. destruct (items2_in _ _ _ _ _ Hh) as (dof & H1 & H2 & H3 & _). unfold at2c. exact (proj2 (proj2 (proj2 (local_op_ok left d nb n w g phi op mesh kappa Hd Hc HK Hn Hw Hg Hphi Hop Hsize _ _ dof _ _ H1 H2 H3)))). }
  split; auto. destruct (C230_accuracy left d nb n w g phi op mesh kappa Hd Hc HK Hn Hw Hg Hphi Hop Hsize r s Hsym ltac:(lia)) as [_ E]. assert (PA : 0 <= agalerkin d nb n w g phi op mesh r s) by (apply Rle_trans with (2 := GA); apply Rabs_pos). apply Rle_trans with (1 := E). assert (W := weaken 140 (meetings nb mesh r s) 0 _ (-250) ltac:(lra) M20 ltac:(lra) PA ltac:(lia)). rewrite Rplus_0_r in W. exact W.
Qed.
Lemma force_error i r : (r < nd)%nat -> Rabs (B2 (f_forcing d nb n w phi (v i) mesh r) - load d nb n w phi (v i) mesh r) <= alpha * aload d nb n w phi (v i) mesh r + t /\ Rabs (load d nb n w phi (v i) mesh r) <= aload d nb n w phi (v i) mesh r.
Proof using All.
  intros Hr. assert (M20 := Hmi r Hr). assert (LA : Rabs (load d nb n w phi (v i) mesh r) <= aload d nb n w phi (v i) mesh r).
  { unfold load, aload. rewrite !assembled_items. apply Rle_trans with (1 := lsum_abs _). rewrite map_map. apply lsum_le. intros h _. unfold term_at, quadrature. assert (Pf : 0 < INR (fact d)) by apply INR_fact_lt_0. match goal with |- Rabs (_ * ?z) <= _ => assert (Pz : 0 <= z) by (apply Rmult_le_pos; [apply Rabs_pos|apply Rlt_le, Rinv_0_lt_compat; lra]); rewrite Rabs_mult, (Rabs_pos_eq z Pz) end. apply Rmult_le_compat_r; auto. apply Rle_trans with (1 := rsum_abs _ _). apply Req_le, rsum_ext. intros. now rewrite !Rabs_mult. }
  split; auto. destruct (C227_accuracy d nb n w phi (v i) mesh kappa ltac:(lia) cells_ok ltac:(lra) ltac:(lia) Hw Hphi (Hv i) r ltac:(lia)) as [_ E]. assert (PA : 0 <= aload d nb n w phi (v i) mesh r) by (apply Rle_trans with (2 := LA); apply Rabs_pos). apply Rle_trans with (1 := E). exact (weaken 20 (incidences nb mesh r) 3 _ (-700) ltac:(lra) M20 ltac:(lra) PA ltac:(lia)).
Qed.
Lemma block_row i r : (r < nd)%nat -> f_blocks nd d nb n w phi v mesh (nd * S i + r) = f_forcing d nb n w phi (v (S i)) mesh r.
Proof using All. intros Hr. unfold f_blocks. rewrite (Nat.mul_comm nd), Nat.div_add_l, Nat.div_small, Nat.add_0_r by lia. rewrite Nat.add_comm, Nat.mod_add, Nat.mod_small by lia. reflexivity. Qed.
(* the right hand side of step i, which the linear solver gets *)
Let rhs i := f_step_rhs nd bdy (f_mass d nb n w phi mesh) (dsub t1 t0) (x i) (fun q => f_blocks nd d nb n w phi v mesh (nd * S i + q)%nat) (fun q => b q (S i)).
(* C233: initial and boundary values *)
Theorem C233_data i r : (r < nd)%nat -> r = 0%nat \/ bdy r = true -> (forall s, (s < nd)%nat -> fin (K r s) = true) -> (forall q, (q < nd)%nat -> fin (rhs i q) = true /\ Rabs (B2 (rhs i q)) <= G) ->
  x 0%nat = u0 /\ Rabs (B2 (x (S i) r) - B2 (b r (S i))) <= eps * Rabs (B2 (x (S i) r)) + delta.
Proof using All. intros Hr V FK FG. exact (C231_data lu nd bdy _ _ t0 t1 u0 (f_blocks nd d nb n w phi v mesh) b i r eps delta G Hr V Hlu FK FG). Qed.
(* C233: every other row of the exact equations  mass (u(i+1) - u(i)) / (t1 - t0) + a u(i+1) = F(i+1)  holds up to the errors of assembly, step and linear solver *)
Theorem C233_step i r : (r < nd)%nat -> r <> 0%nat -> bdy r = false -> (forall s, (s < nd)%nat -> fin (K r s) = true) -> (forall q, (q < nd)%nat -> fin (rhs i q) = true /\ Rabs (B2 (rhs i q)) <= G) ->
  let X k s := B2 (x k s) in let tau := B2 t1 - B2 t0 in
  Rabs (euler_residual nd (mass d nb n w phi mesh) (galerkin d nb n w g phi op mesh) tau (X (S i)) (X i) (load d nb n w phi (v (S i)) mesh r) r) <=
    (4 * eps + (6 * INR nd + 3 * INR n + 140 * kappa + 3 * INR m + 21) * u) * euler_terms nd (amass d nb n w phi mesh) (agalerkin d nb n w g phi op mesh) tau (X (S i)) (X i) (aload d nb n w phi (v (S i)) mesh r) r
    + 4 * INR m * bpow radix2 (-250) * weight nd tau (X (S i)) (X i) + 4 * eta * rsum nd (fun s => 1 + Rabs (X (S i) s) + Rabs (X i s)) + delta.
Proof using All.
  intros Hr N0 Nb FK FG X tau. assert (B := C231_step lu nd bdy _ _ t0 t1 u0 (f_blocks nd d nb n w phi v mesh) b i r eps delta G Hr Hnd N0 Nb HT HL He Hlu FK FG). cbv zeta in B. fold tau in B.
  change (fun s => B2 (f_columns lu nd bdy (f_mass d nb n w phi mesh) (f_dirichlet_matrix true bdy (f_operator left d nb n w g phi op mesh)) t0 t1 u0 (f_blocks nd d nb n w phi v mesh) b (S i) s)) with (X (S i)) in B. change (fun s => B2 (f_columns lu nd bdy (f_mass d nb n w phi mesh) (f_dirichlet_matrix true bdy (f_operator left d nb n w g phi op mesh)) t0 t1 u0 (f_blocks nd d nb n w phi v mesh) b i s)) with (X i) in B.
  assert (FB := block_row i r Hr).
  rewrite FB in B. set (M' := fun r s => B2 (f_mass d nb n w phi mesh r s)) in B. set (A' := fun r s => B2 (f_dirichlet_matrix true bdy (f_operator left d nb n w g phi op mesh) r s)) in B. set (f := B2 (f_forcing d nb n w phi (v (S i)) mesh r)) in B.
  assert (PT : 0 < tau) by (unfold tau; lra). assert (HM : forall s, (s < nd)%nat -> Rabs (M' r s - mass d nb n w phi mesh r s) <= alpha * amass d nb n w phi mesh r s + t /\ Rabs (mass d nb n w phi mesh r s) <= amass d nb n w phi mesh r s) by (intros s Hs; split; [now apply mass_error|apply mass_abs]).
  assert (HA : forall s, (s < nd)%nat -> Rabs (A' r s - galerkin d nb n w g phi op mesh r s) <= alpha * agalerkin d nb n w g phi op mesh r s + t /\ Rabs (galerkin d nb n w g phi op mesh r s) <= agalerkin d nb n w g phi op mesh r s). { intros s Hs. assert (V : f_visited bdy r = false) by (unfold f_visited; rewrite Nb; destruct r; [congruence|reflexivity]). unfold A', f_dirichlet_matrix. rewrite V. cbn [andb]. now apply oper_error. }
  assert (M20 := m_bound). assert (P250 := bpow_gt_0 radix2 (-250)). assert (Pu := u_pos). assert (Pt' : 0 <= t) by (unfold t; apply Rmult_le_pos; lra). assert (AS := alpha_small).
  assert (R1 := perturbed_residual nd M' A' _ _ _ _ tau (X (S i)) (X i) f _ _ alpha t r PT AS Pt' HM HA (force_error (S i) r Hr)). assert (R2 := perturbed_terms nd M' A' _ _ _ _ tau (X (S i)) (X i) f _ _ alpha t r PT AS Pt' HM HA (force_error (S i) r Hr)).
  set (E0 := euler_residual nd (mass d nb n w phi mesh) _ _ _ _ _ _) in *. set (E1 := euler_residual nd M' A' tau (X (S i)) (X i) f r) in *. set (T1 := euler_terms nd M' A' tau (X (S i)) (X i) f r) in *. set (T0 := euler_terms nd (amass d nb n w phi mesh) _ _ _ _ _ _) in *. set (W := weight nd tau (X (S i)) (X i)) in *. set (Y := rsum nd (fun s => 1 + _ + _)) in *.
  assert (NU := n_u nd Hnd). rewrite S_INR in NU. assert (Pn := pos_INR nd). set (z := 2 * eps + (3 * INR nd + 9) * u). assert (Hz : 0 <= z <= 1). { destruct u_tiny as [_ Us]. unfold z. split; [apply Rplus_le_le_0_compat; [lra|apply Rmult_le_pos; lra]|lra]. }
  assert (PW : 0 <= t * W). { apply Rmult_le_pos; auto. unfold W, weight. apply Rplus_le_le_0_compat; [|lra]. apply rsum_nonneg. intros s _. assert (H1 := Rabs_pos (X (S i) s)). assert (H2 := Rabs_pos (X i s)). apply Rplus_le_le_0_compat; auto. apply Rmult_le_pos; [lra|apply Rlt_le, Rinv_0_lt_compat; lra]. }
  fold z in B. assert (Z1 : z * T1 <= z * (2 * T0 + t * W)) by (apply Rmult_le_compat_l; lra). assert (Z2 : z * (t * W) <= 1 * (t * W)) by (apply Rmult_le_compat_r; lra).
  replace (4 * INR m * bpow radix2 (-250) * W) with (2 * (t * W)) by (unfold t; ring). replace (4 * eps + (6 * INR nd + 3 * INR n + 140 * kappa + 3 * INR m + 21) * u) with (2 * z + alpha) by (unfold z, alpha; ring).
  assert (B1 : Rabs E1 <= z * T1 + 4 * eta * Y + delta) by exact B. replace E0 with ((E0 - E1) + E1) by ring. apply Rle_trans with (1 := Rabs_triang _ _). lra.
Qed.
(* C233: nothing overflows in a step when the exact entries are at most 2^200, the step at least 2^-100 and the previous column and the boundary data at most 2^100 *)
Theorem C233_no_overflow i : bpow radix2 (-100) <= B2 t1 - B2 t0 -> (forall r s, (r < nd)%nat -> (s < nd)%nat -> amass d nb n w phi mesh r s <= bpow radix2 200 /\ agalerkin d nb n w g phi op mesh r s <= bpow radix2 200) -> (forall r, (r < nd)%nat -> aload d nb n w phi (v (S i)) mesh r <= bpow radix2 200) ->
  (forall s, (s < nd)%nat -> fin (x i s) = true /\ Rabs (B2 (x i s)) <= bpow radix2 100) -> (forall s, (s < nd)%nat -> fin (b s (S i)) = true /\ Rabs (B2 (b s (S i))) <= bpow radix2 100) ->
  (forall r s, (r < nd)%nat -> (s < nd)%nat -> fin (K r s) = true) /\ (forall q, (q < nd)%nat -> fin (rhs i q) = true /\ Rabs (B2 (rhs i q)) <= bpow radix2 500).
Proof using All.
  intros Htau HE HF Hx Hb. destruct u_tiny as [Pu Us]. assert (AS := alpha_small). assert (M20 := m_bound). assert (B200 : 1 <= bpow radix2 200) by (apply (bpow_le radix2 0); lia). assert (E202 : bpow radix2 202 = 4 * bpow radix2 200) by (change 202%Z with (2 + 200)%Z; rewrite bpow_plus; reflexivity).
  assert (T1 : t <= 1). { unfold t. assert (L : bpow radix2 (-250) <= bpow radix2 (-21)) by (apply bpow_le; lia). assert (P := bpow_gt_0 radix2 (-250)). apply Rle_trans with (2 * 1048576 * bpow radix2 (-21)); [apply Rmult_le_compat; lra|apply Req_le; cbn; lra]. }
  assert (Mag : forall c y a, Rabs (c - y) <= alpha * a + t -> Rabs y <= a -> a <= bpow radix2 200 -> Rabs c <= bpow radix2 202). { intros c y a H1 H2 H3. assert (Py := Rabs_pos y). assert (alpha * a <= / 2 * a) by (apply Rmult_le_compat_r; lra). replace c with ((c - y) + y) by ring. apply Rle_trans with (1 := Rabs_triang _ _). lra. }
  assert (HM : forall r s, (r < nd)%nat -> (s < nd)%nat -> fin (f_mass d nb n w phi mesh r s) = true /\ Rabs (B2 (f_mass d nb n w phi mesh r s)) <= bpow radix2 202).
  { intros r s Hr Hs. assert (Mrs := Hmr r s Hr Hs). assert (H1 : forall k, (k < length mesh * n)%nat -> fin d1 = true /\ Rabs (B2 d1) <= 2 ^ 300) by (intros; split; [reflexivity|rewrite B2_d1, Rabs_R1; apply pow_R1_Rle; lra]). split; [exact (proj1 (C228_accuracy d nb n w phi (fun _ => d1) mesh kappa ltac:(lia) cells_ok HK ltac:(lia) Hw Hphi H1 r s ltac:(lia)))|]. exact (Mag _ _ _ (mass_error r s Hr Hs) (mass_abs r s) (proj1 (HE r s Hr Hs))). }
  assert (HA : forall r s, (r < nd)%nat -> (s < nd)%nat -> fin (f_dirichlet_matrix true bdy (f_operator left d nb n w g phi op mesh) r s) = true /\ Rabs (B2 (f_dirichlet_matrix true bdy (f_operator left d nb n w g phi op mesh) r s)) <= bpow radix2 202).
  { intros r s Hr Hs. assert (Mrs := Hmr r s Hr Hs). assert (FO := proj1 (C230_accuracy left d nb n w g phi op mesh kappa Hd Hc HK Hn Hw Hg Hphi Hop Hsize r s Hsym ltac:(lia))). destruct (oper_error r s Hr Hs) as [OE OA]. assert (OM := Mag _ _ _ OE OA (proj2 (HE r s Hr Hs))).
    unfold f_dirichlet_matrix. destruct (true && f_visited bdy r); [|split; auto]. destruct (r =? s)%nat; [split; [reflexivity|rewrite B2_d1, Rabs_R1; lra]|]. assert (Q : Rabs (B2 (f_operator left d nb n w g phi op mesh r s) * B2 d0) <= bpow radix2 0) by (change (B2 d0) with 0; rewrite Rmult_0_r, Rabs_R0; apply bpow_ge_0). destruct (dmul_ok _ d0 0 ltac:(lia) FO (eq_refl : fin d0 = true) Q) as [F _]. split; auto. assert (E := rounded_mag _ _ 0 ltac:(lia) (dmul_error _ _ F) Q). apply Rle_trans with (1 := E), bpow_le. lia. }
  assert (HF' : forall r, (r < nd)%nat -> fin (f_blocks nd d nb n w phi v mesh (nd * S i + r)%nat) = true /\ Rabs (B2 (f_blocks nd d nb n w phi v mesh (nd * S i + r)%nat)) <= bpow radix2 202).
  { intros r Hr. rewrite (block_row i r Hr). assert (Mr := Hmi r Hr). split; [exact (proj1 (C227_accuracy d nb n w phi (v (S i)) mesh kappa ltac:(lia) cells_ok ltac:(lra) ltac:(lia) Hw Hphi (Hv (S i)) r ltac:(lia)))|]. destruct (force_error (S i) r Hr) as [FE FA]. exact (Mag _ _ _ FE FA (HF r Hr)). }
  assert (Hdt : fin (dsub t1 t0) = true /\ bpow radix2 (-101) <= B2 (dsub t1 t0)). { split; auto. assert (E := FloatDiff.dsub_error _ _ HT). set (tau := B2 t1 - B2 t0) in *. set (dt := B2 (dsub t1 t0)) in *. rewrite (Rabs_pos_eq tau) in E by (unfold tau; lra). assert (u * tau <= / 2 * tau) by (apply Rmult_le_compat_r; unfold tau; lra). apply Rabs_le_inv in E. replace (bpow radix2 (-100)) with (2 * bpow radix2 (-101)) in Htau by (change (-100)%Z with (1 + -101)%Z; rewrite bpow_plus; reflexivity). lra. }
  assert (Hb' : forall s, (s < nd)%nat -> fin (b s (S i)) = true /\ Rabs (B2 (b s (S i))) <= bpow radix2 202) by (intros s Hs; destruct (Hb s Hs) as [F B]; split; auto; apply Rle_trans with (1 := B), bpow_le; lia).
  split; [intros r s Hr Hs; exact (matrix_finite nd bdy _ _ _ (x i) _ _ Hnd Hdt HM HA Hx HF' Hb' r s Hr Hs)|intros q Hq; exact (rhs_finite nd bdy _ _ _ (x i) _ _ Hnd Hdt HM HA Hx HF' Hb' q Hq)].
Qed.
End C233.
(* ---- the hypotheses are met: the mesh of C232, the heat equation, one step of length 1; the discrete equation of node 1 is (1/2)(x - 1) + (1/2) x = 1/2 ---- *)
Definition ex_heat : f_op := FNeg FLap.
Example C233_example : let P := f_parabolic (fun _ g => g) (fun r => (r =? 0)%nat) (fun _ _ => d1) d0 d1 (fun _ => d1) true 2 2 1 1 (fun _ => d1) ex_grad (fun _ _ => d1) ex_heat (fun _ _ => d1) ex_mesh in
  let M := f_mass 2 1 1 (fun _ => d1) (fun _ _ => d1) ex_mesh in let A := f_dirichlet_matrix true (fun r => (r =? 0)%nat) (f_operator true 2 1 1 (fun _ => d1) ex_grad (fun _ _ => d1) ex_heat ex_mesh) in let K := f_step_matrix (fun r => (r =? 0)%nat) M A (dsub d1 d0) in
  small_coefficients 2 (length ex_mesh * 1) ex_heat /\ symmetric_tensors ex_heat /\ (op_size ex_heat <= 10)%nat /\ (forall r s, (r < 2)%nat -> (s < 2)%nat -> (meetings 1 ex_mesh r s <= 1)%nat) /\ (forall r, (r < 2)%nat -> (incidences 1 ex_mesh r <= 1)%nat) /\
  fin (dsub d1 d0) = true /\ B2 d0 < B2 d1 /\ (forall r s, (r < 2)%nat -> (s < 2)%nat -> K r s = if (r =? s)%nat then d1 else d0) /\ backward_stable 2 (fun _ g => g) K 0 0 (bpow radix2 10) /\
  (forall q, (q < 2)%nat -> f_step_rhs 2 (fun r => (r =? 0)%nat) M (dsub d1 d0) (P 0%nat) (fun q => f_blocks 2 2 1 1 (fun _ => d1) (fun _ _ => d1) (fun _ _ => d1) ex_mesh (2 * 1 + q)%nat) (fun _ => d1) q = d1) /\ P 1%nat 1%nat = d1.
Proof.
  intros P M A K. assert (Z0 : B2 d0 = 0) by reflexivity.
  assert (HK : forall r s, (r < 2)%nat -> (s < 2)%nat -> K r s = if (r =? s)%nat then d1 else d0) by (intros [|[|r]] [|[|s]] Hr Hs; try lia; apply B2SF_inj; vm_compute; reflexivity).
  repeat split; auto; try reflexivity.
  - cbn; lia.
  - intros [|[|r]] [|[|s]] Hr Hs; try lia; apply Nat.leb_le; vm_compute; reflexivity.
  - intros [|[|r]] Hr; try lia; apply Nat.leb_le; vm_compute; reflexivity.
  - rewrite B2_d1, Z0. lra.
  - intros g _ r Hr. cbn [rsum]. rewrite !HK by lia. destruct r as [|[|r]]; try lia; cbn [Nat.eqb]; rewrite B2_d1, Z0; match goal with |- Rabs ?a <= _ => replace a with 0 by ring end; rewrite Rabs_R0; lra.
  - intros [|[|q]] Hq; try lia; apply B2SF_inj; vm_compute; reflexivity.
  - apply B2SF_inj; vm_compute; reflexivity.
Qed.
Print Assumptions C233_data.
Print Assumptions C233_step.
Print Assumptions C233_no_overflow.
