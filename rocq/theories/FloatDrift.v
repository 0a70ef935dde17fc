(* C234: the errors of the parabolic solver in double arithmetic do not amplify over the time steps: in the norm of the mass matrix, the computed columns stay within the sum of the
   residuals (C233) times the step of the exact implicit Euler - Galerkin solution.  The code is that of C233: FloatParabolicModel.v. *)
From Coq Require Import Reals Lra Lia List Bool ZArith.
From Flocq Require Import Core IEEE754.BinarySingleNaN Relative Plus_error.
From Verif Require Import Base RSum SimplexModel FloatCellModel FloatPlaneModel FloatMeasureModel FloatFemModel FloatAssemblyModel FloatLoadModel FloatMassModel FloatFem3Model FloatOperModel FloatGalerkinModel FloatParabolicModel FloatLinspaceModel SymbolsModel SymbolsProps FloatModel FloatProps FloatSearch FloatSplineModel FloatSpline FloatDiffModel FloatDiff FloatCell FloatPlane FloatMeasure FloatFem FloatAssembly FloatLoad FloatMass FloatFem3 FloatOper FloatStepModel FloatStep FloatGalerkin FloatParabolic.
Import ListNotations.
Open Scope R_scope.

(* ---- specification ---- *)
(* u^T M v, and the norm of a symmetric positive matrix *)
Definition qform (n : nat) (M : nat -> nat -> R) (u v : nat -> R) : R := rsum n (fun r => rsum n (fun s => M r s * v s) * u r).
Definition mnorm (n : nat) (M : nat -> nat -> R) (u : nat -> R) : R := sqrt (qform n M u u).

(* ---- the energy of one step ---- *)
Section Energy.
Variables (n : nat) (M : nat -> nat -> R).
Hypothesis Ms : forall r s, M r s = M s r.
Hypothesis Mp : forall u, 0 <= qform n M u u.
Lemma form_sym u v : qform n M u v = qform n M v u.
Proof using Ms.
  unfold qform. rewrite (rsum_ext n _ (fun r => rsum n (fun s => M r s * v s * u r))) by (intros; now rewrite rsum_scal_r). rewrite rsum_swap. apply rsum_ext. intros s _. rewrite <- rsum_scal_r. apply rsum_ext. intros r _. rewrite (Ms r s). ring.
Qed.
Lemma form_line u v t : qform n M (fun r => u r + t * v r) (fun r => u r + t * v r) = qform n M u u + 2 * t * qform n M u v + t * t * qform n M v v.
Proof using Ms.
  assert (L : forall x, qform n M x (fun r => u r + t * v r) = qform n M x u + t * qform n M x v). { intros x. unfold qform. rewrite <- rsum_scal, <- rsum_plus. apply rsum_ext. intros r _. rewrite (rsum_ext n _ (fun s => M r s * u s + t * (M r s * v s))) by (intros; ring). rewrite rsum_plus, rsum_scal. ring. }
  rewrite L, !(form_sym (fun r => u r + t * v r)), !L, (form_sym v u). ring.
Qed.
Lemma form_cauchy u v : qform n M u v <= mnorm n M u * mnorm n M v.
Proof using Ms Mp.
  unfold mnorm. assert (A := Mp u). assert (C := Mp v). set (a := qform n M u u) in *. set (c := qform n M v v) in *. set (b := qform n M u v). destruct (Rle_lt_dec b 0) as [Hb|Hb]; [apply Rle_trans with (1 := Hb), Rmult_le_pos; apply sqrt_pos|].
  assert (Q : forall t, 0 <= a + 2 * t * b + t * t * c) by (intros t; assert (H := Mp (fun r => u r + t * v r)); rewrite form_line in H; exact H).
  rewrite <- sqrt_mult by auto. apply Rsqr_incr_0_var; [|apply sqrt_pos]. rewrite Rsqr_sqrt by (now apply Rmult_le_pos). unfold Rsqr. destruct (Rle_lt_or_eq_dec 0 c C) as [Pc|Zc].
  - assert (H := Q (- (b / c))). replace (a + 2 * - (b / c) * b + - (b / c) * - (b / c) * c) with (a - b * b / c) in H by (field; lra). apply (Rmult_le_compat_r c) in H; [|lra]. replace ((a - b * b / c) * c) with (a * c - b * b) in H by (field; lra). lra.
  - exfalso. assert (H := Q (- ((a + 1) / b))). rewrite <- Zc in H. replace (a + 2 * - ((a + 1) / b) * b + - ((a + 1) / b) * - ((a + 1) / b) * 0) with (- a - 2) in H by (field; lra). lra.
Qed.
Variables (A : nat -> nat -> R) (tau : R) (e e' rho : nat -> R) (fixed : nat -> bool) (R0 : R).
Hypothesis Pt : 0 < tau.
Hypothesis HR : 0 <= R0.
Hypothesis Ap : 0 <= qform n A e' e'.
Hypothesis Z : forall r, (r < n)%nat -> fixed r = true -> e' r = 0.
Hypothesis Row : forall r, (r < n)%nat -> fixed r = false -> Rabs (euler_residual n M A tau e' e 0 r) <= rho r.
Hypothesis Small : rsum n (fun r => if fixed r then 0 else rho r * Rabs (e' r)) <= R0 * mnorm n M e'.
Lemma energy_step : mnorm n M e' <= mnorm n M e + tau * R0.
Proof using All.
  assert (S : rsum n (fun r => euler_residual n M A tau e' e 0 r * e' r) = (qform n M e' e' - qform n M e' e) / tau + qform n A e' e').
  { unfold qform, Rdiv. rewrite <- rsum_minus, <- rsum_scal_r, <- rsum_plus. apply rsum_ext. intros r _. unfold euler_residual. rewrite (rsum_ext n _ (fun s => (M r s * e' s * / tau - M r s * e s * / tau) + A r s * e' s)) by (intros; unfold Rdiv; ring). rewrite rsum_plus, rsum_minus, !rsum_scal_r. ring. }
  assert (L : rsum n (fun r => euler_residual n M A tau e' e 0 r * e' r) <= R0 * mnorm n M e').
  { apply Rle_trans with (2 := Small). apply rsum_le. intros r Hr. destruct (fixed r) eqn:E; [rewrite (Z r Hr E); lra|]. apply Rle_trans with (1 := Rle_abs _). rewrite Rabs_mult. apply Rmult_le_compat_r; [apply Rabs_pos|now apply Row]. }
  assert (C := form_cauchy e' e). assert (N : mnorm n M e' * mnorm n M e' = qform n M e' e') by (apply sqrt_sqrt, Mp). rewrite S in L. assert (P' : 0 <= mnorm n M e') by apply sqrt_pos. assert (P0 : 0 <= mnorm n M e) by apply sqrt_pos. set (x := mnorm n M e') in *. set (y := mnorm n M e) in *.
  assert (D : qform n M e' e' - qform n M e' e <= tau * (R0 * x)). { apply (Rmult_le_reg_r (/ tau)); [now apply Rinv_0_lt_compat|]. replace (tau * (R0 * x) * / tau) with (R0 * x) by (field; lra). unfold Rdiv in L. lra. }
  assert (T := Rmult_le_pos tau R0 ltac:(lra) HR). destruct (Rle_lt_or_eq_dec 0 x P') as [Px|Zx]; [|lra]. apply (Rmult_le_reg_l x); auto. lra.
Qed.
End Energy.

(* ---- the exact mass matrix is symmetric and positive ---- *)
Section Mass.
Variables (d nb n : nat) (w : nat -> double) (phi : nat -> nat -> double) (mesh : list mesh_cell).
Let trace (ec : nat * mesh_cell) (q r : nat) := rsum nb (fun i => if (snd (snd ec) i =? r)%nat then B2 (phi i q) else 0).
Let scale (ec : nat * mesh_cell) := Rabs (volume d (span (fst (snd ec)))) / INR (fact d).
Lemma mass_traces r s : mass d nb n w phi mesh r s = lsum (map (fun ec => rsum n (fun q => B2 (w q) * scale ec * (trace ec q r * trace ec q s))) (numbered mesh)).
Proof using All.
  unfold mass, gathered. apply lsum_map_ext. intros ec _. unfold quadrature. fold (scale ec).
  rewrite (rsum_ext n _ (fun q => rsum nb (fun i => rsum nb (fun j => B2 (w q) * scale ec * ((if (snd (snd ec) i =? r)%nat then B2 (phi i q) else 0) * (if (snd (snd ec) j =? s)%nat then B2 (phi j q) else 0)))))).
  2: { intros q _. unfold trace. rewrite <- rsum_scal_r, <- rsum_scal. apply rsum_ext. intros i _. rewrite <- !rsum_scal. reflexivity. }
  symmetry. rewrite rsum_swap. apply rsum_ext. intros i _. rewrite rsum_swap. apply rsum_ext. intros j _.
  destruct (snd (snd ec) i =? r)%nat, (snd (snd ec) j =? s)%nat; cbn [andb]; [rewrite <- rsum_scal_r; apply rsum_ext; intros; ring|apply rsum_zero; intros; ring..].
Qed.
Lemma mass_sym r s : mass d nb n w phi mesh r s = mass d nb n w phi mesh s r.
Proof using All. rewrite !mass_traces. apply lsum_map_ext. intros ec _. apply rsum_ext. intros. ring. Qed.
Lemma mass_pos N u : (forall q, (q < n)%nat -> 0 <= B2 (w q)) -> 0 <= qform N (mass d nb n w phi mesh) u u.
Proof using All.
  intros Hw. assert (E : qform N (mass d nb n w phi mesh) u u = lsum (map (fun ec => rsum n (fun q => B2 (w q) * scale ec * (rsum N (fun r => trace ec q r * u r) * rsum N (fun r => trace ec q r * u r)))) (numbered mesh))).
  { unfold qform. rewrite (rsum_ext N _ (fun r => lsum (map (fun ec => rsum n (fun q => B2 (w q) * scale ec * (trace ec q r * u r * rsum N (fun s => trace ec q s * u s)))) (numbered mesh)))).
    - rewrite rsum_lsum_swap. apply lsum_map_ext. intros ec _. rewrite rsum_swap. apply rsum_ext. intros q _. rewrite rsum_scal. f_equal. now rewrite rsum_scal_r.
    - intros r _. rewrite (rsum_ext N _ (fun s => lsum (map (fun ec => rsum n (fun q => B2 (w q) * scale ec * (trace ec q r * trace ec q s)) * u s) (numbered mesh)))).
      + rewrite rsum_lsum_swap, Rmult_comm, <- lsum_map_scal. apply lsum_map_ext. intros ec _. rewrite (rsum_ext N _ (fun s => rsum n (fun q => B2 (w q) * scale ec * (trace ec q r * trace ec q s) * u s))) by (intros; now rewrite rsum_scal_r). rewrite rsum_swap, <- rsum_scal. apply rsum_ext. intros q _.
        rewrite (rsum_ext N _ (fun s => B2 (w q) * scale ec * trace ec q r * (trace ec q s * u s))) by (intros; ring). rewrite rsum_scal. ring.
      + intros s _. rewrite mass_traces, Rmult_comm, <- lsum_map_scal. apply lsum_map_ext. intros; ring. }
  rewrite E. assert (G : forall l, 0 <= lsum (map (fun ec => rsum n (fun q => B2 (w q) * scale ec * (rsum N (fun r => trace ec q r * u r) * rsum N (fun r => trace ec q r * u r)))) l)); [|apply G].
  induction l as [|ec l IH]; cbn [map lsum]; [lra|]. apply Rplus_le_le_0_compat; auto. apply rsum_nonneg. intros q Hq. apply Rmult_le_pos; [|apply Rle_0_sqr]. apply Rmult_le_pos; [now apply Hw|]. unfold scale. apply Rmult_le_pos; [apply Rabs_pos|apply Rlt_le, Rinv_0_lt_compat, INR_fact_lt_0].
Qed.
End Mass.

Section C234.
Variables (lu : (nat -> nat -> double) -> (nat -> double) -> nat -> double) (bdy : nat -> bool) (b : nat -> nat -> double) (t0 t1 : double) (u0 : nat -> double).
Variables (left : bool) (nd d nb n m : nat) (w : nat -> double) (g : nat -> nat -> nat -> double) (phi : nat -> nat -> double) (op : f_op) (v : nat -> nat -> double) (mesh : list mesh_cell) (kappa eps delta G : R).
Hypothesis Hd : (d = 2 \/ d = 3)%nat.
Hypothesis Hc : forall e, In e mesh -> good_cell d kappa (fst e) /\ forall q i r, (q < n)%nat -> (i < nb)%nat -> (r < d)%nat -> cell_agradient d (span (fst e)) (fun s => B2 (g q i s)) r <= bpow radix2 150.
Hypothesis HK : 1 <= kappa <= 2 ^ 20.
Hypothesis Hn : (n <= 50)%nat.
Hypothesis Hw : forall q, (q < n)%nat -> fin (w q) = true /\ Rabs (B2 (w q)) <= 1.
Hypothesis Hg : forall q i s, (q < n)%nat -> (s < d)%nat -> fin (g q i s) = true /\ Rabs (B2 (g q i s)) <= 1024.
Hypothesis Hphi : forall i q, (i < nb)%nat -> (q < n)%nat -> fin (phi i q) = true /\ Rabs (B2 (phi i q)) <= 1024.
Hypothesis Hop : small_coefficients d (length mesh * n) op.
Hypothesis Hsize : (op_size op <= 10)%nat.
Hypothesis Hsym : f_symmetric op = true -> symmetric_tensors op.
Hypothesis Hv : forall i k, (k < length mesh * n)%nat -> fin (v i k) = true /\ Rabs (B2 (v i k)) <= 2 ^ 300.
(* no entry of the matrices or of the load has more than m terms *)
Hypothesis Hm : (m <= 2 ^ 20)%nat.
Hypothesis Hmr : forall r s, (r < nd)%nat -> (s < nd)%nat -> (meetings nb mesh r s <= m)%nat.
Hypothesis Hmi : forall r, (r < nd)%nat -> (incidences nb mesh r <= m)%nat.
Hypothesis Hnd : (nd <= 2 ^ 40)%nat.
Hypothesis HT : fin (dsub t1 t0) = true.
Hypothesis HL : B2 t0 < B2 t1.
Hypothesis He : 0 <= eps <= / 4.
Let K := f_step_matrix bdy (f_mass d nb n w phi mesh) (f_dirichlet_matrix true bdy (f_operator left d nb n w g phi op mesh)) (dsub t1 t0).
Let x := f_parabolic lu bdy b t0 t1 u0 left nd d nb n w g phi op v mesh.
Hypothesis Hlu : backward_stable nd lu K eps delta G.
(* the quadrature weights are not negative *)
Hypothesis Hw0 : forall q, (q < n)%nat -> 0 <= B2 (w q).
Let rhs i := f_step_rhs nd bdy (f_mass d nb n w phi mesh) (dsub t1 t0) (x i) (fun q => f_blocks nd d nb n w phi v mesh (nd * S i + q)%nat) (fun q => b q (S i)).
Let X k s := B2 (x k s).
Let tau := B2 t1 - B2 t0.
(* the first degree of freedom and the boundary ones *)
Let fixed r := ((r =? 0)%nat || bdy r)%bool.
(* the bound of C233 on the residual of row r in step i *)
Let defect i r := (4 * eps + (6 * INR nd + 3 * INR n + 140 * kappa + 3 * INR m + 21) * u) * euler_terms nd (amass d nb n w phi mesh) (agalerkin d nb n w g phi op mesh) tau (X (S i)) (X i) (aload d nb n w phi (v (S i)) mesh r) r
    + 4 * INR m * bpow radix2 (-250) * weight nd tau (X (S i)) (X i) + 4 * eta * rsum nd (fun s => 1 + Rabs (X (S i) s) + Rabs (X i s)) + delta.
(* C234: Y is the exact solution of the scheme with the initial value and the boundary values of the computed columns; the operator is not negative; R0 i bounds the defects of step i in the dual norm *)
Theorem C234_drift (Y : nat -> nat -> R) (R0 : nat -> R) k :
  (forall r, (r < nd)%nat -> Y 0%nat r = B2 (u0 r)) -> (forall i r, (i < k)%nat -> (r < nd)%nat -> fixed r = true -> Y (S i) r = X (S i) r) ->
  (forall i r, (i < k)%nat -> (r < nd)%nat -> fixed r = false -> euler_residual nd (mass d nb n w phi mesh) (galerkin d nb n w g phi op mesh) tau (Y (S i)) (Y i) (load d nb n w phi (v (S i)) mesh r) r = 0) ->
  (forall r s, (r < nd)%nat -> (s < nd)%nat -> fin (K r s) = true) -> (forall i q, (i < k)%nat -> (q < nd)%nat -> fin (rhs i q) = true /\ Rabs (B2 (rhs i q)) <= G) ->
  (forall z, (forall r, (r < nd)%nat -> fixed r = true -> z r = 0) -> 0 <= qform nd (galerkin d nb n w g phi op mesh) z z) ->
  (forall i, (i < k)%nat -> 0 <= R0 i /\ forall z, (forall r, (r < nd)%nat -> fixed r = true -> z r = 0) -> rsum nd (fun r => if fixed r then 0 else defect i r * Rabs (z r)) <= R0 i * mnorm nd (mass d nb n w phi mesh) z) ->
  mnorm nd (mass d nb n w phi mesh) (fun r => X k r - Y k r) <= tau * rsum k R0.
Proof using All.
  intros H0 HB HE FK FR HG0 HR. assert (Pt : 0 < tau) by (unfold tau; lra). induction k as [|k IH].
  - cbn [rsum]. rewrite Rmult_0_r. unfold mnorm. replace (qform nd _ _ _) with 0; [rewrite sqrt_0; lra|]. symmetry. unfold qform. apply rsum_zero. intros r Hr. replace (X 0%nat r - Y 0%nat r) with 0; [ring|]. rewrite (H0 r Hr). unfold X, x, f_parabolic. cbn [f_columns]. ring.
  - assert (B0 := IH ltac:(intros; apply HB; auto; lia) ltac:(intros; apply HE; auto; lia) ltac:(intros; apply FR; auto; lia) ltac:(intros; apply HR; lia)). cbn [rsum]. destruct (HR k ltac:(lia)) as [PR SR].
    assert (Z : forall r, (r < nd)%nat -> fixed r = true -> X (S k) r - Y (S k) r = 0) by (intros r Hr E; rewrite (HB k r ltac:(lia) Hr E); ring).
    assert (ST := energy_step nd (mass d nb n w phi mesh) (mass_sym d nb n w phi mesh) (fun z => mass_pos d nb n w phi mesh nd z Hw0) (galerkin d nb n w g phi op mesh) tau (fun r => X k r - Y k r) (fun r => X (S k) r - Y (S k) r) (defect k) fixed (R0 k) Pt PR (HG0 _ Z) Z).
    apply Rle_trans with (mnorm nd (mass d nb n w phi mesh) (fun r => X k r - Y k r) + tau * R0 k); [|lra]. apply ST; [|exact (SR _ Z)]. intros r Hr E.
    assert (EX : euler_residual nd (mass d nb n w phi mesh) (galerkin d nb n w g phi op mesh) tau (fun r => X (S k) r - Y (S k) r) (fun r => X k r - Y k r) 0 r = euler_residual nd (mass d nb n w phi mesh) (galerkin d nb n w g phi op mesh) tau (X (S k)) (X k) (load d nb n w phi (v (S k)) mesh r) r).
    { assert (HY := HE k r ltac:(lia) Hr E). unfold euler_residual in *. rewrite (rsum_ext nd _ (fun s => (mass d nb n w phi mesh r s * (X (S k) s - X k s) / tau + galerkin d nb n w g phi op mesh r s * X (S k) s) - (mass d nb n w phi mesh r s * (Y (S k) s - Y k s) / tau + galerkin d nb n w g phi op mesh r s * Y (S k) s))) by (intros; unfold Rdiv; ring). rewrite rsum_minus. lra. }
    rewrite EX. apply orb_false_iff in E. destruct E as [E1 E2]. apply Nat.eqb_neq in E1.
    exact (C233_step lu bdy b t0 t1 u0 left nd d nb n m w g phi op v mesh kappa eps delta G Hd Hc HK Hn Hw Hg Hphi Hop Hsize Hsym Hv Hm Hmr Hmi Hnd HT HL He Hlu k r Hr E1 E2 (fun s Hs => FK r s Hr Hs) (fun q Hq => FR k q ltac:(lia) Hq)).
Qed.
End C234.
Print Assumptions C234_drift.

(* ---- the hypotheses are met: the heat equation of C233_example, where the exact solution is 1 and the mass of the only free node is 1/2 ---- *)
Example C234_example : let Ma := mass 2 1 1 (fun _ => d1) (fun _ _ => d1) ex_mesh in let A := galerkin 2 1 1 (fun _ => d1) ex_grad (fun _ _ => d1) ex_heat ex_mesh in
  Ma 1%nat 1%nat = / 2 /\ A 1%nat 1%nat = / 2 /\ (forall z, 0 <= qform 2 A z z) /\ (forall c z, 0 <= c -> rsum 2 (fun r => if ((r =? 0)%nat || (r =? 0)%nat)%bool then 0 else c * Rabs (z r)) <= 2 * c * mnorm 2 Ma z) /\
  euler_residual 2 Ma A 1 (fun _ => 1) (fun _ => 1) (load 2 1 1 (fun _ => d1) (fun _ _ => d1) (fun _ => d1) ex_mesh 1) 1 = 0.
Proof.
  intros Ma A. destruct (B2_dbl 1 0 ltac:(cbn; lia) ltac:(lia)) as [F1 E1]. assert (E1' : B2 (dbl 1 0) = 1) by (rewrite <- (Rmult_1_r 1); exact E1). assert (Z0 : B2 d0 = 0) by reflexivity. assert (D1 := B2_d1).
  assert (VV : volume 2 (span unit_cell) = 1) by (unfold volume, span, unit_cell, nodes3, at2; rewrite !Z0, !E1'; ring).
  assert (HM : forall r s, Ma r s = if (1 =? r)%nat && (1 =? s)%nat then / 2 else 0). { intros r s. unfold Ma, mass, gathered, ex_mesh, numbered, quadrature. cbn [length seq List.combine map fst snd rsum lsum fold_right]. rewrite VV, D1, Rabs_R1. destruct ((1 =? r)%nat && (1 =? s)%nat); cbn [fact Nat.mul Nat.add INR]; lra. }
  assert (HA : forall r s, A r s = if (1 =? r)%nat && (1 =? s)%nat then / 2 else 0).
  { intros r s. unfold A, galerkin, gathered, ex_mesh, numbered, integral, ex_heat. cbn [length seq List.combine map fst snd rsum lsum fold_right FloatOper.form]. unfold cell_gradient. cbn [Nat.eqb]. unfold gradient, inverse. cbn [rsum ex_grad Nat.eqb]. rewrite VV, D1, Z0, Rabs_R1. unfold span, unit_cell, nodes3, at2. rewrite ?Z0, ?E1'. destruct r as [|[|r]], s as [|[|s]]; cbn [Nat.eqb andb fact Nat.mul Nat.add INR]; lra. }
  assert (QM : forall z, qform 2 Ma z z = / 2 * (z 1%nat * z 1%nat)) by (intros z; unfold qform; cbn [rsum]; rewrite !HM; cbn [Nat.eqb andb]; ring).
  split; [now rewrite HM|]. split; [now rewrite HA|]. split; [|split].
  - intros z. unfold qform. cbn [rsum]. rewrite !HA. cbn [Nat.eqb andb]. assert (H := Rle_0_sqr (z 1%nat)). unfold Rsqr in H. lra.
  - intros c z Hc. cbn [rsum Nat.eqb orb]. unfold mnorm. rewrite QM. replace (0 + 0 + c * Rabs (z 1%nat)) with (2 * c * (/ 2 * Rabs (z 1%nat))) by field. apply Rmult_le_compat_l; [lra|]. assert (P := Rabs_pos (z 1%nat)). rewrite <- (sqrt_square (/ 2 * Rabs (z 1%nat))) by lra. apply sqrt_le_1_alt. assert (E : Rabs (z 1%nat) * Rabs (z 1%nat) = z 1%nat * z 1%nat) by (rewrite <- Rabs_mult; apply Rabs_pos_eq, Rle_0_sqr). assert (H := Rle_0_sqr (z 1%nat)). unfold Rsqr in H. nra.
  - unfold euler_residual. cbn [rsum]. rewrite !HM, !HA. cbn [Nat.eqb andb]. unfold load, assembled, ex_mesh, numbered, quadrature. cbn [length seq List.combine map fst snd rsum lsum fold_right]. rewrite VV, D1, Rabs_R1. cbn [Nat.eqb fact Nat.mul Nat.add INR]. field.
Qed.
