(* C215: implicit Euler with linear finite elements in dimension 1, 2 and 3. *)
From Coq Require Import QArith Qreals Permutation FunctionalExtensionality.
From Verif Require Import Base RSum SimplexModel SimplexProps LinAlg FieldModel FieldProps MeasureModel MeasureProps FemModel FemProps EvalModel EvalProps
  SolverModel SolverProps FemEnergy FemKernel FemMesh FemPatch FemTime FemConv FemRate FemGrid FemPoincare.
From Verif Require PolyModel PolyProps LagrangeProps QuadModel QuadProps TriSpec TriProofs TriProps FemHeat.
Local Open Scope R_scope.

(* ------------------------------------------------------------------ specification *)
(* u y t solves u_t - laplacian u = f in dimension d; G and H are the first and second derivatives of u in space, ut and utt
   those in time *)
Record heat_flow (d : nat) (u : vec -> R -> R) (G : R -> vec -> vec) (H : R -> vec -> mat) (ut utt f : vec -> R -> R) : Prop := {
  hf_space : forall t, reaction_diffusion d 0 (fun y => u y t) (G t) (H t) (fun y => f y t - ut y t);
  hf_time : forall y t, derivable_pt_lim (u y) t (ut y t);
  hf_time2 : forall y t, derivable_pt_lim (ut y) t (utt y t) }.
(* on the cube [alpha, beta]^d and at the times from ts to te: the bounds on the derivatives *)
Record tame (d : nat) (alpha beta ts te M K L D : R) (H : R -> vec -> mat) (ut utt : vec -> R -> R) : Prop := {
  tm_second : forall t, ts <= t <= te -> second_bounded d alpha beta M (H t);
  tm_lipschitz : forall t, ts <= t <= te -> second_lipschitz d alpha beta K (H t);
  tm_mixed : forall t x y delta, ts <= t <= te -> in_box d alpha beta x -> in_box d alpha beta y -> within d x y delta -> Rabs (ut x t - ut y t) <= L * delta;
  tm_time : forall t x, ts <= t <= te -> in_box d alpha beta x -> Rabs (utt x t) <= D }.
(* the contribution of a step to the square of the error *)
Definition drift (d : nat) (M K L D sigma side h dt : R) : R :=
  let A := slope_rate d M K sigma h in
  let B := h * value_rate d 0 M K sigma h + h * L + dt * D / 2 in
  INR d * (h * A * (h * A)) + poincare d sigma side * (B * B).

(* ------------------------------------------------------------------ proofs *)
Section HeatRate.
Variables (d : nat) (nodes : list vec) (cells : list (list nat)) (pt : list (list nat)) (slv : (nat -> R) -> nat -> R) (rule : QuadModel.rule).
Hypotheses (HG : good_mesh d d nodes cells) (HR : reference d 1 pt slv rule) (HC : TriSpec.conforming cells).
Variables (alpha beta h sigma : R) (bdy : nat -> bool).
Hypotheses (HB : forall a, (a < length nodes)%nat -> in_box d alpha beta (place nodes a)) (HS : shape_regular d nodes cells h sigma) (HF : faces_matched d nodes cells bdy)
  (AB : alpha < beta) (SG : 0 < sigma).
Variables (u : vec -> R -> R) (G : R -> vec -> vec) (H : R -> vec -> mat) (ut utt f : vec -> R -> R) (ts te M K L D : R).
Hypotheses (HH : heat_flow d u G H ut utt f) (HT : tame d alpha beta ts te M K L D H ut utt) (M0 : 0 <= M) (K0 : 0 <= K) (L0 : 0 <= L).
Local Notation P := (problem1 d d nodes cells pt slv rule).
Local Notation N := (length cells).
Local Notation vtx := (vertex nodes cells).
Local Notation id := (id cells).
Local Notation theta := (poincare d sigma (beta - alpha)).
Local Notation heat_op := (DBin OAdd Dt (DNeg Lap)).
Local Notation U t := (fun a => u (place nodes a) t).
Local Notation lam := (lam d nodes cells pt slv rule).
(* the difference quotient of the interpolant against the derivative in time, at a quadrature node *)
Lemma quotient e q t dt : (e < N)%nat -> (q < n_nodes P)%nat -> ts <= t <= te -> ts <= t - dt <= te -> 0 < dt ->
  Rabs (ut (affine P e (node P q)) t - fe_at P (fun a => (u (place nodes a) t - u (place nodes a) (t - dt)) / dt) e (node P q)) <= h * L + dt * D / 2.
Proof.
  intros He Hq Ht Ht' Hdt. assert (Hd := dim_range d nodes cells HG). assert (Hc := regular d nodes cells HG e He).
  destruct (cell_shape d nodes cells HG alpha beta h sigma HB HS e He) as (s & S0 & S1 & Sg & S2 & Sl).
  assert (Hbox : forall i, (i < S d)%nat -> in_box d alpha beta (vtx e i)) by (intros i Hi; apply (HB (id e i)); now apply (id_lt d nodes cells HG alpha beta HB)).
  rewrite (point_combo d nodes cells pt slv rule HG HR alpha beta HB), (value_cmb d nodes cells pt slv rule HG HR).
  assert (Cl := lam_convex d nodes cells pt slv rule HG HR alpha beta HB q Hq). set (l := lam q) in *. set (p := combo d (vtx e) l).
  assert (Pb : in_box d alpha beta p).
  { intros r Hr. unfold p, combo. assert (X : Rabs (cmb d l (fun i => vtx e i r) - (alpha + beta) / 2) <= (beta - alpha) / 2).
    { apply cmb_point; [auto|]. intros i Hi. destruct (Hbox i Hi r Hr). apply Rabs_le. lra. }
    unfold Rabs in X. destruct (Rcase_abs _) in X; lra. }
  rewrite Rabs_minus_sym. apply cmb_point; [auto|]. intros i Hi. change (place nodes (id e i)) with (vtx e i).
  set (y := vtx e i). replace ((u y t - u y (t - dt)) / dt - ut p t) with (- ((u y (t - dt) - u y t - ut y t * (t - dt - t)) / dt) + (ut y t - ut p t)) by (field; lra).
  eapply Rle_trans; [apply Rabs_triang|]. rewrite Rplus_comm. apply Rplus_le_compat.
  - apply Rle_trans with (L * s); [|rewrite (Rmult_comm h); apply Rmult_le_compat_l; lra].
    apply (tm_mixed _ _ _ _ _ _ _ _ _ _ _ _ HT); auto; [now apply Hbox|]. intros r Hr. unfold p, combo, y. rewrite Rabs_minus_sym. apply cmb_point; [auto|]. intros k Hk. now apply S2.
  - rewrite Rabs_Ropp. unfold Rdiv at 1. rewrite Rabs_mult, (Rabs_right (/ dt)) by (apply Rle_ge; left; now apply Rinv_0_lt_compat).
    assert (X := FemHeat.tangent (u y) (ut y) (utt y) ts te D t (t - dt) (hf_time _ _ _ _ _ _ _ HH y) (hf_time2 _ _ _ _ _ _ _ HH y) ltac:(intros z Hz; apply (tm_time _ _ _ _ _ _ _ _ _ _ _ _ HT); [auto|now apply Hbox]) Ht Ht').
    apply (Rmult_le_reg_r dt); [auto|]. rewrite Rmult_assoc, Rinv_l, Rmult_1_r by lra. eapply Rle_trans; [exact X|]. right. field.
Qed.
(* one step of implicit Euler *)
Lemma step_drift i t dt dd gd z w : ts <= t <= te -> ts <= t - dt <= te -> 0 < dt ->
  (forall e q, (e < N)%nat -> (q < n_nodes P)%nat -> dval dd (n_nodes P * e + q)%nat i = f (affine P e (node P q)) t) ->
  (forall a, (a < length nodes)%nat -> bdy a = true -> dval gd a i = u (place nodes a) t) ->
  euler_step P (fun a => bdy a = true) heat_op dt (load_vector P (at_time (Sampled dd) i)) (fun a => dval gd a i) z w ->
  let x := fun a => w a - u (place nodes a) t in
  l2 P x + dt * energy_norm2 P 0 x <= l2 P (fun a => z a - u (place nodes a) (t - dt)) + 2 * dt * ((1 + QuadProps.eps) * mesh_measure d nodes cells * drift d M K L D sigma (beta - alpha) h dt) /\
  l2 P x <= theta * energy_norm2 P 0 x.
Proof.
  intros Ht Ht' Hdt Hdd Hgd Hw x. set (y := fun a => z a - u (place nodes a) (t - dt)). set (n := n_dofs P) in *.
  assert (T := poincare_pos d nodes cells HG alpha beta sigma HB AB SG).
  destruct (C146_first_order d d nodes cells pt slv rule HG HR) as (A1 & _ & _ & _ & _ & A6 & _).
  assert (X0 : forall a, (a < length nodes)%nat -> bdy a = true -> x a = 0) by (intros a Ha Hb; unfold x; rewrite (proj1 (Hw a Ha) Hb), Hgd by auto; ring).
  assert (Lp := C214_poincare d nodes cells pt slv rule HG HR HC alpha beta h sigma bdy HB HS HF ltac:(lra) x X0). split; [|exact Lp].
  set (dq := fun a => (u (place nodes a) t - u (place nodes a) (t - dt)) / dt).
  assert (Form := assembled_form P heat_op ltac:(cbn; auto) A1 ltac:(cbn; auto) ltac:(intros; cbn; auto)).
  assert (Form0 : forall v v', pairing P (assembled P heat_op) v v' = mesh_quadrature P (fun e q => bform P (reaction 0) e q v v')).
  { intros v v'. rewrite Form. unfold mesh_quadrature. apply rsum_ext. intros e _. f_equal. apply rsum_ext. intros q _. f_equal. cbn [bform reaction arith sat sval]. ring. }
  assert (E1 : energy_norm2 P 0 x = pairing P (assembled P heat_op) x x).
  { rewrite Form0. unfold energy_norm2, mesh_quadrature. apply rsum_ext. intros e _. f_equal. apply rsum_ext. intros q _. f_equal. symmetry. apply reaction_form. }
  (* the equation of the step, tested with x *)
  assert (Z : pairing P (mass_entry P) x x - pairing P (mass_entry P) x y + dt * energy_norm2 P 0 x =
    dt * (rsum n (fun a => x a * load_vector P (at_time (Sampled dd) i) a) - pairing P (mass_entry P) x dq - pairing P (assembled P heat_op) x (U t))).
  { rewrite E1, <- pairing_minus_r. rewrite !pairing_row. rewrite <- !rsum_minus, <- !rsum_scal, <- rsum_plus. apply rsum_ext. intros a Ha. change n with (length nodes) in Ha.
    destruct (bdy a) eqn:Eb; [rewrite (X0 a Ha Eb); ring|].
    assert (A := proj2 (Hw a Ha) ltac:(congruence)). rewrite <- A. fold n.
    replace (rsum n (fun b => mass_entry P a b * (x b - y b))) with (dt * (rsum n (fun b => mass_entry P a b * ((w b - z b) / dt)) - rsum n (fun b => mass_entry P a b * dq b))).
    2:{ rewrite <- rsum_minus, <- rsum_scal. apply rsum_ext. intros b _. unfold x, y, dq. field. lra. }
    replace (rsum n (fun b => assembled P heat_op a b * x b)) with (rsum n (fun b => assembled P heat_op a b * w b) - rsum n (fun b => assembled P heat_op a b * u (place nodes b) t)).
    2:{ rewrite <- rsum_minus. apply rsum_ext. intros b _. unfold x. ring. }
    ring. }
  assert (Y := mass_young P x y A1 A6).
  assert (EM : pairing P (mass_entry P) x x = l2 P x) by (rewrite mass_pairing by auto; reflexivity).
  (* the right-hand side *)
  assert (C := consistency d nodes cells pt slv rule HG HR HC 0 (fun y => u y t) (G t) (fun y => f y t - ut y t) alpha beta HB bdy x HF X0). cbv beta in C.
  set (A := slope_rate d M K sigma h). set (B := h * value_rate d 0 M K sigma h + h * L + dt * D / 2). set (En := energy_norm2 P 0 x) in *.
  set (r0 := INR d * (h * A * (h * A)) + theta * (B * B)).
  assert (RHS : rsum n (fun a => x a * load_vector P (at_time (Sampled dd) i) a) - pairing P (mass_entry P) x dq - pairing P (assembled P heat_op) x (U t) <=
    mesh_quadrature P (fun _ _ => r0) + / 4 * En + / (4 * theta) * l2 P x).
  { unfold n. rewrite load_pairing, mass_pairing, Form0 by auto.
    assert (S1 : mesh_quadrature P (fun e q => fvalue P (at_time (Sampled dd) i) e q * fe_at P x e (node P q)) =
      mesh_quadrature P (fun e q => (f (affine P e (node P q)) t - ut (affine P e (node P q)) t) * fe_at P x e (node P q)) + mesh_quadrature P (fun e q => ut (affine P e (node P q)) t * fe_at P x e (node P q))).
    { rewrite <- quadrature_plus. unfold mesh_quadrature. apply rsum_ext. intros e He. f_equal. apply rsum_ext. intros q Hq. f_equal. cbn [at_time fvalue]. rewrite Hdd by auto. ring. }
    rewrite S1.
    assert (S2 : mesh_quadrature P (fun e q => ut (affine P e (node P q)) t * fe_at P x e (node P q)) - mesh_quadrature P (fun e q => fe_at P x e (node P q) * fe_at P dq e (node P q)) =
      mesh_quadrature P (fun e q => (ut (affine P e (node P q)) t - fe_at P dq e (node P q)) * fe_at P x e (node P q))).
    { replace (mesh_quadrature P (fun e q => fe_at P x e (node P q) * fe_at P dq e (node P q))) with (- mesh_quadrature P (fun e q => -1 * (fe_at P x e (node P q) * fe_at P dq e (node P q)))) by (rewrite quadrature_scal; ring).
      unfold Rminus at 1. rewrite Ropp_involutive, <- quadrature_plus. unfold mesh_quadrature. apply rsum_ext. intros e He. f_equal. apply rsum_ext. intros q Hq. f_equal. ring. }
    match goal with |- ?a + ?b - ?c - ?e <= _ => replace (a + b - c - e) with ((a - e) + (b - c)) by ring end. rewrite S2, C.
    replace (- mesh_quadrature P (fun e q => mismatch d 0 (fun y => u y t) (G t) (fun y => f y t - ut y t) (vtx e) (fun i => x (id e i)) (lam q))) with
      (mesh_quadrature P (fun e q => -1 * mismatch d 0 (fun y => u y t) (G t) (fun y => f y t - ut y t) (vtx e) (fun i => x (id e i)) (lam q))) by (rewrite quadrature_scal; ring).
    unfold En. rewrite energy_split by auto. unfold l2. rewrite <- !quadrature_scal, <- !quadrature_plus. apply quadrature_le; auto. intros e q He Hq.
    assert (Z1 := cell_estimate d nodes cells pt slv rule HG HR 0 _ _ _ _ alpha beta M K h sigma (hf_space _ _ _ _ _ _ _ HH t) (tm_second _ _ _ _ _ _ _ _ _ _ _ _ HT t Ht) (tm_lipschitz _ _ _ _ _ _ _ _ _ _ _ _ HT t Ht) M0 K0 ltac:(lra) HB HS x e q He Hq).
    fold A in Z1. set (mm := mismatch _ _ _ _ _ _ _ _) in *.
    assert (Z2 : -1 * mm <= Rabs mm) by (unfold Rabs; destruct (Rcase_abs mm); lra).
    assert (Q1 := quotient e q t dt He Hq Ht Ht' Hdt). fold dq in Q1. set (qq := ut _ t - _) in *.
    rewrite (value_cmb d nodes cells pt slv rule HG HR). set (v := cmb d (lam q) (fun i => x (id e i))) in *.
    assert (Q2 : qq * v <= (h * L + dt * D / 2) * Rabs v) by (eapply Rle_trans; [apply Rle_abs|]; rewrite Rabs_mult; apply Rmult_le_compat_r; [apply Rabs_pos|auto]).
    assert (Y1 := steep_young d (2 * (h * A)) (vtx e) (fun i => x (id e i))).
    assert (Y2 := value_young_ theta B v T). set (S := steep _ _ _) in *. set (DD := rsum d _) in *. unfold r0.
    apply Rle_trans with (/ 2 * (2 * (h * A) * S) + B * Rabs v).
    - eapply Rle_trans; [apply Rplus_le_compat; [eapply Rle_trans; [exact Z2|exact Z1]|exact Q2]|]. right. unfold B. field.
    - eapply Rle_trans; [apply Rplus_le_compat; [apply Rmult_le_compat_l; [lra|exact Y1]|exact Y2]|]. right. field. lra. }
  assert (L2 : / (4 * theta) * l2 P x <= En / 4).
  { apply Rle_trans with (/ (4 * theta) * (theta * En)); [apply Rmult_le_compat_l; [left; apply Rinv_0_lt_compat; lra|auto]|right; field; lra]. }
  assert (R0 : 0 <= r0).
  { apply Rplus_le_le_0_compat; apply Rmult_le_pos; try apply Rle_0_sqr; [apply pos_INR|lra]. }
  assert (Q := quadrature_const d nodes cells pt slv rule HG HR r0 R0). change (drift d M K L D sigma (beta - alpha) h dt) with r0.
  set (rhs := rsum n _ - _ - _) in *. set (C0 := (1 + QuadProps.eps) * mesh_measure d nodes cells * r0) in *.
  assert (F1 : rhs <= C0 + En / 2) by lra. apply (Rmult_le_compat_l dt) in F1; [|lra]. rewrite EM in Z. lra.
Qed.
(* the error at the j-th time, as a finite element function *)
Definition error_at (times : list R) (ws : list vec) (j : nat) : nat -> R := fun a => nth j ws (fun _ => 0) a - u (place nodes a) (nth j times 0).
(* C215: the heat equation with the boundary values of u and f sampled at the quadrature nodes.  The square of the L2 norm of the error
   plus the energy dissipated by the error is at most its initial value plus a term of order h^2 + dt^2; and the initial
   error is forgotten at a geometric rate, so that the bound does not grow with time. *)
Theorem C215_heat lu s dd t0 t1 : exact lu -> complete lu -> bdy 0%nat = true -> nodes <> [] ->
  (forall a, (a < length nodes)%nat -> exists c, In c cells /\ In a c) ->
  diff_op s = DBin OAdd Dt (DNeg Lap) -> forcing_data s = Sampled dd -> source_ok P (Sampled dd) -> (dcols dd = length (time_domain s))%nat ->
  nth_error (time_domain s) 0 = Some t0 -> nth_error (time_domain s) 1 = Some t1 -> uniform (time_domain s) -> (forall t, In t (time_domain s) -> ts <= t <= te) ->
  fst (initial_condition s) = length nodes -> enough_data P (boundary_data s) (dcols dd) ->
  (forall i t e q, nth_error (time_domain s) i = Some t -> (e < length cells)%nat -> (q < n_nodes P)%nat -> dval dd (n_nodes P * e + q)%nat i = f (affine P e (node P q)) t) ->
  (forall i t a, nth_error (time_domain s) i = Some t -> (a < length nodes)%nat -> bdy a = true -> dval (boundary_data s) a i = u (place nodes a) t) ->
  exists s1 s2, init P true s = Ok s1 /\ solve P bdy true lu s1 = Ok s2 /\ success s2 = true /\ length (solution s2) = length (time_domain s) /\
    nth_error (solution s2) 0 = Some (snd (initial_condition s)) /\
    let e0 := l2 P (fun a => snd (initial_condition s) a - u (place nodes a) t0) in
    let C := (1 + QuadProps.eps) * mesh_measure d nodes cells * drift d M K L D sigma (beta - alpha) h (t1 - t0) in
    forall i t w, nth_error (time_domain s) i = Some t -> nth_error (solution s2) i = Some w ->
      l2 P (fun a => w a - u (place nodes a) t) + (t1 - t0) * rsum i (fun j => energy_norm2 P 0 (error_at (time_domain s) (solution s2) (S j))) <= e0 + 2 * (t - t0) * C /\
      l2 P (fun a => w a - u (place nodes a) t) <= e0 / (1 + (t1 - t0) / theta) ^ i + 2 * theta * C.
Proof.
  intros Hlu Hco Hb Hne Hcov Eop Ef Hs Em Et0 Et1 Hun Hts Hic Hg Hdata Hbd.
  assert (Hm : (2 <= dcols dd)%nat) by (rewrite Em; apply (nth_error_Some (time_domain s) 1); congruence).
  destruct (C150_mesh d d nodes cells pt slv rule HG HR bdy lu s dd Hlu Hco Hb Hne Hcov) as (s1 & s2 & E1 & E2 & K1 & K2 & (K3 & K4) & _); rewrite ?Eop, ?Ef; auto.
  { cbn. auto. } { cbn. auto. } { constructor; constructor. }
  exists s1, s2. do 5 (split; [assumption|]). intros e0 C.
  assert (T := poincare_pos d nodes cells HG alpha beta sigma HB AB SG).
  destruct (C146_first_order d d nodes cells pt slv rule HG HR) as (_ & _ & _ & _ & _ & A6 & _).
  destruct (Hun 0%nat t0 t1 Et0 Et1) as [Hlt _]. set (dt := t1 - t0) in *. assert (Hdt : 0 < dt) by (unfold dt; lra).
  assert (C0 : 0 <= C).
  { unfold C. apply Rmult_le_pos; [apply Rmult_le_pos|].
    - unfold QuadProps.eps. assert (X : 0 < 10 ^ 15) by lra. revert X. generalize (10 ^ 15). intros z X. assert (0 < / z) by now apply Rinv_0_lt_compat. unfold Rdiv. lra.
    - apply rsum_nonneg. intros e He. left. now apply (proj1 A6).
    - unfold drift. cbv zeta. apply Rplus_le_le_0_compat; apply Rmult_le_pos; try apply Rle_0_sqr; [apply pos_INR|lra]. }
  assert (P1 : 0 < dt / theta) by (now apply Rdiv_lt_0_compat). set (k := 1 + dt / theta) in *.
  induction i as [|i IH]; intros t w Et Ew.
  - rewrite Et0 in Et. injection Et as <-. rewrite K2 in Ew. injection Ew as <-. fold e0. cbn [rsum pow].
    assert (0 <= theta * C) by (apply Rmult_le_pos; lra). split; [lra|]. unfold Rdiv. rewrite Rinv_1. lra.
  - assert (Li : (S i < length (time_domain s))%nat) by (apply nth_error_Some; congruence).
    destruct (nth_error (time_domain s) i) as [r|] eqn:Er; [|apply nth_error_None in Er; lia].
    destruct (nth_error (solution s2) i) as [z|] eqn:Ez; [|apply nth_error_None in Ez; lia].
    destruct (Hun i r t Er Et) as [Hrt Hd]. specialize (Hd t0 t1 Et0 Et1). fold dt in Hd.
    assert (Hr := Hts r (nth_error_In _ _ Er)). assert (Ht := Hts t (nth_error_In _ _ Et)).
    assert (St := K4 i r t z w Er Et Ez Ew). rewrite Eop in St.
    assert (Er' : t - dt = r) by lra.
    destruct (step_drift (S i) t dt dd (boundary_data s) z w Ht ltac:(lra) Hdt) as [SD SP].
    { intros e q He Hq. now apply Hdata. } { intros a Ha Ba. now apply Hbd. } { rewrite <- Hd. exact St. }
    cbv zeta in SD, SP. rewrite Er' in SD. fold C in SD.
    assert (Ee : error_at (time_domain s) (solution s2) (S i) = fun a => w a - u (place nodes a) t).
    { apply functional_extensionality. intros a. unfold error_at. now rewrite (nth_error_nth _ _ _ Ew), (nth_error_nth _ _ _ Et). }
    cbn [rsum]. rewrite Ee. destruct (IH r z eq_refl eq_refl) as [I1 I2].
    set (En := energy_norm2 P 0 _) in *. set (X := l2 P (fun a => w a - u (place nodes a) t)) in *. set (Y := l2 P (fun a => z a - u (place nodes a) r)) in *.
    split.
    + replace (t - t0) with ((r - t0) + dt) by lra. set (Sm := rsum i _) in *. rewrite Rmult_plus_distr_l. lra.
    + assert (F : k * X <= Y + 2 * dt * C).
      { unfold k. assert (F1 : dt / theta * X <= dt * En) by (apply Rle_trans with (dt / theta * (theta * En)); [apply Rmult_le_compat_l; lra|right; field; lra]). lra. }
      assert (k1 : 1 < k) by (unfold k; lra). assert (kp : 0 < k ^ i) by (apply pow_lt; lra).
      apply (Rmult_le_reg_l k); [lra|]. eapply Rle_trans; [exact F|]. cbn [pow].
      replace (k * (e0 / (k * k ^ i) + 2 * theta * C)) with (e0 / k ^ i + 2 * theta * C + 2 * dt * C) by (unfold k at 3; unfold k in kp |- *; field; split; [|lra]; apply Rgt_not_eq; lra). lra.
Qed.
End HeatRate.

Lemma energy_nonneg d nodes cells pt slv rule v : good_mesh d d nodes cells -> reference d 1 pt slv rule -> 0 <= energy_norm2 (problem1 d d nodes cells pt slv rule) 0 v.
Proof.
  intros HG HR. set (P := problem1 d d nodes cells pt slv rule). destruct (C146_first_order d d nodes cells pt slv rule HG HR) as (_ & _ & _ & _ & _ & A6 & _).
  destruct A6 as [Hm Hw]. apply rsum_nonneg. intros e He. apply Rmult_le_pos; [left; auto|]. apply rsum_nonneg. intros q Hq.
  apply Rmult_le_pos; [left; auto|]. rewrite Rmult_0_l, Rplus_0_r. apply rsum_nonneg. intros r _. apply Rle_0_sqr.
Qed.

(* ------------------------------------------------------------------ decay *)
(* C215: without a source and with zero boundary values the L2 norm of the discrete solution decays geometrically, at a rate which
   does not depend on the mesh *)
Theorem C215_decay d nodes cells pt slv rule : good_mesh d d nodes cells -> reference d 1 pt slv rule -> TriSpec.conforming cells ->
  let P := problem1 d d nodes cells pt slv rule in
  forall alpha beta h sigma bdy, (forall a, (a < length nodes)%nat -> in_box d alpha beta (place nodes a)) -> shape_regular d nodes cells h sigma -> faces_matched d nodes cells bdy ->
  alpha < beta -> 0 < sigma ->
  forall lu s dd t0 t1, exact lu -> complete lu -> bdy 0%nat = true -> nodes <> [] ->
  (forall a, (a < length nodes)%nat -> exists c, In c cells /\ In a c) ->
  diff_op s = DBin OAdd Dt (DNeg Lap) -> forcing_data s = Sampled dd -> source_ok P (Sampled dd) -> (dcols dd = length (time_domain s))%nat ->
  nth_error (time_domain s) 0 = Some t0 -> nth_error (time_domain s) 1 = Some t1 -> uniform (time_domain s) ->
  fst (initial_condition s) = length nodes -> enough_data P (boundary_data s) (dcols dd) ->
  (forall j i, dval dd j i = 0) -> (forall a i, (a < length nodes)%nat -> bdy a = true -> dval (boundary_data s) a i = 0) ->
  exists s1 s2, init P true s = Ok s1 /\ solve P bdy true lu s1 = Ok s2 /\ success s2 = true /\ length (solution s2) = length (time_domain s) /\
    forall i w, nth_error (solution s2) i = Some w ->
      l2 P w <= l2 P (snd (initial_condition s)) / (1 + (t1 - t0) / poincare d sigma (beta - alpha)) ^ i.
Proof.
  intros HG HR HC P alpha beta h sigma bdy HB HS HF AB SG lu s dd t0 t1 Hlu Hco Hb Hne Hcov Eop Ef Hs Em Et0 Et1 Hun Hic Hg Hz Hbz.
  assert (Rg : exists ts te, forall t, In t (time_domain s) -> ts <= t <= te).
  { clear. induction (time_domain s) as [|a l (b & c & Q)]; [exists 0, 0; intros t []|]. exists (Rmin a b), (Rmax a c). intros t [<-|Ht].
    - split; [apply Rmin_l|apply Rmax_l].
    - destruct (Q t Ht). split; [eapply Rle_trans; [apply Rmin_r|]; lra|eapply Rle_trans; [|apply Rmax_r]; lra]. }
  destruct Rg as (ts & te & Rg).
  assert (HH : heat_flow d (fun _ _ => 0) (fun _ _ _ => 0) (fun _ _ _ _ => 0) (fun _ _ => 0) (fun _ _ => 0) (fun _ _ => 0)).
  { split.
    - intros t. split.
      + intros p v z. rewrite rsum_zero by (intros; ring). apply derivable_pt_lim_const.
      + intros r Hr p v z. rewrite rsum_zero by (intros; ring). apply derivable_pt_lim_const.
      + intros x. rewrite rsum_zero by auto. ring.
    - intros y t. apply derivable_pt_lim_const.
    - intros y t. apply derivable_pt_lim_const. }
  assert (HT : tame d alpha beta ts te 0 0 0 0 (fun _ _ _ _ => 0) (fun _ _ => 0) (fun _ _ => 0)).
  { split; intros; try (intros ? **); rewrite ?Rminus_0_r, ?Rabs_R0; lra. }
  destruct (C215_heat d nodes cells pt slv rule HG HR HC alpha beta h sigma bdy HB HS HF AB SG _ _ _ _ _ _ ts te 0 0 0 0 HH HT ltac:(lra) ltac:(lra) ltac:(lra)
    lu s dd t0 t1 Hlu Hco Hb Hne Hcov Eop Ef Hs Em Et0 Et1 Hun Rg Hic Hg) as (s1 & s2 & E1 & E2 & E3 & E4 & E5 & Hw).
  { intros i t e q _ _ _. apply Hz. } { intros i t a _ Ha Ba. now apply Hbz. }
  exists s1, s2. do 4 (split; [assumption|]). intros i w Ew. cbv zeta in Hw.
  assert (Li : (i < length (time_domain s))%nat) by (rewrite <- E4; apply nth_error_Some; congruence).
  destruct (nth_error (time_domain s) i) as [t|] eqn:Et; [|apply nth_error_None in Et; lia].
  destruct (Hw i t w Et Ew) as [_ B].
  assert (Fz : forall v : nat -> R, (fun a => v a - 0) = v) by (intros v; apply functional_extensionality; intros a; ring). rewrite !Fz in B.
  replace (drift d 0 0 0 0 sigma (beta - alpha) h (t1 - t0)) with 0 in B by (unfold drift, slope_rate, value_rate; cbv zeta; field). rewrite Rmult_0_r, Rmult_0_r, Rplus_0_r in B. exact B.
Qed.

(* ------------------------------------------------------------------ an example *)
(* u = exp (- 2 t) sin x sin y on the unit square divided in 2 m^2 triangles, with k steps from time 0 to time 1; the problem object
   with its sampled data (q is the number of quadrature nodes of a cell) *)
Definition plate (m k q : nat) : pde :=
  {| diff_op := DBin OAdd Dt (DNeg Lap); forcing_data := Sampled {| drows := q * length (square_cells m); dcols := S k; dval := fun _ _ => 0 |}; time_domain := FemHeat.times k;
     initial_condition := ((S m * S m)%nat, fun a => wave (spot_ m a));
     boundary_data := {| drows := S m * S m; dcols := S k; dval := fun a j => exp (- (2 * (INR j / INR k))) * wave (spot_ m a) |};
     is_init := false; success := false; stiff := fun _ _ => 0; SolverModel.mass := fun _ _ => 0; force := {| dsize := 0; dcoef := fun _ => None |}; solution := [] |}.
Lemma dexp2 t : derivable_pt_lim (fun t => exp (- (2 * t))) t (- 2 * exp (- (2 * t))).
Proof.
  assert (A : derivable_pt_lim (fun z => - (2 * z)) t (- 2)) by (apply (derivable_pt_lim_ext (fun z => 0 + - 2 * z)); [intros; ring|apply FemRate.dline]).
  assert (X := derivable_pt_lim_comp _ exp t _ _ A (derivable_pt_lim_exp (- (2 * t)))). rewrite Rmult_comm. exact X.
Qed.
Lemma dtime2 a b t : derivable_pt_lim (fun t => a * exp (- (2 * t)) * b) t (- 2 * a * exp (- (2 * t)) * b).
Proof.
  replace (- 2 * a * exp (- (2 * t)) * b) with (a * b * (- 2 * exp (- (2 * t)))) by ring.
  apply (derivable_pt_lim_ext (mult_real_fct (a * b) (fun t => exp (- (2 * t))))); [intros x; unfold mult_real_fct; ring|]. apply derivable_pt_lim_scal, dexp2.
Qed.
Lemma gradient_scal c d (g : vec -> R) G : gradient_of d g G -> gradient_of d (fun x => c * g x) (fun x r => c * G x r).
Proof.
  intros HG p v s. specialize (HG p v s). rewrite (rsum_ext _ _ (fun r => c * (G (along p v s) r * v r))) by (intros; ring). rewrite rsum_scal.
  exact (derivable_pt_lim_scal _ c s _ HG).
Qed.
Lemma plate_flow : heat_flow 2 (fun y t => 1 * exp (- (2 * t)) * wave y) (fun t y r => exp (- (2 * t)) * wave1 y r) (fun t y r s => exp (- (2 * t)) * wave2 y r s)
  (fun y t => - 2 * 1 * exp (- (2 * t)) * wave y) (fun y t => - 2 * (- 2 * 1) * exp (- (2 * t)) * wave y) (fun _ _ => 0).
Proof.
  split.
  - intros t. destruct wave_solves as [A B _]. split.
    + replace (fun y => 1 * exp (- (2 * t)) * wave y) with (fun y => exp (- (2 * t)) * wave y) by (apply functional_extensionality; intros; ring). now apply gradient_scal.
    + intros r Hr. apply (gradient_scal _ 2 (fun x => wave1 x r)). now apply B.
    + intros x. unfold wave. cbn [rsum wave2]. ring.
  - intros y t. apply dtime2.
  - intros y t. apply dtime2.
Qed.
Lemma wave_abs x : Rabs (wave x) <= 1.
Proof. apply prod_abs; apply sin_abs. Qed.
Lemma wave_lip x y delta : within 2 x y delta -> Rabs (wave x - wave y) <= 2 * delta.
Proof.
  intros Hw. assert (D0 := Hw 0%nat ltac:(lia)). assert (D1 := Hw 1%nat ltac:(lia)).
  apply prod_lip; [apply sin_abs|apply sin_abs|exact (Rle_trans _ _ _ (sin_lip _ _) D0)|exact (Rle_trans _ _ _ (sin_lip _ _) D1)].
Qed.
Lemma fade2 t z b : 0 <= t -> Rabs z <= b -> Rabs (exp (- (2 * t)) * z) <= b.
Proof.
  intros Ht Hz. destruct (FemHeat.fading (2 * t) ltac:(lra)) as [E0 E1]. rewrite Rabs_mult, (Rabs_right (exp _)) by lra. assert (Z := Rabs_pos z).
  apply Rle_trans with (1 * Rabs z); [apply Rmult_le_compat_r; lra|lra].
Qed.
Lemma plate_tame : tame 2 0 1 0 1 1 2 4 4 (fun t y r s => exp (- (2 * t)) * wave2 y r s) (fun y t => - 2 * 1 * exp (- (2 * t)) * wave y) (fun y t => - 2 * (- 2 * 1) * exp (- (2 * t)) * wave y).
Proof.
  split.
  - intros t Ht x r s Hx Hr Hs. apply fade2; [lra|]. now apply wave_bounded.
  - intros t Ht x y delta r s Hx Hy Hw Hr Hs. rewrite <- Rmult_minus_distr_l. apply fade2; [lra|]. now apply wave_lipschitz.
  - intros t x y delta Ht Hx Hy Hw. replace (- 2 * 1 * exp (- (2 * t)) * wave x - - 2 * 1 * exp (- (2 * t)) * wave y) with (exp (- (2 * t)) * (- (2 * (wave x - wave y)))) by ring.
    apply fade2; [lra|]. assert (Z := wave_lip x y delta Hw). rewrite Rabs_Ropp, Rabs_mult, (Rabs_right 2) by lra. lra.
  - intros t x Ht Hx. replace (- 2 * (- 2 * 1) * exp (- (2 * t)) * wave x) with (exp (- (2 * t)) * (4 * wave x)) by ring. apply fade2; [lra|].
    assert (Z := wave_abs x). rewrite Rabs_mult, (Rabs_right 4) by lra. lra.
Qed.
Lemma square_covered m a : (0 < m)%nat -> (a < S m * S m)%nat -> exists c, In c (square_cells m) /\ In a c.
Proof.
  intros Hm Ha. destruct (node_at m Hm a Ha) as (i & j & Hi & Hj & ->).
  destruct (Nat.eq_dec i m) as [->|Ni]; [destruct (Nat.eq_dec j m) as [->|Nj]|destruct (Nat.eq_dec j m) as [->|Nj]].
  - destruct m as [|k]; [lia|]. exists (triangle_ (S k) k k 0). split; [apply triangle_in; lia|]. unfold triangle_. cbn [Nat.eqb In]. tauto.
  - destruct m as [|k]; [lia|]. exists (triangle_ (S k) k j 0). split; [apply triangle_in; lia|]. unfold triangle_. cbn [Nat.eqb In]. tauto.
  - destruct m as [|k]; [lia|]. exists (triangle_ (S k) i k 1). split; [apply triangle_in; lia|]. unfold triangle_. cbn [Nat.eqb In]. tauto.
  - exists (triangle_ m i j 0). split; [apply triangle_in; lia|]. unfold triangle_. cbn [Nat.eqb In]. tauto.
Qed.
(* the square of the L2 norm of the error at every time *)
Theorem C215_plate m k pt slv rule lu : (0 < m)%nat -> (0 < k)%nat -> reference 2 1 pt slv rule -> exact lu -> complete lu ->
  let P := problem1 2 2 (square_nodes m) (square_cells m) pt slv rule in
  exists s1 s2, init P true (plate m k (n_nodes P)) = Ok s1 /\ solve P (border m) true lu s1 = Ok s2 /\ success s2 = true /\ length (solution s2) = S k /\
    forall j w, nth_error (solution s2) j = Some w ->
      l2 P (fun a => w a - exp (- (2 * (INR j / INR k))) * wave (place (square_nodes m) a)) <= 171200 / (INR m * INR m) + 3460 / (INR k * INR k).
Proof.
  intros Hm Hk HR Hlu Hco P. assert (Xm : 1 <= INR m) by (change 1 with (INR 1); apply le_INR; lia). assert (Xk : 1 <= INR k) by (change 1 with (INR 1); apply le_INR; lia).
  assert (Lt : length (FemHeat.times k) = S k) by (unfold FemHeat.times; now rewrite map_length, seq_length).
  destruct (C215_heat 2 (square_nodes m) (square_cells m) pt slv rule (square_good m Hm) HR (square_conforming m Hm) 0 1 (1 / INR m) 1 (border m)
    (square_box m Hm) (square_shape m Hm) (square_faces m Hm) ltac:(lra) ltac:(lra) _ _ _ _ _ _ 0 1 1 2 4 4 plate_flow plate_tame ltac:(lra) ltac:(lra) ltac:(lra))
    with (lu := lu) (s := plate m k (n_nodes P)) (dd := {| drows := n_nodes P * length (square_cells m); dcols := S k; dval := fun _ _ => 0 |}) (t0 := 0 / INR k) (t1 := 1 / INR k)
    as (s1 & s2 & E1 & E2 & E3 & E4 & E5 & Hw).
  - auto.
  - auto.
  - unfold border. rewrite Nat.div_0_l by lia. reflexivity.
  - discriminate.
  - intros a Ha. rewrite square_length in Ha. now apply square_covered.
  - reflexivity.
  - reflexivity.
  - split; [cbn; lia|]. cbn [at_time forcing_ok drows]. apply le_n.
  - cbn [dcols plate time_domain]. now rewrite Lt.
  - apply (FemHeat.times_at k 0). lia.
  - apply (FemHeat.times_at k 1). lia.
  - now apply FemHeat.times_uniform.
  - intros t. now apply FemHeat.times_range.
  - cbn [plate initial_condition fst]. now rewrite square_length.
  - split; [|cbn; lia]. change (length (square_nodes m) <= S m * S m)%nat. rewrite square_length. lia.
  - reflexivity.
  - intros j t a Ej Ha _. apply FemHeat.times_nth in Ej as [_ ->]. rewrite square_length in Ha. rewrite place_spot by auto. cbn [plate boundary_data dval]. ring.
  - exists s1, s2. do 3 (split; [assumption|]). split; [rewrite E4; exact Lt|]. intros j w Ew. cbv zeta in Hw.
    assert (Lj : (j <= k)%nat) by (assert (Q : (j < length (solution s2))%nat) by (apply nth_error_Some; congruence); rewrite E4 in Q; cbn [plate time_domain] in Q; lia).
    destruct (Hw j _ w (FemHeat.times_at k j Lj) Ew) as [B _]. rewrite (square_measure m Hm) in B.
    destruct (C146_first_order 2 2 (square_nodes m) (square_cells m) pt slv rule (square_good m Hm) HR) as (A1 & _ & _ & _ & _ & A6 & _).
    assert (Z : l2 P (fun a => snd (initial_condition (plate m k (n_nodes P))) a - 1 * exp (- (2 * (0 / INR k))) * wave (place (square_nodes m) a)) = 0).
    { rewrite (l2_ext P _ (fun _ => 0 * 0) A1); [rewrite FemHeat.l2_scal; ring|].
      intros a Ha. change (n_dofs P) with (length (square_nodes m)) in Ha. rewrite square_length in Ha. rewrite place_spot by lia. cbn [plate initial_condition snd].
      replace (- (2 * (0 / INR k))) with 0 by (field; lra). rewrite exp_0. ring. }
    unfold P in B, Z. rewrite Z in B.
    assert (EE : (fun a => w a - exp (- (2 * (INR j / INR k))) * wave (place (square_nodes m) a)) = (fun a => w a - 1 * exp (- (2 * (INR j / INR k))) * wave (place (square_nodes m) a))) by (apply functional_extensionality; intros; ring).
    unfold P. rewrite EE. clear EE. set (X := l2 _ _) in *.
    set (Sm := rsum j _) in B. assert (S0 : 0 <= Sm) by (apply rsum_nonneg; intros i Hi; apply energy_nonneg; [apply square_good; auto|auto]).
    destruct (FemHeat.times_range k (INR j / INR k) Hk) as [T0 T1]; [eapply nth_error_In, FemHeat.times_at, Lj|].
    replace (INR j / INR k - 0 / INR k) with (INR j / INR k) in B by (field; lra). replace (1 / INR k - 0 / INR k) with (1 / INR k) in B by (field; lra).
    assert (Hdt : 0 < 1 / INR k) by (apply Rdiv_lt_0_compat; lra).
    assert (Hz : 0 < 1 / INR m <= 1). { split; [apply Rdiv_lt_0_compat; lra|]. apply (Rmult_le_reg_r (INR m)); [lra|]. unfold Rdiv. rewrite Rmult_assoc, Rinv_l by lra. lra. }
    replace (171200 / (INR m * INR m)) with (171200 * (1 / INR m * (1 / INR m))) by (field; lra). replace (3460 / (INR k * INR k)) with (3460 * (1 / INR k * (1 / INR k))) by (field; lra).
    assert (SS : 0 <= 1 / INR k * Sm) by (apply Rmult_le_pos; lra).
    apply Rle_trans with (2 * (INR j / INR k) * ((1 + QuadProps.eps) * 1 * drift 2 1 2 4 4 1 (1 - 0) (1 / INR m) (1 / INR k))); [lra|]. clear B SS S0 Hw E5.
    revert Hz Hdt T0 T1. generalize (1 / INR m) (1 / INR k) (INR j / INR k). intros z dt T Hz Hdt T0 T1.
    assert (Ep : 0 <= QuadProps.eps <= 1 / 10000).
    { unfold QuadProps.eps. assert (Y : 10000 * 2 <= 10 ^ 15) by lra. assert (Y0 : 0 < 10 ^ 15) by lra. revert Y Y0. generalize (10 ^ 15). intros y Y Y0. split; [apply Rmult_le_pos; [lra|left; now apply Rinv_0_lt_compat]|].
      apply (Rmult_le_reg_r y); [auto|]. unfold Rdiv at 1. rewrite Rmult_assoc, Rinv_l by lra. lra. }
    assert (zz : 0 <= z * z) by apply Rle_0_sqr. assert (tt : 0 <= dt * dt) by apply Rle_0_sqr.
    assert (Dr : 0 <= drift 2 1 2 4 4 1 (1 - 0) z dt <= 85472 * (z * z) + 1728 * (dt * dt)).
    { unfold drift. cbv zeta. assert (Et : poincare 2 1 (1 - 0) = 216) by (unfold poincare; cbn [INR]; ring). rewrite Et.
      assert (A : 0 <= slope_rate 2 1 2 1 z <= 20) by (unfold slope_rate; cbn [INR]; lra). assert (B : value_rate 2 0 1 2 1 z = 10) by (unfold value_rate; cbn [INR]; field). rewrite B.
      revert A. generalize (slope_rate 2 1 2 1 z). intros a A. cbn [INR]. assert (A2 : a * a <= 20 * 20) by (apply Rmult_le_compat; lra). assert (A0 : 0 <= a * a) by apply Rle_0_sqr.
      replace (z * a * (z * a)) with (z * z * (a * a)) by ring.
      assert (A3 : z * z * (a * a) <= z * z * (20 * 20)) by (apply Rmult_le_compat_l; lra). assert (A4 : 0 <= z * z * (a * a)) by (apply Rmult_le_pos; lra).
      replace (z * 10 + z * 4 + dt * 4 / 2) with (14 * z + 2 * dt) by field. assert (Sq := Rle_0_sqr (14 * z - 2 * dt)). assert (Sq2 := Rle_0_sqr (14 * z + 2 * dt)). unfold Rsqr in Sq, Sq2.
      assert (Sq3 : (14 * z + 2 * dt) * (14 * z + 2 * dt) <= 392 * (z * z) + 8 * (dt * dt)) by lra. lra. }
    revert Dr Ep. generalize (drift 2 1 2 4 4 1 (1 - 0) z dt) QuadProps.eps. intros dr ep Dr Ep.
    assert (F1 : (1 + ep) * 1 * dr <= (1 + 1 / 10000) * dr) by (rewrite Rmult_1_r; apply Rmult_le_compat_r; lra).
    assert (F0 : 0 <= (1 + ep) * 1 * dr) by (apply Rmult_le_pos; lra).
    assert (F2 : T * ((1 + ep) * 1 * dr) <= 1 * ((1 + ep) * 1 * dr)) by (apply Rmult_le_compat_r; lra). lra.
Qed.
Example C215_example : (exists pt slv rule, reference 2 1 pt slv rule) /\ exact some_lu /\ complete some_lu /\ snd (initial_condition (plate 2 1 3)) (at_ 2 1 1) <> 0.
Proof.
  split; [apply reference_exists; cbn; tauto|]. split; [apply some_lu_exact|]. split; [exact some_lu_complete|].
  cbn [plate initial_condition snd]. unfold wave. replace (spot_ 2 (at_ 2 1 1) 0%nat) with (1 / 2) by (cbn; field). replace (spot_ 2 (at_ 2 1 1) 1%nat) with (1 / 2) by (cbn; field).
  assert (X : 0 < sin (1 / 2)) by (apply sin_gt_0; [lra|assert (Y := PI_RGT_0); assert (Z := PI2_1); lra]). apply Rgt_not_eq, Rmult_lt_0_compat; auto.
Qed.
Print Assumptions C215_heat.
Print Assumptions C215_decay.
Print Assumptions C215_plate.
