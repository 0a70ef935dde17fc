(* C212: convergence of implicit Euler with linear finite elements on segments.  For u_t - u_xx = f with the boundary values of u, what
   solve() returns at every time point is within C (h^2 + dt) of u, in the discrete L2 norm. *)
From Coq Require Import QArith Qreals.
From Verif Require Import Base RSum SimplexModel SimplexProps LinAlg FieldModel FieldProps MeasureModel MeasureProps FemModel FemProps EvalModel EvalProps
  SolverModel SolverProps FemEnergy FemKernel FemMesh FemPatch FemMax FemApprox FemTime FemConv.
From Verif Require PolyModel PolyProps LagrangeProps QuadModel QuadProps TriSpec TriProofs TriProps.
Local Open Scope R_scope.

(* ------------------------------------------------------------------ specification *)
(* u y t solves u_t - u_xx = f: p is - u_xx, ut the derivative in time, and the derivatives named after them *)
Record heat (u ux p px ut utx utxx utt f : R -> R -> R) : Prop := {
  ht_space : forall t, poisson (fun y => u y t) (fun y => ux y t) (fun y => p y t) (fun y => px y t);
  ht_time : forall y t, derivable_pt_lim (u y) t (ut y t);
  ht_time2 : forall y t, derivable_pt_lim (ut y) t (utt y t);
  ht_mixed : forall y t, derivable_pt_lim (fun z => ut z t) y (utx y t);
  ht_mixed2 : forall y t, derivable_pt_lim (fun z => utx z t) y (utxx y t);
  ht_eq : forall y t, ut y t + p y t = f y t }.
(* at all times from ts to te *)
Definition during (ts te : R) (Q : R -> Prop) : Prop := forall t, ts <= t <= te -> Q t.
Definition length_of (nodes : list vec) (cells : list (list nat)) : R := rsum (length cells) (fun e => cell_measure 1 1 (vertex nodes cells e)).

(* ------------------------------------------------------------------ proofs *)
Lemma split_product z X Y : 0 <= X -> 0 <= Y -> (forall r, 0 < r -> 2 * z <= r * X + Y / r) -> z <= sqrt X * sqrt Y.
Proof.
  intros HX HY H. destruct (Rle_lt_dec z (sqrt X * sqrt Y)) as [|L]; [auto|exfalso].
  set (a := sqrt X) in *. set (b := sqrt Y) in *. assert (Ea : X = a * a) by (unfold a; now rewrite sqrt_sqrt). assert (Eb : Y = b * b) by (unfold b; now rewrite sqrt_sqrt).
  assert (a0 : 0 <= a) by apply sqrt_pos. assert (b0 : 0 <= b) by apply sqrt_pos. clearbody a b. subst X Y.
  set (ep := (z - a * b) / (a + b + 1)).
  assert (ep0 : 0 < ep) by (apply Rdiv_lt_0_compat; lra).
  specialize (H ((b + ep) / (a + ep)) ltac:(apply Rdiv_lt_0_compat; lra)).
  assert (A : (b + ep) / (a + ep) * (a * a) <= (b + ep) * a).
  { apply (Rmult_le_reg_r (a + ep)); [lra|]. replace ((b + ep) / (a + ep) * (a * a) * (a + ep)) with ((b + ep) * a * a) by (field; lra).
    apply Rmult_le_compat_l; [apply Rmult_le_pos; lra|lra]. }
  assert (B : b * b / ((b + ep) / (a + ep)) <= (a + ep) * b).
  { apply (Rmult_le_reg_r (b + ep)); [lra|]. replace (b * b / ((b + ep) / (a + ep)) * (b + ep)) with ((a + ep) * b * b) by (field; lra).
    apply Rmult_le_compat_l; [apply Rmult_le_pos; lra|lra]. }
  assert (E : ep * (a + b + 1) = z - a * b) by (unfold ep; field; lra). assert (ep * (a + b + 1) = ep * (a + b) + ep) by ring. 
  assert (ep * (a + b) <= z - a * b) by lra. lra.
Qed.
Section Step.
Variable P : problem.
Local Notation n := (n_dofs P).
Hypotheses (Hd : dofs_ok P) (Hq : positive_quadrature P).
Lemma l2_scal r v : l2 P (fun a => r * v a) = r * r * l2 P v.
Proof.
  unfold l2, mesh_quadrature. rewrite <- rsum_scal. apply rsum_ext. intros e _.
  transitivity (measure P e * (r * r * rsum (n_nodes P) (fun q => weight P q * (fe_at P v e (node P q) * fe_at P v e (node P q))))); [|ring]. f_equal.
  rewrite <- rsum_scal. apply rsum_ext. intros q _.
  assert (E : fe_at P (fun a => r * v a) e (node P q) = r * fe_at P v e (node P q)) by (unfold fe_at; rewrite <- rsum_scal; apply rsum_ext; intros; ring). rewrite E. ring.
Qed.
Lemma mass_cauchy u v : pairing P (mass_entry P) u v <= sqrt (l2 P u) * sqrt (l2 P v).
Proof.
  apply split_product; [now apply l2_nonneg|now apply l2_nonneg|]. intros r Hr.
  assert (X := mass_young P (fun a => r * u a) v Hd Hq). rewrite l2_scal in X.
  assert (E : pairing P (mass_entry P) (fun a => r * u a) v = r * pairing P (mass_entry P) u v).
  { unfold pairing. rewrite <- rsum_scal. apply rsum_ext. intros a _. rewrite <- rsum_scal. apply rsum_ext. intros; ring. }
  rewrite E in X. apply (Rmult_le_reg_l r); [auto|]. replace (r * (r * l2 P u + l2 P v / r)) with (r * r * l2 P u + l2 P v) by (field; lra). lra.
Qed.
(* one step: the error grows by at most the consistency error *)
Lemma step_error on (Hdec : forall a, {on a} + {~ on a}) op dt F g w w' U U' (m : nat -> R) tau C :
  coef_ok P op -> elliptic P op -> tensors_symmetric P op -> 0 < dt -> 0 <= tau -> 0 <= C ->
  euler_step P on op dt F g w w' -> (forall a, (a < n)%nat -> on a -> g a = U' a) ->
  (forall a, (a < n)%nat -> ~ on a -> Rabs (F a - rsum n (fun b => mass_entry P a b * ((U' b - U b) / dt)) - rsum n (fun b => assembled P op a b * U' b)) <= tau * m a) ->
  (forall v, rsum n (fun a => m a * Rabs (v a)) <= C * sqrt (l2 P v)) ->
  sqrt (l2 P (fun a => w' a - U' a)) <= sqrt (l2 P (fun a => w a - U a)) + dt * (C * tau).
Proof.
  intros Hc He Ht Hdt Htau HC Hw Hg Hr Hm. set (x := fun a => w' a - U' a). set (y := fun a => w a - U a).
  set (r := fun a => F a - rsum n (fun b => mass_entry P a b * ((U' b - U b) / dt)) - rsum n (fun b => assembled P op a b * U' b)) in *.
  assert (Z : pairing P (mass_entry P) x x - pairing P (mass_entry P) x y + dt * pairing P (assembled P op) x x = rsum n (fun a => dt * (x a * (if Hdec a then 0 else r a)))).
  { rewrite <- pairing_minus_r. rewrite !pairing_row, <- rsum_scal, <- rsum_plus. apply rsum_ext. intros a Ha.
    destruct (Hdec a) as [Y|N].
    - unfold x at 1 3 5. rewrite (proj1 (Hw a Ha) Y), (Hg a Ha Y). ring.
    - assert (A := proj2 (Hw a Ha) N). unfold r. rewrite <- A.
      transitivity (x a * (rsum n (fun b => mass_entry P a b * (x b - y b)) + dt * rsum n (fun b => assembled P op a b * x b))); [ring|].
      match goal with |- _ = dt * (x a * ?z) => transitivity (x a * (dt * z)); [f_equal|ring] end.
      replace (rsum n (fun b => mass_entry P a b * (x b - y b))) with (dt * (rsum n (fun b => mass_entry P a b * ((w' b - w b) / dt)) - rsum n (fun b => mass_entry P a b * ((U' b - U b) / dt)))).
      2:{ rewrite <- rsum_minus, <- rsum_scal. apply rsum_ext. intros b _. unfold x, y. field. lra. }
      replace (rsum n (fun b => assembled P op a b * x b)) with (rsum n (fun b => assembled P op a b * w' b) - rsum n (fun b => assembled P op a b * U' b)).
      2:{ rewrite <- rsum_minus. apply rsum_ext. intros b _. unfold x. ring. }
      ring. }
  assert (N := assembled_nonneg P op Hc Hd He Ht Hq x). assert (Y := mass_cauchy x y).
  assert (E : pairing P (mass_entry P) x x = l2 P x) by (rewrite mass_pairing by auto; reflexivity).
  assert (0 <= dt * pairing P (assembled P op) x x) by (apply Rmult_le_pos; lra).
  assert (B : rsum n (fun a => dt * (x a * (if Hdec a then 0 else r a))) <= dt * (tau * (C * sqrt (l2 P x)))).
  { rewrite rsum_scal. apply Rmult_le_compat_l; [lra|]. apply Rle_trans with (tau * rsum n (fun a => m a * Rabs (x a))); [|apply Rmult_le_compat_l; auto].
    rewrite <- rsum_scal. apply rsum_le. intros a Ha. destruct (Hdec a) as [O|O].
    - unfold x. rewrite (proj1 (Hw a Ha) O), (Hg a Ha O). replace (U' a - U' a) with 0 by ring. rewrite Rabs_R0. lra.
    - assert (X := Hr a Ha O). fold (r a) in X. apply Rle_trans with (Rabs (x a * r a)); [apply Rle_abs|]. rewrite Rabs_mult.
      apply Rle_trans with (Rabs (x a) * (tau * m a)); [apply Rmult_le_compat_l; [apply Rabs_pos|auto]|lra]. }
  set (X := sqrt (l2 P x)) in *. assert (X0 : 0 <= X) by apply sqrt_pos. assert (XX : l2 P x = X * X) by (unfold X; rewrite sqrt_sqrt; [auto|now apply l2_nonneg]).
  set (Y' := sqrt (l2 P y)) in *. assert (Y0 : 0 <= Y') by apply sqrt_pos.
  assert (T0 : 0 <= dt * (C * tau)) by (apply Rmult_le_pos; [lra|apply Rmult_le_pos; auto]).
  destruct (Req_dec X 0) as [->|Hne]; [lra|]. apply (Rmult_le_reg_l X); [lra|].
  replace (X * (Y' + dt * (C * tau))) with (X * Y' + dt * (tau * (C * X))) by ring. rewrite <- XX, <- E. lra.
Qed.
End Step.
Lemma tangent (g g1 g2 : R -> R) alpha beta B p q : (forall y, derivable_pt_lim g y (g1 y)) -> (forall y, derivable_pt_lim g1 y (g2 y)) ->
  bounded_on alpha beta B g2 -> alpha <= p <= beta -> alpha <= q <= beta -> Rabs (g q - g p - g1 p * (q - p)) <= B / 2 * ((q - p) * (q - p)).
Proof.
  intros D0 D1 HB Hp Hq. set (d := q - p). assert (Hq' : alpha <= p + d <= beta) by (unfold d; replace (p + (q - p)) with q by ring; auto).
  assert (In := segment_in alpha beta p d Hp Hq').
  assert (A : forall s, 0 <= s <= 1 -> Rabs (g1 (p + s * d) - g1 p) <= B * Rabs d * s ^ 1).
  { apply (integrate 0 (B * Rabs d) (fun s => g1 (p + s * d) - g1 p) (fun s => d * g2 (p + s * d) - 0)).
    - intros t Ht. apply derivable_pt_lim_minus; [apply dalong; auto|apply derivable_pt_lim_const].
    - replace (p + 0 * d) with p by ring. ring.
    - intros t Ht. rewrite Rminus_0_r, Rabs_mult. cbn [INR pow]. assert (X := HB _ (In t Ht)). assert (Rabs d * Rabs (g2 (p + t * d)) <= Rabs d * B) by (apply Rmult_le_compat_l; [apply Rabs_pos|auto]). lra. }
  assert (T := integrate 1 (B * (d * d) / 2) (fun s => g (p + s * d) - g p - s * (d * g1 p)) (fun s => d * g1 (p + s * d) - 0 - (1 * (d * g1 p) + s * 0))). cbv beta in T.
  assert (C : Rabs (g (p + 1 * d) - g p - 1 * (d * g1 p)) <= B * (d * d) / 2 * 1 ^ 2).
  { apply T; [| | |lra].
    - intros t Ht. apply derivable_pt_lim_minus; [apply derivable_pt_lim_minus; [apply dalong; auto|apply derivable_pt_lim_const]|apply dlin].
    - replace (p + 0 * d) with p by ring. ring.
    - intros t Ht. replace (d * g1 (p + t * d) - 0 - (1 * (d * g1 p) + t * 0)) with (d * (g1 (p + t * d) - g1 p)) by ring. rewrite Rabs_mult.
      assert (X := A t Ht). assert (Y : Rabs d * Rabs (g1 (p + t * d) - g1 p) <= Rabs d * (B * Rabs d * t ^ 1)) by (apply Rmult_le_compat_l; [apply Rabs_pos|auto]).
      replace (Rabs d * (B * Rabs d * t ^ 1)) with (B * (Rabs d * Rabs d) * t ^ 1) in Y by ring. rewrite <- (Rabs_mult d d), (Rabs_right (d * d)) in Y by (apply Rle_ge, Rle_0_sqr). cbn [INR]. lra. }
  replace (p + 1 * d) with q in C by (unfold d; ring). replace (g q - g p - 1 * (d * g1 p)) with (g q - g p - g1 p * d) in C by ring. cbn [pow] in C. lra.
Qed.
(* linear interpolation between two points *)
Lemma between_error (g g1 g2 : R -> R) alpha beta B p d s : (forall y, derivable_pt_lim g y (g1 y)) -> (forall y, derivable_pt_lim g1 y (g2 y)) ->
  bounded_on alpha beta B g2 -> alpha <= p <= beta -> alpha <= p + d <= beta -> 0 <= s <= 1 ->
  Rabs (g (p + s * d) - (g p * (1 - s) + g (p + d) * s)) <= B * (d * d) / 8.
Proof.
  intros D0 D1 HB Hp Hq Hs. assert (In := segment_in alpha beta p d Hp Hq s Hs).
  assert (T0 := tangent g g1 g2 alpha beta B (p + s * d) p D0 D1 HB In Hp). assert (T1 := tangent g g1 g2 alpha beta B (p + s * d) (p + d) D0 D1 HB In Hq).
  assert (B0 : 0 <= B) by (apply Rle_trans with (2 := HB p Hp); apply Rabs_pos).
  set (X := p + s * d) in *. set (r0 := g p - g X - g1 X * (p - X)) in *. set (r1 := g (p + d) - g X - g1 X * (p + d - X)) in *.
  replace (g X - (g p * (1 - s) + g (p + d) * s)) with (- ((1 - s) * r0 + s * r1)) by (unfold r0, r1, X; ring). rewrite Rabs_Ropp.
  eapply Rle_trans; [apply Rabs_triang|]. rewrite !Rabs_mult, (Rabs_right (1 - s)), (Rabs_right s) by lra.
  assert (P0 : (1 - s) * Rabs r0 <= (1 - s) * (B / 2 * ((p - X) * (p - X)))) by (apply Rmult_le_compat_l; lra).
  assert (P1 : s * Rabs r1 <= s * (B / 2 * ((p + d - X) * (p + d - X)))) by (apply Rmult_le_compat_l; lra).
  assert (E : (1 - s) * (B / 2 * ((p - X) * (p - X))) + s * (B / 2 * ((p + d - X) * (p + d - X))) = B * (d * d) / 2 * (s * (1 - s))) by (unfold X; field).
  assert (S4 : s * (1 - s) <= 1 / 4) by (assert (Z := Rle_0_sqr (s - 1 / 2)); unfold Rsqr in Z; lra).
  assert (0 <= B * (d * d)) by (apply Rmult_le_pos; [auto|apply Rle_0_sqr]).
  assert (B * (d * d) / 2 * (s * (1 - s)) <= B * (d * d) / 2 * (1 / 4)) by (apply Rmult_le_compat_l; lra). lra.
Qed.
Section Segments.
Variables (nodes : list vec) (cells : list (list nat)) (pt : list (list nat)) (slv : (nat -> R) -> nat -> R) (rule : QuadModel.rule).
Hypothesis (HG : good_mesh 1 1 nodes cells) (HR : reference 1 1 pt slv rule) (HC : TriSpec.conforming cells).
Local Notation P := (problem1 1 1 nodes cells pt slv rule).
Local Notation N := (length cells).
Local Notation vtx := (vertex nodes cells).
Local Notation id := (id cells).
Local Notation x := (coordinate nodes).
Local Notation n := (length nodes).
Local Notation dl := (dl nodes cells).
Local Notation spot := (spot nodes cells pt slv rule).
Local Notation at_vertex := (at_vertex cells).
Local Notation mean g i := (1 / 2 * (g 0%nat * (1 - spot i 0)) + 1 / 2 * (g 1%nat * (1 - spot i 1))).
Lemma two_nodes : n_nodes P = 2%nat /\ weight P 0 = 1 / 2 /\ weight P 1 = 1 / 2.
Proof. destruct HR as (_ & _ & E). vm_compute in E. injection E as <-. cbn. unfold Q2R. cbn. split; [auto|split; field]. Qed.
Lemma psi_spot i q : (i <= 1)%nat -> ref_psi P i (node P q) = 1 - spot i q.
Proof.
  intros Hi. rewrite (first_psi 1 nodes cells pt slv rule HG HR (fun c _ => segment_angles _) i (node P q) ltac:(lia)). unfold FemConv.spot.
  destruct i as [|[|i]]; [| |lia]; cbn [rsum]; ring.
Qed.
Lemma spot_swap i q : (i <= 1)%nat -> spot (1 - i) q = 1 - spot i q.
Proof. intros Hi. unfold FemConv.spot. destruct i as [|[|i]]; [| |lia]; cbn [Nat.sub]; ring. Qed.
Lemma fe_spot v e i q : (i <= 1)%nat -> fe_at P v e (node P q) = v (id e i) * (1 - spot i q) + v (id e (1 - i)) * spot i q.
Proof.
  intros Hi. unfold fe_at. rewrite (first_basis 1 1 nodes cells pt slv rule HG HR). cbn [rsum]. rewrite !psi_spot by lia.
  change (dof P e 0) with (id e 0). change (dof P e 1) with (id e 1).
  assert (S := spot_swap i q Hi). destruct i as [|[|i]]; [| |lia]; cbn [Nat.sub] in *; rewrite S; ring.
Qed.
Lemma mass_row v a : (a < n)%nat -> rsum n (fun b => mass_entry P a b * v b) = at_vertex a (fun e i => Rabs (dl e i) * mean (fun q => fe_at P v e (node P q)) i).
Proof.
  intros Ha. destruct (C146_first_order 1 1 nodes cells pt slv rule HG HR) as (A1 & _).
  set (w := fun b => if Nat.eqb b a then 1 else 0). assert (HA := mass_pairing P A1 w v).
  transitivity (pairing P (mass_entry P) w v).
  { unfold pairing. change (n_dofs P) with n. symmetry. rewrite (rsum_single n _ a Ha).
    - apply rsum_ext. intros b _. unfold w. rewrite Nat.eqb_refl. ring.
    - intros y _ Hy. apply rsum_zero. intros b _. unfold w. destruct (Nat.eqb_spec y a); [contradiction|ring]. }
  rewrite HA. unfold mesh_quadrature, FemConv.at_vertex. change (n_cells P) with N. change (measure P) with (fun e => cell_measure 1 1 (vtx e)). cbv beta.
  apply rsum_ext. intros e He. destruct two_nodes as (E & W0 & W1). rewrite E. cbn [rsum]. rewrite W0, W1.
  rewrite !(fe_spot w e 0 _ ltac:(lia)). rewrite !(measure_dl nodes cells e 0 ltac:(lia)).
  assert (D : Rabs (dl e 1) = Rabs (dl e 0)) by (rewrite <- !(measure_dl nodes cells e) by lia; reflexivity). rewrite D.
  assert (S0 := spot_swap 0 0 ltac:(lia)). assert (S1 := spot_swap 0 1 ltac:(lia)). cbn [Nat.sub] in *. rewrite S0, S1. unfold w. ring.
Qed.
(* the sum of the half lengths around the nodes against the mass matrix *)
Lemma lumped_bound v : rsum n (fun a => at_vertex a (fun e i => Rabs (dl e i) / 2) * Rabs (v a)) <= 2 * sqrt (length_of nodes cells) * sqrt (l2 P v).
Proof.
  destruct (C146_first_order 1 1 nodes cells pt slv rule HG HR) as (A1 & _ & _ & _ & _ & A6 & _).
  assert (L0 : 0 <= length_of nodes cells) by (apply rsum_nonneg; intros e He; rewrite (measure_dl nodes cells e 0) by lia; apply Rabs_pos).
  assert (E4 : 2 * sqrt (length_of nodes cells) * sqrt (l2 P v) = sqrt (length_of nodes cells) * sqrt (4 * l2 P v)).
  { rewrite sqrt_mult; [|lra|now apply l2_nonneg]. replace 4 with (2 * 2) by ring. rewrite sqrt_square by lra. ring. }
  rewrite E4. assert (V := l2_nonneg P v A6). apply split_product; [auto|lra|]. intros r Hr.
  assert (Sw : rsum n (fun a => at_vertex a (fun e i => Rabs (dl e i) / 2) * Rabs (v a)) = rsum N (fun e => cell_measure 1 1 (vtx e) * ((Rabs (v (id e 0)) + Rabs (v (id e 1))) / 2))).
  { unfold FemConv.at_vertex. rewrite (rsum_ext n _ (fun a => rsum N (fun e => rsum 2 (fun i => (if Nat.eqb (id e i) a then 1 else 0) * (Rabs (dl e i) / 2)) * Rabs (v a)))) by (intros a _; now rewrite rsum_scal_r).
    rewrite rsum_swap. apply rsum_ext. intros e He.
    rewrite (rsum_ext n _ (fun a => (if Nat.eqb (id e 0) a then 1 else 0) * (Rabs (dl e 0) / 2) * Rabs (v a) + (if Nat.eqb (id e 1) a then 1 else 0) * (Rabs (dl e 1) / 2) * Rabs (v a))) by (intros; cbn [rsum]; ring).
    rewrite rsum_plus. assert (One : forall i, (i <= 1)%nat -> rsum n (fun a => (if Nat.eqb (id e i) a then 1 else 0) * (Rabs (dl e i) / 2) * Rabs (v a)) = cell_measure 1 1 (vtx e) / 2 * Rabs (v (id e i))).
    { intros i Hi. rewrite (rsum_single n _ (id e i) (id_range nodes cells HG e i He Hi)).
      - rewrite Nat.eqb_refl, (measure_dl nodes cells e i Hi). ring.
      - intros a _ Hne. destruct (Nat.eqb_spec (id e i) a); [congruence|ring]. }
    rewrite !One by lia. field. }
  rewrite Sw. unfold length_of, l2, mesh_quadrature. change (n_cells P) with N. change (measure P) with (fun e => cell_measure 1 1 (vtx e)). cbv beta.
  unfold Rdiv at 2. rewrite (Rmult_comm (4 * _) (/ r)), <- Rmult_assoc, <- !rsum_scal, <- rsum_plus. apply rsum_le. intros e He.
  rewrite (measure_dl nodes cells e 0) by lia. assert (D := Rabs_pos (dl e 0)). set (d := Rabs (dl e 0)) in *. clearbody d.
  destruct two_nodes as (E & W0 & W1). rewrite E. cbn [rsum]. rewrite W0, W1, !(fe_spot v e 0 _ ltac:(lia)).
  destruct (spots nodes cells pt slv rule HR 0 ltac:(lia)) as (S0 & S1 & S2 & S3 & _). cbn [Nat.sub].
  set (s := spot 0 0) in *. set (t := spot 0 1) in *. clearbody s t. set (a := v (id e 0)). set (b := v (id e 1)). clearbody a b.
  assert (Q : (a * a + b * b) / 8 <= 1 / 2 * ((a * (1 - s) + b * s) * (a * (1 - s) + b * s)) + 1 / 2 * ((a * (1 - t) + b * t) * (a * (1 - t) + b * t))).
  { set (k := (s * (1 - s) + t * (1 - t)) / 2) in *. set (l := s + t - 1) in *.
    replace (1 / 2 * ((a * (1 - s) + b * s) * (a * (1 - s) + b * s)) + 1 / 2 * ((a * (1 - t) + b * t) * (a * (1 - t) + b * t)))
      with ((1 / 2 - k) * (a * a + b * b) + 2 * k * (a * b) + l / 2 * (b * b - a * a)) by (unfold k, l; field).
    clearbody k l. assert (T2 : 2 / 10 ^ 15 <= 1 / 1000) by lra. assert (T1 : 1 / 10 ^ 15 <= 1 / 100) by lra. apply (fun H => Rle_trans _ _ _ H T2) in S3. apply (fun H => Rle_trans _ _ _ H T1) in S2. clear T1 T2.
    assert (K : 1 / 7 <= k <= 17 / 100) by (revert S3; unfold Rabs; destruct (Rcase_abs _); lra). assert (L : - (1 / 100) <= l <= 1 / 100) by (revert S2; unfold Rabs; destruct (Rcase_abs _); lra).
    assert (a2 := Rle_0_sqr a). assert (b2 := Rle_0_sqr b). assert (ab := Rle_0_sqr (a + b)). unfold Rsqr in *.
    assert (X1 : - (1 / 200) * (a * a + b * b) <= l / 2 * (b * b - a * a)).
    { assert (0 <= (1 / 200 + l / 2) * (b * b)) by (apply Rmult_le_pos; lra). assert (0 <= (1 / 200 - l / 2) * (a * a)) by (apply Rmult_le_pos; lra). lra. }
    assert (X2 : 0 <= k * ((a + b) * (a + b))) by (apply Rmult_le_pos; lra).
    replace (2 * k * (a * b)) with (k * ((a + b) * (a + b)) - k * (a * a + b * b)) by ring.
    assert (X3 : k * (a * a + b * b) <= 17 / 100 * (a * a + b * b)) by (apply Rmult_le_compat_r; lra). lra. }
  set (y := (Rabs a + Rabs b) / 2). assert (Y : y * y <= (a * a + b * b) / 2).
  { unfold y. assert (Z := Rle_0_sqr (Rabs a - Rabs b)). unfold Rsqr in Z. assert (Ea : Rabs a * Rabs a = a * a) by (rewrite <- Rabs_mult; apply Rabs_right, Rle_ge, Rle_0_sqr). assert (Eb : Rabs b * Rabs b = b * b) by (rewrite <- Rabs_mult; apply Rabs_right, Rle_ge, Rle_0_sqr). lra. }
  clearbody y.
  rewrite Rplus_0_l. match type of Q with _ <= ?z => set (q := z) in * end. clearbody q.
  assert (Y4 : y * y <= 4 * q) by lra. assert (Z := Rle_0_sqr (r - y)). unfold Rsqr in Z.
  replace (2 * (d * y)) with (d * (2 * y)) by ring. replace (r * d + / r * 4 * (d * q)) with (d * (r + / r * (4 * q))) by ring. apply Rmult_le_compat_l; [auto|].
  apply (Rmult_le_reg_l r); [auto|]. replace (r * (r + / r * (4 * q))) with (r * r + 4 * q) by (field; lra). lra.
Qed.
Lemma heat_operator a b : assembled P (DBin OAdd Dt (DNeg Lap)) a b = assembled P (DNeg Lap) a b.
Proof.
  unfold assembled. apply rsum_ext. intros e _. apply rsum_ext. intros i _. apply rsum_ext. intros j _. f_equal. unfold quad. f_equal.
  apply rsum_ext. intros q _. f_equal. change (0 + wf P (DNeg Lap) e i j q = wf P (DNeg Lap) e i j q). ring.
Qed.
Section Solution.
Variables (u ux p px ut utx utxx utt f : R -> R -> R) (alpha beta ts te K F0 F1 B D h : R).
Hypothesis HH : heat u ux p px ut utx utxx utt f.
Hypotheses (HL : during ts te (fun t => lipschitz_on alpha beta K (fun y => px y t))) (H0 : during ts te (fun t => bounded_on alpha beta F0 (fun y => p y t)))
  (H1 : during ts te (fun t => bounded_on alpha beta F1 (fun y => px y t))) (HB : during ts te (fun t => bounded_on alpha beta B (fun y => utxx y t)))
  (HD : during ts te (fun t => bounded_on alpha beta D (fun y => utt y t))).
Hypothesis (HM : mesh_of_size nodes cells alpha beta h) (HK : 0 <= K) (Hh : 0 <= h).
Local Notation tau := (K * (h * h) / 5 + (F0 + F1 * h) / 10 ^ 14).
(* the difference quotient in time, interpolated in space, against the derivative in time *)
Lemma quotient_error t dt e i q : (e < N)%nat -> (i <= 1)%nat -> (q <= 1)%nat -> ts <= t <= te -> ts <= t + dt <= te -> 0 < dt ->
  Rabs (ut (x (id e i) + spot i q * dl e i) (t + dt) - fe_at P (fun b => (u (x b) (t + dt) - u (x b) t) / dt) e (node P q)) <= B * (h * h) / 8 + D * dt / 2.
Proof.
  intros He Hi Hq Ht Ht' Hdt. destruct HM as [M1 M2]. destruct (cell_facts 1 nodes cells HG e He) as (Hin & _).
  assert (Dh : Rabs (dl e i) <= h) by (apply (M2 (cell cells e)); auto; apply (id_in 1 nodes cells HG); auto; lia).
  assert (X0 := M1 _ (id_range nodes cells HG e i He Hi)). assert (X1 := M1 _ (id_range nodes cells HG e (1 - i) He ltac:(lia))).
  assert (Eq : x (id e (1 - i)) = x (id e i) + dl e i) by (unfold FemConv.dl; ring).
  assert (Sp : 0 <= spot i q <= 1) by (destruct (spots nodes cells pt slv rule HR i Hi) as (S0 & S1 & _); destruct q as [|[|q]]; [auto|auto|lia]).
  rewrite (fe_spot _ e i q Hi). rewrite Eq in X1 |- *. set (y := x (id e i)) in *. set (d := dl e i) in *. set (s := spot i q) in *. clearbody y d s.
  assert (BT := between_error (fun z => ut z (t + dt)) (fun z => utx z (t + dt)) (fun z => utxx z (t + dt)) alpha beta B y d s
    (fun z => ht_mixed _ _ _ _ _ _ _ _ _ HH z (t + dt)) (fun z => ht_mixed2 _ _ _ _ _ _ _ _ _ HH z (t + dt)) (HB (t + dt) Ht') X0 X1 Sp). cbv beta in BT.
  assert (TT : forall z, alpha <= z <= beta -> Rabs (ut z (t + dt) - (u z (t + dt) - u z t) / dt) <= D * dt / 2).
  { intros z Hz. assert (T := tangent (u z) (ut z) (utt z) ts te D (t + dt) t (ht_time _ _ _ _ _ _ _ _ _ HH z) (ht_time2 _ _ _ _ _ _ _ _ _ HH z) (fun r Hr => HD r Hr z Hz) Ht' Ht).
    replace (t - (t + dt)) with (- dt) in T by ring. apply (Rmult_le_reg_l dt); [auto|]. rewrite <- (Rabs_right dt) at 1 by lra. rewrite <- Rabs_mult.
    replace (dt * (ut z (t + dt) - (u z (t + dt) - u z t) / dt)) with (u z t - u z (t + dt) - ut z (t + dt) * - dt) by (field; lra). lra. }
  assert (B0 : 0 <= B) by (apply Rle_trans with (2 := HB t Ht y X0); apply Rabs_pos).
  assert (Sh : d * d <= h * h). { replace (d * d) with (Rabs d * Rabs d) by (rewrite <- Rabs_mult; apply Rabs_right; apply Rle_ge, Rle_0_sqr). apply Rmult_le_compat; auto using Rabs_pos. }
  assert (B * (d * d) <= B * (h * h)) by (apply Rmult_le_compat_l; auto).
  assert (T0 := TT y X0). assert (T1 := TT (y + d) X1).
  set (z := ut (y + s * d) (t + dt)) in *. set (a0 := ut y (t + dt)) in *. set (a1 := ut (y + d) (t + dt)) in *. set (q0 := (u y (t + dt) - u y t) / dt) in *. set (q1 := (u (y + d) (t + dt) - u (y + d) t) / dt) in *. clearbody z a0 a1 q0 q1.
  replace (z - (q0 * (1 - s) + q1 * s)) with ((z - (a0 * (1 - s) + a1 * s)) + ((a0 - q0) * (1 - s) + (a1 - q1) * s)) by ring.
  eapply Rle_trans; [apply Rabs_triang|]. apply Rplus_le_compat; [lra|]. eapply Rle_trans; [apply Rabs_triang|]. rewrite !Rabs_mult, (Rabs_right (1 - s)), (Rabs_right s) by lra.
  assert (Rabs (a0 - q0) * (1 - s) <= D * dt / 2 * (1 - s)) by (apply Rmult_le_compat_r; lra). assert (Rabs (a1 - q1) * s <= D * dt / 2 * s) by (apply Rmult_le_compat_r; lra). lra.
Qed.
Lemma consistent t dt a : (a < n)%nat -> interior_node 1 nodes cells a -> ts <= t <= te -> ts <= t + dt <= te -> 0 < dt ->
  Rabs (load_vector P (FCall (fun y => f (y 0%nat) (t + dt))) a - rsum n (fun b => mass_entry P a b * ((u (x b) (t + dt) - u (x b) t) / dt))
    - rsum n (fun b => assembled P (DBin OAdd Dt (DNeg Lap)) a b * u (x b) (t + dt))) <=
  (tau + B * (h * h) / 7 + 3 / 5 * D * dt) * at_vertex a (fun e i => Rabs (dl e i) / 2).
Proof.
  intros Ha Hint Ht Ht' Hdt.
  rewrite (rsum_ext n (fun b => assembled P (DBin OAdd Dt (DNeg Lap)) a b * _) (fun b => assembled P (DNeg Lap) a b * u (x b) (t + dt))) by (intros b _; now rewrite heat_operator).
  rewrite (stiffness_row nodes cells pt slv rule HG HR (fun b => u (x b) (t + dt)) a Ha), (mass_row _ a Ha).
  assert (R := residual nodes cells pt slv rule HG HR HC (fun y => u y (t + dt)) (fun y => ux y (t + dt)) (fun y => p y (t + dt)) (fun y => px y (t + dt)) alpha beta K F0 F1 h
    (ht_space _ _ _ _ _ _ _ _ _ HH (t + dt)) (HL _ Ht') (H0 _ Ht') (H1 _ Ht') HM HK a Ha Hint).
  assert (Lf := load_row nodes cells pt slv rule HG HR (fun y => f y (t + dt)) a). assert (Lp := load_row nodes cells pt slv rule HG HR (fun y => p y (t + dt)) a).
  cbn [at_time] in R, Lf, Lp. rewrite Lf. rewrite Lp in R. clear Lf Lp.
  set (gu := fun e i => Rabs (dl e i) * mean (fun q => ut (x (id e i) + spot i q * dl e i) (t + dt)) i).
  set (gw := fun e i => Rabs (dl e i) * mean (fun q => fe_at P (fun b => (u (x b) (t + dt) - u (x b) t) / dt) e (node P q)) i).
  match type of R with Rabs (?s - at_vertex a ?gp) <= _ => rewrite (at_vertex_ext cells a (fun e i => Rabs (dl e i) * (1 / 2 * (f _ _ * _) + _)) (fun e i => gp e i + gu e i)); [set (g := gp) in *; set (st := s) in *|] end.
  2:{ intros e i _ _ _. unfold gu. rewrite <- !(ht_eq _ _ _ _ _ _ _ _ _ HH). ring. }
  rewrite at_vertex_plus. match goal with |- Rabs (?l + _ - _ - ?s) <= _ => change l with (at_vertex a g); change s with st end.
  assert (Q : Rabs (at_vertex a gu - at_vertex a gw) <= (B * (h * h) / 7 + 3 / 5 * D * dt) * at_vertex a (fun e i => Rabs (dl e i) / 2)).
  { rewrite <- at_vertex_scal.
    assert (Bd : forall e i, (e < N)%nat -> (i <= 1)%nat -> id e i = a -> Rabs (gu e i - gw e i) <= (B * (h * h) / 7 + 3 / 5 * D * dt) * (Rabs (dl e i) / 2)).
    { intros e i He Hi _. assert (E0 := quotient_error t dt e i 0 He Hi ltac:(lia) Ht Ht' Hdt). assert (E1 := quotient_error t dt e i 1 He Hi ltac:(lia) Ht Ht' Hdt).
      destruct (spots nodes cells pt slv rule HR i Hi) as (S0 & S1 & S2 & _). assert (Z := Rabs_pos (dl e i)). unfold gu, gw.
      set (r := Rabs (dl e i)) in *. set (y0 := ut _ _) in E0 |- *. set (y1 := ut _ _) in E1 |- *. set (z0 := fe_at _ _ _ (node _ 0)) in *. set (z1 := fe_at _ _ _ (node _ 1)) in *. set (s0 := spot i 0) in *. set (s1 := spot i 1) in *. clearbody r y0 y1 z0 z1 s0 s1.
      assert (T1 : 1 / 10 ^ 15 <= 1 / 100) by lra. apply (fun H => Rle_trans _ _ _ H T1) in S2. clear T1.
      replace (r * (1 / 2 * (y0 * (1 - s0)) + 1 / 2 * (y1 * (1 - s1))) - r * (1 / 2 * (z0 * (1 - s0)) + 1 / 2 * (z1 * (1 - s1)))) with (r / 2 * ((1 - s0) * (y0 - z0) + (1 - s1) * (y1 - z1))) by field.
      rewrite Rabs_mult, (Rabs_right (r / 2)) by lra. rewrite (Rmult_comm _ (r / 2)). apply Rmult_le_compat_l; [lra|].
      eapply Rle_trans; [apply Rabs_triang|]. rewrite !Rabs_mult, (Rabs_right (1 - s0)), (Rabs_right (1 - s1)) by lra.
      assert (Dt0 : 0 <= D * dt). { apply Rmult_le_pos; [|lra]. destruct HM as [M1 _]. apply Rle_trans with (2 := HD t Ht _ (M1 a Ha)). apply Rabs_pos. }
      assert (Bh0 : 0 <= B * (h * h)). { apply Rmult_le_pos; [|apply Rle_0_sqr]. destruct HM as [M1 _]. apply Rle_trans with (2 := HB t Ht _ (M1 a Ha)). apply Rabs_pos. }
      set (k := B * (h * h) / 8 + D * dt / 2) in *. assert (K0 : 0 <= k) by (unfold k; lra).
      assert (P0 : (1 - s0) * Rabs (y0 - z0) <= (1 - s0) * k) by (apply Rmult_le_compat_l; lra). assert (P1 : (1 - s1) * Rabs (y1 - z1) <= (1 - s1) * k) by (apply Rmult_le_compat_l; lra).
      assert (Sm : (1 - s0) + (1 - s1) <= 101 / 100) by (revert S2; unfold Rabs; destruct (Rcase_abs _); lra).
      assert (X : ((1 - s0) + (1 - s1)) * k <= 101 / 100 * k) by (apply Rmult_le_compat_r; lra). unfold k in *. lra. }
    replace (at_vertex a gu - at_vertex a gw) with (at_vertex a (fun e i => gu e i + (-1) * gw e i)) by (rewrite at_vertex_plus, at_vertex_scal; ring).
    apply Rabs_le. split.
    - rewrite <- (Rmult_1_l (at_vertex a (fun e i => (B * (h * h) / 7 + _) * _))), Ropp_mult_distr_l, <- at_vertex_scal. apply at_vertex_le. intros e i He Hi1 Ei. specialize (Bd e i He Hi1 Ei).
      revert Bd. unfold Rabs at 1. destruct (Rcase_abs _); lra.
    - apply at_vertex_le. intros e i He Hi1 Ei. specialize (Bd e i He Hi1 Ei). assert (Y := Rle_abs (gu e i - gw e i)). lra. }
  revert R Q. generalize (at_vertex a (fun e i => Rabs (dl e i) / 2)) (at_vertex a g) (at_vertex a gu) (at_vertex a gw). intros m0 ap au aw R Q.
  replace (ap + au - aw - st) with (- (st - ap) + (au - aw)) by ring. eapply Rle_trans; [apply Rabs_triang|]. rewrite Rabs_Ropp, (Rplus_assoc tau), (Rmult_plus_distr_r tau).
  apply Rplus_le_compat; [exact R|exact Q].
Qed.
End Solution.
End Segments.

(* ------------------------------------------------------------------ C212 *)
Section Convergence.
Variables (nodes : list vec) (cells : list (list nat)) (pt : list (list nat)) (slv : (nat -> R) -> nat -> R) (rule : QuadModel.rule).
Hypothesis (HG : good_mesh 1 1 nodes cells) (HR : reference 1 1 pt slv rule) (HC : TriSpec.conforming cells).
Local Notation P := (problem1 1 1 nodes cells pt slv rule).
Local Notation x := (coordinate nodes).
Variables (u ux p px ut utx utxx utt f : R -> R -> R) (alpha beta ts te K F0 F1 B D h : R).
Hypothesis HH : heat u ux p px ut utx utxx utt f.
Hypotheses (HL : during ts te (fun t => lipschitz_on alpha beta K (fun y => px y t))) (H0 : during ts te (fun t => bounded_on alpha beta F0 (fun y => p y t)))
  (H1 : during ts te (fun t => bounded_on alpha beta F1 (fun y => px y t))) (HB : during ts te (fun t => bounded_on alpha beta B (fun y => utxx y t)))
  (HD : during ts te (fun t => bounded_on alpha beta D (fun y => utt y t))).
Hypothesis (HM : mesh_of_size nodes cells alpha beta h) (HK : 0 <= K) (Hh : 0 <= h).
(* the error per unit of time: second order in h, first order in the time step, and the rounding of the quadrature tables *)
Local Notation rate dt := (K * (h * h) / 5 + (F0 + F1 * h) / 10 ^ 14 + B * (h * h) / 7 + 3 / 5 * D * dt).
Theorem C212_heat bdy lu s d t0 t1 : exact lu -> complete lu -> bdy 0%nat = true -> nodes <> [] ->
  (forall a, (a < length nodes)%nat -> exists c, In c cells /\ In a c) ->
  (forall a, (a < length nodes)%nat -> bdy a = false -> interior_node 1 nodes cells a) ->
  diff_op s = DBin OAdd Dt (DNeg Lap) -> forcing_data s = Sampled d -> source_ok P (Sampled d) -> (dcols d = length (time_domain s))%nat ->
  nth_error (time_domain s) 0 = Some t0 -> nth_error (time_domain s) 1 = Some t1 -> uniform (time_domain s) -> (forall t, In t (time_domain s) -> ts <= t <= te) ->
  fst (initial_condition s) = length nodes -> enough_data P (boundary_data s) (dcols d) ->
  (* the data of the problem are samples of f, at the quadrature nodes, and of u, on the boundary *)
  (forall i t e q, nth_error (time_domain s) i = Some t -> (e < length cells)%nat -> (q < n_nodes P)%nat -> dval d (n_nodes P * e + q)%nat i = f (affine P e (node P q) 0%nat) t) ->
  (forall i t a, nth_error (time_domain s) i = Some t -> (a < length nodes)%nat -> bdy a = true -> dval (boundary_data s) a i = u (x a) t) ->
  exists s1 s2, init P true s = Ok s1 /\ solve P bdy true lu s1 = Ok s2 /\ success s2 = true /\ length (solution s2) = length (time_domain s) /\
    nth_error (solution s2) 0 = Some (snd (initial_condition s)) /\
    forall i t w, nth_error (time_domain s) i = Some t -> nth_error (solution s2) i = Some w ->
      sqrt (l2 P (fun a => w a - u (x a) t)) <=
      sqrt (l2 P (fun a => snd (initial_condition s) a - u (x a) t0)) + (t - t0) * (2 * sqrt (length_of nodes cells) * rate (t1 - t0)).
Proof.
  intros Hlu Hco Hb Hne Hcov Hint Eop Ef Hs Em Et0 Et1 Hun Hts Hic Hg Hdata Hbd.
  assert (Hm : (2 <= dcols d)%nat) by (rewrite Em; apply (nth_error_Some (time_domain s) 1); congruence).
  destruct (C150_mesh 1 1 nodes cells pt slv rule HG HR bdy lu s d Hlu Hco Hb Hne Hcov) as (s1 & s2 & E1 & E2 & K1 & K2 & (K3 & K4) & _); rewrite ?Eop, ?Ef; auto.
  { cbn. auto. } { cbn. auto. } { constructor; constructor. }
  exists s1, s2. repeat (split; [assumption|]).
  destruct (C146_first_order 1 1 nodes cells pt slv rule HG HR) as (A1 & _ & _ & _ & _ & A6 & _).
  destruct (Hun 0%nat t0 t1 Et0 Et1) as [Hlt _].
  assert (Hne0 : (0 < length nodes)%nat) by (destruct nodes; [congruence|cbn; lia]).
  assert (Rt : 0 <= rate (t1 - t0)).
  { destruct HM as [M1 _]. assert (Ht0 := Hts t0 (nth_error_In _ _ Et0)). assert (X := M1 0%nat Hne0).
    assert (0 <= F0) by (apply Rle_trans with (2 := H0 t0 Ht0 _ X); apply Rabs_pos). assert (0 <= F1) by (apply Rle_trans with (2 := H1 t0 Ht0 _ X); apply Rabs_pos).
    assert (0 <= B) by (apply Rle_trans with (2 := HB t0 Ht0 _ X); apply Rabs_pos). assert (0 <= D) by (apply Rle_trans with (2 := HD t0 Ht0 _ X); apply Rabs_pos).
    assert (0 <= K * (h * h)) by (apply Rmult_le_pos; [auto|apply Rle_0_sqr]). assert (0 <= B * (h * h)) by (apply Rmult_le_pos; [auto|apply Rle_0_sqr]).
    assert (0 <= F1 * h) by (apply Rmult_le_pos; auto). assert (0 <= D * (t1 - t0)) by (apply Rmult_le_pos; lra).
    assert (0 <= (F0 + F1 * h) / 10 ^ 14) by (apply Rmult_le_pos; [lra|]; left; apply Rinv_0_lt_compat, pow_lt; lra). lra. }
  induction i as [|i IH]; intros t w Et Ew.
  - rewrite Et0 in Et. injection Et as <-. rewrite K2 in Ew. injection Ew as <-. replace (t0 - t0) with 0 by ring. lra.
  - assert (Li : (S i < length (time_domain s))%nat) by (apply nth_error_Some; congruence).
    destruct (nth_error (time_domain s) i) as [r|] eqn:Er; [|apply nth_error_None in Er; lia].
    destruct (nth_error (solution s2) i) as [z|] eqn:Ez; [|apply nth_error_None in Ez; lia].
    destruct (Hun i r t Er Et) as [Hrt Hd]. specialize (Hd t0 t1 Et0 Et1).
    assert (Hr := Hts r (nth_error_In _ _ Er)). assert (Ht := Hts t (nth_error_In _ _ Et)).
    assert (St := K4 i r t z w Er Et Ez Ew). rewrite Eop in St.
    assert (SE := step_error P A1 A6 (fun a => bdy a = true) (fun a => Bool.bool_dec (bdy a) true) (DBin OAdd Dt (DNeg Lap)) (t - r) (load_vector P (at_time (Sampled d) (S i))) (fun a => dval (boundary_data s) a (S i)) z w (fun a => u (x a) r) (fun a => u (x a) t)
      (fun a => at_vertex cells a (fun e i => Rabs (dl nodes cells e i) / 2)) (rate (t1 - t0)) (2 * sqrt (length_of nodes cells))). cbv beta in SE.
    apply Rle_trans with (sqrt (l2 P (fun a => z a - u (x a) r)) + (t - r) * (2 * sqrt (length_of nodes cells) * rate (t1 - t0))).
    + apply SE; [cbn; auto|constructor; constructor|cbn; auto|lra|exact Rt|apply Rmult_le_pos; [lra|apply sqrt_pos]|exact St| | |apply (lumped_bound nodes cells pt slv rule HG HR)].
      * intros a Ha Ba. cbv beta. now apply Hbd.
      * intros a Ha Ba. assert (Bf : bdy a = false) by (destruct (bdy a); congruence).
        assert (C := consistent nodes cells pt slv rule HG HR HC u ux p px ut utx utxx utt f alpha beta ts te K F0 F1 B D h HH HL H0 H1 HB HD HM HK r (t - r) a Ha (Hint a Ha Bf) Hr).
        replace (r + (t - r)) with t in C by ring. specialize (C Ht ltac:(lra)).
        assert (LV : load_vector P (at_time (Sampled d) (S i)) a = load_vector P (FCall (fun y => f (y 0%nat) t)) a).
        { unfold load_vector. apply rsum_ext. intros e He. apply rsum_ext. intros j _. f_equal. unfold load. f_equal. apply rsum_ext. intros q Hq. f_equal. f_equal. cbn [at_time fvalue]. now apply Hdata. }
        rewrite LV, <- Hd. change (n_dofs P) with (length nodes). exact C.
    + specialize (IH r z eq_refl eq_refl). lra.
Qed.
End Convergence.

(* ------------------------------------------------------------------ exp (- t) sin y on [0, 1], on m equal segments with k equal time steps up to time 1 *)
Definition times (k : nat) : list R := map (fun j => INR j / INR k) (seq 0 (S k)).
Definition cooling (m k : nat) : pde :=
  {| diff_op := DBin OAdd Dt (DNeg Lap); forcing_data := Sampled {| drows := 2 * m; dcols := S k; dval := fun _ _ => 0 |}; time_domain := times k;
     initial_condition := (S m, fun a => sin (INR a / INR m)); boundary_data := {| drows := S m; dcols := S k; dval := fun a j => exp (- (INR j / INR k)) * sin (INR a / INR m) |};
     is_init := false; success := false; stiff := fun _ _ => 0; SolverModel.mass := fun _ _ => 0; force := {| dsize := 0; dcoef := fun _ => None |}; solution := [] |}.
Lemma dexp t : derivable_pt_lim (fun t => exp (- t)) t (- exp (- t)).
Proof.
  replace (- exp (- t)) with (exp (- t) * - (1)) by ring. apply (derivable_pt_lim_comp (fun t => - t) exp t (- (1)) (exp (- t))); [|apply derivable_pt_lim_exp].
  apply (derivable_pt_lim_opp Ranalysis1.id), derivable_pt_lim_id.
Qed.
Lemma dtime c t : derivable_pt_lim (fun t => exp (- t) * c) t (- exp (- t) * c).
Proof.
  replace (- exp (- t) * c) with (- exp (- t) * c + exp (- t) * 0) by ring.
  apply (derivable_pt_lim_mult (fun t => exp (- t)) (fct_cte c)); [apply dexp|apply derivable_pt_lim_const].
Qed.
Lemma cooling_heat : heat (fun y t => exp (- t) * sin y) (fun y t => exp (- t) * cos y) (fun y t => exp (- t) * sin y) (fun y t => exp (- t) * cos y)
  (fun y t => - exp (- t) * sin y) (fun y t => - exp (- t) * cos y) (fun y t => exp (- t) * sin y) (fun y t => exp (- t) * sin y) (fun _ _ => 0).
Proof.
  split.
  - intros t. split; [|split]; intros y.
    + apply (derivable_pt_lim_scal sin), derivable_pt_lim_sin.
    + replace (- (exp (- t) * sin y)) with (exp (- t) * - sin y) by ring. apply (derivable_pt_lim_scal cos), derivable_pt_lim_cos.
    + apply (derivable_pt_lim_scal sin), derivable_pt_lim_sin.
  - intros y t. apply dtime.
  - intros y t. replace (exp (- t) * sin y) with (- (- exp (- t) * sin y)) by ring.
    apply (derivable_pt_lim_ext (fun t => - (exp (- t) * sin y))); [intros; ring|]. apply (derivable_pt_lim_opp (fun t => exp (- t) * sin y)), dtime.
  - intros y t. apply (derivable_pt_lim_scal sin), derivable_pt_lim_sin.
  - intros y t. replace (exp (- t) * sin y) with (- exp (- t) * - sin y) by ring. apply (derivable_pt_lim_scal cos), derivable_pt_lim_cos.
  - intros y t. ring.
Qed.
Lemma fading t : 0 <= t -> 0 < exp (- t) <= 1.
Proof.
  intros Ht. split; [apply exp_pos|]. destruct (Req_dec t 0) as [->|Hne]; [rewrite Ropp_0, exp_0; lra|]. left. rewrite <- exp_0. apply exp_increasing. lra.
Qed.
Lemma fading_bound t z : 0 <= t -> -1 <= z <= 1 -> Rabs (exp (- t) * z) <= 1.
Proof.
  intros Ht Hz. destruct (fading t Ht) as [E0 E1]. rewrite Rabs_mult, (Rabs_right (exp (- t))) by lra. rewrite <- (Rmult_1_l 1).
  apply Rmult_le_compat; [lra|apply Rabs_pos|lra|apply Rabs_le; lra].
Qed.
Lemma times_nth k j t : nth_error (times k) j = Some t -> (j <= k)%nat /\ t = INR j / INR k.
Proof.
  intros E. unfold times in E. rewrite nth_error_map in E. destruct (nth_error (seq 0 (S k)) j) as [i|] eqn:F; [|discriminate]. cbn in E. injection E as <-.
  assert (Hj : (j < S k)%nat) by (rewrite <- (seq_length (S k) 0); apply nth_error_Some; congruence). rewrite (nth_error_nth' _ 0%nat), seq_nth in F by (rewrite ?seq_length; lia).
  injection F as <-. split; [lia|reflexivity].
Qed.
Lemma times_at k j : (j <= k)%nat -> nth_error (times k) j = Some (INR j / INR k).
Proof. intros Hj. unfold times. rewrite nth_error_map, (nth_error_nth' _ 0%nat), seq_nth by (rewrite ?seq_length; lia). reflexivity. Qed.
Lemma times_uniform k : (0 < k)%nat -> uniform (times k).
Proof.
  intros Hk. assert (X := m_pos k Hk). intros j a b Ea Eb. apply times_nth in Ea as [La ->]. apply times_nth in Eb as [Lb ->]. rewrite S_INR. split.
  - apply Rmult_lt_compat_r; [now apply Rinv_0_lt_compat|lra].
  - intros y z Ey Ez. apply times_nth in Ey as [_ ->]. apply times_nth in Ez as [_ ->]. cbn [INR]. field. lra.
Qed.
Lemma times_range k t : (0 < k)%nat -> In t (times k) -> 0 <= t <= 1.
Proof.
  intros Hk H. apply in_map_iff in H as (j & <- & Hj). apply in_seq in Hj. assert (X := m_pos k Hk). assert (Z := pos_INR j). assert (Z2 : INR j <= INR k) by (apply le_INR; lia). split.
  - apply Rmult_le_pos; [auto|]. left. now apply Rinv_0_lt_compat.
  - apply (Rmult_le_reg_r (INR k)); [auto|]. unfold Rdiv. rewrite Rmult_assoc, Rinv_l by lra. lra.
Qed.
Lemma grid_total m : (0 < m)%nat -> length_of (grid_nodes m) (grid_cells m) = 1.
Proof.
  intros Hm. assert (X := m_pos m Hm). unfold length_of. assert (L : length (grid_cells m) = m) by (unfold grid_cells; now rewrite map_length, seq_length). rewrite L.
  rewrite (rsum_ext m _ (fun _ => 1 / INR m)).
  - assert (S : forall j, rsum j (fun _ => 1 / INR m) = INR j / INR m) by (induction j as [|j IH]; [cbn; field; lra|]; cbn [rsum]; rewrite IH, S_INR; field; lra). rewrite S. field. lra.
  - intros e He. rewrite (measure_dl (grid_nodes m) (grid_cells m) e 0) by lia. unfold dl, FemPatch.id, cell.
    assert (C : nth e (grid_cells m) [] = [e; S e]). { unfold grid_cells. erewrite nth_indep by (rewrite map_length, seq_length; lia). rewrite (map_nth (fun i => [i; S i]) (seq 0 m) 0%nat), seq_nth by lia. reflexivity. }
    rewrite C. cbn [nth Nat.sub]. rewrite grid_gap by auto. match goal with |- Rabs ?z = _ => replace z with (1 / INR m) by ring end. apply Rabs_right, Rle_ge. left. apply Rdiv_lt_0_compat; lra.
Qed.
Theorem C212_cooling m k pt slv rule lu : (0 < m)%nat -> (0 < k)%nat -> reference 1 1 pt slv rule -> exact lu -> complete lu ->
  let P := problem1 1 1 (grid_nodes m) (grid_cells m) pt slv rule in
  exists s1 s2, init P true (cooling m k) = Ok s1 /\ solve P (ends m) true lu s1 = Ok s2 /\ success s2 = true /\ length (solution s2) = S k /\
    forall j w, nth_error (solution s2) j = Some w ->
      sqrt (l2 P (fun a => w a - exp (- (INR j / INR k)) * sin (coordinate (grid_nodes m) a))) <= 7 / (10 * INR m ^ 2) + 6 / (5 * INR k) + 1 / 10 ^ 13.
Proof.
  intros Hm Hk HR Hlu Hco P. assert (X := m_pos m Hm). assert (Xk := m_pos k Hk).
  assert (X1 : 1 <= INR m) by (change 1 with (INR 1); apply le_INR; lia).
  assert (Y : 0 < 1 / INR m <= 1). { split; [apply Rdiv_lt_0_compat; lra|]. apply (Rmult_le_reg_r (INR m)); [auto|]. unfold Rdiv. rewrite Rmult_assoc, Rinv_l by lra. lra. }
  assert (Lt : length (times k) = S k) by (unfold times; now rewrite map_length, seq_length).
  destruct (C212_heat (grid_nodes m) (grid_cells m) pt slv rule (grid_good m Hm) HR (grid_conforming m Hm) _ _ _ _ _ _ _ _ _ 0 1 0 1 1 1 1 1 1 (1 / INR m) cooling_heat)
    with (bdy := ends m) (lu := lu) (s := cooling m k) (d := {| drows := 2 * m; dcols := S k; dval := fun _ _ => 0 |}) (t0 := 0 / INR k) (t1 := 1 / INR k)
    as (s1 & s2 & E1 & E2 & E3 & E4 & E5 & Hw).
  - intros t Ht y z Hy Hz. destruct (fading t ltac:(lra)) as [G0 G1]. replace (exp (- t) * cos y - exp (- t) * cos z) with (exp (- t) * (cos y - cos z)) by ring.
    rewrite Rabs_mult, (Rabs_right (exp (- t))) by lra. assert (L := cos_lipschitz y z Hy Hz). apply Rle_trans with (1 * Rabs (cos y - cos z)); [apply Rmult_le_compat_r; [apply Rabs_pos|lra]|lra].
  - intros t Ht y _. apply fading_bound; [lra|apply SIN_bound].
  - intros t Ht y _. apply fading_bound; [lra|apply COS_bound].
  - intros t Ht y _. apply fading_bound; [lra|apply SIN_bound].
  - intros t Ht y _. apply fading_bound; [lra|apply SIN_bound].
  - now apply grid_size.
  - lra.
  - lra.
  - auto.
  - auto.
  - reflexivity.
  - discriminate.
  - intros a Ha. rewrite grid_length in Ha. destruct (Nat.eq_dec a m) as [->|Hne].
    + exists [m - 1; S (m - 1)]%nat. split; [apply grid_in; lia|cbn; lia].
    + exists [a; S a]. split; [apply grid_in; lia|cbn; tauto].
  - intros a Ha Hb. rewrite grid_length in Ha. unfold ends in Hb. apply orb_false_iff in Hb as [B1 B2]. apply Nat.eqb_neq in B1, B2. apply grid_interior; lia.
  - reflexivity.
  - reflexivity.
  - split; [cbn; lia|]. cbn [at_time forcing_ok drows]. rewrite (proj1 (two_nodes (grid_nodes m) (grid_cells m) pt slv rule HR)). cbn [n_cells problem1 fem_problem]. unfold grid_cells. rewrite map_length, seq_length. lia.
  - cbn [dcols cooling time_domain]. now rewrite Lt.
  - apply (times_at k 0). lia.
  - apply (times_at k 1). lia.
  - now apply times_uniform.
  - intros t. now apply times_range.
  - cbn [cooling initial_condition fst]. now rewrite grid_length.
  - split; [|cbn; lia]. change (length (grid_nodes m) <= S m)%nat. rewrite grid_length. lia.
  - reflexivity.
  - intros j t a Ej Ha _. apply times_nth in Ej as [_ ->]. rewrite grid_length in Ha. rewrite grid_place by lia. reflexivity.
  - exists s1, s2. repeat (split; [assumption|]). split; [rewrite E4; exact Lt|]. intros j w Ew.
    assert (Lj : (j <= k)%nat) by (assert (j < length (solution s2))%nat by (apply nth_error_Some; congruence); rewrite E4 in H; cbn [cooling time_domain] in H; lia).
    specialize (Hw j _ w (times_at k j Lj) Ew). cbv beta in Hw. rewrite (grid_total m Hm), sqrt_1 in Hw.
    assert (Z : l2 P (fun a => snd (initial_condition (cooling m k)) a - exp (- (0 / INR k)) * sin (coordinate (grid_nodes m) a)) = 0).
    { destruct (C146_first_order 1 1 (grid_nodes m) (grid_cells m) pt slv rule (grid_good m Hm) HR) as (A1 & _). rewrite (l2_ext P _ (fun _ => 0 * 0) A1).
      - rewrite l2_scal. ring.
      - intros a Ha. change (n_dofs P) with (length (grid_nodes m)) in Ha. rewrite grid_length in Ha. rewrite grid_place by lia. cbn [cooling initial_condition snd].
        replace (- (0 / INR k)) with 0 by (field; lra). rewrite exp_0. ring. }
    unfold P in Z. rewrite Z, sqrt_0 in Hw. eapply Rle_trans; [exact Hw|]. destruct (times_range k (INR j / INR k) Hk) as [T0 T1]; [eapply nth_error_In, times_at, Lj|].
    replace (INR j / INR k - 0 / INR k) with (INR j / INR k) by (field; lra). replace (1 / INR k - 0 / INR k) with (1 / INR k) by (field; lra).
    set (z := 1 / INR m) in *. replace (7 / (10 * INR m ^ 2)) with (7 / 10 * (z * z)) by (unfold z; field; lra). replace (6 / (5 * INR k)) with (6 / 5 * (1 / INR k)) by (field; lra).
    assert (Kp : 0 < 1 / INR k) by (apply Rdiv_lt_0_compat; lra). set (dt := 1 / INR k) in *.
    replace ((1 + 1 * z) / 10 ^ 14) with (1 / 10 ^ 13 * (1 / 10) * (1 + z)) by field.
    assert (Ep : 0 < 1 / 10 ^ 13) by (apply Rdiv_lt_0_compat; [lra|apply pow_lt; lra]). revert Ep. generalize (1 / 10 ^ 13). intros ep Ep.
    assert (zz : 0 <= z * z) by apply Rle_0_sqr. assert (ez : 0 <= ep * z) by (apply Rmult_le_pos; lra). assert (ez2 : ep * z <= ep * 1) by (apply Rmult_le_compat_l; lra).
    set (q := 2 * 1 * _). assert (Q0 : 0 <= q) by (unfold q; lra). assert (q <= 7 / 10 * (z * z) + 6 / 5 * dt + ep) by (unfold q; lra).
    assert (INR j / INR k * q <= 1 * q) by (apply Rmult_le_compat_r; lra). lra.
Qed.
Example C212_example : (exists pt slv rule, reference 1 1 pt slv rule) /\ exact some_lu /\ complete some_lu.
Proof. split; [apply reference_exists; cbn; tauto|split; [apply some_lu_exact|exact some_lu_complete]]. Qed.
Print Assumptions C212_heat.
Print Assumptions C212_cooling.
