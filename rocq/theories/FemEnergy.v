(* C137-C140: the assembled matrices as bilinear forms on the finite element space. *)
From Coq Require Import QArith Qreals.
From Verif Require Import Base RSum SimplexModel SimplexProps LinAlg FieldModel FieldProps FemModel FemProps EvalModel EvalProps.
From Verif Require PolyModel PolyProps LagrangeProps QuadModel QuadProps.
Local Open Scope R_scope.

(* ------------------------------------------------------------------ specification *)
Section Spec.
Variable P : problem.
(* u^T A v, over the degrees of freedom *)
Definition pairing (A : nat -> nat -> R) (u v : nat -> R) : R :=
  rsum (n_dofs P) (fun a => rsum (n_dofs P) (fun b => u a * A a b * v b)).
(* component r of the gradient, on cell e at quadrature node q, of the finite element function of coefficients c *)
Definition fe_grad (c : nat -> R) (e q r : nat) : R := rsum (n_basis P) (fun h => c (dof P e h) * grad P e h q r).
(* the weak form of the operator, with test function u_h and trial function v_h, at quadrature node q of cell e *)
Fixpoint bform (op : dop) (e q : nat) (u v : nat -> R) : R :=
  let k := (n_nodes P * e + q)%nat in
  let p := node P q in
  match op with
  | Lap => - rsum (edim P) (fun r => fe_grad u e q r * fe_grad v e q r)
  | Diff K => - rsum (edim P) (fun r => fe_grad u e q r * rsum (edim P) (fun s => mval (mat_ k K) r s p * fe_grad v e q s))
  | Adv b => fe_at P u e p * rsum (edim P) (fun r => fe_grad v e q r * vval (vat k b) r p)
  | Reac c => sval (sat k c) p * fe_at P u e p * fe_at P v e p
  | Dt => 0
  | DScal c => c
  | DBin o a b => arith o (bform a e q u v) (bform b e q u v)
  | DNeg a => - bform a e q u v
  end.
(* operators as written by the user: sums, differences, negations and scalar multiples *)
Fixpoint proper (op : dop) : Prop :=
  match op with
  | Lap | Diff _ | Adv _ | Reac _ | Dt => True
  | DScal _ => False
  | DBin OMul (DScal _) b => proper b
  | DBin OAdd a b | DBin OSub a b => proper a /\ proper b
  | DBin _ _ _ => False
  | DNeg a => proper a
  end.
(* sum over the cells of the quadrature of g *)
Definition mesh_quadrature (g : nat -> nat -> R) : R :=
  rsum (n_cells P) (fun e => measure P e * rsum (n_nodes P) (fun q => weight P q * g e q)).
(* no term of order zero *)
Fixpoint no_reaction (op : dop) : Prop :=
  match op with
  | Lap | Diff _ | Adv _ | Dt | DScal _ => True
  | Reac _ => False
  | DBin _ a b => no_reaction a /\ no_reaction b
  | DNeg a => no_reaction a
  end.
(* minus a diffusion with positive semidefinite tensor, plus a reaction with nonnegative coefficient, and nonnegative combinations *)
Inductive elliptic : dop -> Prop :=
| ell_lap : elliptic (DNeg Lap)
| ell_diff K : (forall e q x, (e < n_cells P)%nat -> (q < n_nodes P)%nat ->
    0 <= rsum (edim P) (fun r => x r * rsum (edim P) (fun s => mval (mat_ (n_nodes P * e + q) K) r s (node P q) * x s))) ->
    elliptic (DNeg (Diff K))
| ell_reac c : (forall e q, (e < n_cells P)%nat -> (q < n_nodes P)%nat -> 0 <= sval (sat (n_nodes P * e + q) c) (node P q)) ->
    elliptic (Reac c)
| ell_dt : elliptic Dt
| ell_add a b : elliptic a -> elliptic b -> elliptic (DBin OAdd a b)
| ell_scal c a : 0 <= c -> elliptic a -> elliptic (DBin OMul (DScal c) a).
(* the reference basis adds up to the constant 1, and its gradients to 0 *)
Definition unity : Prop := (forall x, rsum (n_basis P) (fun h => ref_psi P h x) = 1) /\
  (forall k x, (k < ldim P)%nat -> rsum (n_basis P) (fun h => ref_nabla P h k x) = 0).
End Spec.
(* the reference basis is the Lagrangian one of order Rd on the reference simplex (C63) *)
Definition lagrangian (P : problem) (Rd : nat) : Prop := exists table solve,
  PolyModel.ct_poly_exp (ldim P) Rd = Ok table /\ n_basis P = length table /\
  (forall b i, (i < length table)%nat -> rsum (length table) (fun j =>
     PolyModel.vandermonde (ldim P) table (LagrangeProps.qnodes (LagrangeProps.ref_nodes (ldim P) Rd)) i j * solve b j) = b i) /\
  (forall h x, (h < n_basis P)%nat -> ref_psi P h x = PolyModel.basis (ldim P) table solve h x) /\
  (forall h k x, (h < n_basis P)%nat -> ref_nabla P h k x = PolyModel.poly_derive (ldim P) table (solve (PolyModel.unit_rhs h)) k x).
(* the quadrature is the library's standard rule for order Rd *)
Definition standard_quadrature (P : problem) (Rd : nat) : Prop := exists r,
  QuadModel.table_of (ldim P) (QuadModel.standard_rule (ldim P) Rd) = Some r /\
  n_nodes P = length (QuadModel.q_nodes r) /\
  (forall q k, node P q k = Q2R (nth k (nth q (QuadModel.q_nodes r) []) 0%Q)) /\
  (forall q, weight P q = Q2R (nth q (QuadModel.q_weights r) 0%Q)).

(* ------------------------------------------------------------------ proofs *)
Lemma rsum_hit n k (f : nat -> R) : (k < n)%nat -> rsum n (fun a => f a * hit k a) = f k.
Proof.
  intros Hk. rewrite (rsum_single n _ k Hk).
  - unfold hit. destruct (Nat.eq_dec k k); [ring|contradiction].
  - intros i _ Hi. unfold hit. destruct (Nat.eq_dec k i); [congruence|ring].
Qed.
Lemma pairing_assembled P op u v : dofs_ok P ->
  pairing P (assembled P op) u v = rsum (n_cells P) (fun e => rsum (n_basis P) (fun i => rsum (n_basis P) (fun j =>
    u (dof P e i) * quad P op e i j * v (dof P e j)))).
Proof.
  intros Hd. unfold pairing, assembled.
  rewrite (rsum_ext _ _ (fun a => rsum (n_cells P) (fun e => rsum (n_basis P) (fun i => rsum (n_basis P) (fun j =>
    u a * hit (dof P e i) a * quad P op e i j * v (dof P e j)))))).
  - rewrite rsum_swap. apply rsum_ext. intros e He. rewrite rsum_swap. apply rsum_ext. intros i Hi.
    rewrite rsum_swap. apply rsum_ext. intros j Hj.
    rewrite (rsum_ext _ _ (fun a => (u a * (quad P op e i j * v (dof P e j))) * hit (dof P e i) a)) by (intros; ring).
    rewrite rsum_hit by (apply Hd; auto). ring.
  - intros a Ha.
    rewrite (rsum_ext _ _ (fun b => rsum (n_cells P) (fun e => rsum (n_basis P) (fun i => rsum (n_basis P) (fun j =>
      u a * (hit (dof P e i) a * hit (dof P e j) b * quad P op e i j) * v b))))).
    + rewrite rsum_swap. apply rsum_ext. intros e He. rewrite rsum_swap. apply rsum_ext. intros i Hi.
      rewrite rsum_swap. apply rsum_ext. intros j Hj.
      rewrite (rsum_ext _ _ (fun b => (u a * hit (dof P e i) a * quad P op e i j * v b) * hit (dof P e j) b)) by (intros; ring).
      rewrite rsum_hit by (apply Hd; auto). reflexivity.
    + intros b Hb. rewrite <- rsum_scal, <- rsum_scal_r. apply rsum_ext. intros e _.
      rewrite <- rsum_scal, <- rsum_scal_r. apply rsum_ext. intros i _.
      rewrite <- rsum_scal, <- rsum_scal_r. apply rsum_ext. intros j _. ring.
Qed.
(* double sum of products *)
Lemma rsum_prod n m (f g : nat -> R) : rsum n f * rsum m g = rsum n (fun i => rsum m (fun j => f i * g j)).
Proof. rewrite <- rsum_scal_r. apply rsum_ext. intros. rewrite <- rsum_scal. reflexivity. Qed.
Lemma bform_local P op e q u v : proper op ->
  rsum (n_basis P) (fun i => rsum (n_basis P) (fun j => u (dof P e i) * wf P op e i j q * v (dof P e j))) = bform P op e q u v.
Proof.
  assert (G : forall (K : nat -> nat -> R) , rsum (n_basis P) (fun i => rsum (n_basis P) (fun j =>
     u (dof P e i) * rsum (edim P) (fun r => grad P e i q r * rsum (edim P) (fun s => K r s * grad P e j q s)) * v (dof P e j)))
     = rsum (edim P) (fun r => fe_grad P u e q r * rsum (edim P) (fun s => K r s * fe_grad P v e q s))).
  { intros K.
    rewrite (rsum_ext _ _ (fun i => rsum (edim P) (fun r => u (dof P e i) * grad P e i q r * rsum (edim P) (fun s => K r s * fe_grad P v e q s)))).
    - rewrite rsum_swap. apply rsum_ext. intros r _. rewrite rsum_scal_r. reflexivity.
    - intros i _.
      rewrite (rsum_ext _ _ (fun j => rsum (edim P) (fun r => u (dof P e i) * grad P e i q r * rsum (edim P) (fun s => K r s * (v (dof P e j) * grad P e j q s))))).
      + rewrite rsum_swap. apply rsum_ext. intros r _. rewrite rsum_scal. f_equal. rewrite rsum_swap. apply rsum_ext. intros s _.
        rewrite rsum_scal. reflexivity.
      + intros j _. rewrite <- rsum_scal, <- rsum_scal_r. apply rsum_ext. intros r _.
        rewrite (rsum_ext _ (fun s => K r s * (v (dof P e j) * grad P e j q s)) (fun s => K r s * grad P e j q s * v (dof P e j))) by (intros; ring).
        rewrite rsum_scal_r. ring. }
  assert (D : forall f g a b o, o = OAdd \/ o = OSub ->
     rsum (n_basis P) (fun i => rsum (n_basis P) (fun j => u (dof P e i) * f i j * v (dof P e j))) = a ->
     rsum (n_basis P) (fun i => rsum (n_basis P) (fun j => u (dof P e i) * g i j * v (dof P e j))) = b ->
     rsum (n_basis P) (fun i => rsum (n_basis P) (fun j => u (dof P e i) * arith o (f i j) (g i j) * v (dof P e j))) = arith o a b).
  { intros f g a b o [->| ->] <- <-; cbn [arith]; [rewrite <- rsum_plus|rewrite <- rsum_minus]; apply rsum_ext; intros i _;
      [rewrite <- rsum_plus|rewrite <- rsum_minus]; apply rsum_ext; intros j _; ring. }
  induction op as [|K|b|c| |c|o a IHa b IHb|a IHa]; cbn -[mat_ vat sat Nat.mul arith]; intros Hp.
  - rewrite (rsum_ext _ _ (fun i => -1 * rsum (n_basis P) (fun j => u (dof P e i) * rsum (edim P) (fun r => grad P e i q r * grad P e j q r) * v (dof P e j))))
      by (intros i _; rewrite <- rsum_scal; apply rsum_ext; intros; ring).
    rewrite rsum_scal. replace (- rsum (edim P) (fun r => fe_grad P u e q r * fe_grad P v e q r)) with (-1 * rsum (edim P) (fun r => fe_grad P u e q r * fe_grad P v e q r)) by ring.
    f_equal. specialize (G delta).
    rewrite (rsum_ext _ (fun r => fe_grad P u e q r * fe_grad P v e q r) (fun r => fe_grad P u e q r * rsum (edim P) (fun s => delta r s * fe_grad P v e q s)))
      by (intros r Hr; rewrite rsum_delta_l by auto; reflexivity).
    rewrite <- G. apply rsum_ext. intros i _. apply rsum_ext. intros j _. f_equal. f_equal. apply rsum_ext. intros r Hr.
    rewrite rsum_delta_l by auto. reflexivity.
  - rewrite (rsum_ext _ _ (fun i => -1 * rsum (n_basis P) (fun j => u (dof P e i) * rsum (edim P) (fun r => grad P e i q r * rsum (edim P) (fun s => mval (mat_ (n_nodes P * e + q) K) r s (node P q) * grad P e j q s)) * v (dof P e j))))
      by (intros i _; rewrite <- rsum_scal; apply rsum_ext; intros; ring).
    rewrite rsum_scal, (G (fun r s => mval (mat_ (n_nodes P * e + q) K) r s (node P q))). ring.
  - set (B := fun r => vval (vat (n_nodes P * e + q) b) r (node P q)).
    unfold fe_at. rewrite (rsum_ext (edim P) _ (fun r => rsum (n_basis P) (fun h => v (dof P e h) * grad P e h q r * B r)))
      by (intros r _; rewrite rsum_scal_r; reflexivity).
    rewrite (rsum_swap (edim P) (n_basis P)), rsum_prod. apply rsum_ext. intros i _. apply rsum_ext. intros j _.
    rewrite (rsum_ext (edim P) (fun r => v (dof P e j) * grad P e j q r * B r) (fun r => v (dof P e j) * (grad P e j q r * B r))) by (intros; ring).
    rewrite rsum_scal. unfold B. ring.
  - unfold fe_at. rewrite Rmult_assoc, rsum_prod, <- rsum_scal. apply rsum_ext. intros i _. rewrite <- rsum_scal. apply rsum_ext. intros j _. ring.
  - apply rsum_zero. intros i _. apply rsum_zero. intros j _. ring.
  - destruct Hp.
  - destruct o; [apply D; [auto|apply IHa; tauto|apply IHb; tauto]|apply D; [auto|apply IHa; tauto|apply IHb; tauto]| |destruct Hp].
    destruct a; try destruct Hp. cbn [wf bform arith]. rewrite <- (IHb Hp), <- rsum_scal. apply rsum_ext. intros i _.
    rewrite <- rsum_scal. apply rsum_ext. intros j _. ring.
  - rewrite <- (IHa Hp). rewrite (rsum_ext _ _ (fun i => -1 * rsum (n_basis P) (fun j => u (dof P e i) * wf P a e i j q * v (dof P e j))))
      by (intros i _; rewrite <- rsum_scal; apply rsum_ext; intros; ring).
    rewrite rsum_scal. ring.
Qed.

(* ------------------------------------------------------------------ C137 *)
Theorem C137_bilinear_form P op : coef_ok P op -> dofs_ok P -> proper op -> (is_symmetric op = true -> tensors_symmetric P op) ->
  exists A, discretize_operator P op = Ok A /\
    forall u v, pairing P A u v = mesh_quadrature P (fun e q => bform P op e q u v).
Proof.
  intros H Hd Hp Hs.
  assert (HL : is_symmetric op = true -> locally_symmetric P op).
  { intros Es. apply (C65_symmetric_partial P op H Hd Es (Hs Es)). }
  destruct (C64_assembly P op H Hd HL) as (A & E & HA). exists A. split; [auto|]. intros u v.
  assert (EP : pairing P A u v = pairing P (assembled P op) u v).
  { unfold pairing. apply rsum_ext. intros a _. apply rsum_ext. intros b _. rewrite HA. reflexivity. }
  rewrite EP, pairing_assembled by auto. unfold mesh_quadrature. apply rsum_ext. intros e _.
  rewrite (rsum_ext _ (fun q => weight P q * bform P op e q u v) (fun q => weight P q * rsum (n_basis P) (fun i => rsum (n_basis P) (fun j => u (dof P e i) * wf P op e i j q * v (dof P e j)))))
    by (intros q _; rewrite bform_local by auto; reflexivity).
  rewrite (rsum_ext _ _ (fun i => rsum (n_basis P) (fun j => rsum (n_nodes P) (fun q => measure P e * (weight P q * (u (dof P e i) * wf P op e i j q * v (dof P e j))))))).
  - rewrite <- rsum_scal. rewrite (rsum_ext (n_nodes P) _ (fun q => rsum (n_basis P) (fun i => rsum (n_basis P) (fun j => measure P e * (weight P q * (u (dof P e i) * wf P op e i j q * v (dof P e j))))))).
    + rewrite (rsum_ext (n_basis P) _ (fun i => rsum (n_nodes P) (fun q => rsum (n_basis P) (fun j => measure P e * (weight P q * (u (dof P e i) * wf P op e i j q * v (dof P e j)))))))
        by (intros i _; apply rsum_swap). apply rsum_swap.
    + intros q _. rewrite <- !rsum_scal. apply rsum_ext. intros i _. rewrite <- !rsum_scal. reflexivity.
  - intros i _. apply rsum_ext. intros j _. unfold quad. rewrite <- rsum_scal_r, <- rsum_scal, <- rsum_scal_r.
    apply rsum_ext. intros q _. ring.
Qed.

(* ------------------------------------------------------------------ C138: constants *)
Lemma fe_at_const P c e x : unity P -> fe_at P (fun _ => c) e x = c.
Proof. intros [U _]. unfold fe_at. rewrite rsum_scal, U. ring. Qed.
Lemma fe_grad_const P c e q r : unity P -> fe_grad P (fun _ => c) e q r = 0.
Proof.
  intros [_ U]. unfold fe_grad, grad. rewrite rsum_scal, rsum_swap.
  rewrite (rsum_zero (ldim P)); [ring|]. intros k Hk. rewrite rsum_scal, U by auto. ring.
Qed.
Lemma bform_const P op e q u c : unity P -> proper op -> no_reaction op -> bform P op e q u (fun _ => c) = 0.
Proof.
  intros U. induction op as [|K|b|r| |r|o a IHa b IHb|a IHa]; cbn -[mat_ vat sat Nat.mul]; intros Hp Hn; try tauto.
  - rewrite rsum_zero; [ring|]. intros r _. rewrite (fe_grad_const P c) by auto. ring.
  - rewrite rsum_zero; [ring|]. intros r _. rewrite rsum_zero; [ring|]. intros s _. rewrite (fe_grad_const P c) by auto. ring.
  - rewrite rsum_zero; [ring|]. intros r _. rewrite (fe_grad_const P c) by auto. ring.
  - destruct o; cbn [arith].
    + rewrite IHa, IHb by tauto. ring.
    + rewrite IHa, IHb by tauto. ring.
    + destruct a; try contradiction. rewrite IHb by tauto. ring.
    + destruct a; contradiction.
  - rewrite IHa by tauto. ring.
Qed.
Lemma mesh_quadrature_zero P g : (forall e q, g e q = 0) -> mesh_quadrature P g = 0.
Proof. intros H. unfold mesh_quadrature. apply rsum_zero. intros e _. rewrite rsum_zero; [ring|]. intros q _. rewrite H. ring. Qed.
Lemma pairing_unit P A a v : (a < n_dofs P)%nat -> pairing P A (hit a) v = rsum (n_dofs P) (fun b => A a b * v b).
Proof.
  intros Ha. unfold pairing. rewrite (rsum_single _ _ a Ha).
  - apply rsum_ext. intros b _. unfold hit. destruct (Nat.eq_dec a a); [ring|contradiction].
  - intros i _ Hi. apply rsum_zero. intros b _. unfold hit. destruct (Nat.eq_dec a i); [congruence|ring].
Qed.
Theorem C138_constants P op : coef_ok P op -> dofs_ok P -> proper op -> (is_symmetric op = true -> tensors_symmetric P op) ->
  unity P -> no_reaction op ->
  exists A, discretize_operator P op = Ok A /\
    (forall a c, (a < n_dofs P)%nat -> rsum (n_dofs P) (fun b => A a b * c) = 0) /\
    (is_symmetric op = true -> forall b, (b < n_dofs P)%nat -> rsum (n_dofs P) (fun a => A a b) = 0).
Proof.
  intros H Hd Hp Hs U Hn. destruct (C137_bilinear_form P op H Hd Hp Hs) as (A & E & HA). exists A. split; [auto|].
  assert (R : forall a c, (a < n_dofs P)%nat -> rsum (n_dofs P) (fun b => A a b * c) = 0).
  { intros a c Ha. rewrite <- (pairing_unit P A a (fun _ => c)) by auto. rewrite HA. apply mesh_quadrature_zero.
    intros e q. now apply bform_const. }
  split; [exact R|]. intros Es b Hb. destruct (C65_symmetric_partial P op H Hd Es (Hs Es)) as (_ & A' & E' & _ & S).
  rewrite E in E'. injection E' as <-. rewrite <- (R b 1 Hb). apply rsum_ext. intros a _. rewrite (S a b). ring.
Qed.

(* ------------------------------------------------------------------ C139: energy *)
Lemma elliptic_proper P op : elliptic P op -> proper op /\ is_symmetric op = true.
Proof. induction 1; cbn; intuition. Qed.
Lemma rsum_nonneg n f : (forall i, (i < n)%nat -> 0 <= f i) -> 0 <= rsum n f.
Proof. intros H. rewrite <- (rsum_0 n). now apply rsum_le. Qed.
Lemma elliptic_nonneg P op : elliptic P op -> forall e q v, (e < n_cells P)%nat -> (q < n_nodes P)%nat -> 0 <= bform P op e q v v.
Proof.
  induction 1; intros e q v He Hq; cbn -[mat_ vat sat Nat.mul].
  - rewrite Ropp_involutive. apply rsum_nonneg. intros r _. apply Rle_0_sqr.
  - rewrite Ropp_involutive. now apply H.
  - rewrite Rmult_assoc. apply Rmult_le_pos; [now apply H|apply Rle_0_sqr].
  - lra.
  - specialize (IHelliptic1 e q v He Hq). specialize (IHelliptic2 e q v He Hq). lra.
  - apply Rmult_le_pos; auto.
Qed.
Theorem C139_energy P op : coef_ok P op -> dofs_ok P -> elliptic P op -> tensors_symmetric P op ->
  (forall e, (e < n_cells P)%nat -> 0 <= measure P e) -> (forall q, (q < n_nodes P)%nat -> 0 <= weight P q) ->
  exists A, discretize_operator P op = Ok A /\ (forall a b, A a b = A b a) /\ forall v, 0 <= pairing P A v v.
Proof.
  intros H Hd He Ht Hm Hw. destruct (elliptic_proper P op He) as [Hp Hs].
  destruct (C137_bilinear_form P op H Hd Hp (fun _ => Ht)) as (A & E & HA). exists A. split; [auto|]. split.
  - destruct (C65_symmetric_partial P op H Hd Hs Ht) as (_ & A' & E' & _ & S). rewrite E in E'. injection E' as <-. exact S.
  - intros v. rewrite HA. unfold mesh_quadrature. apply rsum_nonneg. intros e Hce. apply Rmult_le_pos; [auto|].
    apply rsum_nonneg. intros q Hq. apply Rmult_le_pos; [auto|]. now apply elliptic_nonneg.
Qed.

(* ------------------------------------------------------------------ C140: the mass matrix *)
(* a finite element function vanishing at the quadrature nodes of a cell vanishes on it *)
Definition unisolvent (P : problem) : Prop :=
  forall v : nat -> R, (forall q, (q < n_nodes P)%nat -> rsum (n_basis P) (fun h => v h * ref_psi P h (node P q)) = 0) ->
    forall h, (h < n_basis P)%nat -> v h = 0.
Definition mass : dop := Reac (SConst 1).
Lemma mass_ok P : coef_ok P mass.
Proof. cbn. repeat split; auto. Qed.
Lemma mass_form P e q u v : bform P mass e q u v = fe_at P u e (node P q) * fe_at P v e (node P q).
Proof. cbn. ring. Qed.
Theorem C140_mass P : dofs_ok P ->
  exists M, discretize_operator P mass = Ok M /\ (forall a b, M a b = M b a) /\
    (forall u v, pairing P M u v = mesh_quadrature P (fun e q => fe_at P u e (node P q) * fe_at P v e (node P q))) /\
    (unity P -> rsum (n_dofs P) (fun a => rsum (n_dofs P) (fun b => M a b)) = rsum (n_cells P) (measure P) * rsum (n_nodes P) (weight P)) /\
    (unisolvent P -> (forall e, (e < n_cells P)%nat -> 0 < measure P e) -> (forall q, (q < n_nodes P)%nat -> 0 < weight P q) ->
     forall v e h, (e < n_cells P)%nat -> (h < n_basis P)%nat -> v (dof P e h) <> 0 -> 0 < pairing P M v v).
Proof.
  intros Hd. destruct (C137_bilinear_form P mass (mass_ok P) Hd I (fun _ => I)) as (M & E & HM). exists M. split; [auto|].
  destruct (C65_symmetric_partial P mass (mass_ok P) Hd eq_refl I) as (_ & A' & E' & _ & S). rewrite E in E'. injection E' as <-.
  split; [exact S|].
  assert (Q : forall u v, pairing P M u v = mesh_quadrature P (fun e q => fe_at P u e (node P q) * fe_at P v e (node P q))).
  { intros u v. rewrite HM. unfold mesh_quadrature. apply rsum_ext. intros e _. f_equal. apply rsum_ext. intros q _. rewrite mass_form. reflexivity. }
  split; [exact Q|]. split.
  - intros U. transitivity (pairing P M (fun _ => 1) (fun _ => 1)).
    + unfold pairing. apply rsum_ext. intros a _. apply rsum_ext. intros b _. ring.
    + rewrite Q. unfold mesh_quadrature. rewrite <- rsum_scal_r. apply rsum_ext. intros e _. f_equal. apply rsum_ext. intros q _.
      rewrite !fe_at_const by auto. ring.
  - intros U Hm Hw v e h He Hh Hv. rewrite Q.
    assert (N : forall e q, (e < n_cells P)%nat -> (q < n_nodes P)%nat -> 0 <= weight P q * (fe_at P v e (node P q) * fe_at P v e (node P q))).
    { intros e' q _ Hq. apply Rmult_le_pos; [specialize (Hw q Hq); lra|apply Rle_0_sqr]. }
    assert (N' : forall e, (e < n_cells P)%nat -> 0 <= measure P e * rsum (n_nodes P) (fun q => weight P q * (fe_at P v e (node P q) * fe_at P v e (node P q)))).
    { intros e' He'. apply Rmult_le_pos; [specialize (Hm e' He'); lra|]. apply rsum_nonneg. auto. }
    assert (Z : forall n f, (forall i, (i < n)%nat -> 0 <= f i) -> rsum n f <= 0 -> forall i, (i < n)%nat -> f i = 0).
    { induction n as [|n IH]; intros f Hf Hs i Hi; [lia|]. cbn [rsum] in Hs.
      assert (A1 : 0 <= rsum n f) by (apply rsum_nonneg; auto). assert (A2 : 0 <= f n) by auto.
      destruct (Nat.eq_dec i n) as [->|]; [lra|]. apply IH; [auto|lra|lia]. }
    apply Rnot_le_lt. intros Hle. apply Hv. unfold mesh_quadrature in Hle.
    pose proof (Z _ _ N' Hle e He) as Ze. cbn beta in Ze.
    assert (Hle' : rsum (n_nodes P) (fun q => weight P q * (fe_at P v e (node P q) * fe_at P v e (node P q))) <= 0).
    { specialize (Hm e He). apply Rmult_integral in Ze. lra. }
    apply (U (fun h => v (dof P e h))); [|auto]. intros q Hq.
    pose proof (Z _ _ (fun q Hq => N e q He Hq) Hle' q Hq) as Zq. cbn beta in Zq. specialize (Hw q Hq).
    apply Rmult_integral in Zq. destruct Zq as [Zq|Zq]; [lra|]. apply Rmult_integral in Zq. unfold fe_at in Zq. tauto.
Qed.

(* ------------------------------------------------------------------ the spaces of the library meet the hypotheses *)
Theorem C138_lagrangian P Rd : (1 <= ldim P)%nat -> lagrangian P Rd -> unity P.
Proof.
  intros HN (table & solve & Ht & Hb & Hs & Hpsi & Hnab).
  assert (Hne : table <> []).
  { pose proof (LagrangeProps.table_facts _ _ _ HN Ht) as [Hl _]. intros ->. cbn in Hl. lia. }
  pose proof (LagrangeProps.C63_partition_of_unity _ _ _ _ _ HN Ht Hs) as HU.
  split.
  - intros x. rewrite <- (HU x), Hb. apply rsum_ext. intros h Hh. apply Hpsi. lia.
  - intros k x Hk.
    rewrite (rsum_ext _ _ (fun h => PolyModel.poly_derive (ldim P) table (solve (PolyModel.unit_rhs h)) k x)) by (intros; apply Hnab; auto).
    apply (uniqueness_limite (fun _ : R => 1) (x k)); [|apply derivable_pt_lim_const].
    apply (PolyProps.derivable_ext _ (fun t => rsum (n_basis P) (fun h => PolyModel.poly_eval (ldim P) table (solve (PolyModel.unit_rhs h)) (PolyProps.replace_coord x k t)))).
    + intros t. rewrite Hb. symmetry. apply HU.
    + apply PolyProps.derivable_rsum. intros h Hh. now apply PolyProps.C62_derive.
Qed.

(* Gauss-Jordan elimination in Q; its result is checked, not trusted *)
Fixpoint pick (pre rows : list (list Q)) : option (list Q * list (list Q)) :=
  match rows with
  | [] => None
  | r :: t => if Qeq_bool (hd 0%Q r) 0 then pick (pre ++ [r]) t else Some (r, pre ++ t)
  end.
Fixpoint gauss (n : nat) (fin todo : list (list Q)) : list (list Q) :=
  match n with
  | O => fin
  | S k => match pick [] todo with
           | None => []
           | Some (p, rest) =>
               let p' := map (fun x => Qred (x / hd 0%Q p)) (tl p) in
               let elim r := map (fun xy => Qred (fst xy - hd 0%Q r * snd xy)) (combine (tl r) p') in
               gauss k (map elim fin ++ [p']) (map elim rest)
           end
  end.
Definition qinverse (table : list (list nat)) (nodes : list (list Q)) : list (list Q) :=
  let n := length table in
  gauss n [] (map (fun i => map (LagrangeProps.qprod (nth i nodes [])) table ++ map (fun j => if Nat.eqb i j then 1%Q else 0%Q) (seq 0 n)) (seq 0 n)).

Definition square_spaces : list (nat * nat) := [(1, 1); (1, 2); (2, 1); (2, 2); (3, 1)]%nat.
Lemma spaces_checked M Rd : In (M, Rd) square_spaces ->
  exists table r, PolyModel.ct_poly_exp M Rd = Ok table /\ QuadModel.table_of M (QuadModel.standard_rule M Rd) = Some r /\ (1 <= M)%nat /\
    length (QuadModel.q_weights r) = length (QuadModel.q_nodes r) /\
    Forall (fun p => length p = M) (QuadModel.q_nodes r) /\
    LagrangeProps.check table (QuadModel.q_nodes r) (qinverse table (QuadModel.q_nodes r)) = true /\
    forallb (fun w => negb (Qle_bool w 0)) (QuadModel.q_weights r) = true.
Proof.
  intros H. unfold square_spaces in H.
  repeat (destruct H as [H|H]; [injection H as <- <-; eexists; eexists; split; [vm_compute; reflexivity|split; [reflexivity|split; [lia|split; [reflexivity|split; [repeat constructor|split; vm_compute; reflexivity]]]]]|]).
  destruct H.
Qed.
Theorem C140_standard P Rd : In (ldim P, Rd) square_spaces -> lagrangian P Rd -> standard_quadrature P Rd ->
  unity P /\ unisolvent P /\ (forall q, (q < n_nodes P)%nat -> 0 < weight P q) /\ Rabs (rsum (n_nodes P) (weight P) - 1) <= QuadProps.eps.
Proof.
  intros HI HL (r & Hr & Hn & Hnode & Hwt). destruct (spaces_checked _ _ HI) as (table & r' & Ht & Hr' & HM & Hlen & Hdim & Hc & Hpos).
  rewrite Hr in Hr'. injection Hr' as <-.
  split; [exact (C138_lagrangian P Rd HM HL)|].
  destruct HL as (table' & solve & Ht' & Hb & Hs & Hpsi & _). rewrite Ht in Ht'. injection Ht' as <-.
  set (n := length table) in *. set (qn := LagrangeProps.qnodes (QuadModel.q_nodes r)).
  assert (HK : n_nodes P = n).
  { unfold LagrangeProps.check in Hc. apply andb_true_iff in Hc as [Hc _]. apply andb_true_iff in Hc as [Hc _]. apply Nat.eqb_eq in Hc. unfold n. lia. }
  pose proof (LagrangeProps.check_sound _ _ _ _ _ HM Ht Hdim Hc) as HS. fold n qn in HS.
  split; [|split].
  - intros v Hv h Hh.
    set (c := fun j => rsum n (fun h => v h * solve (PolyModel.unit_rhs h) j)).
    assert (HP : forall x, rsum n (fun h => v h * PolyModel.basis (ldim P) table solve h x) = PolyProps.polynomial (ldim P) table c x).
    { intros x. unfold PolyProps.polynomial. fold n.
      rewrite (rsum_ext n _ (fun h => rsum n (fun j => v h * solve (PolyModel.unit_rhs h) j * PolyProps.rprod (ldim P) (fun k => x k ^ PolyModel.entry table j k)))).
      - rewrite rsum_swap. apply rsum_ext. intros j _. unfold c. rewrite rsum_scal_r. reflexivity.
      - intros h' Hh'. rewrite (LagrangeProps.basis_poly _ _ _ _ _ HM Ht Hs). unfold PolyProps.polynomial. fold n. rewrite <- rsum_scal. apply rsum_ext. intros; ring. }
    assert (HV : forall q, (q < n)%nat -> rsum n (fun j => PolyModel.vandermonde (ldim P) table qn q j * c j) = 0).
    { intros q Hq. unfold n. rewrite <- (LagrangeProps.eval_at_node (ldim P) Rd table qn HM Ht). rewrite <- HP.
      rewrite <- (Hv q) by lia. rewrite Hb. fold n. apply rsum_ext. intros i Hi. rewrite Hpsi by lia.
      rewrite !(LagrangeProps.basis_poly _ _ _ _ _ HM Ht Hs). f_equal. unfold PolyProps.polynomial. apply rsum_ext. intros j Hj. f_equal.
      clear - Hnode. unfold qn, LagrangeProps.qnodes. induction (ldim P) as [|d IH]; [reflexivity|]. cbn [PolyProps.rprod]. f_equal; [exact IH|]. rewrite Hnode. reflexivity. }
    assert (HB : inverse_of n (PolyModel.vandermonde (ldim P) table qn) (fun j i => LagrangeProps.qsolve n (qinverse table (QuadModel.q_nodes r)) (fun k => delta k i) j)).
    { intros i j Hi Hj. exact (HS (fun k => delta k j) i Hi). }
    apply inverse_comm in HB.
    assert (Hc0 : forall j, (j < n)%nat -> c j = 0).
    { intros j Hj. rewrite <- (rsum_delta_l n j c Hj).
      rewrite (rsum_ext n _ (fun k => rsum n (fun i => LagrangeProps.qsolve n (qinverse table (QuadModel.q_nodes r)) (fun k => delta k i) j * PolyModel.vandermonde (ldim P) table qn i k * c k))).
      - rewrite rsum_swap. apply rsum_zero. intros i Hi.
        rewrite (rsum_ext n _ (fun k => LagrangeProps.qsolve n (qinverse table (QuadModel.q_nodes r)) (fun k => delta k i) j * (PolyModel.vandermonde (ldim P) table qn i k * c k))) by (intros; ring).
        rewrite rsum_scal, HV by auto. ring.
      - intros k Hk. rewrite <- (HB j k Hj Hk), rsum_scal_r. reflexivity. }
    assert (E : rsum n (fun k => v k * PolyModel.basis (ldim P) table solve k (LagrangeProps.qnodes (LagrangeProps.ref_nodes (ldim P) Rd) h)) = v h).
    { rewrite (rsum_single n _ h); [|lia|].
      - rewrite (LagrangeProps.C63_nodal _ _ _ _ _ HM Ht Hs) by lia. unfold delta. rewrite Nat.eqb_refl. ring.
      - intros i Hi Hne. rewrite (LagrangeProps.C63_nodal _ _ _ _ _ HM Ht Hs) by lia. unfold delta. destruct (Nat.eqb_spec i h); [contradiction|ring]. }
    rewrite <- E, HP. unfold PolyProps.polynomial. apply rsum_zero. intros j Hj. rewrite Hc0 by auto. ring.
  - intros q Hq. rewrite Hwt. rewrite forallb_forall in Hpos. specialize (Hpos (nth q (QuadModel.q_weights r) 0%Q) ltac:(apply nth_In; lia)).
    apply negb_true_iff in Hpos.
    replace 0 with (Q2R 0) by (unfold Q2R; cbn; lra). apply Qlt_Rlt. apply Qnot_le_lt. intros F. apply Qle_bool_iff in F. congruence.
  - destruct (QuadProps.C69_weights _ _ _ Hr) as (_ & _ & _ & HW).
    replace (rsum (n_nodes P) (weight P)) with (lsum (map Q2R (QuadModel.q_weights r))); [exact HW|].
    rewrite rsum_lsum. f_equal. rewrite Hn, <- Hlen.
    rewrite (map_ext _ _ Hwt). clear. induction (QuadModel.q_weights r) as [|w l IH]; [reflexivity|].
    cbn [length map]. rewrite <- cons_seq. cbn [map nth]. f_equal. rewrite <- seq_shift, map_map. exact IH.
Qed.

(* non-vacuity: -div(K grad) + reaction on one triangle, and the standard linear element on the reference triangle *)
Lemma triangle_unity : unity one_triangle.
Proof.
  split; [intros x; cbn; lra|]. intros k x Hk. cbn in Hk. destruct k as [|[|k]]; [cbn; lra|cbn; lra|lia].
Qed.
Definition tensor : mexp := MConst 2 2 (fun i j => match i, j with O, O => 2 | O, 1%nat => 1 | 1%nat, O => 1 | 1%nat, 1%nat => 1 | _, _ => 0 end).
Example C139_example : let op := DBin OAdd (DNeg (Diff tensor)) (DBin OMul (DScal 3) (Reac (SConst 1))) in
  elliptic one_triangle op /\ coef_ok one_triangle op /\ tensors_symmetric one_triangle op /\ dofs_ok one_triangle /\ proper op.
Proof.
  intros op. split; [|split; [|split; [|split]]].
  - constructor; [constructor|constructor; [lra|constructor]].
    + intros e q x _ _. cbn. assert (0 <= (x 0%nat + x 1%nat) * (x 0%nat + x 1%nat)) by apply Rle_0_sqr. assert (0 <= x 0%nat * x 0%nat) by apply Rle_0_sqr. lra.
    + intros e q _ _. cbn. lra.
  - cbn. repeat split; auto.
  - cbn. split; auto. intros k q r s. destruct r as [|[|r]], s as [|[|s]]; reflexivity.
  - intros e i; cbn; lia.
  - cbn. auto.
Qed.
Example C138_example : let op := DBin OAdd (DNeg Lap) (Adv (VConst 2 (fun _ => 1))) in
  coef_ok one_triangle op /\ proper op /\ no_reaction op /\ unity one_triangle /\ is_symmetric op = false.
Proof. cbn. repeat split; auto; apply triangle_unity. Qed.
Example C140_example : exists P, In (ldim P, 1%nat) square_spaces /\ lagrangian P 1 /\ standard_quadrature P 1 /\ dofs_ok P /\
  (0 < n_cells P)%nat /\ n_basis P = 3%nat /\ n_nodes P = 3%nat /\ (forall e, 0 < measure P e).
Proof.
  destruct (LagrangeProps.C63_reference_elements 2 1) as (table & solve & Ht & Hl & Hs); [cbn; tauto|].
  assert (L3 : length table = 3%nat) by (rewrite <- Hl; reflexivity).
  exists {| ldim := 2; edim := 2; n_cells := 1; n_basis := length table; n_dofs := 3; dof := fun _ i => i; measure := fun _ => / 2;
     invJ := fun _ k r => if (k =? r)%nat then 1 else 0; affine := fun _ p => p;
     ref_psi := PolyModel.basis 2 table solve; ref_nabla := fun h => PolyModel.poly_derive 2 table (solve (PolyModel.unit_rhs h));
     n_nodes := 3; node := fun q k => Q2R (nth k (nth q (QuadModel.q_nodes QuadModel.table_2_3) []) 0%Q);
     weight := fun q => Q2R (nth q (QuadModel.q_weights QuadModel.table_2_3) 0%Q) |}.
  split; [cbn; tauto|]. split; [|split; [|split; [|split; [|split; [|split]]]]].
  - exists table, solve. cbn. split; [exact Ht|]. split; [auto|]. split; [exact Hs|]. split; auto.
  - exists QuadModel.table_2_3. cbn -[nth]. repeat split; auto.
  - intros e i; cbn; lia.
  - cbn. lia.
  - exact L3.
  - reflexivity.
  - intros; cbn; lra.
Qed.
Print Assumptions C137_bilinear_form.
Print Assumptions C140_standard.
