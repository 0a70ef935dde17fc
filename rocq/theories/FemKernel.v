(* C143-C145: kernel of the elliptic matrices and unique solvability of the discrete elliptic problem. *)
From Coq Require Import QArith Qreals.
From Verif Require Import Base RSum SimplexModel SimplexProps LinAlg FieldModel FieldProps FemModel FemProps EvalModel EvalProps SolverModel SolverProps FemEnergy.
From Verif Require PolyModel PolyProps LagrangeProps QuadModel QuadProps MeasureProps.
Local Open Scope R_scope.

(* ------------------------------------------------------------------ specification *)
Section Spec.
Variable P : problem.
(* an elliptic operator with a nondegenerate diffusion *)
Inductive coercive : dop -> Prop :=
| co_lap : coercive (DNeg Lap)
| co_diff K : (forall e q x, (e < n_cells P)%nat -> (q < n_nodes P)%nat ->
    0 <= rsum (edim P) (fun r => x r * rsum (edim P) (fun s => mval (mat_ (n_nodes P * e + q) K) r s (node P q) * x s)) /\
    (rsum (edim P) (fun r => x r * rsum (edim P) (fun s => mval (mat_ (n_nodes P * e + q) K) r s (node P q) * x s)) = 0 ->
     forall r, (r < edim P)%nat -> x r = 0)) ->
    coercive (DNeg (Diff K))
| co_left a b : coercive a -> elliptic P b -> coercive (DBin OAdd a b)
| co_right a b : elliptic P a -> coercive b -> coercive (DBin OAdd a b)
| co_scal c a : 0 < c -> coercive a -> coercive (DBin OMul (DScal c) a).
(* an elliptic operator with a positive reaction *)
Inductive reactive : dop -> Prop :=
| re_reac c : (forall e q, (e < n_cells P)%nat -> (q < n_nodes P)%nat -> 0 < sval (sat (n_nodes P * e + q) c) (node P q)) -> reactive (Reac c)
| re_left a b : reactive a -> elliptic P b -> reactive (DBin OAdd a b)
| re_right a b : elliptic P a -> reactive b -> reactive (DBin OAdd a b)
| re_scal c a : 0 < c -> reactive a -> reactive (DBin OMul (DScal c) a).
(* a reference function whose gradient vanishes at the quadrature nodes takes the same value at all dofs *)
Definition gradient_unisolvent : Prop :=
  forall v : nat -> R, (forall q k, (q < n_nodes P)%nat -> (k < ldim P)%nat -> rsum (n_basis P) (fun h => v h * ref_nabla P h k (node P q)) = 0) ->
    forall h, (h < n_basis P)%nat -> v h = v 0%nat.
(* the inverse Jacobians are left inverses *)
Definition regular_cells : Prop := exists J : nat -> nat -> nat -> R,
  forall e k l, (e < n_cells P)%nat -> (k < ldim P)%nat -> (l < ldim P)%nat ->
    rsum (edim P) (fun r => invJ P e k r * J e r l) = if (k =? l)%nat then 1 else 0.
Definition positive_quadrature : Prop :=
  (forall e, (e < n_cells P)%nat -> 0 < measure P e) /\ (forall q, (q < n_nodes P)%nat -> 0 < weight P q).
(* two dofs joined by a chain of cells, consecutive cells sharing a dof *)
Inductive linked : nat -> nat -> Prop :=
| linked_refl a : linked a a
| linked_step e h h' b : (e < n_cells P)%nat -> (h < n_basis P)%nat -> (h' < n_basis P)%nat ->
    linked (dof P e h') b -> linked (dof P e h) b.
Definition connected : Prop := forall a b, (a < n_dofs P)%nat -> (b < n_dofs P)%nat -> linked a b.
(* every dof belongs to a cell *)
Definition covered : Prop := forall a, (a < n_dofs P)%nat -> exists e h, (e < n_cells P)%nat /\ (h < n_basis P)%nat /\ dof P e h = a.
End Spec.
(* an exact factorisation which only fails on singular matrices *)
Definition complete (lu : nat -> mat -> option (vec -> vec)) : Prop := forall n A B, inverse_of n A B -> lu n A <> None.

(* ------------------------------------------------------------------ proofs *)
Lemma coercive_elliptic P op : coercive P op -> elliptic P op.
Proof. induction 1; constructor; auto; try lra. intros e q x He Hq. now apply H. Qed.
Lemma reactive_elliptic P op : reactive P op -> elliptic P op.
Proof. induction 1; constructor; auto; try lra. intros e q He Hq. left. now apply H. Qed.
Lemma coercive_zero P op : coercive P op -> forall e q v, (e < n_cells P)%nat -> (q < n_nodes P)%nat -> bform P op e q v v = 0 ->
  forall r, (r < edim P)%nat -> fe_grad P v e q r = 0.
Proof.
  induction 1; intros e q v He Hq; cbn -[mat_ vat sat Nat.mul].
  - rewrite Ropp_involutive. intros E. exact (MeasureProps.rsum_sq_0 _ _ E).
  - rewrite Ropp_involutive. intros E. now apply (H e q).
  - intros E. assert (A := elliptic_nonneg P a (coercive_elliptic P a H) e q v He Hq). assert (B := elliptic_nonneg P b H0 e q v He Hq).
    apply IHcoercive; auto. lra.
  - intros E. assert (A := elliptic_nonneg P a H e q v He Hq). assert (B := elliptic_nonneg P b (coercive_elliptic P b H0) e q v He Hq).
    apply IHcoercive; auto. lra.
  - intros E. apply IHcoercive; auto. apply Rmult_integral in E. destruct E; [lra|auto].
Qed.
Lemma reactive_zero P op : reactive P op -> forall e q v, (e < n_cells P)%nat -> (q < n_nodes P)%nat -> bform P op e q v v = 0 ->
  fe_at P v e (node P q) = 0.
Proof.
  induction 1; intros e q v He Hq; cbn -[mat_ vat sat Nat.mul].
  - rewrite Rmult_assoc. intros E. specialize (H e q He Hq). apply Rmult_integral in E. destruct E as [E|E]; [lra|].
    apply Rmult_integral in E. tauto.
  - intros E. assert (A := elliptic_nonneg P a (reactive_elliptic P a H) e q v He Hq). assert (B := elliptic_nonneg P b H0 e q v He Hq).
    apply IHreactive; auto. lra.
  - intros E. assert (A := elliptic_nonneg P a H e q v He Hq). assert (B := elliptic_nonneg P b (reactive_elliptic P b H0) e q v He Hq).
    apply IHreactive; auto. lra.
  - intros E. apply IHreactive; auto. apply Rmult_integral in E. destruct E; [lra|auto].
Qed.
Lemma rsum_nonneg_0 : forall n f, (forall i, (i < n)%nat -> 0 <= f i) -> rsum n f = 0 -> forall i, (i < n)%nat -> f i = 0.
Proof.
  induction n as [|n IH]; intros f Hf Hs i Hi; [lia|]. cbn [rsum] in Hs.
  assert (A1 : 0 <= rsum n f) by (apply rsum_nonneg; auto). assert (A2 : 0 <= f n) by auto.
  destruct (Nat.eq_dec i n) as [->|]; [lra|]. apply IH; [auto|lra|lia].
Qed.
(* zero energy: the weak form vanishes at every quadrature node *)
Lemma energy_zero P op v : elliptic P op -> positive_quadrature P -> mesh_quadrature P (fun e q => bform P op e q v v) = 0 ->
  forall e q, (e < n_cells P)%nat -> (q < n_nodes P)%nat -> bform P op e q v v = 0.
Proof.
  intros He [Hm Hw] E e q Hce Hq. unfold mesh_quadrature in E.
  assert (N : forall e q, (e < n_cells P)%nat -> (q < n_nodes P)%nat -> 0 <= weight P q * bform P op e q v v).
  { intros e' q' He' Hq'. apply Rmult_le_pos; [left; auto|now apply elliptic_nonneg]. }
  assert (Z := rsum_nonneg_0 _ _ (fun e He' => Rmult_le_pos _ _ (Rlt_le _ _ (Hm e He')) (rsum_nonneg _ _ (fun q Hq' => N e q He' Hq'))) E e Hce).
  cbn beta in Z. specialize (Hm e Hce). apply Rmult_integral in Z. destruct Z as [Z|Z]; [lra|].
  assert (Z' := rsum_nonneg_0 _ _ (fun q Hq' => N e q Hce Hq') Z q Hq). cbn beta in Z'. specialize (Hw q Hq).
  apply Rmult_integral in Z'. destruct Z'; [lra|auto].
Qed.
(* the gradient on the reference cell is recovered from the one on the mesh cell *)
Lemma reference_gradient P v e q : regular_cells P -> (e < n_cells P)%nat ->
  (forall r, (r < edim P)%nat -> fe_grad P v e q r = 0) ->
  forall k, (k < ldim P)%nat -> rsum (n_basis P) (fun h => v (dof P e h) * ref_nabla P h k (node P q)) = 0.
Proof.
  intros (J & HJ) He HG k Hk.
  assert (E : forall r, (r < edim P)%nat -> fe_grad P v e q r = rsum (ldim P) (fun l => invJ P e l r * rsum (n_basis P) (fun h => v (dof P e h) * ref_nabla P h l (node P q)))).
  { intros r _. unfold fe_grad, grad.
    rewrite (rsum_ext (n_basis P) _ (fun h => rsum (ldim P) (fun l => invJ P e l r * (v (dof P e h) * ref_nabla P h l (node P q))))).
    - rewrite rsum_swap. apply rsum_ext. intros l _. apply rsum_scal.
    - intros h _. rewrite <- rsum_scal. apply rsum_ext. intros; ring. }
  set (g := fun l => rsum (n_basis P) (fun h => v (dof P e h) * ref_nabla P h l (node P q))).
  change (g k = 0). rewrite <- (rsum_delta_l (ldim P) k g Hk).
  rewrite (rsum_ext (ldim P) _ (fun l => rsum (edim P) (fun r => invJ P e l r * J e r k * g l))).
  - rewrite rsum_swap. apply rsum_zero. intros r Hr.
    rewrite (rsum_ext (ldim P) _ (fun l => invJ P e l r * g l * J e r k)) by (intros; ring). rewrite rsum_scal_r.
    assert (E' := E r Hr). rewrite HG in E' by auto. unfold g. rewrite <- E'. ring.
  - intros l Hl. rewrite rsum_scal_r, HJ by auto. rewrite delta_sym. reflexivity.
Qed.
Lemma linked_value P (v : nat -> R) a b : (forall e h, (e < n_cells P)%nat -> (h < n_basis P)%nat -> v (dof P e h) = v (dof P e 0)) ->
  linked P a b -> v a = v b.
Proof. intros H. induction 1; [reflexivity|]. rewrite <- IHlinked, (H e h), (H e h') by auto. reflexivity. Qed.

(* ------------------------------------------------------------------ C143: the kernel *)
Theorem C143_kernel P op : coef_ok P op -> dofs_ok P -> tensors_symmetric P op -> coercive P op ->
  positive_quadrature P -> regular_cells P -> gradient_unisolvent P ->
  exists A, discretize_operator P op = Ok A /\ forall v,
    (pairing P A v v = 0 -> forall e h, (e < n_cells P)%nat -> (h < n_basis P)%nat -> v (dof P e h) = v (dof P e 0)) /\
    (unity P -> connected P -> no_reaction op -> (0 < n_dofs P)%nat ->
      ((forall a, (a < n_dofs P)%nat -> rsum (n_dofs P) (fun b => A a b * v b) = 0) <-> (forall a, (a < n_dofs P)%nat -> v a = v 0%nat))).
Proof.
  intros H Hd Ht Hc Hq Hr Hg. assert (He := coercive_elliptic P op Hc). destruct (elliptic_proper P op He) as [Hp Hs].
  destruct (C137_bilinear_form P op H Hd Hp (fun _ => Ht)) as (A & E & HA). exists A. split; [auto|]. intros v.
  assert (Z : forall v, pairing P A v v = 0 -> forall e h, (e < n_cells P)%nat -> (h < n_basis P)%nat -> v (dof P e h) = v (dof P e 0)).
  { clear v. intros v Ev e h Hce Hh. rewrite HA in Ev.
    apply (Hg (fun h => v (dof P e h))); [|auto]. intros q k Hqn Hk. apply reference_gradient; auto.
    apply (coercive_zero P op Hc); auto. now apply energy_zero. }
  split; [exact (Z v)|]. intros U HC Hn Hpos. split.
  - intros Hv a Ha. apply (linked_value P); [|now apply HC]. apply Z. unfold pairing. apply rsum_zero. intros b Hb.
    rewrite (rsum_ext _ _ (fun b' => v b * (A b b' * v b'))) by (intros; ring). rewrite rsum_scal, Hv by auto. ring.
  - intros Hv a Ha. destruct (C138_constants P op H Hd Hp (fun _ => Ht) U Hn) as (A' & E' & K & _). rewrite E in E'. injection E' as <-.
    rewrite <- (K a (v 0%nat) Ha). apply rsum_ext. intros b Hb. rewrite (Hv b Hb). reflexivity.
Qed.

(* ------------------------------------------------------------------ C144, C145: unique solvability *)
Lemma system_invertible P op (on : nat -> bool) A K : discretize_operator P op = Ok A -> (forall a b, A a b = assembled P op a b) ->
  system P (fun a => on a = true) op K ->
  (forall x, pairing P A x x = 0 -> (forall a, (a < n_dofs P)%nat -> on a = true -> x a = 0) -> forall a, (a < n_dofs P)%nat -> x a = 0) ->
  exists B, inverse_of (n_dofs P) K B.
Proof.
  intros E HA HK HX. apply MeasureProps.injective_inverse. intros x Hx.
  assert (H0 : forall a, (a < n_dofs P)%nat -> on a = true -> x a = 0).
  { intros a Ha Hon. rewrite <- (Hx a Ha). rewrite (rsum_ext _ _ (fun b => delta_ a b * x b)).
    - rewrite delta_sum; auto.
    - intros b _. rewrite (proj1 (HK a b Ha) Hon). reflexivity. }
  apply HX; [|exact H0]. unfold pairing. apply rsum_zero. intros a Ha. destruct (on a) eqn:Eo.
  - apply rsum_zero. intros b _. rewrite (H0 a Ha Eo). ring.
  - rewrite (rsum_ext _ _ (fun b => x a * (A a b * x b))) by (intros; ring). rewrite rsum_scal.
    replace (rsum (n_dofs P) (fun b => A a b * x b)) with 0; [ring|]. rewrite <- (Hx a Ha). apply rsum_ext. intros b _.
    rewrite HA. destruct (HK a b Ha) as [_ K']. rewrite K' by congruence. reflexivity.
Qed.
Lemma inverse_injective n A B x y : inverse_of n A B -> (forall a, (a < n)%nat -> rsum n (fun b => A a b * x b) = rsum n (fun b => A a b * y b)) ->
  forall a, (a < n)%nat -> x a = y a.
Proof.
  intros HI H a Ha. apply inverse_comm in HI.
  assert (G : forall z, z a = rsum n (fun i => B a i * rsum n (fun b => A i b * z b))).
  { intros z. rewrite <- (rsum_delta_l n a z Ha). rewrite (rsum_ext n _ (fun k => rsum n (fun i => B a i * (A i k * z k)))).
    - rewrite rsum_swap. apply rsum_ext. intros i _. apply rsum_scal.
    - intros k Hk. rewrite <- (HI a k Ha Hk), <- rsum_scal_r. apply rsum_ext. intros; ring. }
  rewrite (G x), (G y). apply rsum_ext. intros i Hi. rewrite H by auto. reflexivity.
Qed.
(* a matrix of the system, for uniqueness *)
Definition system_of (P : problem) (on : nat -> bool) (op : dop) : mat := fun a b => if on a then delta_ a b else assembled P op a b.
Lemma system_of_ok P on op : system P (fun a => on a = true) op (system_of P on op).
Proof. intros a b _. unfold system_of. destruct (on a); split; intros; congruence. Qed.
Lemma solution_unique P (on : nat -> bool) op f g B : inverse_of (n_dofs P) (system_of P on op) B -> forall u u',
  discrete_solution P (fun a => on a = true) op f g u -> discrete_solution P (fun a => on a = true) op f g u' ->
  forall a, (a < n_dofs P)%nat -> u' a = u a.
Proof.
  intros HI u u' Hu Hu'. apply (inverse_injective _ _ _ _ _ HI). intros a Ha.
  assert (G : forall z, rsum (n_dofs P) (fun b => system_of P on op a b * z b) = if on a then z a else rsum (n_dofs P) (fun b => assembled P op a b * z b)).
  { intros z. unfold system_of. destruct (on a); [now rewrite delta_sum|reflexivity]. }
  rewrite !G. destruct (Hu a Ha) as [U1 U2], (Hu' a Ha) as [V1 V2]. destruct (on a) eqn:Eo; [rewrite U1, V1 by auto|rewrite U2, V2 by congruence]; reflexivity.
Qed.

Section Solve.
Variables (P : problem) (bdy : nat -> bool) (lu : nat -> mat -> option (vec -> vec)).
Local Notation n := (n_dofs P).
Hypothesis (Hlu : exact lu) (Hco : complete lu).
(* diffusion with values prescribed at some dof of each connected component of the mesh *)
Theorem C144_dirichlet s : bdy 0%nat = true -> (0 < n)%nat -> well_posed P s -> n_times (forcing_data s) = 1%nat -> has_datum P (boundary_data s) ->
  tensors_symmetric P (diff_op s) -> coercive P (diff_op s) -> positive_quadrature P -> regular_cells P -> gradient_unisolvent P ->
  (forall a, (a < n)%nat -> exists b, (b < n)%nat /\ bdy b = true /\ linked P a b) ->
  exists s1 s2 u, init P false s = Ok s1 /\ solve P bdy false lu s1 = Ok s2 /\ success s2 = true /\ solution s2 = [u] /\
    discrete_solution P (fun a => bdy a = true) (diff_op s) (forcing_data s) (boundary_data s) u /\
    forall u', discrete_solution P (fun a => bdy a = true) (diff_op s) (forcing_data s) (boundary_data s) u' -> forall a, (a < n)%nat -> u' a = u a.
Proof.
  intros H0 Hn Hw Hf Hg Ht Hc Hq Hr Hgu Hl. destruct (C111_elliptic_dirichlet_partial P bdy lu s H0 Hn Hlu Hw Hf Hg) as (s1 & s2 & E1 & E2 & H).
  destruct Hw as (Hcoef & Hd & Hsym & _).
  destruct (C64_assembly P (diff_op s) Hcoef Hd Hsym) as (A & EA & HA).
  destruct (C143_kernel P (diff_op s) Hcoef Hd Ht Hc Hq Hr Hgu) as (A' & EA' & HK). rewrite EA in EA'. injection EA' as <-.
  assert (HI : forall K, system P (fun a => bdy a = true) (diff_op s) K -> exists B, inverse_of n K B).
  { intros K Ks. apply (system_invertible P (diff_op s) bdy A K EA HA Ks). intros x Ex Hx a Ha.
    destruct (Hl a Ha) as (b & Hb & Eb & L). rewrite (linked_value P x a b); [now apply Hx| |auto]. apply HK. exact Ex. }
  destruct H as [(S1 & u & S2 & S3)|(_ & _ & S3 & S4)].
  - exists s1, s2, u. repeat split; auto. { intros; now apply S3. } { intros; now apply S3. }
    destruct (HI _ (system_of_ok P bdy (diff_op s))) as (B & HB). intros u' Hu'. exact (solution_unique P bdy _ _ _ B HB u u' S3 Hu').
  - exfalso. destruct (HI _ S4) as (B & HB). exact (Hco _ _ _ HB S3).
Qed.
(* with a positive reaction no boundary value is needed *)
Theorem C145_reaction s : well_posed P s -> n_times (forcing_data s) = 1%nat -> no_datum (boundary_data s) ->
  tensors_symmetric P (diff_op s) -> reactive P (diff_op s) -> positive_quadrature P -> unisolvent P -> covered P ->
  exists s1 s2 u, init P false s = Ok s1 /\ solve P bdy false lu s1 = Ok s2 /\ success s2 = true /\ solution s2 = [u] /\
    (forall a, (a < n)%nat -> rsum n (fun b => assembled P (diff_op s) a b * u b) = load_vector P (at_time (forcing_data s) 0) a) /\
    forall u', (forall a, (a < n)%nat -> rsum n (fun b => assembled P (diff_op s) a b * u' b) = load_vector P (at_time (forcing_data s) 0) a) ->
      forall a, (a < n)%nat -> u' a = u a.
Proof.
  intros Hw Hf Hg Ht Hc Hq Hu Hcov. destruct (C111_elliptic_free P bdy lu s Hlu Hw Hf Hg) as (s1 & s2 & E1 & E2 & H).
  destruct Hw as (Hcoef & Hd & Hsym & _).
  destruct (C64_assembly P (diff_op s) Hcoef Hd Hsym) as (A & EA & HA).
  assert (He := reactive_elliptic P _ Hc). destruct (elliptic_proper P _ He) as [Hp _].
  destruct (C137_bilinear_form P (diff_op s) Hcoef Hd Hp (fun _ => Ht)) as (A' & EA' & HB). rewrite EA in EA'. injection EA' as <-.
  assert (HI : forall K, system P (fun a => (fun _ => false) a = true) (diff_op s) K -> exists B, inverse_of n K B).
  { intros K Ks. apply (system_invertible P (diff_op s) (fun _ => false) A K EA HA Ks). intros x Ex _ a Ha.
    destruct (Hcov a Ha) as (e & h & Hce & Hh & <-). rewrite HB in Ex.
    apply (Hu (fun h => x (dof P e h))); [|auto]. intros q Hqn. apply (reactive_zero P (diff_op s) Hc e q x); auto. now apply energy_zero. }
  destruct H as [(S1 & u & S2 & S3)|(_ & _ & S3 & S4)].
  - exists s1, s2, u. repeat split; auto.
    destruct (HI (assembled P (diff_op s))) as (B & HBi). { intros a b _. split; [discriminate|auto]. }
    intros u' Hu'. apply (inverse_injective _ _ _ _ _ HBi). intros a Ha. rewrite S3, Hu'; auto.
  - exfalso. destruct (HI (stiff s2)) as (B & HBi). { intros a b Ha. destruct (S4 a b Ha) as [_ K]. split; [discriminate|intros _; apply K; tauto]. }
    exact (Hco _ _ _ HBi S3).
Qed.
End Solve.

(* ------------------------------------------------------------------ the spaces of the library meet the hypotheses *)
Section Gradient.
Variables (M Rd : nat) (table : list (list nat)).
Hypotheses (HM : (1 <= M)%nat) (Ht : PolyModel.ct_poly_exp M Rd = Ok table).
Local Notation n := (length table).
Lemma table_all : NoDup table /\ (forall v, In v table <-> length v = M /\ (PolyModel.array_sum v <= Rd)%nat) /\ nth 0 table [] = repeat 0%nat M /\ (0 < n)%nat.
Proof.
  destruct (PolyProps.C61_table M Rd HM) as (t & Ht' & _ & H1 & H2 & H3). rewrite Ht in Ht'. injection Ht' as <-.
  destruct table as [|r t]; [discriminate|]. injection H3 as ->. repeat split; auto; try apply H2; auto. cbn. lia.
Qed.
Lemma row_length m : (m < n)%nat -> length (nth m table []) = M.
Proof. intros Hm. apply table_all. now apply nth_In. Qed.
Lemma array_sum_le : forall a b, length a = length b -> (forall z, nth z a 0 <= nth z b 0)%nat -> (PolyModel.array_sum a <= PolyModel.array_sum b)%nat.
Proof.
  induction a as [|x a IH]; intros [|y b] HL Hz; cbn in *; try lia. assert (A := Hz 0%nat). cbn in A.
  assert (PolyModel.array_sum a <= PolyModel.array_sum b)%nat by (apply IH; [lia|]; intros z; exact (Hz (S z))). lia.
Qed.
Lemma lowered k m : (m < n)%nat -> exists j, (j < n)%nat /\ forall z, (z < M)%nat -> PolyModel.entry table j z = PolyModel.grad_entry table k m z.
Proof.
  intros Hm. set (T := map (PolyModel.grad_entry table k m) (seq 0 M)).
  assert (HT : forall z, (z < M)%nat -> nth z T 0%nat = PolyModel.grad_entry table k m z).
  { intros z Hz. unfold T. rewrite (nth_indep _ 0%nat (PolyModel.grad_entry table k m 0)) by (rewrite map_length, seq_length; auto). rewrite map_nth, seq_nth by auto. reflexivity. }
  assert (HI : In T table).
  { apply table_all. split; [unfold T; rewrite map_length, seq_length; reflexivity|].
    assert (Hs : (PolyModel.array_sum (nth m table []) <= Rd)%nat) by (apply table_all; now apply nth_In).
    enough (PolyModel.array_sum T <= PolyModel.array_sum (nth m table []))%nat by lia. apply array_sum_le.
    - rewrite row_length by auto. unfold T. rewrite map_length, seq_length. reflexivity.
    - intros z. destruct (Nat.lt_ge_cases z M) as [Hz|Hz].
      + rewrite HT by auto. unfold PolyModel.grad_entry, PolyModel.entry. destruct (Nat.eqb k z); [destruct (Nat.eqb _ 0)|]; lia.
      + rewrite (nth_overflow T) by (unfold T; rewrite map_length, seq_length; auto). lia. }
  destruct (In_nth _ _ [] HI) as (j & Hj & E). exists j. split; [auto|]. intros z Hz. unfold PolyModel.entry at 1. rewrite E. now apply HT.
Qed.
Lemma row_ext m m' : (m < n)%nat -> (m' < n)%nat -> (forall z, (z < M)%nat -> PolyModel.entry table m z = PolyModel.entry table m' z) -> m = m'.
Proof.
  intros Hm Hm' H. destruct table_all as (Hn & _). apply (proj1 (NoDup_nth table []) Hn m m' Hm Hm').
  apply nth_ext with 0%nat 0%nat; [rewrite !row_length; auto|]. intros z Hz. rewrite row_length in Hz by auto. now apply H.
Qed.
(* a polynomial whose gradient vanishes on a unisolvent set of points is constant *)
Lemma zero_gradient (pts : nat -> nat -> R) (B : nat -> nat -> R) (c : nat -> R) :
  inverse_of n (PolyModel.vandermonde M table pts) B ->
  (forall q k, (q < n)%nat -> (k < M)%nat -> PolyModel.poly_derive M table c k (pts q) = 0) ->
  forall m, (m < n)%nat -> m <> 0%nat -> c m = 0.
Proof.
  intros HI HD m0 Hm0 Hne.
  (* a coordinate in which the monomial has positive degree *)
  assert (Hk : exists k, (k < M)%nat /\ PolyModel.entry table m0 k <> 0%nat).
  { destruct table_all as (_ & _ & Z & Hpos).
    destruct (Forall_Exists_dec (fun k => PolyModel.entry table m0 k = 0%nat) (fun k => Nat.eq_dec _ _) (seq 0 M)) as [F|F].
    - exfalso. apply Hne. apply row_ext; auto. intros z Hz. rewrite Forall_forall in F. rewrite F by (apply in_seq; lia).
      unfold PolyModel.entry. rewrite Z. symmetry. apply nth_repeat.
    - apply Exists_exists in F. destruct F as (k & Hk & E). exists k. apply in_seq in Hk. split; [lia|auto]. }
  destruct Hk as (k & Hk & Hpos).
  destruct (MeasureProps.finite_choice n (fun m j => (j < n)%nat /\ forall z, (z < M)%nat -> PolyModel.entry table j z = PolyModel.grad_entry table k m z) 0%nat (fun m Hm => lowered k m Hm)) as (idx & Hidx).
  set (a := fun m => c m * INR (PolyModel.entry table m k)).
  assert (HV : forall q, (q < n)%nat -> rsum n (fun j => PolyModel.vandermonde M table pts q j * rsum n (fun m => a m * delta (idx m) j)) = 0).
  { intros q Hq. rewrite <- (HD q k Hq Hk). rewrite PolyProps.derive_sum.
    rewrite (rsum_ext n _ (fun j => rsum n (fun m => a m * (delta (idx m) j * PolyModel.vandermonde M table pts q j)))) by (intros; rewrite <- rsum_scal; apply rsum_ext; intros; ring).
    rewrite rsum_swap. apply rsum_ext. intros m Hm. rewrite rsum_scal, rsum_delta_l by (apply Hidx; auto).
    unfold a. rewrite Rmult_assoc. f_equal. destruct (Nat.eqb_spec (PolyModel.entry table m k) 0) as [->|_]; [cbn; ring|]. f_equal.
    rewrite (LagrangeProps.vandermonde_spec M Rd table pts HM Ht), PolyProps.monomial_prod' by auto. apply PolyProps.rprod_ext.
    intros z Hz. f_equal. now apply Hidx. }
  assert (Hd : rsum n (fun m => a m * delta (idx m) (idx m0)) = 0).
  { apply inverse_comm in HI. destruct (Hidx m0 Hm0) as [Hj _].
    rewrite <- (rsum_delta_l n (idx m0) (fun j => rsum n (fun m => a m * delta (idx m) j)) Hj).
    rewrite (rsum_ext n _ (fun j => rsum n (fun q => B (idx m0) q * (PolyModel.vandermonde M table pts q j * rsum n (fun m => a m * delta (idx m) j))))).
    - rewrite rsum_swap. apply rsum_zero. intros q Hq. rewrite rsum_scal, HV by auto. ring.
    - intros j Hj'. rewrite <- (HI (idx m0) j Hj Hj'), <- rsum_scal_r. apply rsum_ext. intros; ring. }
  rewrite (rsum_single n _ m0 Hm0) in Hd.
  - rewrite delta_same in Hd. unfold a in Hd. apply Rmult_integral in Hd. destruct Hd as [Hd|Hd]; [|lra].
    apply Rmult_integral in Hd. destruct Hd as [Hd|Hd]; [auto|]. exfalso. apply not_INR in Hpos. cbn in Hpos. contradiction.
  - intros m Hm Hmm. unfold a. destruct (Nat.eq_dec (PolyModel.entry table m k) 0) as [->|Hp]; [cbn; ring|].
    destruct (Nat.eq_dec (idx m) (idx m0)) as [Ei|Ei]; [|rewrite delta_other by auto; ring].
    exfalso. apply Hmm. apply row_ext; auto. intros z Hz. destruct (Hidx m Hm) as [_ Z1], (Hidx m0 Hm0) as [_ Z2].
    specialize (Z1 z Hz). specialize (Z2 z Hz). rewrite Ei, Z2 in Z1. unfold PolyModel.grad_entry in Z1.
    destruct (Nat.eqb_spec k z) as [->|_]; [|auto].
    destruct (Nat.eqb_spec (PolyModel.entry table m0 z) 0), (Nat.eqb_spec (PolyModel.entry table m z) 0); lia.
Qed.
End Gradient.
Theorem C143_standard P Rd : In (ldim P, Rd) square_spaces -> lagrangian P Rd -> standard_quadrature P Rd -> gradient_unisolvent P.
Proof.
  intros HI HL (r & Hr & Hn & Hnode & _). destruct (spaces_checked _ _ HI) as (table & r' & Ht & Hr' & HM & Hlen & Hdim & Hc & _).
  rewrite Hr in Hr'. injection Hr' as <-.
  destruct HL as (table' & solve & Ht' & Hb & Hs & Hpsi & Hnab). rewrite Ht in Ht'. injection Ht' as <-.
  set (n := length table) in *. set (qn := LagrangeProps.qnodes (QuadModel.q_nodes r)).
  assert (HK : n_nodes P = n).
  { unfold LagrangeProps.check in Hc. apply andb_true_iff in Hc as [Hc _]. apply andb_true_iff in Hc as [Hc _]. apply Nat.eqb_eq in Hc. unfold n. lia. }
  pose proof (LagrangeProps.check_sound _ _ _ _ _ HM Ht Hdim Hc) as HS. fold n qn in HS.
  assert (HB : inverse_of n (PolyModel.vandermonde (ldim P) table qn) (fun j i => LagrangeProps.qsolve n (qinverse table (QuadModel.q_nodes r)) (fun k => delta k i) j)).
  { intros i j Hi Hj. exact (HS (fun k => delta k j) i Hi). }
  intros v Hv. set (c := fun j => rsum n (fun h => v h * solve (PolyModel.unit_rhs h) j)).
  assert (Hc0 : forall m, (m < n)%nat -> m <> 0%nat -> c m = 0).
  { apply (zero_gradient (ldim P) Rd table HM Ht qn _ c HB). intros q k Hq Hk.
    rewrite <- (Hv q k) by (auto; lia). rewrite PolyProps.derive_sum. fold n.
    rewrite (rsum_ext (n_basis P) _ (fun h => rsum n (fun m => v h * solve (PolyModel.unit_rhs h) m * (if Nat.eqb (PolyModel.entry table m k) 0 then 0 else INR (PolyModel.entry table m k) * PolyModel.monomial (ldim P - 1) (qn q) (PolyModel.grad_entry table k m))))).
    - rewrite Hb, rsum_swap. fold n. apply rsum_ext. intros m _. unfold c. rewrite rsum_scal_r. reflexivity.
    - intros h Hh. rewrite Hnab by auto. rewrite PolyProps.derive_sum. fold n. rewrite <- rsum_scal. apply rsum_ext. intros m _.
      rewrite Rmult_assoc. f_equal. f_equal. destruct (Nat.eqb _ 0); [reflexivity|]. f_equal. rewrite !PolyProps.monomial_prod' by auto.
      apply PolyProps.rprod_ext. intros z _. rewrite Hnode. reflexivity. }
  assert (Hval : forall h, (h < n)%nat -> v h = c 0%nat).
  { intros h Hh. set (rn := LagrangeProps.qnodes (LagrangeProps.ref_nodes (ldim P) Rd)).
    assert (E : rsum n (fun j => PolyModel.vandermonde (ldim P) table rn h j * c j) = v h).
    { rewrite (rsum_ext n _ (fun j => rsum n (fun h' => v h' * (PolyModel.vandermonde (ldim P) table rn h j * solve (PolyModel.unit_rhs h') j)))) by (intros; unfold c; rewrite <- rsum_scal; apply rsum_ext; intros; ring).
      rewrite rsum_swap. rewrite (rsum_ext n _ (fun h' => delta h h' * v h')); [now apply rsum_delta_l|].
      intros h' _. rewrite rsum_scal. unfold rn, n. rewrite Hs by auto. unfold PolyModel.unit_rhs, delta. rewrite Nat.eqb_sym. ring. }
    rewrite <- E. rewrite (rsum_single n _ 0%nat); [cbn; ring|lia|]. intros j Hj Hne. rewrite Hc0 by auto. ring. }
  intros h Hh. rewrite (Hval h), (Hval 0%nat) by (unfold n; lia). reflexivity.
Qed.

(* ------------------------------------------------------------------ no boundary values, no reaction *)
(* the matrix has the constants in its kernel, so an exact factorisation fails and the solver says so *)
Theorem C143_neumann P bdy lu s : exact lu -> well_posed P s -> n_times (forcing_data s) = 1%nat -> no_datum (boundary_data s) ->
  is_symmetric (diff_op s) = true -> tensors_symmetric P (diff_op s) -> proper (diff_op s) -> no_reaction (diff_op s) -> unity P -> (0 < n_dofs P)%nat ->
  exists s1 s2, init P false s = Ok s1 /\ solve P bdy false lu s1 = Ok s2 /\ success s2 = false /\ solution s2 = solution s.
Proof.
  intros Hlu Hw Hf Hg Es Ht Hp Hn U Hpos.
  destruct (C111_elliptic_free P bdy lu s Hlu Hw Hf Hg) as (s1 & s2 & E1 & E2 & H). exists s1, s2. split; [auto|]. split; [auto|].
  destruct H as [(S1 & u & S2 & S3)|(S1 & S2 & _)]; [exfalso|auto].
  destruct (init_ok P false s Hw) as (s1' & E1' & I1 & I2 & I3 & I4 & I5 & I6 & I7 & I8 & I9 & I10 & I11 & I12).
  rewrite E1 in E1'. injection E1' as <-.
  destruct Hw as (Hcoef & Hd & Hsym & _). destruct (C138_constants P (diff_op s) Hcoef Hd Hp (fun _ => Ht) U Hn) as (A & EA & K & _).
  destruct (C64_assembly P (diff_op s) Hcoef Hd Hsym) as (A' & EA' & HA). rewrite EA in EA'. injection EA' as <-.
  unfold solve in E2. rewrite I6 in E2. unfold no_datum in Hg. rewrite Hg in E2. cbn [Nat.eqb bind] in E2. unfold solve_elliptic in E2. rewrite I1 in E2. cbn [negb] in E2.
  destruct (lu (n_dofs P) (stiff s1)) as [slv|] eqn:El; [|injection E2 as <-; discriminate].
  assert (HI : inverse_of (n_dofs P) (stiff s1) (fun k j => slv (fun i => delta i j) k)).
  { intros i j Hi Hj. exact (Hlu _ _ _ El (fun i => delta i j) i Hi). }
  enough (1 = 0) by lra.
  apply (inverse_injective _ _ _ (fun _ => 1) (fun _ => 0) HI) with (a := 0%nat); [|auto].
  intros a Ha. transitivity 0; [|symmetry; apply rsum_zero; intros; ring]. rewrite <- (K a 1 Ha). apply rsum_ext. intros b _. rewrite I9, HA. reflexivity.
Qed.

(* non-vacuity: the Poisson equation on one triangle with the value at dof 0 prescribed *)
Lemma triangle_gradient : gradient_unisolvent one_triangle.
Proof.
  intros v H h Hh. assert (A := H 0%nat 0%nat ltac:(cbn; lia) ltac:(cbn; lia)). assert (B := H 0%nat 1%nat ltac:(cbn; lia) ltac:(cbn; lia)).
  cbn in A, B, Hh. destruct h as [|[|[|h]]]; try lra; lia.
Qed.
Example C144_example : let s := make_pde (DNeg Lap) (Callable (fun _ => 1)) [] in
  well_posed one_triangle s /\ coercive one_triangle (diff_op s) /\ positive_quadrature one_triangle /\ regular_cells one_triangle /\
  gradient_unisolvent one_triangle /\ connected one_triangle /\ unity one_triangle /\ exact some_lu /\ complete some_lu.
Proof.
  cbv zeta. split; [|split; [|split; [|split; [|split; [|split; [|split; [|split]]]]]]].
  - apply tri_posed; cbn; auto. split; cbn; auto.
  - constructor.
  - split; intros; cbn; lra.
  - exists (fun _ r k => if (r =? k)%nat then 1 else 0). intros e k l _ Hk Hl. cbn in *. destruct k as [|[|k]], l as [|[|l]]; cbn; try lra; lia.
  - apply triangle_gradient.
  - intros a b Ha Hb. cbn in Ha, Hb. apply (linked_step one_triangle 0 a b b); cbn; auto. constructor.
  - apply triangle_unity.
  - apply some_lu_exact.
  - exact some_lu_complete.
Qed.
Print Assumptions C144_dirichlet.
Print Assumptions C143_standard.
