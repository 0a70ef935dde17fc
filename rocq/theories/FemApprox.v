(* C179, C180: evaluating a field of first order at a point of the mesh: convexity and accuracy. *)
From Coq Require Import QArith Qreals.
From Verif Require Import Base RSum SimplexModel SimplexProps LinAlg FieldModel FieldProps MeasureModel MeasureProps FemModel FemProps EvalModel EvalProps
  SolverModel SolverProps FemEnergy FemKernel FemMesh FemInterp.
From Verif Require PolyModel PolyProps LagrangeProps QuadModel QuadProps TriSpec TriProps DofModel DofProps.
Local Open Scope R_scope.

(* ------------------------------------------------------------------ specification *)
(* a function with a gradient that is K-Lipschitz: at every point the tangent plane is at most K/2 |q - p|^2 away *)
Definition tangent_within (N : nat) (K : R) (f : vec -> R) : Prop := forall p, exists g : vec, forall q,
  Rabs (f q - f p - rsum N (fun r => g r * (q r - p r))) <= K / 2 * dist2 N q p.
(* the largest distance between two vertices of the cell is at most h *)
Definition diameter_within (M N : nat) (c : nat -> vec) (h : R) : Prop := forall i j, (i <= M)%nat -> (j <= M)%nat -> dist2 N (c i) (c j) <= h * h.

(* ------------------------------------------------------------------ proofs *)
Lemma weighted_le n w x K : (forall i, (i < n)%nat -> 0 <= w i) -> rsum n w = 1 -> (forall i, (i < n)%nat -> x i <= K) -> rsum n (fun i => w i * x i) <= K.
Proof.
  intros Hw H1 Hx. apply Rle_trans with (rsum n (fun i => w i * K)).
  - apply rsum_le. intros i Hi. apply Rmult_le_compat_l; auto.
  - rewrite rsum_scal_r, H1. lra.
Qed.
Lemma weighted_ge n w x K : (forall i, (i < n)%nat -> 0 <= w i) -> rsum n w = 1 -> (forall i, (i < n)%nat -> K <= x i) -> K <= rsum n (fun i => w i * x i).
Proof.
  intros Hw H1 Hx. apply Rle_trans with (rsum n (fun i => w i * K)).
  - rewrite rsum_scal_r, H1. lra.
  - apply rsum_le. intros i Hi. apply Rmult_le_compat_l; auto.
Qed.
(* the square of an average is at most the average of the squares *)
Lemma jensen_square n w x : (forall i, (i < n)%nat -> 0 <= w i) -> rsum n w = 1 ->
  rsum n (fun i => w i * x i) * rsum n (fun i => w i * x i) <= rsum n (fun i => w i * (x i * x i)).
Proof.
  intros Hw H1. set (m := rsum n (fun i => w i * x i)).
  assert (A : 0 <= rsum n (fun i => w i * ((x i - m) * (x i - m)))).
  { rewrite <- (rsum_zero n (fun _ => 0)) by auto. apply rsum_le. intros i Hi. apply Rmult_le_pos; [auto|]. apply Rle_0_sqr. }
  rewrite (rsum_ext n _ (fun i => (w i * (x i * x i) - (2 * m) * (w i * x i)) + (m * m) * w i)) in A by (intros; ring).
  rewrite rsum_plus, rsum_minus, !rsum_scal, H1 in A. fold m in A. lra.
Qed.
Lemma dist2_convex M N c w p q : (forall i, (i <= M)%nat -> 0 <= w i) -> affine_coords M N c w p ->
  dist2 N q p <= rsum (S M) (fun i => w i * dist2 N q (c i)).
Proof.
  intros Hw [H1 Hp]. unfold dist2, dot, vsub.
  rewrite (rsum_ext (S M) _ (fun i => rsum N (fun r => w i * ((q r - c i r) * (q r - c i r))))) by (intros; rewrite <- rsum_scal; reflexivity).
  rewrite rsum_swap. apply rsum_le. intros r Hr.
  assert (E : q r - p r = rsum (S M) (fun i => w i * (q r - c i r))).
  { rewrite (rsum_ext (S M) _ (fun i => w i * q r - w i * c i r)) by (intros; ring). rewrite rsum_minus, rsum_scal_r, H1.
    specialize (Hp r Hr). unfold combination in Hp. rewrite Hp. ring. }
  rewrite E. apply jensen_square; [intros; apply Hw; lia|assumption].
Qed.
Lemma dist2_sym N a b : dist2 N a b = dist2 N b a.
Proof. unfold dist2, dot, vsub. apply rsum_ext. intros; ring. Qed.

Section First.
Variables (M N : nat) (nodes : list vec) (cells : list (list nat)) (pt : list (list nat)) (slv : (nat -> R) -> nat -> R) (rule : QuadModel.rule).
Hypotheses (HG : good_mesh M N nodes cells) (HR : reference M 1 pt slv rule).
Local Notation P := (problem1 M N nodes cells pt slv rule).
Local Notation corner := (fun e => vertex nodes cells e 0).
Local Notation at_node := (fun a => nth a nodes (fun _ => 0)).
Lemma values_of_basis h x : (h <= M)%nat -> ref_psi P h x = match h with O => 1 - rsum M x | S k => x k end.
Proof.
  intros Hh. destruct (kind_range M N (gm_kind _ _ _ _ HG)) as [Hd _]. destruct HR as (A & B & _). cbn [problem1 fem_problem ref_psi].
  specialize (B (PolyModel.unit_rhs h)). unfold PolyModel.basis. revert B. generalize (slv (PolyModel.unit_rhs h)) as w. intros w B. remember (1 - rsum M x) as s eqn:Es.
  destruct M as [|[|[|[|n]]]]; try lia; vm_compute in A; injection A as <-;
  assert (B0 := f_equal (Rmult s) (B 0%nat ltac:(cbn; lia))); assert (B1 := f_equal (Rmult (x 0%nat)) (B 1%nat ltac:(cbn; lia)));
  try assert (B2 := f_equal (Rmult (x 1%nat)) (B 2%nat ltac:(cbn; lia))); try assert (B3 := f_equal (Rmult (x 2%nat)) (B 3%nat ltac:(cbn; lia))); clear B;
  unfold LagrangeProps.qnodes, Q2R in *; cbn in *;
  subst s; destruct h as [|[|[|[|h]]]]; try lia; cbn in *; lra.
Qed.
(* the value at a point with barycentric coordinates w is the combination of the nodal values *)
Lemma value_at_point c e w p : (e < length cells)%nat -> affine_coords M N (vertex nodes cells e) w p ->
  fe_value P corner c e p = rsum (S M) (fun h => w h * c (dofs1 cells e h)).
Proof.
  intros He [H1 Hp].
  assert (Hm : maps_to P e (fun k => w (S k)) p).
  { intros r Hr. cbn in Hr |- *. rewrite <- (Hp r Hr). unfold combination. rewrite rsum_head.
    rewrite rsum_head in H1. rewrite (rsum_ext M (fun k => jac (vertex nodes cells e) r k * w (S k)) (fun k => w (S k) * vertex nodes cells e (S k) r - w (S k) * vertex nodes cells e 0 r)).
    2:{ intros k _. unfold jac. ring. }
    rewrite rsum_minus, rsum_scal_r. replace (w O) with (1 - rsum M (fun k => w (S k))) by lra. ring. }
  rewrite (fe_value_at P corner c e (fun k => w (S k)) p (mesh_geometry M N 1 nodes cells (dofs1 cells) (length nodes) pt slv rule HG HR) He Hm).
  unfold fe_at. rewrite (first_basis M N nodes cells pt slv rule HG HR). apply rsum_ext. intros h Hh.
  rewrite values_of_basis by lia. cbn [problem1 fem_problem dof].
  assert (E : match h with O => 1 - rsum M (fun k => w (S k)) | S k => w (S k) end = w h).
  { destruct h as [|h]; [|reflexivity]. rewrite rsum_head in H1. lra. }
  rewrite E. ring.
Qed.
Lemma dof_in e h : (e < length cells)%nat -> (h <= M)%nat -> (dofs1 cells e h < length nodes)%nat.
Proof.
  intros He Hh. apply (gm_range _ _ _ _ HG (nth e cells [])).
  - apply nth_In. exact He.
  - apply (first_in M N nodes cells HG e h); [assumption|lia].
Qed.

(* C179: at a point of the cell it is located in, the value computed lies between the smallest and the largest coefficient of
   that cell; so it does not leave the range of all coefficients. *)
Theorem C179_between locate locs : located P locate -> locs <> [] ->
  exists Psi D, pointwise_evaluation P corner locate locs = Ok (Psi, D) /\
  forall i p e, nth_error locs i = Some p -> locate p = Some e -> in_simplex M N (vertex nodes cells e) p ->
    (forall a, 0 <= Psi i a) /\ rsum (length nodes) (Psi i) = 1 /\
    forall c lo hi, (forall v, In v (nth e cells []) -> lo <= c v <= hi) -> lo <= rsum (length nodes) (fun a => Psi i a * c a) <= hi.
Proof.
  intros Hl Hne. destruct (C146_first_order M N nodes cells pt slv rule HG HR) as (A1 & A2 & _).
  destruct (C68_pointwise P corner locate locs A1 Hl Hne) as (Psi & D & E & _ & H). exists Psi, D. split; [auto|].
  intros i p e Hp He (w & Hw & Hpos). destruct (H i p Hp) as [_ H2]. destruct (H2 e He) as (_ & K2 & V). assert (Hce := Hl p e He).
  assert (G : forall c, rsum (length nodes) (fun a => Psi i a * c a) = rsum (S M) (fun h => w h * c (dofs1 cells e h))).
  { intros c. etransitivity; [exact (V c)|]. now apply value_at_point. }
  split; [|split].
  - intros a. destruct (Nat.lt_ge_cases a (length nodes)) as [Ha|Ha].
    + assert (X := G (fun b => delta a b)). rewrite (rsum_ext _ _ (fun b => delta a b * Psi i b)) in X by (intros; ring).
      rewrite (rsum_delta_l _ a _ Ha) in X. rewrite X. rewrite <- (rsum_zero (S M) (fun _ => 0)) by auto.
      apply rsum_le. intros h Hh. apply Rmult_le_pos; [apply Hpos; lia|]. unfold delta. destruct (a =? _)%nat; lra.
    + rewrite (K2 a); [lra|]. intros h Hh Eh. rewrite (first_basis M N nodes cells pt slv rule HG HR) in Hh.
      assert (Hd := dof_in e h Hce ltac:(lia)). cbn [problem1 fem_problem dof] in Eh. lia.
  - assert (X := G (fun _ => 1)). rewrite (rsum_ext _ _ (Psi i)) in X by (intros; ring). rewrite X.
    destruct Hw as [H1 _]. transitivity (rsum (S M) w); [apply rsum_ext; intros; ring|assumption].
  - intros c lo hi Hc. rewrite G. destruct Hw as [H1 _].
    assert (Hv : forall h, (h < S M)%nat -> lo <= c (dofs1 cells e h) <= hi) by (intros h Hh; apply Hc; now apply (first_in M N nodes cells HG)).
    split; [apply weighted_ge|apply weighted_le]; auto; try (intros; apply Hpos; lia); intros h Hh; apply Hv; auto.
Qed.

(* C180: the nodal values of a function with a K-Lipschitz gradient, evaluated at a point of a cell of diameter at most h, give the value
   of the function up to K h^2 / 2. *)
Theorem C180_accuracy locate locs : located P locate -> locs <> [] ->
  exists Psi D, pointwise_evaluation P corner locate locs = Ok (Psi, D) /\
  forall i p e f K h, nth_error locs i = Some p -> locate p = Some e -> in_simplex M N (vertex nodes cells e) p ->
    tangent_within N K f -> 0 <= K -> diameter_within M N (vertex nodes cells e) h ->
    Rabs (rsum (length nodes) (fun a => Psi i a * f (at_node a)) - f p) <= K / 2 * (h * h).
Proof.
  intros Hl Hne. destruct (C146_first_order M N nodes cells pt slv rule HG HR) as (A1 & A2 & _).
  destruct (C68_pointwise P corner locate locs A1 Hl Hne) as (Psi & D & E & _ & H). exists Psi, D. split; [auto|].
  intros i p e f K h Hp He (w & Hw & Hpos) Hf HK Hh. destruct (H i p Hp) as [_ H2]. destruct (H2 e He) as (_ & _ & V). assert (Hce := Hl p e He).
  assert (G : rsum (length nodes) (fun a => Psi i a * f (at_node a)) = rsum (S M) (fun j => w j * f (vertex nodes cells e j))).
  { etransitivity; [exact (V (fun a => f (at_node a)))|]. rewrite (value_at_point _ e w p Hce Hw). reflexivity. }
  rewrite G. destruct (Hf p) as (g & Hg).
  assert (S : rsum (S M) (fun j => w j * f (vertex nodes cells e j)) - f p =
              rsum (S M) (fun j => w j * (f (vertex nodes cells e j) - f p - rsum N (fun r => g r * (vertex nodes cells e j r - p r))))).
  { destruct Hw as [H1 Hc].
    rewrite (rsum_ext (S M) (fun j => w j * (f (vertex nodes cells e j) - f p - rsum N (fun r => g r * (vertex nodes cells e j r - p r))))
       (fun j => (w j * f (vertex nodes cells e j) - w j * f p) - rsum N (fun r => g r * (w j * vertex nodes cells e j r - w j * p r)))).
    2:{ intros j _. rewrite (rsum_ext N (fun r => g r * (w j * vertex nodes cells e j r - w j * p r)) (fun r => w j * (g r * (vertex nodes cells e j r - p r)))) by (intros; ring).
        rewrite rsum_scal. ring. }
    rewrite !rsum_minus, rsum_scal_r, H1, rsum_swap.
    rewrite (rsum_zero N (fun r => rsum (S M) _)); [ring|]. intros r Hr. rewrite rsum_scal, rsum_minus, rsum_scal_r, H1.
    specialize (Hc r Hr). unfold combination in Hc. rewrite Hc. ring. }
  rewrite S. clear S G V.
  apply Rabs_le.
  assert (B : forall j, (j < Datatypes.S M)%nat -> dist2 N (vertex nodes cells e j) p <= h * h).
  { intros j Hj. apply Rle_trans with (1 := dist2_convex M N (vertex nodes cells e) w p (vertex nodes cells e j) Hpos Hw).
    apply weighted_le; [intros; apply Hpos; lia|apply Hw|]. intros l Hlm. apply Hh; lia. }
  assert (C : forall j, (j < Datatypes.S M)%nat -> - (K / 2 * (h * h)) <= f (vertex nodes cells e j) - f p - rsum N (fun r => g r * (vertex nodes cells e j r - p r)) <= K / 2 * (h * h)).
  { intros j Hj. specialize (Hg (vertex nodes cells e j)). assert (Z : forall x y, Rabs x <= y -> - y <= x <= y) by (intros x y; unfold Rabs; destruct (Rcase_abs x); lra).
    apply Z in Hg. specialize (B j Hj).
    assert (K / 2 * dist2 N (vertex nodes cells e j) p <= K / 2 * (h * h)) by (apply Rmult_le_compat_l; lra). lra. }
  destruct Hw as [H1 _]. split; [apply weighted_ge|apply weighted_le]; auto; try (intros; apply Hpos; lia); intros j Hj; apply C; auto.
Qed.
End First.
(* x^2 + y^2 has a 2-Lipschitz gradient; the triangle of the example has diameter 2 *)
Example C180_example : tangent_within 2 2 (fun p => p 0%nat * p 0%nat + p 1%nat * p 1%nat) /\
  diameter_within 2 2 (vertex mesh2_nodes TriProps.mesh2 0) 2 /\ good_mesh 2 2 mesh2_nodes TriProps.mesh2 /\
  in_simplex 2 2 (vertex mesh2_nodes TriProps.mesh2 0) (fun r => rsum 3 (fun i => / 3 * vertex mesh2_nodes TriProps.mesh2 0 i r)).
Proof.
  split; [|split; [|split]].
  - intros p. exists (fun r => 2 * p r). intros q. unfold dist2, dot, vsub. cbn [rsum].
    match goal with |- Rabs ?a <= ?b => replace a with b by lra end. rewrite Rabs_right; [lra|].
    assert (A := Rle_0_sqr (q 0%nat - p 0%nat)). assert (B := Rle_0_sqr (q 1%nat - p 1%nat)). unfold Rsqr in *. lra.
  - intros i j Hi Hj. destruct i as [|[|[|i]]]; try lia; destruct j as [|[|[|j]]]; try lia; unfold dist2, dot, vsub, vertex; cbn; lra.
  - exact mesh2_good.
  - exists (fun _ => / 3). split; [split|].
    + cbn. lra.
    + intros r Hr. reflexivity.
    + intros; lra.
Qed.
Print Assumptions C179_between.
Print Assumptions C180_accuracy.
