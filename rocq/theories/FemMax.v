(* C172: the discrete maximum principle.  On a mesh without obtuse angles the discrete solution of a Poisson problem
   without sources lies below its largest boundary value, and without sinks above its smallest one. *)
From Coq Require Import QArith Qreals.
From Verif Require Import Base RSum SimplexModel SimplexProps LinAlg FieldModel FieldProps MeasureModel MeasureProps FemModel FemProps EvalModel EvalProps
  SolverModel SolverProps FemEnergy FemKernel FemMesh FemPatch.
From Verif Require PolyModel PolyProps LagrangeProps QuadModel QuadProps TriSpec TriProofs TriProps.
Local Open Scope R_scope.

(* ------------------------------------------------------------------ specification *)
(* n is normal to the facet of the simplex p opposite to its vertex a, and points towards a *)
Definition inward_normal (d : nat) (p : nat -> vec) (a : nat) (n : vec) : Prop :=
  exists k, (forall i, (i <= d)%nat -> i <> a -> rsum d (fun r => n r * p i r) = k) /\ k < rsum d (fun r => n r * p a r).
(* no two facets of the simplex meet at an obtuse angle *)
Definition nonobtuse (d : nat) (p : nat -> vec) : Prop :=
  forall a b n m, (a <= d)%nat -> (b <= d)%nat -> a <> b -> inward_normal d p a n -> inward_normal d p b m -> rsum d (fun r => n r * m r) <= 0.
Definition nonobtuse_mesh (d : nat) (nodes : list vec) (cells : list (list nat)) : Prop :=
  forall c, In c cells -> nonobtuse d (fun i => place nodes (nth i c 0%nat)).
(* the sign of the forcing term: everywhere, or in all the samples *)
Definition source_sign (sign : R -> Prop) (f : source) : Prop :=
  match f with Callable f => forall x, sign (f x) | Sampled m => forall k, (k < drows m)%nat -> sign (dval m k 0%nat) end.

(* ------------------------------------------------------------------ angles of triangles *)
(* for a triangle: the three angles are at most right angles *)
Definition right_or_acute (p : nat -> vec) : Prop :=
  forall a b c, (a <= 2)%nat -> (b <= 2)%nat -> (c <= 2)%nat -> a <> b -> a <> c -> b <> c ->
    0 <= rsum 2 (fun r => (p a r - p c r) * (p b r - p c r)).
Lemma triangle_angles p : right_or_acute p -> nonobtuse 2 p.
Proof.
  intros H a b n m Ha Hb Hab (k & N1 & N2) (l & M1 & M2).
  destruct (finite_choice 1 (fun _ c => (c <= 2)%nat /\ c <> a /\ c <> b) 0%nat) as (s & Hs).
  { intros _ _. destruct a as [|[|[|a]]], b as [|[|[|b]]]; try lia; [exists 2%nat|exists 1%nat|exists 2%nat|exists 0%nat|exists 1%nat|exists 0%nat]; lia. }
  destruct (Hs 0%nat ltac:(lia)) as (C1 & C2 & C3). set (c := s 0%nat) in *.
  assert (X := H a b c Ha Hb C1 Hab (not_eq_sym C2) (not_eq_sym C3)).
  assert (A1 := N1 c C1 C2). assert (A2 := N1 b Hb (not_eq_sym Hab)). assert (B1 := M1 c C1 C3). assert (B2 := M1 a Ha Hab).
  cbn [rsum] in *. set (n0 := n 0%nat) in *. set (n1 := n 1%nat) in *. set (m0 := m 0%nat) in *. set (m1 := m 1%nat) in *.
  set (x0 := p a 0%nat - p c 0%nat) in *. set (x1 := p a 1%nat - p c 1%nat) in *. set (y0 := p b 0%nat - p c 0%nat) in *. set (y1 := p b 1%nat - p c 1%nat) in *.
  assert (Ey : n0 * y0 + n1 * y1 = 0) by (unfold y0, y1; lra). assert (Ex : m0 * x0 + m1 * x1 = 0) by (unfold x0, x1; lra).
  assert (Px : 0 < n0 * x0 + n1 * x1) by (unfold x0, x1; lra). assert (Py : 0 < m0 * y0 + m1 * y1) by (unfold y0, y1; lra).
  clearbody n0 n1 m0 m1 x0 x1 y0 y1. clear - X Ey Ex Px Py.
  set (D := x0 * y1 - x1 * y0).
  assert (E : D * D * (n0 * m0 + n1 * m1) = - ((n0 * x0 + n1 * x1) * (m0 * y0 + m1 * y1) * (x0 * y0 + x1 * y1))).
  { unfold D. 
    assert (F1 : (x0 * y1 - x1 * y0) * n0 = (n0 * x0 + n1 * x1) * y1) by (transitivity ((n0 * x0 + n1 * x1) * y1 - x1 * (n0 * y0 + n1 * y1)); [ring|rewrite Ey; ring]).
    assert (F2 : (x0 * y1 - x1 * y0) * n1 = - (n0 * x0 + n1 * x1) * y0) by (transitivity (- (n0 * x0 + n1 * x1) * y0 + x0 * (n0 * y0 + n1 * y1)); [ring|rewrite Ey; ring]).
    assert (G1 : (x0 * y1 - x1 * y0) * m0 = - (m0 * y0 + m1 * y1) * x1) by (transitivity (- (m0 * y0 + m1 * y1) * x1 + y1 * (m0 * x0 + m1 * x1)); [ring|rewrite Ex; ring]).
    assert (G2 : (x0 * y1 - x1 * y0) * m1 = (m0 * y0 + m1 * y1) * x0) by (transitivity ((m0 * y0 + m1 * y1) * x0 - y0 * (m0 * x0 + m1 * x1)); [ring|rewrite Ex; ring]).
    transitivity (((x0 * y1 - x1 * y0) * n0) * ((x0 * y1 - x1 * y0) * m0) + ((x0 * y1 - x1 * y0) * n1) * ((x0 * y1 - x1 * y0) * m1)); [ring|].
    rewrite F1, F2, G1, G2. ring. }
  assert (D <> 0).
  { intros Z. unfold D in Z. 
    assert (K : (n0 * x0 + n1 * x1) * y1 = 0) by (transitivity ((x0 * y1 - x1 * y0) * n0 + x1 * (n0 * y0 + n1 * y1)); [ring|rewrite Ey, Z; ring]).
    assert (L : (n0 * x0 + n1 * x1) * y0 = 0) by (transitivity (- ((x0 * y1 - x1 * y0) * n1) + x0 * (n0 * y0 + n1 * y1)); [ring|rewrite Ey, Z; ring]).
    apply Rmult_integral in K. apply Rmult_integral in L. destruct K as [K|K]; [lra|]. destruct L as [L|L]; [lra|]. rewrite K, L in Py. lra. }
  assert (HD : 0 < D * D) by (apply Rsqr_pos_lt; auto). clearbody D.
  assert (0 <= (n0 * x0 + n1 * x1) * (m0 * y0 + m1 * y1) * (x0 * y0 + x1 * y1)) by (repeat apply Rmult_le_pos; lra).
  destruct (Rle_dec (n0 * m0 + n1 * m1) 0) as [|K]; [lra|]. exfalso. 
  assert (0 < D * D * (n0 * m0 + n1 * m1)) by (apply Rmult_lt_0_compat; [exact HD|now apply Rnot_le_lt]). lra.
Qed.
(* segments have no angles *)
Lemma segment_angles p : nonobtuse 1 p.
Proof.
  intros a b n m Ha Hb Hab (k & N1 & N2) (l & M1 & M2). assert (A := N1 b Hb (not_eq_sym Hab)). assert (B := M1 a Ha Hab). cbn [rsum] in *. nra.
Qed.

(* ------------------------------------------------------------------ matrices *)
(* symmetric sign pattern: nonpositive outside the diagonal, zero row sums, definite on the vectors vanishing on the boundary *)
Lemma matrix_maximum n (A : nat -> nat -> R) (on : nat -> bool) (u : nat -> R) (K : R) :
  (forall a b, (a < n)%nat -> (b < n)%nat -> a <> b -> A a b <= 0) ->
  (forall a, (a < n)%nat -> rsum n (fun b => A a b * K) = 0) ->
  (forall v : nat -> R, rsum n (fun a => rsum n (fun b => v a * A a b * v b)) <= 0 -> (forall a, (a < n)%nat -> on a = true -> v a = 0) -> forall a, (a < n)%nat -> v a = 0) ->
  (forall a, (a < n)%nat -> on a = true -> u a <= K) ->
  (forall a, (a < n)%nat -> on a = false -> rsum n (fun b => A a b * u b) <= 0) ->
  forall a, (a < n)%nat -> u a <= K.
Proof.
  intros Hoff Hrow Hker Hb Hi.
  set (v := fun a => Rmax (u a - K) 0). set (w := fun a => Rmax (K - u a) 0).
  assert (Hv : forall a, 0 <= v a) by (intros a; apply Rmax_r). assert (Hw : forall a, 0 <= w a) by (intros a; apply Rmax_r).
  assert (Evw : forall a, u a - K = v a - w a /\ v a * w a = 0).
  { intros a. unfold v, w, Rmax. destruct (Rle_dec (u a - K) 0), (Rle_dec (K - u a) 0); split; try lra; nra. }
  assert (Z : forall a, (a < n)%nat -> v a = 0).
  { apply Hker.
    - assert (L1 : rsum n (fun a => rsum n (fun b => v a * A a b * v b)) <= rsum n (fun a => v a * rsum n (fun b => A a b * (u b - K)))).
      { apply rsum_le. intros a Ha. rewrite <- rsum_scal. apply rsum_le. intros b Hbn. destruct (Evw b) as [E1 E2]. rewrite E1.
        destruct (Nat.eq_dec a b) as [->|Hne].
        - assert (v b * A b b * v b = v b * (A b b * (v b - w b))); [|lra]. transitivity (v b * (A b b * (v b - w b)) + A b b * (v b * w b)); [ring|rewrite E2; ring].
        - assert (S1 := Hoff a b Ha Hbn Hne). assert (0 <= v a * w b * - A a b) by (repeat apply Rmult_le_pos; auto; lra). lra. }
      assert (L2 : rsum n (fun a => v a * rsum n (fun b => A a b * (u b - K))) <= 0).
      { rewrite <- (rsum_zero n (fun _ => 0)) by auto. apply rsum_le. intros a Ha.
        rewrite (rsum_ext n _ (fun b => A a b * u b - A a b * K)) by (intros; ring). rewrite rsum_minus, Hrow by auto.
        destruct (on a) eqn:Eo.
        - replace (v a) with 0; [lra|]. unfold v. rewrite Rmax_right; [reflexivity|]. specialize (Hb a Ha Eo). lra.
        - specialize (Hi a Ha Eo). assert (X := Hv a). nra. }
      lra.
    - intros a Ha Eo. unfold v. rewrite Rmax_right; [reflexivity|]. specialize (Hb a Ha Eo). lra. }
  intros a Ha. specialize (Z a Ha). assert (X := Rmax_l (u a - K) 0). fold (v a) in X. lra.
Qed.

(* ------------------------------------------------------------------ the mesh *)
Section Maximum.
Variables (d : nat) (nodes : list vec) (cells : list (list nat)) (pt : list (list nat)) (slv : (nat -> R) -> nat -> R) (rule : QuadModel.rule).
Hypothesis (HG : good_mesh d d nodes cells) (HR : reference d 1 pt slv rule) (HO : nonobtuse_mesh d nodes cells).
Local Notation P := (problem1 d d nodes cells pt slv rule).
Local Notation N := (length cells).
Local Notation vtx := (vertex nodes cells).
Local Notation id := (id cells).
(* the barycentric coordinates at the vertices *)
Lemma slope_at e a h : (e < N)%nat -> (a <= d)%nat -> (h <= d)%nat -> a <> h ->
  rsum d (fun r => slope d (vtx e) a r * vtx e h r) + 1 = rsum d (fun r => slope d (vtx e) a r * vtx e a r).
Proof.
  intros He Ha Hh Hne. assert (Hd := dim_range d nodes cells HG). assert (HC := regular d nodes cells HG e He).
  assert (L := left_inv d (vtx e) Hd HC).
  assert (G : forall k l, (l < d)%nat -> rsum d (fun r => slope d (vtx e) k r * (vtx e (S l) r - vtx e 0%nat r)) = ref_slope k l).
  { intros k l Hl. unfold slope. rewrite (rsum_ext d _ (fun r => rsum d (fun j => ref_slope k j * (cell_invJ d d (vtx e) j r * (vtx e (S l) r - vtx e 0%nat r))))).
    - rewrite rsum_swap. rewrite (rsum_single d _ l Hl).
      + rewrite rsum_scal, L, Nat.eqb_refl by auto. ring.
      + intros j Hj Hjl. rewrite rsum_scal, L by auto. destruct (Nat.eqb_spec j l); [contradiction|ring].
    - intros r _. rewrite <- rsum_scal_r. apply rsum_ext. intros; ring. }
  assert (G' : forall k l, (l < d)%nat -> rsum d (fun r => slope d (vtx e) k r * vtx e (S l) r) = ref_slope k l + rsum d (fun r => slope d (vtx e) k r * vtx e 0%nat r)).
  { intros k l Hl. rewrite <- (G k l Hl), <- rsum_plus. apply rsum_ext. intros; ring. }
  destruct a as [|a], h as [|h]; try lia.
  - rewrite G' by lia. cbn [ref_slope]. ring.
  - rewrite G' by lia. cbn [ref_slope]. rewrite Nat.eqb_refl. ring.
  - rewrite !G' by lia. cbn [ref_slope]. rewrite Nat.eqb_refl. destruct (Nat.eqb_spec a h); [lia|ring].
Qed.
Lemma slope_normal e a : (e < N)%nat -> (a <= d)%nat -> inward_normal d (vtx e) a (slope d (vtx e) a).
Proof.
  intros He Ha. exists (rsum d (fun r => slope d (vtx e) a r * vtx e a r) - 1). split; [|lra].
  intros i Hi Hne. rewrite <- (slope_at e a i He Ha Hi (not_eq_sym Hne)). ring.
Qed.
Lemma slope_obtuse e a b : (e < N)%nat -> (a <= d)%nat -> (b <= d)%nat -> a <> b -> rsum d (fun r => slope d (vtx e) a r * slope d (vtx e) b r) <= 0.
Proof.
  intros He Ha Hb Hne. destruct (cell_facts d nodes cells HG e He) as (Hin & _).
  apply (HO _ Hin a b); auto; apply slope_normal; auto.
Qed.
(* the entries of the stiffness matrix outside the diagonal *)
Lemma stiffness_sign a b : (a < length nodes)%nat -> (b < length nodes)%nat -> a <> b -> assembled P (DNeg Lap) a b <= 0.
Proof.
  intros Ha Hb Hne. destruct (C146_first_order d d nodes cells pt slv rule HG HR) as (A1 & _ & _ & _ & _ & A6 & _).
  destruct (C137_bilinear_form P (DNeg Lap) I A1 I (fun _ => I)) as (A & E & HA).
  destruct (C64_assembly P (DNeg Lap) I A1) as (A' & E' & HA').
  { intros Es. exact (proj1 (C65_symmetric_partial P (DNeg Lap) I A1 Es I)). }
  rewrite E in E'. injection E' as <-. rewrite <- HA'.
  set (v := fun i => if Nat.eqb i a then 1 else 0). set (w := fun i => if Nat.eqb i b then 1 else 0).
  assert (EP : pairing P A v w = A a b).
  { unfold pairing. change (n_dofs P) with (length nodes). rewrite (rsum_single (length nodes) _ a Ha).
    - rewrite (rsum_single (length nodes) _ b Hb).
      + unfold v, w. rewrite !Nat.eqb_refl. ring.
      + intros j _ Hj. unfold w. destruct (Nat.eqb_spec j b); [contradiction|ring].
    - intros j _ Hj. apply rsum_zero. intros i _. unfold v. destruct (Nat.eqb_spec j a); [contradiction|ring]. }
  rewrite <- EP, HA. destruct A6 as [Hm Hw]. unfold mesh_quadrature.
  rewrite <- (rsum_zero (n_cells P) (fun _ => 0)) by auto. apply rsum_le. intros e He. assert (M := Hm e He).
  assert (Sg : rsum (n_nodes P) (fun q => weight P q * bform P (DNeg Lap) e q v w) <= 0); [|nra].
  rewrite <- (rsum_zero (n_nodes P) (fun _ => 0)) by auto. apply rsum_le. intros q Hq. assert (Wq := Hw q Hq).
  assert (B : bform P (DNeg Lap) e q v w <= 0); [|nra].
  cbn [bform]. rewrite Ropp_involutive. change (edim P) with d. change (n_cells P) with N in He.
  rewrite (rsum_ext d _ (fun r => rsum (S d) (fun h => rsum (S d) (fun h' => v (id e h) * w (id e h') * (slope d (vtx e) h r * slope d (vtx e) h' r))))).
  2:{ intros r Hr. rewrite !patch_grad by auto. rewrite <- rsum_scal_r. apply rsum_ext. intros h _. rewrite <- rsum_scal. apply rsum_ext. intros h' _. ring. }
  rewrite rsum_swap. rewrite <- (rsum_zero (S d) (fun _ => 0)) by auto. apply rsum_le. intros h Hh.
  rewrite rsum_swap. rewrite <- (rsum_zero (S d) (fun _ => 0)) by auto. apply rsum_le. intros h' Hh'. rewrite rsum_scal.
  unfold v, w. destruct (Nat.eqb_spec (id e h) a) as [E1|]; [|lra]. destruct (Nat.eqb_spec (id e h') b) as [E2|]; [|lra].
  assert (X := slope_obtuse e h h' He ltac:(lia) ltac:(lia)). assert (h <> h') by congruence. specialize (X H). lra.
Qed.
(* the basis functions of first order, and the quadrature nodes *)
Lemma first_psi h x : (h <= d)%nat -> ref_psi P h x = match h with O => 1 - rsum d x | S k => x k end.
Proof.
  intros Hh. assert (Hd := dim_range d nodes cells HG). destruct HR as (A & B & _). cbn [problem1 fem_problem ref_psi].
  specialize (B (PolyModel.unit_rhs h)). unfold PolyModel.basis. revert B. generalize (slv (PolyModel.unit_rhs h)) as w. intros w B. remember (1 - rsum d x) as s eqn:Es.
  destruct d as [|[|[|[|n]]]]; try lia; vm_compute in A; injection A as <-;
  assert (B0 := f_equal (Rmult s) (B 0%nat ltac:(cbn; lia))); assert (B1 := f_equal (Rmult (x 0%nat)) (B 1%nat ltac:(cbn; lia)));
  try assert (B2 := f_equal (Rmult (x 1%nat)) (B 2%nat ltac:(cbn; lia))); try assert (B3 := f_equal (Rmult (x 2%nat)) (B 3%nat ltac:(cbn; lia))); clear B;
  unfold LagrangeProps.qnodes, Q2R in *; cbn in *;
  subst s; destruct h as [|[|[|[|h]]]]; try lia; cbn in *; lra.
Qed.
End Maximum.
(* all nodes of a quadrature rule in the reference simplex *)
Definition rule_inside (d : nat) (r : QuadModel.rule) : bool :=
  forallb (fun x => forallb (fun k => Qle_bool 0 (nth k x 0%Q)) (seq 0 d) && Qle_bool (fold_right Qplus 0%Q (map (fun k => nth k x 0%Q) (seq 0 d))) 1) (QuadModel.q_nodes r).
Lemma rsum_Q2R d (x : nat -> Q) : rsum d (fun k => Q2R (x k)) = Q2R (fold_right Qplus 0%Q (map x (seq 0 d))).
Proof.
  rewrite rsum_lsum. generalize (seq 0 d) as l. induction l as [|k l IH]; cbn; [unfold Q2R; cbn; lra|]. rewrite IH, Q2R_plus. reflexivity.
Qed.
Lemma rule_inside_ok d r q : rule_inside d r = true -> (q < length (QuadModel.q_nodes r))%nat ->
  (forall k, (k < d)%nat -> 0 <= Q2R (nth k (nth q (QuadModel.q_nodes r) []) 0%Q)) /\
  rsum d (fun k => Q2R (nth k (nth q (QuadModel.q_nodes r) []) 0%Q)) <= 1.
Proof.
  intros H Hq. unfold rule_inside in H. rewrite forallb_forall in H. specialize (H _ (nth_In _ [] Hq)). apply andb_true_iff in H as [H1 H2]. split.
  - intros k Hk. rewrite forallb_forall in H1. specialize (H1 k ltac:(apply in_seq; lia)). apply Qle_bool_imp_le, Qle_Rle in H1.
    replace (Q2R 0) with 0 in H1 by (unfold Q2R; cbn; lra). exact H1.
  - rewrite rsum_Q2R. apply Qle_bool_imp_le, Qle_Rle in H2. replace (Q2R 1) with 1 in H2 by (unfold Q2R; cbn; lra). exact H2.
Qed.
Lemma standard_inside d rule : (1 <= d <= 3)%nat -> QuadModel.table_of d (QuadModel.standard_rule d 1) = Some rule -> rule_inside d rule = true.
Proof. intros Hd. destruct d as [|[|[|[|n]]]]; try lia; vm_compute; intros E; injection E as <-; reflexivity. Qed.

Section Principle.
Variables (d : nat) (nodes : list vec) (cells : list (list nat)) (pt : list (list nat)) (slv : (nat -> R) -> nat -> R) (rule : QuadModel.rule).
Hypothesis (HG : good_mesh d d nodes cells) (HR : reference d 1 pt slv rule) (HO : nonobtuse_mesh d nodes cells).
Local Notation P := (problem1 d d nodes cells pt slv rule).
Local Notation N := (length cells).
Lemma nodes_inside h q : (h <= d)%nat -> (q < n_nodes P)%nat -> 0 <= ref_psi P h (node P q).
Proof.
  intros Hh Hq. rewrite (first_psi d nodes cells pt slv rule HG HR) by auto. assert (Hd := dim_range d nodes cells HG). destruct HR as (_ & _ & C).
  destruct (rule_inside_ok d rule q (standard_inside d rule Hd C) Hq) as [A B]. cbn [problem1 fem_problem node].
  destruct h as [|h]; [lra|]. apply A. lia.
Qed.
(* the sign of the load vector *)
Lemma load_sign f a : source_ok P f -> source_sign (fun y => y <= 0) f -> load_vector P (at_time f 0) a <= 0.
Proof.
  intros [_ Hf] Hs. destruct (C146_first_order d d nodes cells pt slv rule HG HR) as (_ & _ & _ & _ & _ & [Hm Hw] & _).
  assert (F : forall e q, (e < n_cells P)%nat -> (q < n_nodes P)%nat -> fvalue P (at_time f 0) e q <= 0).
  { intros e q He Hq. destruct f as [f|m]; cbn [at_time fvalue source_sign forcing_ok] in *; [auto|]. apply Hs. nia. }
  unfold load_vector. rewrite <- (rsum_zero (n_cells P) (fun _ => 0)) by auto. apply rsum_le. intros e He.
  rewrite <- (rsum_zero (n_basis P) (fun _ => 0)) by auto. apply rsum_le. intros i Hi.
  assert (L : load P (at_time f 0) e i <= 0).
  { unfold load. assert (M := Hm e He). assert (Sg : rsum (n_nodes P) (fun q => fvalue P (at_time f 0) e q * ref_psi P i (node P q) * weight P q) <= 0); [|set (x := rsum (n_nodes P) _) in *; clearbody x; nra].
    rewrite <- (rsum_zero (n_nodes P) (fun _ => 0)) by auto. apply rsum_le. intros q Hq.
    rewrite (first_basis d d nodes cells pt slv rule HG HR) in Hi.
    assert (A := F e q He Hq). assert (B := nodes_inside i q ltac:(lia) Hq). assert (C := Hw q Hq).
    revert A B C. generalize (fvalue P (at_time f 0) e q) (ref_psi P i (node P q)) (weight P q). intros x y z A B C.
    assert (0 <= - x * y * z) by (repeat apply Rmult_le_pos; lra). lra. }
  unfold hit. destruct (Nat.eq_dec (dof P e i) a); lra.
Qed.
Lemma solution_maximum bdy f g u K : source_ok P f -> source_sign (fun y => y <= 0) f ->
  discrete_solution P (fun a => bdy a = true) (DNeg Lap) f g u ->
  (forall a, (a < length nodes)%nat -> bdy a = true -> dval g a 0%nat <= K) ->
  (forall a, (a < length nodes)%nat -> exists b, (b < length nodes)%nat /\ bdy b = true /\ chain cells a b) ->
  forall a, (a < length nodes)%nat -> u a <= K.
Proof.
  intros Hf Hs Hu Hb Hch. destruct (C146_first_order d d nodes cells pt slv rule HG HR) as (A1 & _ & A3 & _ & A5 & A6 & A7 & _).
  destruct (C64_assembly P (DNeg Lap) I A1) as (A & E & HA).
  { intros Es. exact (proj1 (C65_symmetric_partial P (DNeg Lap) I A1 Es I)). }
  destruct (C143_kernel P (DNeg Lap) I A1 I (co_lap P) A6 A7 A5) as (A' & E' & HK). rewrite E in E'. injection E' as <-.
  destruct (C139_energy P (DNeg Lap) I A1 (coercive_elliptic P _ (co_lap P)) I) as (A' & E' & _ & HE); [intros; left; now apply A6|intros; left; now apply A6|]. rewrite E in E'. injection E' as <-.
  destruct (C138_constants P (DNeg Lap) I A1 I (fun _ => I) A3 I) as (A' & E' & HZ & _). rewrite E in E'. injection E' as <-.
  apply (matrix_maximum (length nodes) A bdy).
  - intros a b Ha Hbn Hne. rewrite HA. now apply stiffness_sign.
  - intros a Ha. now apply (HZ a K).
  - intros v Hv Hv0 a Ha. destruct (Hch a Ha) as (b & B1 & B2 & B3).
    rewrite (linked_value P v a b); [now apply Hv0| |now apply first_linked].
    apply HK. assert (X := HE v). unfold pairing in X |- *. change (n_dofs P) with (length nodes) in *. lra.
  - intros a Ha Ho. destruct (Hu a Ha) as [U _]. rewrite (U Ho). now apply Hb.
  - intros a Ha Ho. destruct (Hu a Ha) as [_ U].
    apply Rle_trans with (load_vector P (at_time f 0) a); [|now apply load_sign].
    right. rewrite <- U by congruence. apply rsum_ext. intros b _. now rewrite HA.
Qed.
(* no source: the largest value of the solution is taken on the boundary *)
Theorem C172_maximum bdy lu f g t K : exact lu -> complete lu -> source_ok P f -> n_times f = 1%nat -> source_sign (fun y => y <= 0) f -> has_datum P g ->
  bdy 0%nat = true -> nodes <> [] ->
  (forall a, (a < length nodes)%nat -> exists b, (b < length nodes)%nat /\ bdy b = true /\ chain cells a b) ->
  (forall a, (a < length nodes)%nat -> bdy a = true -> dval g a 0%nat <= K) ->
  exists s1 s2 s3 u, apply P bdy false lu (make_pde (DNeg Lap) f t) (SetBoundary g) = Ok s1 /\ init P false s1 = Ok s2 /\ solve P bdy false lu s2 = Ok s3 /\
    success s3 = true /\ solution s3 = [u] /\ forall a, (a < length nodes)%nat -> u a <= K.
Proof.
  intros Hlu Hco Hf Hn Hs Hg H0 Hne Hch Hb.
  destruct (C147_dirichlet d d nodes cells pt slv rule HG HR bdy lu (DNeg Lap) f g t Hlu Hco I I (co_lap P) Hf Hn Hg H0 Hne Hch) as (s1 & s2 & s3 & u & E1 & E2 & E3 & E4 & E5 & Hu & _).
  exists s1, s2, s3, u. repeat (split; [assumption|]). now apply (solution_maximum bdy f g).
Qed.
(* the problem with all data changed of sign *)
Definition minus (m : dmat) : dmat := {| drows := drows m; dcols := dcols m; dval := fun i j => - dval m i j |}.
Definition minus_source (f : source) : source := match f with Callable f => Callable (fun x => - f x) | Sampled m => Sampled (minus m) end.
Lemma minus_load f a : load_vector P (at_time (minus_source f) 0) a = - load_vector P (at_time f 0) a.
Proof.
  unfold load_vector. rewrite <- rsum_opp. apply rsum_ext. intros e _. rewrite <- rsum_opp. apply rsum_ext. intros i _.
  assert (E : load P (at_time (minus_source f) 0) e i = - load P (at_time f 0) e i); [|rewrite E; ring].
  unfold load. rewrite Ropp_mult_distr_l, <- rsum_opp. f_equal. apply rsum_ext. intros q _. destruct f; cbn [minus_source at_time fvalue minus dval]; ring.
Qed.
(* no sink: the smallest value of the solution is taken on the boundary *)
Theorem C172_minimum bdy lu f g t K : exact lu -> complete lu -> source_ok P f -> n_times f = 1%nat -> source_sign (fun y => 0 <= y) f -> has_datum P g ->
  bdy 0%nat = true -> nodes <> [] ->
  (forall a, (a < length nodes)%nat -> exists b, (b < length nodes)%nat /\ bdy b = true /\ chain cells a b) ->
  (forall a, (a < length nodes)%nat -> bdy a = true -> K <= dval g a 0%nat) ->
  exists s1 s2 s3 u, apply P bdy false lu (make_pde (DNeg Lap) f t) (SetBoundary g) = Ok s1 /\ init P false s1 = Ok s2 /\ solve P bdy false lu s2 = Ok s3 /\
    success s3 = true /\ solution s3 = [u] /\ forall a, (a < length nodes)%nat -> K <= u a.
Proof.
  intros Hlu Hco Hf Hn Hs Hg H0 Hne Hch Hb.
  destruct (C147_dirichlet d d nodes cells pt slv rule HG HR bdy lu (DNeg Lap) f g t Hlu Hco I I (co_lap P) Hf Hn Hg H0 Hne Hch) as (s1 & s2 & s3 & u & E1 & E2 & E3 & E4 & E5 & Hu & _).
  exists s1, s2, s3, u. repeat (split; [assumption|]). intros a Ha.
  assert (X := solution_maximum bdy (minus_source f) (minus g) (fun a => - u a) (- K)). cbv beta in X. specialize (fun A B C D => X A B C D Hch a Ha).
  cut (- u a <= - K); [lra|]. apply X; clear X.
  - destruct Hf as [F1 F2]. split; destruct f; auto.
  - destruct f as [f|m]; cbn in *; [intros x; specialize (Hs x); lra|intros k Hk; specialize (Hs k Hk); lra].
  - intros b Hbn. destruct (Hu b Hbn) as [U1 U2]. split.
    + intros Ho. cbn. now rewrite U1.
    + intros Ho. rewrite minus_load, <- U2 by auto. rewrite <- rsum_opp. apply rsum_ext. intros; ring.
  - intros b Hbn Ho. cbn. specialize (Hb b Hbn Ho). lra.
Qed.
End Principle.

(* the mesh of C149: right-angled triangles around one interior node *)
Example C172_example : nonobtuse_mesh 2 mesh2_nodes TriProps.mesh2 /\ good_mesh 2 2 mesh2_nodes TriProps.mesh2 /\
  (exists pt slv rule, reference 2 1 pt slv rule) /\ exact some_lu /\ complete some_lu /\
  (* an obtuse triangle *)
  ~ nonobtuse 2 (fun i r => match i, r with 1%nat, 0%nat => 4 | 2%nat, 0%nat => 1 | 2%nat, 1%nat => 1 | _, _ => 0 end).
Proof.
  split; [|split; [exact mesh2_good|split; [apply reference_exists; cbn; tauto|split; [apply some_lu_exact|split; [exact some_lu_complete|]]]]].
  - intros c Hc. apply triangle_angles. intros i j k Hi Hj Hk H1 H2 H3. cbn in Hc.
    repeat (destruct Hc as [<-|Hc]; [destruct i as [|[|[|i]]], j as [|[|[|j]]], k as [|[|[|k]]]; try lia; unfold place, mesh2_nodes; cbn; lra|]); destruct Hc.
  - intros H. 
    assert (X := H 0%nat 1%nat (fun r => match r with 0%nat => -1 | _ => -3 end) (fun r => match r with 0%nat => 1 | _ => -1 end) ltac:(lia) ltac:(lia) ltac:(lia)).
    cbn in X. assert (0 + -1 * 1 + -3 * -1 <= 0); [|lra]. apply X.
    + exists (-4). split; [intros [|[|[|i]]] Hi Hne; try lia; cbn; lra|cbn; lra].
    + exists 0. split; [intros [|[|[|i]]] Hi Hne; try lia; cbn; lra|cbn; lra].
Qed.
Print Assumptions C172_maximum.
Print Assumptions C172_minimum.
