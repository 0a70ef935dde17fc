(* C146-C148: from the mesh to the discrete problem.  The finite element problem of a mesh is built from the models of
   its parts (cell geometry, numbering of the dofs, reference basis, quadrature tables) and meets the hypotheses of the
   theorems about assembly and solvers. *)
From Coq Require Import QArith Qreals.
From Verif Require Import Base RSum SimplexModel SimplexProps LinAlg FieldModel FieldProps MeasureModel MeasureProps FemModel FemProps EvalModel EvalProps
  SolverModel SolverProps FemEnergy FemKernel.
From Verif Require PolyModel PolyProps LagrangeProps QuadModel QuadProps TriSpec TriProps DofModel DofProps.
Local Open Scope R_scope.

(* ------------------------------------------------------------------ model *)
Section Mesh.
Variables (M N : nat) (nodes : list vec) (cells : list (list nat)).
(* coords_ of a cell: segment.h:36-41, triangle.h:37-42, tetrahedron.h (nodes_.row(cells_(id, i))); the indices are in range
   under the hypotheses of the theorems, so the defaults are not used *)
Definition vertex (e i : nat) : vec := nth (nth i (nth e cells []) 0%nat) nodes (fun _ => 0).
(* the fields used by Assembler (fem_assembler.h:33-60) for LagrangianBasis<Triangulation<M, N>, Rd>: the dof table and
   its size, the reference basis of lagrangian_basis.h:53-91 and the quadrature table *)
Definition fem_problem (dofs : nat -> nat -> nat) (size : nat) (pt : list (list nat)) (slv : (nat -> R) -> nat -> R) (rule : QuadModel.rule) : problem :=
  {| ldim := M; edim := N; n_cells := length cells; n_basis := length pt; n_dofs := size; dof := dofs;
     measure := fun e => cell_measure M N (vertex e); invJ := fun e => cell_invJ M N (vertex e);
     affine := fun e x r => vertex e 0 r + rsum M (fun k => jac (vertex e) r k * x k);
     ref_psi := PolyModel.basis M pt slv; ref_nabla := fun i k x => PolyModel.poly_derive M pt (slv (PolyModel.unit_rhs i)) k x;
     n_nodes := length (QuadModel.q_nodes rule);
     node := fun q k => Q2R (nth k (nth q (QuadModel.q_nodes rule) []) 0%Q);
     weight := fun q => Q2R (nth q (QuadModel.q_weights rule) 0%Q) |}.
(* Order 1: the dofs are the nodes (DofModel.enumerate_dofs1) *)
Definition dofs1 (e i : nat) : nat := nth i (nth e cells []) 0%nat.
(* Order 2: the table of DofModel.enumerate_dofs2 *)
Definition dofs2 (t : list (list (option nat))) (e i : nat) : nat := match nth i (nth e t []) None with Some v => v | None => 0%nat end.
End Mesh.

(* ------------------------------------------------------------------ specification *)
(* a mesh: cells of M + 1 distinct nodes of the mesh, none of them flat *)
Record good_mesh (M N : nat) (nodes : list vec) (cells : list (list nat)) : Prop := {
  gm_kind : cell_kind M N;
  gm_simplicial : TriSpec.simplicial (S M) cells;
  gm_range : forall c v, In c cells -> In v c -> (v < length nodes)%nat;
  gm_regular : forall c, In c cells -> nondegenerate M N (fun i => nth (nth i c 0%nat) nodes (fun _ => 0)) }.
(* a chain of cells, each sharing a node with the next, from node a to node b *)
Inductive chain (cells : list (list nat)) : nat -> nat -> Prop :=
| chain_refl a : chain cells a a
| chain_step c a a' b : In c cells -> In a c -> In a' c -> chain cells a' b -> chain cells a b.
(* the reference basis of order Rd: exponents, exact solution of the Vandermonde systems; the standard quadrature *)
Definition reference (M Rd : nat) (pt : list (list nat)) (slv : (nat -> R) -> nat -> R) (rule : QuadModel.rule) : Prop :=
  PolyModel.ct_poly_exp M Rd = Ok pt /\
  (forall b i, (i < length pt)%nat -> rsum (length pt) (fun j =>
     PolyModel.vandermonde M pt (LagrangeProps.qnodes (LagrangeProps.ref_nodes M Rd)) i j * slv b j) = b i) /\
  QuadModel.table_of M (QuadModel.standard_rule M Rd) = Some rule.

(* ------------------------------------------------------------------ proofs *)
Section Parts.
Variables (M N Rd : nat) (nodes : list vec) (cells : list (list nat)) (dofs : nat -> nat -> nat) (size : nat)
  (pt : list (list nat)) (slv : (nat -> R) -> nat -> R) (rule : QuadModel.rule).
Hypothesis (HG : good_mesh M N nodes cells) (HR : reference M Rd pt slv rule).
Local Notation P := (fem_problem M N nodes cells dofs size pt slv rule).
Lemma part_lagrangian : lagrangian P Rd.
Proof. destruct HR as (A & B & _). exists pt, slv. cbn. repeat split; auto. Qed.
Lemma part_quadrature : standard_quadrature P Rd.
Proof. destruct HR as (_ & _ & C). exists rule. cbn -[nth]. repeat split; auto. Qed.
Lemma part_range : (1 <= M)%nat.
Proof. destruct (kind_range M N (gm_kind _ _ _ _ HG)). lia. Qed.
Lemma part_cell e : (e < length cells)%nat -> In (nth e cells []) cells.
Proof. apply nth_In. Qed.
Lemma part_nondegenerate e : (e < length cells)%nat -> nondegenerate M N (vertex nodes cells e).
Proof. intros He. exact (gm_regular _ _ _ _ HG _ (part_cell e He)). Qed.
Lemma part_regular : regular_cells P.
Proof.
  exists (fun e r l => vertex nodes cells e (S l) r - vertex nodes cells e 0 r). intros e k l He Hk Hl. cbn in *.
  destruct (C141_inverse M N _ (gm_kind _ _ _ _ HG) (part_nondegenerate e He)) as [A _]. now apply A.
Qed.
Lemma part_measure e : (e < length cells)%nat -> 0 < cell_measure M N (vertex nodes cells e).
Proof. intros He. apply C141_positive; [exact (gm_kind _ _ _ _ HG)|now apply part_nondegenerate]. Qed.
Lemma part_standard : In (M, Rd) square_spaces -> unity P /\ unisolvent P /\ gradient_unisolvent P /\ positive_quadrature P.
Proof.
  intros HI. destruct (C140_standard P Rd HI part_lagrangian part_quadrature) as (A & B & C & _).
  split; [auto|]. split; [auto|]. split; [exact (C143_standard P Rd HI part_lagrangian part_quadrature)|].
  split; [|auto]. intros e He. now apply part_measure.
Qed.
End Parts.

(* ------------------------------------------------------------------ C146: first order spaces *)
Lemma pt_length M Rd pt : (1 <= M)%nat -> PolyModel.ct_poly_exp M Rd = Ok pt -> (length pt * (CombModel.ct_factorial Rd * CombModel.ct_factorial M) = CombModel.ct_factorial (M + Rd))%nat.
Proof. intros HM Ht. destruct (PolyProps.C61_table M Rd HM) as (t & Ht' & L & _). rewrite Ht in Ht'. injection Ht' as <-. exact L. Qed.
Lemma pt_first M pt : (1 <= M <= 3)%nat -> PolyModel.ct_poly_exp M 1 = Ok pt -> length pt = S M.
Proof.
  intros HM Ht. assert (L := pt_length M 1 pt ltac:(lia) Ht). destruct M as [|[|[|[|M]]]]; try lia; cbn in L; lia.
Qed.
Section First.
Variables (M N : nat) (nodes : list vec) (cells : list (list nat)) (pt : list (list nat)) (slv : (nat -> R) -> nat -> R) (rule : QuadModel.rule).
Hypothesis (HG : good_mesh M N nodes cells) (HR : reference M 1 pt slv rule).
Definition problem1 : problem := fem_problem M N nodes cells (dofs1 cells) (length nodes) pt slv rule.
Lemma first_basis : n_basis problem1 = S M.
Proof. destruct HR as (A & _). destruct (kind_range M N (gm_kind _ _ _ _ HG)). cbn. now apply pt_first. Qed.
Lemma first_space : In (M, 1%nat) square_spaces.
Proof. destruct (kind_range M N (gm_kind _ _ _ _ HG)) as [H _]. destruct M as [|[|[|[|m]]]]; cbn; try lia; tauto. Qed.
Lemma first_in e h : (e < length cells)%nat -> (h < S M)%nat -> In (dofs1 cells e h) (nth e cells []).
Proof. intros He Hh. apply nth_In. destruct (gm_simplicial _ _ _ _ HG _ (part_cell cells e He)) as [-> _]. auto. Qed.
Lemma first_dofs : dofs_ok problem1.
Proof.
  intros e i He Hi. rewrite first_basis in Hi. exact (gm_range _ _ _ _ HG _ _ (part_cell cells e He) (first_in e i He Hi)).
Qed.
Lemma first_linked a b : chain cells a b -> linked problem1 a b.
Proof.
  induction 1 as [a|c a a' b Hc Ha Ha' _ IH]; [constructor|].
  destruct (In_nth _ _ [] Hc) as (e & He & <-). destruct (In_nth _ _ 0%nat Ha) as (h & Hh & <-). destruct (In_nth _ _ 0%nat Ha') as (h' & Hh' & <-).
  destruct (gm_simplicial _ _ _ _ HG _ Hc) as [L _].
  apply (linked_step problem1 e h h'); [exact He|rewrite first_basis; lia|rewrite first_basis; lia|exact IH].
Qed.
Theorem C146_first_order :
  dofs_ok problem1 /\ (forall e, (e < n_cells problem1)%nat -> distinct_dofs problem1 e) /\
  unity problem1 /\ unisolvent problem1 /\ gradient_unisolvent problem1 /\ positive_quadrature problem1 /\ regular_cells problem1 /\
  (* local dof h of a cell is its h-th node, and sits where the reference node h is mapped *)
  (forall e h, (e < length cells)%nat -> (h <= M)%nat -> dof problem1 e h = nth h (nth e cells []) 0%nat /\
     forall r, affine problem1 e (LagrangeProps.qnodes (LagrangeProps.ref_nodes M 1) h) r = nth (dof problem1 e h) nodes (fun _ => 0) r).
Proof.
  destruct (part_standard M N 1 nodes cells (dofs1 cells) (length nodes) pt slv rule HG HR first_space) as (A & B & C & D).
  split; [exact first_dofs|]. split; [|split; [exact A|split; [exact B|split; [exact C|split; [exact D|split]]]]].
  - intros e He h h' Hh Hh' E. rewrite first_basis in Hh, Hh'. destruct (gm_simplicial _ _ _ _ HG _ (part_cell cells e He)) as [L ND].
    apply (proj1 (NoDup_nth _ 0%nat) ND); [lia|lia|exact E].
  - exact (part_regular M N nodes cells (dofs1 cells) (length nodes) pt slv rule HG).
  - intros e h He Hh. split; [reflexivity|]. intros r. destruct (kind_range M N (gm_kind _ _ _ _ HG)) as [HM _].
    change (dof problem1 e h) with (dofs1 cells e h). change (nth (dofs1 cells e h) nodes (fun _ => 0)) with (vertex nodes cells e h).
    cbn [problem1 fem_problem affine]. unfold jac, LagrangeProps.qnodes.
    destruct M as [|[|[|[|m]]]]; try lia; destruct h as [|[|[|[|h]]]]; try lia; cbn -[vertex]; unfold Q2R; cbn -[vertex]; field.
Qed.
(* Poisson-type problems with Dirichlet values on any mesh in which every node is linked to the boundary *)
Theorem C147_dirichlet bdy lu op f g t : exact lu -> complete lu ->
  coef_ok problem1 op -> tensors_symmetric problem1 op -> coercive problem1 op -> source_ok problem1 f -> n_times f = 1%nat -> has_datum problem1 g ->
  bdy 0%nat = true -> nodes <> [] ->
  (forall a, (a < length nodes)%nat -> exists b, (b < length nodes)%nat /\ bdy b = true /\ chain cells a b) ->
  exists s1 s2 s3 u, apply problem1 bdy false lu (make_pde op f t) (SetBoundary g) = Ok s1 /\ init problem1 false s1 = Ok s2 /\ solve problem1 bdy false lu s2 = Ok s3 /\
    success s3 = true /\ solution s3 = [u] /\
    discrete_solution problem1 (fun a => bdy a = true) op f g u /\
    forall u', discrete_solution problem1 (fun a => bdy a = true) op f g u' -> forall a, (a < length nodes)%nat -> u' a = u a.
Proof.
  intros Hlu Hco Hc Ht Hop Hs Hn Hg Hb Hne Hch. destruct C146_first_order as (A1 & A2 & A3 & A4 & A5 & A6 & A7 & _).
  cbn [apply]. eexists. 
  match goal with |- context [Ok ?s = Ok _] => set (s0 := s) end.
  destruct (C144_dirichlet problem1 bdy lu Hlu Hco s0) as (s1 & s2 & u & E1 & E2 & R); auto.
  - cbn. destruct nodes; [congruence|cbn; lia].
  - split; [auto|]. split; [auto|]. split; [|auto]. intros Es. exact (proj1 (C65_symmetric_partial problem1 op Hc A1 Es Ht)).
  - intros a Ha. destruct (Hch a Ha) as (b & B1 & B2 & B3). exists b. split; [auto|]. split; [auto|]. now apply first_linked.
  - exists s1, s2, u. split; [reflexivity|]. auto.
Qed.
(* the mass matrix: symmetric, its entries add up to the size of the mesh, positive on the functions which do not vanish *)
Theorem C147_mass : exists A, discretize_operator problem1 mass = Ok A /\ (forall a b, A a b = A b a) /\
  Rabs (rsum (length nodes) (fun a => rsum (length nodes) (fun b => A a b)) - rsum (length cells) (fun e => cell_measure M N (vertex nodes cells e)))
    <= QuadProps.eps * rsum (length cells) (fun e => cell_measure M N (vertex nodes cells e)) /\
  forall c a v, In c cells -> In a c -> v a <> 0 -> 0 < pairing problem1 A v v.
Proof.
  destruct C146_first_order as (A1 & A2 & A3 & A4 & A5 & A6 & A7 & _). destruct A6 as [A6 A6'].
  destruct (C140_mass problem1 A1) as (A & E & S & _ & Tot & Pos). exists A. split; [auto|]. split; [auto|]. split.
  - destruct (C140_standard problem1 1 first_space (part_lagrangian M N 1 nodes cells _ _ pt slv rule HR) (part_quadrature M N 1 nodes cells _ _ pt slv rule HR)) as (_ & _ & _ & W).
    specialize (Tot A3). cbn [problem1 fem_problem n_dofs n_cells measure] in Tot. rewrite Tot.
    set (m := rsum (length cells) _). assert (Hm : 0 <= m).
    { unfold m. apply rsum_nonneg. intros e He. left. now apply (part_measure M N nodes cells HG). }
    replace (m * rsum (n_nodes problem1) (weight problem1) - m) with (m * (rsum (n_nodes problem1) (weight problem1) - 1)) by ring.
    rewrite Rabs_mult, (Rabs_pos_eq m Hm), (Rmult_comm QuadProps.eps). apply Rmult_le_compat_l; auto.
  - intros c a v Hc Ha Hv. destruct (In_nth _ _ [] Hc) as (e & He & <-). destruct (In_nth _ _ 0%nat Ha) as (h & Hh & <-).
    destruct (gm_simplicial _ _ _ _ HG _ Hc) as [L _].
    apply (Pos A4 A6 A6' v e h); [exact He|rewrite first_basis; lia|exact Hv].
Qed.
(* diffusion matrices see everything but the constants when the mesh is in one piece *)
Theorem C147_stiffness op : coef_ok problem1 op -> tensors_symmetric problem1 op -> coercive problem1 op -> no_reaction op ->
  nodes <> [] -> (forall a b, (a < length nodes)%nat -> (b < length nodes)%nat -> chain cells a b) ->
  exists A, discretize_operator problem1 op = Ok A /\ forall v,
    ((forall a, (a < length nodes)%nat -> rsum (length nodes) (fun b => A a b * v b) = 0) <-> (forall a, (a < length nodes)%nat -> v a = v 0%nat)).
Proof.
  intros Hc Ht Hop Hr Hne Hch. destruct C146_first_order as (A1 & A2 & A3 & A4 & A5 & A6 & A7 & _).
  destruct (C143_kernel problem1 op Hc A1 Ht Hop A6 A7 A5) as (A & E & K). exists A. split; [auto|]. intros v. apply (K v); auto.
  - intros a b Ha Hb. apply first_linked. now apply Hch.
  - cbn. destruct nodes; [congruence|cbn; lia].
Qed.
(* with a positive reaction no boundary value is needed *)
Theorem C147_reaction bdy lu op f t : exact lu -> complete lu ->
  coef_ok problem1 op -> tensors_symmetric problem1 op -> reactive problem1 op -> source_ok problem1 f -> n_times f = 1%nat ->
  (forall a, (a < length nodes)%nat -> exists c, In c cells /\ In a c) ->
  exists s2 s3 u, init problem1 false (make_pde op f t) = Ok s2 /\ solve problem1 bdy false lu s2 = Ok s3 /\
    success s3 = true /\ solution s3 = [u] /\
    (forall a, (a < length nodes)%nat -> rsum (length nodes) (fun b => assembled problem1 op a b * u b) = load_vector problem1 (at_time f 0) a) /\
    forall u', (forall a, (a < length nodes)%nat -> rsum (length nodes) (fun b => assembled problem1 op a b * u' b) = load_vector problem1 (at_time f 0) a) ->
      forall a, (a < length nodes)%nat -> u' a = u a.
Proof.
  intros Hlu Hco Hc Ht Hop Hs Hn Hcov. destruct C146_first_order as (A1 & A2 & A3 & A4 & A5 & A6 & A7 & _).
  apply (C145_reaction problem1 bdy lu Hlu Hco (make_pde op f t)); auto.
  - split; [auto|]. split; [auto|]. split; [|auto]. intros Es. exact (proj1 (C65_symmetric_partial problem1 op Hc A1 Es Ht)).
  - reflexivity.
  - intros a Ha. destruct (Hcov a Ha) as (c & Ic & Ia). destruct (In_nth _ _ [] Ic) as (e & He & <-). destruct (In_nth _ _ 0%nat Ia) as (h & Hh & Eh).
    destruct (gm_simplicial _ _ _ _ HG _ Ic) as [L _]. exists e, h. split; [exact He|]. split; [rewrite first_basis; lia|exact Eh].
Qed.
End First.

(* ------------------------------------------------------------------ C146, C148: second order spaces on triangles *)
Section Second.
Variables (N : nat) (nodes : list vec) (cells : list (list nat)) (markers : list bool) (pt : list (list nat)) (slv : (nat -> R) -> nat -> R) (rule : QuadModel.rule).
Hypothesis (HG : good_mesh 2 N nodes cells) (HR : reference 2 2 pt slv rule) (HC : TriSpec.conforming cells) (HM : length markers = length nodes).
Variables (t : list (list (option nat))) (size : nat) (b : list bool).
Hypothesis (HE : DofModel.enumerate_dofs2 cells (length nodes) markers = Ok (t, size, b)).
Definition problem2 : problem := fem_problem 2 N nodes cells (dofs2 t) size pt slv rule.
Lemma second_basis : n_basis problem2 = 6%nat.
Proof. destruct HR as (A & _). cbn. assert (L := pt_length 2 2 pt ltac:(lia) A). cbn in L. lia. Qed.
Lemma entry_nth i j v : TriSpec.entry cells i j v -> (i < length cells)%nat /\ (j < 3)%nat /\ v = nth j (nth i cells []) 0%nat.
Proof.
  intros (c & Ec & Ev). assert (Hi : (i < length cells)%nat) by (apply nth_error_Some; congruence). split; [auto|].
  destruct (gm_simplicial _ _ _ _ HG c (nth_error_In _ _ Ec)) as [L _].
  assert (Hj : (j < length c)%nat) by (apply nth_error_Some; congruence). split; [lia|].
  rewrite (nth_error_nth _ _ _ Ec). symmetry. now apply nth_error_nth.
Qed.
Lemma nth_entry i j : (i < length cells)%nat -> (j < 3)%nat -> TriSpec.entry cells i j (nth j (nth i cells []) 0%nat).
Proof.
  intros Hi Hj. exists (nth i cells []). split; [now apply nth_error_nth'|]. apply nth_error_nth'.
  destruct (gm_simplicial _ _ _ _ HG _ (part_cell cells i Hi)) as [L _]. lia.
Qed.
Lemma entry_dofs i j v : TriSpec.entry t i j (Some v) -> dofs2 t i j = v.
Proof. intros (r & Er & Ev). unfold dofs2. rewrite (nth_error_nth _ _ _ Er), (nth_error_nth _ _ _ Ev). reflexivity. Qed.
Lemma second_range i j v : TriSpec.entry cells i j v -> (v < length nodes)%nat.
Proof.
  intros H. destruct (entry_nth i j v H) as (Hi & Hj & ->). apply (gm_range _ _ _ _ HG (nth i cells [])); [now apply part_cell|].
  apply nth_In. destruct (gm_simplicial _ _ _ _ HG _ (part_cell cells i Hi)) as [L _]. lia.
Qed.
Lemma ends_lt j : (j < 3)%nat -> (fst (DofProps.edge_ends j) < 3)%nat /\ (snd (DofProps.edge_ends j) < 3)%nat.
Proof. destruct j as [|[|[|j]]]; cbn; lia. Qed.
Theorem C146_second_order :
  dofs_ok problem2 /\ (forall e, (e < n_cells problem2)%nat -> distinct_dofs problem2 e) /\
  unity problem2 /\ unisolvent problem2 /\ gradient_unisolvent problem2 /\ positive_quadrature problem2 /\ regular_cells problem2 /\
  (forall e h, (e < length cells)%nat -> (h < 3)%nat -> dof problem2 e h = nth h (nth e cells []) 0%nat) /\
  (* each dof sits where its reference node is mapped *)
  exists coords, DofModel.dofs_coords2 nodes cells t size = Ok coords /\
    forall e h, (e < length cells)%nat -> (h < 6)%nat -> exists p, nth_error coords (dof problem2 e h) = Some (Some p) /\
      forall r, affine problem2 e (LagrangeProps.qnodes (LagrangeProps.ref_nodes 2 2) h) r = p r.
Proof.
  assert (HI : In (2%nat, 2%nat) square_spaces) by (cbn; tauto).
  destruct (part_standard 2 N 2 nodes cells (dofs2 t) size pt slv rule HG HR HI) as (A & B & C & D).
  destruct (DofProps.C67_dofs cells (length nodes) markers (gm_simplicial _ _ _ _ HG) HC second_range HM)
    as (t' & size' & b' & E' & Lt & Lr & Tv & Te & Ts & Tj & Hsz & _).
  rewrite HE in E'. injection E' as <- <- <-.
  assert (V : forall e h, (e < length cells)%nat -> (h < 3)%nat -> dofs2 t e h = nth h (nth e cells []) 0%nat).
  { intros e h He Hh. apply entry_dofs. apply Tv. now apply nth_entry. }
  assert (W : forall e j, (e < length cells)%nat -> (j < 3)%nat -> TriSpec.entry t e (3 + j) (Some (dofs2 t e (3 + j))) /\ (length nodes <= dofs2 t e (3 + j) < size)%nat).
  { intros e j He Hj. destruct (Te e j He Hj) as (v & Ev & Hv). now rewrite (entry_dofs _ _ _ Ev). }
  assert (X : forall e h, (e < length cells)%nat -> (h < 3)%nat -> (dofs2 t e h < length nodes)%nat).
  { intros e h He Hh. rewrite V by auto. apply (second_range e h). now apply nth_entry. }
  split; [|split; [|split; [exact A|split; [exact B|split; [exact C|split; [exact D|split; [|split; [exact V|]]]]]]]].
  - intros e i He Hi. rewrite second_basis in Hi. cbn [problem2 fem_problem dof n_cells n_dofs] in He |- *. destruct (Nat.lt_ge_cases i 3) as [H3|H3].
    + specialize (X e i He H3). lia.
    + destruct (W e (i - 3)%nat He ltac:(lia)) as [_ K]. replace (3 + (i - 3))%nat with i in K by lia. lia.
  - intros e He h h' Hh Hh' E. rewrite second_basis in Hh, Hh'. cbn [problem2 fem_problem dof n_cells] in *.
    destruct (gm_simplicial _ _ _ _ HG _ (part_cell cells e He)) as [L ND].
    destruct (Nat.lt_ge_cases h 3) as [H3|H3]; destruct (Nat.lt_ge_cases h' 3) as [H3'|H3'].
    + rewrite !V in E by auto. apply (proj1 (NoDup_nth _ 0%nat) ND); [lia|lia|exact E].
    + exfalso. specialize (X e h He H3). destruct (W e (h' - 3)%nat He ltac:(lia)) as [_ K]. replace (3 + (h' - 3))%nat with h' in K by lia. lia.
    + exfalso. specialize (X e h' He H3'). destruct (W e (h - 3)%nat He ltac:(lia)) as [_ K]. replace (3 + (h - 3))%nat with h in K by lia. lia.
    + destruct (W e (h - 3)%nat He ltac:(lia)) as [K _]. destruct (W e (h' - 3)%nat He ltac:(lia)) as [K' _].
      assert (J : forall j, (j < 3)%nat -> DofProps.joins cells e j (nth (fst (DofProps.edge_ends j)) (nth e cells []) 0%nat) (nth (snd (DofProps.edge_ends j)) (nth e cells []) 0%nat)).
      { intros j Hj. destruct (ends_lt j Hj). split; [auto|]. split; now apply nth_entry. }
      assert (Q := proj1 (Tj _ _ _ _ _ _ _ _ _ _ (J (h - 3)%nat ltac:(lia)) (J (h' - 3)%nat ltac:(lia)) K K')).
      replace (3 + (h - 3))%nat with h in Q by lia. replace (3 + (h' - 3))%nat with h' in Q by lia. specialize (Q E).
      assert (U : forall i j, (i < 3)%nat -> (j < 3)%nat -> nth i (nth e cells []) 0%nat = nth j (nth e cells []) 0%nat -> i = j).
      { intros i j Hi Hj Eij. apply (proj1 (NoDup_nth _ 0%nat) ND); [lia|lia|exact Eij]. }
      destruct (ends_lt (h - 3) ltac:(lia)) as [F1 F2]. destruct (ends_lt (h' - 3) ltac:(lia)) as [F3 F4].
      destruct Q as [[Q1 Q2]|[Q1 Q2]]; apply U in Q1; auto; apply U in Q2; auto;
      assert (h = 3 \/ h = 4 \/ h = 5)%nat as [-> |[-> | ->]] by lia; assert (h' = 3 \/ h' = 4 \/ h' = 5)%nat as [-> |[-> | ->]] by lia;
      cbn in Q1, Q2; congruence.
  - exact (part_regular 2 N nodes cells (dofs2 t) size pt slv rule HG).
  - destruct (DofProps.C113_dofs_coords cells nodes markers (gm_simplicial _ _ _ _ HG) HC second_range HM)
      as (t' & size' & b' & coords & E' & Ec & _ & _ & Cv & Ce).
    rewrite HE in E'. injection E' as <- <- <-. exists coords. split; [auto|]. intros e h He Hh. cbn [problem2 fem_problem dof affine].
    assert (Y : forall i, (i < 3)%nat -> nth_error nodes (nth i (nth e cells []) 0%nat) = Some (vertex nodes cells e i)).
    { intros i Hi. apply nth_error_nth'. apply (second_range e i). now apply nth_entry. }
    destruct (Nat.lt_ge_cases h 3) as [H3|H3].
    + exists (vertex nodes cells e h). split. { apply Cv. rewrite V by auto. now apply Y. }
      intros r. unfold jac, LagrangeProps.qnodes. destruct h as [|[|[|h]]]; try lia; cbn -[vertex]; unfold Q2R; cbn -[vertex]; field.
    + destruct (W e (h - 3)%nat He ltac:(lia)) as [K _]. destruct (ends_lt (h - 3) ltac:(lia)) as [F1 F2].
      destruct (Ce e (h - 3)%nat _ _ _ _ _ (conj (ltac:(lia) : (h - 3 < 3)%nat) (conj (nth_entry e _ He F1) (nth_entry e _ He F2))) K (Y _ F1) (Y _ F2)) as (p & Hp & Hr).
      replace (3 + (h - 3))%nat with h in Hp by lia. exists p. split; [auto|]. intros r. rewrite Hr. unfold jac, LagrangeProps.qnodes.
      assert (h = 3 \/ h = 4 \/ h = 5)%nat as [-> |[-> | ->]] by lia; cbn -[vertex]; unfold Q2R; cbn -[vertex]; field.
Qed.
Lemma second_linked a c : chain cells a c -> linked problem2 a c.
Proof.
  destruct C146_second_order as (_ & _ & _ & _ & _ & _ & _ & V & _).
  induction 1 as [a|c a a' c' Hc Ha Ha' _ IH]; [constructor|].
  destruct (In_nth _ _ [] Hc) as (e & He & <-). destruct (In_nth _ _ 0%nat Ha) as (h & Hh & <-). destruct (In_nth _ _ 0%nat Ha') as (h' & Hh' & <-).
  destruct (gm_simplicial _ _ _ _ HG _ Hc) as [L _]. rewrite <- (V e h), <- (V e h') in * by (auto; lia).
  apply (linked_step problem2 e h h'); [exact He|rewrite second_basis; lia|rewrite second_basis; lia|exact IH].
Qed.
(* every dof is linked to the nodes of its cell, so to a marked node *)
Lemma second_boundary : (forall a, (a < length nodes)%nat -> exists c, (c < length nodes)%nat /\ nth c markers false = true /\ chain cells a c) ->
  forall a, (a < size)%nat -> exists c, (c < size)%nat /\ nth c b false = true /\ linked problem2 a c.
Proof.
  intros Hch a Ha. destruct C146_second_order as (_ & _ & _ & _ & _ & _ & _ & V & _).
  destruct (DofProps.C67_dofs cells (length nodes) markers (gm_simplicial _ _ _ _ HG) HC second_range HM)
    as (t' & size' & b' & E' & Lt & Lr & Tv & Te & Ts & Tj & Hsz & Lb & Bv & _).
  rewrite HE in E'. injection E' as <- <- <-.
  assert (K : forall a, (a < length nodes)%nat -> exists c, (c < size)%nat /\ nth c b false = true /\ linked problem2 a c).
  { intros x Hx. destruct (Hch x Hx) as (c & C1 & C2 & C3). exists c. split; [lia|]. split; [|now apply second_linked].
    rewrite <- C2. specialize (Bv c C1). rewrite (nth_error_nth' b false), (nth_error_nth' markers false) in Bv by lia. congruence. }
  destruct (Nat.lt_ge_cases a (length nodes)) as [Hn|Hn]; [now apply K|].
  destruct (Ts a ltac:(lia)) as (i & j & Hj & Ej). assert (Hi : (i < length cells)%nat) by (destruct Ej as (r & Er & _); rewrite <- Lt; apply nth_error_Some; congruence).
  assert (H0 : (nth 0 (nth i cells []) 0 < length nodes)%nat) by (apply (second_range i 0); apply nth_entry; auto; lia).
  destruct (K _ H0) as (c & C1 & C2 & C3). exists c. split; [auto|]. split; [auto|]. rewrite <- (entry_dofs _ _ _ Ej), <- (V i 0%nat) in * by (auto; lia).
  apply (linked_step problem2 i (3 + j) 0); [exact Hi|rewrite second_basis; lia|rewrite second_basis; lia|exact C3].
Qed.
(* the boundary dofs are those found by the code *)
Theorem C148_dirichlet lu op f g tm : exact lu -> complete lu ->
  coef_ok problem2 op -> tensors_symmetric problem2 op -> coercive problem2 op -> source_ok problem2 f -> n_times f = 1%nat -> has_datum problem2 g ->
  nth 0 markers false = true -> nodes <> [] ->
  (forall a, (a < length nodes)%nat -> exists c, (c < length nodes)%nat /\ nth c markers false = true /\ chain cells a c) ->
  let bdy := fun a => nth a b false in
  exists s1 s2 s3 u, apply problem2 bdy false lu (make_pde op f tm) (SetBoundary g) = Ok s1 /\ init problem2 false s1 = Ok s2 /\ solve problem2 bdy false lu s2 = Ok s3 /\
    success s3 = true /\ solution s3 = [u] /\
    discrete_solution problem2 (fun a => bdy a = true) op f g u /\
    forall u', discrete_solution problem2 (fun a => bdy a = true) op f g u' -> forall a, (a < size)%nat -> u' a = u a.
Proof.
  intros Hlu Hco Hc Ht Hop Hs Hn Hg Hb Hne Hch bdy. destruct C146_second_order as (A1 & A2 & A3 & A4 & A5 & A6 & A7 & _).
  assert (L0 : (0 < length nodes)%nat) by (destruct nodes; [congruence|cbn; lia]).
  destruct (DofProps.C67_dofs cells (length nodes) markers (gm_simplicial _ _ _ _ HG) HC second_range HM)
    as (t' & size' & b' & E' & _ & _ & _ & _ & _ & _ & Hsz & Lb & Bv & _).
  rewrite HE in E'. injection E' as <- <- <-.
  cbn [apply]. eexists.
  match goal with |- context [Ok ?s = Ok _] => set (s0 := s) end.
  destruct (C144_dirichlet problem2 bdy lu Hlu Hco s0) as (s1 & s2 & u & E1 & E2 & R); auto.
  - unfold bdy. rewrite <- Hb. specialize (Bv 0%nat L0). rewrite (nth_error_nth' b false), (nth_error_nth' markers false) in Bv by lia. congruence.
  - cbn. lia.
  - split; [auto|]. split; [auto|]. split; [|auto]. intros Es. exact (proj1 (C65_symmetric_partial problem2 op Hc A1 Es Ht)).
  - exact (second_boundary Hch).
  - exists s1, s2, u. split; [reflexivity|]. auto.
Qed.
End Second.

(* ------------------------------------------------------------------ non-vacuity *)
(* four triangles around node 4 of the square [0, 2]^2 and one outside (TriProps.mesh2) *)
Definition mesh2_nodes : list vec := map (fun p => fun r => match r with O => IZR (fst p) | _ => IZR (snd p) end) [(0, 0); (2, 0); (2, 2); (0, 2); (1, 1); (1, 3)]%Z.
Definition mesh2_markers : list bool := [true; true; true; true; false; true].
Lemma plane_nondegenerate (c : nat -> vec) : det 2 (jac c) <> 0 -> nondegenerate 2 2 c.
Proof.
  intros H. assert (K : cell_kind 2 2) by (cbn; tauto). apply (C141_positive 2 2 c K). unfold cell_measure. cbn [Nat.eqb].
  apply Rdiv_lt_0_compat; [now apply Rabs_pos_lt|cbn; lra].
Qed.
Lemma mesh2_good : good_mesh 2 2 mesh2_nodes TriProps.mesh2.
Proof.
  split; [cbn; tauto|exact TriProps.mesh2_simplicial| |].
  - intros c v Hc Hv. cbn in Hc. repeat (destruct Hc as [<-|Hc]; [cbn in Hv; cbn; lia|]). destruct Hc.
  - intros c Hc. apply plane_nondegenerate. cbn in Hc.
    repeat (destruct Hc as [<-|Hc]; [unfold jac, mesh2_nodes; cbn; lra|]). destruct Hc.
Qed.
Lemma mesh2_chain : forall a b, (a < 6)%nat -> (b < 6)%nat -> chain TriProps.mesh2 a b.
Proof.
  assert (S1 : forall c a b, In c TriProps.mesh2 -> In a c -> In b c -> chain TriProps.mesh2 a b) by (intros; eapply chain_step; eauto; constructor).
  assert (Tr : forall a b c, chain TriProps.mesh2 a b -> chain TriProps.mesh2 b c -> chain TriProps.mesh2 a c) by (induction 1; intros; auto; eapply chain_step; eauto).
  assert (Z : forall a, (a < 6)%nat -> chain TriProps.mesh2 a 2 /\ chain TriProps.mesh2 2 a).
  { assert (H4 : chain TriProps.mesh2 4 2 /\ chain TriProps.mesh2 2 4) by (split; apply (S1 [4; 2; 1]%nat); cbn; tauto).
    intros a Ha. destruct a as [|[|[|[|[|[|a]]]]]]; try lia.
    - split; [eapply Tr; [|apply H4]|eapply Tr; [apply H4|]]; apply (S1 [0; 1; 4]%nat); cbn; tauto.
    - split; apply (S1 [4; 2; 1]%nat); cbn; tauto.
    - split; constructor.
    - split; apply (S1 [3; 4; 2]%nat); cbn; tauto.
    - exact H4.
    - split; apply (S1 [5; 3; 2]%nat); cbn; tauto. }
  intros a b Ha Hb. eapply Tr; [apply (Z a Ha)|apply (Z b Hb)].
Qed.
Lemma reference_exists M Rd : In (M, Rd) square_spaces -> exists pt slv rule, reference M Rd pt slv rule.
Proof.
  intros H. destruct (spaces_checked M Rd H) as (_ & rule & _ & Hr & _).
  destruct (LagrangeProps.C63_reference_elements M Rd) as (pt & slv & Hp & _ & Hs).
  { cbn in H. repeat (destruct H as [H|H]; [injection H as <- <-; vm_compute; tauto|]). destruct H. }
  exists pt, slv, rule. split; [auto|]. split; auto.
Qed.
(* Poisson on this mesh, first and second order *)
Example C147_example : exists pt slv rule, reference 2 1 pt slv rule /\ good_mesh 2 2 mesh2_nodes TriProps.mesh2 /\
  let P := problem1 2 2 mesh2_nodes TriProps.mesh2 pt slv rule in
  coef_ok P (DNeg Lap) /\ tensors_symmetric P (DNeg Lap) /\ coercive P (DNeg Lap) /\ source_ok P (Callable (fun _ => 1)) /\
  (forall a, (a < length mesh2_nodes)%nat -> exists b, (b < length mesh2_nodes)%nat /\ nth b mesh2_markers false = true /\ chain TriProps.mesh2 a b) /\
  exact some_lu /\ complete some_lu.
Proof.
  destruct (reference_exists 2 1) as (pt & slv & rule & H); [cbn; tauto|]. exists pt, slv, rule. split; [auto|]. split; [exact mesh2_good|].
  cbv zeta. split; [cbn; auto|]. split; [cbn; auto|]. split; [constructor|]. split; [split; cbn; auto|]. split; [|split; [apply some_lu_exact|exact some_lu_complete]].
  intros a Ha. exists 0%nat. split; [cbn; lia|]. split; [reflexivity|]. apply mesh2_chain; [exact Ha|lia].
Qed.
Example C148_example : exists pt slv rule t b, reference 2 2 pt slv rule /\ good_mesh 2 2 mesh2_nodes TriProps.mesh2 /\ TriSpec.conforming TriProps.mesh2 /\
  DofModel.enumerate_dofs2 TriProps.mesh2 (length mesh2_nodes) mesh2_markers = Ok (t, 16%nat, b) /\ length b = 16%nat /\
  count_occ Bool.bool_dec b true = 10%nat.
Proof.
  destruct (reference_exists 2 2) as (pt & slv & rule & H); [cbn; tauto|]. exists pt, slv, rule. eexists. eexists. split; [auto|]. split; [exact mesh2_good|].
  split; [exact TriProps.mesh2_conforming|]. split; [vm_compute; reflexivity|]. split; reflexivity.
Qed.
Print Assumptions C146_first_order.
Print Assumptions C146_second_order.
Print Assumptions C147_dirichlet.
Print Assumptions C147_mass.
Print Assumptions C148_dirichlet.
