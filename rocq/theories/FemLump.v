(* C186: the lumped mass matrix (lumping.h) of first order finite element spaces. *)
From Coq Require Import QArith Qreals.
From Verif Require Import Base RSum SimplexModel SimplexProps LinAlg FieldModel FieldProps MeasureModel MeasureProps FemModel FemProps EvalModel EvalProps
  SolverModel SolverProps FemEnergy FemKernel FemMesh FemMax.
From Verif Require PolyModel PolyProps LagrangeProps QuadModel QuadProps TriSpec TriProps DofModel DofProps KronModel KronProps.
Local Open Scope R_scope.

(* ------------------------------------------------------------------ specification *)
(* the size of the cells around node a *)
Definition patch_measure (M N : nat) (nodes : list vec) (cells : list (list nat)) (a : nat) : R :=
  rsum (length cells) (fun e => if in_dec Nat.eq_dec a (nth e cells []) then cell_measure M N (vertex nodes cells e) else 0).
(* a sparse matrix storing A, of size n *)
Definition stores (n : nat) (A : nat -> nat -> R) (m : KronModel.smat) : Prop :=
  KronModel.sr m = n /\ KronModel.sc m = n /\ forall a b, (a < n)%nat -> (b < n)%nat -> KronModel.sent m a b = A a b.

(* ------------------------------------------------------------------ proofs *)
(* quadrature of the first order basis functions: 1 / (M + 1), up to the rounding of the tables *)
Definition bary_q (h : nat) (x : list Q) : Q := match h with O => (1 - fold_right Qplus 0 (map (fun k => nth k x 0) (seq 0 (length x))))%Q | S k => nth k x 0%Q end.
Definition basis_q (r : QuadModel.rule) (h : nat) : Q := fold_right Qplus 0%Q (map (fun wx => (fst wx * bary_q h (snd wx))%Q) (combine (QuadModel.q_weights r) (QuadModel.q_nodes r))).
Definition lump_check (M : nat) (r : QuadModel.rule) : bool :=
  Nat.eqb (length (QuadModel.q_weights r)) (length (QuadModel.q_nodes r)) && forallb (fun x => Nat.eqb (length x) M) (QuadModel.q_nodes r) &&
  forallb (fun h => Qle_bool (1 # Pos.of_nat (S M)) (basis_q r h + QuadProps.epsQ) && Qle_bool (basis_q r h) ((1 # Pos.of_nat (S M)) + QuadProps.epsQ)) (seq 0 (S M)).
Lemma standard_lump M r : (1 <= M <= 3)%nat -> QuadModel.table_of M (QuadModel.standard_rule M 1) = Some r -> lump_check M r = true.
Proof. intros HM. destruct M as [|[|[|[|M]]]]; try lia; intros E; vm_compute in E; injection E as <-; vm_compute; reflexivity. Qed.
Lemma rsum_combine (ws : list Q) (xs : list (list Q)) (f : Q -> list Q -> Q) : length ws = length xs ->
  rsum (length xs) (fun q => Q2R (f (nth q ws 0%Q) (nth q xs []))) = Q2R (fold_right Qplus 0%Q (map (fun wx => f (fst wx) (snd wx)) (combine ws xs))).
Proof.
  revert xs. induction ws as [|w ws IH]; intros [|x xs] H; try discriminate H; [cbn; unfold Q2R; cbn; lra|].
  cbn [length] in *. change (S (length xs)) with (1 + length xs)%nat. rewrite rsum_app. cbn [rsum combine map fold_right nth Nat.add fst snd].
  rewrite Q2R_plus, <- IH by lia. lra.
Qed.
Lemma rsum_last n f : rsum (S n) f = rsum n f + f n.
Proof. reflexivity. Qed.
Lemma row_sum P A a : dofs_ok P -> unity P -> discretize_operator P mass = Ok A -> (a < n_dofs P)%nat ->
  rsum (n_dofs P) (fun b => A a b) =
  rsum (n_cells P) (fun e => measure P e * rsum (n_basis P) (fun h => hit (dof P e h) a * rsum (n_nodes P) (fun q => weight P q * ref_psi P h (node P q)))).
Proof.
  intros A1 A3 E Ha. destruct (C140_mass P A1) as (A' & E' & _ & Q & _). rewrite E in E'. injection E' as <-.
  set (v := fun i => if Nat.eqb i a then 1 else 0).
  transitivity (pairing P A v (fun _ => 1)).
  { symmetry. unfold pairing. rewrite (rsum_single _ _ a Ha).
    - apply rsum_ext. intros b _. unfold v. rewrite Nat.eqb_refl. ring.
    - intros i _ Hi. apply rsum_zero. intros b _. unfold v. destruct (Nat.eqb_spec i a); [contradiction|ring]. }
  rewrite Q. unfold mesh_quadrature. apply rsum_ext. intros e He. f_equal.
  transitivity (rsum (n_nodes P) (fun q => rsum (n_basis P) (fun h => hit (dof P e h) a * (weight P q * ref_psi P h (node P q))))).
  - apply rsum_ext. intros q Hq. rewrite fe_at_const by auto. unfold fe_at.
    rewrite Rmult_1_r. rewrite <- rsum_scal. apply rsum_ext. intros h _.
    unfold v, hit. destruct (Nat.eqb_spec (dof P e h) a), (Nat.eq_dec (dof P e h) a); try contradiction; ring.
  - rewrite rsum_swap. apply rsum_ext. intros h _. rewrite rsum_scal. reflexivity.
Qed.
Section Lump.
Variables (M N : nat) (nodes : list vec) (cells : list (list nat)) (pt : list (list nat)) (slv : (nat -> R) -> nat -> R) (rule : QuadModel.rule).
Hypothesis (HG : good_mesh M N nodes cells) (HR : reference M 1 pt slv rule).
Local Notation P := (problem1 M N nodes cells pt slv rule).
Lemma lump_psi h x : (h <= M)%nat -> ref_psi P h x = match h with O => 1 - rsum M x | S k => x k end.
Proof.
  intros Hh. destruct (kind_range M N (gm_kind _ _ _ _ HG)) as [HM _]. destruct HR as (A & B & _). cbn [problem1 fem_problem ref_psi].
  specialize (B (PolyModel.unit_rhs h)). unfold PolyModel.basis. revert B. generalize (slv (PolyModel.unit_rhs h)) as w. intros w B. remember (1 - rsum M x) as s eqn:Es. clear HG HR.
  destruct M as [|[|[|[|n]]]]; try lia; vm_compute in A; injection A as <-;
  assert (B0 := f_equal (Rmult s) (B 0%nat ltac:(cbn; lia))); assert (B1 := f_equal (Rmult (x 0%nat)) (B 1%nat ltac:(cbn; lia)));
  try assert (B2 := f_equal (Rmult (x 1%nat)) (B 2%nat ltac:(cbn; lia))); try assert (B3 := f_equal (Rmult (x 2%nat)) (B 3%nat ltac:(cbn; lia))); clear B;
  unfold LagrangeProps.qnodes, Q2R in *; cbn in *;
  subst s; destruct h as [|[|[|[|h]]]]; try lia; cbn in *; lra.
Qed.
Lemma lump_weight h : (h <= M)%nat ->
  Rabs (rsum (n_nodes P) (fun q => weight P q * ref_psi P h (node P q)) - / INR (S M)) <= QuadProps.eps.
Proof.
  intros Hh. destruct (kind_range M N (gm_kind _ _ _ _ HG)) as [HM _]. destruct HR as (_ & _ & C). assert (K := standard_lump M rule HM C).
  unfold lump_check in K. apply andb_true_iff in K as [K K3]. apply andb_true_iff in K as [K1 K2]. apply Nat.eqb_eq in K1.
  rewrite forallb_forall in K2, K3. specialize (K3 h ltac:(apply in_seq; lia)). apply andb_true_iff in K3 as [K3 K4].
  apply Qle_bool_imp_le, Qle_Rle in K3. apply Qle_bool_imp_le, Qle_Rle in K4. rewrite Q2R_plus in K3, K4.
  assert (E1 : Q2R (1 # Pos.of_nat (S M)) = / INR (S M)).
  { destruct M as [|[|[|[|m]]]]; try lia; cbn; unfold Q2R; cbn; lra. }
  assert (E2 : Q2R QuadProps.epsQ = QuadProps.eps) by exact QuadProps.eps_Q.
  assert (E3 : rsum (n_nodes P) (fun q => weight P q * ref_psi P h (node P q)) = Q2R (basis_q rule h)).
  { unfold basis_q. rewrite <- (rsum_combine _ _ (fun w x => (w * bary_q h x)%Q)) by auto. apply rsum_ext. intros q Hq. rewrite lump_psi by auto. rewrite Q2R_mult.
    cbn [problem1 fem_problem weight node]. f_equal. assert (L := K2 _ (nth_In (QuadModel.q_nodes rule) [] Hq)). apply Nat.eqb_eq in L.
    destruct h as [|h]; [|reflexivity]. unfold bary_q. rewrite L, Q2R_minus, <- rsum_Q2R. replace (Q2R 1) with 1 by (unfold Q2R; cbn; lra). reflexivity. }
  rewrite E3. rewrite E1, E2 in K3, K4. apply Rabs_le. lra.
Qed.
(* the sum of row a of the mass matrix *)
Lemma mass_row A a : discretize_operator P mass = Ok A -> (a < length nodes)%nat ->
  rsum (length nodes) (fun b => A a b) =
  rsum (length cells) (fun e => cell_measure M N (vertex nodes cells e) * rsum (S M) (fun h => hit (dofs1 cells e h) a * rsum (n_nodes P) (fun q => weight P q * ref_psi P h (node P q)))).
Proof.
  intros E Ha. destruct (C146_first_order M N nodes cells pt slv rule HG HR) as (A1 & _ & A3 & _).
  assert (X := row_sum P A a A1 A3 E Ha). rewrite (first_basis M N nodes cells pt slv rule HG HR) in X. exact X.
Qed.
Lemma cell_row e a (g : nat -> R) : (e < length cells)%nat ->
  (In a (nth e cells []) -> exists h, (h <= M)%nat /\ rsum (S M) (fun h => hit (dofs1 cells e h) a * g h) = g h) /\
  (~ In a (nth e cells []) -> rsum (S M) (fun h => hit (dofs1 cells e h) a * g h) = 0).
Proof.
  intros He. destruct (gm_simplicial _ _ _ _ HG _ (part_cell cells e He)) as [L ND]. split.
  - intros Hin. destruct (In_nth _ _ 0%nat Hin) as (h & Hh & Eh). exists h. split; [lia|]. rewrite (rsum_single _ _ h); [|lia|].
    2:{ intros i Hi Hne. unfold hit. destruct (Nat.eq_dec (dofs1 cells e i) a) as [Ei|]; [|ring]. exfalso. apply Hne, (proj1 (NoDup_nth _ 0%nat) ND); try lia. unfold dofs1 in Ei. congruence. }
    unfold hit, dofs1. rewrite Eh. destruct (Nat.eq_dec a a); [ring|contradiction].
  - intros Hn. apply rsum_zero. intros h Hh. unfold hit. destruct (Nat.eq_dec (dofs1 cells e h) a) as [Ei|]; [|ring]. exfalso. apply Hn. rewrite <- Ei.
    unfold dofs1. apply nth_In. lia.
Qed.
Lemma patch_nonneg a : 0 <= patch_measure M N nodes cells a.
Proof.
  apply rsum_nonneg. intros e He. destruct (in_dec Nat.eq_dec a (nth e cells [])); [left; now apply (part_measure M N nodes cells HG)|lra].
Qed.
Lemma patch_positive a : (exists c, In c cells /\ In a c) -> 0 < patch_measure M N nodes cells a.
Proof.
  intros (c & Hc & Ha). destruct (In_nth _ _ [] Hc) as (e & He & Ec). destruct (Rle_lt_or_eq_dec _ _ (patch_nonneg a)) as [|Z]; [auto|]. exfalso.
  assert (X : forall e, (e < length cells)%nat -> 0 <= (if in_dec Nat.eq_dec a (nth e cells []) then cell_measure M N (vertex nodes cells e) else 0)).
  { intros e' He'. destruct (in_dec Nat.eq_dec a (nth e' cells [])); [left; now apply (part_measure M N nodes cells HG)|lra]. }
  assert (Y := rsum_nonneg_0 _ _ X (eq_sym Z) e He). cbn beta in Y. rewrite Ec in Y. destruct (in_dec Nat.eq_dec a c); [|contradiction].
  assert (Z' := part_measure M N nodes cells HG e He). lra.
Qed.
(* lump(mass): diagonal; entry (a, a) is the (M+1)-th part of the size of the cells around a, up to the rounding of the quadrature tables *)
Theorem C186_lumped A m : discretize_operator P mass = Ok A -> stores (length nodes) A m ->
  exists d, KronModel.lump_sparse m = Ok d /\ KronModel.sr d = length nodes /\ KronModel.sc d = length nodes /\
    (forall a b, (a < length nodes)%nat -> (b < length nodes)%nat -> a <> b -> KronModel.sent d a b = 0) /\
    (forall a, (a < length nodes)%nat ->
       Rabs (KronModel.sent d a a - patch_measure M N nodes cells a / INR (S M)) <= QuadProps.eps * patch_measure M N nodes cells a) /\
    (forall a, (a < length nodes)%nat -> (exists c, In c cells /\ In a c) -> 0 < KronModel.sent d a a) /\
    Rabs (rsum (length nodes) (fun a => KronModel.sent d a a) - rsum (length cells) (fun e => cell_measure M N (vertex nodes cells e)))
      <= QuadProps.eps * rsum (length cells) (fun e => cell_measure M N (vertex nodes cells e)).
Proof.
  intros E (S1 & S2 & S3). assert (Hn : nodes = [] \/ nodes <> []) by (destruct nodes; [auto|right; discriminate]).
  assert (G : exists d, KronModel.lump_sparse m = Ok d /\ KronModel.sr d = length nodes /\ KronModel.sc d = length nodes /\
    forall a b, (a < length nodes)%nat -> (b < length nodes)%nat -> KronModel.sent d a b = if Nat.eqb a b then rsum (length nodes) (fun k => A a k) else 0).
  { assert (Gi : forall a b, (a < length nodes)%nat -> (b < length nodes)%nat -> exists d, KronModel.lump_sparse m = Ok d /\ KronModel.sr d = KronModel.sr m /\ KronModel.sc d = KronModel.sr m /\
      KronModel.sent d a b = if Nat.eqb a b then rsum (KronModel.sc m) (fun k => KronModel.sent m a k) else 0).
    { intros a b Ha Hb. apply KronProps.lump_sparse_row_sums; congruence. }
    unfold KronModel.lump_sparse in *. rewrite S1, S2, Nat.eqb_refl in *. cbn [assert_ bind] in *. eexists. split; [reflexivity|]. split; [reflexivity|].
    split; [unfold KronModel.sc; cbn; now rewrite map_length, seq_length|]. intros a b Ha Hb.
    destruct (Gi a b Ha Hb) as (d & E1 & _ & _ & E2). injection E1 as <-. rewrite E2. destruct (Nat.eqb a b); [|reflexivity]. apply rsum_ext. intros k Hk. now apply S3. }
  destruct G as (d & Ed & D1 & D2 & D3). exists d. split; [auto|]. split; [auto|]. split; [auto|].
  assert (B : forall a, (a < length nodes)%nat -> Rabs (KronModel.sent d a a - patch_measure M N nodes cells a / INR (S M)) <= QuadProps.eps * patch_measure M N nodes cells a).
  { intros a Ha. rewrite D3, Nat.eqb_refl by auto. rewrite (mass_row A a E Ha). unfold patch_measure, Rdiv. rewrite <- rsum_scal_r, <- rsum_scal.
    match goal with |- Rabs (rsum ?n ?f - rsum ?n ?g) <= rsum ?n ?h => assert (X : forall k, (k <= n)%nat -> Rabs (rsum k f - rsum k g) <= rsum k h) end.
    2:{ apply X. auto. }
    induction k as [|k IH]; intros Hk; [cbn; rewrite Rminus_0_r, Rabs_R0; lra|]. rewrite !(rsum_last k).
    match goal with |- Rabs (?x + ?u - (?y + ?v)) <= ?z + ?w => replace (x + u - (y + v)) with ((x - y) + (u - v)) by ring; apply Rle_trans with (Rabs (x - y) + Rabs (u - v)); [apply Rabs_triang|] end.
    apply Rplus_le_compat; [apply IH; lia|]. assert (Hm := part_measure M N nodes cells HG k ltac:(lia)). set (mu := cell_measure M N (vertex nodes cells k)) in *.
    destruct (cell_row k a (fun h => rsum (n_nodes P) (fun q => weight P q * ref_psi P h (node P q))) ltac:(lia)) as [C1 C2].
    destruct (in_dec Nat.eq_dec a (nth k cells [])) as [Hin|Hin].
    - destruct (C1 Hin) as (h & Hh & ->). assert (W := lump_weight h Hh). rewrite <- Rmult_minus_distr_l, Rabs_mult, (Rabs_pos_eq mu) by lra. rewrite Rmult_comm. apply Rmult_le_compat_r; [lra|exact W].
    - rewrite (C2 Hin). rewrite !Rmult_0_r, Rmult_0_l, Rminus_0_r, Rabs_R0. lra. }
  split; [|split; [exact B|split]].
  - intros a b Ha Hb Hne. rewrite D3 by auto. destruct (Nat.eqb_spec a b); [contradiction|reflexivity].
  - intros a Ha Hc. assert (X := B a Ha). assert (Y := patch_positive a Hc). destruct (kind_range M N (gm_kind _ _ _ _ HG)) as [HM _].
    assert (I4 : / 4 <= / INR (S M)).
    { apply Rinv_le_contravar; [apply lt_0_INR; lia|]. replace 4 with (INR 4) by (cbn; lra). apply le_INR. lia. }
    apply Rabs_def2 in X as [_ X] || (assert (X' := Rle_abs (- (KronModel.sent d a a - patch_measure M N nodes cells a / INR (S M)))); rewrite Rabs_Ropp in X').
    assert (EE : QuadProps.eps <= / 8) by (unfold QuadProps.eps; lra).
    set (p := patch_measure M N nodes cells a) in *. assert (p * / 4 <= p / INR (S M)) by (apply Rmult_le_compat_l; lra).
    assert (QuadProps.eps * p <= / 8 * p) by (apply Rmult_le_compat_r; lra). lra.
  - destruct (C147_mass M N nodes cells pt slv rule HG HR) as (A' & E' & _ & T & _). rewrite E in E'. injection E' as <-.
    rewrite (rsum_ext _ (fun a => KronModel.sent d a a) (fun a => rsum (length nodes) (fun b => A a b))); [exact T|]. intros a Ha. rewrite D3, Nat.eqb_refl; auto.
Qed.
End Lump.

(* ------------------------------------------------------------------ second order triangles *)
(* the integral of the basis function of a vertex of a second order triangle is zero: the lumped entry of a vertex is rounding *)
Lemma second_psi pt slv h x : PolyModel.ct_poly_exp 2 2 = Ok pt ->
  (forall b i, (i < length pt)%nat -> rsum (length pt) (fun j => PolyModel.vandermonde 2 pt (LagrangeProps.qnodes (LagrangeProps.ref_nodes 2 2)) i j * slv b j) = b i) ->
  (h < 3)%nat -> PolyModel.basis 2 pt slv h x = let l := match h with O => 1 - x 0%nat - x 1%nat | S k => x k end in l * (2 * l - 1).
Proof.
  intros A B Hh. specialize (B (PolyModel.unit_rhs h)). unfold PolyModel.basis. revert B. generalize (slv (PolyModel.unit_rhs h)) as w. intros w B.
  vm_compute in A; injection A as <-.
  assert (B0 := B 0%nat ltac:(cbn; lia)). assert (B1 := B 1%nat ltac:(cbn; lia)). assert (B2 := B 2%nat ltac:(cbn; lia)).
  assert (B3 := B 3%nat ltac:(cbn; lia)). assert (B4 := B 4%nat ltac:(cbn; lia)). assert (B5 := B 5%nat ltac:(cbn; lia)). clear B.
  unfold LagrangeProps.qnodes, Q2R in *. cbn in B0, B1, B2, B3, B4, B5 |- *.
  destruct h as [|[|[|h]]]; [| | |lia]; cbn in B0, B1, B2, B3, B4, B5 |- *;
  first [assert (W0 : w 0%nat = 1) by lra | assert (W0 : w 0%nat = 0) by lra]; rewrite W0 in *; clear B0;
  first [assert (W2 : w 2%nat = 2) by lra | assert (W2 : w 2%nat = 0) by lra]; first [assert (W5 : w 5%nat = 2) by lra | assert (W5 : w 5%nat = 0) by lra];
  first [assert (W1 : w 1%nat = -3) by lra | assert (W1 : w 1%nat = -1) by lra | assert (W1 : w 1%nat = 0) by lra];
  first [assert (W3 : w 3%nat = -3) by lra | assert (W3 : w 3%nat = -1) by lra | assert (W3 : w 3%nat = 0) by lra];
  first [assert (W4 : w 4%nat = 4) by lra | assert (W4 : w 4%nat = 0) by lra];
  rewrite W1, W2, W3, W4, W5; ring.
Qed.
Definition vertex_q (r : QuadModel.rule) (h : nat) : Q := fold_right Qplus 0%Q (map (fun wx => let l := bary_q h (snd wx) in (fst wx * (l * (2 * l - 1)))%Q) (combine (QuadModel.q_weights r) (QuadModel.q_nodes r))).
Lemma classic_hit P e a : (exists h, (h < n_basis P)%nat /\ dof P e h = a) \/ (forall h, (h < n_basis P)%nat -> dof P e h <> a).
Proof.
  induction (n_basis P) as [|n [(h & Hh & Eh)|IH]]; [right; intros; lia|left; exists h; auto|].
  destruct (Nat.eq_dec (dof P e n) a) as [E|E]; [left; exists n; auto|]. right. intros h Hh. destruct (Nat.eq_dec h n) as [->|]; [auto|apply IH; lia].
Qed.
Theorem C186_second_order P A a : ldim P = 2%nat -> lagrangian P 2 -> standard_quadrature P 2 -> dofs_ok P ->
  (forall e, (e < n_cells P)%nat -> distinct_dofs P e) -> (forall e, (e < n_cells P)%nat -> 0 < measure P e) ->
  discretize_operator P mass = Ok A -> (a < n_dofs P)%nat ->
  (* a is a vertex of the cells it belongs to *)
  (forall e h, (e < n_cells P)%nat -> (h < n_basis P)%nat -> dof P e h = a -> (h < 3)%nat) ->
  Rabs (rsum (n_dofs P) (fun b => A a b)) <= QuadProps.eps * rsum (n_cells P) (measure P).
Proof.
  intros HM HL HQ Hd Hdd Hm E Ha Hv. rewrite (row_sum P A a Hd (C138_lagrangian P 2 ltac:(lia) HL) E Ha).
  assert (W : forall h, (h < 3)%nat -> Rabs (rsum (n_nodes P) (fun q => weight P q * ref_psi P h (node P q))) <= QuadProps.eps).
  { intros h Hh. destruct HL as (table & solve & Ht & Hb & Hs & Hpsi & _). destruct HQ as (r & Hr & Hn & Hnode & Hwt). rewrite HM in *.
    assert (Hb3 : (h < n_basis P)%nat) by (rewrite Hb; clear - Ht Hh; vm_compute in Ht; injection Ht as <-; cbn; lia).
    vm_compute in Hr. injection Hr as <-.
    match type of Hn with _ = length (QuadModel.q_nodes ?r) => set (rl := r) in * end.
    assert (X : rsum (n_nodes P) (fun q => weight P q * ref_psi P h (node P q)) = Q2R (vertex_q rl h)).
    { unfold vertex_q. rewrite Hn. rewrite <- (rsum_combine _ _ (fun w x => let l := bary_q h x in (w * (l * (2 * l - 1)))%Q)) by reflexivity. apply rsum_ext. intros q Hq.
      rewrite Hpsi by auto. rewrite (second_psi table solve h _ Ht Hs Hh). cbv zeta. rewrite Hwt, !Q2R_mult, Q2R_minus, Q2R_mult. f_equal.
      assert (L : length (nth q (QuadModel.q_nodes rl) []) = 2%nat).
      { assert (F : forallb (fun x => Nat.eqb (length x) 2) (QuadModel.q_nodes rl) = true) by reflexivity. rewrite forallb_forall in F. apply Nat.eqb_eq, F, nth_In. exact Hq. }
      assert (LL : match h with O => 1 - node P q 0%nat - node P q 1%nat | S k => node P q k end = Q2R (bary_q h (nth q (QuadModel.q_nodes rl) []))).
      { destruct h as [|k]; [|cbn [bary_q]; apply Hnode]. unfold bary_q. rewrite L. cbn [seq map fold_right]. rewrite !Hnode, Q2R_minus, !Q2R_plus. replace (Q2R 1) with 1 by (unfold Q2R; cbn; lra). replace (Q2R 0) with 0 by (unfold Q2R; cbn; lra). ring. }
      rewrite <- LL. replace (Q2R 2) with 2 by (unfold Q2R; cbn; lra). replace (Q2R 1) with 1 by (unfold Q2R; cbn; lra). reflexivity. }
    rewrite X. rewrite <- QuadProps.eps_Q.
    assert (C : forallb (fun h => Qle_bool (vertex_q rl h) QuadProps.epsQ && Qle_bool (- vertex_q rl h) QuadProps.epsQ) [0; 1; 2]%nat = true) by (vm_compute; reflexivity).
    rewrite forallb_forall in C. assert (I : In h [0; 1; 2]%nat) by (destruct h as [|[|[|h]]]; cbn; auto; lia). specialize (C h I). apply andb_true_iff in C as [C1 C2].
    apply Qle_bool_imp_le, Qle_Rle in C1. apply Qle_bool_imp_le, Qle_Rle in C2. rewrite Q2R_opp in C2. apply Rabs_le. lra. }
  rewrite <- rsum_scal.
  match goal with |- Rabs (rsum ?n ?f) <= rsum ?n ?h => assert (X : forall k, (k <= n)%nat -> Rabs (rsum k f) <= rsum k h) end.
  2:{ apply X. auto. }
  induction k as [|k IH]; intros Hk; [cbn; rewrite Rabs_R0; lra|]. rewrite !(rsum_last k).
  eapply Rle_trans; [apply Rabs_triang|]. apply Rplus_le_compat; [apply IH; lia|]. rewrite Rabs_mult, (Rabs_pos_eq (measure P k)) by (left; apply Hm; lia).
  rewrite Rmult_comm. apply Rmult_le_compat_r; [left; apply Hm; lia|].
  destruct (classic_hit P k a) as [(h & Hh & Eh)|Hno].
  - rewrite (rsum_single _ _ h Hh).
    + unfold hit. destruct (Nat.eq_dec (dof P k h) a); [|contradiction]. rewrite Rmult_1_l. apply W. apply (Hv k h); auto.
    + intros i Hi Hne. unfold hit. destruct (Nat.eq_dec (dof P k i) a) as [Ei|]; [|ring]. exfalso. apply Hne. apply (Hdd k ltac:(lia)); auto. congruence.
  - rewrite rsum_zero; [rewrite Rabs_R0; unfold QuadProps.eps; lra|]. intros h Hh. unfold hit. destruct (Nat.eq_dec (dof P k h) a) as [Ei|]; [exfalso; exact (Hno h Hh Ei)|ring].
Qed.
(* every node of the mesh belongs to a cell *)
Example C186_example : exists pt slv rule A m, good_mesh 2 2 mesh2_nodes TriProps.mesh2 /\ reference 2 1 pt slv rule /\
  discretize_operator (problem1 2 2 mesh2_nodes TriProps.mesh2 pt slv rule) mass = Ok A /\ stores (length mesh2_nodes) A m /\
  forall a, (a < length mesh2_nodes)%nat -> exists c, In c TriProps.mesh2 /\ In a c.
Proof.
  destruct (reference_exists 2 1) as (pt & slv & rule & H); [cbn; tauto|]. destruct (C147_mass 2 2 mesh2_nodes TriProps.mesh2 pt slv rule mesh2_good H) as (A & E & _).
  set (n := length mesh2_nodes). exists pt, slv, rule, A, (KronModel.SMat n (map (fun j => map (fun i => (i, A i j)) (seq 0 n)) (seq 0 n))).
  split; [exact mesh2_good|]. split; [exact H|]. split; [exact E|]. split.
  - split; [reflexivity|]. split; [unfold KronModel.sc; cbn; reflexivity|]. intros a b Ha Hb. unfold KronModel.sent. cbn [KronModel.scol].
    rewrite nth_error_map', nth_error_seq, (proj2 (Nat.ltb_lt _ _) Hb). cbn [option_map Nat.add].
    assert (X : forall k s, (s <= a < s + k)%nat -> KronModel.scoef a (map (fun i => (i, A i b)) (seq s k)) = A a b).
    { induction k as [|k IH]; intros s Hs; [lia|]. cbn [seq map KronModel.scoef]. destruct (Nat.eqb_spec a s) as [->|].
      - assert (Z : forall k t, (s < t)%nat -> KronModel.scoef s (map (fun i => (i, A i b)) (seq t k)) = 0).
        { clear. induction k as [|k IH]; intros t Ht; cbn; [reflexivity|]. destruct (Nat.eqb_spec s t); [lia|]. rewrite IH by lia. ring. }
        rewrite Z by lia. ring.
      - rewrite IH by lia. ring. }
    apply X. lia.
  - intros a Ha. cbn in Ha. unfold TriProps.mesh2. do 6 (destruct a as [|a]; [first [exists [0; 1; 4]%nat; split; [cbn; tauto|cbn; tauto]|exists [4; 2; 1]%nat; split; [cbn; tauto|cbn; tauto]|exists [5; 3; 2]%nat; split; [cbn; tauto|cbn; tauto]]|]). lia.
Qed.
Example C186_second_example : exists P A, ldim P = 2%nat /\ lagrangian P 2 /\ standard_quadrature P 2 /\ dofs_ok P /\ (0 < n_cells P)%nat /\ n_dofs P = 6%nat /\
  (forall e, (e < n_cells P)%nat -> distinct_dofs P e) /\ (forall e, (e < n_cells P)%nat -> 0 < measure P e) /\ discretize_operator P mass = Ok A /\
  forall e h, (e < n_cells P)%nat -> (h < n_basis P)%nat -> dof P e h = 0%nat -> (h < 3)%nat.
Proof.
  destruct (reference_exists 2 2) as (pt & slv & rule & A & B & C); [cbn; tauto|].
  set (P := {| ldim := 2; edim := 2; n_cells := 1; n_basis := length pt; n_dofs := 6; dof := fun _ i => i; measure := fun _ => / 2;
     invJ := fun _ k r => if (k =? r)%nat then 1 else 0; affine := fun _ p => p;
     ref_psi := PolyModel.basis 2 pt slv; ref_nabla := fun h => PolyModel.poly_derive 2 pt (slv (PolyModel.unit_rhs h));
     n_nodes := length (QuadModel.q_nodes rule); node := fun q k => Q2R (nth k (nth q (QuadModel.q_nodes rule) []) 0%Q);
     weight := fun q => Q2R (nth q (QuadModel.q_weights rule) 0%Q) |}).
  assert (L : length pt = 6%nat) by (vm_compute in A; injection A as <-; reflexivity).
  assert (D : dofs_ok P) by (intros e i; cbn; lia).
  destruct (C140_mass P D) as (Ma & EM & _). exists P, Ma.
  split; [reflexivity|]. split; [exists pt, slv; cbn; repeat split; auto|]. split; [exists rule; cbn -[nth]; repeat split; auto|].
  split; [exact D|]. split; [cbn; lia|]. split; [reflexivity|]. split; [intros e He h h' _ _ Eh; exact Eh|]. split; [intros; cbn; lra|]. split; [exact EM|].
  intros e h He Hh Eh. cbn in Eh. lia.
Qed.
Print Assumptions C186_lumped.
Print Assumptions C186_second_order.
