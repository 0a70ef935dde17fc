(* C154: evaluation matrices reproduce the polynomials of the space. *)
From Coq Require Import QArith Qreals.
From Verif Require Import Base RSum SimplexModel SimplexProps LinAlg FieldModel FieldProps MeasureModel MeasureProps FemModel FemProps EvalModel EvalProps
  SolverModel SolverProps FemEnergy FemKernel FemMesh.
From Verif Require PolyModel PolyProps LagrangeProps QuadModel QuadProps TriSpec TriProps DofModel DofProps.
Local Open Scope R_scope.

(* ------------------------------------------------------------------ specification *)
(* affine and quadratic functions of the N coordinates of a point *)
Definition affine_function (N : nat) (f : vec -> R) : Prop := exists a b, forall p, f p = a + rsum N (fun r => b r * p r).
Definition quadratic_function (N : nat) (f : vec -> R) : Prop := exists a b Q, forall p,
  f p = a + rsum N (fun r => b r * p r) + rsum N (fun r => rsum N (fun s => Q r s * p r * p s)).
(* p lies in the plane of the cell of vertices c (for M = N: every point) *)
Definition in_plane (M N : nat) (c : nat -> vec) (p : vec) : Prop :=
  M = N \/ exists x, forall r, (r < N)%nat -> p r = c 0%nat r + rsum M (fun k => x k * (c (S k) r - c 0%nat r)).

(* ------------------------------------------------------------------ proofs *)
Lemma rprod_ext n f g : (forall k, (k < n)%nat -> f k = g k) -> PolyProps.rprod n f = PolyProps.rprod n g.
Proof. induction n as [|n IH]; intros H; cbn; [reflexivity|]. rewrite IH, (H n) by (auto; intros; apply H; lia). reflexivity. Qed.
Lemma rprod_one n f : (forall k, (k < n)%nat -> f k = 1) -> PolyProps.rprod n f = 1.
Proof. induction n as [|n IH]; intros H; cbn; [reflexivity|]. rewrite IH, (H n) by (auto; intros; apply H; lia). ring. Qed.
Lemma rprod_single n f j : (j < n)%nat -> (forall k, (k < n)%nat -> k <> j -> f k = 1) -> PolyProps.rprod n f = f j.
Proof.
  induction n as [|n IH]; intros Hj H; [lia|]. cbn. destruct (Nat.eq_dec j n) as [->|].
  - rewrite rprod_one; [ring|]. intros k Hk. apply H; lia.
  - rewrite IH, (H n) by (try lia; intros; apply H; lia). ring.
Qed.
Lemma rprod_times n f g : PolyProps.rprod n (fun k => f k * g k) = PolyProps.rprod n f * PolyProps.rprod n g.
Proof. induction n as [|n IH]; cbn; [ring|rewrite IH; ring]. Qed.
Definition unit_at (j k : nat) : nat := if (k =? j)%nat then 1%nat else 0%nat.
Lemma rprod_unit n x j : (j < n)%nat -> PolyProps.rprod n (fun k => x k ^ unit_at j k) = x j.
Proof.
  intros Hj. rewrite (rprod_single n _ j Hj).
  - unfold unit_at. rewrite Nat.eqb_refl. cbn. ring.
  - intros k _ Hk. unfold unit_at. destruct (Nat.eqb_spec k j); [congruence|]. reflexivity.
Qed.
Lemma array_sum_plus (u v : nat -> nat) l : PolyModel.array_sum (map (fun k => (u k + v k)%nat) l) = (PolyModel.array_sum (map u l) + PolyModel.array_sum (map v l))%nat.
Proof. induction l as [|k l IH]; cbn; [reflexivity|rewrite IH; lia]. Qed.
Lemma array_sum_zero (v : nat -> nat) l : (forall k, In k l -> v k = 0%nat) -> PolyModel.array_sum (map v l) = 0%nat.
Proof. induction l as [|k l IH]; intros H; cbn; [reflexivity|]. rewrite IH, (H k) by (cbn; auto; intros; apply H; cbn; auto). reflexivity. Qed.
Lemma array_sum_unit j n : (PolyModel.array_sum (map (unit_at j) (seq 0 n)) <= 1)%nat.
Proof.
  enough (G : forall m a, (PolyModel.array_sum (map (unit_at j) (seq a m)) <= 1)%nat) by apply G.
  induction m as [|m IH]; intros a; cbn [seq map PolyModel.array_sum]; [lia|]. specialize (IH (S a)). unfold unit_at at 1. destruct (Nat.eqb_spec a j) as [->|]; [|lia].
  rewrite array_sum_zero; [lia|]. intros k Hk. apply in_seq in Hk. unfold unit_at. destruct (Nat.eqb_spec k j); lia.
Qed.

Section Space.
Variables (M Rd : nat) (pt : list (list nat)).
Hypotheses (HM : (1 <= M)%nat) (Ht : PolyModel.ct_poly_exp M Rd = Ok pt).
Definition representable (f : vec -> R) : Prop := exists c, forall x, f x = PolyProps.polynomial M pt c x.
Lemma rep_ext f g : (forall x, f x = g x) -> representable g -> representable f.
Proof. intros H (c & Hc). exists c. intros x. now rewrite H. Qed.
Lemma rep_plus f g : representable f -> representable g -> representable (fun x => f x + g x).
Proof.
  intros (c & Hc) (d & Hd). exists (fun j => c j + d j). intros x. rewrite Hc, Hd. unfold PolyProps.polynomial. rewrite <- rsum_plus.
  apply rsum_ext. intros; ring.
Qed.
Lemma rep_scal a f : representable f -> representable (fun x => a * f x).
Proof. intros (c & Hc). exists (fun j => a * c j). intros x. rewrite Hc. unfold PolyProps.polynomial. rewrite <- rsum_scal. apply rsum_ext. intros; ring. Qed.
Lemma rep_zero : representable (fun _ => 0).
Proof. exists (fun _ => 0). intros x. unfold PolyProps.polynomial. rewrite rsum_zero; [reflexivity|]. intros; ring. Qed.
Lemma rep_sum m (f : nat -> vec -> R) : (forall i, (i < m)%nat -> representable (f i)) -> representable (fun x => rsum m (fun i => f i x)).
Proof.
  induction m as [|m IH]; intros H; cbn [rsum]; [apply rep_zero|]. apply rep_plus; [apply IH; auto|apply H; lia].
Qed.
Lemma rep_monomial (v : nat -> nat) : (PolyModel.array_sum (map v (seq 0 M)) <= Rd)%nat -> representable (fun x => PolyProps.rprod M (fun k => x k ^ v k)).
Proof.
  intros Hv. destruct (PolyProps.C61_table M Rd HM) as (t & Ht' & _ & _ & Hin & _). rewrite Ht in Ht'. injection Ht' as <-.
  assert (I : In (map v (seq 0 M)) pt) by (apply Hin; rewrite map_length, seq_length; auto).
  destruct (In_nth _ _ [] I) as (j & Hj & Ej). exists (PolyModel.unit_rhs j). intros x. unfold PolyProps.polynomial. symmetry.
  rewrite (rsum_single (length pt) _ j Hj).
  - unfold PolyModel.unit_rhs. rewrite Nat.eqb_refl, Rmult_1_l. apply rprod_ext. intros k Hk. f_equal. unfold PolyModel.entry. rewrite Ej.
    rewrite (nth_indep _ 0%nat (v 0%nat)) by (rewrite map_length, seq_length; auto). rewrite map_nth, seq_nth by auto. reflexivity.
  - intros i _ Hne. unfold PolyModel.unit_rhs. destruct (Nat.eqb_spec j i); [congruence|]. ring.
Qed.
Lemma rep_const a : representable (fun _ => a).
Proof.
  apply (rep_ext _ (fun x => a * PolyProps.rprod M (fun k => x k ^ 0))).
  - intros x. rewrite rprod_one; [ring|]. intros; reflexivity.
  - apply rep_scal. apply (rep_monomial (fun _ => 0%nat)). rewrite array_sum_zero; [lia|auto].
Qed.
Lemma rep_coord j : (j < M)%nat -> (1 <= Rd)%nat -> representable (fun x => x j).
Proof.
  intros Hj HR. apply (rep_ext _ (fun x => PolyProps.rprod M (fun k => x k ^ unit_at j k))).
  - intros x. now rewrite rprod_unit.
  - apply rep_monomial. assert (A := array_sum_unit j M). lia.
Qed.
Lemma rep_prod i j : (i < M)%nat -> (j < M)%nat -> (2 <= Rd)%nat -> representable (fun x => x i * x j).
Proof.
  intros Hi Hj HR. apply (rep_ext _ (fun x => PolyProps.rprod M (fun k => x k ^ (unit_at i k + unit_at j k)))).
  - intros x. rewrite (rprod_ext M _ (fun k => x k ^ unit_at i k * x k ^ unit_at j k)) by (intros; apply pow_add).
    now rewrite rprod_times, !rprod_unit.
  - apply (rep_monomial (fun k => (unit_at i k + unit_at j k)%nat)). rewrite array_sum_plus. assert (A := array_sum_unit i M). assert (B := array_sum_unit j M). lia.
Qed.
(* the coordinates of the image of x under an affine map *)
Definition image_of (V : vec) (J : nat -> nat -> R) (x : vec) : vec := fun r => V r + rsum M (fun k => J r k * x k).
Lemma rep_affine N f V J : (1 <= Rd)%nat -> affine_function N f -> representable (fun x => f (image_of V J x)).
Proof.
  intros HR (a & b & Hf).
  apply (rep_ext _ (fun x => a + rsum N (fun r => b r * (V r + rsum M (fun k => J r k * x k))))); [intros; apply Hf|].
  apply rep_plus; [apply rep_const|]. apply rep_sum. intros r _. apply rep_scal. apply rep_plus; [apply rep_const|].
  apply rep_sum. intros k Hk. apply rep_scal. now apply rep_coord.
Qed.
Lemma rsum_product n m f g : rsum n f * rsum m g = rsum n (fun i => rsum m (fun j => f i * g j)).
Proof. induction n as [|n IH]; cbn [rsum]; [ring|]. rewrite <- IH, rsum_scal. ring. Qed.
Lemma rep_quadratic N f V J : (2 <= Rd)%nat -> quadratic_function N f -> representable (fun x => f (image_of V J x)).
Proof.
  intros HR (a & b & Q & Hf).
  apply (rep_ext _ (fun x => (a + rsum N (fun r => b r * image_of V J x r)) + rsum N (fun r => rsum N (fun s => Q r s * image_of V J x r * image_of V J x s)))).
  { intros x. apply Hf. }
  apply rep_plus.
  - apply (rep_affine N (fun p => a + rsum N (fun r => b r * p r)) V J ltac:(lia)). exists a, b. auto.
  - apply rep_sum. intros r _. apply rep_sum. intros s _.
    apply (rep_ext _ (fun x => Q r s * ((V r * V s + (V r * rsum M (fun k => J s k * x k) + V s * rsum M (fun k => J r k * x k))) +
      rsum M (fun k => rsum M (fun l => (J r k * J s l) * (x k * x l)))))).
    { intros x. unfold image_of. rewrite (rsum_ext M (fun k => rsum M (fun l => J r k * J s l * (x k * x l))) (fun k => rsum M (fun l => (J r k * x k) * (J s l * x l))))
        by (intros; apply rsum_ext; intros; ring).
      rewrite <- rsum_product. ring. }
    apply rep_scal. apply rep_plus.
    + apply rep_plus; [apply rep_const|]. apply rep_plus; apply rep_scal; apply rep_sum; intros k Hk; apply rep_scal; apply rep_coord; auto; lia.
    + apply rep_sum. intros k Hk. apply rep_sum. intros l Hl. apply rep_scal. now apply rep_prod.
Qed.
(* nodal interpolation is exact on representable functions *)
Lemma interpolates slv f : (forall b i, (i < length pt)%nat -> rsum (length pt) (fun j =>
     PolyModel.vandermonde M pt (LagrangeProps.qnodes (LagrangeProps.ref_nodes M Rd)) i j * slv b j) = b i) ->
  representable f -> forall x, rsum (length pt) (fun h => f (LagrangeProps.qnodes (LagrangeProps.ref_nodes M Rd) h) * PolyModel.basis M pt slv h x) = f x.
Proof.
  intros Hs (c & Hc) x. rewrite (Hc x). rewrite (LagrangeProps.C63_reproduces M Rd pt _ slv HM Ht Hs c x). apply rsum_ext. intros h _. now rewrite Hc.
Qed.
End Space.

Lemma mesh_dim M N nodes cells : good_mesh M N nodes cells -> (1 <= M)%nat.
Proof. intros HG. destruct (kind_range M N (gm_kind _ _ _ _ HG)). lia. Qed.
(* the parts common to both orders *)
Section Parts.
Variables (M N Rd : nat) (nodes : list vec) (cells : list (list nat)) (dofs : nat -> nat -> nat) (size : nat)
  (pt : list (list nat)) (slv : (nat -> R) -> nat -> R) (rule : QuadModel.rule).
Hypotheses (HG : good_mesh M N nodes cells) (HR : reference M Rd pt slv rule).
Local Notation P := (fem_problem M N nodes cells dofs size pt slv rule).
Local Notation corner := (fun e => vertex nodes cells e 0).
Lemma mesh_geometry : geometry P corner.
Proof.
  destruct HR as (Hpt & _). split.
  - exists (fun e r k => jac (vertex nodes cells e) r k). split; [reflexivity|]. intros e k l He Hk Hl. cbn in *.
    destruct (C141_inverse M N _ (gm_kind _ _ _ _ HG) (part_nondegenerate M N nodes cells HG e He)) as [A _]. now apply A.
  - intros h x y H. cbn. unfold PolyModel.basis.
    destruct (LagrangeProps.table_facts M Rd pt (mesh_dim M N nodes cells HG) Hpt) as [Hl _]. assert (Hne : pt <> []) by (intros E; rewrite E in Hl; cbn in Hl; lia).
    rewrite !(PolyProps.C62_eval M pt) by (exact (mesh_dim M N nodes cells HG) || auto). unfold PolyProps.polynomial. apply rsum_ext. intros j _. f_equal. apply rprod_ext. intros k Hk.
    rewrite (H k) by auto. reflexivity.
Qed.
Lemma plane_maps e p : (e < length cells)%nat -> in_plane M N (vertex nodes cells e) p -> exists x, maps_to P e x p.
Proof.
  intros He [E|(x & Hx)].
  - exists (pull P corner e p). intros r Hr. cbn in Hr |- *.
    destruct (C141_inverse M N _ (gm_kind _ _ _ _ HG) (part_nondegenerate M N nodes cells HG e He)) as [_ A]. specialize (A E). unfold pull. cbn.
    rewrite (rsum_ext M _ (fun k => rsum N (fun s => (vertex nodes cells e (S k) r - vertex nodes cells e 0 r) * cell_invJ M N (vertex nodes cells e) k s * (p s - vertex nodes cells e 0 s)))).
    2:{ intros k _. unfold jac. rewrite <- rsum_scal. apply rsum_ext. intros; ring. }
    rewrite rsum_swap. rewrite (rsum_single N _ r Hr).
    + rewrite rsum_scal_r, A, Nat.eqb_refl by auto. ring.
    + intros s Hs Hne. rewrite rsum_scal_r, A by auto. destruct (Nat.eqb_spec r s); [congruence|ring].
  - exists x. intros r Hr. cbn in Hr |- *. rewrite (Hx r Hr). f_equal. apply rsum_ext. intros k _. unfold jac. ring.
Qed.
(* [at_] gives the point of each dof *)
Lemma reproduces (at_ : nat -> vec) f (degree : (vec -> R) -> Prop) : dofs_ok P ->
  (forall p q, (forall r, (r < N)%nat -> p r = q r) -> f p = f q) ->
  (forall e h, (e < length cells)%nat -> (h < length pt)%nat -> forall r, (r < N)%nat ->
     at_ (dofs e h) r = affine P e (LagrangeProps.qnodes (LagrangeProps.ref_nodes M Rd) h) r) ->
  (forall V J, representable M pt (fun x => f (image_of M V J x))) ->
  forall e p, (e < length cells)%nat -> in_plane M N (vertex nodes cells e) p ->
    fe_value P corner (fun a => f (at_ a)) e p = f p.
Proof.
  intros Hd Hext Hat Hrep e p He Hp. destruct (plane_maps e p He Hp) as (x & Hx). destruct HR as (Hpt & Hs & _).
  rewrite (fe_value_at P corner _ e x p mesh_geometry He Hx). unfold fe_at. cbn [fem_problem n_basis dof ref_psi].
  set (V := vertex nodes cells e 0). set (J := jac (vertex nodes cells e)).
  rewrite (Hext p (image_of M V J x)) by (intros r Hr; exact (Hx r Hr)).
  rewrite <- (interpolates M Rd pt (mesh_dim M N nodes cells HG) Hpt slv _ Hs (Hrep V J) x). apply rsum_ext. intros h Hh. f_equal.
  apply Hext. intros r Hr. rewrite (Hat e h He Hh r Hr). reflexivity.
Qed.
End Parts.
Lemma affine_ext N f p q : affine_function N f -> (forall r, (r < N)%nat -> p r = q r) -> f p = f q.
Proof. intros (a & b & H) E. rewrite !H. f_equal. apply rsum_ext. intros r Hr. now rewrite E. Qed.
Lemma quadratic_ext N f p q : quadratic_function N f -> (forall r, (r < N)%nat -> p r = q r) -> f p = f q.
Proof.
  intros (a & b & Q & H) E. rewrite !H. f_equal; [f_equal|].
  - apply rsum_ext. intros r Hr. now rewrite E.
  - apply rsum_ext. intros r Hr. apply rsum_ext. intros s Hs. now rewrite !E.
Qed.

Section First.
Variables (M N : nat) (nodes : list vec) (cells : list (list nat)) (pt : list (list nat)) (slv : (nat -> R) -> nat -> R) (rule : QuadModel.rule).
Hypotheses (HG : good_mesh M N nodes cells) (HR : reference M 1 pt slv rule).
Local Notation P := (problem1 M N nodes cells pt slv rule).
Local Notation corner := (fun e => vertex nodes cells e 0).
Local Notation at_node := (fun a => nth a nodes (fun _ => 0)).
(* first order: affine functions *)
Theorem C154_first_order locate locs : located P locate -> locs <> [] ->
  exists Psi D, pointwise_evaluation P corner locate locs = Ok (Psi, D) /\
  forall i p e, nth_error locs i = Some p -> locate p = Some e -> in_plane M N (vertex nodes cells e) p ->
    (forall f, affine_function N f -> rsum (length nodes) (fun a => Psi i a * f (at_node a)) = f p) /\
    rsum (length nodes) (fun a => Psi i a) = 1.
Proof.
  intros Hl Hne. destruct (C146_first_order M N nodes cells pt slv rule HG HR) as (A1 & A2 & A3 & A4 & A5 & A6 & A7 & A8).
  destruct (C68_pointwise P corner locate locs A1 Hl Hne) as (Psi & D & E & _ & H). exists Psi, D. split; [auto|].
  intros i p e Hp He Hpl. destruct (H i p Hp) as [_ H2]. destruct (H2 e He) as (_ & _ & V). assert (Hce := Hl p e He).
  assert (G : forall f, affine_function N f -> rsum (length nodes) (fun a => Psi i a * f (at_node a)) = f p).
  { intros f Hf. etransitivity; [exact (V (fun a => f (at_node a)))|].
    apply (reproduces M N 1 nodes cells (dofs1 cells) (length nodes) pt slv rule HG HR (fun a => nth a nodes (fun _ => 0)) f (affine_function N) A1); auto.
    - intros q q'. apply (affine_ext N f); auto.
    - intros e' h He' Hh r Hr. destruct HR as (Hpt & _). destruct (kind_range M N (gm_kind _ _ _ _ HG)) as [HM _].
      rewrite (pt_first M pt) in Hh by auto. destruct (A8 e' h He' ltac:(lia)) as [_ B]. symmetry. apply B.
    - intros W J. destruct HR as (Hpt & _). apply (rep_affine M 1 pt (mesh_dim M N nodes cells HG) Hpt N); auto. }
  split; [exact G|]. rewrite <- (G (fun _ => 1)).
  - apply rsum_ext. intros; ring.
  - exists 1, (fun _ => 0). intros q. rewrite rsum_zero; [ring|]. intros; ring.
Qed.
(* evaluation at a node of the located cell: a row of the identity *)
Theorem C154_nodes locate locs : located P locate -> locs <> [] ->
  exists Psi D, pointwise_evaluation P corner locate locs = Ok (Psi, D) /\
  forall i e v, nth_error locs i = nth_error nodes v -> (v < length nodes)%nat -> locate (nth v nodes (fun _ => 0)) = Some e -> In v (nth e cells []) ->
    forall a, Psi i a = if (a =? v)%nat then 1 else 0.
Proof.
  intros Hl Hne. destruct (C146_first_order M N nodes cells pt slv rule HG HR) as (A1 & A2 & A3 & A4 & A5 & A6 & A7 & A8).
  destruct (C68_pointwise P corner locate locs A1 Hl Hne) as (Psi & D & E & _ & H). exists Psi, D. split; [auto|].
  intros i e v Hi Hv He Hin a. rewrite (nth_error_nth' nodes (fun _ => 0) Hv) in Hi. destruct (H i _ Hi) as [_ H2]. destruct (H2 e He) as (K1 & K2 & _).
  assert (Hce := Hl _ e He). cbn in Hce. destruct (In_nth _ _ 0%nat Hin) as (h & Hh & Eh).
  destruct (gm_simplicial _ _ _ _ HG _ (part_cell cells e Hce)) as [L _]. rewrite L in Hh.
  destruct HR as (Hpt & Hs & Hrl). destruct (kind_range M N (gm_kind _ _ _ _ HG)) as [HM _]. assert (Lp := pt_first M pt ltac:(lia) Hpt).
  assert (X : forall h', (h' < S M)%nat -> Psi i (dofs1 cells e h') = if (h' =? h)%nat then 1 else 0).
  { intros h' Hh'. etransitivity; [exact (K1 (A2 e Hce) h' ltac:(cbn; lia))|].
    rewrite (psi_pull P corner e (LagrangeProps.qnodes (LagrangeProps.ref_nodes M 1) h) _ h' (mesh_geometry M N 1 nodes cells (dofs1 cells) (length nodes) pt slv rule HG HR) Hce).
    - cbn [problem1 fem_problem ref_psi]. rewrite (LagrangeProps.C63_nodal M 1 pt _ slv ltac:(lia) Hpt Hs h' h) by lia. reflexivity.
    - intros r Hr. destruct (A8 e h Hce ltac:(lia)) as [B1 B2]. rewrite B2. cbn [problem1 fem_problem dof] in B1 |- *. rewrite B1, Eh. reflexivity. }
  destruct (Nat.eqb_spec a v) as [->|Hne'].
  - assert (Y := X h Hh). rewrite Nat.eqb_refl in Y. rewrite <- Y. unfold dofs1. now rewrite Eh.
  - destruct (in_dec Nat.eq_dec a (nth e cells [])) as [Ia|Na].
    + destruct (In_nth _ _ 0%nat Ia) as (h' & Hh' & Eh'). rewrite L in Hh'. assert (Y := X h' Hh'). unfold dofs1 in Y. rewrite Eh' in Y. rewrite Y.
      destruct (Nat.eqb_spec h' h) as [->|]; [congruence|reflexivity].
    + apply K2. intros h' Hh' Ea. apply Na. rewrite <- Ea. cbn. apply nth_In. rewrite L. cbn in Hh'. lia.
Qed.
End First.

Section Second.
Variables (N : nat) (nodes : list vec) (cells : list (list nat)) (markers : list bool) (pt : list (list nat)) (slv : (nat -> R) -> nat -> R) (rule : QuadModel.rule)
  (t : list (list (option nat))) (size : nat) (b : list bool).
Hypotheses (HG : good_mesh 2 N nodes cells) (HC : TriSpec.conforming cells) (HM : length markers = length nodes)
  (HR : reference 2 2 pt slv rule) (HE : DofModel.enumerate_dofs2 cells (length nodes) markers = Ok (t, size, b)).
Local Notation P := (problem2 N nodes cells pt slv rule t size).
Local Notation corner := (fun e => vertex nodes cells e 0).
(* second order: quadratic functions, sampled at the coordinates of the dofs *)
Theorem C154_second_order locate locs : located P locate -> locs <> [] ->
  exists coords Psi D, DofModel.dofs_coords2 nodes cells t size = Ok coords /\ pointwise_evaluation P corner locate locs = Ok (Psi, D) /\
  forall i p e, nth_error locs i = Some p -> locate p = Some e -> in_plane 2 N (vertex nodes cells e) p ->
    (forall f c, quadratic_function N f -> (forall a q, nth_error coords a = Some (Some q) -> c a = f q) -> rsum size (fun a => Psi i a * c a) = f p) /\
    rsum size (fun a => Psi i a) = 1.
Proof.
  intros Hl Hne. destruct (C146_second_order N nodes cells markers pt slv rule HG HR HC HM t size b HE) as (A1 & A2 & A3 & A4 & A5 & A6 & A7 & A8 & coords & Ec & A9).
  destruct (C68_pointwise P corner locate locs A1 Hl Hne) as (Psi & D & E & _ & H). exists coords, Psi, D. split; [auto|]. split; [auto|].
  intros i p e Hp He Hpl. destruct (H i p Hp) as [_ H2]. destruct (H2 e He) as (_ & _ & V). assert (Hce := Hl p e He).
  pose (at_ := fun a => match nth_error coords a with Some (Some q) => q | _ => (fun _ => 0) : vec end).
  assert (G : forall f c, quadratic_function N f -> (forall a q, nth_error coords a = Some (Some q) -> c a = f q) -> rsum size (fun a => Psi i a * c a) = f p).
  { intros f c Hf Hc. etransitivity; [exact (V c)|].
    transitivity (fe_value P corner (fun a => f (at_ a)) e p).
    - unfold fe_value. apply rsum_ext. intros h Hh. f_equal. rewrite (second_basis N nodes cells markers pt slv rule HR HM t size) in Hh.
      destruct (A9 e h Hce Hh) as (q & Hq & _). unfold at_. rewrite Hq. now apply Hc.
    - apply (reproduces 2 N 2 nodes cells (dofs2 t) size pt slv rule HG HR at_ f (quadratic_function N) A1); auto.
      + intros q q'. apply (quadratic_ext N f); auto.
      + intros e' h He' Hh r Hr. assert (Hb := second_basis N nodes cells markers pt slv rule HR HM t size). cbn in Hb. rewrite Hb in Hh.
        destruct (A9 e' h He' Hh) as (q & Hq & B). unfold at_. cbn [problem2 fem_problem dof] in Hq. rewrite Hq. symmetry. apply B.
      + intros W J. destruct HR as (Hpt & _). apply (rep_quadratic 2 2 pt ltac:(lia) Hpt N); auto. }
  split; [exact G|]. rewrite <- (G (fun _ => 1) (fun _ => 1)); [|exists 1, (fun _ => 0), (fun _ _ => 0)|auto].
  - apply rsum_ext. intros; ring.
  - intros q. rewrite rsum_zero by (intros; ring). rewrite rsum_zero; [ring|]. intros. apply rsum_zero. intros; ring.
Qed.
End Second.
(* the point (1, 1/2) of cell 0 = (0,0) (2,0) (1,1) of the mesh of six nodes *)
Definition in_first (p : vec) : option nat :=
  if Rle_dec 0 (p 1%nat) then if Rle_dec (p 1%nat) (p 0%nat) then if Rle_dec (p 0%nat + p 1%nat) 2 then Some 0%nat else None else None else None.
Definition below : vec := fun r => match r with O => 1 | _ => 1 / 2 end.
Example C154_example : good_mesh 2 2 mesh2_nodes TriProps.mesh2 /\ (exists pt slv rule, reference 2 1 pt slv rule) /\ (exists pt slv rule, reference 2 2 pt slv rule) /\
  (forall dofs size pt slv rule, located (fem_problem 2 2 mesh2_nodes TriProps.mesh2 dofs size pt slv rule) in_first) /\
  in_first below = Some 0%nat /\ in_plane 2 2 (vertex mesh2_nodes TriProps.mesh2 0) below /\
  affine_function 2 (fun p => 3 + p 0%nat - 2 * p 1%nat) /\ quadratic_function 2 (fun p => p 0%nat * p 1%nat + 1).
Proof.
  split; [exact mesh2_good|]. split; [apply reference_exists; cbn; tauto|]. split; [apply reference_exists; cbn; tauto|]. split; [|split; [|split; [now left|split]]].
  - intros dofs size pt slv rule p e. unfold in_first. repeat match goal with |- context [if ?c then _ else _] => destruct c end; try discriminate.
    intros E. injection E as <-. cbn. lia.
  - unfold in_first, below. repeat match goal with |- context [if ?c then _ else _] => destruct c end; try reflexivity; lra.
  - exists 3, (fun r => match r with O => 1 | _ => -2 end). intros p. cbn. ring.
  - exists 1, (fun _ => 0), (fun r s => match r, s with O, S _ => 1 | _, _ => 0 end). intros p. cbn. ring.
Qed.
Print Assumptions C154_first_order.
Print Assumptions C154_nodes.
Print Assumptions C154_second_order.
