(* C149: the patch test.  On every mesh of segments, triangles or tetrahedra, a diffusion problem with constant
   coefficients whose solution is an affine function is solved exactly. *)
From Coq Require Import QArith Qreals Permutation.
From Verif Require Import Base RSum SimplexModel SimplexProps LinAlg FieldModel FieldProps MeasureModel MeasureProps FemModel FemProps EvalModel EvalProps
  SolverModel SolverProps FemEnergy FemKernel FemMesh.
From Verif Require PolyModel PolyProps LagrangeProps QuadModel QuadProps TriSpec TriProofs TriProps FspaiValues.
Local Open Scope R_scope.

(* ------------------------------------------------------------------ specification *)
(* v is a node of the face of cell c opposite to its node b *)
Definition on_face (c : list nat) (b v : nat) : Prop := In v c /\ v <> b.
Definition place (nodes : list vec) (v : nat) : vec := nth v nodes (fun _ => 0).
(* the cells c and c' have a face in common, opposite to b in c and to b' in c', and lie on opposite sides of it: some
   affine function vanishes on the face, is positive at b and negative at b' *)
Definition across (d : nat) (nodes : list vec) (c : list nat) (b : nat) (c' : list nat) (b' : nat) : Prop :=
  (forall v, on_face c b v <-> on_face c' b' v) /\
  exists (n : vec) k, (forall v, on_face c b v -> rsum d (fun r => n r * place nodes v r) = k) /\
    k < rsum d (fun r => n r * place nodes b r) /\ rsum d (fun r => n r * place nodes b' r) < k.
(* an interior node: every face through it separates two cells *)
Definition interior_node (d : nat) (nodes : list vec) (cells : list (list nat)) (a : nat) : Prop :=
  forall c b, In c cells -> In a c -> In b c -> b <> a -> exists c' b', In c' cells /\ In b' c' /\ across d nodes c b c' b'.
(* the affine function alpha + beta . x at node a *)
Definition affine_at (d : nat) (nodes : list vec) (alpha : R) (beta : vec) (a : nat) : R :=
  alpha + rsum d (fun r => beta r * place nodes a r).
(* minus the Laplacian, or minus the diffusion with a constant symmetric positive definite tensor *)
Definition constant_diffusion (d : nat) (op : dop) : Prop :=
  op = DNeg Lap \/ exists K, op = DNeg (Diff (MConst d d K)) /\ (forall r s, K r s = K s r) /\
    forall x : vec, 0 <= rsum d (fun r => x r * rsum d (fun s => K r s * x s)) /\
      (rsum d (fun r => x r * rsum d (fun s => K r s * x s)) = 0 -> forall r, (r < d)%nat -> x r = 0).

(* ------------------------------------------------------------------ cancellation in pairs *)
Lemma pair_cancel {A} (G : A -> R) (Rel : A -> A -> Prop) :
  (forall p q, Rel p q -> Rel q p) -> (forall p q q', Rel p q -> Rel p q' -> q = q') -> (forall p q, Rel p q -> p <> q /\ G q = - G p) ->
  forall n l, (length l <= n)%nat -> NoDup l -> (forall p, In p l -> exists q, In q l /\ Rel p q) -> lsum (map G l) = 0.
Proof.
  intros Hsym Hfun Hneg. induction n as [|n IH]; intros [|p l] Hlen Hnd Hex; try reflexivity; [cbn in Hlen; lia|].
  destruct (Hex p (or_introl eq_refl)) as (q & Hq & Rpq). destruct (Hneg p q Rpq) as [Hne EG].
  destruct Hq as [Hq|Hq]; [congruence|]. apply NoDup_cons_iff in Hnd as [Hp Hnd].
  destruct (in_split _ _ Hq) as (l1 & l2 & El).
  assert (Pm : Permutation l (q :: l1 ++ l2)) by (rewrite El; symmetry; apply Permutation_middle).
  assert (Hnd' := Permutation_NoDup Pm Hnd). apply NoDup_cons_iff in Hnd' as [Hq' Hnd'].
  cbn [map lsum]. rewrite (FspaiValues.lsum_perm _ _ (Permutation_map G Pm)). cbn [map lsum].
  rewrite (IH (l1 ++ l2)); [rewrite EG; ring| |auto|].
  - apply Permutation_length in Pm. cbn in *. lia.
  - intros x Hx. assert (Hxl : In x l) by (apply (Permutation_in x (Permutation_sym Pm)); now right).
    destruct (Hex x (or_intror Hxl)) as (y & Hy & Rxy). exists y. split; [|auto].
    destruct Hy as [<-|Hy].
    + exfalso. apply Hq'. rewrite <- (Hfun _ _ _ (Hsym _ _ Rxy) Rpq). auto.
    + apply (Permutation_in y Pm) in Hy as [<-|Hy]; [|auto]. exfalso.
      assert (x = p) by (apply (Hfun q); [now apply Hsym|now apply Hsym]). subst. auto.
Qed.

(* ------------------------------------------------------------------ one cell *)
(* gradient of the barycentric coordinate of vertex h *)
Definition ref_slope (h k : nat) : R := match h with O => -1 | S h' => if Nat.eqb h' k then 1 else 0 end.
Section Cell.
Variables (d : nat) (c : nat -> vec).
Hypothesis (Hd : (1 <= d <= 3)%nat) (Hc : nondegenerate d d c).
Definition slope (h r : nat) : R := rsum d (fun k => cell_invJ d d c k r * ref_slope h k).
Lemma square_kind : cell_kind d d.
Proof. unfold cell_kind. destruct d as [|[|[|[|n]]]]; cbn; try lia; tauto. Qed.
Lemma left_inv k l : (k < d)%nat -> (l < d)%nat -> rsum d (fun r => cell_invJ d d c k r * (c (S l) r - c 0%nat r)) = if Nat.eqb k l then 1 else 0.
Proof. apply (C141_inverse d d c square_kind Hc). Qed.
Lemma right_inv r s : (r < d)%nat -> (s < d)%nat -> rsum d (fun k => (c (S k) r - c 0%nat r) * cell_invJ d d c k s) = if Nat.eqb r s then 1 else 0.
Proof. apply (C141_inverse d d c square_kind Hc). reflexivity. Qed.
Lemma slope_sum r : rsum (S d) (fun h => slope h r) = 0.
Proof.
  unfold slope. rewrite rsum_swap. apply rsum_zero. intros k Hk. rewrite rsum_scal.
  replace (rsum (S d) (fun h => ref_slope h k)) with 0; [ring|]. rewrite rsum_head. cbn [ref_slope].
  rewrite (rsum_single d _ k Hk); [rewrite Nat.eqb_refl; ring|]. intros i Hi Hne. destruct (Nat.eqb_spec i k); [lia|ring].
Qed.
(* a combination of the gradients, by its values at the vertices *)
Lemma slope_comb (v : nat -> R) r : rsum (S d) (fun h => v h * slope h r) = rsum d (fun k => cell_invJ d d c k r * (v (S k) - v 0%nat)).
Proof.
  unfold slope. rewrite (rsum_ext _ _ (fun h => rsum d (fun k => cell_invJ d d c k r * (v h * ref_slope h k)))).
  2:{ intros h _. rewrite <- rsum_scal. apply rsum_ext. intros; ring. }
  rewrite rsum_swap. apply rsum_ext. intros k Hk. rewrite rsum_scal. f_equal. rewrite rsum_head. cbn [ref_slope].
  rewrite (rsum_single d _ k Hk); [rewrite Nat.eqb_refl; ring|]. intros i Hi Hne. destruct (Nat.eqb_spec i k); [lia|ring].
Qed.
(* the gradient of an affine function *)
Lemma slope_affine alpha (beta : vec) r : (r < d)%nat -> rsum (S d) (fun h => (alpha + rsum d (fun s => beta s * c h s)) * slope h r) = beta r.
Proof.
  intros Hr. rewrite slope_comb.
  rewrite (rsum_ext d _ (fun k => rsum d (fun s => beta s * ((c (S k) s - c 0%nat s) * cell_invJ d d c k r)))).
  - rewrite rsum_swap. rewrite (rsum_single d _ r Hr).
    + rewrite rsum_scal, right_inv, Nat.eqb_refl by auto. ring.
    + intros s Hs Hne. rewrite rsum_scal, right_inv by auto. destruct (Nat.eqb_spec s r); [lia|ring].
  - intros k Hk. rewrite (rsum_ext d (fun s => beta s * ((c (S k) s - c 0%nat s) * cell_invJ d d c k r)) (fun s => cell_invJ d d c k r * (beta s * c (S k) s - beta s * c 0%nat s))) by (intros; ring).
    rewrite rsum_scal, rsum_minus. ring.
Qed.
(* barycentric coordinates of any point *)
Definition bary (x : vec) (h : nat) : R := (match h with O => 1 | _ => 0 end) + rsum d (fun r => slope h r * (x r - c 0%nat r)).
Lemma bary_sum x : rsum (S d) (bary x) = 1.
Proof.
  unfold bary. rewrite rsum_plus, rsum_swap. rewrite rsum_head. rewrite (rsum_zero d (fun _ => 0)) by auto.
  rewrite (rsum_zero d); [ring|]. intros r _. rewrite rsum_scal_r, slope_sum. ring.
Qed.
Lemma bary_point x r : (r < d)%nat -> point d c (bary x) r = x r.
Proof.
  intros Hr. unfold point, bary.
  rewrite (rsum_ext _ _ (fun h => (match h with O => 1 | _ => 0 end) * c h r + rsum d (fun s => (x s - c 0%nat s) * (c h r * slope h s)))).
  2:{ intros h _. rewrite Rmult_plus_distr_r, <- rsum_scal_r. f_equal. apply rsum_ext. intros; ring. }
  rewrite rsum_plus, rsum_swap. rewrite rsum_head. rewrite (rsum_zero d (fun i => 0 * c (S i) r)) by (intros; ring).
  rewrite (rsum_ext d (fun s => rsum (S d) _) (fun s => (x s - c 0%nat s) * (if Nat.eqb r s then 1 else 0))).
  - rewrite (rsum_single d _ r Hr); [rewrite Nat.eqb_refl; ring|]. intros s Hs Hne. destruct (Nat.eqb_spec r s); [lia|ring].
  - intros s Hs. rewrite rsum_scal. f_equal. rewrite slope_comb. rewrite <- (right_inv r s Hr Hs). apply rsum_ext. intros; ring.
Qed.
(* an affine function constant on the face opposite to h has gradient along that of the barycentric coordinate h *)
Lemma face_slope (n : vec) k h : (h <= d)%nat -> (forall i, (i <= d)%nat -> i <> h -> rsum d (fun r => n r * c i r) = k) ->
  forall r, (r < d)%nat -> n r = (rsum d (fun s => n s * c h s) - k) * slope h r.
Proof.
  intros Hh Hf r Hr. rewrite <- (slope_affine (- k) n r Hr).
  rewrite (rsum_single (S d) _ h ltac:(lia)); [ring|]. intros i Hi Hne. rewrite Hf by (auto; lia). ring.
Qed.
Lemma face_value (n : vec) k h x : (h <= d)%nat -> (forall i, (i <= d)%nat -> i <> h -> rsum d (fun r => n r * c i r) = k) ->
  rsum d (fun r => n r * x r) - k = bary x h * (rsum d (fun s => n s * c h s) - k).
Proof.
  intros Hh Hf.
  assert (E : rsum d (fun r => n r * x r) = rsum (S d) (fun i => bary x i * rsum d (fun r => n r * c i r))).
  { rewrite (rsum_ext d _ (fun r => rsum (S d) (fun i => bary x i * (n r * c i r)))).
    - rewrite rsum_swap. apply rsum_ext. intros i _. apply rsum_scal.
    - intros r Hr. rewrite <- (bary_point x r Hr). unfold point. rewrite <- rsum_scal. apply rsum_ext. intros; ring. }
  rewrite E. rewrite <- (Rmult_1_r k) at 1. rewrite <- (bary_sum x), <- rsum_scal, <- rsum_minus.
  rewrite (rsum_single (S d) _ h ltac:(lia)); [ring|]. intros i Hi Hne. rewrite Hf by (auto; lia). ring.
Qed.
End Cell.
Lemma square_measure_ext d c1 c2 : (1 <= d <= 3)%nat -> (forall i r, (i <= d)%nat -> (r < d)%nat -> c1 i r = c2 i r) -> cell_measure d d c1 = cell_measure d d c2.
Proof.
  intros Hd H. unfold cell_measure. rewrite Nat.eqb_refl. rewrite (det_ext d (jac c1) (jac c2)); [reflexivity|].
  intros i j Hi Hj. unfold jac. rewrite !H by lia. reflexivity.
Qed.

(* ------------------------------------------------------------------ the mesh *)
Section Patch.
Variables (d : nat) (nodes : list vec) (cells : list (list nat)) (pt : list (list nat)) (slv : (nat -> R) -> nat -> R) (rule : QuadModel.rule).
Hypothesis (HG : good_mesh d d nodes cells) (HR : reference d 1 pt slv rule) (HC : TriSpec.conforming cells).
Local Notation P := (problem1 d d nodes cells pt slv rule).
Local Notation N := (length cells).
Local Notation vtx := (vertex nodes cells).
Lemma dim_range : (1 <= d <= 3)%nat.
Proof. exact (proj1 (kind_range d d (gm_kind _ _ _ _ HG))). Qed.
Lemma first_nabla h k x : (h <= d)%nat -> (k < d)%nat -> ref_nabla P h k x = ref_slope h k.
Proof.
  intros Hh Hk. assert (Hd := dim_range). destruct HR as (A & B & _). cbn [problem1 fem_problem ref_nabla].
  specialize (B (PolyModel.unit_rhs h)). revert B. generalize (slv (PolyModel.unit_rhs h)) as w. intros w B.
  destruct d as [|[|[|[|n]]]]; try lia; vm_compute in A; injection A as <-;
  assert (B0 := B 0%nat ltac:(cbn; lia)); assert (B1 := B 1%nat ltac:(cbn; lia));
  try assert (B2 := B 2%nat ltac:(cbn; lia)); try assert (B3 := B 3%nat ltac:(cbn; lia)); clear B;
  unfold LagrangeProps.qnodes, Q2R in *; cbn in *;
  destruct h as [|[|[|[|h]]]]; try lia; destruct k as [|[|[|k]]]; try lia; cbn in *; lra.
Qed.
Lemma regular e : (e < N)%nat -> nondegenerate d d (vtx e).
Proof. exact (part_nondegenerate d d nodes cells HG e). Qed.
Definition cell (e : nat) : list nat := nth e cells [].
Definition id (e h : nat) : nat := nth h (cell e) 0%nat.
Lemma cell_facts e : (e < N)%nat -> In (cell e) cells /\ length (cell e) = S d /\ NoDup (cell e).
Proof. intros He. assert (H := part_cell cells e He). split; [exact H|]. exact (gm_simplicial _ _ _ _ HG _ H). Qed.
Lemma id_in e h : (e < N)%nat -> (h <= d)%nat -> In (id e h) (cell e).
Proof. intros He Hh. apply nth_In. destruct (cell_facts e He) as (_ & -> & _). lia. Qed.
Lemma in_id e v : (e < N)%nat -> In v (cell e) -> exists h, (h <= d)%nat /\ id e h = v.
Proof. intros He Hv. destruct (In_nth _ _ 0%nat Hv) as (h & Hh & E). exists h. split; [|auto]. destruct (cell_facts e He) as (_ & L & _). lia. Qed.
Lemma id_inj e h h' : (e < N)%nat -> (h <= d)%nat -> (h' <= d)%nat -> id e h = id e h' -> h = h'.
Proof. intros He Hh Hh' E. destruct (cell_facts e He) as (_ & L & ND). apply (proj1 (NoDup_nth _ 0%nat) ND); [lia|lia|exact E]. Qed.
Definition rel (p q : nat * nat) : Prop :=
  (fst p < N)%nat /\ (snd p <= d)%nat /\ (fst q < N)%nat /\ (snd q <= d)%nat /\
  across d nodes (cell (fst p)) (id (fst p) (snd p)) (cell (fst q)) (id (fst q) (snd q)).
Definition term (r : nat) (p : nat * nat) : R := cell_measure d d (vtx (fst p)) * slope d (vtx (fst p)) (snd p) r.
Lemma rsum_opp n f : rsum n (fun i => - f i) = - rsum n f.
Proof. rewrite (rsum_ext _ _ (fun i => -1 * f i)) by (intros; ring). rewrite rsum_scal. ring. Qed.
Lemma rel_sym p q : rel p q -> rel q p.
Proof.
  intros (A & B & C & D & F & n & k & E1 & E2 & E3). repeat split; auto; try (apply F; auto).
  exists (fun r => - n r), (- k).
  assert (O : forall v, rsum d (fun r => - n r * place nodes v r) = - rsum d (fun r => n r * place nodes v r)).
  { intros v. rewrite <- rsum_opp. apply rsum_ext. intros; ring. }
  split; [|split].
  - intros v Hv. rewrite O, E1; [ring|]. now apply F.
  - rewrite O. lra.
  - rewrite O. lra.
Qed.
Lemma rel_cells p q : rel p q -> fst p <> fst q.
Proof.
  destruct p as [e h], q as [e' h']. intros (A & B & C & D & F & n & k & E1 & E2 & E3) E. cbn in *. subst e'.
  destruct (Nat.eq_dec (id e h') (id e h)) as [E|Hne]; [rewrite E in E3; lra|].
  destruct (proj1 (F (id e h')) (conj (id_in e h' A D) Hne)) as [_ K]. congruence.
Qed.
(* the face as a facet in the sense of the mesh *)
Lemma face_facet e h : (e < N)%nat -> (h <= d)%nat ->
  exists f, (forall v, In v f <-> on_face (cell e) (id e h) v) /\ Sorted.StronglySorted lt f /\ TriSpec.cell_has cells e f.
Proof.
  intros He Hh. destruct (cell_facts e He) as (_ & L & ND). set (f0 := filter (fun v => negb (v =? id e h)) (cell e)).
  assert (I0 : forall v, In v f0 <-> on_face (cell e) (id e h) v).
  { intros v. unfold f0, on_face. rewrite filter_In, negb_true_iff, Nat.eqb_neq. tauto. }
  assert (ND0 : NoDup f0) by now apply NoDup_filter.
  assert (L0 : S (length f0) = length (cell e)).
  { assert (Q : Permutation (cell e) (id e h :: f0)).
    { apply NoDup_Permutation; [auto|constructor; [rewrite I0; unfold on_face; tauto|auto]|].
      intros v. cbn. rewrite I0. unfold on_face. split.
      - intros Hv. destruct (Nat.eq_dec (id e h) v); auto.
      - intros [<-|[Hv _]]; [now apply id_in|auto]. }
    apply Permutation_length in Q. cbn in Q. lia. }
  exists (TriModel.sort_ids f0). assert (I : forall v, In v (TriModel.sort_ids f0) <-> on_face (cell e) (id e h) v) by (intros v; rewrite TriProofs.sort_ids_in; apply I0).
  split; [exact I|]. split; [now apply TriProofs.sort_ids_lt|]. exists (cell e). split; [now apply nth_error_nth'|].
  split; [now apply TriProofs.sort_ids_lt|]. split; [rewrite <- (Permutation_length (TriProofs.sort_ids_perm f0)); auto|]. intros v Hv. now apply I in Hv as [Hv _].
Qed.
Lemma rel_fun p q q' : rel p q -> rel p q' -> q = q'.
Proof.
  intros H1 H2. assert (K1 := rel_cells _ _ H1). assert (K2 := rel_cells _ _ H2).
  destruct p as [e h], q as [e1 h1], q' as [e2 h2]. destruct H1 as (A & B & C & D & F & _), H2 as (_ & _ & C' & D' & F' & _). cbn in *.
  destruct (face_facet e h A B) as (f & If & Sf & Cf). destruct (face_facet e1 h1 C D) as (f1 & If1 & Sf1 & Cf1). destruct (face_facet e2 h2 C' D') as (f2 & If2 & Sf2 & Cf2).
  assert (f1 = f) as -> by (apply TriProofs.sorted_lt_ext; auto; intros v; rewrite If, If1, F; tauto).
  assert (f2 = f) as -> by (apply TriProofs.sorted_lt_ext; auto; intros v; rewrite If, If2, F'; tauto).
  destruct (HC f e e1 e2 Cf Cf1 Cf2) as [?|[?|E]]; [congruence|congruence|]. subst e2. f_equal.
  apply (id_inj e1); auto. destruct (Nat.eq_dec (id e1 h1) (id e1 h2)) as [E|Hne]; [auto|exfalso].
  assert (K : on_face (cell e1) (id e1 h2) (id e1 h1)) by (split; [now apply id_in|auto]). apply F' in K. apply F in K. destruct K as [_ K]. congruence.
Qed.
Lemma rel_term p q : rel p q -> forall r, (r < d)%nat -> term r q = - term r p.
Proof.
  intros H r Hr. assert (Hd := dim_range). destruct p as [e h], q as [e' h'].
  destruct H as (A & B & C & D & F & n & k & E1 & E2 & E3). cbn [fst snd] in *. unfold term. cbn [fst snd].
  change (place nodes (id e h)) with (vtx e h) in *. change (place nodes (id e' h')) with (vtx e' h') in *.
  set (ka := rsum d (fun r0 => n r0 * vtx e h r0) - k) in *. set (kb := rsum d (fun r0 => n r0 * vtx e' h' r0) - k) in *.
  assert (Fa : forall i, (i <= d)%nat -> i <> h -> rsum d (fun r => n r * vtx e i r) = k).
  { intros i Hi Hne. apply (E1 (id e i)). split; [now apply id_in|]. intros E. apply Hne. now apply (id_inj e). }
  assert (Fb : forall i, (i <= d)%nat -> i <> h' -> rsum d (fun r => n r * vtx e' i r) = k).
  { intros i Hi Hne. apply (E1 (id e' i)). apply F. split; [now apply id_in|]. intros E. apply Hne. now apply (id_inj e'). }
  assert (Sa := face_slope d (vtx e) Hd (regular e A) n k h B Fa r Hr). fold ka in Sa.
  assert (Sb := face_slope d (vtx e') Hd (regular e' C) n k h' D Fb r Hr). fold kb in Sb.
  assert (Va := face_value d (vtx e) Hd (regular e A) n k h (vtx e' h') B Fa). fold kb ka in Va.
  assert (Ka : 0 < ka) by (unfold ka; lra). assert (Kb : kb < 0) by (unfold kb; lra).
  set (w := bary d (vtx e) (vtx e' h')) in *.
  assert (Mm : cell_measure d d (vtx e') = - w h * cell_measure d d (vtx e)).
  { assert (Hw : w h < 0) by nra. rewrite <- (Rabs_left (w h) Hw).
    rewrite <- (moved_measure d d (vtx e) w h (gm_kind _ _ _ _ HG) (bary_sum d (vtx e) Hd (vtx e' h')) B).
    destruct (finite_choice (S d) (fun i j => (j <= d)%nat /\ (i = h' /\ j = h \/ i <> h' /\ j <> h /\ id e j = id e' i)) 0%nat) as (s & Hs).
    { intros i Hi. destruct (Nat.eq_dec i h') as [->|Hne]; [exists h; auto|].
      assert (K : on_face (cell e') (id e' h') (id e' i)) by (split; [apply id_in; auto; lia|intros E; apply Hne; apply (id_inj e'); auto; lia]).
      apply F in K as [K1 K2]. destruct (in_id e _ A K1) as (j & Hj & Ej). exists j. split; [auto|]. right. split; [auto|]. split; [congruence|auto]. }
    rewrite <- (C142_order d d (moved (vtx e) h (point d (vtx e) w)) s (gm_kind _ _ _ _ HG)).
    - apply square_measure_ext; [auto|]. intros i r' Hi Hr'. unfold moved. destruct (Hs i ltac:(lia)) as (S1 & [[-> ->]|(S2 & S3 & S4)]).
      + rewrite Nat.eqb_refl. symmetry. apply (bary_point d (vtx e) Hd (regular e A)). auto.
      + destruct (Nat.eqb_spec (s i) h); [contradiction|]. unfold vertex. fold (cell e) (cell e'). fold (id e (s i)) (id e' i). now rewrite S4.
    - intros i Hi. apply (Hs i). lia.
    - intros i j Hi Hj E. destruct (Hs i ltac:(lia)) as (S1 & [[-> S2]|(S2 & S3 & S4)]), (Hs j ltac:(lia)) as (T1 & [[-> T2]|(T2 & T3 & T4)]); try congruence.
      apply (id_inj e'); auto. congruence. }
  rewrite Mm. assert (Q : slope d (vtx e') h' r = ka / kb * slope d (vtx e) h r) by (apply (Rmult_eq_reg_l kb); [rewrite <- Sb, Sa; field; lra|lra]).
  rewrite Q. assert (Ew : w h = kb / ka) by (apply (Rmult_eq_reg_r ka); [rewrite <- Va; field; lra|lra]). rewrite Ew. field. lra.
Qed.
Lemma lsum_app_ a b : lsum (a ++ b) = lsum a + lsum b.
Proof. induction a as [|x a IH]; cbn; [ring|rewrite IH; ring]. Qed.
Lemma lsum_pairs (sel : nat * nat -> bool) (G : nat * nat -> R) l1 l2 :
  lsum (map (fun e => lsum (map (fun h => if sel (e, h) then G (e, h) else 0) l2)) l1) = lsum (map G (filter sel (list_prod l1 l2))).
Proof.
  induction l1 as [|e l1 IH]; [reflexivity|]. cbn [map lsum list_prod]. rewrite filter_app, map_app, lsum_app_, IH. f_equal.
  clear IH. induction l2 as [|h l2 IH]; [reflexivity|]. cbn [map lsum filter]. rewrite IH. destruct (sel (e, h)); cbn; ring.
Qed.
Definition has (a e : nat) : bool := existsb (Nat.eqb a) (cell e).
Lemma has_iff a e : has a e = true <-> In a (cell e).
Proof.
  unfold has. rewrite existsb_exists. split.
  - intros (x & Hx & E). apply Nat.eqb_eq in E. now subst.
  - intros H. exists a. now rewrite Nat.eqb_refl.
Qed.
(* the integral over the mesh of the gradient of the basis function of an interior node *)
Lemma divergence a r : interior_node d nodes cells a -> (r < d)%nat ->
  rsum N (fun e => cell_measure d d (vtx e) * rsum (S d) (fun h => (if Nat.eqb (id e h) a then 1 else 0) * slope d (vtx e) h r)) = 0.
Proof.
  intros Ha Hr. set (sel := fun p => has a (fst p) && negb (Nat.eqb (id (fst p) (snd p)) a)).
  rewrite (rsum_ext N _ (fun e => -1 * rsum (S d) (fun h => if sel (e, h) then term r (e, h) else 0))).
  2:{ intros e He. assert (E : rsum (S d) (fun h => (if Nat.eqb (id e h) a then 1 else 0) * slope d (vtx e) h r) + rsum (S d) (fun h => if sel (e, h) then slope d (vtx e) h r else 0) = 0).
      { rewrite <- rsum_plus. destruct (has a e) eqn:E.
        - transitivity (rsum (S d) (fun h => slope d (vtx e) h r)); [|exact (slope_sum d (vtx e) dim_range r)]. apply rsum_ext. intros h _. unfold sel. cbn [fst snd]. rewrite E. destruct (Nat.eqb (id e h) a); cbn [andb negb]; ring.
        - apply rsum_zero. intros h Hh. unfold sel. cbn [fst snd]. rewrite E. cbn [andb]. destruct (Nat.eqb_spec (id e h) a) as [Eh|]; [|ring].
          exfalso. assert (In a (cell e)) by (rewrite <- Eh; apply id_in; auto; lia). apply has_iff in H. congruence. }
      assert (E' : rsum (S d) (fun h => if sel (e, h) then term r (e, h) else 0) = cell_measure d d (vtx e) * rsum (S d) (fun h => if sel (e, h) then slope d (vtx e) h r else 0)).
      { rewrite <- rsum_scal. apply rsum_ext. intros h _. unfold term. cbn [fst snd]. destruct (sel (e, h)); ring. }
      rewrite E'. set (x := rsum (S d) _) in *. set (y := rsum (S d) (fun h => if sel (e, h) then _ else 0)) in *. replace x with (- y) by lra. ring. }
  rewrite rsum_scal. rewrite rsum_lsum.
  rewrite (map_ext (fun e => rsum (S d) (fun h => if sel (e, h) then term r (e, h) else 0)) (fun e => lsum (map (fun h => if sel (e, h) then term r (e, h) else 0) (seq 0 (S d))))) by (intros; apply rsum_lsum).
  rewrite lsum_pairs. set (l := filter _ _).
  assert (Il : forall e h, In (e, h) l <-> (e < N)%nat /\ (h <= d)%nat /\ In a (cell e) /\ id e h <> a).
  { intros e h. unfold l. rewrite filter_In, in_prod_iff, !in_seq. unfold sel. cbn [fst snd]. rewrite andb_true_iff, has_iff, negb_true_iff, Nat.eqb_neq. split; intros; repeat split; try tauto; lia. }
  rewrite (pair_cancel (term r) rel rel_sym rel_fun) with (n := length l); [ring| |auto| |].
  - intros p q H. split; [|now apply rel_term]. intros ->. now apply (rel_cells q q H).
  - unfold l. apply NoDup_filter. generalize (seq_NoDup (S d) 0) (seq_NoDup N 0). generalize (seq 0 (S d)) (seq 0 N). intros l2 l1 H2 H1.
    induction H1 as [|x l1 Hx H1 IH]; [constructor|]. cbn [list_prod]. apply NoDup_app_intro; auto.
    + apply FinFun.Injective_map_NoDup; [intros u v Huv; congruence|auto].
    + intros [u v] Hu Hv. apply in_map_iff in Hu as (y & Ey & _). injection Ey as <- <-. apply in_prod_iff in Hv as [Hv _]. contradiction.
  - intros [e h] Hp. apply Il in Hp as (He & Hh & Hae & Hne). destruct (cell_facts e He) as (Hin & _).
    destruct (Ha _ _ Hin Hae (id_in e h He Hh) Hne) as (c' & b' & Hc' & Hb' & X).
    destruct (In_nth _ _ [] Hc') as (e' & He' & Ec'). fold (cell e') in Ec'. subst c'. destruct (in_id e' b' He' Hb') as (h' & Hh' & <-).
    exists (e', h'). split; [|exact (conj He (conj Hh (conj He' (conj Hh' X))))]. apply Il.
    assert (K : on_face (cell e') (id e' h') a) by (apply (proj1 X); split; auto). destruct K. repeat split; auto.
Qed.

Lemma patch_grad v e q r : (e < N)%nat -> fe_grad P v e q r = rsum (S d) (fun h => v (id e h) * slope d (vtx e) h r).
Proof.
  intros He. unfold fe_grad. rewrite (first_basis d d nodes cells pt slv rule HG HR). apply rsum_ext. intros h Hh. f_equal.
  unfold grad, slope. apply rsum_ext. intros k Hk. cbn [problem1 fem_problem ldim invJ]. f_equal. apply first_nabla; auto; lia.
Qed.
Lemma patch_affine alpha beta e q r : (e < N)%nat -> (r < d)%nat -> fe_grad P (affine_at d nodes alpha beta) e q r = beta r.
Proof. intros He Hr. rewrite patch_grad by auto. exact (slope_affine d (vtx e) dim_range (regular e He) alpha beta r Hr). Qed.
Lemma patch_row op a alpha beta : constant_diffusion d op -> interior_node d nodes cells a -> (a < length nodes)%nat ->
  rsum (length nodes) (fun b => assembled P op a b * affine_at d nodes alpha beta b) = 0.
Proof.
  intros Hop Hi Ha. destruct (C146_first_order d d nodes cells pt slv rule HG HR) as (A1 & _).
  assert (F : exists flux : vec, coef_ok P op /\ proper op /\ tensors_symmetric P op /\
    forall e q v, (e < N)%nat -> bform P op e q v (affine_at d nodes alpha beta) = rsum d (fun r => flux r * fe_grad P v e q r)).
  { destruct Hop as [->|(K & -> & Ks & _)].
    - exists beta. repeat split; auto. intros e q v He. cbn [bform]. rewrite Ropp_involutive. cbn [problem1 fem_problem edim].
      apply rsum_ext. intros r Hr. rewrite patch_affine by auto. ring.
    - exists (fun r => rsum d (fun s => K r s * beta s)). split; [cbn; repeat split; auto|]. split; [exact I|]. split; [intros k q r s; cbn; apply Ks|].
      intros e q v He. cbn [bform]. rewrite Ropp_involutive. change (edim P) with d. apply rsum_ext. intros r Hr. rewrite Rmult_comm. f_equal. apply rsum_ext. intros s Hs.
      rewrite patch_affine by auto. reflexivity. }
  destruct F as (flux & Hc & Hp & Ht & HB).
  destruct (C137_bilinear_form P op Hc A1 Hp (fun _ => Ht)) as (A & E & HA).
  destruct (C64_assembly P op Hc A1) as (A' & E' & HA').
  { intros Es. exact (proj1 (C65_symmetric_partial P op Hc A1 Es Ht)). }
  rewrite E in E'. injection E' as <-.
  set (v := fun b => if Nat.eqb b a then 1 else 0). specialize (HA v (affine_at d nodes alpha beta)).
  transitivity (pairing P A v (affine_at d nodes alpha beta)).
  { unfold pairing. change (n_dofs P) with (length nodes). symmetry. rewrite (rsum_single (length nodes) _ a Ha).
    - apply rsum_ext. intros b _. unfold v. rewrite Nat.eqb_refl, HA'. ring.
    - intros x _ Hx. apply rsum_zero. intros b _. unfold v. destruct (Nat.eqb_spec x a); [contradiction|ring]. }
  rewrite HA. unfold mesh_quadrature. change (n_cells P) with N. change (measure P) with (fun e => cell_measure d d (vtx e)). cbv beta.
  set (W := rsum (n_nodes P) (weight P)).
  rewrite (rsum_ext N _ (fun e => rsum d (fun r => W * flux r * (cell_measure d d (vtx e) * rsum (S d) (fun h => v (id e h) * slope d (vtx e) h r))))).
  - rewrite rsum_swap. apply rsum_zero. intros r Hr. rewrite rsum_scal. unfold v. rewrite divergence by auto. ring.
  - intros e He. rewrite (rsum_ext (n_nodes P) _ (fun q => weight P q * rsum d (fun r => flux r * rsum (S d) (fun h => v (id e h) * slope d (vtx e) h r)))).
    + rewrite rsum_scal_r. fold W. rewrite (rsum_ext d (fun r => W * flux r * _) (fun r => W * cell_measure d d (vtx e) * (flux r * rsum (S d) (fun h => v (id e h) * slope d (vtx e) h r)))) by (intros; ring).
      rewrite rsum_scal. ring.
    + intros q Hq. f_equal. rewrite HB by auto. apply rsum_ext. intros r Hr. f_equal. now apply patch_grad.
Qed.
Theorem C149_patch bdy lu op g t alpha beta : exact lu -> complete lu -> constant_diffusion d op -> has_datum P g ->
  bdy 0%nat = true -> nodes <> [] ->
  (forall a, (a < length nodes)%nat -> bdy a = true -> dval g a 0%nat = affine_at d nodes alpha beta a) ->
  (forall a, (a < length nodes)%nat -> bdy a = false -> interior_node d nodes cells a) ->
  (forall a, (a < length nodes)%nat -> exists b, (b < length nodes)%nat /\ bdy b = true /\ chain cells a b) ->
  exists s1 s2 s3 u, apply P bdy false lu (make_pde op (Callable (fun _ => 0)) t) (SetBoundary g) = Ok s1 /\ init P false s1 = Ok s2 /\ solve P bdy false lu s2 = Ok s3 /\
    success s3 = true /\ solution s3 = [u] /\
    forall a, (a < length nodes)%nat -> u a = affine_at d nodes alpha beta a.
Proof.
  intros Hlu Hco Hop Hg H0 Hne Hb Hi Hch.
  assert (F : coef_ok P op /\ tensors_symmetric P op /\ coercive P op).
  { destruct Hop as [->|(K & -> & Ks & Kp)].
    - repeat split; auto. constructor.
    - split; [cbn; repeat split; auto|]. split; [intros k q r s; cbn; apply Ks|]. constructor. intros e q x He Hq. exact (Kp x). }
  destruct F as (Hc & Ht & Hcoer).
  destruct (C147_dirichlet d d nodes cells pt slv rule HG HR bdy lu op (Callable (fun _ => 0)) g t Hlu Hco Hc Ht Hcoer) as (s1 & s2 & s3 & u & E1 & E2 & E3 & E4 & E5 & Hu & Hun); auto.
  { split; cbn; auto. }
  exists s1, s2, s3, u. repeat (split; [auto|]). intros a Ha. symmetry. apply Hun; [|auto].
  intros x Hx. split; [intros Bx; symmetry; now apply Hb|]. intros Bx. rewrite patch_row; auto.
  2:{ apply Hi; auto. destruct (bdy x); congruence. }
  symmetry. unfold load_vector. apply rsum_zero. intros e _. apply rsum_zero. intros i _. unfold load. rewrite (rsum_zero (n_nodes P)); [ring|].
  intros q _. cbn. ring.
Qed.
End Patch.

(* ------------------------------------------------------------------ non-vacuity: node 4 of mesh2 is an interior node *)
Lemma across_b (nodes : list vec) c b c' b' (n : vec) k :
  (forallb (fun v => Nat.eqb v b || (existsb (Nat.eqb v) c' && negb (Nat.eqb v b'))) c &&
   forallb (fun v => Nat.eqb v b' || (existsb (Nat.eqb v) c && negb (Nat.eqb v b))) c')%bool = true ->
  (forall v, In v c -> v <> b -> rsum 2 (fun r => n r * place nodes v r) = k) ->
  k < rsum 2 (fun r => n r * place nodes b r) -> rsum 2 (fun r => n r * place nodes b' r) < k -> across 2 nodes c b c' b'.
Proof.
  intros H Hf H1 H2. apply andb_true_iff in H as [Ha Hb]. rewrite forallb_forall in Ha, Hb. split.
  - intros v. split; intros [Hv Hne]; [specialize (Ha v Hv)|specialize (Hb v Hv)].
    + apply orb_true_iff in Ha as [Ha|Ha]; [apply Nat.eqb_eq in Ha; contradiction|]. apply andb_true_iff in Ha as [A B].
      apply existsb_exists in A as (x & Ix & Ex). apply Nat.eqb_eq in Ex. subst x. apply negb_true_iff, Nat.eqb_neq in B. split; auto.
    + apply orb_true_iff in Hb as [Hb|Hb]; [apply Nat.eqb_eq in Hb; contradiction|]. apply andb_true_iff in Hb as [A B].
      apply existsb_exists in A as (x & Ix & Ex). apply Nat.eqb_eq in Ex. subst x. apply negb_true_iff, Nat.eqb_neq in B. split; auto.
  - exists n, k. split; [|auto]. intros v [Hv Hne]. now apply Hf.
Qed.
Definition plane (x y : R) : vec := fun r => match r with O => x | _ => y end.
Ltac across_tac c' b' x y k := exists c', b'; split; [cbn; tauto|]; split; [cbn; tauto|]; apply (across_b _ _ _ _ _ (plane x y) k); [reflexivity| |unfold place; cbn; lra|unfold place; cbn; lra];
  let v := fresh in let Hv := fresh in let Hn := fresh in intros v Hv Hn; cbn in Hv; repeat (destruct Hv as [<-|Hv]; [try congruence; unfold place; cbn; lra|]); destruct Hv.
Example C149_example : interior_node 2 mesh2_nodes TriProps.mesh2 4 /\ ~ interior_node 2 mesh2_nodes TriProps.mesh2 0 /\
  good_mesh 2 2 mesh2_nodes TriProps.mesh2 /\ TriSpec.conforming TriProps.mesh2 /\ (exists pt slv rule, reference 2 1 pt slv rule) /\
  exact some_lu /\ complete some_lu.
Proof.
  split; [|split; [|split; [exact mesh2_good|split; [exact TriProps.mesh2_conforming|split; [apply reference_exists; cbn; tauto|split; [apply some_lu_exact|exact some_lu_complete]]]]]].
  - intros c b Hc Ha Hb Hne. cbn in Hc. repeat (destruct Hc as [<-|Hc]; [cbn in Ha, Hb; repeat (destruct Hb as [<-|Hb]; [try congruence|]); [..|destruct Hb] |]); [..|destruct Hc].
    all: try (exfalso; lia).
    + across_tac [4; 2; 1]%nat 2%nat (-1) (-1) (-2).
    + across_tac [0; 4; 3]%nat 3%nat 1 (-1) 0.
    + across_tac [0; 1; 4]%nat 0%nat 1 1 2.
    + across_tac [3; 4; 2]%nat 3%nat 1 (-1) 0.
    + across_tac [4; 2; 1]%nat 1%nat (-1) 1 0.
    + across_tac [0; 4; 3]%nat 0%nat 1 1 2.
    + across_tac [3; 4; 2]%nat 2%nat (-1) (-1) (-2).
    + across_tac [0; 1; 4]%nat 1%nat (-1) 1 0.
  - intros H. destruct (H [0; 1; 4]%nat 4%nat) as (c' & b' & Hc & Hb & F & n & k & _ & K1 & K2); [cbn; tauto|cbn; tauto|cbn; tauto|lia|].
    assert (F0 := proj1 (F 0%nat) ltac:(split; [cbn; tauto|lia])). assert (F1 := proj1 (F 1%nat) ltac:(split; [cbn; tauto|lia])).
    destruct F0 as [F0 _], F1 as [F1 _]. cbn in Hc.
    repeat (destruct Hc as [<-|Hc]; [cbn in F0, F1; try (exfalso; lia)|]); [|destruct Hc].
    cbn in Hb. destruct Hb as [<-|[<-|[<-|[]]]].
    + destruct (proj1 (F 0%nat) ltac:(split; [cbn; tauto|lia])) as [_ K]. congruence.
    + destruct (proj1 (F 1%nat) ltac:(split; [cbn; tauto|lia])) as [_ K]. congruence.
    + lra.
Qed.
Print Assumptions C149_patch.
