(* C64, C65, C70, C74, C110: operator expressions, quadrature and assembly. *)
From Verif Require Import Base RSum SimplexModel FieldModel FieldProps FemModel.

(* ------------------------------------------------------------------ specification *)
(* coefficients read at row k of their data, when they are discretised *)
Section Spec.
Variable P : problem.
(* component r of the gradient of basis function i on cell e, at the q-th quadrature node *)
Definition grad (e i q r : nat) : R := rsum (ldim P) (fun k => invJ P e k r * ref_nabla P i k (node P q)).
(* the weak form of the operator at quadrature node q of cell e, for basis functions i (test) and j (trial) *)
Fixpoint wf (op : dop) (e i j q : nat) : R :=
  let k := (n_nodes P * e + q)%nat in
  let p := node P q in
  match op with
  | Lap => - rsum (edim P) (fun r => grad e i q r * grad e j q r)
  | Diff K => - rsum (edim P) (fun r => grad e i q r * rsum (edim P) (fun s => mval (mat_ k K) r s p * grad e j q s))
  | Adv b => ref_psi P i p * rsum (edim P) (fun r => grad e j q r * vval (vat k b) r p)
  | Reac c => sval (sat k c) p * ref_psi P i p * ref_psi P j p
  | Dt => 0
  | DScal c => c
  | DBin o a b => arith o (wf a e i j q) (wf b e i j q)
  | DNeg a => - wf a e i j q
  end.
(* its quadrature on cell e *)
Definition quad (op : dop) (e i j : nat) : R := rsum (n_nodes P) (fun q => wf op e i j q * weight P q) * measure P e.
(* sum over the cells and the pairs of local indices mapped to (a, b) *)
Definition hit (x y : nat) : R := if Nat.eq_dec x y then 1 else 0.
Definition assembled (op : dop) (a b : nat) : R :=
  rsum (n_cells P) (fun e => rsum (n_basis P) (fun i => rsum (n_basis P) (fun j =>
    hit (dof P e i) a * hit (dof P e j) b * quad op e i j))).
(* the coefficients have the right shape, a datum for every quadrature node of the mesh, and no
   discretised field where forward does not reach it (C72) *)
Fixpoint coef_ok (op : dop) : Prop :=
  let T := (n_nodes P * n_cells P)%nat in
  match op with
  | Lap | Dt | DScal _ => True
  | Diff K => mreach K /\ mrows K = edim P /\ mcols K = edim P /\
      forall k, (k < T)%nat -> mhas k K /\ mshaped (mat_ k K) /\ mrows_ok (mat_ k K)
  | Adv b => vreach b /\ vdim b = edim P /\
      forall k, (k < T)%nat -> vhas k b /\ vshaped (vat k b) /\ vrows_ok (vat k b) /\ is_row (vat k b) = false
  | Reac c => sreach c /\ forall k, (k < T)%nat -> shas k c /\ sshaped (sat k c) /\ srows_ok (sat k c)
  | DBin _ a b => coef_ok a /\ coef_ok b
  | DNeg a => coef_ok a
  end.
Definition dofs_ok : Prop := forall e i, (e < n_cells P)%nat -> (i < n_basis P)%nat -> (dof P e i < n_dofs P)%nat.
End Spec.

(* ------------------------------------------------------------------ the weak form *)
Fixpoint dop_at (k : nat) (op : dop) : dop :=
  match op with
  | Diff K => Diff (mat_ k K) | Adv b => Adv (vat k b) | Reac c => Reac (sat k c)
  | DBin o a b => DBin o (dop_at k a) (dop_at k b) | DNeg a => DNeg (dop_at k a)
  | _ => op
  end.
Lemma dim_at k : (forall e : sexp, True) /\ (forall v, vdim (vat k v) = vdim v) /\
  (forall m, mrows (mat_ k m) = mrows m /\ mcols (mat_ k m) = mcols m).
Proof. apply field_ind; intros; cbn in *; intuition congruence. Qed.
Lemma at_fixed k op : is_space_varying op = false -> dop_at k op = op.
Proof.
  induction op; cbn; intros H; auto.
  - destruct K; cbn in *; congruence.
  - destruct b; cbn in *; congruence.
  - destruct c; cbn in *; congruence.
  - apply orb_false_iff in H. rewrite IHop1, IHop2 by tauto. auto.
  - rewrite IHop by auto. auto.
Qed.
Lemma sat_form L N m k op : sat k (weak_form L N m op) = weak_form L N m (dop_at k op).
Proof. induction op; cbn; auto; congruence. Qed.
Lemma form_reach P op : coef_ok P op -> forall m, sreach (weak_form (ldim P) (edim P) m op).
Proof. induction op; cbn; intros H m; auto; intuition. Qed.
Lemma form_has P op k : coef_ok P op -> (k < n_nodes P * n_cells P)%nat ->
  forall m, shas k (weak_form (ldim P) (edim P) m op).
Proof.
  induction op; cbn; intros H Hk m; auto; try (intuition; fail).
  - destruct H as (_ & _ & _ & H). specialize (H k Hk). tauto.
  - destruct H as (_ & _ & H). specialize (H k Hk). tauto.
  - destruct H as (_ & H). specialize (H k Hk). tauto.
Qed.
Lemma form_shaped P op k : coef_ok P op -> (k < n_nodes P * n_cells P)%nat ->
  forall m, sshaped (weak_form (ldim P) (edim P) m (dop_at k op)) /\ srows_ok (weak_form (ldim P) (edim P) m (dop_at k op)).
Proof.
  intros H Hk m. destruct (dim_at k) as (_ & DV & DM). revert H.
  induction op; cbn; intros H; auto.
  - repeat split; auto.
  - destruct H as (_ & Hr & Hc & H). specialize (H k Hk). destruct (DM K) as (E1 & E2). rewrite E1, E2.
    repeat split; try tauto; congruence.
  - destruct H as (_ & Hd & H). specialize (H k Hk). rewrite DV. repeat split; try tauto; congruence.
  - destruct H as (_ & H). specialize (H k Hk). tauto.
  - destruct H as (Ha & Hb). specialize (IHop1 Ha). specialize (IHop2 Hb). tauto.
Qed.
Lemma form_value P op e i j q : coef_ok P op -> (e < n_cells P)%nat -> (q < n_nodes P)%nat ->
  seval (if is_space_varying op then sforward (n_nodes P * e + q) (form P op e i j) else form P op e i j) (node P q)
  = Ok (wf P op e i j q).
Proof.
  intros H He Hq. set (k := (n_nodes P * e + q)%nat).
  assert (Hk : (k < n_nodes P * n_cells P)%nat) by (unfold k; nia).
  assert (E : seval (if is_space_varying op then sforward k (form P op e i j) else form P op e i j) (node P q)
            = seval (weak_form (ldim P) (edim P) (buffer_at P e i j) (dop_at k op)) (node P q)).
  { destruct (is_space_varying op) eqn:Ev.
    - unfold form. rewrite (proj1 (C72_forward_partial k)) by (first [apply form_reach | apply form_has]; auto).
      rewrite sat_form. reflexivity.
    - unfold form. rewrite at_fixed by auto. reflexivity. }
  rewrite E. destruct (form_shaped P op k H Hk (buffer_at P e i j)) as [S1 S2].
  rewrite (proj1 C71_eval_partial) by auto. f_equal. clear E S1 S2. revert H.
  induction op; cbn -[mat_ vat sat Nat.mul]; intros H; auto.
  - f_equal. destruct (dim_at k) as (_ & _ & DM). destruct (DM K) as (_ & E2). rewrite E2. destruct H as (_ & _ & -> & _). reflexivity.
  - rewrite IHop1, IHop2 by tauto. auto.
  - rewrite IHop by tauto. auto.
Qed.
Lemma integrate_weak_form_ok P op e i j : coef_ok P op -> (e < n_cells P)%nat ->
  integrate_weak_form P op e i j = Ok (quad P op e i j).
Proof.
  intros H He. unfold integrate_weak_form.
  rewrite (sum_loop_ok _ (fun q => wf P op e i j q * weight P q)); [reflexivity|].
  intros q Hq. rewrite form_value by auto. reflexivity.
Qed.

(* ------------------------------------------------------------------ assembly *)
Lemma foldM_collect {A B} (f : list B -> A -> Res (list B)) (g : A -> list B) l : forall acc,
  (forall acc a, In a l -> f acc a = Ok (acc ++ g a)) -> foldM f l acc = Ok (acc ++ flat_map g l).
Proof.
  induction l as [|a l IH]; intros acc H; cbn; [rewrite app_nil_r; auto|].
  rewrite H by (left; auto). cbn [bind]. rewrite IH by (intros; apply H; right; auto). rewrite <- app_assoc. reflexivity.
Qed.
Definition kept (P : problem) (op : dop) (e i j : nat) : bool := negb (is_symmetric op && negb (dof P e j <=? dof P e i)%nat).
Definition trip (P : problem) (op : dop) (e : nat) (ij : nat * nat) : list triplet :=
  if kept P op e (fst ij) (snd ij) then [(dof P e (fst ij), dof P e (snd ij), quad P op e (fst ij) (snd ij))] else [].
Lemma triplets_ok P op : coef_ok P op ->
  triplets P op = Ok (flat_map (fun e => flat_map (trip P op e) (local_pairs P)) (seq 0 (n_cells P))).
Proof.
  intros H. unfold triplets. rewrite (foldM_collect _ (fun e => flat_map (trip P op e) (local_pairs P))); [reflexivity|].
  intros acc e He. apply in_seq in He. unfold cell_triplets. apply foldM_collect.
  intros acc' [i j] _. unfold trip, kept. cbn [fst snd]. destruct (is_symmetric op && _); cbn [negb].
  - rewrite app_nil_r. auto.
  - rewrite integrate_weak_form_ok by (auto; lia). reflexivity.
Qed.
Lemma entry_of_app l1 l2 a b : entry_of (l1 ++ l2) a b = entry_of l1 a b + entry_of l2 a b.
Proof. unfold entry_of. rewrite map_app, lsum_app. reflexivity. Qed.
Lemma entry_of_flat_map {A} (g : A -> list triplet) l a b :
  entry_of (flat_map g l) a b = lsum (map (fun x => entry_of (g x) a b) l).
Proof. induction l as [|x l IH]; [reflexivity|]. cbn [flat_map map lsum]. rewrite entry_of_app, IH. reflexivity. Qed.
Lemma lsum_list_prod n m (F : nat * nat -> R) :
  lsum (map F (list_prod (seq 0 n) (seq 0 m))) = rsum n (fun i => rsum m (fun j => F (i, j))).
Proof.
  rewrite rsum_lsum. generalize (seq 0 n) as l. induction l as [|x l IH]; cbn; auto.
  rewrite map_app, lsum_app, IH. f_equal. rewrite rsum_lsum, map_map. reflexivity.
Qed.
Definition kept_sum (P : problem) (op : dop) (a b : nat) : R :=
  rsum (n_cells P) (fun e => rsum (n_basis P) (fun i => rsum (n_basis P) (fun j =>
    if kept P op e i j then hit (dof P e i) a * hit (dof P e j) b * quad P op e i j else 0))).
Lemma from_triplets_ok P op : coef_ok P op -> dofs_ok P ->
  exists A, (l <- triplets P op ;; from_triplets P l) = Ok A /\ forall a b, A a b = kept_sum P op a b.
Proof.
  intros H Hd. rewrite triplets_ok by auto. cbn [bind]. unfold from_triplets.
  match goal with |- context [if ?c then _ else UB] => assert (E : c = true) end.
  { apply forallb_forall. intros t Ht. apply in_flat_map in Ht. destruct Ht as (e & He & Ht).
    apply in_flat_map in Ht. destruct Ht as ((i & j) & Hij & Ht). unfold trip in Ht. cbn [fst snd] in Ht.
    apply in_prod_iff in Hij. destruct Hij as [Hi Hj]. apply in_seq in He, Hi, Hj.
    destruct (kept P op e i j); [|contradiction]. destruct Ht as [<-|[]].
    apply andb_true_iff. split; apply Nat.ltb_lt; apply Hd; lia. }
  rewrite E. eexists. split; [reflexivity|]. intros a b. unfold kept_sum. rewrite entry_of_flat_map, rsum_lsum.
  apply lsum_map_ext. intros e _. rewrite entry_of_flat_map. unfold local_pairs. rewrite lsum_list_prod.
  apply rsum_ext. intros i _. apply rsum_ext. intros j _. unfold trip, entry_of. cbn [fst snd].
  destruct (kept P op e i j); cbn; [|reflexivity]. unfold hit.
  destruct (Nat.eq_dec (dof P e i) a) as [->|N1], (Nat.eq_dec (dof P e j) b) as [->|N2]; rewrite ?Nat.eqb_refl; cbn; try lra.
  - apply Nat.eqb_neq in N2. rewrite N2. lra.
  - apply Nat.eqb_neq in N1. rewrite N1. cbn. lra.
  - apply Nat.eqb_neq in N1. rewrite N1. cbn. lra.
Qed.

(* the half assembly keeps exactly the contributions of the lower triangle *)
Lemma kept_lower P op a b : (b <= a)%nat -> kept_sum P op a b = assembled P op a b.
Proof.
  intros Hab. unfold kept_sum, assembled. apply rsum_ext. intros e _. apply rsum_ext. intros i _. apply rsum_ext. intros j _.
  unfold kept. destruct (is_symmetric op); cbn; [|reflexivity].
  destruct (Nat.leb_spec (dof P e j) (dof P e i)); cbn; [reflexivity|]. unfold hit.
  destruct (Nat.eq_dec (dof P e i) a), (Nat.eq_dec (dof P e j) b); try lra. lia.
Qed.
Lemma assembled_sym P op a b :
  (forall e i j, (e < n_cells P)%nat -> (i < n_basis P)%nat -> (j < n_basis P)%nat -> quad P op e i j = quad P op e j i) ->
  assembled P op a b = assembled P op b a.
Proof.
  intros H. unfold assembled. apply rsum_ext. intros e He. rewrite rsum_swap. apply rsum_ext. intros i Hi.
  apply rsum_ext. intros j Hj. rewrite (H e i j) by auto. ring.
Qed.

(* ------------------------------------------------------------------ C64, C65 *)
(* the local form is symmetric on every cell *)
Definition locally_symmetric (P : problem) (op : dop) : Prop :=
  forall e i j, (e < n_cells P)%nat -> (i < n_basis P)%nat -> (j < n_basis P)%nat -> quad P op e i j = quad P op e j i.

Theorem C64_assembly P op : coef_ok P op -> dofs_ok P -> (is_symmetric op = true -> locally_symmetric P op) ->
  exists A, discretize_operator P op = Ok A /\ forall a b, A a b = assembled P op a b.
Proof.
  intros H Hd Hs. destruct (from_triplets_ok P op H Hd) as (A & E & HA). unfold discretize_operator.
  apply bind_ok in E. destruct E as (l & -> & E). cbn [bind]. rewrite E. cbn [bind]. eexists. split; [reflexivity|].
  intros a b. destruct (is_symmetric op) eqn:Es.
  - destruct (Nat.leb_spec b a) as [Hba|Hba].
    + rewrite HA. apply kept_lower; auto.
    + rewrite HA, kept_lower by lia. apply assembled_sym. apply Hs; auto.
  - rewrite HA. unfold kept_sum, assembled, kept. rewrite Es. reflexivity.
Qed.
(* dofs without a common cell *)
Lemma assembled_sparse P op a b :
  (forall e i j, (e < n_cells P)%nat -> (i < n_basis P)%nat -> (j < n_basis P)%nat -> ~ (dof P e i = a /\ dof P e j = b)) ->
  assembled P op a b = 0.
Proof.
  intros H. unfold assembled. apply rsum_zero. intros e He. apply rsum_zero. intros i Hi. apply rsum_zero. intros j Hj.
  unfold hit. destruct (Nat.eq_dec (dof P e i) a), (Nat.eq_dec (dof P e j) b); try lra. exfalso. apply (H e i j); auto.
Qed.
Theorem C64_sparsity P op A a b : coef_ok P op -> dofs_ok P -> (is_symmetric op = true -> locally_symmetric P op) ->
  discretize_operator P op = Ok A ->
  (forall e i j, (e < n_cells P)%nat -> (i < n_basis P)%nat -> (j < n_basis P)%nat -> ~ (dof P e i = a /\ dof P e j = b)) ->
  A a b = 0.
Proof.
  intros H Hd Hs E Hn. destruct (C64_assembly P op H Hd Hs) as (A' & E' & HA). rewrite E in E'. injection E' as <-.
  rewrite HA. now apply assembled_sparse.
Qed.
(* forcing *)
Definition fvalue (P : problem) (f : forcing) (e q : nat) : R :=
  match f with FCall f => f (affine P e (node P q)) | FData _ d => d (n_nodes P * e + q)%nat end.
Definition forcing_ok (P : problem) (f : forcing) : Prop :=
  match f with FCall _ => True | FData rows _ => (n_nodes P * n_cells P <= rows)%nat end.
Definition load (P : problem) (f : forcing) (e i : nat) : R :=
  rsum (n_nodes P) (fun q => fvalue P f e q * ref_psi P i (node P q) * weight P q) * measure P e.
Lemma fetch_ok P f e q : forcing_ok P f -> (e < n_cells P)%nat -> (q < n_nodes P)%nat ->
  match f with FCall f => Ok (f (affine P e (node P q))) | FData rows d => entry rows d (n_nodes P * e + q) end = Ok (fvalue P f e q).
Proof. destruct f; cbn; intros H He Hq; auto. apply entry_ok. nia. Qed.
Lemma integrate_basis_ok P f e i : forcing_ok P f -> (e < n_cells P)%nat -> integrate_basis P f e i = Ok (load P f e i).
Proof.
  intros H He. unfold integrate_basis. rewrite (sum_loop_ok _ (fun q => fvalue P f e q * ref_psi P i (node P q) * weight P q)); [reflexivity|].
  intros q Hq. rewrite fetch_ok by auto. reflexivity.
Qed.
Theorem C64_forcing P f : forcing_ok P f -> dofs_ok P ->
  exists F, discretize_forcing P f = Ok F /\
    forall a, F a = rsum (n_cells P) (fun e => rsum (n_basis P) (fun i => hit (dof P e i) a * load P f e i)).
Proof.
  intros H Hd. unfold discretize_forcing.
  assert (G : forall l v, (forall e i, In (e, i) l -> (e < n_cells P)%nat /\ (i < n_basis P)%nat) ->
    exists F, foldM (fun v ei => let '(e, i) := ei in
      x <- integrate_basis P f e i ;; if (dof P e i <? n_dofs P)%nat then Ok (add_at v (dof P e i) x) else UB) l v = Ok F /\
      forall a, F a = v a + lsum (map (fun ei => hit (dof P (fst ei) (snd ei)) a * load P f (fst ei) (snd ei)) l)).
  { induction l as [|[e i] l IH]; intros v Hl.
    - exists v. split; auto. intros; cbn; lra.
    - cbn [foldM]. destruct (Hl e i (or_introl eq_refl)) as [He Hi].
      rewrite integrate_basis_ok by auto. cbn [bind]. specialize (Hd e i He Hi). apply Nat.ltb_lt in Hd. rewrite Hd. cbn [bind].
      destruct (IH (add_at v (dof P e i) (load P f e i))) as (F & E & HF); [intros; apply Hl; right; auto|].
      exists F. split; auto. intros a. rewrite HF. cbn [map lsum fst snd]. unfold add_at, hit.
      rewrite (Nat.eqb_sym a). destruct (Nat.eqb_spec (dof P e i) a), (Nat.eq_dec (dof P e i) a); try contradiction; lra. }
  destruct (G (list_prod (seq 0 (n_cells P)) (seq 0 (n_basis P))) (fun _ => 0)) as (F & E & HF).
  { intros e i Hei. apply in_prod_iff in Hei. destruct Hei as [A B]. apply in_seq in A, B. lia. }
  exists F. split; auto. intros a. rewrite HF, lsum_list_prod. cbn. lra.
Qed.

(* every diffusion tensor in the operator is symmetric at the quadrature nodes *)
Fixpoint tensors_symmetric (P : problem) (op : dop) : Prop :=
  match op with
  | Diff K => forall k q r s, mval (mat_ k K) r s (node P q) = mval (mat_ k K) s r (node P q)
  | DBin _ a b => tensors_symmetric P a /\ tensors_symmetric P b
  | DNeg a => tensors_symmetric P a
  | _ => True
  end.
Lemma wf_symmetric P op : is_symmetric op = true -> tensors_symmetric P op ->
  forall e i j q, wf P op e i j q = wf P op e j i q.
Proof.
  induction op; cbn -[mat_ vat sat Nat.mul]; intros Hs Ht e i j q; auto; try discriminate.
  - f_equal. apply rsum_ext. intros; ring.
  - f_equal. rewrite (rsum_ext _ _ (fun r => rsum (edim P) (fun s => grad P e i q r * mval (mat_ (n_nodes P * e + q) K) r s (node P q) * grad P e j q s)))
      by (intros r _; rewrite <- rsum_scal; apply rsum_ext; intros; ring).
    rewrite rsum_swap. apply rsum_ext. intros r _. rewrite <- rsum_scal. apply rsum_ext. intros s _.
    rewrite (Ht _ q s r). ring.
  - ring.
  - apply andb_true_iff in Hs. rewrite (IHop1 (proj1 Hs) (proj1 Ht) e i j q), (IHop2 (proj2 Hs) (proj2 Ht) e i j q). auto.
  - f_equal. auto.
Qed.
Theorem C65_symmetric_partial P op : coef_ok P op -> dofs_ok P -> is_symmetric op = true -> tensors_symmetric P op ->
  locally_symmetric P op /\
  exists A, discretize_operator P op = Ok A /\ (forall a b, A a b = assembled P op a b) /\ (forall a b, A a b = A b a).
Proof.
  intros H Hd Hs Ht.
  assert (HL : locally_symmetric P op).
  { intros e i j _ _ _. unfold quad. f_equal. apply rsum_ext. intros q _. rewrite (wf_symmetric P op Hs Ht). reflexivity. }
  split; auto. destruct (C64_assembly P op H Hd (fun _ => HL)) as (A & E & HA). exists A. split; [auto|split; [auto|]].
  intros a b. rewrite !HA. apply assembled_sym. auto.
Qed.

(* the reference triangle as a one-cell mesh with linear elements and the one-node rule *)
Definition tri_psi (i : nat) (p : vec) : R := match i with O => 1 - p 0%nat - p 1%nat | 1%nat => p 0%nat | _ => p 1%nat end.
Definition tri_nabla (i k : nat) (_ : vec) : R :=
  match i, k with O, _ => -1 | 1%nat, O => 1 | 2%nat, 1%nat => 1 | _, _ => 0 end.
Definition one_triangle : problem :=
  {| ldim := 2; edim := 2; n_cells := 1; n_basis := 3; n_dofs := 3; dof := fun _ i => i; measure := fun _ => / 2;
     invJ := fun _ k r => if (k =? r)%nat then 1 else 0; affine := fun _ p => p; ref_psi := tri_psi; ref_nabla := tri_nabla;
     n_nodes := 1; node := fun _ _ => / 3; weight := fun _ => 1 |}.
Definition skewed : mexp := MConst 2 2 (fun i j => match i, j with O, O => 1 | O, 1%nat => 1 | 1%nat, 1%nat => 1 | _, _ => 0 end).
(* Diffusion is flagged symmetric whatever the tensor: with a non-symmetric one the upper triangle is wrong *)
Theorem C65_symmetric_refuted : exists P op A, coef_ok P op /\ dofs_ok P /\ is_symmetric op = true /\
  ~ locally_symmetric P op /\ discretize_operator P op = Ok A /\ A 1%nat 2%nat <> assembled P op 1 2.
Proof.
  exists one_triangle, (Diff skewed).
  assert (H1 : coef_ok one_triangle (Diff skewed)) by (cbn; intuition).
  assert (H2 : dofs_ok one_triangle) by (intros e i; cbn; lia).
  destruct (from_triplets_ok one_triangle (Diff skewed) H1 H2) as (A & E & HA).
  apply bind_ok in E. destruct E as (l & E1 & E2).
  eexists. split; [auto|split; [auto|split; [auto|split; [|split]]]].
  - intros HL. specialize (HL 0%nat 1%nat 2%nat). cbn in HL. specialize (HL ltac:(lia) ltac:(lia) ltac:(lia)).
    unfold quad in HL. cbn in HL. unfold grad in HL. cbn in HL. lra.
  - unfold discretize_operator. rewrite E1. cbn [bind]. rewrite E2. cbn [bind]. reflexivity.
  - cbn [is_symmetric Nat.leb]. rewrite HA, kept_lower by lia.
    unfold assembled, quad. cbn. unfold grad. cbn. unfold hit.
    repeat match goal with |- context [Nat.eq_dec ?a ?b] => destruct (Nat.eq_dec a b); try lia end. lra.
Qed.
(* non-vacuity: -K Laplacian + 2 * reaction - advection with discretised coefficients on the same mesh *)
Example C64_example : exists op, coef_ok one_triangle op /\ dofs_ok one_triangle /\ is_symmetric op = false /\
  op = DBin OSub (DBin OAdd (DNeg (Diff skewed)) (DBin OMul (DScal 2) (Reac (SDisc 1 INR None))))
                 (Adv (VDisc 2 1 (fun k i => INR (k + i)) None)).
Proof.
  eexists. split; [|split; [|split]]; [| | |reflexivity]; [|intros e i; cbn; lia|reflexivity].
  cbn. repeat split; auto; lia.
Qed.
Example C65_example : coef_ok one_triangle (DBin OAdd (DNeg Lap) (Reac (SConst 1))) /\
  tensors_symmetric one_triangle (DBin OAdd (DNeg Lap) (Reac (SConst 1))).
Proof. cbn. intuition. Qed.
