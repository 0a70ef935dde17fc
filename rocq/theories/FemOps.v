(* C70, C74, C110: integration over the mesh, algebra of operator expressions, coefficients in space. *)
From Verif Require Import Base RSum SimplexModel FieldModel FieldProps FemModel FemProps.

(* ------------------------------------------------------------------ C70 *)
Definition cell_integral (P : problem) (f : vec -> R) (e : nat) : R :=
  rsum (n_nodes P) (fun q => f (affine P e (node P q)) * weight P q) * measure P e.
Lemma integrate_cell_ok P f e : forcing_ok P f -> (e < n_cells P)%nat ->
  integrate_cell P f e = Ok (rsum (n_nodes P) (fun q => fvalue P f e q * weight P q) * measure P e).
Proof.
  intros H He. unfold integrate_cell. rewrite (sum_loop_ok _ (fun q => fvalue P f e q * weight P q)); [reflexivity|].
  intros q Hq. rewrite fetch_ok by auto. reflexivity.
Qed.
(* the integral over the mesh is the sum of the integrals over the cells *)
Theorem C70_additive P f : (forall e, (e < n_cells P)%nat -> integrate_cell P (FCall f) e = Ok (cell_integral P f e)) /\
  integrate_mesh P (FCall f) = Ok (rsum (n_cells P) (cell_integral P f)).
Proof.
  assert (G : forall e, (e < n_cells P)%nat -> integrate_cell P (FCall f) e = Ok (cell_integral P f e)).
  { intros e He. apply (integrate_cell_ok P (FCall f) e I He). }
  split; auto. unfold integrate_mesh. apply sum_loop_ok; auto.
Qed.
Theorem C70_linear P f g a b : exists If Ig, integrate_mesh P (FCall f) = Ok If /\ integrate_mesh P (FCall g) = Ok Ig /\
  integrate_mesh P (FCall (fun x => a * f x + b * g x)) = Ok (a * If + b * Ig).
Proof.
  do 2 eexists. split; [apply C70_additive|]. split; [apply C70_additive|].
  rewrite (proj2 (C70_additive P _)). f_equal. rewrite <- !rsum_scal, <- rsum_plus. apply rsum_ext. intros e _.
  unfold cell_integral.
  rewrite (rsum_ext _ (fun q => (a * f (affine P e (node P q)) + b * g (affine P e (node P q))) * weight P q)
    (fun q => a * (f (affine P e (node P q)) * weight P q) + b * (g (affine P e (node P q)) * weight P q))) by (intros; ring).
  rewrite rsum_plus, !rsum_scal. ring.
Qed.
(* constants: the measure of the mesh times the constant, times the sum of the weights *)
Theorem C70_constants P c : integrate_mesh P (FCall (fun _ => c)) =
  Ok (c * rsum (n_nodes P) (weight P) * rsum (n_cells P) (measure P)).
Proof.
  rewrite (proj2 (C70_additive P _)). f_equal. rewrite <- rsum_scal. apply rsum_ext. intros e _.
  unfold cell_integral. rewrite rsum_scal. reflexivity.
Qed.
Theorem C70_constants_rounding P c eps : Rabs (rsum (n_nodes P) (weight P) - 1) <= eps ->
  exists I, integrate_mesh P (FCall (fun _ => c)) = Ok I /\
    Rabs (I - c * rsum (n_cells P) (measure P)) <= eps * Rabs (c * rsum (n_cells P) (measure P)).
Proof.
  intros H. eexists. split; [apply C70_constants|].
  replace (c * rsum (n_nodes P) (weight P) * rsum (n_cells P) (measure P) - c * rsum (n_cells P) (measure P))
    with ((rsum (n_nodes P) (weight P) - 1) * (c * rsum (n_cells P) (measure P))) by ring.
  rewrite Rabs_mult. apply Rmult_le_compat_r; auto. apply Rabs_pos.
Qed.
(* data given at the quadrature nodes are integrated like the field they sample *)
Lemma quadrature_nodes_row P e q : (e < n_cells P)%nat -> (q < n_nodes P)%nat ->
  nth_error (quadrature_nodes P) (n_nodes P * e + q) = Some (affine P e (node P q)).
Proof.
  intros He Hq. unfold quadrature_nodes.
  assert (G : forall n s, (e < n)%nat -> nth_error (flat_map (fun e => map (fun q => affine P e (node P q)) (seq 0 (n_nodes P))) (seq s n))
     (n_nodes P * e + q) = Some (affine P (s + e) (node P q))).
  { clear He. revert e. intros e n. revert e. induction n as [|n IH]; intros e s He; [lia|].
    cbn [seq flat_map]. destruct e as [|e].
    - rewrite Nat.mul_0_r, Nat.add_0_l, nth_error_app1 by (rewrite map_length, seq_length; lia).
      rewrite nth_error_map, nth_error_seq. rewrite (proj2 (Nat.ltb_lt q (n_nodes P)) Hq). cbn. rewrite Nat.add_0_r. reflexivity.
    - rewrite nth_error_app2 by (rewrite map_length, seq_length; nia). rewrite map_length, seq_length.
      replace (n_nodes P * S e + q - n_nodes P)%nat with (n_nodes P * e + q)%nat by nia.
      rewrite IH by lia. do 2 f_equal. lia. }
  apply (G (n_cells P) 0%nat). auto.
Qed.
Definition sampled (P : problem) (f : vec -> R) (d : nat -> R) : Prop :=
  forall k x, nth_error (quadrature_nodes P) k = Some x -> d k = f x.
Theorem C70_sampled P f d rows : (n_nodes P * n_cells P <= rows)%nat -> sampled P f d ->
  integrate_mesh P (FData rows d) = integrate_mesh P (FCall f).
Proof.
  intros Hr Hs. rewrite (proj2 (C70_additive P f)). unfold integrate_mesh. apply sum_loop_ok. intros e He.
  rewrite integrate_cell_ok by auto. unfold cell_integral. do 2 f_equal. apply rsum_ext. intros q Hq. cbn.
  rewrite (Hs _ _ (quadrature_nodes_row P e q He Hq)). reflexivity.
Qed.
Example C70_example : integrate_mesh one_triangle (FCall (fun _ => 4)) = Ok 2.
Proof. rewrite C70_constants. cbn. f_equal. lra. Qed.

(* ------------------------------------------------------------------ C74 *)
(* matrices of combinations *)
Theorem C74_combination P a b Aa Ab : coef_ok P a -> coef_ok P b -> dofs_ok P ->
  (is_symmetric a = true -> locally_symmetric P a) -> (is_symmetric b = true -> locally_symmetric P b) ->
  discretize_operator P a = Ok Aa -> discretize_operator P b = Ok Ab ->
  (exists A, discretize_operator P (DBin OAdd a b) = Ok A /\ forall r c, A r c = Aa r c + Ab r c) /\
  (exists A, discretize_operator P (DBin OSub a b) = Ok A /\ forall r c, A r c = Aa r c - Ab r c) /\
  (forall s, exists A, discretize_operator P (DBin OMul (DScal s) a) = Ok A /\ forall r c, A r c = s * Aa r c) /\
  (exists A, discretize_operator P (DNeg a) = Ok A /\ forall r c, A r c = - Aa r c) /\
  (exists A, discretize_operator P (DBin OAdd Dt a) = Ok A /\ forall r c, A r c = Aa r c).
Proof.
  intros Ha Hb Hd Sa Sb Ea Eb.
  destruct (C64_assembly P a Ha Hd Sa) as (A' & E & HA). rewrite Ea in E. injection E as <-.
  destruct (C64_assembly P b Hb Hd Sb) as (B' & E & HB). rewrite Eb in E. injection E as <-.
  assert (Q : forall op F, coef_ok P op -> (is_symmetric op = true -> locally_symmetric P op) ->
    (forall r c, assembled P op r c = F r c) -> exists A, discretize_operator P op = Ok A /\ forall r c, A r c = F r c).
  { intros op F Hop Hs HF. destruct (C64_assembly P op Hop Hd Hs) as (A & E1 & HA1). exists A. split; auto.
    intros. rewrite HA1. apply HF. }
  assert (QA : forall e i j, quad P (DBin OAdd a b) e i j = quad P a e i j + quad P b e i j).
  { intros. unfold quad. rewrite <- Rmult_plus_distr_r, <- rsum_plus. f_equal. apply rsum_ext. intros; cbn; ring. }
  assert (QS : forall e i j, quad P (DBin OSub a b) e i j = quad P a e i j - quad P b e i j).
  { intros. unfold quad, Rminus. rewrite Ropp_mult_distr_l, <- Rmult_plus_distr_r. f_equal. fold (rsum (n_nodes P) (fun q => wf P a e i j q * weight P q) - rsum (n_nodes P) (fun q => wf P b e i j q * weight P q)).
    rewrite <- rsum_minus. apply rsum_ext. intros; cbn; ring. }
  assert (QM : forall s e i j, quad P (DBin OMul (DScal s) a) e i j = s * quad P a e i j).
  { intros. unfold quad. rewrite <- Rmult_assoc, <- rsum_scal. f_equal. apply rsum_ext. intros; cbn; ring. }
  assert (QN : forall e i j, quad P (DNeg a) e i j = - quad P a e i j).
  { intros. unfold quad. rewrite Ropp_mult_distr_l. f_equal. rewrite <- (Rmult_1_l (rsum _ (fun q => wf P a e i j q * _))), Ropp_mult_distr_l, <- rsum_scal.
    apply rsum_ext. intros; cbn; ring. }
  assert (QD : forall e i j, quad P (DBin OAdd Dt a) e i j = quad P a e i j).
  { intros. unfold quad. f_equal. apply rsum_ext. intros; cbn; ring. }
  split; [|split; [|split; [|split]]].
  - apply Q; [split; auto| |].
    + cbn. intros Hs. apply andb_true_iff in Hs. intros e i j He Hi Hj. rewrite !QA, (Sa (proj1 Hs) e i j), (Sb (proj2 Hs) e i j); auto.
    + intros r c. rewrite HA, HB. unfold assembled. rewrite <- rsum_plus. apply rsum_ext. intros e _. rewrite <- rsum_plus.
      apply rsum_ext. intros i _. rewrite <- rsum_plus. apply rsum_ext. intros j _. rewrite QA. ring.
  - apply Q; [split; auto| |].
    + cbn. intros Hs. apply andb_true_iff in Hs. intros e i j He Hi Hj. rewrite !QS, (Sa (proj1 Hs) e i j), (Sb (proj2 Hs) e i j); auto.
    + intros r c. rewrite HA, HB. unfold assembled. rewrite <- rsum_minus. apply rsum_ext. intros e _. rewrite <- rsum_minus.
      apply rsum_ext. intros i _. rewrite <- rsum_minus. apply rsum_ext. intros j _. rewrite QS. ring.
  - intros s. apply Q; [split; cbn; auto| |].
    + cbn. intros Hs e i j He Hi Hj. rewrite !QM, (Sa Hs e i j); auto.
    + intros r c. rewrite HA. unfold assembled. rewrite <- rsum_scal. apply rsum_ext. intros e _. rewrite <- rsum_scal.
      apply rsum_ext. intros i _. rewrite <- rsum_scal. apply rsum_ext. intros j _. rewrite QM. ring.
  - apply Q; [auto| |].
    + cbn. intros Hs e i j He Hi Hj. rewrite !QN, (Sa Hs e i j); auto.
    + intros r c. rewrite HA. replace (- assembled P a r c) with (-1 * assembled P a r c) by ring.
      unfold assembled. rewrite <- rsum_scal. apply rsum_ext. intros e _. rewrite <- rsum_scal.
      apply rsum_ext. intros i _. rewrite <- rsum_scal. apply rsum_ext. intros j _. rewrite QN. ring.
  - apply Q; [split; cbn; auto| |].
    + cbn. intros Hs e i j He Hi Hj. rewrite !QD, (Sa Hs e i j); auto.
    + intros r c. rewrite HA. unfold assembled. apply rsum_ext. intros e _. apply rsum_ext. intros i _. apply rsum_ext. intros j _.
      rewrite QD. ring.
Qed.
(* the flag of a combination is sound when the flags of the operands are *)
Theorem C74_symmetric_closed P o a b : 
  (is_symmetric a = true -> forall e i j q, wf P a e i j q = wf P a e j i q) ->
  (is_symmetric b = true -> forall e i j q, wf P b e i j q = wf P b e j i q) ->
  is_symmetric (DBin o a b) = true -> forall e i j q, wf P (DBin o a b) e i j q = wf P (DBin o a b) e j i q.
Proof.
  cbn. intros Ha Hb H e i j q. apply andb_true_iff in H. rewrite (Ha (proj1 H) e i j q), (Hb (proj2 H) e i j q). reflexivity.
Qed.

(* the operator without the contribution of T: the occurrences of T replaced by the operator that
   contributes nothing *)
Fixpoint zero_out (T : kind) (op : dop) : dop :=
  match op with
  | DBin o a b => DBin o (zero_out T a) (zero_out T b)
  | DNeg a => DNeg (zero_out T a)
  | _ => if is_kind T op then Dt else op
  end.
(* T occurs only as a summand: never negated, never multiplied, never the left operand of a minus, and once
   per sum *)
Fixpoint summand_only (T : kind) (op : dop) : Prop :=
  match op with
  | DBin o a b =>
      has_kind T op = false \/
      (is_kind T a = true /\ o = OAdd /\ has_kind T b = false) \/
      (is_kind T b = true /\ (o = OAdd \/ o = OSub) /\ has_kind T a = false) \/
      (is_kind T a = false /\ is_kind T b = false /\
       (has_kind T a = false \/ (is_bin a = true /\ summand_only T a)) /\
       (has_kind T b = false \/ (is_bin b = true /\ summand_only T b)))
  | _ => False
  end.
Lemma zero_out_id T op : has_kind T op = false -> zero_out T op = op.
Proof.
  induction op; cbn; intros H; auto; try (destruct T; cbn in *; congruence).
  - apply orb_false_iff in H. rewrite IHop1, IHop2 by tauto. auto.
  - rewrite IHop; auto.
Qed.
Lemma kind_has T op : is_kind T op = true -> has_kind T op = true.
Proof. destruct op; cbn; auto; destruct T; discriminate. Qed.
Lemma kind_zero T op : is_kind T op = true -> zero_out T op = Dt.
Proof. destruct op, T; cbn; auto; discriminate. Qed.
Lemma remove_free T op : is_bin op = true -> has_kind T op = false -> remove_operator T op = Some op.
Proof. destruct op; try discriminate. intros _ H. unfold remove_operator; fold remove_operator. rewrite H. reflexivity. Qed.

(* the operator named by a kind, and where it occurs in an expression *)
Definition named (T : kind) : dop := match T with KLap => Lap | KDt => Dt end.
Inductive occurs (x : dop) : dop -> Prop :=
| occurs_here : occurs x x
| occurs_left o a b : occurs x a -> occurs x (DBin o a b)
| occurs_right o a b : occurs x b -> occurs x (DBin o a b)
| occurs_neg a : occurs x a -> occurs x (DNeg a).
Theorem C74_kinds T op : (is_kind T op = true <-> op = named T) /\ (has_kind T op = true <-> occurs (named T) op).
Proof.
  split; [destruct T, op; cbn; split; congruence|]. split.
  - induction op as [|K|v|c| |c|o a IHa b IHb|a IHa]; cbn [has_kind]; intros H.
    7:{ apply orb_true_iff in H as [H|H]; [apply occurs_left|apply occurs_right]; auto. }
    7:{ apply occurs_neg. auto. }
    all: destruct T; try discriminate; constructor.
  - induction 1; cbn; try (rewrite IHoccurs); auto using orb_true_r. destruct T; reflexivity.
Qed.

Theorem C74_remove_partial T op : summand_only T op ->
  exists op', remove_operator T op = Some op' /\
    (forall P e i j q, wf P op' e i j q = wf P (zero_out T op) e i j q) /\
    (has_kind T op' = false).
Proof.
  induction op; try contradiction. intros H.
  destruct (has_kind T (DBin o op1 op2)) eqn:Eh.
  2:{ exists (DBin o op1 op2). split; [apply remove_free; auto|]. split; auto. intros. rewrite zero_out_id by auto. reflexivity. }
  cbn [summand_only] in H. destruct H as [H|[(Ka & -> & Hb)|[(Kb & Ho & Ha)|(Ka & Kb & Ha & Hb)]]]; [congruence| | |].
  - exists op2. cbn [remove_operator]. rewrite Eh. cbn [negb]. rewrite Ka. split; [auto|]. split; [|auto].
    intros. cbn [zero_out]. rewrite (kind_zero T op1 Ka), (zero_out_id T op2 Hb). cbn. ring.
  - exists op1. cbn [remove_operator]. rewrite Eh. cbn [negb].
    assert (Ka : is_kind T op1 = false). { destruct (is_kind T op1) eqn:E; auto. apply kind_has in E. congruence. }
    rewrite Ka, Kb. split; [auto|]. split; [|auto].
    intros. cbn [zero_out]. rewrite (kind_zero T op2 Kb), (zero_out_id T op1 Ha). destruct Ho as [-> | ->]; cbn; ring.
  - cbn [remove_operator]. rewrite Eh, Ka, Kb. cbn [negb].
    assert (Ra : is_bin op1 = true -> exists a', remove_operator T op1 = Some a' /\
        (forall P e i j q, wf P a' e i j q = wf P (zero_out T op1) e i j q) /\ has_kind T a' = false).
    { intros Hbin. destruct Ha as [Ha|[_ Ha]]; auto. exists op1. split; [apply remove_free; auto|]. split; auto. intros. rewrite zero_out_id; auto. }
    assert (Rb : is_bin op2 = true -> exists a', remove_operator T op2 = Some a' /\
        (forall P e i j q, wf P a' e i j q = wf P (zero_out T op2) e i j q) /\ has_kind T a' = false).
    { intros Hbin. destruct Hb as [Hb|[_ Hb]]; auto. exists op2. split; [apply remove_free; auto|]. split; auto. intros. rewrite zero_out_id; auto. }
    assert (Na : is_bin op1 = false -> has_kind T op1 = false) by (intros; destruct Ha as [|[? _]]; congruence).
    assert (Nb : is_bin op2 = false -> has_kind T op2 = false) by (intros; destruct Hb as [|[? _]]; congruence).
    destruct (is_bin op1) eqn:B1, (is_bin op2) eqn:B2; cbn [negb andb].
    + destruct (Ra eq_refl) as (a' & -> & Wa & Fa), (Rb eq_refl) as (b' & -> & Wb & Fb). eexists. split; [reflexivity|].
      split; [intros; cbn; rewrite Wa, Wb; auto|]. cbn. rewrite Fa, Fb. auto.
    + destruct (Ra eq_refl) as (a' & -> & Wa & Fa). eexists. split; [reflexivity|].
      split; [intros; cbn; rewrite Wa, (zero_out_id T op2); auto|]. cbn. rewrite Fa, Nb; auto.
    + destruct (Rb eq_refl) as (b' & -> & Wb & Fb). eexists. split; [reflexivity|].
      split; [intros; cbn; rewrite Wb, (zero_out_id T op1); auto|]. cbn. rewrite Fb, Na; auto.
    + cbn [has_kind] in Eh. rewrite Na, Nb in Eh by auto. discriminate.
Qed.
(* dT - L becomes L instead of -L; 2 dT + L becomes the constant 2 plus L *)
Theorem C74_remove_refuted :
  (exists op', remove_operator KDt (DBin OSub Dt (Reac (SConst 1))) = Some op' /\
     wf one_triangle op' 0 0 0 0 <> wf one_triangle (zero_out KDt (DBin OSub Dt (Reac (SConst 1)))) 0 0 0 0) /\
  (exists op', remove_operator KDt (DBin OAdd (DBin OMul (DScal 2) Dt) Lap) = Some op' /\
     wf one_triangle op' 0 0 0 0 <> wf one_triangle (zero_out KDt (DBin OAdd (DBin OMul (DScal 2) Dt) Lap)) 0 0 0 0).
Proof.
  split; eexists; (split; [reflexivity|]); cbn.
  - lra.
  - unfold grad. cbn. lra.
Qed.
Example C74_example : summand_only KDt (DBin OAdd (DBin OSub Lap (Adv (VConst 2 (fun _ => 1)))) (DBin OAdd (Reac (SConst 1)) Dt)).
Proof. cbn. right. right. right. intuition. Qed.

(* ------------------------------------------------------------------ C110 *)
(* data sampled at the rows of quadrature_nodes() *)
Definition sampled_vector (P : problem) (f : vec -> nat -> R) (d : nat -> nat -> R) : Prop :=
  forall k x, nth_error (quadrature_nodes P) k = Some x -> forall r, d k r = f x r.
Definition sampled_matrix (P : problem) (n : nat) (f : vec -> nat -> nat -> R) (d : nat -> nat -> R) : Prop :=
  forall k x, nth_error (quadrature_nodes P) k = Some x -> forall r s, d k (s * n + r)%nat = f x r s.
(* the integrand with every sampled coefficient f replaced by its value at the point x of space.  g i: gradient, b i: value of basis
   function i at that point *)
Section Physical.
Variables (P : problem) (g : nat -> nat -> R) (b : nat -> R) (x : vec).
Inductive integrand : dop -> nat -> nat -> R -> Prop :=
| IReac f d rows cur i j : (n_nodes P * n_cells P <= rows)%nat -> sampled P f d -> integrand (Reac (SDisc rows d cur)) i j (f x * b i * b j)
| IReacConst c i j : integrand (Reac (SConst c)) i j (c * b i * b j)
| IAdv f d rows cur i j : (n_nodes P * n_cells P <= rows)%nat -> sampled_vector P f d ->
    integrand (Adv (VDisc (edim P) rows d cur)) i j (b i * rsum (edim P) (fun r => g j r * f x r))
| IAdvConst c i j : integrand (Adv (VConst (edim P) c)) i j (b i * rsum (edim P) (fun r => g j r * c r))
| IDiff f d rows cur i j : (n_nodes P * n_cells P <= rows)%nat -> sampled_matrix P (edim P) f d ->
    integrand (Diff (MDisc (edim P) (edim P) rows d cur)) i j
      (- rsum (edim P) (fun r => g i r * rsum (edim P) (fun s => f x r s * g j s)))
| IDiffConst K i j : integrand (Diff (MConst (edim P) (edim P) K)) i j
      (- rsum (edim P) (fun r => g i r * rsum (edim P) (fun s => K r s * g j s)))
| ILap i j : integrand Lap i j (- rsum (edim P) (fun r => g i r * g j r))
| ISum op1 op2 i j v1 v2 : integrand op1 i j v1 -> integrand op2 i j v2 -> integrand (DBin OAdd op1 op2) i j (v1 + v2)
| IDiffer op1 op2 i j v1 v2 : integrand op1 i j v1 -> integrand op2 i j v2 -> integrand (DBin OSub op1 op2) i j (v1 - v2)
| IScale c op i j v : integrand op i j v -> integrand (DBin OMul (DScal c) op) i j (c * v)
| INeg op i j v : integrand op i j v -> integrand (DNeg op) i j (- v).
End Physical.
Lemma integrand_wf P op e i j q v : (e < n_cells P)%nat -> (q < n_nodes P)%nat ->
  integrand P (fun i r => grad P e i q r) (fun i => ref_psi P i (node P q)) (affine P e (node P q)) op i j v -> wf P op e i j q = v.
Proof.
  intros He Hq. pose proof (quadrature_nodes_row P e q He Hq) as Hrow. induction 1; cbn -[Nat.mul]; try reflexivity; try congruence.
  - rewrite (H0 _ _ Hrow). reflexivity.
  - f_equal. apply rsum_ext. intros r _. rewrite (H0 _ _ Hrow). reflexivity.
  - f_equal. apply rsum_ext. intros r _. f_equal. apply rsum_ext. intros s _. rewrite (H0 _ _ Hrow). reflexivity.
Qed.
Lemma integrand_coef P g b x op i j v : integrand P g b x op i j v -> coef_ok P op.
Proof.
  induction 1; cbn -[Nat.mul]; auto; repeat match goal with |- _ /\ _ => split | |- forall _, _ => intro end; auto; lia.
Qed.
(* on each cell the assembled integral of an operator with sampled coefficients uses their values at the physical quadrature points *)
Theorem C110_sampled_partial P op e i j v : (e < n_cells P)%nat -> (0 < n_nodes P)%nat ->
  (forall q, (q < n_nodes P)%nat ->
     integrand P (fun i r => grad P e i q r) (fun i => ref_psi P i (node P q)) (affine P e (node P q)) op i j (v q)) ->
  integrate_weak_form P op e i j = Ok (rsum (n_nodes P) (fun q => v q * weight P q) * measure P e).
Proof.
  intros He Hn H. rewrite integrate_weak_form_ok; auto.
  - unfold quad. f_equal. f_equal. apply rsum_ext. intros q Hq. rewrite (integrand_wf P op e i j q (v q)) by auto. reflexivity.
  - eapply integrand_coef. apply (H 0%nat). exact Hn.
Qed.
(* a coefficient given as a callable field is evaluated at the node of the reference element instead *)
Definition moved_triangle : problem :=
  {| ldim := 2; edim := 2; n_cells := 1; n_basis := 3; n_dofs := 3; dof := fun _ i => i; measure := fun _ => / 2;
     invJ := fun _ k r => if (k =? r)%nat then 1 else 0; affine := fun _ p k => p k + 1; ref_psi := tri_psi; ref_nabla := tri_nabla;
     n_nodes := 1; node := fun _ _ => / 3; weight := fun _ => 1 |}.
Theorem C110_callable_refuted : exists P f e i j v, (e < n_cells P)%nat /\ (i < n_basis P)%nat /\ (j < n_basis P)%nat /\
  integrate_weak_form P (Reac (SField f)) e i j = Ok v /\
  v <> rsum (n_nodes P) (fun q => f (affine P e (node P q)) * ref_psi P i (node P q) * ref_psi P j (node P q) * weight P q) * measure P e.
Proof.
  exists moved_triangle, (fun x => x 0%nat), 0%nat, 0%nat, 0%nat. eexists. split; [cbn; lia|]. split; [cbn; lia|]. split; [cbn; lia|].
  split; [cbn; reflexivity|]. cbn. unfold tri_psi. lra.
Qed.
Example C110_example : sampled moved_triangle (fun x => x 0%nat) (fun _ => / 3 + 1).
Proof. intros k x H. unfold quadrature_nodes in H. cbn in H. destruct k as [|[|k]]; cbn in H; [|discriminate|discriminate]. injection H as <-. reflexivity. Qed.
Example C110_example2 : exists v, integrate_weak_form moved_triangle (DBin OSub (Reac (SDisc 1 (fun _ => / 3 + 1) None)) Lap) 0 0 0 = Ok v /\ v = / 9 * (4 / 3) / 2 + 1.
Proof.
  eexists. split.
  - eapply (C110_sampled_partial moved_triangle _ 0 0 0); [cbn; lia|cbn; lia|]. intros q Hq. refine ((fun H => H) _).
    apply IDiffer; [apply (IReac _ _ _ _ (fun x => x 0%nat)); [cbn; lia|exact C110_example]|apply ILap].
  - cbn. unfold grad. cbn. unfold tri_psi. lra.
Qed.
