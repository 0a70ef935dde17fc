(* C213: first order convergence, in the energy norm, of linear finite elements for reaction-diffusion problems on meshes
   of segments, triangles and tetrahedra. *)
From Coq Require Import QArith Qreals Permutation FunctionalExtensionality.
From Verif Require Import Base RSum SimplexModel SimplexProps LinAlg FieldModel FieldProps MeasureModel MeasureProps FemModel FemProps EvalModel EvalProps
  SolverModel SolverProps FemEnergy FemKernel FemMesh FemPatch FemTime FemConv.
From Verif Require PolyModel PolyProps LagrangeProps QuadModel QuadProps TriSpec TriProofs TriProps FemApprox FemMax.
Local Open Scope R_scope.

(* ------------------------------------------------------------------ specification *)
Definition along (p v : vec) (s : R) : vec := fun r => p r + s * v r.
(* G is the gradient of u, a function of the first d coordinates: the derivative along every line is the inner product *)
Definition gradient_of (d : nat) (u : vec -> R) (G : vec -> vec) : Prop := forall p v s,
  derivable_pt_lim (fun z => u (along p v z)) s (rsum d (fun r => G (along p v s) r * v r)).
(* u, with gradient G and Hessian H, solves - laplacian u + c u = f *)
Record reaction_diffusion (d : nat) (c : R) (u : vec -> R) (G : vec -> vec) (H : vec -> mat) (f : vec -> R) : Prop := {
  rd_gradient : gradient_of d u G;
  rd_hessian : forall r, (r < d)%nat -> gradient_of d (fun x => G x r) (fun x => H x r);
  rd_equation : forall x, - rsum d (fun r => H x r r) + c * u x = f x }.
(* the largest difference of a coordinate *)
Definition within (d : nat) (x y : vec) (delta : R) : Prop := forall r, (r < d)%nat -> Rabs (x r - y r) <= delta.
Definition in_box (d : nat) (alpha beta : R) (x : vec) : Prop := forall r, (r < d)%nat -> alpha <= x r <= beta.
(* the second derivatives are bounded by M and K-Lipschitz in a box *)
Definition second_bounded (d : nat) (alpha beta M : R) (H : vec -> mat) : Prop := forall x r s, in_box d alpha beta x -> (r < d)%nat -> (s < d)%nat ->
  Rabs (H x r s) <= M.
Definition second_lipschitz (d : nat) (alpha beta K : R) (H : vec -> mat) : Prop := forall x y delta r s, in_box d alpha beta x -> in_box d alpha beta y ->
  within d x y delta -> (r < d)%nat -> (s < d)%nat -> Rabs (H x r s - H y r s) <= K * delta.
(* cells of size at most h, none of them too flat: the affine function which is 1 at a vertex of a cell and 0 at the others
   has slopes of at most sigma divided by the size of the cell *)
Definition shape_regular (d : nat) (nodes : list vec) (cells : list (list nat)) (h sigma : R) : Prop := forall c, In c cells ->
  exists s, 0 < s <= h /\ (forall a b, In a c -> In b c -> within d (place nodes a) (place nodes b) s) /\
    forall b (n : vec) k, In b c -> (forall a, on_face c b a -> rsum d (fun r => n r * place nodes a r) = k) -> rsum d (fun r => n r * place nodes b r) = k + 1 ->
      forall r, (r < d)%nat -> Rabs (n r) * s <= sigma.
(* every face separates two cells, or all its nodes are on the boundary *)
Definition faces_matched (d : nat) (nodes : list vec) (cells : list (list nat)) (bdy : nat -> bool) : Prop := forall c b, In c cells -> In b c ->
  (exists c' b', In c' cells /\ In b' c' /\ across d nodes c b c' b') \/ (forall a, on_face c b a -> bdy a = true).

(* the square of the energy norm of a finite element function, for the operator - laplacian + c *)
Definition energy_norm2 (P : problem) (c : R) (v : nat -> R) : R := mesh_quadrature P (fun e q =>
  rsum (edim P) (fun r => fe_grad P v e q r * fe_grad P v e q r) + c * (fe_at P v e (node P q) * fe_at P v e (node P q))).
(* total measure of the cells *)
Definition mesh_measure (d : nat) (nodes : list vec) (cells : list (list nat)) : R := rsum (length cells) (fun e => cell_measure d d (vertex nodes cells e)).

(* ------------------------------------------------------------------ along a line *)
Lemma along_0 p v : along p v 0 = p.
Proof. apply functional_extensionality. intros r. unfold along. ring. Qed.
Lemma along_1 p q : along p (fun r => q r - p r) 1 = q.
Proof. apply functional_extensionality. intros r. unfold along. ring. Qed.
Lemma along_box d alpha beta p q s : in_box d alpha beta p -> in_box d alpha beta q -> 0 <= s <= 1 -> in_box d alpha beta (along p (fun r => q r - p r) s).
Proof.
  intros Hp Hq Hs r Hr. unfold along. assert (A := Hp r Hr). assert (B := Hq r Hr).
  replace (p r + s * (q r - p r)) with ((1 - s) * p r + s * q r) by ring.
  assert (X : forall a b x y : R, 0 <= s <= 1 -> a <= x -> b <= y -> (1 - s) * a + s * b <= (1 - s) * x + s * y).
  { intros a b x y S1 S2 S3. apply Rplus_le_compat; apply Rmult_le_compat_l; lra. }
  assert (Y := X alpha alpha (p r) (q r) Hs ltac:(lra) ltac:(lra)). assert (Z := X (p r) (q r) beta beta Hs ltac:(lra) ltac:(lra)). lra.
Qed.
Lemma along_within d p q s delta : within d q p delta -> 0 <= s <= 1 -> within d (along p (fun r => q r - p r) s) p (s * delta).
Proof.
  intros H Hs r Hr. unfold along. replace (p r + s * (q r - p r) - p r) with (s * (q r - p r)) by ring.
  rewrite Rabs_mult, (Rabs_right s) by lra. apply Rmult_le_compat_l; [lra|]. now apply H.
Qed.
Lemma rsum_abs_bound n (f : nat -> R) B : (forall i, (i < n)%nat -> Rabs (f i) <= B) -> Rabs (rsum n f) <= INR n * B.
Proof.
  induction n as [|n IH]; intros Hf; [cbn; rewrite Rabs_R0; lra|]. rewrite S_INR. cbn [rsum].
  eapply Rle_trans; [apply Rabs_triang|]. assert (A := IH ltac:(intros; apply Hf; lia)). assert (B' := Hf n ltac:(lia)). lra.
Qed.
Lemma rsum_abs_weight n (f w : nat -> R) B : (forall i, (i < n)%nat -> Rabs (f i) <= B * w i) -> Rabs (rsum n f) <= B * rsum n w.
Proof.
  induction n as [|n IH]; intros Hf; [cbn; rewrite Rabs_R0; lra|]. cbn [rsum].
  eapply Rle_trans; [apply Rabs_triang|]. assert (A := IH ltac:(intros; apply Hf; lia)). assert (B' := Hf n ltac:(lia)). lra.
Qed.
Lemma dline m a s : derivable_pt_lim (fun z => a + m * z) s m.
Proof.
  assert (X := derivable_pt_lim_plus (fct_cte a) (mult_real_fct m Ranalysis1.id) s 0 (m * 1) (derivable_pt_lim_const a s) (derivable_pt_lim_scal _ m s 1 (derivable_pt_lim_id s))).
  replace (0 + m * 1) with m in X by ring. exact X.
Qed.
(* if the gradient moves by at most L per unit of distance, the tangent plane is accurate to second order *)
Lemma line_taylor d g Dg p q delta L : gradient_of d g Dg -> within d q p delta -> 0 <= delta -> 0 <= L ->
  (forall s r, 0 <= s <= 1 -> (r < d)%nat -> Rabs (Dg (along p (fun i => q i - p i) s) r - Dg p r) <= L * s) ->
  Rabs (g q - g p - rsum d (fun r => Dg p r * (q r - p r))) <= INR d * L * delta / 2.
Proof.
  intros Hg Hq Hd HL HB. set (v := fun i => q i - p i) in *. set (m := rsum d (fun r => Dg p r * (q r - p r))).
  assert (X := integrate 1 (INR d * L * delta / 2) (fun s => g (along p v s) - g p - s * m) (fun s => rsum d (fun r => Dg (along p v s) r * v r) - m)).
  cbv beta in X. specialize (X ltac:(intros s Hs;
    apply (derivable_pt_lim_ext (fun s => g (along p v s) - (g p + m * s))); [intros t; ring|];
    apply derivable_pt_lim_minus; [apply Hg|];
    apply dline)).
  specialize (X ltac:(rewrite along_0; ring)).
  specialize (X ltac:(intros s Hs; unfold m; rewrite <- rsum_minus;
    eapply Rle_trans; [apply (rsum_abs_bound d _ (L * s * delta))|cbn [INR pow]; right; field];
    intros r Hr; replace (Dg (along p v s) r * v r - Dg p r * (q r - p r)) with ((Dg (along p v s) r - Dg p r) * (q r - p r)) by (unfold v; ring);
    rewrite Rabs_mult; apply Rmult_le_compat; try apply Rabs_pos; [apply HB; auto|now apply Hq])).
  specialize (X 1 ltac:(lra)). unfold v in X. rewrite along_1 in X. cbn [pow] in X. fold v in X.
  replace (g q - g p - m) with (g q - g p - 1 * m) by ring. lra.
Qed.
(* a bound on the gradient gives a Lipschitz constant *)
Lemma line_lipschitz d g Dg p q delta B : gradient_of d g Dg -> within d q p delta -> 0 <= delta ->
  (forall s r, 0 <= s <= 1 -> (r < d)%nat -> Rabs (Dg (along p (fun i => q i - p i) s) r) <= B) ->
  forall s, 0 <= s <= 1 -> Rabs (g (along p (fun i => q i - p i) s) - g p) <= INR d * B * delta * s.
Proof.
  intros Hg Hq Hd HB. set (v := fun i => q i - p i) in *.
  assert (X := integrate 0 (INR d * B * delta) (fun s => g (along p v s) - g p) (fun s => rsum d (fun r => Dg (along p v s) r * v r))).
  cbv beta in X. specialize (X ltac:(intros s Hs;
    apply (derivable_pt_lim_ext (fun s => g (along p v s) - g p)); [intros t; ring|];
    replace (rsum d (fun r => Dg (along p v s) r * v r)) with (rsum d (fun r => Dg (along p v s) r * v r) - 0) by ring;
    apply (derivable_pt_lim_minus (fun s => g (along p v s)) (fct_cte (g p))); [apply Hg|apply derivable_pt_lim_const])).
  specialize (X ltac:(rewrite along_0; ring)).
  specialize (X ltac:(intros s Hs; eapply Rle_trans; [apply (rsum_abs_bound d _ (B * delta))|cbn [INR pow]; right; ring];
    intros r Hr; rewrite Rabs_mult; apply Rmult_le_compat; try apply Rabs_pos; [apply HB; auto|now apply Hq])).
  intros s Hs. specialize (X s Hs). cbn [pow] in X. lra.
Qed.

Section Smooth.
Variables (d : nat) (cc : R) (u : vec -> R) (G : vec -> vec) (H : vec -> mat) (f : vec -> R) (alpha beta M K : R).
Hypotheses (HP : reaction_diffusion d cc u G H f) (HM : second_bounded d alpha beta M H) (HK : second_lipschitz d alpha beta K H) (M0 : 0 <= M) (K0 : 0 <= K).
Lemma gradient_taylor p q delta r : (r < d)%nat -> in_box d alpha beta p -> in_box d alpha beta q -> within d q p delta -> 0 <= delta ->
  Rabs (G q r - G p r - rsum d (fun s => H p r s * (q s - p s))) <= INR d * (K * delta) * delta / 2.
Proof.
  intros Hr Hp Hq Hw Hd. apply (line_taylor d (fun x => G x r) (fun x => H x r) p q delta (K * delta)).
  - exact (rd_hessian _ _ _ _ _ _ HP r Hr).
  - exact Hw.
  - exact Hd.
  - now apply Rmult_le_pos.
  - intros s k Hs Hk. eapply Rle_trans; [apply (HK _ p (s * delta) r k)|right; ring]; auto.
    + now apply along_box.
    + now apply along_within.
Qed.
Lemma value_taylor p q delta : in_box d alpha beta p -> in_box d alpha beta q -> within d q p delta -> 0 <= delta ->
  Rabs (u q - u p - rsum d (fun r => G p r * (q r - p r))) <= INR d * (INR d * M * delta) * delta / 2.
Proof.
  intros Hp Hq Hw Hd. apply (line_taylor d u G p q delta (INR d * M * delta)).
  - exact (rd_gradient _ _ _ _ _ _ HP).
  - exact Hw.
  - exact Hd.
  - apply Rmult_le_pos; [|auto]. apply Rmult_le_pos; [apply pos_INR|auto].
  - intros s r Hs Hr. apply (line_lipschitz d (fun x => G x r) (fun x => H x r) p q delta M); auto.
    + exact (rd_hessian _ _ _ _ _ _ HP r Hr).
    + intros t k Ht Hk. apply HM; auto. now apply along_box.
Qed.
End Smooth.

(* ------------------------------------------------------------------ one cell *)
Definition convex (d : nat) (w : nat -> R) : Prop := (forall i, (i < S d)%nat -> 0 <= w i) /\ rsum (S d) w = 1.
Definition cmb (d : nat) (w f : nat -> R) : R := rsum (S d) (fun i => w i * f i).
Definition combo (d : nat) (c : nat -> vec) (w : nat -> R) : vec := fun r => cmb d w (fun i => c i r).
Definition unif (d : nat) : nat -> R := fun _ => / INR (S d).
Definition face (d h : nat) : nat -> R := fun i => if Nat.eqb i h then 0 else / INR d.
Lemma rsum_const n x : rsum n (fun _ => x) = INR n * x.
Proof. induction n as [|n IH]; [cbn; ring|]. rewrite S_INR. cbn [rsum]. rewrite IH. ring. Qed.
Lemma rsum_but n f h : (h < n)%nat -> rsum n (fun i => if Nat.eqb i h then 0 else f i) = rsum n f - f h.
Proof.
  intros Hh. assert (E : rsum n (fun i => if Nat.eqb i h then 0 else f i) + rsum n (fun i => if Nat.eqb i h then f i else 0) = rsum n f).
  { rewrite <- rsum_plus. apply rsum_ext. intros i _. destruct (Nat.eqb i h); ring. }
  rewrite (rsum_single n (fun i => if Nat.eqb i h then f i else 0) h Hh), Nat.eqb_refl in E; [lra|].
  intros i _ Hne. apply Nat.eqb_neq in Hne. now rewrite Hne.
Qed.
Lemma unif_convex d : convex d (unif d).
Proof.
  assert (X : 0 < INR (S d)) by (apply lt_0_INR; lia). split.
  - intros i _. left. now apply Rinv_0_lt_compat.
  - unfold unif. rewrite rsum_const. apply Rinv_r. lra.
Qed.
Lemma face_convex d h : (1 <= d)%nat -> (h <= d)%nat -> convex d (face d h).
Proof.
  intros Hd Hh. assert (X : 0 < INR d) by (apply lt_0_INR; lia). split.
  - intros i _. unfold face. destruct (Nat.eqb i h); [lra|]. left. now apply Rinv_0_lt_compat.
  - unfold face. rewrite (rsum_but (S d) (fun _ => / INR d) h ltac:(lia)), rsum_const, S_INR. field. lra.
Qed.
Lemma face_cmb d h f : (1 <= d)%nat -> (h <= d)%nat -> cmb d (face d h) f = (rsum (S d) f - f h) / INR d.
Proof.
  intros Hd Hh. unfold cmb, face. rewrite (rsum_ext _ _ (fun i => if Nat.eqb i h then 0 else / INR d * f i)) by (intros i _; destruct (Nat.eqb i h); ring).
  rewrite (rsum_but (S d) (fun i => / INR d * f i) h ltac:(lia)), rsum_scal. unfold Rdiv. ring.
Qed.
Lemma unif_cmb d f : cmb d (unif d) f = rsum (S d) f / INR (S d).
Proof. unfold cmb, unif. rewrite rsum_scal. unfold Rdiv. ring. Qed.
Lemma face_diff d h f : (1 <= d)%nat -> (h <= d)%nat -> cmb d (face d h) f - cmb d (unif d) f = (cmb d (unif d) f - f h) / INR d.
Proof.
  intros Hd Hh. rewrite face_cmb, unif_cmb by auto. rewrite S_INR. assert (X : 0 < INR d) by (apply lt_0_INR; lia). field. lra.
Qed.
Lemma cmb_const d w x : convex d w -> cmb d w (fun _ => x) = x.
Proof. intros [_ H]. unfold cmb. rewrite rsum_scal_r, H. ring. Qed.
Lemma cmb_minus d w f x : convex d w -> cmb d w f - x = cmb d w (fun i => f i - x).
Proof.
  intros Hw. rewrite <- (cmb_const d w x Hw) at 1. unfold cmb. rewrite <- rsum_minus. apply rsum_ext. intros; ring.
Qed.
Lemma cmb_bound d w f B : convex d w -> (forall i, (i < S d)%nat -> Rabs (f i) <= B) -> Rabs (cmb d w f) <= B.
Proof.
  intros [Hw H1] Hf. unfold cmb. replace B with (B * rsum (S d) w) by (rewrite H1; ring). apply rsum_abs_weight.
  intros i Hi. rewrite Rabs_mult, (Rabs_right (w i)) by (apply Rle_ge, Hw, Hi). rewrite Rmult_comm. apply Rmult_le_compat_r; auto.
Qed.
Lemma cmb_point d w f x B : convex d w -> (forall i, (i < S d)%nat -> Rabs (f i - x) <= B) -> Rabs (cmb d w f - x) <= B.
Proof. intros Hw Hf. rewrite cmb_minus by auto. now apply cmb_bound. Qed.
Lemma cmb_within d w w' f B : convex d w -> convex d w' -> (forall i j, (i < S d)%nat -> (j < S d)%nat -> Rabs (f i - f j) <= B) -> Rabs (cmb d w f - cmb d w' f) <= B.
Proof.
  intros Hw Hw' Hf. apply cmb_point; [auto|]. intros i Hi. rewrite Rabs_minus_sym. apply cmb_point; [auto|]. intros j Hj. auto.
Qed.

Lemma six_abs a1 a2 a3 a4 a5 a6 b1 b2 b3 b4 b5 b6 : Rabs a1 <= b1 -> Rabs a2 <= b2 -> Rabs a3 <= b3 -> Rabs a4 <= b4 -> Rabs a5 <= b5 -> Rabs a6 <= b6 ->
  Rabs (a1 + a2 + a3 + (a4 + a5 + a6)) <= b1 + b2 + b3 + (b4 + b5 + b6).
Proof.
  intros. repeat (eapply Rle_trans; [apply Rabs_triang|]; apply Rplus_le_compat; auto).
Qed.
(* the rates of the error, in terms of the slopes and of the values of the function it is tested with *)
Definition slope_rate (d : nat) (M K sigma h : R) : R :=
  INR d * (INR d + 1) * sigma * M * (INR d / 2 + 1) + INR d * M + INR d * (INR d + 1) * sigma * K * h / 2.
Definition value_rate (d : nat) (cc M K sigma h : R) : R :=
  INR d * (INR d + 1) * sigma * K / 2 + INR d * K + cc * (INR d * INR d) * M * h / 2.

Section CellError.
Variables (d : nat) (cc : R) (u : vec -> R) (G : vec -> vec) (H : vec -> mat) (f : vec -> R) (alpha beta M K : R).
Hypotheses (HP : reaction_diffusion d cc u G H f) (HM : second_bounded d alpha beta M H) (HK : second_lipschitz d alpha beta K H) (M0 : 0 <= M) (K0 : 0 <= K) (C0 : 0 <= cc).
Variables (c : nat -> vec) (s sigma : R) (v : nat -> R).
Hypotheses (Hd : (1 <= d <= 3)%nat) (Hc : nondegenerate d d c) (Hs : 0 < s) (Hg0 : 0 <= sigma)
  (Hbox : forall i, (i < S d)%nat -> in_box d alpha beta (c i)) (Hsize : forall i j, (i < S d)%nat -> (j < S d)%nat -> within d (c i) (c j) s)
  (Hslope : forall h r, (h < S d)%nat -> (r < d)%nat -> Rabs (slope d c h r) * s <= sigma).
Local Notation g := (slope d c).
Local Notation n := (INR d).
Definition dv (r : nat) : R := rsum (S d) (fun h => v h * g h r).
Definition steep : R := rsum d (fun r => Rabs (dv r)).
Definition trace (x : vec) : R := rsum d (fun r => H x r r).
(* the flux of the gradient of u through the face opposite to vertex h, weighted with v *)
Definition flux (h : nat) : R := - n * (rsum d (fun r => g h r * G (combo d c (face d h)) r) * cmb d (face d h) v).
Lemma n_pos : 1 <= n.
Proof. change 1 with (INR 1). apply le_INR. lia. Qed.
Lemma steep_nonneg : 0 <= steep.
Proof. apply rsum_nonneg. intros; apply Rabs_pos. Qed.
Lemma combo_box w : convex d w -> in_box d alpha beta (combo d c w).
Proof.
  intros Hw r Hr. destruct Hw as [W0 W1]. unfold combo, cmb. split.
  - apply FemApprox.weighted_ge; auto. intros i Hi. now apply Hbox.
  - apply FemApprox.weighted_le; auto. intros i Hi. now apply Hbox.
Qed.
Lemma combo_within w w' : convex d w -> convex d w' -> within d (combo d c w) (combo d c w') s.
Proof. intros Hw Hw' r Hr. unfold combo. apply cmb_within; auto. intros i j Hi Hj. now apply Hsize. Qed.
Lemma vertex_within w i : convex d w -> (i < S d)%nat -> within d (c i) (combo d c w) s.
Proof. intros Hw Hi r Hr. rewrite Rabs_minus_sym. unfold combo. apply cmb_point; auto. intros j Hj. now apply Hsize. Qed.
Lemma value_diff i j : (i < S d)%nat -> (j < S d)%nat -> v i - v j = rsum d (fun r => dv r * (c i r - c j r)).
Proof.
  assert (E : forall i, (i < S d)%nat -> v i - v 0%nat = rsum d (fun r => dv r * (c i r - c 0%nat r))).
  { intros [|k] Hk; [symmetry; rewrite rsum_zero; [ring|intros; ring]|].
    unfold dv. rewrite (rsum_ext d _ (fun r => rsum d (fun l => (v (S l) - v 0%nat) * (cell_invJ d d c l r * (c (S k) r - c 0%nat r))))).
    2:{ intros r Hr. rewrite slope_comb by auto. rewrite <- rsum_scal_r. apply rsum_ext. intros; ring. }
    rewrite rsum_swap. rewrite (rsum_single d _ k ltac:(lia)).
    - rewrite rsum_scal, (left_inv d c Hd Hc k k ltac:(lia) ltac:(lia)), Nat.eqb_refl. ring.
    - intros l Hl Hne. rewrite rsum_scal, (left_inv d c Hd Hc l k ltac:(lia) ltac:(lia)). destruct (Nat.eqb_spec l k); [lia|ring]. }
  intros Hi Hj. replace (v i - v j) with ((v i - v 0%nat) - (v j - v 0%nat)) by ring. rewrite !E by auto. rewrite <- rsum_minus. apply rsum_ext. intros; ring.
Qed.
Lemma value_within i j : (i < S d)%nat -> (j < S d)%nat -> Rabs (v i - v j) <= s * steep.
Proof.
  intros Hi Hj. rewrite value_diff by auto. apply rsum_abs_weight. intros r Hr. rewrite Rabs_mult, Rmult_comm.
  apply Rmult_le_compat_r; [apply Rabs_pos|now apply Hsize].
Qed.
(* the sum of the gradients weighted with the faces *)
Lemma face_sum r : (r < d)%nat -> - n * rsum (S d) (fun h => g h r * cmb d (face d h) v) = dv r.
Proof.
  intros Hr. assert (X := n_pos). rewrite (rsum_ext _ _ (fun h => rsum (S d) v / n * g h r - / n * (v h * g h r))).
  - rewrite rsum_minus, !rsum_scal, (slope_sum d c Hd). fold (dv r). field. lra.
  - intros h Hh. rewrite face_cmb by lia. field. lra.
Qed.
Lemma face_outer r k : (r < d)%nat -> (k < d)%nat -> n * rsum (S d) (fun h => g h r * (combo d c (face d h) k - combo d c (unif d) k)) = - (if Nat.eqb r k then 1 else 0).
Proof.
  intros Hr Hk. assert (X := n_pos). rewrite (rsum_ext _ _ (fun h => combo d c (unif d) k / n * g h r - / n * (c h k * g h r))).
  - rewrite rsum_minus, !rsum_scal, (slope_sum d c Hd).
    assert (E : rsum (S d) (fun h => c h k * g h r) = if Nat.eqb r k then 1 else 0).
    { rewrite Nat.eqb_sym. rewrite slope_comb by auto. rewrite <- (right_inv d c Hd Hc k r Hk Hr). apply rsum_ext. intros; ring. }
    rewrite E. field. lra.
  - intros h Hh. unfold combo at 1 2. rewrite face_diff by lia. unfold combo. field. lra.
Qed.
Lemma slope_bound h r : (h < S d)%nat -> (r < d)%nat -> Rabs (g h r) <= sigma / s.
Proof.
  intros Hh Hr. apply (Rmult_le_reg_r s); [auto|]. unfold Rdiv. rewrite Rmult_assoc, Rinv_l by lra. rewrite Rmult_1_r. now apply Hslope.
Qed.
Lemma rough_pos : 0 <= sigma / s.
Proof. apply Rmult_le_pos; [auto|]. left. now apply Rinv_0_lt_compat. Qed.
Variable (w : nat -> R).
Hypothesis (Hw : convex d w).
Local Notation b := (combo d c (unif d)).
Local Notation x := (combo d c w).
Local Notation mid h := (combo d c (face d h)).
Local Notation vb := (cmb d (unif d) v).
Local Notation fm h := (cmb d (face d h) v).
Local Notation V := (cmb d w v).
Local Notation U := (cmb d w (fun h => u (c h))).
Definition mismatch : R := rsum d (fun r => rsum (S d) (fun h => u (c h) * g h r) * dv r) + (cc * U - f x) * V - rsum (S d) flux.
(* the gradient of the interpolant against the gradient at the centre *)
Lemma interpolant_gradient r : (r < d)%nat -> Rabs (rsum (S d) (fun h => u (c h) * g h r) - G b r) <= INR (S d) * (n * (n * M * s) * s / 2 * (sigma / s)).
Proof.
  intros Hr.
  assert (E : rsum (S d) (fun h => u (c h) * g h r) - G b r = rsum (S d) (fun h => (u (c h) - u b - rsum d (fun k => G b k * (c h k - b k))) * g h r)).
  { rewrite <- (slope_affine d c Hd Hc (u b - rsum d (fun k => G b k * b k)) (G b) r Hr), <- rsum_minus. apply rsum_ext. intros h _.
    rewrite (rsum_ext d (fun k => G b k * (c h k - b k)) (fun k => G b k * c h k - G b k * b k)) by (intros; ring). rewrite rsum_minus. ring. }
  rewrite E. apply rsum_abs_bound. intros h Hh. rewrite Rabs_mult. apply Rmult_le_compat; try apply Rabs_pos; [|now apply slope_bound].
  apply (value_taylor d cc u G H f alpha beta M HP HM M0); try lra.
  - apply combo_box, unif_convex.
  - now apply Hbox.
  - apply vertex_within; [apply unif_convex|auto].
Qed.
Lemma interpolant_value : Rabs (U - u x) <= n * (n * M * s) * s / 2.
Proof.
  rewrite cmb_minus by auto.
  assert (E : cmb d w (fun i => u (c i) - u x) = cmb d w (fun i => u (c i) - u x - rsum d (fun k => G x k * (c i k - x k)))).
  { unfold cmb. symmetry. rewrite (rsum_ext (S d) _ (fun i => w i * (u (c i) - u x) - rsum d (fun k => G x k * (w i * c i k - w i * x k)))).
    2:{ intros i _. rewrite Rmult_minus_distr_l. f_equal. rewrite <- rsum_scal. apply rsum_ext. intros; ring. }
    rewrite rsum_minus, (rsum_swap (S d) d), (rsum_zero d); [ring|]. intros k Hk. rewrite rsum_scal, rsum_minus, rsum_scal_r, (proj2 Hw).
    unfold combo, cmb. ring. }
  rewrite E. apply cmb_bound; [auto|]. intros i Hi. apply (value_taylor d cc u G H f alpha beta M HP HM M0); try lra.
  - now apply combo_box.
  - now apply Hbox.
  - now apply vertex_within.
Qed.
Lemma mid_within h : (h < S d)%nat -> within d (mid h) b (s / n).
Proof.
  intros Hh r Hr. assert (X := n_pos). unfold combo. rewrite face_diff by lia. unfold Rdiv. rewrite Rabs_mult, (Rabs_right (/ n)) by (apply Rle_ge; left; apply Rinv_0_lt_compat; lra).
  apply Rmult_le_compat_r; [left; apply Rinv_0_lt_compat; lra|]. apply cmb_point; [apply unif_convex|]. intros i Hi. now apply Hsize.
Qed.
Lemma fm_within h : (h < S d)%nat -> Rabs (fm h - vb) <= s * steep / n.
Proof.
  intros Hh. assert (X := n_pos). rewrite face_diff by lia. unfold Rdiv. rewrite Rabs_mult, (Rabs_right (/ n)) by (apply Rle_ge; left; apply Rinv_0_lt_compat; lra).
  apply Rmult_le_compat_r; [left; apply Rinv_0_lt_compat; lra|]. apply cmb_point; [apply unif_convex|]. intros i Hi. now apply value_within.
Qed.
Lemma fm_bound h : (h < S d)%nat -> Rabs (fm h) <= Rabs V + s * steep.
Proof.
  intros Hh. assert (X : Rabs (fm h - V) <= s * steep) by (apply cmb_within; [apply face_convex; lia|auto|intros; now apply value_within]).
  replace (cmb d (face d h) v) with (V + (fm h - V)) by ring. eapply Rle_trans; [apply Rabs_triang|]. cbv beta. lra.
Qed.
Lemma vb_within : Rabs (V - vb) <= s * steep.
Proof. apply cmb_within; [auto|apply unif_convex|intros; now apply value_within]. Qed.
Definition rho (h r : nat) : R := G (mid h) r - G b r - rsum d (fun k => H b r k * (mid h k - b k)).
Lemma mismatch_split : mismatch =
  rsum d (fun r => (rsum (S d) (fun h => u (c h) * g h r) - G b r) * dv r)
  + n * rsum d (fun r => rsum (S d) (fun h => g h r * rho h r * fm h))
  + n * rsum d (fun r => rsum (S d) (fun h => g h r * rsum d (fun k => H b r k * (mid h k - b k)) * (fm h - vb)))
  + ((trace x - trace b) * V + trace b * (V - vb) + cc * (U - u x) * V).
Proof.
  unfold mismatch. rewrite <- (rd_equation _ _ _ _ _ _ HP x). fold (trace x).
  assert (E1 : rsum (S d) flux = - n * rsum d (fun r => rsum (S d) (fun h => g h r * G (mid h) r * fm h))).
  { rewrite rsum_swap. rewrite <- rsum_scal. apply rsum_ext. intros h _. unfold flux. f_equal. rewrite <- rsum_scal_r. reflexivity. }
  assert (E2 : rsum d (fun r => G b r * dv r) = - n * rsum d (fun r => rsum (S d) (fun h => g h r * G b r * fm h))).
  { rewrite <- rsum_scal. apply rsum_ext. intros r Hr. rewrite <- face_sum by auto.
    rewrite (rsum_ext (S d) (fun h => g h r * G b r * fm h) (fun h => G b r * (g h r * fm h))) by (intros; ring). rewrite rsum_scal. ring. }
  assert (E3 : n * rsum d (fun r => rsum (S d) (fun h => g h r * rsum d (fun k => H b r k * (mid h k - b k)) * vb)) = - trace b * vb).
  { unfold trace. rewrite <- rsum_opp, <- rsum_scal_r, <- rsum_scal. apply rsum_ext. intros r Hr.
    transitivity (rsum d (fun k => H b r k * vb * (n * rsum (S d) (fun h => g h r * (mid h k - b k))))).
    - rewrite <- rsum_scal. rewrite (rsum_ext (S d) _ (fun h => rsum d (fun k => H b r k * vb * n * (g h r * (mid h k - b k))))).
      + rewrite rsum_swap. apply rsum_ext. intros k _. rewrite rsum_scal. ring.
      + intros h _. rewrite <- rsum_scal, <- rsum_scal_r, <- rsum_scal. apply rsum_ext. intros; ring.
    - rewrite (rsum_single d _ r Hr).
      + rewrite face_outer, Nat.eqb_refl by auto. ring.
      + intros k Hk Hne. rewrite face_outer by auto. destruct (Nat.eqb_spec r k); [congruence|ring]. }
  assert (E4 : n * rsum d (fun r => rsum (S d) (fun h => g h r * rho h r * fm h))
    + n * rsum d (fun r => rsum (S d) (fun h => g h r * rsum d (fun k => H b r k * (mid h k - b k)) * (fm h - vb)))
    = n * rsum d (fun r => rsum (S d) (fun h => g h r * G (mid h) r * fm h)) - n * rsum d (fun r => rsum (S d) (fun h => g h r * G b r * fm h))
      - n * rsum d (fun r => rsum (S d) (fun h => g h r * rsum d (fun k => H b r k * (mid h k - b k)) * vb))).
  { rewrite <- !Rmult_minus_distr_l, <- Rmult_plus_distr_l. f_equal. rewrite <- !rsum_minus, <- rsum_plus. apply rsum_ext. intros r _.
    rewrite <- !rsum_minus, <- rsum_plus. apply rsum_ext. intros h _. unfold rho. ring. }
  rewrite (rsum_ext d (fun r => (rsum (S d) (fun h => u (c h) * g h r) - G b r) * dv r) (fun r => rsum (S d) (fun h => u (c h) * g h r) * dv r - G b r * dv r)) by (intros; ring).
  rewrite rsum_minus. 
  match type of E4 with ?l = _ => match goal with |- _ = ?a + ?p + ?q + ?z => replace (a + p + q + z) with (a + l + z) by ring end end.
  rewrite E4, E3, E2, E1. ring.
Qed.
Lemma trace_bound y : in_box d alpha beta y -> Rabs (trace y) <= n * M.
Proof. intros Hy. apply rsum_abs_bound. intros r Hr. now apply HM. Qed.
Lemma trace_within y z : in_box d alpha beta y -> in_box d alpha beta z -> within d y z s -> Rabs (trace y - trace z) <= n * (K * s).
Proof. intros Hy Hz Hyz. unfold trace. rewrite <- rsum_minus. apply rsum_abs_bound. intros r Hr. now apply HK. Qed.
Lemma mismatch_bound : Rabs mismatch <= s * (slope_rate d M K sigma s * steep + value_rate d cc M K sigma s * Rabs V).
Proof.
  rewrite mismatch_split. assert (N1 := n_pos). assert (R0 := rough_pos). assert (S0 := steep_nonneg).
  assert (T3 : Rabs (rsum d (fun r => (rsum (S d) (fun h => u (c h) * g h r) - G b r) * dv r)) <= INR (S d) * (n * (n * M * s) * s / 2 * (sigma / s)) * steep).
  { apply rsum_abs_weight. intros r Hr. rewrite Rabs_mult. apply Rmult_le_compat_r; [apply Rabs_pos|]. now apply interpolant_gradient. }
  assert (T2 : Rabs (n * rsum d (fun r => rsum (S d) (fun h => g h r * rho h r * fm h))) <= n * (n * (INR (S d) * (sigma / s * (n * (K * (s / n)) * (s / n) / 2) * (Rabs V + s * steep))))).
  { rewrite Rabs_mult, (Rabs_right n) by lra. apply Rmult_le_compat_l; [lra|]. apply rsum_abs_bound. intros r Hr. apply rsum_abs_bound. intros h Hh.
    rewrite !Rabs_mult. apply Rmult_le_compat; [apply Rmult_le_pos; apply Rabs_pos|apply Rabs_pos| |now apply fm_bound].
    apply Rmult_le_compat; [apply Rabs_pos|apply Rabs_pos|now apply slope_bound|].
    apply (gradient_taylor d cc u G H f alpha beta K HP HK K0); auto.
    - apply combo_box, unif_convex.
    - apply combo_box, face_convex; lia.
    - now apply mid_within.
    - apply Rmult_le_pos; [lra|]. left. apply Rinv_0_lt_compat. lra. }
  assert (T1 : Rabs (n * rsum d (fun r => rsum (S d) (fun h => g h r * rsum d (fun k => H b r k * (mid h k - b k)) * (fm h - vb)))) <= n * (n * (INR (S d) * (sigma / s * (n * (M * (s / n))) * (s * steep / n))))).
  { rewrite Rabs_mult, (Rabs_right n) by lra. apply Rmult_le_compat_l; [lra|]. apply rsum_abs_bound. intros r Hr. apply rsum_abs_bound. intros h Hh.
    rewrite !Rabs_mult. apply Rmult_le_compat; [apply Rmult_le_pos; apply Rabs_pos|apply Rabs_pos| |now apply fm_within].
    apply Rmult_le_compat; [apply Rabs_pos|apply Rabs_pos|now apply slope_bound|].
    apply rsum_abs_bound. intros k Hk. rewrite Rabs_mult. apply Rmult_le_compat; [apply Rabs_pos|apply Rabs_pos| |now apply mid_within].
    apply HM; auto. apply combo_box, unif_convex. }
  assert (Q1 : Rabs ((trace x - trace b) * V) <= n * (K * s) * Rabs V).
  { rewrite Rabs_mult. apply Rmult_le_compat_r; [apply Rabs_pos|]. apply trace_within; [now apply combo_box|apply combo_box, unif_convex|apply combo_within; [auto|apply unif_convex]]. }
  assert (Q2 : Rabs (trace b * (V - vb)) <= n * M * (s * steep)).
  { rewrite Rabs_mult. apply Rmult_le_compat; [apply Rabs_pos|apply Rabs_pos|apply trace_bound, combo_box, unif_convex|exact vb_within]. }
  assert (Q3 : Rabs (cc * (U - u x) * V) <= cc * (n * (n * M * s) * s / 2) * Rabs V).
  { rewrite !Rabs_mult, (Rabs_right cc) by lra. apply Rmult_le_compat_r; [apply Rabs_pos|]. apply Rmult_le_compat_l; [auto|exact interpolant_value]. }
  eapply Rle_trans; [exact (six_abs _ _ _ _ _ _ _ _ _ _ _ _ T3 T2 T1 Q1 Q2 Q3)|].
  right. rewrite S_INR. unfold slope_rate, value_rate. field. lra.
Qed.
End CellError.

(* ------------------------------------------------------------------ the mesh *)
(* the load vector paired with the coefficients of a function *)
Lemma load_pairing P F v : dofs_ok P -> rsum (n_dofs P) (fun a => v a * load_vector P F a) = mesh_quadrature P (fun e q => fvalue P F e q * fe_at P v e (node P q)).
Proof.
  intros Hd. unfold load_vector, mesh_quadrature.
  rewrite (rsum_ext (n_dofs P) _ (fun a => rsum (n_cells P) (fun e => rsum (n_basis P) (fun i => load P F e i * (v a * hit (dof P e i) a))))).
  2:{ intros a _. rewrite <- rsum_scal. apply rsum_ext. intros e _. rewrite <- rsum_scal. apply rsum_ext. intros; ring. }
  rewrite rsum_swap. apply rsum_ext. intros e He. rewrite rsum_swap.
  rewrite (rsum_ext (n_basis P) _ (fun i => load P F e i * v (dof P e i))).
  - unfold load, fe_at. rewrite (rsum_ext (n_basis P) _ (fun i => measure P e * rsum (n_nodes P) (fun q => fvalue P F e q * ref_psi P i (node P q) * weight P q * v (dof P e i)))).
    + rewrite rsum_scal, rsum_swap. f_equal. apply rsum_ext. intros q _. rewrite <- rsum_scal, <- rsum_scal. apply rsum_ext. intros; ring.
    + intros i _. rewrite rsum_scal_r. ring.
  - intros i Hi. rewrite rsum_scal. f_equal. rewrite (rsum_single (n_dofs P) _ (dof P e i)).
    + unfold hit. destruct (Nat.eq_dec (dof P e i) (dof P e i)); [ring|congruence].
    + now apply (Hd e i).
    + intros a _ Hne. unfold hit. destruct (Nat.eq_dec (dof P e i) a); [congruence|ring].
Qed.
Section Rate.
Variables (d : nat) (nodes : list vec) (cells : list (list nat)) (pt : list (list nat)) (slv : (nat -> R) -> nat -> R) (rule : QuadModel.rule).
Hypotheses (HG : good_mesh d d nodes cells) (HR : reference d 1 pt slv rule) (HC : TriSpec.conforming cells).
Local Notation P := (problem1 d d nodes cells pt slv rule).
Local Notation N := (length cells).
Local Notation vtx := (vertex nodes cells).
Local Notation id := (id cells).
Local Notation cell := (cell cells).
Local Notation rel := (rel d nodes cells).
Let Hd := dim_range d nodes cells HG.
(* sums over a face agree on its two sides *)
Lemma face_list e h (F : nat -> R) : (e < N)%nat -> (h <= d)%nat ->
  rsum (S d) (fun i => F (id e i)) - F (id e h) = lsum (map F (filter (fun v => negb (v =? id e h)%nat) (cell e))).
Proof.
  intros He Hh. destruct (cell_facts d nodes cells HG e He) as (_ & L & ND).
  assert (E : rsum (S d) (fun i => F (id e i)) = lsum (map F (cell e))).
  { rewrite rsum_lsum. f_equal. rewrite <- L. unfold FemPatch.id. generalize (cell e). intros l. clear. 
    rewrite <- (map_map (fun i => nth i l 0%nat) F). f_equal. induction l as [|a l IH]; [reflexivity|]. cbn [length seq map nth]. f_equal.
    rewrite <- seq_shift, map_map. cbn [nth]. exact IH. }
  rewrite E. assert (Q : Permutation (cell e) (id e h :: filter (fun v => negb (v =? id e h)%nat) (cell e))).
  { apply NoDup_Permutation; [auto|constructor; [rewrite filter_In, negb_true_iff, Nat.eqb_neq; tauto|now apply NoDup_filter]|].
    intros v. cbn [In]. rewrite filter_In, negb_true_iff, Nat.eqb_neq. split.
    - intros Hv. destruct (Nat.eq_dec (id e h) v); auto.
    - intros [<-|[Hv _]]; [now apply (id_in d nodes cells HG)|auto]. }
  rewrite (FspaiValues.lsum_perm _ _ (Permutation_map F Q)). cbn [map lsum]. ring.
Qed.
Lemma face_same p q (F : nat -> R) : rel p q ->
  rsum (S d) (fun i => F (id (fst p) i)) - F (id (fst p) (snd p)) = rsum (S d) (fun i => F (id (fst q) i)) - F (id (fst q) (snd q)).
Proof.
  intros (A & B & C & D & X & _). rewrite !face_list by auto. apply FspaiValues.lsum_perm, Permutation_map.
  destruct (cell_facts d nodes cells HG _ A) as (_ & _ & ND). destruct (cell_facts d nodes cells HG _ C) as (_ & _ & ND').
  apply NoDup_Permutation; try now apply NoDup_filter. intros v. rewrite !filter_In, !negb_true_iff, !Nat.eqb_neq. exact (X v).
Qed.
Variables (G : vec -> vec) (bdy : nat -> bool).
Hypothesis (HF : faces_matched d nodes cells bdy).
Definition through (v : nat -> R) (p : nat * nat) : R := cell_measure d d (vtx (fst p)) * flux d G (vtx (fst p)) (fun i => v (id (fst p) i)) (snd p).
Lemma through_term v p : through v p = - INR d * (rsum d (fun r => term d nodes cells r p * G (combo d (vtx (fst p)) (face d (snd p))) r) * cmb d (face d (snd p)) (fun i => v (id (fst p) i))).
Proof.
  unfold through, flux, term. rewrite (rsum_ext d (fun r => cell_measure d d (vtx (fst p)) * _ * _) (fun r => cell_measure d d (vtx (fst p)) * (slope d (vtx (fst p)) (snd p) r * G (combo d (vtx (fst p)) (face d (snd p))) r))) by (intros; ring).
  rewrite rsum_scal. ring.
Qed.
Lemma through_opposite v p q : rel p q -> through v q = - through v p.
Proof.
  intros X. assert (X' := X). destruct X' as (A & B & C & D & _). rewrite !through_term.
  assert (E1 : cmb d (face d (snd q)) (fun i => v (id (fst q) i)) = cmb d (face d (snd p)) (fun i => v (id (fst p) i))).
  { rewrite !face_cmb by lia. f_equal. symmetry. exact (face_same p q v X). }
  assert (E2 : combo d (vtx (fst q)) (face d (snd q)) = combo d (vtx (fst p)) (face d (snd p))).
  { apply functional_extensionality. intros r. unfold combo. rewrite !face_cmb by lia. f_equal. symmetry. exact (face_same p q (fun a => place nodes a r) X). }
  rewrite E1, E2. rewrite (rsum_ext d (fun r => term d nodes cells r q * _) (fun r => - (term d nodes cells r p * G (combo d (vtx (fst p)) (face d (snd p))) r))).
  - rewrite rsum_opp. ring.
  - intros r Hr. rewrite (rel_term d nodes cells HG p q X r Hr). ring.
Qed.
(* the fluxes cancel *)
Lemma conservation v : (forall a, (a < length nodes)%nat -> bdy a = true -> v a = 0) ->
  rsum N (fun e => cell_measure d d (vtx e) * rsum (S d) (flux d G (vtx e) (fun i => v (id e i)))) = 0.
Proof.
  intros Hv. set (sel := fun p => existsb (fun i => negb (Nat.eqb i (snd p)) && negb (bdy (id (fst p) i)))%bool (seq 0 (S d))).
  assert (Sel : forall e h, sel (e, h) = true <-> exists i, (i <= d)%nat /\ i <> h /\ bdy (id e i) = false).
  { intros e h. unfold sel. rewrite existsb_exists. cbn [fst snd]. split.
    - intros (i & Hi & E). apply in_seq in Hi. apply andb_true_iff in E as [E1 E2]. apply negb_true_iff, Nat.eqb_neq in E1. apply negb_true_iff in E2. exists i. repeat split; auto; lia.
    - intros (i & Hi & Hne & E). exists i. split; [apply in_seq; lia|]. apply Nat.eqb_neq in Hne. now rewrite Hne, E. }
  rewrite (rsum_ext N _ (fun e => rsum (S d) (fun h => if sel (e, h) then through v (e, h) else 0))).
  2:{ intros e He. rewrite <- rsum_scal. apply rsum_ext. intros h Hh. destruct (sel (e, h)) eqn:E; [reflexivity|].
      unfold flux. rewrite face_cmb by lia. rewrite <- (rsum_but (S d) (fun i => v (id e i)) h Hh). rewrite (rsum_zero (S d)); [unfold Rdiv; ring|].
      intros i Hi. destruct (Nat.eqb_spec i h) as [|Hne]; [auto|]. apply Hv.
      - apply (gm_range _ _ _ _ HG (cell e)); [now apply (cell_facts d nodes cells HG)|]. apply (id_in d nodes cells HG); auto; lia.
      - destruct (bdy (id e i)) eqn:Eb; [auto|]. assert (X : sel (e, h) = true) by (apply Sel; exists i; repeat split; auto; lia). congruence. }
  rewrite rsum_lsum.
  rewrite (map_ext (fun e => rsum (S d) (fun h => if sel (e, h) then through v (e, h) else 0)) (fun e => lsum (map (fun h => if sel (e, h) then through v (e, h) else 0) (seq 0 (S d))))) by (intros; apply rsum_lsum).
  rewrite lsum_pairs. set (l := filter _ _).
  assert (Il : forall e h, In (e, h) l <-> (e < N)%nat /\ (h <= d)%nat /\ sel (e, h) = true).
  { intros e h. unfold l. rewrite filter_In, in_prod_iff, !in_seq. split; intros; repeat split; try tauto; lia. }
  apply (pair_cancel (through v) rel (rel_sym d nodes cells) (rel_fun d nodes cells HG HC)) with (n := length l).
  - intros p q X. split; [|now apply through_opposite]. intros ->. now apply (rel_cells d nodes cells HG q q X).
  - auto.
  - unfold l. apply NoDup_filter. generalize (seq_NoDup (S d) 0) (seq_NoDup N 0). generalize (seq 0 (S d)) (seq 0 N). intros l2 l1 H2 H1.
    induction H1 as [|x l1 Hx H1 IH]; [constructor|]. cbn [list_prod]. apply NoDup_app_intro; auto.
    + apply FinFun.Injective_map_NoDup; [intros x1 x2 Ex; congruence|auto].
    + intros [y z] Hu Hz. apply in_map_iff in Hu as (t & Et & _). injection Et as <- <-. apply in_prod_iff in Hz as [Hz _]. contradiction.
  - intros [e h] Hp. apply Il in Hp as (He & Hh & Hsel). apply Sel in Hsel as (i & Hi & Hne & Hb). destruct (cell_facts d nodes cells HG e He) as (Hin & _).
    assert (Fi : on_face (cell e) (id e h) (id e i)) by (split; [now apply (id_in d nodes cells HG)|intros E; apply Hne; now apply (id_inj d nodes cells HG e)]).
    destruct (HF _ _ Hin (id_in d nodes cells HG e h He Hh)) as [(c' & b' & Hc' & Hb' & X)|X]; [|rewrite (X _ Fi) in Hb; discriminate].
    destruct (In_nth _ _ [] Hc') as (e' & He' & Ec'). change (cell e' = c') in Ec'. subst c'. destruct (in_id d nodes cells HG e' b' He' Hb') as (h' & Hh' & <-).
    exists (e', h'). split; [|exact (conj He (conj Hh (conj He' (conj Hh' X))))]. apply Il. split; [auto|]. split; [auto|]. apply Sel.
    assert (Kf := proj1 (proj1 X (id e i)) Fi). destruct Kf as [K1 K2]. destruct (in_id d nodes cells HG e' _ He' K1) as (i' & Hi' & Ei').
    exists i'. split; [auto|]. split; [intros ->; congruence|]. now rewrite Ei'.
Qed.
End Rate.

Definition reaction (c : R) : dop := DBin OAdd (DNeg Lap) (Reac (SConst c)).
Section Solve.
Variables (d : nat) (nodes : list vec) (cells : list (list nat)) (pt : list (list nat)) (slv : (nat -> R) -> nat -> R) (rule : QuadModel.rule).
Hypotheses (HG : good_mesh d d nodes cells) (HR : reference d 1 pt slv rule) (HC : TriSpec.conforming cells).
Variables (cc : R) (u : vec -> R) (G : vec -> vec) (H : vec -> mat) (f : vec -> R) (alpha beta M K h sigma : R).
Hypotheses (HP : reaction_diffusion d cc u G H f) (HM : second_bounded d alpha beta M H) (HK : second_lipschitz d alpha beta K H)
  (M0 : 0 <= M) (K0 : 0 <= K) (C0 : 0 <= cc)
  (HB : forall a, (a < length nodes)%nat -> in_box d alpha beta (place nodes a)) (HS : shape_regular d nodes cells h sigma).
Local Notation P := (problem1 d d nodes cells pt slv rule).
Local Notation N := (length cells).
Local Notation vtx := (vertex nodes cells).
Local Notation id := (id cells).
Local Notation cell := (cell cells).
Definition lam (q i : nat) : R := ref_psi P i (node P q).
Lemma id_lt e i : (e < N)%nat -> (i < S d)%nat -> (id e i < length nodes)%nat.
Proof.
  intros He Hi. apply (gm_range _ _ _ _ HG (cell e)); [now apply (cell_facts d nodes cells HG)|]. apply (id_in d nodes cells HG); auto; lia.
Qed.
Lemma lam_convex q : (q < n_nodes P)%nat -> convex d (lam q).
Proof.
  intros Hq. assert (Hd := dim_range d nodes cells HG). split.
  - intros i Hi. unfold lam. rewrite (FemApprox.values_of_basis d d nodes cells pt slv rule HG HR) by lia. destruct HR as (_ & _ & C).
    destruct (FemMax.rule_inside_ok d rule q (FemMax.standard_inside d rule Hd C) Hq) as [A B]. cbn [problem1 fem_problem node].
    destruct i as [|i]; [lra|]. apply A. lia.
  - rewrite (rsum_ext (S d) _ (fun i => match i with O => 1 - rsum d (node P q) | S k => node P q k end)).
    + rewrite rsum_head. change (rsum d (fun i => node P q i)) with (rsum d (node P q)). ring.
    + intros i Hi. unfold lam. now rewrite (FemApprox.values_of_basis d d nodes cells pt slv rule HG HR) by lia.
Qed.
Lemma value_cmb v e q : fe_at P v e (node P q) = cmb d (lam q) (fun i => v (id e i)).
Proof.
  unfold fe_at, cmb. rewrite (first_basis d d nodes cells pt slv rule HG HR). apply rsum_ext. intros i _. unfold lam. change (dof P e i) with (id e i). ring.
Qed.
Lemma point_combo e q : affine P e (node P q) = combo d (vtx e) (lam q).
Proof.
  apply functional_extensionality. intros r. unfold combo, cmb, lam. generalize (node P q). intros y.
  change (affine P e y r) with (vtx e 0%nat r + rsum d (fun k => jac (vtx e) r k * y k)).
  rewrite (rsum_ext (S d) _ (fun i => match i with O => 1 - rsum d y | S k => y k end * vtx e i r)).
  - rewrite rsum_head. rewrite (rsum_ext d (fun k => jac (vtx e) r k * y k) (fun k => y k * vtx e (S k) r - y k * vtx e 0%nat r)) by (intros; unfold jac; ring).
    rewrite rsum_minus, rsum_scal_r. ring.
  - intros i Hi. now rewrite (FemApprox.values_of_basis d d nodes cells pt slv rule HG HR) by lia.
Qed.
Lemma slope_vertex e k i : (e < N)%nat -> (k < S d)%nat -> (i < S d)%nat ->
  rsum d (fun r => slope d (vtx e) k r * vtx e i r) = rsum d (fun r => slope d (vtx e) k r * vtx e 0%nat r) - (if Nat.eqb k 0 then 1 else 0) + (if Nat.eqb i k then 1 else 0).
Proof.
  intros He Hk Hi. assert (Hd := dim_range d nodes cells HG). assert (Hc := regular d nodes cells HG e He).
  destruct i as [|l]; [rewrite (Nat.eqb_sym 0 k); ring|].
  assert (E : rsum d (fun r => slope d (vtx e) k r * vtx e (S l) r) - rsum d (fun r => slope d (vtx e) k r * vtx e 0%nat r) = ref_slope k l).
  { rewrite <- rsum_minus. unfold slope. rewrite (rsum_ext d _ (fun r => rsum d (fun j => ref_slope k j * (cell_invJ d d (vtx e) j r * (vtx e (S l) r - vtx e 0%nat r))))).
    - rewrite rsum_swap, (rsum_single d _ l ltac:(lia)).
      + rewrite rsum_scal, (left_inv d (vtx e) Hd Hc l l ltac:(lia) ltac:(lia)), Nat.eqb_refl. ring.
      + intros j Hj Hne. rewrite rsum_scal, (left_inv d (vtx e) Hd Hc j l Hj ltac:(lia)). destruct (Nat.eqb_spec j l); [contradiction|ring].
    - intros r _. rewrite <- Rmult_minus_distr_l, <- rsum_scal_r. apply rsum_ext. intros; ring. }
  unfold ref_slope in E. destruct k as [|k]; cbn [Nat.eqb] in *; [lra|]. rewrite (Nat.eqb_sym l k). lra.
Qed.
Lemma cell_shape e : (e < N)%nat -> exists s, 0 < s /\ s <= h /\ 0 <= sigma /\ (forall i j, (i < S d)%nat -> (j < S d)%nat -> within d (vtx e i) (vtx e j) s) /\
  forall k r, (k < S d)%nat -> (r < d)%nat -> Rabs (slope d (vtx e) k r) * s <= sigma.
Proof.
  intros He. assert (Hd := dim_range d nodes cells HG).
  destruct (cell_facts d nodes cells HG e He) as (Hin & _). destruct (HS (cell e) Hin) as (s & [S0 S1] & S2 & S3).
  assert (Sl : forall k r, (k < S d)%nat -> (r < d)%nat -> Rabs (slope d (vtx e) k r) * s <= sigma).
  { intros k r Hk Hr. apply (S3 (id e k) (slope d (vtx e) k) (rsum d (fun r => slope d (vtx e) k r * vtx e 0%nat r) - (if Nat.eqb k 0 then 1 else 0))); [apply (id_in d nodes cells HG); auto; lia| | |auto].
    - intros a [Ha Hne]. destruct (in_id d nodes cells HG e a He Ha) as (i & Hi & <-).
      change (place nodes (id e i)) with (vtx e i). rewrite slope_vertex by (auto; lia). destruct (Nat.eqb_spec i k); [congruence|ring].
    - change (place nodes (id e k)) with (vtx e k). rewrite slope_vertex by (auto; lia). rewrite Nat.eqb_refl. ring. }
  assert (Sg : 0 <= sigma) by (eapply Rle_trans; [|apply (Sl 0%nat 0%nat); lia]; apply Rmult_le_pos; [apply Rabs_pos|lra]).
  exists s. split; [auto|]. split; [auto|]. split; [auto|]. split; [|auto].
  intros i j Hi Hj. apply (S2 (id e i) (id e j)); apply (id_in d nodes cells HG); auto; lia.
Qed.
(* the estimate on a cell, at a quadrature node *)
Lemma cell_estimate v e q : (e < N)%nat -> (q < n_nodes P)%nat ->
  Rabs (mismatch d cc u G f (vtx e) (fun i => v (id e i)) (lam q)) <=
    h * (slope_rate d M K sigma h * steep d (vtx e) (fun i => v (id e i)) + value_rate d cc M K sigma h * Rabs (cmb d (lam q) (fun i => v (id e i)))).
Proof.
  intros He Hq. assert (Hd := dim_range d nodes cells HG). assert (Hc := regular d nodes cells HG e He).
  destruct (cell_shape e He) as (s & S0 & S1 & Sg & S2 & Sl).
  eapply Rle_trans; [apply (mismatch_bound d cc u G H f alpha beta M K HP HM HK M0 K0 C0 (vtx e) s sigma (fun i => v (id e i)) Hd Hc S0 Sg)|].
  - intros i Hi. apply (HB (id e i)). now apply id_lt.
  - exact S2.
  - exact Sl.
  - now apply lam_convex.
  - assert (St := steep_nonneg d (vtx e) (fun i => v (id e i))). assert (Va := Rabs_pos (cmb d (lam q) (fun i => v (id e i)))).
    assert (N0 := pos_INR d).
    assert (A0 : 0 <= INR d * (INR d + 1) * sigma) by (apply Rmult_le_pos; [apply Rmult_le_pos; lra|auto]).
    assert (A1 : 0 <= INR d * (INR d + 1) * sigma * K) by (apply Rmult_le_pos; auto).
    assert (A2 : 0 <= INR d * (INR d + 1) * sigma * M * (INR d / 2 + 1)) by (apply Rmult_le_pos; [apply Rmult_le_pos; auto|lra]).
    assert (A3 : 0 <= INR d * M) by (apply Rmult_le_pos; auto). assert (A4 : 0 <= INR d * K) by (apply Rmult_le_pos; auto).
    assert (A5 : 0 <= cc * (INR d * INR d) * M) by (apply Rmult_le_pos; [apply Rmult_le_pos; [auto|apply Rmult_le_pos; auto]|auto]).
    assert (B1 : 0 <= slope_rate d M K sigma s <= slope_rate d M K sigma h).
    { unfold slope_rate. assert (X1 := Rmult_le_compat_l _ _ _ A1 S1). assert (X2 := Rmult_le_pos _ _ A1 (Rlt_le _ _ S0)). lra. }
    assert (B2 : 0 <= value_rate d cc M K sigma s <= value_rate d cc M K sigma h).
    { unfold value_rate. assert (X1 := Rmult_le_compat_l _ _ _ A5 S1). assert (X2 := Rmult_le_pos _ _ A5 (Rlt_le _ _ S0)). lra. }
    apply Rmult_le_compat; [lra| |auto|].
    + apply Rplus_le_le_0_compat; apply Rmult_le_pos; lra.
    + apply Rplus_le_compat; apply Rmult_le_compat_r; lra.
Qed.
Lemma young_half a y : a * y <= (a * a + y * y) / 2.
Proof. assert (X := Rle_0_sqr (a - y)). unfold Rsqr in X. lra. Qed.
Lemma steep_young A c v : A * steep d c v <= (INR d * (A * A) + rsum d (fun r => dv d c v r * dv d c v r)) / 2.
Proof.
  unfold steep. rewrite <- rsum_scal. rewrite <- rsum_const, <- rsum_plus. unfold Rdiv. rewrite <- rsum_scal_r. apply rsum_le. intros r _.
  eapply Rle_trans; [apply young_half|]. rewrite <- (Rabs_mult (dv d c v r)), (Rabs_right (dv d c v r * _)) by (apply Rle_ge, Rle_0_sqr). unfold Rdiv. right; ring.
Qed.
Lemma reaction_form e q v w : bform P (reaction cc) e q v w = rsum d (fun r => fe_grad P v e q r * fe_grad P w e q r) + cc * (fe_at P v e (node P q) * fe_at P w e (node P q)).
Proof. cbn [bform reaction arith sat sval]. rewrite Ropp_involutive. change (edim P) with d. ring. Qed.
Lemma total_weight : rsum (n_nodes P) (weight P) <= 1 + QuadProps.eps.
Proof.
  destruct HR as (_ & _ & C). destruct (QuadProps.C69_weights d _ rule C) as (L1 & L2 & _ & B).
  assert (E : rsum (n_nodes P) (weight P) = lsum (map Q2R (QuadModel.q_weights rule))).
  { cbn [problem1 fem_problem n_nodes weight]. rewrite L1, <- L2. generalize (QuadModel.q_weights rule). intros l. clear. rewrite rsum_lsum. f_equal.
    induction l as [|a l IH]; [reflexivity|]. cbn [length seq map nth]. f_equal. rewrite <- seq_shift, map_map. cbn [nth]. exact IH. }
  rewrite E. unfold Rabs in B. destruct (Rcase_abs _) in B; lra.
Qed.
(* the equation tested with a function which vanishes on the boundary: the interpolant satisfies it up to the mismatch on the cells *)
Lemma consistency bdy (x : nat -> R) : faces_matched d nodes cells bdy -> (forall a, (a < length nodes)%nat -> bdy a = true -> x a = 0) ->
  mesh_quadrature P (fun e q => f (affine P e (node P q)) * fe_at P x e (node P q)) - mesh_quadrature P (fun e q => bform P (reaction cc) e q x (fun a => u (place nodes a))) =
    - mesh_quadrature P (fun e q => mismatch d cc u G f (vtx e) (fun i => x (id e i)) (lam q)).
Proof.
  intros HF X0. set (U := fun a => u (place nodes a)).
  assert (E3 := conservation d nodes cells HG HC G bdy HF x X0).
  apply (Rplus_eq_reg_r (mesh_quadrature P (fun e q => mismatch d cc u G f (vtx e) (fun i => x (id e i)) (lam q)))).
  rewrite Rplus_opp_l. rewrite <- (Rmult_0_r (- rsum (n_nodes P) (weight P))), <- E3. rewrite <- rsum_scal.
  unfold mesh_quadrature. rewrite <- rsum_minus, <- rsum_plus. change (n_cells P) with N. apply rsum_ext. intros e He.
  change (measure P e) with (cell_measure d d (vtx e)). set (m := cell_measure d d (vtx e)). set (F := rsum (S d) _).
  rewrite <- Rmult_minus_distr_l, <- Rmult_plus_distr_l. replace (- rsum (n_nodes P) (weight P) * (m * F)) with (m * rsum (n_nodes P) (fun q => weight P q * - F)) by (rewrite rsum_scal_r; ring).
  f_equal. rewrite <- rsum_minus, <- rsum_plus. apply rsum_ext. intros q Hq. rewrite <- Rmult_minus_distr_l, <- Rmult_plus_distr_l. f_equal.
  rewrite reaction_form. unfold mismatch. fold F. rewrite point_combo, !value_cmb.
  rewrite (rsum_ext d (fun r => fe_grad P x e q r * fe_grad P U e q r) (fun r => rsum (S d) (fun k => u (vtx e k) * slope d (vtx e) k r) * dv d (vtx e) (fun i => x (id e i)) r)).
  - change (fun i => U (id e i)) with (fun k => u (vtx e k)). ring.
  - intros r Hr. rewrite !(patch_grad d nodes cells pt slv rule HG HR) by auto. change (rsum (S d) (fun k => U (id e k) * slope d (vtx e) k r)) with (rsum (S d) (fun k => u (vtx e k) * slope d (vtx e) k r)). unfold dv. ring.
Qed.
(* the error is orthogonal up to the consistency error of the interpolant *)
Lemma error_equation bdy gd w : faces_matched d nodes cells bdy ->
  discrete_solution P (fun a => bdy a = true) (reaction cc) (Callable f) gd w ->
  (forall a, (a < length nodes)%nat -> bdy a = true -> dval gd a 0%nat = u (place nodes a)) ->
  let x := fun a => w a - u (place nodes a) in
  energy_norm2 P cc x = - mesh_quadrature P (fun e q => mismatch d cc u G f (vtx e) (fun i => x (id e i)) (lam q)).
Proof.
  intros HF Hw Hgd x. set (U := fun a => u (place nodes a)).
  destruct (C146_first_order d d nodes cells pt slv rule HG HR) as (A1 & _).
  assert (X0 : forall a, (a < length nodes)%nat -> bdy a = true -> x a = 0).
  { intros a Ha Hb. unfold x. rewrite (proj1 (Hw a Ha) Hb), Hgd by auto. ring. }
  assert (Form := assembled_form P (reaction cc) ltac:(cbn; auto) A1 ltac:(cbn; auto) ltac:(intros; cbn; auto)).
  assert (E1 : energy_norm2 P cc x = pairing P (assembled P (reaction cc)) x w - pairing P (assembled P (reaction cc)) x U).
  { rewrite <- pairing_minus_r. change (fun a => w a - U a) with x. rewrite Form. unfold energy_norm2, mesh_quadrature. apply rsum_ext. intros e _. f_equal.
    apply rsum_ext. intros q _. f_equal. symmetry. apply reaction_form. }
  assert (E2 : pairing P (assembled P (reaction cc)) x w = rsum (n_dofs P) (fun a => x a * load_vector P (at_time (Callable f) 0) a)).
  { rewrite pairing_row. apply rsum_ext. intros a Ha. change (n_dofs P) with (length nodes) in *. destruct (bdy a) eqn:Eb.
    - rewrite (X0 a Ha Eb). ring.
    - f_equal. apply (Hw a Ha). congruence. }
  rewrite E1, E2, load_pairing, Form by auto. exact (consistency bdy x HF X0).
Qed.
Hypothesis (C1 : 0 < cc).
Definition rate : R := INR d * (slope_rate d M K sigma h * slope_rate d M K sigma h) + value_rate d cc M K sigma h * value_rate d cc M K sigma h / cc.
Lemma value_young B y : B * Rabs y <= (B * B / cc + cc * (y * y)) / 2.
Proof.
  assert (X := Rle_0_sqr (B - cc * Rabs y)). unfold Rsqr in X.
  assert (Y : Rabs y * Rabs y = y * y) by (rewrite <- Rabs_mult; apply Rabs_right, Rle_ge, Rle_0_sqr).
  assert (Z : 0 <= / cc * ((B - cc * Rabs y) * (B - cc * Rabs y))) by (apply Rmult_le_pos; [left; now apply Rinv_0_lt_compat|auto]).
  replace (/ cc * ((B - cc * Rabs y) * (B - cc * Rabs y))) with (B * B / cc + cc * (Rabs y * Rabs y) - 2 * (B * Rabs y)) in Z by (field; lra). rewrite Y in Z. lra.
Qed.
Lemma error_bound bdy gd w : faces_matched d nodes cells bdy ->
  discrete_solution P (fun a => bdy a = true) (reaction cc) (Callable f) gd w ->
  (forall a, (a < length nodes)%nat -> bdy a = true -> dval gd a 0%nat = u (place nodes a)) ->
  energy_norm2 P cc (fun a => w a - u (place nodes a)) <= (1 + QuadProps.eps) * mesh_measure d nodes cells * (h * h * rate).
Proof.
  intros HF Hw Hgd. set (x := fun a => w a - u (place nodes a)). assert (E := error_equation bdy gd w HF Hw Hgd). cbv zeta in E. fold x in E.
  destruct (C146_first_order d d nodes cells pt slv rule HG HR) as (_ & _ & _ & _ & _ & [Hm Hq] & _).
  assert (B : - mesh_quadrature P (fun e q => mismatch d cc u G f (vtx e) (fun i => x (id e i)) (lam q)) <= / 2 * (rsum (n_nodes P) (weight P) * mesh_measure d nodes cells * (h * h * rate)) + / 2 * energy_norm2 P cc x).
  { unfold energy_norm2, mesh_quadrature, mesh_measure. change (n_cells P) with N. rewrite <- rsum_opp, <- rsum_scal, <- rsum_scal_r, <- rsum_scal, <- rsum_scal, <- rsum_plus. apply rsum_le. intros e He.
    specialize (Hm e He). change (measure P e) with (cell_measure d d (vtx e)) in *. set (m := cell_measure d d (vtx e)) in *.
    match goal with |- - (m * ?s1) <= / 2 * (?W * m * ?z) + / 2 * (m * ?s2) => assert (Y : - s1 <= / 2 * (W * z) + / 2 * s2) end.
    2:{ assert (X := Rmult_le_compat_l _ _ _ (Rlt_le _ _ Hm) Y). lra. }
    rewrite <- rsum_opp, <- rsum_scal_r, <- !rsum_scal, <- rsum_plus. apply rsum_le. intros q Hq1. specialize (Hq q Hq1).
    match goal with |- - (?a * ?b) <= / 2 * (?a * ?z) + / 2 * (?a * ?y) => assert (Y : - b <= / 2 * z + / 2 * y) end.
    2:{ match goal with Y : - ?b <= / 2 * ?z + / 2 * ?y |- _ => assert (X := Rmult_le_compat_l _ _ _ (Rlt_le _ _ Hq) Y) end. lra. }
    assert (Z := cell_estimate x e q He Hq1). set (mm := mismatch _ _ _ _ _ _ _ _) in *.
    assert (Z1 : - mm <= Rabs mm) by (unfold Rabs; destruct (Rcase_abs mm); lra).
    eapply Rle_trans; [exact Z1|]. eapply Rle_trans; [exact Z|].
    assert (Y1 := steep_young (h * slope_rate d M K sigma h) (vtx e) (fun i => x (id e i))).
    assert (Y2 := value_young (h * value_rate d cc M K sigma h) (cmb d (lam q) (fun i => x (id e i)))).
    rewrite value_cmb. change (edim P) with d.
    rewrite (rsum_ext d (fun r => fe_grad P x e q r * fe_grad P x e q r) (fun r => dv d (vtx e) (fun i => x (id e i)) r * dv d (vtx e) (fun i => x (id e i)) r)) by (intros r Hr; now rewrite (patch_grad d nodes cells pt slv rule HG HR)).
    unfold rate. eapply Rle_trans; [|eapply Rle_trans; [apply (Rplus_le_compat _ _ _ _ Y1 Y2)|]].
    - right. ring.
    - right. field. lra. }
  assert (T := total_weight). assert (MM : 0 <= mesh_measure d nodes cells) by (apply rsum_nonneg; intros e He; left; now apply (Hm e)).
  assert (R0 : 0 <= h * h * rate).
  { apply Rmult_le_pos; [apply Rle_0_sqr|]. apply Rplus_le_le_0_compat; [apply Rmult_le_pos; [apply pos_INR|apply Rle_0_sqr]|].
    apply Rmult_le_pos; [apply Rle_0_sqr|left; now apply Rinv_0_lt_compat]. }
  assert (T1 : rsum (n_nodes P) (weight P) * mesh_measure d nodes cells * (h * h * rate) <= (1 + QuadProps.eps) * mesh_measure d nodes cells * (h * h * rate)).
  { apply Rmult_le_compat_r; [auto|]. now apply Rmult_le_compat_r. }
  lra.
Qed.
(* C213: the system is solved, and the error at the nodes, as a finite element function, is of first order in the energy
   norm, with explicit constants; so is its L2 norm. *)
Theorem C213_energy bdy lu gd t : exact lu -> complete lu -> has_datum P gd -> bdy 0%nat = true -> nodes <> [] ->
  faces_matched d nodes cells bdy ->
  (forall a, (a < length nodes)%nat -> bdy a = true -> dval gd a 0%nat = u (place nodes a)) ->
  (forall a, (a < length nodes)%nat -> exists b, (b < length nodes)%nat /\ bdy b = true /\ chain cells a b) ->
  exists s1 s2 s3 w, apply P bdy false lu (make_pde (reaction cc) (Callable f) t) (SetBoundary gd) = Ok s1 /\
    init P false s1 = Ok s2 /\ solve P bdy false lu s2 = Ok s3 /\ success s3 = true /\ solution s3 = [w] /\
    let x := fun a => w a - u (place nodes a) in
    energy_norm2 P cc x <= (1 + QuadProps.eps) * mesh_measure d nodes cells * (h * h * rate) /\ cc * l2 P x <= energy_norm2 P cc x.
Proof.
  intros Hlu Hco Hg Hb Hne HF Hgd Hch.
  destruct (C147_dirichlet d d nodes cells pt slv rule HG HR bdy lu (reaction cc) (Callable f) gd t Hlu Hco) as (s1 & s2 & s3 & w & E1 & E2 & E3 & E4 & E5 & Hu & _); auto.
  - cbn. auto.
  - cbn. auto.
  - apply co_left; [constructor|]. constructor. intros e q _ _. cbn. lra.
  - split; cbn; auto.
  - exists s1, s2, s3, w. repeat (split; [assumption|]). intros x. split.
    + now apply (error_bound bdy gd w).
    + destruct (C146_first_order d d nodes cells pt slv rule HG HR) as (_ & _ & _ & _ & _ & [Hm Hq] & _).
      unfold l2, energy_norm2, mesh_quadrature. rewrite <- rsum_scal. apply rsum_le. intros e He. rewrite Rmult_comm, Rmult_assoc. apply Rmult_le_compat_l; [left; now apply Hm|].
      rewrite <- rsum_scal_r. apply rsum_le. intros q Hq1. rewrite Rmult_assoc. apply Rmult_le_compat_l; [left; now apply Hq|].
      assert (X : 0 <= rsum (edim P) (fun r => fe_grad P x e q r * fe_grad P x e q r)) by (apply rsum_nonneg; intros; apply Rle_0_sqr). lra.
Qed.
End Solve.
