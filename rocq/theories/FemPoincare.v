(* C214: a discrete Poincare inequality, and with it the convergence in the energy norm for the Poisson problem. *)
From Coq Require Import QArith Qreals Permutation FunctionalExtensionality.
From Verif Require Import Base RSum SimplexModel SimplexProps LinAlg FieldModel FieldProps MeasureModel MeasureProps FemModel FemProps EvalModel EvalProps
  SolverModel SolverProps FemEnergy FemKernel FemMesh FemPatch FemTime FemConv FemRate FemGrid.
From Verif Require PolyModel PolyProps LagrangeProps QuadModel QuadProps TriSpec TriProofs TriProps.
Local Open Scope R_scope.

(* ------------------------------------------------------------------ specification *)
(* the constant: d the dimension, sigma the shape constant of the mesh, side that of a cube which contains the domain *)
Definition poincare (d : nat) (sigma side : R) : R := 4 * INR d * ((INR d + 1) * (INR d + 1) * (INR d + 1)) * (sigma * sigma) * (side * side).

(* ------------------------------------------------------------------ proofs *)
Lemma rsum_abs_le k (f : nat -> R) : Rabs (rsum k f) <= rsum k (fun i => Rabs (f i)).
Proof. rewrite <- (Rmult_1_l (rsum k (fun i => Rabs (f i)))). apply rsum_abs_weight. intros; lra. Qed.
Section Poincare.
Variables (d : nat) (nodes : list vec) (cells : list (list nat)) (pt : list (list nat)) (slv : (nat -> R) -> nat -> R) (rule : QuadModel.rule).
Hypotheses (HG : good_mesh d d nodes cells) (HR : reference d 1 pt slv rule) (HC : TriSpec.conforming cells).
Variables (alpha beta h sigma : R) (bdy : nat -> bool).
Hypotheses (HB : forall a, (a < length nodes)%nat -> in_box d alpha beta (place nodes a)) (HS : shape_regular d nodes cells h sigma) (HF : faces_matched d nodes cells bdy)
  (AB : alpha <= beta).
Local Notation P := (problem1 d d nodes cells pt slv rule).
Local Notation N := (length cells).
Local Notation vtx := (vertex nodes cells).
Local Notation id := (id cells).
Local Notation n := (INR d).
(* the flux of v^2 times the position *)
Lemma position_flux e (v : nat -> R) : (e < N)%nat ->
  rsum (S d) (flux d (fun x r => x r - alpha) (vtx e) v) =
    n * cmb d (unif d) v + rsum (S d) (fun i => v i * rsum d (fun r => slope d (vtx e) i r * (combo d (vtx e) (unif d) r - alpha))).
Proof.
  intros He. assert (Hd := dim_range d nodes cells HG). assert (Hc := regular d nodes cells HG e He).
  destruct (cell_shape d nodes cells HG alpha beta h sigma HB HS e He) as (s & S0 & S1 & Sg & S2 & Sl).
  assert (Hbox : forall i, (i < S d)%nat -> in_box d alpha beta (vtx e i)) by (intros i Hi; apply (HB (id e i)); now apply (id_lt d nodes cells HG alpha beta HB)).
  assert (N1 : 1 <= n) by (change 1 with (INR 1); apply le_INR; lia).
  set (g := slope d (vtx e)). set (b := combo d (vtx e) (unif d)).
  assert (C : forall i, (i < S d)%nat -> rsum d (fun r => g i r * (combo d (vtx e) (face d i) r - b r)) = - / (n + 1)).
  { intros i Hi. rewrite (rsum_ext d _ (fun r => / n * (g i r * b r - g i r * vtx e i r))).
    2:{ intros r _. unfold b, combo at 1. rewrite <- (Rplus_0_r (cmb d (face d i) _)). unfold combo.
        replace (cmb d (face d i) (fun k => vtx e k r) + 0 - cmb d (unif d) (fun k => vtx e k r)) with (cmb d (face d i) (fun k => vtx e k r) - cmb d (unif d) (fun k => vtx e k r)) by ring.
        rewrite face_diff by lia. field. lra. }
    rewrite rsum_scal, rsum_minus.
    assert (E : rsum d (fun r => g i r * b r) = cmb d (unif d) (fun k => rsum d (fun r => g i r * vtx e k r))).
    { unfold b, combo, cmb. rewrite (rsum_ext d _ (fun r => rsum (S d) (fun k => unif d k * (g i r * vtx e k r)))) by (intros; rewrite <- rsum_scal; apply rsum_ext; intros; ring).
      rewrite rsum_swap. apply rsum_ext. intros k _. now rewrite rsum_scal. }
    rewrite E, unif_cmb. unfold g. rewrite (rsum_ext (S d) _ (fun k => (rsum d (fun r => slope d (vtx e) i r * vtx e 0%nat r) - (if Nat.eqb i 0 then 1 else 0)) + (if Nat.eqb k i then 1 else 0))) by (intros k Hk; now apply (slope_vertex d nodes cells HG alpha beta HB)).
    rewrite (slope_vertex d nodes cells HG alpha beta HB e i i He Hi Hi), Nat.eqb_refl. set (kk := rsum d (fun r => slope d (vtx e) i r * vtx e 0%nat r) - _).
    rewrite rsum_plus, rsum_const, (rsum_single (S d) (fun k => if Nat.eqb k i then 1 else 0) i Hi), Nat.eqb_refl, S_INR by (intros k _ Hne; apply Nat.eqb_neq in Hne; now rewrite Hne).
    field. lra. }
  assert (E1 : forall i, (i < S d)%nat -> flux d (fun x r => x r - alpha) (vtx e) v i = - n * (rsum d (fun r => g i r * (b r - alpha)) * cmb d (face d i) v) + n / (n + 1) * cmb d (face d i) v).
  { intros i Hi. unfold flux. fold g. rewrite (rsum_ext d (fun r => g i r * (combo d (vtx e) (face d i) r - alpha)) (fun r => g i r * (b r - alpha) + g i r * (combo d (vtx e) (face d i) r - b r))) by (intros; ring).
    rewrite rsum_plus, C by auto. field. lra. }
  rewrite (rsum_ext (S d) _ _ E1), rsum_plus, !rsum_scal.
  assert (E2 : - n * rsum (S d) (fun i => rsum d (fun r => g i r * (b r - alpha)) * cmb d (face d i) v) = rsum (S d) (fun i => v i * rsum d (fun r => g i r * (b r - alpha)))).
  { transitivity (rsum d (fun r => (b r - alpha) * dv d (vtx e) v r)).
    - rewrite (rsum_ext d _ (fun r => - n * rsum (S d) (fun i => (b r - alpha) * (g i r * cmb d (face d i) v)))).
      + rewrite rsum_scal. f_equal. rewrite rsum_swap. apply rsum_ext. intros i _. rewrite <- rsum_scal_r. apply rsum_ext. intros; ring.
      + intros r Hr. rewrite <- (face_sum d alpha beta (vtx e) s sigma v Hd Hbox S2 Sl r Hr). rewrite rsum_scal. fold g. ring.
    - unfold dv. fold g. rewrite (rsum_ext d _ (fun r => rsum (S d) (fun i => v i * (g i r * (b r - alpha))))) by (intros; rewrite <- rsum_scal; apply rsum_ext; intros; ring).
      rewrite rsum_swap. apply rsum_ext. intros i _. now rewrite rsum_scal. }
  rewrite E2. rewrite Rplus_comm. f_equal.
  rewrite (rsum_ext (S d) (fun i => cmb d (face d i) v) (fun i => rsum (S d) v / n - / n * v i)) by (intros i Hi; rewrite face_cmb by lia; field; lra).
  rewrite rsum_minus, rsum_const, rsum_scal, unif_cmb, S_INR. field. lra.
Qed.

(* the second term of the flux is bounded by the gradient and the values *)
Lemma position_bound e (w : nat -> R) : (e < N)%nat ->
  Rabs (rsum (S d) (fun i => w i * w i * rsum d (fun r => slope d (vtx e) i r * (combo d (vtx e) (unif d) r - alpha)))) <=
    2 * n * (sigma * (beta - alpha) * steep d (vtx e) w) * rsum (S d) (fun i => Rabs (w i)).
Proof.
  intros He. assert (Hd := dim_range d nodes cells HG). assert (Hc := regular d nodes cells HG e He).
  destruct (cell_shape d nodes cells HG alpha beta h sigma HB HS e He) as (s & S0 & S1 & Sg & S2 & Sl).
  assert (Hbox : forall i, (i < S d)%nat -> in_box d alpha beta (vtx e i)) by (intros i Hi; apply (HB (id e i)); now apply (id_lt d nodes cells HG alpha beta HB)).
  assert (N1 : 1 <= n) by (change 1 with (INR 1); apply le_INR; lia).
  set (y := fun i => rsum d (fun r => slope d (vtx e) i r * (combo d (vtx e) (unif d) r - alpha))). set (m := cmb d (unif d) w).
  assert (U := unif_convex d).
  assert (Y0 : rsum (S d) y = 0).
  { unfold y. rewrite rsum_swap. apply rsum_zero. intros r Hr. rewrite rsum_scal_r, (slope_sum d (vtx e) Hd). ring. }
  assert (Yb : forall i, (i < S d)%nat -> Rabs (y i) <= n * (sigma / s * (beta - alpha))).
  { intros i Hi. unfold y. apply rsum_abs_bound. intros r Hr. rewrite Rabs_mult. apply Rmult_le_compat; try apply Rabs_pos.
    - now apply (slope_bound d (vtx e) s sigma S0 Sl).
    - unfold combo. apply cmb_point; [auto|]. intros k Hk. destruct (Hbox k Hk r Hr). rewrite Rabs_right; lra. }
  rewrite (rsum_ext (S d) _ (fun i => (w i - m) * (w i + m) * y i + m * m * y i)) by (intros; unfold y; ring).
  rewrite rsum_plus, rsum_scal, Y0, Rmult_0_r, Rplus_0_r.
  assert (St := steep_nonneg d (vtx e) w).
  assert (D : forall i, (i < S d)%nat -> Rabs (w i - m) <= s * steep d (vtx e) w).
  { intros i Hi. rewrite Rabs_minus_sym. apply cmb_point; [auto|].
    intros a Ha. now apply (value_within d alpha beta (vtx e) s sigma w Hd Hc Hbox S2 Sl). }
  assert (Mb : INR (S d) * Rabs m <= rsum (S d) (fun i => Rabs (w i))).
  { unfold m. rewrite unif_cmb. unfold Rdiv. rewrite Rabs_mult, (Rabs_right (/ _)) by (apply Rle_ge; left; apply Rinv_0_lt_compat, lt_0_INR; lia).
    assert (X : 0 < INR (S d)) by (apply lt_0_INR; lia). apply Rle_trans with (Rabs (rsum (S d) w)); [right; field; lra|]. apply rsum_abs_le. }
  apply Rle_trans with (rsum (S d) (fun i => (Rabs (w i) + Rabs m) * (s * steep d (vtx e) w * (n * (sigma / s * (beta - alpha)))))).
  - eapply Rle_trans; [apply rsum_abs_le|]. apply rsum_le. intros i Hi. rewrite !Rabs_mult, Rmult_assoc, (Rmult_comm (Rabs (w i - m))), Rmult_assoc.
    apply Rmult_le_compat; try apply Rabs_pos; [apply Rmult_le_pos; apply Rabs_pos|apply Rabs_triang|]. rewrite (Rmult_comm (Rabs (y i))).
    apply Rmult_le_compat; try apply Rabs_pos; auto.
  - rewrite rsum_scal_r, rsum_plus, rsum_const.
    replace (s * steep d (vtx e) w * (n * (sigma / s * (beta - alpha)))) with (n * (sigma * (beta - alpha) * steep d (vtx e) w)) by (field; lra).
    assert (X : 0 <= n * (sigma * (beta - alpha) * steep d (vtx e) w)) by (apply Rmult_le_pos; [lra|]; apply Rmult_le_pos; [|auto]; apply Rmult_le_pos; lra).
    eapply Rle_trans; [apply Rmult_le_compat_r; [exact X|]; apply Rplus_le_compat_l; exact Mb|]. right. ring.
Qed.
Lemma steep_square c w : steep d c w * steep d c w <= n * rsum d (fun r => dv d c w r * dv d c w r).
Proof.
  assert (Hd := dim_range d nodes cells HG). assert (N1 : 1 <= n) by (change 1 with (INR 1); apply le_INR; lia).
  assert (X := steep_young d (steep d c w / n) c w). set (S := steep d c w) in *. set (Q := rsum _ _) in *.
  apply (Rmult_le_compat_l n) in X; [|lra].
  replace (n * (S / n * S)) with (S * S) in X by (field; lra). replace (n * ((n * (S / n * (S / n)) + Q) / 2)) with ((S * S + n * Q) / 2) in X by (field; lra). lra.
Qed.
Local Notation q_ e w := (cmb d (unif d) (fun i => w (id e i) * w (id e i))).
Lemma cell_young e (w : nat -> R) : (e < N)%nat ->
  Rabs (rsum (S d) (fun i => w i * w i * rsum d (fun r => slope d (vtx e) i r * (combo d (vtx e) (unif d) r - alpha)))) <=
    n / 2 * cmb d (unif d) (fun i => w i * w i) + 2 * n * ((n + 1) * (n + 1)) * (sigma * sigma) * ((beta - alpha) * (beta - alpha)) * (n * rsum d (fun r => dv d (vtx e) w r * dv d (vtx e) w r)).
Proof.
  intros He. eapply Rle_trans; [now apply position_bound|]. assert (Hd := dim_range d nodes cells HG). assert (N1 : 1 <= n) by (change 1 with (INR 1); apply le_INR; lia).
  set (A := sigma * (beta - alpha) * steep d (vtx e) w).
  apply Rle_trans with (n / 2 * cmb d (unif d) (fun i => w i * w i) + 2 * n * ((n + 1) * (n + 1)) * (A * A)).
  - rewrite unif_cmb, S_INR. rewrite <- rsum_scal.
    replace (n / 2 * (rsum (S d) (fun i => w i * w i) / (n + 1)) + 2 * n * ((n + 1) * (n + 1)) * (A * A)) with (rsum (S d) (fun i => n / (2 * (n + 1)) * (w i * w i)) + INR (S d) * (2 * n * (n + 1) * (A * A))).
    2:{ rewrite rsum_scal, S_INR. field. lra. }
    rewrite <- rsum_const, <- rsum_plus. apply rsum_le. intros i _.
    assert (Y : w i * w i = Rabs (w i) * Rabs (w i)) by (rewrite <- Rabs_mult; symmetry; apply Rabs_right, Rle_ge, Rle_0_sqr). rewrite Y. set (z := Rabs (w i)).
    assert (X : 0 <= n / (2 * (n + 1)) * ((z - 2 * (n + 1) * A) * (z - 2 * (n + 1) * A))).
    { apply Rmult_le_pos; [|apply Rle_0_sqr]. apply Rmult_le_pos; [lra|]. left. apply Rinv_0_lt_compat. lra. }
    replace (n / (2 * (n + 1)) * ((z - 2 * (n + 1) * A) * (z - 2 * (n + 1) * A))) with (n / (2 * (n + 1)) * (z * z) + 2 * n * (n + 1) * (A * A) - 2 * n * A * z) in X by (field; lra). lra.
  - apply Rplus_le_compat_l. replace (2 * n * ((n + 1) * (n + 1)) * (A * A)) with (2 * n * ((n + 1) * (n + 1)) * (sigma * sigma) * ((beta - alpha) * (beta - alpha)) * (steep d (vtx e) w * steep d (vtx e) w)) by (unfold A; ring).
    apply Rmult_le_compat_l; [|apply steep_square].
    apply Rmult_le_pos; [|apply Rle_0_sqr]. apply Rmult_le_pos; [|apply Rle_0_sqr]. apply Rmult_le_pos; [lra|apply Rle_0_sqr].
Qed.
Lemma vertex_poincare w : (forall a, (a < length nodes)%nat -> bdy a = true -> w a = 0) ->
  (n + 1) * rsum N (fun e => cell_measure d d (vtx e) * q_ e w) <=
    poincare d sigma (beta - alpha) * rsum N (fun e => cell_measure d d (vtx e) * rsum d (fun r => dv d (vtx e) (fun i => w (id e i)) r * dv d (vtx e) (fun i => w (id e i)) r)).
Proof.
  intros Hw. assert (Hd := dim_range d nodes cells HG). assert (N1 : 1 <= n) by (change 1 with (INR 1); apply le_INR; lia).
  destruct (C146_first_order d d nodes cells pt slv rule HG HR) as (_ & _ & _ & _ & _ & [Hm _] & _).
  assert (E := conservation d nodes cells HG HC (fun x r => x r - alpha) bdy HF (fun a => w a * w a) ltac:(intros a Ha Hb; cbv beta; rewrite (Hw a Ha Hb); ring)).
  set (Q := rsum N (fun e => cell_measure d d (vtx e) * q_ e w)). set (D := rsum N _).
  assert (X : n / 2 * Q - 2 * n * ((n + 1) * (n + 1)) * (sigma * sigma) * ((beta - alpha) * (beta - alpha)) * n * D <= 0).
  { rewrite <- E. unfold Q, D. rewrite <- !rsum_scal, <- rsum_minus. apply rsum_le. intros e He. specialize (Hm e He). change (measure P e) with (cell_measure d d (vtx e)) in Hm. set (m := cell_measure d d (vtx e)) in *.
    rewrite (position_flux e (fun i => w (id e i) * w (id e i)) He). assert (Y := cell_young e (fun i => w (id e i)) He). cbv beta in Y.
    set (T := rsum (S d) _) in *. assert (Y1 : - T <= Rabs T) by (unfold Rabs; destruct (Rcase_abs T); lra).
    assert (Y2 := Rle_trans _ _ _ Y1 Y). apply (Rmult_le_compat_l m) in Y2; [|lra]. lra. }
  replace (poincare d sigma (beta - alpha) * D) with (2 * (n + 1) / n * (2 * n * ((n + 1) * (n + 1)) * (sigma * sigma) * ((beta - alpha) * (beta - alpha)) * n * D)) by (unfold poincare; field; lra).
  apply Rle_trans with (2 * (n + 1) / n * (n / 2 * Q)); [right; field; lra|]. apply Rmult_le_compat_l; [|lra]. apply Rmult_le_pos; [lra|]. left. apply Rinv_0_lt_compat. lra.
Qed.

Lemma poincare_nonneg : 0 <= poincare d sigma (beta - alpha).
Proof.
  assert (N0 := pos_INR d). unfold poincare. apply Rmult_le_pos; [|apply Rle_0_sqr]. apply Rmult_le_pos; [|apply Rle_0_sqr].
  apply Rmult_le_pos; [lra|]. apply Rmult_le_pos; [apply Rmult_le_pos; lra|lra].
Qed.
(* C214 (first part): a finite element function which vanishes at the boundary nodes is bounded, in the L2 norm, by its
   gradient; the constant depends on the shape of the cells, not on their size or number *)
Theorem C214_poincare v : (forall a, (a < length nodes)%nat -> bdy a = true -> v a = 0) ->
  l2 P v <= poincare d sigma (beta - alpha) * energy_norm2 P 0 v.
Proof.
  intros Hv. assert (Hd := dim_range d nodes cells HG). assert (N0 := pos_INR d).
  destruct (C146_first_order d d nodes cells pt slv rule HG HR) as (_ & _ & _ & _ & _ & [Hm Hq] & _).
  set (W := rsum (n_nodes P) (weight P)). assert (W0 : 0 <= W) by (apply rsum_nonneg; intros; left; now apply Hq).
  assert (E : energy_norm2 P 0 v = W * rsum N (fun e => cell_measure d d (vtx e) * rsum d (fun r => dv d (vtx e) (fun i => v (id e i)) r * dv d (vtx e) (fun i => v (id e i)) r))).
  { unfold energy_norm2, mesh_quadrature. change (n_cells P) with N. rewrite <- rsum_scal. apply rsum_ext. intros e He. change (measure P e) with (cell_measure d d (vtx e)).
    rewrite <- Rmult_assoc, (Rmult_comm W), Rmult_assoc. f_equal. unfold W. rewrite <- rsum_scal_r. apply rsum_ext. intros q _. f_equal. change (edim P) with d. rewrite Rmult_0_l, Rplus_0_r.
    apply rsum_ext. intros r Hr. now rewrite (patch_grad d nodes cells pt slv rule HG HR). }
  assert (L : l2 P v <= W * ((n + 1) * rsum N (fun e => cell_measure d d (vtx e) * q_ e v))).
  { unfold l2, mesh_quadrature. change (n_cells P) with N. rewrite <- !rsum_scal. apply rsum_le. intros e He. specialize (Hm e He). change (measure P e) with (cell_measure d d (vtx e)) in *. set (m := cell_measure d d (vtx e)) in *.
    replace (W * ((n + 1) * (m * q_ e v))) with (m * (W * ((n + 1) * q_ e v))) by ring. apply Rmult_le_compat_l; [lra|].
    unfold W. rewrite <- rsum_scal_r. apply rsum_le. intros q Hq1. apply Rmult_le_compat_l; [left; now apply Hq|].
    rewrite (value_cmb d nodes cells pt slv rule HG HR). set (l := lam d nodes cells pt slv rule q). set (w := fun i => v (id e i)).
    assert (Cl : convex d l) by (apply (lam_convex d nodes cells pt slv rule HG HR alpha beta HB); auto).
    set (z := cmb d l w).
    assert (X : 0 <= cmb d l (fun i => (w i - z) * (w i - z))) by (apply rsum_nonneg; intros i Hi; apply Rmult_le_pos; [now apply Cl|apply Rle_0_sqr]).
    assert (X1 : cmb d l (fun i => (w i - z) * (w i - z)) = cmb d l (fun i => w i * w i) - z * z).
    { unfold cmb at 1. rewrite (rsum_ext (S d) _ (fun i => l i * (w i * w i) - 2 * z * (l i * w i) + z * z * l i)) by (intros; ring).
      rewrite rsum_plus, rsum_minus, !rsum_scal. destruct Cl as [_ Cl]. change (rsum (S d) (fun i => l i)) with (rsum (S d) l). rewrite Cl. fold (cmb d l w). fold z. fold (cmb d l (fun i => w i * w i)). ring. }
    apply Rle_trans with (cmb d l (fun i => w i * w i)); [lra|]. change (q_ e v) with (cmb d (unif d) (fun i => w i * w i)). rewrite unif_cmb, S_INR.
    replace ((n + 1) * (rsum (S d) (fun i => w i * w i) / (n + 1))) with (rsum (S d) (fun i => w i * w i)) by (field; lra).
    apply rsum_le. intros i Hi. rewrite <- (Rmult_1_l (w i * w i)) at 2. apply Rmult_le_compat_r; [apply Rle_0_sqr|].
    destruct Cl as [C1 C2]. rewrite <- C2.
    assert (Y := rsum_but (S d) l i Hi). assert (Y1 : 0 <= rsum (S d) (fun k => if Nat.eqb k i then 0 else l k)) by (apply rsum_nonneg; intros k Hk; destruct (Nat.eqb k i); [lra|now apply C1]). lra. }
  assert (V := vertex_poincare v Hv). apply (Rmult_le_compat_l W) in V; [|auto]. rewrite E.
  eapply Rle_trans; [exact L|]. eapply Rle_trans; [exact V|]. right. ring.
Qed.
End Poincare.

(* ------------------------------------------------------------------ the Poisson problem *)
Section Poisson.
Variables (d : nat) (nodes : list vec) (cells : list (list nat)) (pt : list (list nat)) (slv : (nat -> R) -> nat -> R) (rule : QuadModel.rule).
Hypotheses (HG : good_mesh d d nodes cells) (HR : reference d 1 pt slv rule) (HC : TriSpec.conforming cells).
Variables (alpha beta h sigma : R) (bdy : nat -> bool).
Hypotheses (HB : forall a, (a < length nodes)%nat -> in_box d alpha beta (place nodes a)) (HS : shape_regular d nodes cells h sigma) (HF : faces_matched d nodes cells bdy)
  (AB : alpha < beta) (SG : 0 < sigma).
Local Notation P := (problem1 d d nodes cells pt slv rule).
Local Notation N := (length cells).
Local Notation vtx := (vertex nodes cells).
Local Notation id := (id cells).
Local Notation theta := (poincare d sigma (beta - alpha)).
Lemma poincare_pos : 0 < theta.
Proof.
  assert (Hd := dim_range d nodes cells HG). assert (N1 : 1 <= INR d) by (change 1 with (INR 1); apply le_INR; lia). unfold poincare.
  repeat apply Rmult_lt_0_compat; lra.
Qed.
Lemma pure_diffusion f gd w : discrete_solution P (fun a => bdy a = true) (DNeg Lap) (Callable f) gd w ->
  discrete_solution P (fun a => bdy a = true) (reaction 0) (Callable f) gd w.
Proof.
  intros Hw a Ha. destruct (Hw a Ha) as [A B]. split; [exact A|]. intros Hn. rewrite <- (B Hn). apply rsum_ext. intros b _. f_equal. unfold assembled.
  apply rsum_ext. intros e _. apply rsum_ext. intros i _. apply rsum_ext. intros j _. f_equal. unfold quad. f_equal. apply rsum_ext. intros q _. f_equal.
  cbn [wf reaction arith sat sval]. ring.
Qed.
Lemma value_young_ z B y : 0 < z -> B * Rabs y <= z * (B * B) + y * y / (4 * z).
Proof.
  intros Hz. assert (X := Rle_0_sqr (2 * z * B - Rabs y)). unfold Rsqr in X.
  assert (Y : Rabs y * Rabs y = y * y) by (rewrite <- Rabs_mult; apply Rabs_right, Rle_ge, Rle_0_sqr).
  assert (Z : 0 <= / (4 * z) * ((2 * z * B - Rabs y) * (2 * z * B - Rabs y))) by (apply Rmult_le_pos; [left; apply Rinv_0_lt_compat; lra|auto]).
  replace (/ (4 * z) * ((2 * z * B - Rabs y) * (2 * z * B - Rabs y))) with (z * (B * B) + Rabs y * Rabs y / (4 * z) - B * Rabs y) in Z by (field; lra). rewrite Y in Z. lra.
Qed.
Lemma energy_split v : energy_norm2 P 0 v = mesh_quadrature P (fun e q => rsum d (fun r => dv d (vtx e) (fun i => v (id e i)) r * dv d (vtx e) (fun i => v (id e i)) r)).
Proof.
  unfold energy_norm2, mesh_quadrature. apply rsum_ext. intros e He. f_equal. apply rsum_ext. intros q _. f_equal. change (edim P) with d. rewrite Rmult_0_l, Rplus_0_r.
  apply rsum_ext. intros r Hr. now rewrite (patch_grad d nodes cells pt slv rule HG HR).
Qed.
(* mesh_quadrature is a positive linear functional *)
Lemma quadrature_le F F' : (forall e q, (e < N)%nat -> (q < n_nodes P)%nat -> F e q <= F' e q) -> mesh_quadrature P F <= mesh_quadrature P F'.
Proof.
  intros L. destruct (C146_first_order d d nodes cells pt slv rule HG HR) as (_ & _ & _ & _ & _ & [Hm Hq] & _). unfold mesh_quadrature.
  apply rsum_le. intros e He. apply Rmult_le_compat_l; [left; now apply Hm|]. apply rsum_le. intros q Hq1. apply Rmult_le_compat_l; [left; now apply Hq|]. now apply L.
Qed.
Lemma quadrature_plus F F' : mesh_quadrature P (fun e q => F e q + F' e q) = mesh_quadrature P F + mesh_quadrature P F'.
Proof.
  unfold mesh_quadrature. rewrite <- rsum_plus. apply rsum_ext. intros e _. rewrite <- Rmult_plus_distr_l. f_equal. rewrite <- rsum_plus. apply rsum_ext. intros; ring.
Qed.
Lemma quadrature_scal c F : mesh_quadrature P (fun e q => c * F e q) = c * mesh_quadrature P F.
Proof.
  unfold mesh_quadrature. rewrite <- rsum_scal. apply rsum_ext. intros e _. rewrite <- Rmult_assoc, (Rmult_comm c), Rmult_assoc. f_equal. rewrite <- rsum_scal. apply rsum_ext. intros; ring.
Qed.
Lemma quadrature_const c : 0 <= c -> mesh_quadrature P (fun _ _ => c) <= (1 + QuadProps.eps) * mesh_measure d nodes cells * c.
Proof.
  intros C0. destruct (C146_first_order d d nodes cells pt slv rule HG HR) as (_ & _ & _ & _ & _ & [Hm Hq] & _). assert (T := total_weight d nodes cells pt slv rule HR).
  unfold mesh_quadrature, mesh_measure. change (n_cells P) with N. rewrite <- rsum_scal, <- rsum_scal_r. apply rsum_le. intros e He. rewrite rsum_scal_r. change (measure P e) with (cell_measure d d (vtx e)).
  specialize (Hm e He). change (measure P e) with (cell_measure d d (vtx e)) in Hm. rewrite <- Rmult_assoc, (Rmult_comm (cell_measure _ _ _)). apply Rmult_le_compat_r; [auto|]. apply Rmult_le_compat_r; [lra|auto].
Qed.
(* stability: the energy and the L2 norm of the discrete solution with zero boundary datum are bounded by the forcing *)
Lemma stable f gd w : discrete_solution P (fun a => bdy a = true) (DNeg Lap) (Callable f) gd w -> (forall a, (a < length nodes)%nat -> bdy a = true -> dval gd a 0%nat = 0) ->
  energy_norm2 P 0 w <= theta * mesh_quadrature P (fun e q => f (affine P e (node P q)) * f (affine P e (node P q))).
Proof.
  intros Hw Hz. assert (T := poincare_pos). set (F := mesh_quadrature P _).
  destruct (C146_first_order d d nodes cells pt slv rule HG HR) as (A1 & _).
  assert (W0 : forall a, (a < length nodes)%nat -> bdy a = true -> w a = 0) by (intros a Ha Hb; rewrite (proj1 (Hw a Ha) Hb); auto).
  assert (Form := assembled_form P (DNeg Lap) ltac:(cbn; auto) A1 ltac:(cbn; auto) ltac:(intros; cbn; auto)).
  assert (E1 : energy_norm2 P 0 w = mesh_quadrature P (fun e q => f (affine P e (node P q)) * fe_at P w e (node P q))).
  { transitivity (pairing P (assembled P (DNeg Lap)) w w).
    - rewrite Form. unfold energy_norm2, mesh_quadrature. apply rsum_ext. intros e _. f_equal. apply rsum_ext. intros q _. f_equal. cbn [bform]. ring.
    - rewrite pairing_row. transitivity (rsum (n_dofs P) (fun a => w a * load_vector P (at_time (Callable f) 0) a)); [|rewrite load_pairing by auto; reflexivity].
      apply rsum_ext. intros a Ha. change (n_dofs P) with (length nodes) in *. destruct (bdy a) eqn:Eb; [rewrite (W0 a Ha Eb); ring|]. f_equal. apply (Hw a Ha). congruence. }
  assert (L := C214_poincare d nodes cells pt slv rule HG HR HC alpha beta h sigma bdy HB HS HF ltac:(lra) w W0).
  assert (Y : energy_norm2 P 0 w <= theta / 2 * F + / (2 * theta) * l2 P w).
  { rewrite E1. unfold F, l2. rewrite <- !quadrature_scal, <- quadrature_plus. apply quadrature_le. intros e q _ _.
    set (a := f _). set (y := fe_at _ _ _ _). assert (X : 0 <= / (2 * theta) * ((theta * a - y) * (theta * a - y))) by (apply Rmult_le_pos; [left; apply Rinv_0_lt_compat; lra|apply Rle_0_sqr]).
    replace (/ (2 * theta) * ((theta * a - y) * (theta * a - y))) with (theta / 2 * (a * a) + / (2 * theta) * (y * y) - a * y) in X by (field; lra). lra. }
  assert (L2 : / (2 * theta) * l2 P w <= energy_norm2 P 0 w / 2).
  { apply Rle_trans with (/ (2 * theta) * (theta * energy_norm2 P 0 w)); [apply Rmult_le_compat_l; [left; apply Rinv_0_lt_compat; lra|auto]|right; field; lra]. }
  lra.
Qed.

(* C214 (stability): with zero boundary datum the discrete solution and its gradient are bounded by the forcing, whatever it is *)
Theorem C214_stability f lu gd t : exact lu -> complete lu -> has_datum P gd -> bdy 0%nat = true -> nodes <> [] ->
  (forall a, (a < length nodes)%nat -> bdy a = true -> dval gd a 0%nat = 0) ->
  (forall a, (a < length nodes)%nat -> exists b, (b < length nodes)%nat /\ bdy b = true /\ chain cells a b) ->
  exists s1 s2 s3 w, apply P bdy false lu (make_pde (DNeg Lap) (Callable f) t) (SetBoundary gd) = Ok s1 /\
    init P false s1 = Ok s2 /\ solve P bdy false lu s2 = Ok s3 /\ success s3 = true /\ solution s3 = [w] /\
    let F := mesh_quadrature P (fun e q => f (affine P e (node P q)) * f (affine P e (node P q))) in
    energy_norm2 P 0 w <= theta * F /\ l2 P w <= theta * theta * F.
Proof.
  intros Hlu Hco Hg Hb Hne Hgd Hch.
  destruct (C147_dirichlet d d nodes cells pt slv rule HG HR bdy lu (DNeg Lap) (Callable f) gd t Hlu Hco) as (s1 & s2 & s3 & w & E1 & E2 & E3 & E4 & E5 & Hu & _); auto.
  - cbn. auto.
  - cbn. auto.
  - constructor.
  - split; cbn; auto.
  - exists s1, s2, s3, w. do 5 (split; [assumption|]). intros F. assert (X := stable f gd w Hu Hgd). fold F in X. split; [exact X|].
    eapply Rle_trans; [apply (C214_poincare d nodes cells pt slv rule HG HR HC alpha beta h sigma bdy HB HS HF); [lra|]|].
    + intros a Ha Hba. rewrite (proj1 (Hu a Ha) Hba). auto.
    + rewrite Rmult_assoc. apply Rmult_le_compat_l; [left; apply poincare_pos|exact X].
Qed.

Variables (u : vec -> R) (G : vec -> vec) (H : vec -> mat) (f : vec -> R) (M K : R).
Hypotheses (HP : reaction_diffusion d 0 u G H f) (HM : second_bounded d alpha beta M H) (HK : second_lipschitz d alpha beta K H) (M0 : 0 <= M) (K0 : 0 <= K).
Definition poisson_rate : R := 2 * (INR d * (slope_rate d M K sigma h * slope_rate d M K sigma h) + theta * (value_rate d 0 M K sigma h * value_rate d 0 M K sigma h)).
Lemma poisson_bound gd w : discrete_solution P (fun a => bdy a = true) (DNeg Lap) (Callable f) gd w ->
  (forall a, (a < length nodes)%nat -> bdy a = true -> dval gd a 0%nat = u (place nodes a)) ->
  energy_norm2 P 0 (fun a => w a - u (place nodes a)) <= (1 + QuadProps.eps) * mesh_measure d nodes cells * (h * h * poisson_rate).
Proof.
  intros Hw Hgd. set (x := fun a => w a - u (place nodes a)). assert (T := poincare_pos).
  assert (E := error_equation d nodes cells pt slv rule HG HR HC 0 u G f alpha beta HB bdy gd w HF (pure_diffusion f gd w Hw) Hgd). cbv zeta in E. fold x in E.
  assert (X0 : forall a, (a < length nodes)%nat -> bdy a = true -> x a = 0) by (intros a Ha Hb; unfold x; rewrite (proj1 (Hw a Ha) Hb), Hgd by auto; ring).
  assert (L := C214_poincare d nodes cells pt slv rule HG HR HC alpha beta h sigma bdy HB HS HF ltac:(lra) x X0).
  set (A := slope_rate d M K sigma h) in *. set (B := value_rate d 0 M K sigma h) in *. set (En := energy_norm2 P 0 x) in *.
  set (r0 := INR d * (A * A) + theta * (B * B)).
  assert (Y : En <= mesh_quadrature P (fun _ _ => h * h * r0) + / 4 * En + / (4 * theta) * l2 P x).
  { unfold En at 2. rewrite E, energy_split. unfold l2. rewrite <- !quadrature_scal, <- !quadrature_plus.
    replace (- mesh_quadrature P (fun e q => mismatch d 0 u G f (vtx e) (fun i => x (id e i)) (lam d nodes cells pt slv rule q))) with
      (mesh_quadrature P (fun e q => -1 * mismatch d 0 u G f (vtx e) (fun i => x (id e i)) (lam d nodes cells pt slv rule q))) by (rewrite quadrature_scal; ring).
    apply quadrature_le. intros e q He Hq.
    assert (Z := cell_estimate d nodes cells pt slv rule HG HR 0 u G H f alpha beta M K h sigma HP HM HK M0 K0 ltac:(lra) HB HS x e q He Hq). fold A B in Z. set (mm := mismatch _ _ _ _ _ _ _ _) in *.
    assert (Z1 : -1 * mm <= Rabs mm) by (unfold Rabs; destruct (Rcase_abs mm); lra). eapply Rle_trans; [exact Z1|]. eapply Rle_trans; [exact Z|].
    assert (Y1 := steep_young d (2 * (h * A)) (vtx e) (fun i => x (id e i))). rewrite (value_cmb d nodes cells pt slv rule HG HR).
    assert (Y2 := value_young_ theta (h * B) (cmb d (lam d nodes cells pt slv rule q) (fun i => x (id e i))) T).
    set (S := steep _ _ _) in *. set (D := rsum d _) in *. set (y := cmb _ _ _) in *. unfold r0.
    replace (h * (A * S + B * Rabs y)) with (/ 2 * (2 * (h * A) * S) + h * B * Rabs y) by field.
    eapply Rle_trans; [apply Rplus_le_compat; [apply Rmult_le_compat_l; [lra|exact Y1]|exact Y2]|]. right. field. lra. }
  assert (L2 : / (4 * theta) * l2 P x <= En / 4).
  { apply Rle_trans with (/ (4 * theta) * (theta * En)); [apply Rmult_le_compat_l; [left; apply Rinv_0_lt_compat; lra|auto]|right; field; lra]. }
  assert (R0 : 0 <= h * h * r0).
  { apply Rmult_le_pos; [apply Rle_0_sqr|]. apply Rplus_le_le_0_compat; apply Rmult_le_pos; try apply Rle_0_sqr; [apply pos_INR|lra]. }
  assert (Q := quadrature_const (h * h * r0) R0).
  replace ((1 + QuadProps.eps) * mesh_measure d nodes cells * (h * h * poisson_rate)) with (2 * ((1 + QuadProps.eps) * mesh_measure d nodes cells * (h * h * r0))) by (unfold poisson_rate, r0, A, B; ring).
  lra.
Qed.
(* C214: the Poisson problem is solved, the gradient of the error is of first order in L2, and so is the error *)
Theorem C214_poisson lu gd t : exact lu -> complete lu -> has_datum P gd -> bdy 0%nat = true -> nodes <> [] ->
  (forall a, (a < length nodes)%nat -> bdy a = true -> dval gd a 0%nat = u (place nodes a)) ->
  (forall a, (a < length nodes)%nat -> exists b, (b < length nodes)%nat /\ bdy b = true /\ chain cells a b) ->
  exists s1 s2 s3 w, apply P bdy false lu (make_pde (DNeg Lap) (Callable f) t) (SetBoundary gd) = Ok s1 /\
    init P false s1 = Ok s2 /\ solve P bdy false lu s2 = Ok s3 /\ success s3 = true /\ solution s3 = [w] /\
    let x := fun a => w a - u (place nodes a) in
    energy_norm2 P 0 x <= (1 + QuadProps.eps) * mesh_measure d nodes cells * (h * h * poisson_rate) /\ l2 P x <= theta * energy_norm2 P 0 x.
Proof.
  intros Hlu Hco Hg Hb Hne Hgd Hch.
  destruct (C147_dirichlet d d nodes cells pt slv rule HG HR bdy lu (DNeg Lap) (Callable f) gd t Hlu Hco) as (s1 & s2 & s3 & w & E1 & E2 & E3 & E4 & E5 & Hu & _); auto.
  - cbn. auto.
  - cbn. auto.
  - constructor.
  - split; cbn; auto.
  - exists s1, s2, s3, w. do 5 (split; [assumption|]). intros x. split; [now apply (poisson_bound gd w)|].
    apply (C214_poincare d nodes cells pt slv rule HG HR HC alpha beta h sigma bdy HB HS HF); [lra|].
    intros a Ha Hba. unfold x. rewrite (proj1 (Hu a Ha) Hba), Hgd by auto. ring.
Qed.
End Poisson.

(* ------------------------------------------------------------------ an instance: - laplacian u = 2 sin x sin y on the unit square *)
Lemma wave_poisson : reaction_diffusion 2 0 wave wave1 wave2 (fun x => 2 * (sin (x 0%nat) * sin (x 1%nat))).
Proof. destruct wave_solves as [A B _]. split; [exact A|exact B|]. intros x. unfold wave. cbn [rsum wave2]. ring. Qed.
(* the squares of the L2 norms of the gradient of the error and of the error, on the mesh of 2 m^2 triangles *)
Theorem C214_square m pt slv rule lu t : (0 < m)%nat -> reference 2 1 pt slv rule -> exact lu -> complete lu ->
  let P := problem1 2 2 (square_nodes m) (square_cells m) pt slv rule in
  exists s1 s2 s3 w, apply P (border m) false lu (make_pde (DNeg Lap) (Callable (fun x => 2 * (sin (x 0%nat) * sin (x 1%nat)))) t) (SetBoundary (wave_datum m)) = Ok s1 /\
    init P false s1 = Ok s2 /\ solve P (border m) false lu s2 = Ok s3 /\ success s3 = true /\ solution s3 = [w] /\
    let x := fun a => w a - wave (place (square_nodes m) a) in
    energy_norm2 P 0 x <= 44845 / (INR m * INR m) /\ l2 P x <= 216 * energy_norm2 P 0 x.
Proof.
  intros Hm HR Hlu Hco P. assert (Xm : 1 <= INR m) by (change 1 with (INR 1); apply le_INR; lia).
  destruct (C214_poisson 2 (square_nodes m) (square_cells m) pt slv rule (square_good m Hm) HR (square_conforming m Hm) 0 1 (1 / INR m) 1 (border m)
    (square_box m Hm) (square_shape m Hm) (square_faces m Hm) ltac:(lra) ltac:(lra) wave wave1 wave2 (fun x => 2 * (sin (x 0%nat) * sin (x 1%nat))) 1 2
    wave_poisson wave_bounded wave_lipschitz ltac:(lra) ltac:(lra) lu (wave_datum m) t Hlu Hco) as (s1 & s2 & s3 & w & E1 & E2 & E3 & E4 & E5 & B & L).
  - split; [change (length (square_nodes m) <= S m * S m)%nat; rewrite square_length; lia|cbn; lia].
  - unfold border. rewrite Nat.div_0_l by lia. reflexivity.
  - discriminate.
  - intros a Ha _. rewrite square_length in Ha. rewrite place_spot by auto. reflexivity.
  - intros a Ha. rewrite square_length in *. exists 0%nat. split; [lia|]. split; [unfold border; rewrite Nat.div_0_l by lia; reflexivity|]. now apply square_chain.
  - exists s1, s2, s3, w. do 5 (split; [assumption|]). intros x. assert (Et : poincare 2 1 (1 - 0) = 216) by (unfold poincare; cbn [INR]; ring). rewrite Et in L. split; [|exact L].
    rewrite (square_measure m Hm) in B.
    eapply Rle_trans; [exact B|]. clear B L. unfold poisson_rate. rewrite Et. set (k := 1 / INR m) in *. replace (44845 / (INR m * INR m)) with (k * k * 44845) by (unfold k; field; lra).
    assert (Hk : 0 < k <= 1). { unfold k. split; [apply Rdiv_lt_0_compat; lra|]. apply (Rmult_le_reg_r (INR m)); [lra|]. unfold Rdiv. rewrite Rmult_assoc, Rinv_l by lra. lra. }
    assert (Ep : 0 <= QuadProps.eps <= 1 / 1000).
    { unfold QuadProps.eps. assert (X : 1000 * 2 <= 10 ^ 15) by lra. assert (X0 : 0 < 10 ^ 15) by lra. revert X X0. generalize (10 ^ 15). intros z X X0. split; [apply Rmult_le_pos; [lra|left; now apply Rinv_0_lt_compat]|].
      apply (Rmult_le_reg_r z); [auto|]. unfold Rdiv at 1. rewrite Rmult_assoc, Rinv_l by lra. lra. }
    assert (A : 0 <= slope_rate 2 1 2 1 k <= 20) by (unfold slope_rate; cbn [INR]; lra). assert (B : 0 <= value_rate 2 0 1 2 1 k <= 10) by (unfold value_rate; cbn [INR]; lra).
    revert A B Ep. generalize (slope_rate 2 1 2 1 k) (value_rate 2 0 1 2 1 k) QuadProps.eps. intros a b ep A B Ep.
    assert (A2 : a * a <= 20 * 20) by (apply Rmult_le_compat; lra). assert (B2 : b * b <= 10 * 10) by (apply Rmult_le_compat; lra).
    assert (A0 : 0 <= a * a) by apply Rle_0_sqr. assert (B0 : 0 <= b * b) by apply Rle_0_sqr. cbn [INR].
    replace ((1 + ep) * 1 * (k * k * (2 * ((1 + 1) * (a * a) + 216 * (b * b))))) with (k * k * ((1 + ep) * (2 * (2 * (a * a) + 216 * (b * b))))) by ring.
    apply Rmult_le_compat_l; [apply Rle_0_sqr|]. apply Rle_trans with ((1 + 1 / 1000) * 44800); [apply Rmult_le_compat; lra|lra].
Qed.
(* non-vacuity: a finite element function which vanishes at the boundary nodes of the square and is not zero *)
Example C214_example : (exists pt slv rule, reference 2 1 pt slv rule) /\ exact some_lu /\ complete some_lu /\ faces_matched 2 (square_nodes 2) (square_cells 2) (border 2) /\
  (let v := fun a => if border 2 a then 0 else 1 in (forall a, (a < 9)%nat -> border 2 a = true -> v a = 0) /\ v (at_ 2 1 1) = 1).
Proof.
  split; [apply reference_exists; cbn; tauto|]. split; [apply some_lu_exact|]. split; [exact some_lu_complete|].
  split; [apply square_faces; lia|]. split; [intros a _ E; now rewrite E|reflexivity].
Qed.
Print Assumptions C214_poincare.
Print Assumptions C214_stability.
Print Assumptions C214_poisson.
Print Assumptions C214_square.
