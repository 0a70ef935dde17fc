(* C209: convergence of linear finite elements on segments.  For - u'' = f with the boundary values of u, what solve() returns is within
   a constant times h^2 of u at every node, and so is the field evaluated at any point. *)
From Coq Require Import QArith Qreals.
From Verif Require Import Base RSum SimplexModel SimplexProps LinAlg FieldModel FieldProps MeasureModel MeasureProps FemModel FemProps EvalModel EvalProps
  SolverModel SolverProps FemEnergy FemKernel FemMesh FemPatch FemMax FemApprox.
From Verif Require PolyModel PolyProps LagrangeProps QuadModel QuadProps TriSpec TriProofs TriProps.
Local Open Scope R_scope.

(* ------------------------------------------------------------------ specification *)
(* u solves - u'' = f, where f has derivative f1 and f1 is K-Lipschitz between alpha and beta *)
Definition poisson (u u1 f f1 : R -> R) : Prop :=
  (forall x, derivable_pt_lim u x (u1 x)) /\ (forall x, derivable_pt_lim u1 x (- f x)) /\ (forall x, derivable_pt_lim f x (f1 x)).
Definition lipschitz_on (alpha beta K : R) (f : R -> R) : Prop :=
  forall x y, alpha <= x <= beta -> alpha <= y <= beta -> Rabs (f x - f y) <= K * Rabs (x - y).
Definition bounded_on (alpha beta F : R) (f : R -> R) : Prop := forall x, alpha <= x <= beta -> Rabs (f x) <= F.
(* the coordinate of a node *)
Definition coordinate (nodes : list vec) (a : nat) : R := place nodes a 0%nat.
(* the nodes lie between alpha and beta, and no cell is longer than h *)
Definition mesh_of_size (nodes : list vec) (cells : list (list nat)) (alpha beta h : R) : Prop :=
  (forall a, (a < length nodes)%nat -> alpha <= coordinate nodes a <= beta) /\
  forall c a b, In c cells -> In a c -> In b c -> Rabs (coordinate nodes a - coordinate nodes b) <= h.

(* ------------------------------------------------------------------ Taylor *)
Lemma grow (g g' : R -> R) : (forall s, 0 <= s <= 1 -> derivable_pt_lim g s (g' s)) -> (forall s, 0 <= s <= 1 -> 0 <= g' s) ->
  forall s, 0 <= s <= 1 -> g 0 <= g s.
Proof.
  intros Hd Hp s Hs. destruct (Req_dec s 0) as [->|Hne]; [lra|].
  destruct (MVT_cor2 g g' 0 s) as (c & Ec & Hc); [lra|intros; apply Hd; lra|].
  assert (X := Hp c ltac:(lra)). assert (0 <= g' c * (s - 0)) by (apply Rmult_le_pos; lra). lra.
Qed.
Lemma dpow n s : derivable_pt_lim (fun s => s ^ S n) s (INR (S n) * s ^ n).
Proof. apply (derivable_pt_lim_pow s (S n)). Qed.
Lemma dlin c t : derivable_pt_lim (fun s => s * c) t (1 * c + t * 0).
Proof. exact (derivable_pt_lim_mult Ranalysis1.id (fct_cte c) t 1 0 (derivable_pt_lim_id t) (derivable_pt_lim_const c t)). Qed.
Lemma dmono n c t : derivable_pt_lim (fun s => s ^ S n * c) t (INR (S n) * t ^ n * c + t ^ S n * 0).
Proof. exact (derivable_pt_lim_mult (fun s => s ^ S n) (fct_cte c) t _ 0 (dpow n t) (derivable_pt_lim_const c t)). Qed.
(* one integration *)
Lemma integrate n C (g g' : R -> R) : (forall s, 0 <= s <= 1 -> derivable_pt_lim g s (g' s)) -> g 0 = 0 ->
  (forall s, 0 <= s <= 1 -> Rabs (g' s) <= INR (S n) * C * s ^ n) -> forall s, 0 <= s <= 1 -> Rabs (g s) <= C * s ^ S n.
Proof.
  intros Hd H0 Hb s Hs.
  assert (A : 0 <= C * s ^ S n - g s).
  { assert (X := grow (fun s => C * s ^ S n - g s) (fun s => C * (INR (S n) * s ^ n) - g' s)). cbv beta in X.
    specialize (X ltac:(intros t Ht; apply derivable_pt_lim_minus; [apply derivable_pt_lim_scal, dpow|auto])).
    specialize (X ltac:(intros t Ht; specialize (Hb t Ht); unfold Rabs in Hb; destruct (Rcase_abs (g' t)) in Hb; lra) s Hs).
    rewrite H0, pow_i in X by lia. lra. }
  assert (B : 0 <= C * s ^ S n + g s).
  { assert (X := grow (fun s => C * s ^ S n + g s) (fun s => C * (INR (S n) * s ^ n) + g' s)). cbv beta in X.
    specialize (X ltac:(intros t Ht; apply derivable_pt_lim_plus; [apply derivable_pt_lim_scal, dpow|auto])).
    specialize (X ltac:(intros t Ht; specialize (Hb t Ht); unfold Rabs in Hb; destruct (Rcase_abs (g' t)) in Hb; lra) s Hs).
    rewrite H0, pow_i in X by lia. lra. }
  apply Rabs_le. lra.
Qed.
Lemma dalong (g g' : R -> R) p d s : (forall x, derivable_pt_lim g x (g' x)) -> derivable_pt_lim (fun s => g (p + s * d)) s (d * g' (p + s * d)).
Proof.
  intros H. cut (derivable_pt_lim (fun s => g (p + s * d)) s (g' (p + s * d) * d)); [rewrite Rmult_comm; auto|].
  apply (derivable_pt_lim_comp (fun s => p + s * d) g s d (g' (p + s * d))); [|apply H].
  cut (derivable_pt_lim (fun s => p + s * d) s (0 + (1 * d + s * 0))).
  - replace (0 + (1 * d + s * 0)) with d by ring. auto.
  - apply (derivable_pt_lim_plus (fct_cte p) (fun s => s * d)); [apply derivable_pt_lim_const|apply dlin].
Qed.
Section Taylor.
Variables (u u1 f f1 : R -> R) (alpha beta K p d : R).
Hypothesis (HP : poisson u u1 f f1) (HL : lipschitz_on alpha beta K f1) (Hp : alpha <= p <= beta) (Hq : alpha <= p + d <= beta).
Lemma segment_in s : 0 <= s <= 1 -> alpha <= p + s * d <= beta.
Proof using Hp Hq.
  intros Hs. split.
  - assert (0 <= (1 - s) * (p - alpha) + s * (p + d - alpha)); [|lra]. assert (0 <= (1 - s) * (p - alpha)) by (apply Rmult_le_pos; lra). assert (0 <= s * (p + d - alpha)) by (apply Rmult_le_pos; lra). lra.
  - assert (0 <= (1 - s) * (beta - p) + s * (beta - (p + d))); [|lra]. assert (0 <= (1 - s) * (beta - p)) by (apply Rmult_le_pos; lra). assert (0 <= s * (beta - (p + d))) by (apply Rmult_le_pos; lra). lra.
Qed.
Lemma taylor_f1 s : 0 <= s <= 1 -> Rabs (f1 (p + s * d) - f1 p) <= K * Rabs d * s.
Proof.
  intros Hs. assert (X := HL (p + s * d) p (segment_in s Hs) Hp). replace (p + s * d - p) with (s * d) in X by ring.
  rewrite Rabs_mult, (Rabs_right s) in X by lra. lra.
Qed.
Lemma taylor_f s : 0 <= s <= 1 -> Rabs (f (p + s * d) - f p - s * (d * f1 p)) <= K * (d * d) / 2 * s ^ 2.
Proof.
  apply (integrate 1 (K * (d * d) / 2) (fun s => f (p + s * d) - f p - s * (d * f1 p)) (fun s => d * f1 (p + s * d) - 0 - (1 * (d * f1 p) + s * 0))).
  - intros t Ht. apply derivable_pt_lim_minus; [apply derivable_pt_lim_minus; [apply dalong, HP|apply derivable_pt_lim_const]|].
    apply dlin.
  - replace (p + 0 * d) with p by ring. ring.
  - intros t Ht. replace (d * f1 (p + t * d) - 0 - (1 * (d * f1 p) + t * 0)) with (d * (f1 (p + t * d) - f1 p)) by ring. rewrite Rabs_mult.
    assert (X := taylor_f1 t Ht). apply Rle_trans with (Rabs d * (K * Rabs d * t)); [apply Rmult_le_compat_l; [apply Rabs_pos|auto]|].
    replace (Rabs d * (K * Rabs d * t)) with (K * (Rabs d * Rabs d) * t) by ring. rewrite <- Rabs_mult, (Rabs_right (d * d)) by (apply Rle_ge, Rle_0_sqr). cbn [INR pow]. lra.
Qed.
Lemma taylor_u1 s : 0 <= s <= 1 -> Rabs (u1 (p + s * d) - u1 p + s * (d * f p) + s ^ 2 * (d * d * f1 p / 2)) <= K * Rabs (d * d * d) / 6 * s ^ 3.
Proof.
  apply (integrate 2 (K * Rabs (d * d * d) / 6) (fun s => u1 (p + s * d) - u1 p + s * (d * f p) + s ^ 2 * (d * d * f1 p / 2))
    (fun s => d * - f (p + s * d) - 0 + (1 * (d * f p) + s * 0) + (INR 2 * s ^ 1 * (d * d * f1 p / 2) + s ^ 2 * 0))).
  - intros t Ht. apply derivable_pt_lim_plus; [apply derivable_pt_lim_plus; [apply derivable_pt_lim_minus; [|apply derivable_pt_lim_const]|]|].
    + apply (dalong u1 (fun x => - f x)). apply HP.
    + apply dlin.
    + apply dmono.
  - replace (p + 0 * d) with p by ring. ring.
  - intros t Ht. match goal with |- Rabs ?x <= _ => replace x with (- d * (f (p + t * d) - f p - t * (d * f1 p))) by (cbn [INR pow]; field) end.
    rewrite Rabs_mult, Rabs_Ropp. assert (X := taylor_f t Ht).
    apply Rle_trans with (Rabs d * (K * (d * d) / 2 * t ^ 2)); [apply Rmult_le_compat_l; [apply Rabs_pos|auto]|].
    replace (Rabs (d * d * d)) with (Rabs d * (d * d)). { cbn [INR pow]. right. field. }
    rewrite (Rabs_mult (d * d)), (Rabs_right (d * d)) by (apply Rle_ge, Rle_0_sqr). ring.
Qed.
Lemma taylor_u s : 0 <= s <= 1 ->
  Rabs (u (p + s * d) - u p - s * (d * u1 p) + s ^ 2 * (d * d * f p / 2) + s ^ 3 * (d * d * d * f1 p / 6)) <= K * (d * d * (d * d)) / 24 * s ^ 4.
Proof.
  apply (integrate 3 (K * (d * d * (d * d)) / 24) (fun s => u (p + s * d) - u p - s * (d * u1 p) + s ^ 2 * (d * d * f p / 2) + s ^ 3 * (d * d * d * f1 p / 6))
    (fun s => d * u1 (p + s * d) - 0 - (1 * (d * u1 p) + s * 0) + (INR 2 * s ^ 1 * (d * d * f p / 2) + s ^ 2 * 0) + (INR 3 * s ^ 2 * (d * d * d * f1 p / 6) + s ^ 3 * 0))).
  - intros t Ht. apply derivable_pt_lim_plus; [apply derivable_pt_lim_plus; [apply derivable_pt_lim_minus; [apply derivable_pt_lim_minus; [|apply derivable_pt_lim_const]|]|]|].
    + apply dalong. apply HP.
    + apply dlin.
    + apply dmono.
    + apply dmono.
  - replace (p + 0 * d) with p by ring. ring.
  - intros t Ht. match goal with |- Rabs ?x <= _ => replace x with (d * (u1 (p + t * d) - u1 p + t * (d * f p) + t ^ 2 * (d * d * f1 p / 2))) by (cbn [INR pow]; field) end.
    rewrite Rabs_mult. assert (X := taylor_u1 t Ht).
    apply Rle_trans with (Rabs d * (K * Rabs (d * d * d) / 6 * t ^ 3)); [apply Rmult_le_compat_l; [apply Rabs_pos|auto]|].
    replace (Rabs d * (K * Rabs (d * d * d) / 6 * t ^ 3)) with (K * (Rabs d * Rabs (d * d * d)) / 6 * t ^ 3) by field.
    rewrite <- Rabs_mult. replace (d * (d * d * d)) with (d * d * (d * d)) by ring. rewrite (Rabs_right (d * d * (d * d))) by (apply Rle_ge, Rle_0_sqr). cbn [INR pow]. right. field.
Qed.
(* the residual of the exact solution in the row of a vertex p of the cell [p, p + d] *)
Lemma one_cell t0 t1 F0 F1 h : 0 <= t0 <= 1 -> 0 <= t1 <= 1 -> Rabs (t0 + t1 - 1) <= 1 / 10 ^ 15 ->
  Rabs ((t0 * (1 - t0) + t1 * (1 - t1)) / 2 - 1 / 6) <= 2 / 10 ^ 15 -> (t0 ^ 2 * (1 - t0) + t1 ^ 2 * (1 - t1)) / 2 <= 1 / 10 ->
  bounded_on alpha beta F0 f -> bounded_on alpha beta F1 f1 -> Rabs d <= h -> 0 <= K ->
  Rabs (u (p + d) - u p - d * u1 p + d * d * (1 / 2 * (f (p + t0 * d) * (1 - t0)) + 1 / 2 * (f (p + t1 * d) * (1 - t1)))) <=
  d * d * ((K * (h * h) / 5 + (F0 + F1 * h) / 10 ^ 14) / 2).
Proof.
  intros H0 H1 M0 M1 M2 B0 B1 Hh HK.
  assert (Tu := taylor_u 1 ltac:(lra)). assert (T0 := taylor_f t0 H0). assert (T1 := taylor_f t1 H1).
  assert (b0 := B0 p Hp). assert (b1 := B1 p Hp).
  replace (p + 1 * d) with (p + d) in Tu by ring.
  assert (S0 : 0 <= d * d) by apply Rle_0_sqr.
  assert (Sh : d * d <= h * h). { replace (d * d) with (Rabs d * Rabs d) by (rewrite <- Rabs_mult; apply Rabs_right; apply Rle_ge, Rle_0_sqr). apply Rmult_le_compat; auto using Rabs_pos. }
  set (a := u (p + d) - u p - 1 * (d * u1 p) + 1 ^ 2 * (d * d * f p / 2) + 1 ^ 3 * (d * d * d * f1 p / 6)) in *.
  set (r0 := f (p + t0 * d) - f p - t0 * (d * f1 p)) in *. set (r1 := f (p + t1 * d) - f p - t1 * (d * f1 p)) in *.
  set (e0 := t0 + t1 - 1) in *. set (e1 := (t0 * (1 - t0) + t1 * (1 - t1)) / 2 - 1 / 6) in *.
  match goal with |- Rabs ?x <= _ => replace x with (a + d * d * (- (1 / 2) * (e0 * f p) + e1 * (d * f1 p) + 1 / 2 * ((1 - t0) * r0 + (1 - t1) * r1))) by (unfold a, r0, r1, e0, e1; field) end.
  assert (A0 : Rabs (e0 * f p) <= 1 / 10 ^ 15 * F0) by (rewrite Rabs_mult; apply Rmult_le_compat; auto using Rabs_pos).
  assert (A1 : Rabs (e1 * (d * f1 p)) <= 2 / 10 ^ 15 * (h * F1)).
  { rewrite !Rabs_mult. apply Rmult_le_compat; auto using Rabs_pos; [apply Rmult_le_pos; apply Rabs_pos|]. apply Rmult_le_compat; auto using Rabs_pos. }
  assert (A2 : Rabs ((1 - t0) * r0 + (1 - t1) * r1) <= K * (h * h) / 10).
  { eapply Rle_trans; [apply Rabs_triang|]. rewrite !Rabs_mult, (Rabs_right (1 - t0)), (Rabs_right (1 - t1)) by lra.
    assert (P0 : (1 - t0) * Rabs r0 <= (1 - t0) * (K * (d * d) / 2 * t0 ^ 2)) by (apply Rmult_le_compat_l; lra).
    assert (P1 : (1 - t1) * Rabs r1 <= (1 - t1) * (K * (d * d) / 2 * t1 ^ 2)) by (apply Rmult_le_compat_l; lra).
    assert (E : (1 - t0) * (K * (d * d) / 2 * t0 ^ 2) + (1 - t1) * (K * (d * d) / 2 * t1 ^ 2) = K * (d * d) * ((t0 ^ 2 * (1 - t0) + t1 ^ 2 * (1 - t1)) / 2)) by field.
    assert (K * (d * d) * ((t0 ^ 2 * (1 - t0) + t1 ^ 2 * (1 - t1)) / 2) <= K * (d * d) * (1 / 10)) by (apply Rmult_le_compat_l; [apply Rmult_le_pos; lra|auto]).
    assert (K * (d * d) <= K * (h * h)) by (apply Rmult_le_compat_l; lra). lra. }
  assert (A3 : Rabs (- (1 / 2) * (e0 * f p) + e1 * (d * f1 p) + 1 / 2 * ((1 - t0) * r0 + (1 - t1) * r1)) <= 1 / 10 ^ 15 * F0 + 2 / 10 ^ 15 * (h * F1) + K * (h * h) / 20).
  { assert (0 <= 1 / 10 ^ 15 * F0) by (apply Rle_trans with (2 := A0); apply Rabs_pos).
    unfold Rabs in *. destruct (Rcase_abs (e0 * f p)), (Rcase_abs (e1 * (d * f1 p))), (Rcase_abs ((1 - t0) * r0 + (1 - t1) * r1)), (Rcase_abs (- (1 / 2) * (e0 * f p) + e1 * (d * f1 p) + 1 / 2 * ((1 - t0) * r0 + (1 - t1) * r1))); lra. }
  assert (F0p : 0 <= F0) by (apply Rle_trans with (2 := b0); apply Rabs_pos). assert (F1p : 0 <= F1) by (apply Rle_trans with (2 := b1); apply Rabs_pos).
  assert (hp : 0 <= h) by (apply Rle_trans with (2 := Hh); apply Rabs_pos). assert (hF : 0 <= h * F1) by (apply Rmult_le_pos; auto).
  eapply Rle_trans; [apply Rabs_triang|]. rewrite Rabs_mult, (Rabs_right (d * d)) by lra.
  set (m := Rabs (- (1 / 2) * (e0 * f p) + _ + _)) in *.
  assert (Tu' : Rabs a <= d * d * (K * (h * h) / 24)).
  { eapply Rle_trans; [exact Tu|]. replace (K * (d * d * (d * d)) / 24 * 1 ^ 4) with (d * d * (K * (d * d) / 24)) by field. apply Rmult_le_compat_l; [auto|].
    assert (K * (d * d) <= K * (h * h)) by (apply Rmult_le_compat_l; lra). lra. }
  assert (d * d * m <= d * d * (1 / 10 ^ 15 * F0 + 2 / 10 ^ 15 * (h * F1) + K * (h * h) / 20)) by (apply Rmult_le_compat_l; auto).
  apply Rle_trans with (d * d * (K * (h * h) / 24 + (1 / 10 ^ 15 * F0 + 2 / 10 ^ 15 * (h * F1) + K * (h * h) / 20))); [lra|]. apply Rmult_le_compat_l; [auto|].
  assert (0 <= K * (h * h)) by (apply Rmult_le_pos; [auto|apply Rle_0_sqr]). replace (F1 * h) with (h * F1) by ring.
  assert (Z : 1 / 10 ^ 15 = 1 / 10 ^ 14 / 10) by (field). assert (Z2 : 2 / 10 ^ 15 = 1 / 10 ^ 14 / 5) by field. rewrite Z, Z2.
  replace ((F0 + h * F1) / 10 ^ 14) with (1 / 10 ^ 14 * F0 + 1 / 10 ^ 14 * (h * F1)) by field.
  assert (Ep : 0 < 1 / 10 ^ 14) by (apply Rdiv_lt_0_compat; [lra|apply pow_lt; lra]). revert Ep. generalize (1 / 10 ^ 14). intros ep Ep.
  assert (0 <= ep * F0) by (apply Rmult_le_pos; lra). assert (0 <= ep * (h * F1)) by (apply Rmult_le_pos; lra). lra.
Qed.
End Taylor.

(* ------------------------------------------------------------------ the mesh *)
Section Segments.
Variables (nodes : list vec) (cells : list (list nat)) (pt : list (list nat)) (slv : (nat -> R) -> nat -> R) (rule : QuadModel.rule).
Hypothesis (HG : good_mesh 1 1 nodes cells) (HR : reference 1 1 pt slv rule) (HC : TriSpec.conforming cells).
Local Notation P := (problem1 1 1 nodes cells pt slv rule).
Local Notation N := (length cells).
Local Notation vtx := (vertex nodes cells).
Local Notation id := (id cells).
Local Notation x := (coordinate nodes).
Local Notation n := (length nodes).
Definition dl (e h : nat) : R := x (id e (1 - h)) - x (id e h).
Lemma inv_dl e : (e < N)%nat -> cell_invJ 1 1 (vtx e) 0%nat 0%nat * dl e 0 = 1.
Proof.
  intros He. assert (X := left_inv 1 (vtx e) ltac:(lia) (regular 1 nodes cells HG e He) 0%nat 0%nat ltac:(lia) ltac:(lia)). cbn [rsum Nat.eqb] in X.
  change (dl e 0) with (vtx e 1%nat 0%nat - vtx e 0%nat 0%nat). lra.
Qed.
Lemma dl_neg e : dl e 1 = - dl e 0.
Proof. unfold dl. cbn [Nat.sub]. ring. Qed.
Lemma dl_nonzero e h : (e < N)%nat -> (h <= 1)%nat -> dl e h <> 0.
Proof.
  intros He Hh E. assert (X := inv_dl e He). assert (dl e 0 = 0); [|rewrite H in X; lra].
  destruct h as [|[|h]]; [auto|rewrite dl_neg in E; lra|lia].
Qed.
Lemma slope_dl e h : (e < N)%nat -> (h <= 1)%nat -> slope 1 (vtx e) h 0%nat = - (1 / dl e h).
Proof.
  intros He Hh. assert (X := inv_dl e He). assert (Z := dl_nonzero e 0 He ltac:(lia)). 
  assert (E : cell_invJ 1 1 (vtx e) 0%nat 0%nat = 1 / dl e 0) by (apply (Rmult_eq_reg_r (dl e 0)); [rewrite X; field; auto|auto]).
  unfold slope. cbn [rsum]. rewrite E. destruct h as [|[|h]]; [| |lia]; cbn [ref_slope Nat.eqb]; [field; auto|rewrite dl_neg; field; auto].
Qed.
Lemma measure_dl e h : (h <= 1)%nat -> cell_measure 1 1 (vtx e) = Rabs (dl e h).
Proof.
  intros Hh. transitivity (Rabs (dl e 0)); [|destruct h as [|[|h]]; [reflexivity|rewrite dl_neg, Rabs_Ropp; reflexivity|lia]].
  change (dl e 0) with (vtx e 1%nat 0%nat - vtx e 0%nat 0%nat). unfold cell_measure. cbn. unfold jac. f_equal. field.
Qed.
Lemma grad_dl v e h : (e < N)%nat -> (h <= 1)%nat -> rsum 2 (fun h => v (id e h) * slope 1 (vtx e) h 0%nat) = (v (id e (1 - h)) - v (id e h)) / dl e h.
Proof.
  intros He Hh. assert (Z := dl_nonzero e 0 He ltac:(lia)). cbn [rsum]. rewrite !slope_dl by (auto; lia). rewrite dl_neg. destruct h as [|[|h]]; [| |lia]; cbn [Nat.sub]; [field; auto|rewrite dl_neg; field; auto].
Qed.
Definition part (v : nat -> R) (e h : nat) : R := Rabs (dl e h) * (- (1 / dl e h)) * ((v (id e (1 - h)) - v (id e h)) / dl e h).
Definition at_vertex (a : nat) (g : nat -> nat -> R) : R := rsum N (fun e => rsum 2 (fun h => (if Nat.eqb (id e h) a then 1 else 0) * g e h)).
Lemma at_vertex_ext a g g' : (forall e h, (e < N)%nat -> (h <= 1)%nat -> id e h = a -> g e h = g' e h) -> at_vertex a g = at_vertex a g'.
Proof.
  intros H. apply rsum_ext. intros e He. apply rsum_ext. intros h Hh. destruct (Nat.eqb_spec (id e h) a); [|ring]. rewrite H; [reflexivity|auto|lia|auto].
Qed.
Lemma at_vertex_le a g g' : (forall e h, (e < N)%nat -> (h <= 1)%nat -> id e h = a -> g e h <= g' e h) -> at_vertex a g <= at_vertex a g'.
Proof.
  intros H. apply rsum_le. intros e He. apply rsum_le. intros h Hh. destruct (Nat.eqb_spec (id e h) a); [|lra]. specialize (H e h He ltac:(lia) e0). lra.
Qed.
Lemma at_vertex_plus a g g' : at_vertex a (fun e h => g e h + g' e h) = at_vertex a g + at_vertex a g'.
Proof. unfold at_vertex. rewrite <- rsum_plus. apply rsum_ext. intros e _. rewrite <- rsum_plus. apply rsum_ext. intros; ring. Qed.
Lemma at_vertex_scal a k g : at_vertex a (fun e h => k * g e h) = k * at_vertex a g.
Proof. unfold at_vertex. rewrite <- rsum_scal. apply rsum_ext. intros e _. rewrite <- rsum_scal. apply rsum_ext. intros; ring. Qed.
Lemma weights_one : rsum (n_nodes P) (weight P) = 1.
Proof. destruct HR as (_ & _ & E). vm_compute in E. injection E as <-. cbn. unfold Q2R. cbn. field. Qed.
Lemma stiffness_row v a : (a < n)%nat -> rsum n (fun b => assembled P (DNeg Lap) a b * v b) = at_vertex a (part v).
Proof.
  intros Ha. destruct (C146_first_order 1 1 nodes cells pt slv rule HG HR) as (A1 & _).
  destruct (C137_bilinear_form P (DNeg Lap) I A1 I (fun _ => I)) as (A & E & HA).
  destruct (C64_assembly P (DNeg Lap) I A1) as (A' & E' & HA').
  { intros Es. exact (proj1 (C65_symmetric_partial P (DNeg Lap) I A1 Es I)). }
  rewrite E in E'. injection E' as <-.
  set (w := fun b => if Nat.eqb b a then 1 else 0). specialize (HA w v).
  transitivity (pairing P A w v).
  { unfold pairing. change (n_dofs P) with n. symmetry. rewrite (rsum_single n _ a Ha).
    - apply rsum_ext. intros b _. unfold w. rewrite Nat.eqb_refl, HA'. ring.
    - intros y _ Hy. apply rsum_zero. intros b _. unfold w. destruct (Nat.eqb_spec y a); [contradiction|ring]. }
  rewrite HA. unfold mesh_quadrature, at_vertex. change (n_cells P) with N. change (measure P) with (fun e => cell_measure 1 1 (vtx e)). cbv beta.
  apply rsum_ext. intros e He.
  rewrite (rsum_ext (n_nodes P) _ (fun q => weight P q * (rsum 2 (fun h => w (id e h) * slope 1 (vtx e) h 0%nat) * rsum 2 (fun h => v (id e h) * slope 1 (vtx e) h 0%nat)))).
  2:{ intros q _. f_equal. cbn [bform]. rewrite Ropp_involutive. change (edim P) with 1%nat. cbn [rsum]. rewrite !(patch_grad 1 nodes cells pt slv rule HG HR) by auto. cbn [rsum]. ring. }
  rewrite rsum_scal_r, weights_one. rewrite Rmult_1_l.
  rewrite (Rmult_comm (rsum 2 (fun h => w (id e h) * _))), <- Rmult_assoc, Rmult_comm, <- rsum_scal_r. apply rsum_ext. intros h Hh.
  rewrite (grad_dl v e h He ltac:(lia)), (measure_dl e h ltac:(lia)), (slope_dl e h He ltac:(lia)). unfold part, w. ring.
Qed.
Lemma no_drift a : interior_node 1 nodes cells a -> at_vertex a (fun e h => Rabs (dl e h) * (- (1 / dl e h))) = 0.
Proof.
  intros Ha. rewrite <- (divergence 1 nodes cells HG HC a 0%nat Ha ltac:(lia)). apply rsum_ext. intros e He. rewrite <- rsum_scal. apply rsum_ext. intros h Hh.
  rewrite (measure_dl e h ltac:(lia)), (slope_dl e h He ltac:(lia)). ring.
Qed.
(* the load vector: position of the quadrature nodes seen from vertex h *)
Definition spot (h q : nat) : R := match h with O => node P q 0%nat | _ => 1 - node P q 0%nat end.
Lemma load_row f a : load_vector P (at_time (Callable (fun y => f (y 0%nat))) 0) a =
  at_vertex a (fun e h => Rabs (dl e h) * (1 / 2 * (f (x (id e h) + spot h 0 * dl e h) * (1 - spot h 0)) + 1 / 2 * (f (x (id e h) + spot h 1 * dl e h) * (1 - spot h 1)))).
Proof.
  unfold load_vector, at_vertex. rewrite (first_basis 1 1 nodes cells pt slv rule HG HR). apply rsum_ext. intros e He. apply rsum_ext. intros h Hh.
  assert (L : load P (at_time (Callable (fun y => f (y 0%nat))) 0) e h = Rabs (dl e h) * (1 / 2 * (f (x (id e h) + spot h 0 * dl e h) * (1 - spot h 0)) + 1 / 2 * (f (x (id e h) + spot h 1 * dl e h) * (1 - spot h 1)))).
  2:{ rewrite L. unfold hit. change (dof P e h) with (id e h). destruct (Nat.eq_dec (id e h) a), (Nat.eqb_spec (id e h) a); try contradiction; reflexivity. }
  unfold load. change (measure P e) with (cell_measure 1 1 (vtx e)). rewrite (measure_dl e h ltac:(lia)), Rmult_comm. f_equal.
  assert (Nn : n_nodes P = 2%nat) by (destruct HR as (_ & _ & E); vm_compute in E; injection E as <-; reflexivity). rewrite Nn.
  assert (Wt : weight P 0 = 1 / 2 /\ weight P 1 = 1 / 2) by (destruct HR as (_ & _ & E); vm_compute in E; injection E as <-; cbn; unfold Q2R; cbn; split; field). destruct Wt as [W0 W1].
  assert (Pt : forall q, fvalue P (at_time (Callable (fun y => f (y 0%nat))) 0) e q * ref_psi P h (node P q) = f (x (id e h) + spot h q * dl e h) * (1 - spot h q)).
  { intros q. rewrite (first_psi 1 nodes cells pt slv rule HG HR (fun c _ => segment_angles _) h (node P q) ltac:(lia)). cbn [at_time fvalue].
    assert (Ax : affine P e (node P q) 0%nat = x (id e h) + spot h q * dl e h).
    { cbn [problem1 fem_problem affine rsum]. unfold jac. destruct h as [|[|h]]; [| |lia].
      - cbn [spot]. change (dl e 0) with (vtx e 1%nat 0%nat - vtx e 0%nat 0%nat). change (x (id e 0)) with (vtx e 0%nat 0%nat). change (node P q 0%nat) with (node P q 0%nat). cbn [problem1 fem_problem node]. ring.
      - cbn [spot]. change (dl e 1) with (vtx e 0%nat 0%nat - vtx e 1%nat 0%nat). change (x (id e 1)) with (vtx e 1%nat 0%nat). cbn [problem1 fem_problem node]. ring. }
    rewrite Ax. f_equal. destruct h as [|[|h]]; [| |lia]; cbn [spot rsum]; ring. }
  cbn [rsum]. rewrite !Pt, W0, W1. ring.
Qed.
(* comparison: a vector whose image by the stiffness matrix is nonpositive inside *)
Lemma row_maximum bdy v : (forall a, (a < n)%nat -> exists b, (b < n)%nat /\ bdy b = true /\ chain cells a b) ->
  (forall a, (a < n)%nat -> bdy a = true -> v a <= 0) -> (forall a, (a < n)%nat -> bdy a = false -> at_vertex a (part v) <= 0) ->
  forall a, (a < n)%nat -> v a <= 0.
Proof.
  intros Hch Hb Hi. destruct (C146_first_order 1 1 nodes cells pt slv rule HG HR) as (A1 & _ & A3 & _ & A5 & A6 & A7 & _).
  destruct (C64_assembly P (DNeg Lap) I A1) as (A & E & HA).
  { intros Es. exact (proj1 (C65_symmetric_partial P (DNeg Lap) I A1 Es I)). }
  destruct (C143_kernel P (DNeg Lap) I A1 I (co_lap P) A6 A7 A5) as (A' & E' & HK). rewrite E in E'. injection E' as <-.
  destruct (C139_energy P (DNeg Lap) I A1 (coercive_elliptic P _ (co_lap P)) I) as (A' & E' & _ & HE); [intros; left; now apply A6|intros; left; now apply A6|]. rewrite E in E'. injection E' as <-.
  destruct (C138_constants P (DNeg Lap) I A1 I (fun _ => I) A3 I) as (A' & E' & HZ & _). rewrite E in E'. injection E' as <-.
  apply (matrix_maximum n A bdy).
  - intros a b Ha Hbn Hne. rewrite HA. apply (stiffness_sign 1 nodes cells pt slv rule HG HR (fun c _ => segment_angles _)); auto.
  - intros a Ha. now apply (HZ a 0).
  - intros w Hw Hw0 a Ha. destruct (Hch a Ha) as (b & B1 & B2 & B3).
    rewrite (linked_value P w a b); [now apply Hw0| |now apply first_linked].
    apply HK. assert (X := HE w). unfold pairing in X |- *. change (n_dofs P) with n in *. lra.
  - exact Hb.
  - intros a Ha Ho. rewrite (rsum_ext n _ (fun b => assembled P (DNeg Lap) a b * v b)) by (intros b _; now rewrite HA). rewrite stiffness_row by auto. auto.
Qed.
Lemma spots h : (h <= 1)%nat -> 0 <= spot h 0 <= 1 /\ 0 <= spot h 1 <= 1 /\ Rabs (spot h 0 + spot h 1 - 1) <= 1 / 10 ^ 15 /\
  Rabs ((spot h 0 * (1 - spot h 0) + spot h 1 * (1 - spot h 1)) / 2 - 1 / 6) <= 2 / 10 ^ 15 /\
  (spot h 0 ^ 2 * (1 - spot h 0) + spot h 1 ^ 2 * (1 - spot h 1)) / 2 <= 1 / 10.
Proof.
  intros Hh. assert (Q : node P 0 0%nat = 211324865405187 / 10 ^ 15 /\ node P 1 0%nat = 788675134594812 / 10 ^ 15).
  { destruct HR as (_ & _ & E). vm_compute in E. injection E as <-. cbn. unfold Q2R. cbn. split; field. }
  destruct Q as [Q0 Q1]. unfold spot. rewrite Q0, Q1. clear. destruct h; (split; [|split; [|split; [|split]]]); try (split; lra); try lra; apply Rabs_le; split; lra.
Qed.
Section Solution.
Variables (u u1 f f1 : R -> R) (alpha beta K F0 F1 h : R).
Hypothesis (HP : poisson u u1 f f1) (HL : lipschitz_on alpha beta K f1) (H0 : bounded_on alpha beta F0 f) (H1 : bounded_on alpha beta F1 f1).
Hypothesis (HM : mesh_of_size nodes cells alpha beta h) (HK : 0 <= K) (Hh : 0 <= h).
Local Notation tau := (K * (h * h) / 5 + (F0 + F1 * h) / 10 ^ 14).
Local Notation barrier := (fun y => (y - alpha) * (beta - y) / 2).
Lemma id_range e i : (e < N)%nat -> (i <= 1)%nat -> (id e i < n)%nat.
Proof. intros He Hi. apply (gm_range _ _ _ _ HG (cell cells e)); [apply (cell_facts 1 nodes cells HG e He)|now apply (id_in 1 nodes cells HG)]. Qed.
Lemma barrier_row a : interior_node 1 nodes cells a -> at_vertex a (part (fun b => barrier (x b))) = at_vertex a (fun e i => Rabs (dl e i) / 2).
Proof.
  intros Ha. set (k := (alpha + beta) / 2 - x a).
  transitivity (at_vertex a (fun e i => Rabs (dl e i) / 2 + k * (Rabs (dl e i) * (- (1 / dl e i))))).
  - apply at_vertex_ext. intros e i He Hi Ei. assert (Z := dl_nonzero e i He Hi). unfold part.
    replace (x (id e (1 - i))) with (x (id e i) + dl e i) by (unfold dl; ring). rewrite Ei. unfold k. field. auto.
  - rewrite at_vertex_plus, at_vertex_scal, no_drift by auto. ring.
Qed.
Lemma residual a : (a < n)%nat -> interior_node 1 nodes cells a ->
  Rabs (at_vertex a (part (fun b => u (x b))) - load_vector P (at_time (Callable (fun y => f (y 0%nat))) 0) a) <= tau * at_vertex a (fun e i => Rabs (dl e i) / 2).
Proof.
  intros Ha Hi. rewrite load_row.
  set (g := fun e i => 1 / 2 * (f (x (id e i) + spot i 0 * dl e i) * (1 - spot i 0)) + 1 / 2 * (f (x (id e i) + spot i 1 * dl e i) * (1 - spot i 1))).
  match goal with |- Rabs (?s - ?l) <= _ => assert (E : s - l = at_vertex a (fun e i => part (fun b => u (x b)) e i - u1 (x a) * (Rabs (dl e i) * (- (1 / dl e i))) - Rabs (dl e i) * g e i)) end.
  { rewrite (at_vertex_ext a (fun e i => part (fun b => u (x b)) e i - u1 (x a) * (Rabs (dl e i) * (- (1 / dl e i))) - Rabs (dl e i) * g e i)
      (fun e i => part (fun b => u (x b)) e i + (- u1 (x a)) * (Rabs (dl e i) * (- (1 / dl e i))) + (-1) * (Rabs (dl e i) * g e i))) by (intros; ring).
    rewrite !at_vertex_plus, !at_vertex_scal, no_drift by auto. unfold g. ring. }
  rewrite E. clear E. rewrite <- at_vertex_scal.
  assert (B : forall e i, (e < N)%nat -> (i <= 1)%nat -> id e i = a ->
    Rabs (part (fun b => u (x b)) e i - u1 (x a) * (Rabs (dl e i) * (- (1 / dl e i))) - Rabs (dl e i) * g e i) <= tau * (Rabs (dl e i) / 2)).
  { intros e i He Hi1 Ei. assert (Z := dl_nonzero e i He Hi1). destruct (spots i Hi1) as (S0 & S1 & S2 & S3 & S4).
    destruct HM as [M1 M2]. destruct (cell_facts 1 nodes cells HG e He) as (Hin & _).
    assert (D : Rabs (dl e i) <= h) by (apply (M2 (cell cells e)); auto; apply (id_in 1 nodes cells HG); auto; lia).
    assert (X := one_cell u u1 f f1 alpha beta K (x a) (dl e i) HP HL (M1 a Ha)).
    assert (Eq : x a + dl e i = x (id e (1 - i))) by (unfold dl; rewrite Ei; ring). rewrite Eq in X.
    specialize (X (M1 _ (id_range e (1 - i) He ltac:(lia))) (spot i 0) (spot i 1) F0 F1 h S0 S1 S2 S3 S4 H0 H1 D HK).
    unfold part, g. rewrite Ei. assert (Zp : 0 < Rabs (dl e i)) by now apply Rabs_pos_lt.
    assert (Sq : dl e i * dl e i = Rabs (dl e i) * Rabs (dl e i)) by (rewrite <- Rabs_mult; symmetry; apply Rabs_right, Rle_ge, Rle_0_sqr).
    apply (Rmult_le_reg_l (Rabs (dl e i))); [auto|]. rewrite <- (Rabs_right (Rabs (dl e i))) at 1 by lra. rewrite <- Rabs_mult.
    match goal with |- Rabs ?y <= _ => match type of X with Rabs ?z <= _ => replace y with (- z) end end.
    - rewrite Rabs_Ropp. rewrite Sq in X at 2. lra.
    - set (r := Rabs (dl e i)) in *. set (de := dl e i) in *. clearbody r de. set (s := 1 / 2 * _ + 1 / 2 * _). clearbody s.
      transitivity (r * r / (de * de) * (- (u (x (id e (1 - i))) - u (x a) - de * u1 (x a))) - r * r * s); [|field; auto].
      rewrite <- Sq. field. auto. }
  apply Rabs_le. split.
  - rewrite <- (Rmult_1_l (at_vertex a (fun e i => tau * _))), Ropp_mult_distr_l, <- at_vertex_scal. apply at_vertex_le. intros e i He Hi1 Ei. specialize (B e i He Hi1 Ei).
    revert B. unfold Rabs at 1. destruct (Rcase_abs _); lra.
  - apply at_vertex_le. intros e i He Hi1 Ei. apply Rle_trans with (2 := B e i He Hi1 Ei). apply Rle_abs.
Qed.
Lemma part_lin k v w e i : part (fun b => v b + k * w b) e i = part v e i + k * part w e i.
Proof. unfold part, Rdiv. ring. Qed.
Lemma error bdy g w : discrete_solution P (fun a => bdy a = true) (DNeg Lap) (Callable (fun y => f (y 0%nat))) g w ->
  (forall a, (a < n)%nat -> bdy a = true -> dval g a 0%nat = u (x a)) ->
  (forall a, (a < n)%nat -> bdy a = false -> interior_node 1 nodes cells a) ->
  (forall a, (a < n)%nat -> exists b, (b < n)%nat /\ bdy b = true /\ chain cells a b) ->
  forall a, (a < n)%nat -> Rabs (w a - u (x a)) <= tau * ((x a - alpha) * (beta - x a) / 2).
Proof.
  intros Hw Hg Hi Hch.
  assert (Bp : forall a, (a < n)%nat -> 0 <= tau * barrier (x a)).
  { intros a Ha. destruct HM as [M1 _]. destruct (M1 a Ha) as [L1 L2]. assert (b0 := H0 _ (M1 a Ha)). assert (b1 := H1 _ (M1 a Ha)).
    assert (F0p : 0 <= F0) by (apply Rle_trans with (2 := b0); apply Rabs_pos). assert (F1p : 0 <= F1) by (apply Rle_trans with (2 := b1); apply Rabs_pos).
    assert (0 <= (x a - alpha) * (beta - x a)) by (apply Rmult_le_pos; lra).
    assert (0 <= K * (h * h)) by (apply Rmult_le_pos; [auto|apply Rle_0_sqr]). assert (0 <= F1 * h) by (apply Rmult_le_pos; auto).
    apply Rmult_le_pos; [|lra]. apply Rplus_le_le_0_compat; [lra|]. apply Rmult_le_pos; [lra|]. left. apply Rinv_0_lt_compat, pow_lt. lra. }
  assert (One : forall k, k = 1 \/ k = -1 -> forall a, (a < n)%nat -> (k * w a + - k * u (x a)) + - tau * barrier (x a) <= 0).
  { intros k Hk. apply (row_maximum bdy); auto.
    - intros a Ha Ba. destruct (Hw a Ha) as [W _]. rewrite (W Ba), Hg by auto. assert (X := Bp a Ha). lra.
    - intros a Ha Ba. destruct (Hw a Ha) as [_ W]. specialize (W ltac:(congruence)). rewrite stiffness_row in W by auto.
      assert (R := residual a Ha (Hi a Ha Ba)). rewrite <- W in R.
      rewrite (at_vertex_ext a (part _) (fun e i => k * part w e i + - k * part (fun b => u (x b)) e i + - tau * part (fun b => barrier (x b)) e i)).
      2:{ intros e i _ _ _. unfold part, Rdiv. ring. }
      rewrite !at_vertex_plus, !at_vertex_scal, barrier_row by auto. revert R. unfold Rabs at 1. destruct (Rcase_abs _); destruct Hk as [-> | ->]; lra. }
  intros a Ha. assert (X := One 1 (or_introl eq_refl) a Ha). assert (Y := One (-1) (or_intror eq_refl) a Ha). apply Rabs_le. lra.
Qed.
End Solution.
End Segments.

(* ------------------------------------------------------------------ C209 *)
Lemma tangent_line u u1 f f1 alpha beta F0 p q : poisson u u1 f f1 -> bounded_on alpha beta F0 f -> alpha <= p <= beta -> alpha <= q <= beta ->
  Rabs (u q - u p - u1 p * (q - p)) <= F0 / 2 * ((q - p) * (q - p)).
Proof.
  intros (D0 & D1 & _) HB Hp Hq. set (d := q - p). assert (Hq' : alpha <= p + d <= beta) by (unfold d; replace (p + (q - p)) with q by ring; auto).
  assert (In := segment_in alpha beta p d Hp Hq').
  assert (A : forall s, 0 <= s <= 1 -> Rabs (u1 (p + s * d) - u1 p) <= F0 * Rabs d * s ^ 1).
  { apply (integrate 0 (F0 * Rabs d) (fun s => u1 (p + s * d) - u1 p) (fun s => d * - f (p + s * d) - 0)).
    - intros t Ht. apply derivable_pt_lim_minus; [apply (dalong u1 (fun x => - f x)); auto|apply derivable_pt_lim_const].
    - replace (p + 0 * d) with p by ring. ring.
    - intros t Ht. rewrite Rminus_0_r, Rabs_mult, Rabs_Ropp. cbn [INR pow]. assert (X := HB _ (In t Ht)). assert (Rabs d * Rabs (f (p + t * d)) <= Rabs d * F0) by (apply Rmult_le_compat_l; [apply Rabs_pos|auto]). lra. }
  assert (B := integrate 1 (F0 * (d * d) / 2) (fun s => u (p + s * d) - u p - s * (d * u1 p)) (fun s => d * u1 (p + s * d) - 0 - (1 * (d * u1 p) + s * 0))). cbv beta in B.
  assert (C : Rabs (u (p + 1 * d) - u p - 1 * (d * u1 p)) <= F0 * (d * d) / 2 * 1 ^ 2).
  { apply B; [| | |lra].
    - intros t Ht. apply derivable_pt_lim_minus; [apply derivable_pt_lim_minus; [apply dalong; auto|apply derivable_pt_lim_const]|apply dlin].
    - replace (p + 0 * d) with p by ring. ring.
    - intros t Ht. replace (d * u1 (p + t * d) - 0 - (1 * (d * u1 p) + t * 0)) with (d * (u1 (p + t * d) - u1 p)) by ring. rewrite Rabs_mult.
      assert (X := A t Ht). assert (Y : Rabs d * Rabs (u1 (p + t * d) - u1 p) <= Rabs d * (F0 * Rabs d * t ^ 1)) by (apply Rmult_le_compat_l; [apply Rabs_pos|auto]).
      replace (Rabs d * (F0 * Rabs d * t ^ 1)) with (F0 * (Rabs d * Rabs d) * t ^ 1) in Y by ring. rewrite <- (Rabs_mult d d), (Rabs_right (d * d)) in Y by (apply Rle_ge, Rle_0_sqr). cbn [INR]. lra. }
  replace (p + 1 * d) with q in C by (unfold d; ring). replace (u q - u p - 1 * (d * u1 p)) with (u q - u p - u1 p * d) in C by ring. cbn [pow] in C. lra.
Qed.
Section Convergence.
Variables (nodes : list vec) (cells : list (list nat)) (pt : list (list nat)) (slv : (nat -> R) -> nat -> R) (rule : QuadModel.rule).
Hypothesis (HG : good_mesh 1 1 nodes cells) (HR : reference 1 1 pt slv rule) (HC : TriSpec.conforming cells).
Local Notation P := (problem1 1 1 nodes cells pt slv rule).
Local Notation x := (coordinate nodes).
Variables (u u1 f f1 : R -> R) (alpha beta K F0 F1 h : R).
Hypothesis (HP : poisson u u1 f f1) (HL : lipschitz_on alpha beta K f1) (H0 : bounded_on alpha beta F0 f) (H1 : bounded_on alpha beta F1 f1).
Hypothesis (HM : mesh_of_size nodes cells alpha beta h) (HK : 0 <= K) (Hh : 0 <= h).
(* the error: second order in h, and the rounding of the quadrature tables *)
Local Notation tau := (K * (h * h) / 5 + (F0 + F1 * h) / 10 ^ 14).
Theorem C209_nodes bdy lu g t : exact lu -> complete lu -> has_datum P g -> bdy 0%nat = true -> nodes <> [] ->
  (forall a, (a < length nodes)%nat -> bdy a = true -> dval g a 0%nat = u (x a)) ->
  (forall a, (a < length nodes)%nat -> bdy a = false -> interior_node 1 nodes cells a) ->
  (forall a, (a < length nodes)%nat -> exists b, (b < length nodes)%nat /\ bdy b = true /\ chain cells a b) ->
  exists s1 s2 s3 w, apply P bdy false lu (make_pde (DNeg Lap) (Callable (fun y => f (y 0%nat))) t) (SetBoundary g) = Ok s1 /\
    init P false s1 = Ok s2 /\ solve P bdy false lu s2 = Ok s3 /\ success s3 = true /\ solution s3 = [w] /\
    forall a, (a < length nodes)%nat -> Rabs (w a - u (x a)) <= tau * ((x a - alpha) * (beta - x a) / 2).
Proof.
  intros Hlu Hco Hg Hb Hne Hgu Hi Hch.
  destruct (C147_dirichlet 1 1 nodes cells pt slv rule HG HR bdy lu (DNeg Lap) (Callable (fun y => f (y 0%nat))) g t Hlu Hco I I (co_lap P)) as (s1 & s2 & s3 & w & E1 & E2 & E3 & E4 & E5 & Hu & _); auto.
  { split; cbn; auto. }
  exists s1, s2, s3, w. repeat (split; [assumption|]). 
  exact (error nodes cells pt slv rule HG HR HC u u1 f f1 alpha beta K F0 F1 h HP HL H0 H1 HM HK Hh bdy g w Hu Hgu Hi Hch).
Qed.
(* evaluated anywhere on the mesh *)
Theorem C209_everywhere bdy lu g t locate locs : exact lu -> complete lu -> has_datum P g -> bdy 0%nat = true -> nodes <> [] ->
  (forall a, (a < length nodes)%nat -> bdy a = true -> dval g a 0%nat = u (x a)) ->
  (forall a, (a < length nodes)%nat -> bdy a = false -> interior_node 1 nodes cells a) ->
  (forall a, (a < length nodes)%nat -> exists b, (b < length nodes)%nat /\ bdy b = true /\ chain cells a b) ->
  located P locate -> locs <> [] ->
  exists s1 s2 s3 w Psi D, apply P bdy false lu (make_pde (DNeg Lap) (Callable (fun y => f (y 0%nat))) t) (SetBoundary g) = Ok s1 /\
    init P false s1 = Ok s2 /\ solve P bdy false lu s2 = Ok s3 /\ success s3 = true /\ solution s3 = [w] /\
    pointwise_evaluation P (fun e => vertex nodes cells e 0) locate locs = Ok (Psi, D) /\
    forall i p e, nth_error locs i = Some p -> locate p = Some e -> in_simplex 1 1 (vertex nodes cells e) p ->
      Rabs (rsum (length nodes) (fun a => Psi i a * w a) - u (p 0%nat)) <= tau * ((beta - alpha) * (beta - alpha) / 8) + F0 / 2 * (h * h).
Proof.
  intros Hlu Hco Hg Hb Hne Hgu Hi Hch Hl Hlocs.
  destruct (C209_nodes bdy lu g t Hlu Hco Hg Hb Hne Hgu Hi Hch) as (s1 & s2 & s3 & w & E1 & E2 & E3 & E4 & E5 & Hw).
  destruct (C179_between 1 1 nodes cells pt slv rule HG HR locate locs Hl Hlocs) as (Psi & D & Ev & HB).
  destruct (C180_accuracy 1 1 nodes cells pt slv rule HG HR locate locs Hl Hlocs) as (Psi' & D' & Ev' & HA). rewrite Ev in Ev'. injection Ev' as <- <-.
  exists s1, s2, s3, w, Psi, D. repeat (split; [assumption|]). intros i p e Hp He Hin. destruct (HB i p e Hp He Hin) as (B1 & B2 & B3).
  assert (He' : (e < length cells)%nat) by exact (Hl p e He). assert (Hce := part_cell cells e He').
  assert (Hr : forall v, In v (nth e cells []) -> (v < length nodes)%nat) by (intros v Hv; exact (gm_range _ _ _ _ HG _ v Hce Hv)).
  destruct HM as [M1 M2].
  (* the matrix is exact on the coordinate *)
  assert (Xp : rsum (length nodes) (fun a => Psi i a * x a) = p 0%nat).
  { assert (X := HA i p e (fun y => y 0%nat) 0 h Hp He Hin). cbv beta in X.
    assert (Y : Rabs (rsum (length nodes) (fun a => Psi i a * x a) - p 0%nat) <= 0 / 2 * (h * h)).
    { apply X; [|lra|].
      - intros y. exists (fun _ => 1). intros z. cbn [rsum]. replace (z 0%nat - y 0%nat - (0 + 1 * (z 0%nat - y 0%nat))) with 0 by ring. rewrite Rabs_R0. lra.
      - intros a b Ha Hbb. unfold dist2, dot, vsub. cbn [rsum].
        assert (Z : Rabs (x (nth a (nth e cells []) 0%nat) - x (nth b (nth e cells []) 0%nat)) <= h) by (apply (M2 _ _ _ Hce); apply nth_In; destruct (gm_simplicial _ _ _ _ HG _ Hce) as [L _]; lia).
        change (vertex nodes cells e a 0%nat) with (x (nth a (nth e cells []) 0%nat)). change (vertex nodes cells e b 0%nat) with (x (nth b (nth e cells []) 0%nat)).
        set (r := x _ - x _) in *. clearbody r. assert (r * r <= h * h); [|lra]. replace (r * r) with (Rabs r * Rabs r) by (rewrite <- Rabs_mult; apply Rabs_right, Rle_ge, Rle_0_sqr).
        apply Rmult_le_compat; auto using Rabs_pos. }
    assert (Z := Rabs_pos (rsum (length nodes) (fun a => Psi i a * x a) - p 0%nat)). assert (Rabs (rsum (length nodes) (fun a => Psi i a * x a) - p 0%nat) = 0) by lra.
    destruct (Req_dec (rsum (length nodes) (fun a => Psi i a * x a) - p 0%nat) 0) as [Q|Q]; [lra|]. apply Rabs_no_R0 in Q. contradiction. }
  assert (Pin : alpha <= p 0%nat <= beta) by (rewrite <- Xp; apply B3; intros v Hv; apply M1; auto).
  assert (Pnear : forall v, In v (nth e cells []) -> Rabs (x v - p 0%nat) <= h).
  { intros v Hv. assert (X := B3 x (x v - h) (x v + h)). rewrite Xp in X. assert (x v - h <= p 0%nat <= x v + h); [|apply Rabs_le; lra].
    apply X. intros v' Hv'. assert (Y := M2 _ v v' Hce Hv Hv'). revert Y. unfold Rabs. destruct (Rcase_abs _); lra. }
  set (c := fun v => w v - u (p 0%nat) - u1 (p 0%nat) * (x v - p 0%nat)).
  assert (Ec : rsum (length nodes) (fun a => Psi i a * w a) - u (p 0%nat) = rsum (length nodes) (fun a => Psi i a * c a)).
  { rewrite (rsum_ext _ (fun a => Psi i a * c a) (fun a => Psi i a * w a - (u (p 0%nat) - u1 (p 0%nat) * p 0%nat) * Psi i a - u1 (p 0%nat) * (Psi i a * x a))) by (intros; unfold c; ring).
    rewrite !rsum_minus, !rsum_scal, B2, Xp. ring. }
  rewrite Ec. set (bound := tau * ((beta - alpha) * (beta - alpha) / 8) + F0 / 2 * (h * h)).
  assert (- bound <= rsum (length nodes) (fun a => Psi i a * c a) <= bound); [|apply Rabs_le; lra].
  apply B3. intros v Hv. assert (X := Hw v (Hr v Hv)). assert (T := tangent_line u u1 f f1 alpha beta F0 (p 0%nat) (x v) HP H0 Pin (M1 v (Hr v Hv))).
  assert (b0 := H0 _ Pin). assert (b1 := H1 _ Pin).
  assert (F0p : 0 <= F0) by (apply Rle_trans with (2 := b0); apply Rabs_pos). assert (F1p : 0 <= F1) by (apply Rle_trans with (2 := b1); apply Rabs_pos).
  assert (Tp : 0 <= tau).
  { assert (0 <= K * (h * h)) by (apply Rmult_le_pos; [auto|apply Rle_0_sqr]). assert (0 <= F1 * h) by (apply Rmult_le_pos; auto).
    apply Rplus_le_le_0_compat; [lra|]. apply Rmult_le_pos; [lra|]. left. apply Rinv_0_lt_compat, pow_lt. lra. }
  assert (X' : tau * ((x v - alpha) * (beta - x v) / 2) <= tau * ((beta - alpha) * (beta - alpha) / 8)).
  { apply Rmult_le_compat_l; [auto|]. assert (Z := Rle_0_sqr (x v - (alpha + beta) / 2)). unfold Rsqr in Z.
    replace ((beta - alpha) * (beta - alpha) / 8) with ((x v - alpha) * (beta - x v) / 2 + (x v - (alpha + beta) / 2) * (x v - (alpha + beta) / 2) / 2) by field. lra. }
  assert (T' : F0 / 2 * ((x v - p 0%nat) * (x v - p 0%nat)) <= F0 / 2 * (h * h)).
  { apply Rmult_le_compat_l; [lra|]. assert (Z := Pnear v Hv). set (r := x v - p 0%nat) in *. replace (r * r) with (Rabs r * Rabs r) by (rewrite <- Rabs_mult; apply Rabs_right, Rle_ge, Rle_0_sqr). apply Rmult_le_compat; auto using Rabs_pos. }
  assert (Y : Rabs (c v) <= bound).
  { unfold c, bound. replace (w v - u (p 0%nat) - u1 (p 0%nat) * (x v - p 0%nat)) with ((w v - u (x v)) + (u (x v) - u (p 0%nat) - u1 (p 0%nat) * (x v - p 0%nat))) by ring.
    eapply Rle_trans; [apply Rabs_triang|]. apply Rplus_le_compat; [exact (Rle_trans _ _ _ X X')|exact (Rle_trans _ _ _ T T')]. }
  revert Y. unfold Rabs. destruct (Rcase_abs _); lra.
Qed.
End Convergence.

(* ------------------------------------------------------------------ the sine on [0, 1], on m equal segments *)
Definition grid_nodes (m : nat) : list vec := map (fun i => (fun _ : nat => INR i / INR m) : vec) (seq 0 (S m)).
Definition grid_cells (m : nat) : list (list nat) := map (fun i => [i; S i]) (seq 0 m).
Definition ends (m a : nat) : bool := Nat.eqb a 0 || Nat.eqb a m.
Definition sine_datum (m : nat) : dmat := {| drows := S m; dcols := 1; dval := fun i _ => sin (INR i / INR m) |}.
Section Uniform.
Variable m : nat.
Hypothesis Hm : (0 < m)%nat.
Lemma grid_place i : (i <= m)%nat -> coordinate (grid_nodes m) i = INR i / INR m.
Proof.
  intros Hi. unfold coordinate, place, grid_nodes. erewrite nth_indep by (rewrite map_length, seq_length; lia).
  rewrite (map_nth (fun i => (fun _ : nat => INR i / INR m) : vec) (seq 0 (S m)) 0%nat). rewrite seq_nth by lia. reflexivity.
Qed.
Lemma grid_length : length (grid_nodes m) = S m.
Proof. unfold grid_nodes. now rewrite map_length, seq_length. Qed.
Lemma grid_cell c : In c (grid_cells m) -> exists i, (i < m)%nat /\ c = [i; S i].
Proof. intros H. apply in_map_iff in H as (i & <- & Hi). apply in_seq in Hi. exists i. split; [lia|auto]. Qed.
Lemma grid_in i : (i < m)%nat -> In [i; S i] (grid_cells m).
Proof. intros H. apply in_map_iff. exists i. split; [auto|]. apply in_seq. lia. Qed.
Lemma m_pos : 0 < INR m.
Proof. apply lt_0_INR. auto. Qed.
Lemma grid_gap i : (i < m)%nat -> coordinate (grid_nodes m) (S i) = coordinate (grid_nodes m) i + 1 / INR m.
Proof. intros Hi. rewrite !grid_place by lia. rewrite S_INR. field. assert (X := m_pos). lra. Qed.
Lemma grid_good : good_mesh 1 1 (grid_nodes m) (grid_cells m).
Proof.
  assert (X := m_pos). assert (Y : 0 < 1 / INR m) by (apply Rdiv_lt_0_compat; lra). split.
  - cbn. tauto.
  - intros c Hc. destruct (grid_cell c Hc) as (i & Hi & ->). split; [reflexivity|]. constructor; [intros [?|[]]; lia|]. constructor; [auto|constructor].
  - intros c v Hc Hv. destruct (grid_cell c Hc) as (i & Hi & ->). rewrite grid_length. cbn in Hv. lia.
  - intros c Hc. destruct (grid_cell c Hc) as (i & Hi & ->). intros y Hy [|k] Hk; [|lia]. specialize (Hy 0%nat ltac:(lia)). cbn [rsum nth] in Hy.
    change (nth (S i) (grid_nodes m) (fun _ => 0) 0%nat) with (coordinate (grid_nodes m) (S i)) in Hy. change (nth i (grid_nodes m) (fun _ => 0) 0%nat) with (coordinate (grid_nodes m) i) in Hy.
    rewrite grid_gap in Hy by auto. assert (E : 1 / INR m * y 0%nat = 0) by lra. apply Rmult_integral in E as [E|E]; [lra|auto].
Qed.
Lemma grid_conforming : TriSpec.conforming (grid_cells m).
Proof.
  assert (F : forall e i, TriSpec.cell_has (grid_cells m) i e -> exists v, e = [v] /\ (v = i \/ v = S i)).
  { intros e i (c & Hc & _ & L & Hin). unfold grid_cells in Hc. rewrite nth_error_map in Hc. destruct (nth_error (seq 0 m) i) as [j|] eqn:E; [|discriminate]. cbn in Hc. injection Hc as <-.
    assert (Hi : (i < m)%nat) by (rewrite <- (seq_length m 0); apply nth_error_Some; congruence). rewrite (nth_error_nth' _ 0%nat), seq_nth in E by (rewrite ?seq_length; lia). injection E as <-. cbn in L.
    destruct e as [|v [|? ?]]; cbn in L; try lia. exists v. split; [auto|]. specialize (Hin v (or_introl eq_refl)). cbn in Hin. lia. }
  intros e i1 i2 i3 H1 H2 H3. destruct (F _ _ H1) as (v & -> & V1). destruct (F _ _ H2) as (v2 & E2 & V2). destruct (F _ _ H3) as (v3 & E3 & V3). injection E2 as <-. injection E3 as <-. lia.
Qed.
Lemma grid_interior a : (0 < a < m)%nat -> interior_node 1 (grid_nodes m) (grid_cells m) a.
Proof.
  intros Ha c b Hc Hac Hbc Hne. destruct (grid_cell c Hc) as (i & Hi & ->). assert (X := m_pos). assert (Y : 0 < 1 / INR m) by (apply Rdiv_lt_0_compat; lra).
  cbn in Hac, Hbc. destruct Hac as [->|[<-|[]]].
  - assert (b = S a) by lia. subst b. exists [a - 1; S (a - 1)]%nat, (a - 1)%nat. split; [apply grid_in; lia|]. split; [cbn; tauto|]. split.
    + intros v. unfold on_face. cbn. split; lia.
    + exists (fun _ => 1), (coordinate (grid_nodes m) a). cbn [rsum]. fold (coordinate (grid_nodes m) (S a)) (coordinate (grid_nodes m) (a - 1)). rewrite grid_gap by lia.
      assert (G := grid_gap (a - 1) ltac:(lia)). replace (S (a - 1)) with a in G by lia. split; [|lra].
      intros v [Hv Hn]. assert (v = a) by (cbn in Hv; lia). subst v. change (place (grid_nodes m) a 0%nat) with (coordinate (grid_nodes m) a). ring.
  - assert (b = i) by lia. subst b. exists [S i; S (S i)]%nat, (S (S i)). split; [apply grid_in; lia|]. split; [cbn; tauto|]. split.
    + intros v. unfold on_face. cbn. split; lia.
    + exists (fun _ => -1), (- coordinate (grid_nodes m) (S i)). cbn [rsum]. fold (coordinate (grid_nodes m) (S (S i))) (coordinate (grid_nodes m) i). rewrite (grid_gap (S i)) by lia. rewrite (grid_gap i) by lia. split; [|lra].
      intros v [Hv Hn]. assert (v = S i) by (cbn in Hv; lia). subst v. change (place (grid_nodes m) (S i) 0%nat) with (coordinate (grid_nodes m) (S i)). rewrite (grid_gap i) by lia. ring.
Qed.
Lemma grid_chain a : (a <= m)%nat -> chain (grid_cells m) a 0%nat.
Proof.
  induction a as [|a IH]; intros Ha; [constructor|]. apply (chain_step _ [a; S a] _ a); [apply grid_in; lia|cbn; tauto|cbn; tauto|apply IH; lia].
Qed.
Lemma grid_size : mesh_of_size (grid_nodes m) (grid_cells m) 0 1 (1 / INR m).
Proof.
  assert (X := m_pos). assert (Y : 0 < 1 / INR m) by (apply Rdiv_lt_0_compat; lra). split.
  - intros a Ha. rewrite grid_length in Ha. rewrite grid_place by lia. assert (Z := pos_INR a). assert (Z2 : INR a <= INR m) by (apply le_INR; lia). split.
    + apply Rmult_le_pos; [auto|]. left. now apply Rinv_0_lt_compat.
    + apply (Rmult_le_reg_r (INR m)); [auto|]. unfold Rdiv. rewrite Rmult_assoc, Rinv_l by lra. lra.
  - intros c a b Hc Ha Hb. destruct (grid_cell c Hc) as (i & Hi & ->). cbn in Ha, Hb. 
    destruct Ha as [<-|[<-|[]]], Hb as [<-|[<-|[]]]; rewrite ?grid_gap by auto; apply Rabs_le; lra.
Qed.
Lemma sine_poisson : poisson sin cos sin cos.
Proof. split; [exact derivable_pt_lim_sin|split; [exact derivable_pt_lim_cos|exact derivable_pt_lim_sin]]. Qed.
Lemma cos_lipschitz : lipschitz_on 0 1 1 cos.
Proof.
  assert (G : forall y z, y < z -> Rabs (cos z - cos y) <= 1 * Rabs (z - y)).
  { intros y z H. destruct (MVT_cor2 cos (fun x => - sin x) y z H) as (c & E & _); [intros; apply derivable_pt_lim_cos|].
    rewrite E, Rabs_mult. apply Rmult_le_compat_r; [apply Rabs_pos|]. rewrite Rabs_Ropp. apply Rabs_le. apply SIN_bound. }
  intros y z _ _. destruct (Rtotal_order y z) as [H|[->|H]].
  - rewrite (Rabs_minus_sym (cos y)), (Rabs_minus_sym y). auto.
  - rewrite !Rminus_diag_eq by auto. rewrite Rabs_R0. lra.
  - auto.
Qed.
End Uniform.
(* the method converges: the error on m segments is at most 1 / (40 m^2), up to the rounding of the tables *)
Theorem C209_sine m pt slv rule lu t : (0 < m)%nat -> reference 1 1 pt slv rule -> exact lu -> complete lu ->
  let P := problem1 1 1 (grid_nodes m) (grid_cells m) pt slv rule in
  exists s1 s2 s3 w, apply P (ends m) false lu (make_pde (DNeg Lap) (Callable (fun y => sin (y 0%nat))) t) (SetBoundary (sine_datum m)) = Ok s1 /\
    init P false s1 = Ok s2 /\ solve P (ends m) false lu s2 = Ok s3 /\ success s3 = true /\ solution s3 = [w] /\
    forall i, (i <= m)%nat -> Rabs (w i - sin (INR i / INR m)) <= 1 / (40 * INR m ^ 2) + 1 / 10 ^ 14.
Proof.
  intros Hm HR Hlu Hco P. assert (X := m_pos m Hm).
  assert (X1 : 1 <= INR m) by (change 1 with (INR 1); apply le_INR; lia).
  assert (Y : 0 < 1 / INR m <= 1). { split; [apply Rdiv_lt_0_compat; lra|]. apply (Rmult_le_reg_r (INR m)); [auto|]. unfold Rdiv. rewrite Rmult_assoc, Rinv_l by lra. lra. }
  destruct (C209_nodes (grid_nodes m) (grid_cells m) pt slv rule (grid_good m Hm) HR (grid_conforming m Hm) sin cos sin cos 0 1 1 1 1 (1 / INR m)
    sine_poisson cos_lipschitz) with (bdy := ends m) (lu := lu) (g := sine_datum m) (t := t) as (s1 & s2 & s3 & w & E1 & E2 & E3 & E4 & E5 & Hw).
  - intros y _. apply Rabs_le. apply SIN_bound.
  - intros y _. apply Rabs_le. apply COS_bound.
  - now apply grid_size.
  - lra.
  - lra.
  - auto.
  - auto.
  - split; [change (length (grid_nodes m) <= S m)%nat; rewrite grid_length; lia|cbn; lia].
  - reflexivity.
  - discriminate.
  - intros a Ha _. rewrite grid_length in Ha. rewrite grid_place by lia. reflexivity.
  - intros a Ha Hb. rewrite grid_length in Ha. unfold ends in Hb. apply orb_false_iff in Hb as [B1 B2]. apply Nat.eqb_neq in B1, B2. apply grid_interior; lia.
  - intros a Ha. rewrite grid_length in *. exists 0%nat. split; [lia|]. split; [reflexivity|]. apply grid_chain; lia.
  - exists s1, s2, s3, w. repeat (split; [assumption|]). intros i Hi. specialize (Hw i ltac:(rewrite grid_length; lia)). rewrite grid_place in Hw by lia.
    eapply Rle_trans; [exact Hw|]. set (z := INR i / INR m). set (k := 1 / INR m) in *.
    replace (1 / (40 * INR m ^ 2)) with (k * k / 40) by (unfold k; field; lra).
    assert (Z := Rle_0_sqr (z - 1 / 2)). unfold Rsqr in Z.
    assert (B : (z - 0) * (1 - z) / 2 <= 1 / 8) by lra.
    replace ((1 + 1 * k) / 10 ^ 14) with (1 / 10 ^ 14 + 1 / 10 ^ 14 * k) by field.
    assert (Ep : 0 < 1 / 10 ^ 14) by (apply Rdiv_lt_0_compat; [lra|apply pow_lt; lra]). revert Ep. generalize (1 / 10 ^ 14). intros ep Ep.
    assert (0 <= k * k) by apply Rle_0_sqr. assert (ep * k <= ep * 1) by (apply Rmult_le_compat_l; lra). assert (0 <= ep * k) by (apply Rmult_le_pos; lra).
    apply Rle_trans with ((1 * (k * k) / 5 + (ep + ep * k)) * (1 / 8)); [apply Rmult_le_compat_l; lra|lra].
Qed.
Example C209_example : (exists pt slv rule, reference 1 1 pt slv rule) /\ exact some_lu /\ complete some_lu.
Proof. split; [apply reference_exists; cbn; tauto|split; [apply some_lu_exact|exact some_lu_complete]]. Qed.
Print Assumptions C209_nodes.
Print Assumptions C209_everywhere.
Print Assumptions C209_sine.
