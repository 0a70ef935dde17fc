(* C232: the solution computed by the elliptic solver in double arithmetic satisfies the exact Galerkin equations up to the errors of assembly and linear solver. *)
From Coq Require Import Reals Lra Lia List Bool ZArith.
From Flocq Require Import Core IEEE754.BinarySingleNaN Relative Plus_error.
From Verif Require Import Base RSum SimplexModel FloatCellModel FloatPlaneModel FloatMeasureModel FloatFemModel FloatAssemblyModel FloatLoadModel FloatMassModel FloatFem3Model FloatOperModel FloatGalerkinModel FloatLinspaceModel SymbolsModel SymbolsProps FloatModel FloatProps FloatSearch FloatSplineModel FloatSpline FloatDiffModel FloatDiff FloatCell FloatPlane FloatMeasure FloatFem FloatAssembly FloatLoad FloatMass FloatFem3 FloatOper FloatStepModel FloatStep.
Import ListNotations.
Open Scope R_scope.

(* ---- specification ---- *)
(* the exact matrix a(psi_j, psi_i) and vector F(psi_i) given by the quadrature rule, and the same with absolute values *)
Definition galerkin (d nb n : nat) (w : nat -> double) (g : nat -> nat -> nat -> double) (phi : nat -> nat -> double) (op : f_op) (mesh : list mesh_cell) (r s : nat) : R :=
  gathered nb (fun e c i j => integral d n (fun q => B2 (w q)) (fun q i s => B2 (g q i s)) (fun i q => B2 (phi i q)) op e (span c) i j) mesh r s.
Definition agalerkin (d nb n : nat) (w : nat -> double) (g : nat -> nat -> nat -> double) (phi : nat -> nat -> double) (op : f_op) (mesh : list mesh_cell) (r s : nat) : R :=
  gathered nb (fun e c i j => aintegral d n (fun q => B2 (w q)) (fun q i s => B2 (g q i s)) (fun i q => B2 (phi i q)) op e (span c) i j) mesh r s.
Definition load (d nb n : nat) (w : nat -> double) (phi : nat -> nat -> double) (v : nat -> double) (mesh : list mesh_cell) (r : nat) : R :=
  assembled nb (fun e c i => quadrature d n (fun q => B2 (w q)) (fun q => B2 (phi i q)) (fun k => B2 (v k)) e (span c)) mesh r.
Definition aload (d nb n : nat) (w : nat -> double) (phi : nat -> nat -> double) (v : nat -> double) (mesh : list mesh_cell) (r : nat) : R :=
  assembled nb (fun e c i => quadrature d n (fun q => Rabs (B2 (w q))) (fun q => Rabs (B2 (phi i q))) (fun k => Rabs (B2 (v k))) e (span c)) mesh r.

Section C232.
Variables (lu : (nat -> nat -> double) -> (nat -> double) -> nat -> double) (bc : bool) (bdy : nat -> bool) (b : nat -> double).
Variables (left : bool) (d nb n nd : nat) (w : nat -> double) (g : nat -> nat -> nat -> double) (phi : nat -> nat -> double) (op : f_op) (v : nat -> double) (mesh : list mesh_cell) (kappa eps delta G : R).
Hypothesis Hd : (d = 2 \/ d = 3)%nat.
Hypothesis Hc : forall e, In e mesh -> good_cell d kappa (fst e) /\ forall q i r, (q < n)%nat -> (i < nb)%nat -> (r < d)%nat -> cell_agradient d (span (fst e)) (fun s => B2 (g q i s)) r <= bpow radix2 150.
Hypothesis HK : 1 <= kappa <= 2 ^ 20.
Hypothesis Hn : (n <= 50)%nat.
Hypothesis Hw : forall q, (q < n)%nat -> fin (w q) = true /\ Rabs (B2 (w q)) <= 1.
Hypothesis Hg : forall q i s, (q < n)%nat -> (s < d)%nat -> fin (g q i s) = true /\ Rabs (B2 (g q i s)) <= 1024.
Hypothesis Hphi : forall i q, (i < nb)%nat -> (q < n)%nat -> fin (phi i q) = true /\ Rabs (B2 (phi i q)) <= 1024.
Hypothesis Hop : small_coefficients d (length mesh * n) op.
Hypothesis Hsize : (op_size op <= 10)%nat.
Hypothesis Hsym : f_symmetric op = true -> symmetric_tensors op.
Hypothesis Hv : forall k, (k < length mesh * n)%nat -> fin (v k) = true /\ Rabs (B2 (v k)) <= 2 ^ 300.
Hypothesis Hm : forall r s, (r < nd)%nat -> (s < nd)%nat -> (meetings nb mesh r s <= 2 ^ 20)%nat.
Hypothesis Hi : forall r, (r < nd)%nat -> (incidences nb mesh r <= 2 ^ 20)%nat.
Hypothesis He : 0 <= eps <= 1.
(* the linear solver is backward stable for the matrix it is given, and the right hand side is in the range where it is *)
Hypothesis Hlu : backward_stable nd lu (f_dirichlet_matrix bc bdy (f_operator left d nb n w g phi op mesh)) eps delta G.
Hypothesis Hb : forall r, (r < nd)%nat -> fin (b r) = true /\ Rabs (B2 (b r)) <= G.
Hypothesis HG : forall r, (r < nd)%nat -> 2 * aload d nb n w phi v mesh r + 1 <= G.
Let x := f_elliptic lu bc bdy b left d nb n w g phi op v mesh.
Let entry r s := f_operator left d nb n w g phi op mesh r s.
Lemma load_error r : (r < nd)%nat -> fin (f_forcing d nb n w phi v mesh r) = true /\ Rabs (B2 (f_forcing d nb n w phi v mesh r) - load d nb n w phi v mesh r) <=
  (3 * INR n + 20 * kappa + 3 * INR (incidences nb mesh r) + 3) * u * aload d nb n w phi v mesh r + 2 * INR (incidences nb mesh r) * bpow radix2 (-700).
Proof using All.
  intros Hr. assert (HC : forall e, In e mesh -> cell_ok d d (fst e) /\ volume d (span (fst e)) <> 0 /\ terms d (span (fst e)) <= kappa * Rabs (volume d (span (fst e)))).
  { intros e H. destruct (Hc e H) as [GC _]. unfold good_cell in GC. clear - Hd GC Hn Hw Hg. destruct Hd as [-> | ->]; cbn [Nat.eqb] in GC; [exact GC|]. split; [exact (ok3 n w g _ kappa GC Hn Hw Hg)|exact (proj2 (proj2 GC))]. }
  exact (C227_accuracy d nb n w phi v mesh kappa ltac:(lia) HC ltac:(lra) ltac:(lia) Hw Hphi Hv r (Hi r Hr)).
Qed.
Lemma matrix_entry r s : (r < nd)%nat -> (s < nd)%nat -> fin (entry r s) = true /\ Rabs (B2 (entry r s) - galerkin d nb n w g phi op mesh r s) <=
  (3 * INR n + 140 * kappa + 3 * INR (meetings nb mesh r s)) * u * agalerkin d nb n w g phi op mesh r s + 2 * INR (meetings nb mesh r s) * bpow radix2 (-250).
Proof using All. intros Hr Hs. exact (C230_accuracy left d nb n w g phi op mesh kappa Hd Hc HK Hn Hw Hg Hphi Hop Hsize r s Hsym (Hm r s Hr Hs)). Qed.
Lemma galerkin_abs r s : Rabs (galerkin d nb n w g phi op mesh r s) <= agalerkin d nb n w g phi op mesh r s.
Proof using All.
  unfold galerkin, agalerkin. rewrite !gathered_items. apply Rle_trans with (1 := lsum_abs _). rewrite map_map. apply lsum_le. intros h Hh. destruct (items2_in _ _ _ _ _ Hh) as (dof & H1 & H2 & H3 & _).
  unfold at2c. exact (proj2 (proj2 (proj2 (local_op_ok left d nb n w g phi op mesh kappa Hd Hc HK Hn Hw Hg Hphi Hop Hsize _ _ dof _ _ H1 H2 H3)))).
Qed.
Lemma quadrature_abs W P V e J : Rabs (quadrature d n W P V e J) <= quadrature d n (fun q => Rabs (W q)) (fun q => Rabs (P q)) (fun k => Rabs (V k)) e J.
Proof using All.
  unfold quadrature. assert (Pf : 0 < INR (fact d)) by apply INR_fact_lt_0. assert (0 <= Rabs (volume d J) / INR (fact d)) by (apply Rmult_le_pos; [apply Rabs_pos|apply Rlt_le, Rinv_0_lt_compat; lra]).
  rewrite Rabs_mult, (Rabs_pos_eq (_ / _)) by auto. apply Rmult_le_compat_r; auto. apply Rle_trans with (1 := rsum_abs _ _). apply Req_le, rsum_ext. intros. now rewrite !Rabs_mult.
Qed.
Lemma load_abs r : Rabs (load d nb n w phi v mesh r) <= aload d nb n w phi v mesh r.
Proof using All. unfold load, aload. rewrite !assembled_items. apply Rle_trans with (1 := lsum_abs _). rewrite map_map. apply lsum_le. intros h _. unfold term_at. apply (quadrature_abs (fun q => B2 (w q)) (fun q => B2 (phi (snd h) q)) (fun k => B2 (v k))). Qed.
Lemma small_factor a m : 0 <= a <= 200 -> (m <= 2 ^ 20)%nat -> 0 <= (3 * INR n + a * kappa + 3 * INR m + 3) * u <= / 100.
Proof using All.
  intros Ha H. assert (Pu := u_pos). assert (N50 : 0 <= INR n <= 50) by (split; [apply pos_INR|]; replace 50 with (INR 50) by (cbn; lra); now apply le_INR). assert (M20 : 0 <= INR m <= 1048576). { split; [apply pos_INR|]. apply Rle_trans with (INR (2 ^ 20)); [now apply le_INR|]. rewrite pow_INR. replace (INR 2) with 2 by (cbn; ring). lra. }
  assert (ak : 0 <= a * kappa <= 200 * 1048576) by (split; [apply Rmult_le_pos; lra|apply Rmult_le_compat; lra]). split; [apply Rmult_le_pos; lra|]. apply Rle_trans with ((3 * 50 + 200 * 1048576 + 3 * 1048576 + 3) * u); [apply Rmult_le_compat_r; lra|rewrite u_small; lra].
Qed.
Lemma rhs_ok r : (r < nd)%nat -> fin (f_dirichlet_force bc bdy (f_forcing d nb n w phi v mesh) b r) = true /\ Rabs (B2 (f_dirichlet_force bc bdy (f_forcing d nb n w phi v mesh) b r)) <= G.
Proof using All.
  intros Hr. unfold f_dirichlet_force. destruct (bc && f_visited bdy r); [now apply Hb|]. destruct (load_error r Hr) as [F E]. split; auto. assert (L := load_abs r). assert (S := small_factor 20 _ ltac:(lra) (Hi r Hr)). assert (HGr := HG r Hr). set (A := aload d nb n w phi v mesh r) in *. set (l := load d nb n w phi v mesh r) in *. assert (PA := Rabs_pos l).
  assert (T : 2 * INR (incidences nb mesh r) * bpow radix2 (-700) <= 1). { assert (I20 : 0 <= INR (incidences nb mesh r) <= bpow radix2 20). { split; [apply pos_INR|]. apply Rle_trans with (INR (2 ^ 20)); [now apply le_INR, Hi|]. rewrite pow_INR. replace (INR 2) with 2 by (cbn; ring). cbn. lra. } apply Rle_trans with (bpow radix2 21 * bpow radix2 (-700)); [apply Rmult_le_compat_r; [apply bpow_ge_0|change 21%Z with (1 + 20)%Z; rewrite bpow_plus; change (bpow radix2 1) with 2; lra]|]. rewrite <- bpow_plus. apply (bpow_le radix2 _ 0). lia. }
  assert (Q : (3 * INR n + 20 * kappa + 3 * INR (incidences nb mesh r) + 3) * u * A <= / 100 * A) by (apply Rmult_le_compat_r; lra). set (ff := B2 (f_forcing d nb n w phi v mesh r)) in *. replace ff with ((ff - l) + l) by ring. apply Rle_trans with (1 := Rabs_triang _ _). lra.
Qed.
(* C232: with boundary data, the boundary values (and that of the first degree of freedom) are the given ones up to eps *)
Theorem C232_boundary r : (r < nd)%nat -> bc = true -> r = 0%nat \/ bdy r = true -> Rabs (B2 (x r) - B2 (b r)) <= eps * Rabs (B2 (x r)) + delta.
Proof using All.
  intros Hr Hbc V. assert (V' : bc && f_visited bdy r = true) by (rewrite Hbc; unfold f_visited; destruct V as [-> | ->]; [reflexivity|apply orb_true_r]).
  assert (R : forall s, (s < nd)%nat -> B2 (f_dirichlet_matrix bc bdy (f_operator left d nb n w g phi op mesh) r s) = if (r =? s)%nat then 1 else 0).
  { intros s Hs. unfold f_dirichlet_matrix. rewrite V'. destruct (r =? s)%nat; [apply B2_d1|]. destruct (matrix_entry r s Hr Hs) as [F _]. unfold entry in F. assert (Z : B2 (f_operator left d nb n w g phi op mesh r s) * B2 d0 = 0) by (change (B2 d0) with 0; ring). destruct (dmul_ok _ d0 0 ltac:(lia) F eq_refl) as [_ ->]; [rewrite Z, Rabs_R0; apply bpow_ge_0|]. rewrite Z. unfold rnd. apply round_0; auto with typeclass_instances. }
  assert (B := Hlu _ rhs_ok r Hr). fold (f_elliptic lu bc bdy b left d nb n w g phi op v mesh) in B. fold x in B. rewrite (rsum_single nd _ r Hr), (rsum_single nd (fun s => Rabs _ * _) r Hr), !(R r Hr), Nat.eqb_refl, Rabs_R1, !Rmult_1_l in B.
  - unfold f_dirichlet_force in B. now rewrite V' in B.
  - intros s Hs N. rewrite (R s Hs). destruct (Nat.eqb_spec r s); [congruence|]. rewrite Rabs_R0. ring.
  - intros s Hs N. rewrite (R s Hs). destruct (Nat.eqb_spec r s); [congruence|]. ring.
Qed.
(* C232: every other row of the exact Galerkin system is satisfied up to the errors of the assembly and of the linear solver *)
Theorem C232_galerkin r : (r < nd)%nat -> bc = false \/ (r <> 0%nat /\ bdy r = false) ->
  Rabs (rsum nd (fun s => galerkin d nb n w g phi op mesh r s * B2 (x s)) - load d nb n w phi v mesh r) <=
    rsum nd (fun s => ((2 * eps + (3 * INR n + 140 * kappa + 3 * INR (meetings nb mesh r s)) * u) * agalerkin d nb n w g phi op mesh r s + 4 * INR (meetings nb mesh r s) * bpow radix2 (-250)) * Rabs (B2 (x s)))
    + (3 * INR n + 20 * kappa + 3 * INR (incidences nb mesh r) + 3) * u * aload d nb n w phi v mesh r + 2 * INR (incidences nb mesh r) * bpow radix2 (-700) + delta.
Proof using All.
  intros Hr V. assert (V' : bc && f_visited bdy r = false). { destruct V as [-> | [H0 H1]]; [reflexivity|]. unfold f_visited. rewrite H1. destruct r; [congruence|]. now rewrite andb_false_r. }
  assert (B := Hlu _ rhs_ok r Hr). fold (f_elliptic lu bc bdy b left d nb n w g phi op v mesh) in B. fold x in B. unfold f_dirichlet_force in B. rewrite V' in B.
  assert (R : forall s, f_dirichlet_matrix bc bdy (f_operator left d nb n w g phi op mesh) r s = entry r s) by (intros s; unfold f_dirichlet_matrix; now rewrite V').
  rewrite (rsum_ext nd _ (fun s => B2 (entry r s) * B2 (x s))) in B by (intros; now rewrite R). rewrite (rsum_ext nd (fun s => Rabs _ * _) (fun s => Rabs (B2 (entry r s)) * Rabs (B2 (x s)))) in B by (intros; now rewrite R).
  destruct (load_error r Hr) as [_ EL]. set (ff := B2 (f_forcing d nb n w phi v mesh r)) in *. set (l := load d nb n w phi v mesh r) in *. assert (P250 := bpow_gt_0 radix2 (-250)).
  set (T := fun s => (3 * INR n + 140 * kappa + 3 * INR (meetings nb mesh r s)) * u * agalerkin d nb n w g phi op mesh r s + 2 * INR (meetings nb mesh r s) * bpow radix2 (-250)).
  assert (D : Rabs (rsum nd (fun s => galerkin d nb n w g phi op mesh r s * B2 (x s)) - rsum nd (fun s => B2 (entry r s) * B2 (x s))) <= rsum nd (fun s => T s * Rabs (B2 (x s)))).
  { rewrite <- rsum_minus. apply Rle_trans with (1 := rsum_abs _ _). apply rsum_le. intros s Hs. replace (galerkin d nb n w g phi op mesh r s * B2 (x s) - B2 (entry r s) * B2 (x s)) with (- (B2 (entry r s) - galerkin d nb n w g phi op mesh r s) * B2 (x s)) by ring. rewrite Rabs_mult, Rabs_Ropp. apply Rmult_le_compat_r; [apply Rabs_pos|]. apply (matrix_entry r s Hr Hs). }
  assert (Q : eps * rsum nd (fun s => Rabs (B2 (entry r s)) * Rabs (B2 (x s))) <= rsum nd (fun s => (2 * eps * agalerkin d nb n w g phi op mesh r s + 2 * INR (meetings nb mesh r s) * bpow radix2 (-250)) * Rabs (B2 (x s)))).
  { rewrite <- rsum_scal. apply rsum_le. intros s Hs. rewrite <- Rmult_assoc. apply Rmult_le_compat_r; [apply Rabs_pos|]. destruct (matrix_entry r s Hr Hs) as [_ E]. assert (GA := galerkin_abs r s). assert (SF := small_factor 140 _ ltac:(lra) (Hm r s Hr Hs)). assert (Pu := u_pos). set (ag := agalerkin d nb n w g phi op mesh r s) in *. set (ga := galerkin d nb n w g phi op mesh r s) in *. assert (Pg := Rabs_pos ga). set (y := 2 * INR (meetings nb mesh r s) * bpow radix2 (-250)) in *.
    assert (Py : 0 <= y) by (unfold y; apply Rmult_le_pos; [apply Rmult_le_pos; [lra|apply pos_INR]|lra]). assert (Z : (3 * INR n + 140 * kappa + 3 * INR (meetings nb mesh r s)) * u * ag <= 1 * ag) by (apply Rmult_le_compat_r; lra).
    assert (K : Rabs (B2 (entry r s)) <= 2 * ag + y) by (replace (B2 (entry r s)) with ((B2 (entry r s) - ga) + ga) by ring; apply Rle_trans with (1 := Rabs_triang _ _); lra).
    apply Rle_trans with (eps * (2 * ag + y)); [apply Rmult_le_compat_l; lra|]. assert (eps * y <= 1 * y) by (apply Rmult_le_compat_r; lra). lra. }
  set (ga := rsum nd (fun s => galerkin d nb n w g phi op mesh r s * B2 (x s))) in *. set (en := rsum nd (fun s => B2 (entry r s) * B2 (x s))) in *.
  rewrite (rsum_ext nd _ (fun s => T s * Rabs (B2 (x s)) + (2 * eps * agalerkin d nb n w g phi op mesh r s + 2 * INR (meetings nb mesh r s) * bpow radix2 (-250)) * Rabs (B2 (x s)))) by (intros; unfold T; ring). rewrite rsum_plus.
  replace (ga - l) with ((ga - en) + (en - ff) + (ff - l)) by ring. apply Rle_trans with (1 := Rabs_triang _ _). assert (X := Rabs_triang (ga - en) (en - ff)). lra.
Qed.
End C232.
Print Assumptions C232_boundary.
Print Assumptions C232_galerkin.
(* one triangle with one function at degree of freedom 1, the operator - laplacian + 1, boundary data at degree of freedom 0: the computed system is the identity *)
Definition ex_mesh : list mesh_cell := [(unit_cell, fun _ => 1%nat)].
Definition ex_grad (_ _ s : nat) : double := if (s =? 0)%nat then d1 else d0.
Definition ex_op : f_op := FAdd (FNeg FLap) (FRea (fun _ => d1)).
Example C232_example : (forall e, In e ex_mesh -> FloatOper.good_cell 2 1 (fst e) /\ forall q i r, (q < 1)%nat -> (i < 1)%nat -> (r < 2)%nat -> cell_agradient 2 (span (fst e)) (fun s => B2 (ex_grad q i s)) r <= bpow radix2 150) /\
  (forall q, (q < 1)%nat -> fin d1 = true /\ Rabs (B2 d1) <= 1) /\ (forall q i s, (q < 1)%nat -> (s < 2)%nat -> fin (ex_grad q i s) = true /\ Rabs (B2 (ex_grad q i s)) <= 1024) /\ small_coefficients 2 (length ex_mesh * 1) ex_op /\ symmetric_tensors ex_op /\
  (forall r s, (r < 2)%nat -> (s < 2)%nat -> (meetings 1 ex_mesh r s <= 2 ^ 20)%nat) /\ (forall r, (r < 2)%nat -> (incidences 1 ex_mesh r <= 2 ^ 20)%nat) /\
  backward_stable 2 (fun _ g => g) (f_dirichlet_matrix true (fun r => (r =? 0)%nat) (f_operator true 2 1 1 (fun _ => d1) ex_grad (fun _ _ => d1) ex_op ex_mesh)) 0 0 (bpow radix2 10) /\
  f_operator true 2 1 1 (fun _ => d1) ex_grad (fun _ _ => d1) ex_op ex_mesh 1 1 = d1 /\
  (forall r, (r < 2)%nat -> 2 * aload 2 1 1 (fun _ => d1) (fun _ _ => d1) (fun _ => d1) ex_mesh r + 1 <= bpow radix2 10).
Proof.
  destruct (B2_dbl 1 0 ltac:(cbn; lia) ltac:(lia)) as [F1 E1]. assert (E1' : B2 (dbl 1 0) = 1) by (rewrite <- (Rmult_1_r 1); exact E1). assert (Z0 : B2 d0 = 0) by reflexivity. assert (D1 := B2_d1).
  assert (VV : volume 2 (span unit_cell) = 1) by (unfold volume, span, unit_cell, nodes3, at2; rewrite !Z0, !E1'; ring).
  assert (FO : f_operator true 2 1 1 (fun _ => d1) ex_grad (fun _ _ => d1) ex_op ex_mesh 1 1 = d1) by (apply B2SF_inj; vm_compute; reflexivity).
  split. { intros e [<-|[]]. cbn [fst]. split.
    - unfold FloatOper.good_cell. cbn [Nat.eqb]. split; [|split; [rewrite VV; lra|]].
      + split; [intros [|[|[|i]]] [|[|r]] Hi Hr; try lia; auto|]. intros [|[|r]] [|[|k]] Hr Hk; try lia; unfold span, unit_cell, nodes3, at2; rewrite ?Z0, ?E1', Rminus_0_r; [right|left; reflexivity|left; reflexivity|right]; rewrite Rabs_R1; split; [apply (bpow_le radix2 _ 0); lia|apply (bpow_le radix2 0); lia|apply (bpow_le radix2 _ 0); lia|apply (bpow_le radix2 0); lia].
      + rewrite VV. unfold terms, span, unit_cell, nodes3, at2. rewrite !Z0, !E1', !Rabs_mult, !Rminus_0_r, Rabs_R0, Rabs_R1. lra.
    - intros q i r _ _ Hr. unfold cell_agradient. cbn [Nat.eqb]. apply Rle_trans with 2; [|apply (bpow_le radix2 1); lia]. unfold agradient, inverse. cbn [rsum ex_grad Nat.eqb]. rewrite VV, Z0, D1. unfold span, unit_cell, nodes3, at2. destruct r as [|[|r]]; try lia; cbv beta iota; rewrite ?Z0, ?E1', ?Rminus_0_r; match goal with |- 0 + Rabs ?a + Rabs ?c <= 2 => replace c with 0 by field; rewrite Rabs_R0; (replace a with 1 by field) || (replace a with 0 by field); rewrite ?Rabs_R0, ?Rabs_R1; lra end. }
  split; [intros; split; [reflexivity|rewrite D1, Rabs_R1; lra]|].
  split; [intros q i s _ _; unfold ex_grad; destruct (s =? 0)%nat; split; try reflexivity; rewrite ?D1, ?Z0, ?Rabs_R0, ?Rabs_R1; lra|].
  split; [cbn [small_coefficients ex_op]; split; auto; intros; split; [reflexivity|rewrite D1, Rabs_R1; lra]|]. split; [cbn [symmetric_tensors ex_op]; auto|].
  split; [intros [|[|r]] [|[|s]] Hr Hs; try lia; apply Nat.leb_le; vm_compute; reflexivity|]. split; [intros [|[|r]] Hr; try lia; apply Nat.leb_le; vm_compute; reflexivity|].
  split; [|split; [exact FO|]].
  - intros g _ r Hr. assert (K : forall s, (s < 2)%nat -> B2 (f_dirichlet_matrix true (fun r => (r =? 0)%nat) (f_operator true 2 1 1 (fun _ => d1) ex_grad (fun _ _ => d1) ex_op ex_mesh) r s) = if (r =? s)%nat then 1 else 0).
    { intros s Hs. destruct r as [|[|r]], s as [|[|s]]; try lia; unfold f_dirichlet_matrix; cbn [andb f_visited Nat.eqb orb]; [exact D1| | |rewrite FO; exact D1]; match goal with |- B2 ?a = 0 => replace a with d0 by (apply B2SF_inj; vm_compute; reflexivity) end; exact Z0. }
    cbn [rsum]. rewrite !K by lia. destruct r as [|[|r]]; try lia; cbn [Nat.eqb]; match goal with |- Rabs ?a <= _ => replace a with 0 by ring end; rewrite Rabs_R0; lra.
  - intros r Hr. apply Rle_trans with 1024; [|apply Req_le; reflexivity]. unfold aload, assembled, ex_mesh, numbered, quadrature. cbn [length seq List.combine map fst snd rsum lsum fold_right]. rewrite VV, D1, !Rabs_R1. destruct (1 =? r)%nat; cbn [fact Nat.mul Nat.add INR]; lra.
Qed.
