(* C229: the matrix of the Laplacian on a mesh of tetrahedra in double arithmetic. *)
From Coq Require Import Reals Lra Lia List Bool ZArith.
From Flocq Require Import Core IEEE754.BinarySingleNaN Relative Plus_error.
From Verif Require Import Base RSum SimplexModel FloatCellModel FloatPlaneModel FloatMeasureModel FloatFemModel FloatAssemblyModel FloatLoadModel FloatMassModel FloatFem3Model FloatLinspaceModel SymbolsModel SymbolsProps FloatModel FloatProps FloatSearch FloatSplineModel FloatSpline FloatDiffModel FloatDiff FloatCell FloatPlane FloatMeasure FloatFem FloatAssembly FloatLoad FloatMass.
Import ListNotations.
Open Scope R_scope.

(* ---- specification ---- *)
(* cofactors of the matrix of the edges, and the same with absolute values *)
Definition cof (J : nat -> nat -> R) (i j : nat) : R :=
  let i1 := ((i + 1) mod 3)%nat in let i2 := ((i + 2) mod 3)%nat in let j1 := ((j + 1) mod 3)%nat in let j2 := ((j + 2) mod 3)%nat in J i1 j1 * J i2 j2 - J i1 j2 * J i2 j1.
Definition acof (J : nat -> nat -> R) (i j : nat) : R :=
  let i1 := ((i + 1) mod 3)%nat in let i2 := ((i + 2) mod 3)%nat in let j1 := ((j + 1) mod 3)%nat in let j2 := ((j + 2) mod 3)%nat in Rabs (J i1 j1 * J i2 j2) + Rabs (J i1 j2 * J i2 j1).
(* entries of the inverse of the matrix of the edges (C229_inverse) *)
Definition inverse3 (J : nat -> nat -> R) (s r : nat) : R := cof J r s / volume 3 J.
Definition ainverse3 (J : nat -> nat -> R) (s r : nat) : R := acof J r s / Rabs (volume 3 J).
(* r-th component of the gradient on the cell of a function whose gradient on the reference cell is g *)
Definition gradient3 (J : nat -> nat -> R) (g : nat -> R) (r : nat) : R := rsum 3 (fun s => inverse3 J s r * g s).
Definition agradient3 (J : nat -> nat -> R) (g : nat -> R) (r : nat) : R := rsum 3 (fun s => ainverse3 J s r * Rabs (g s)).
(* minus the integral, by the quadrature rule, of the product of the gradients *)
Definition stiffness3 (n : nat) (w : nat -> R) (g : nat -> nat -> nat -> R) (J : nat -> nat -> R) (i j : nat) : R :=
  - rsum n (fun q => rsum 3 (fun r => gradient3 J (g q i) r * gradient3 J (g q j) r) * w q) * (Rabs (volume 3 J) / 6).
Definition astiffness3 (n : nat) (w : nat -> R) (g : nat -> nat -> nat -> R) (J : nat -> nat -> R) (i j : nat) : R :=
  rsum n (fun q => rsum 3 (fun r => agradient3 J (g q i) r * agradient3 J (g q j) r) * Rabs (w q)) * (Rabs (volume 3 J) / 6).
(* finite coordinates; the coordinates of the edges are zero or between 2^-60 and 2^60 in absolute value; not degenerate, distortion at most kappa *)
Definition good_tetrahedron (kappa : R) (c : f_cell) : Prop :=
  (forall i r, (i <= 3)%nat -> (r < 3)%nat -> fin (c i r) = true) /\ (forall r k, (r < 3)%nat -> (k < 3)%nat -> span c r k = 0 \/ bpow radix2 (-60) <= Rabs (span c r k) <= bpow radix2 60) /\
  volume 3 (span c) <> 0 /\ terms 3 (span c) <= kappa * Rabs (volume 3 (span c)).

Theorem C229_inverse J : volume 3 J <> 0 -> forall r k, (r < 3)%nat -> (k < 3)%nat -> rsum 3 (fun s => J r s * inverse3 J s k) = if (r =? k)%nat then 1 else 0.
Proof.
  intros NV r k Hr Hk. unfold inverse3. rewrite (rsum_ext 3 _ (fun s => J r s * cof J k s * / volume 3 J)) by (intros; unfold Rdiv; ring). rewrite rsum_scal_r.
  assert (E : rsum 3 (fun s => J r s * cof J k s) = if (r =? k)%nat then volume 3 J else 0) by (destruct r as [|[|[|r]]], k as [|[|[|k]]]; try lia; unfold cof; cbn; unfold minor; ring). rewrite E. destruct (r =? k)%nat; [now apply Rinv_r|ring].
Qed.
(* ---- symmetry and sign of the local entries ---- *)
Theorem C229_symmetric left n w g c i j : f_local3 left n w g c i j = f_local3 left n w g c j i.
Proof. unfold f_local3. f_equal. apply fsum_ext. intros q _. f_equal. unfold f_laplacian3. f_equal. apply fsum_ext. intros r _. apply dmul_comm. Qed.
Theorem C229_diagonal left n w g c i : (forall q, (q < n)%nat -> 0 <= B2 (w q)) -> fin (f_local3 left n w g c i i) = true -> B2 (f_local3 left n w g c i i) <= 0.
Proof.
  intros W F. unfold f_local3 in *. destruct (dmul_fin' _ _ F) as (F1 & Fm & ->). rewrite <- rnd_0. apply rnd_le. assert (Pm := measure_nonneg_d 3 c ltac:(lia) Fm).
  assert (G : forall m, (m <= n)%nat -> fin (fsum m (fun q => dmul (f_laplacian3 left c (g q i) (g q i)) (w q))) = true -> B2 (fsum m (fun q => dmul (f_laplacian3 left c (g q i) (g q i)) (w q))) <= 0).
  { induction m as [|m IH]; intros Hm Fx; [cbn; lra|]. rewrite fsum_S in *. destruct (dadd_fin _ _ Fx) as (A & B & ->). specialize (IH ltac:(lia) A). destruct (dmul_fin' _ _ B) as (B1 & _ & EB). rewrite <- rnd_0. apply rnd_le. rewrite EB. enough (rnd (B2 (f_laplacian3 left c (g m i) (g m i)) * B2 (w m)) <= 0) by lra. rewrite <- rnd_0. apply rnd_le.
    assert (L : B2 (f_laplacian3 left c (g m i) (g m i)) <= 0). { unfold f_laplacian3 in *. rewrite is_finite_Bopp in B1. rewrite B2R_Bopp. enough (0 <= B2 (fsum 3 (fun r => dmul (f_push3 left c (g m i) r) (f_push3 left c (g m i) r)))) by lra. apply FloatFem.fsum_nonneg; auto. intros r _ Fr. destruct (dmul_fin' _ _ Fr) as (_ & _ & ->). apply rnd_pos, Rle_0_sqr. }
    specialize (W m ltac:(lia)). assert (0 <= - B2 (f_laplacian3 left c (g m i) (g m i)) * B2 (w m)) by (apply Rmult_le_pos; lra). lra. }
  specialize (G n (le_n n) F1). set (x := B2 (fsum n _)) in *. assert (0 <= - x * B2 (f_measure 3 c)) by (apply Rmult_le_pos; lra). lra.
Qed.
(* ---- errors ---- *)
Lemma cl_add m a b A B S T e f P Q : (m <= 79)%nat -> cl m a A S e P -> cl m b B T f Q -> 3 * (P + Q) <= bpow radix2 1000 -> cl (m + 1) (dadd a b) (A + B) (S + T) (2 * (e + f)) (2 * (P + Q)).
Proof.
  intros Hm Ca Cb HB. assert (Sa := cl_size m a A S e P ltac:(lia) Ca). assert (Sb := cl_size m b B T f Q ltac:(lia) Cb). destruct Ca as (Fa & Ea & HA & HS & He). destruct Cb as (Fb & Eb & HBB & HT & Hf). assert (PA := Rabs_pos A). assert (PB := Rabs_pos B). assert (Pu := u_pos). assert (Su : u <= 1) by (rewrite u_small; lra).
  destruct (dadd_ok a b 1000 ltac:(lia) Fa Fb) as [F _]; [apply Rle_trans with (1 := Rabs_triang _ _); lra|]. split; auto. split; [|split; [apply Rle_trans with (1 := Rabs_triang _ _); lra|split; lra]].
  assert (X := addS _ _ _ _ _ _ _ _ _ _ Ea HA Eb HBB (dadd_error _ _ F)). apply Rle_trans with (1 := X). apply Rplus_le_compat_l. apply Rmult_le_compat_r; lra.
Qed.
Lemma permanent J : Rabs (J 0%nat 0%nat) * acof J 0 0 + Rabs (J 1%nat 0%nat) * acof J 1 0 + Rabs (J 2%nat 0%nat) * acof J 2 0 = terms 3 J.
Proof. unfold acof. cbn. unfold aminor. rewrite !Rabs_mult. ring. Qed.
Section Local3.
Variables (left : bool) (n : nat) (w : nat -> double) (g : nat -> nat -> nat -> double) (c : f_cell) (kappa : R).
Hypothesis GT : good_tetrahedron kappa c.
Let J := span c.
Let V := volume 3 J.
Let T := terms 3 J.
Hypothesis K20 : kappa <= 1048576.
Hypothesis Hn : (n <= 50)%nat.
Hypothesis Hw : forall q, (q < n)%nat -> fin (w q) = true /\ Rabs (B2 (w q)) <= 1.
Hypothesis Hg : forall q i s, (q < n)%nat -> (s < 3)%nat -> fin (g q i s) = true /\ Rabs (B2 (g q i s)) <= 1024.
Let D := B2 (f_det_col left (f_jac c)).
Let rho := V / D.
Lemma ok3 : cell_ok 3 3 c.
Proof. destruct GT as (F & M & _). split; auto. intros r k Hr Hk. destruct (M r k Hr Hk) as [E|[E1 E2]]; [now left|right]. split; [apply Rle_trans with (2 := E1)|apply Rle_trans with (1 := E2)]; apply bpow_le; lia. Qed.
Lemma J60 r k : (r < 3)%nat -> (k < 3)%nat -> rng 60 (J r k).
Proof. intros Hr Hk. destruct GT as (_ & M & _). exact (M r k Hr Hk). Qed.
Lemma prod60 r k r' k' : (r < 3)%nat -> (k < 3)%nat -> (r' < 3)%nat -> (k' < 3)%nat -> rng 120 (J r k * J r' k'). Proof. intros. apply (rng_mul 60 60); now apply J60. Qed.
Lemma V3_pos : 0 < Rabs V. Proof. apply Rabs_pos_lt. apply GT. Qed.
Lemma kappa3_1 : 1 <= kappa /\ Rabs V <= T /\ T <= kappa * Rabs V.
Proof. assert (P := V3_pos). destruct GT as (_ & _ & _ & HK). change (T <= kappa * Rabs V) in HK. assert (L := volume_le 3 J ltac:(lia)). fold V T in L. split; [|split; auto]. destruct (Rle_dec 1 kappa) as [|N]; auto. exfalso. assert (kappa * Rabs V < 1 * Rabs V) by (apply Rmult_lt_compat_r; lra). lra. Qed.
Lemma ku3 : 0 < kappa * u <= / 1000000.
Proof. assert (Pu := u_pos). assert (K := kappa3_1). split; [apply Rmult_lt_0_compat; lra|]. apply Rle_trans with (1048576 * u); [apply Rmult_le_compat_r; lra|]. rewrite u_small. lra. Qed.
Lemma acof_le i j : acof J i j <= bpow radix2 121.
Proof.
  assert (M : forall k, (k mod 3 < 3)%nat) by (intros; apply Nat.mod_upper_bound; lia). unfold acof. change 121%Z with (120 + 1)%Z. rewrite bp.
  assert (L1 := rng_le 120 _ ltac:(lia) (prod60 _ _ _ _ (M (i + 1)%nat) (M (j + 1)%nat) (M (i + 2)%nat) (M (j + 2)%nat))). assert (L2 := rng_le 120 _ ltac:(lia) (prod60 _ _ _ _ (M (i + 1)%nat) (M (j + 2)%nat) (M (i + 2)%nat) (M (j + 1)%nat))). lra.
Qed.
Lemma cof_cl i j : cl 4 (f_cof3 (f_jac c) i j) (cof J i j) (acof J i j) 0 (bpow radix2 121).
Proof.
  assert (M : forall k, (k mod 3 < 3)%nat) by (intros; apply Nat.mod_upper_bound; lia). unfold f_cof3. destruct (det2_error 3 3 c ok3 _ _ _ _ _ _ _ _ (M (i + 1)%nat) (M (j + 1)%nat) (M (i + 2)%nat) (M (j + 2)%nat) (M (i + 1)%nat) (M (j + 2)%nat) (M (i + 2)%nat) (M (j + 1)%nat)) as [F E].
  split; auto. split; [rewrite Rplus_0_r; exact E|]. split; [unfold cof, acof, Rminus; apply Rle_trans with (1 := Rabs_triang _ _); rewrite Rabs_Ropp; lra|]. split; [apply acof_le|]. split; [lra|apply bpow_ge_0].
Qed.
Lemma T_large : bpow radix2 (-180) <= T.
Proof.
  destruct (Rle_or_lt (bpow radix2 (-180)) T) as [L|L]; auto. exfalso. assert (PV := V3_pos). assert (Z : forall x, rng 180 x -> Rabs x < bpow radix2 (-180) -> x = 0) by (intros x [E|[E _]] Hx; auto; exfalso; change (Z.opp 180) with (-180)%Z in E; lra).
  assert (Y : forall r k r' k' r'' k'', (r < 3)%nat -> (k < 3)%nat -> (r' < 3)%nat -> (k' < 3)%nat -> (r'' < 3)%nat -> (k'' < 3)%nat -> Rabs (J r k * (J r' k' * J r'' k'')) <= T -> J r k * (J r' k' * J r'' k'') = 0) by (intros; apply Z; [apply (rng_mul 60 120); [now apply J60|now apply prod60]|lra]).
  assert (P := Rabs_pos). assert (PR : forall a b e, 0 <= Rabs a * Rabs (b * e)) by (intros; apply Rmult_le_pos; apply P).
  assert (E : V = 0); [|rewrite E, Rabs_R0 in PV; lra]. unfold V. cbn [volume]. unfold minor.
  assert (ET : T = Rabs (J 0 0)%nat * Rabs (J 1%nat 1%nat * J 2%nat 2%nat) + Rabs (J 0 0)%nat * Rabs (J 1%nat 2%nat * J 2%nat 1%nat) + Rabs (J 0 1)%nat * Rabs (J 1%nat 0%nat * J 2%nat 2%nat) + Rabs (J 0 1)%nat * Rabs (J 1%nat 2%nat * J 2%nat 0%nat) + Rabs (J 0 2)%nat * Rabs (J 1%nat 0%nat * J 2%nat 1%nat) + Rabs (J 0 2)%nat * Rabs (J 1%nat 1%nat * J 2%nat 0%nat)) by (unfold T; cbn [terms]; unfold aminor; ring).
  assert (Q1 := PR (J 0 0)%nat (J 1 1)%nat (J 2 2)%nat). assert (Q2 := PR (J 0 0)%nat (J 1 2)%nat (J 2 1)%nat). assert (Q3 := PR (J 0 1)%nat (J 1 0)%nat (J 2 2)%nat). assert (Q4 := PR (J 0 1)%nat (J 1 2)%nat (J 2 0)%nat). assert (Q5 := PR (J 0 2)%nat (J 1 0)%nat (J 2 1)%nat). assert (Q6 := PR (J 0 2)%nat (J 1 1)%nat (J 2 0)%nat).
  rewrite !Rmult_minus_distr_l. rewrite (Y 0 0 1 1 2 2)%nat, (Y 0 0 1 2 2 1)%nat, (Y 0 1 1 0 2 2)%nat, (Y 0 1 1 2 2 0)%nat, (Y 0 2 1 0 2 1)%nat, (Y 0 2 1 1 2 0)%nat; try lia; try (rewrite Rabs_mult; lra). ring.
Qed.
Lemma T_small : T <= bpow radix2 183.
Proof.
  unfold T. rewrite <- permanent. change 183%Z with (60 + 121 + 2)%Z. rewrite !bpow_plus. change (bpow radix2 2) with 4. assert (X : forall k, (k < 3)%nat -> Rabs (J k 0%nat) * acof J k 0 <= bpow radix2 60 * bpow radix2 121). { intros k Hk. apply Rmult_le_compat; [apply Rabs_pos| |apply rng_le; [lia|apply J60; lia]|apply acof_le]. unfold acof. apply Rplus_le_le_0_compat; apply Rabs_pos. }
  assert (X0 := X 0%nat ltac:(lia)). assert (X1 := X 1%nat ltac:(lia)). assert (X2 := X 2%nat ltac:(lia)). assert (P : 0 <= bpow radix2 60 * bpow radix2 121) by (apply Rmult_le_pos; apply bpow_ge_0). lra.
Qed.
Lemma det_col_near : fin (f_det_col left (f_jac c)) = true /\ Rabs (D - V) <= 10 * (kappa * u) * Rabs V /\ D <> 0 /\ rng 205 D.
Proof.
  assert (Pk : forall k, (k < 3)%nat -> cl 6 (dmul (f_cof3 (f_jac c) k 0) (f_jac c k 0%nat)) (cof J k 0 * J k 0%nat) (acof J k 0 * Rabs (J k 0%nat)) eta (bpow radix2 181)).
  { intros k Hk. replace (bpow radix2 181) with (bpow radix2 121 * bpow radix2 60) by (rewrite <- bpow_plus; reflexivity). apply (cl_mul 4 1 _ _ _ _ _ _ 0 0); [lia|apply cof_cl|apply cl_near; [apply (j_near 3 3 c ok3); lia|apply rng_le; [lia|apply J60; lia]]| | |].
    - rewrite <- bpow_plus. apply Rle_trans with (bpow radix2 (181 + 4)); [rewrite (bpow_plus radix2 181 4); change (bpow radix2 4) with 16; change (121 + 60)%Z with 181%Z; assert (P := bpow_gt_0 radix2 181); lra|apply bpow_le; lia].
    - lra.
    - rewrite <- bpow_plus, eta_bp. apply bpow_le. lia. }
  assert (B181 : 100 * bpow radix2 181 <= bpow radix2 1000) by (apply Rle_trans with (bpow radix2 (181 + 7)); [rewrite (bpow_plus radix2 181 7); change (bpow radix2 7) with 128; assert (P := bpow_gt_0 radix2 181); lra|apply bpow_le; lia]). assert (P181 := bpow_gt_0 radix2 181). assert (Pe := eta_pos). assert (L0 : eta <= bpow radix2 181) by (rewrite eta_bp; apply bpow_le; lia). set (B := bpow radix2 181) in *.
  assert (C : cl 8 (f_det_col left (f_jac c)) V T (16 * eta) (16 * B)).
  { assert (P0 := Pk 0%nat ltac:(lia)). assert (P1 := Pk 1%nat ltac:(lia)). assert (P2 := Pk 2%nat ltac:(lia)). assert (ET := permanent J). fold T in ET. assert (EV : cof J 0 0 * J 0%nat 0%nat + cof J 1 0 * J 1%nat 0%nat + cof J 2 0 * J 2%nat 0%nat = V) by (unfold V, cof; cbn; unfold minor; ring). unfold f_det_col. destruct left.
    - assert (X := cl_add 6 _ _ _ _ _ _ _ _ _ _ ltac:(lia) P0 P1 ltac:(lra)). assert (P2' := cl_weak 6 7 _ _ _ eta eta B B ltac:(lia) ltac:(lra) ltac:(lra) ltac:(lra) P2). assert (Y := cl_add 7 _ _ _ _ _ _ _ _ _ _ ltac:(lia) X P2' ltac:(lra)). eapply cl_eq; [| |eapply (cl_weak 8 8 _ _ _ _ _ _ _ ltac:(lia)); [| | |exact Y]]; lra.
    - assert (X := cl_add 6 _ _ _ _ _ _ _ _ _ _ ltac:(lia) P1 P2 ltac:(lra)). assert (P0' := cl_weak 6 7 _ _ _ eta eta B B ltac:(lia) ltac:(lra) ltac:(lra) ltac:(lra) P0). assert (Y := cl_add 7 _ _ _ _ _ _ _ _ _ _ ltac:(lia) P0' X ltac:(lra)). eapply cl_eq; [| |eapply (cl_weak 8 8 _ _ _ _ _ _ _ ltac:(lia)); [| | |exact Y]]; lra. }
  destruct C as (F & E & _). fold D in E. split; auto. assert (Pu := u_pos). assert (PV := V3_pos). assert (KU := ku3). destruct kappa3_1 as (K1 & VT & TK). assert (TL := T_large). assert (TS := T_small).
  assert (P8 : (1 + u) ^ 8 - 1 <= 9 * u) by (rewrite u_small; cbn [pow]; lra). assert (X1 : ((1 + u) ^ 8 - 1) * T <= 9 * u * (kappa * Rabs V)) by (assert (G := pow_ge1 8); apply Rmult_le_compat; lra).
  assert (X2 : 16 * eta <= u * T). { assert (Eu := eta_u). assert (Y : 16 * bpow radix2 (-400) <= bpow radix2 (-180)) by (replace (16 * bpow radix2 (-400)) with (bpow radix2 (-396)) by (change (-396)%Z with (4 + -400)%Z; rewrite bpow_plus; reflexivity); apply bpow_le; lia). assert (16 * bpow radix2 (-400) * u <= T * u) by (apply Rmult_le_compat_r; lra). lra. }
  assert (X3 : u * T <= u * (kappa * Rabs V)) by (apply Rmult_le_compat_l; lra). assert (E' : Rabs (D - V) <= 10 * (kappa * u) * Rabs V) by lra. split; auto. clear X1 X2 X3 P8 E.
  assert (Y : 10 * (kappa * u) * Rabs V <= / 2 * Rabs V) by (apply Rmult_le_compat_r; lra). assert (T1 := Rabs_triang_inv V D). rewrite (Rabs_minus_sym V D) in T1. assert (T2 := Rabs_triang (D - V) V). replace (D - V + V) with D in T2 by ring.
  split; [intros Z; assert (Z' : Rabs D = 0) by (rewrite Z; apply Rabs_R0); lra|]. right.
  assert (VL : bpow radix2 (-200) <= Rabs V). { assert (X : kappa * Rabs V <= bpow radix2 20 * Rabs V) by (apply Rmult_le_compat_r; [lra|]; change (bpow radix2 20) with 1048576; lra). assert (Z : bpow radix2 20 * bpow radix2 (-200) <= bpow radix2 20 * Rabs V) by (rewrite <- bpow_plus; change (20 + -200)%Z with (-180)%Z; lra). apply Rmult_le_reg_l with (2 := Z). apply bpow_gt_0. }
  split.
  - assert (Q := bp (-201)). change (-201 + 1)%Z with (-200)%Z in Q. assert (bpow radix2 (-205) <= bpow radix2 (-201)) by (apply bpow_le; lia). change (Z.opp 205) with (-205)%Z. lra.
  - assert (bpow radix2 205 >= 2 * bpow radix2 183) by (rewrite <- bp; apply Rle_ge, bpow_le; lia). lra.
Qed.
Lemma rho3_error : Rabs (rho - 1) <= 11 * (kappa * u).
Proof.
  destruct det_col_near as (_ & E & ND & _). assert (KU := ku3). assert (PV := V3_pos). assert (PD := Rabs_pos_lt _ ND). assert (T1 := Rabs_triang_inv V D). rewrite (Rabs_minus_sym V D) in T1.
  unfold rho. replace (V / D - 1) with (- (D - V) * / D) by (field; auto). rewrite Rabs_mult, Rabs_Ropp, Rabs_inv. apply Rmult_le_reg_r with (Rabs D); auto. rewrite Rmult_assoc, Rinv_l, Rmult_1_r by lra. apply Rle_trans with (1 := E).
  assert (Y : kappa * u * (10 * Rabs V) <= / 1000000 * (10 * Rabs V)) by (apply Rmult_le_compat_r; lra). assert (W : 999 / 1000 * Rabs V <= Rabs D) by lra. assert (Z : kappa * u * (999 / 1000 * Rabs V) <= kappa * u * Rabs D) by (apply Rmult_le_compat_l; lra). assert (Q : 0 <= kappa * u * Rabs V) by (apply Rmult_le_pos; lra). lra.
Qed.
Lemma inv3_cl s r : cl 6 (f_inv3 left (f_jac c) s r) (rho * inverse3 J s r) (Rabs rho * ainverse3 J s r) eta (bpow radix2 326).
Proof.
  destruct det_col_near as (F & _ & ND & RD). assert (PV := V3_pos). assert (RI : rng 205 (1 / D)) by (unfold Rdiv; rewrite Rmult_1_l; now apply rng_inv). assert (N1 : near 1 (ddiv d1 (f_det_col left (f_jac c))) (1 / D)).
  { apply (near_div 0 0); auto; try lia.
    - split; [reflexivity|]. exists 1. split; [|split; [cbn [pow]; lra|cbn [pow]; lra]]. rewrite Rmult_1_r. apply d1_ok.
    - split; auto. exists 1. split; [rewrite Rmult_1_r; reflexivity|split; cbn [pow]; lra].
    - apply rng_mono with 205%Z; [lia|exact RI]. }
  assert (X := cl_mul 4 1 _ _ _ _ _ _ _ _ _ _ eta ltac:(lia) (cof_cl r s) (cl_near 1 _ _ (bpow radix2 205) N1 (rng_le 205 _ ltac:(lia) RI))). fold (f_inv3 left (f_jac c) s r) in X. replace (bpow radix2 121 * bpow radix2 205) with (bpow radix2 326) in X by (rewrite <- bpow_plus; reflexivity).
  assert (X1 : 9 * bpow radix2 326 <= bpow radix2 1000) by (apply Rle_trans with (bpow radix2 (326 + 4)); [rewrite (bpow_plus radix2 326 4); change (bpow radix2 4) with 16; assert (P := bpow_gt_0 radix2 326); lra|apply bpow_le; lia]). specialize (X X1 ltac:(lra) ltac:(rewrite eta_bp; apply bpow_le; lia)). cbn [Nat.add] in X.
  assert (NV : V <> 0) by (intros Z; rewrite Z, Rabs_R0 in PV; lra). eapply cl_eq; [| |exact X].
  - unfold inverse3, rho. fold V. field. auto.
  - unfold ainverse3, rho, Rdiv. fold V. rewrite !Rabs_mult, Rabs_R1, !Rabs_inv. field. split; now apply Rabs_no_R0.
Qed.
Let rg := fun q i s => B2 (g q i s).
Lemma push3_cl q i r : (q < n)%nat -> cl 10 (f_push3 left c (g q i) r) (rho * gradient3 J (rg q i) r) (Rabs rho * agradient3 J (rg q i) r) (bpow radix2 (-1059)) (bpow radix2 339).
Proof.
  intros Hq. assert (X : forall s, (s < 3)%nat -> cl 7 (dmul (f_inv3 left (f_jac c) s r) (g q i s)) (rho * inverse3 J s r * rg q i s) (Rabs rho * ainverse3 J s r * Rabs (rg q i s)) (bpow radix2 (-1062)) (bpow radix2 336)).
  { intros s Hs. destruct (Hg q i s Hq Hs) as [Fg Bg]. change 336%Z with (326 + 10)%Z. rewrite bpow_plus. apply (cl_mul 6 0 _ _ _ _ _ _ eta 0); [lia|apply inv3_cl|apply cl_exact; auto; change (bpow radix2 10) with 1024; exact Bg| | |].
    - rewrite <- bpow_plus. apply Rle_trans with (bpow radix2 (336 + 4)); [|apply bpow_le; lia]. change (326 + 10)%Z with 336%Z. rewrite (bpow_plus radix2 336 4). change (bpow radix2 4) with 16. assert (P := bpow_gt_0 radix2 336). lra.
    - rewrite eta_bp. assert (Q : bpow radix2 (-1062) = 8192 * bpow radix2 (-1075)) by (change (-1062)%Z with (13 + -1075)%Z; rewrite bpow_plus; reflexivity). change (bpow radix2 10) with 1024. assert (P := bpow_gt_0 radix2 (-1075)). lra.
    - rewrite <- bpow_plus. apply bpow_le. lia. }
  assert (C := cl_sum 3 7 _ _ _ _ _ ltac:(lia) ltac:(lia) X). assert (Q1 : bpow radix2 339 = 8 * bpow radix2 336) by (change 339%Z with (3 + 336)%Z; rewrite bpow_plus; reflexivity). assert (Q2 : bpow radix2 (-1059) = 8 * bpow radix2 (-1062)) by (change (-1059)%Z with (3 + -1062)%Z; rewrite bpow_plus; reflexivity). assert (P := bpow_gt_0 radix2 (-1062)). assert (P' := bpow_gt_0 radix2 336). assert (L0 : bpow radix2 (-1062) <= bpow radix2 336) by (apply bpow_le; lia). assert (L1 : bpow radix2 (-1059) <= bpow radix2 339) by (apply bpow_le; lia).
  assert (L2 : 240 * bpow radix2 336 <= bpow radix2 1000) by (apply Rle_trans with (bpow radix2 (336 + 8)); [rewrite (bpow_plus radix2 336 8); change (bpow radix2 8) with 256; lra|apply bpow_le; lia]). specialize (C ltac:(lra) L2). cbn [Nat.add INR] in C.
  eapply cl_eq; [| |eapply (cl_weak 10 10 _ _ _ _ _ _ _ ltac:(lia)); [| |exact L1|exact C]; lra].
  - unfold gradient3. cbn [rsum]. ring.
  - unfold agradient3. cbn [rsum]. ring.
Qed.
Lemma lap3_cl q i j : (q < n)%nat -> cl 24 (f_laplacian3 left c (g q i) (g q j)) (- (rho * rho * rsum 3 (fun r => gradient3 J (rg q i) r * gradient3 J (rg q j) r))) (rho * rho * rsum 3 (fun r => agradient3 J (rg q i) r * agradient3 J (rg q j) r)) (bpow radix2 (-713)) (bpow radix2 681).
Proof.
  intros Hq. unfold f_laplacian3. apply cl_opp.
  assert (X : forall r, (r < 3)%nat -> cl 21 (dmul (f_push3 left c (g q i) r) (f_push3 left c (g q j) r)) (rho * gradient3 J (rg q i) r * (rho * gradient3 J (rg q j) r)) (Rabs rho * agradient3 J (rg q i) r * (Rabs rho * agradient3 J (rg q j) r)) (bpow radix2 (-716)) (bpow radix2 678)).
  { intros r Hr. change 678%Z with (339 + 339)%Z. rewrite (bpow_plus radix2 339 339). apply (cl_mul 10 10 _ _ _ _ _ _ _ _ _ _ _ ltac:(lia) (push3_cl q i r Hq) (push3_cl q j r Hq)).
    - rewrite <- bpow_plus. apply Rle_trans with (bpow radix2 (678 + 4)); [|apply bpow_le; lia]. rewrite (bpow_plus radix2 678 4). change (bpow radix2 4) with 16. change (339 + 339)%Z with 678%Z. assert (P := bpow_gt_0 radix2 678). lra.
    - rewrite <- !bpow_plus, eta_bp. change (-1059 + 339)%Z with (-720)%Z. assert (bpow radix2 (-1075) <= bpow radix2 (-720)) by (apply bpow_le; lia). assert (Q : bpow radix2 (-716) = 16 * bpow radix2 (-720)) by (change (-716)%Z with (4 + -720)%Z; rewrite bpow_plus; reflexivity). assert (P := bpow_gt_0 radix2 (-720)). lra.
    - rewrite <- bpow_plus. apply bpow_le. lia. }
  assert (C := cl_sum 3 21 _ _ _ _ _ ltac:(lia) ltac:(lia) X). assert (Q1 : bpow radix2 681 = 8 * bpow radix2 678) by (change 681%Z with (3 + 678)%Z; rewrite bpow_plus; reflexivity). assert (Q2 : bpow radix2 (-713) = 8 * bpow radix2 (-716)) by (change (-713)%Z with (3 + -716)%Z; rewrite bpow_plus; reflexivity). assert (P := bpow_gt_0 radix2 (-716)). assert (P' := bpow_gt_0 radix2 678). assert (L0 : bpow radix2 (-716) <= bpow radix2 678) by (apply bpow_le; lia).
  assert (L2 : 240 * bpow radix2 678 <= bpow radix2 1000) by (apply Rle_trans with (bpow radix2 (678 + 8)); [rewrite (bpow_plus radix2 678 8); change (bpow radix2 8) with 256; lra|apply bpow_le; lia]). specialize (C ltac:(lra) L2). cbn [Nat.add INR] in C. assert (L1 : bpow radix2 (-713) <= bpow radix2 681) by (apply bpow_le; lia).
  eapply cl_eq; [| |eapply (cl_weak 24 24 _ _ _ _ _ _ _ ltac:(lia)); [| |exact L1|exact C]; lra].
  - cbn [rsum]. ring.
  - assert (Rr : Rabs rho * Rabs rho = rho * rho) by (rewrite <- Rabs_mult; apply Rabs_pos_eq, Rle_0_sqr). rewrite <- Rr. cbn [rsum]. ring.
Qed.
Let mu := B2 (f_measure 3 c) / (Rabs V / 6).
Lemma mu3_error : fin (f_measure 3 c) = true /\ Rabs (mu - 1) <= 10 * (kappa * u) /\ 0 <= B2 (f_measure 3 c) <= bpow radix2 183 /\ B2 (f_measure 3 c) = mu * (Rabs V / 6).
Proof.
  assert (PV := V3_pos). assert (KU := ku3). destruct GT as (_ & _ & NV & HK). destruct (measure_ok 3 kappa c ltac:(lia) ltac:(lra) ok3 NV HK) as (_ & _ & F & P & E). fold J in E. fold V in E. replace (INR (fact 3)) with 6 in E by (cbn [fact Nat.mul Nat.add]; cbn [INR]; lra). split; auto. split; [|split].
  - unfold mu. replace (B2 (f_measure 3 c) / (Rabs V / 6) - 1) with ((B2 (f_measure 3 c) - Rabs V / 6) / (Rabs V / 6)) by (field; lra). unfold Rdiv at 1. rewrite Rabs_mult, Rabs_inv, (Rabs_pos_eq (Rabs V / 6)) by lra. apply Rmult_le_reg_r with (Rabs V / 6); [lra|]. rewrite Rmult_assoc, Rinv_l, Rmult_1_r by lra. lra.
  - split; [apply P|]. apply Rabs_le_inv in E. assert (Y : kappa * u * (10 * (Rabs V / 6)) <= / 1000000 * (10 * (Rabs V / 6))) by (apply Rmult_le_compat_r; lra). assert (TS := T_small). destruct kappa3_1 as (_ & VT & _). lra.
  - unfold mu. field. lra.
Qed.
Lemma local3_cl i j : cl (26 + n) (f_local3 left n w g c i j) (rho * rho * mu * stiffness3 n (fun q => B2 (w q)) rg J i j) (rho * rho * mu * astiffness3 n (fun q => B2 (w q)) rg J i j) (bpow radix2 (-500)) (bpow radix2 900).
Proof.
  assert (X0 : forall q, (q < n)%nat -> cl 25 (dmul (f_laplacian3 left c (g q i) (g q j)) (w q)) (- (rho * rho * rsum 3 (fun r => gradient3 J (rg q i) r * gradient3 J (rg q j) r)) * B2 (w q)) (rho * rho * rsum 3 (fun r => agradient3 J (rg q i) r * agradient3 J (rg q j) r) * Rabs (B2 (w q))) (bpow radix2 (-710)) (bpow radix2 681)).
  { intros q Hq. destruct (Hw q Hq) as [Fw Bw]. replace (bpow radix2 681) with (bpow radix2 681 * 1) by ring. apply (cl_mul 24 0 _ _ _ _ _ _ _ _ _ _ _ ltac:(lia) (lap3_cl q i j Hq) (cl_exact _ 1 Fw Bw)); rewrite Rmult_1_r.
    - apply Rle_trans with (bpow radix2 (681 + 4)); [|apply bpow_le; lia]. rewrite (bpow_plus radix2 681 4). change (bpow radix2 4) with 16. assert (P := bpow_gt_0 radix2 681). lra.
    - rewrite eta_bp. assert (bpow radix2 (-1075) <= bpow radix2 (-713)) by (apply bpow_le; lia). assert (Q : bpow radix2 (-710) = 8 * bpow radix2 (-713)) by (change (-710)%Z with (3 + -713)%Z; rewrite bpow_plus; reflexivity). assert (P := bpow_gt_0 radix2 (-713)). lra.
    - apply bpow_le. lia. }
  assert (P1 := bpow_gt_0 radix2 (-710)). assert (P2 := bpow_gt_0 radix2 681). assert (L0 : bpow radix2 (-710) <= bpow radix2 681) by (apply bpow_le; lia). assert (L2 : 240 * bpow radix2 681 <= bpow radix2 1000) by (apply Rle_trans with (bpow radix2 (681 + 8)); [rewrite (bpow_plus radix2 681 8); change (bpow radix2 8) with 256; lra|apply bpow_le; lia]).
  assert (C := cl_sum n 25 _ _ _ _ _ ltac:(lia) ltac:(lia) X0 ltac:(lra) L2). assert (In : 0 <= INR n <= 60) by (split; [apply pos_INR|]; replace 60 with (INR 60) by (cbn; lra); apply le_INR; lia).
  assert (Q1 : bpow radix2 688 = 128 * bpow radix2 681) by (change 688%Z with (7 + 681)%Z; rewrite bpow_plus; reflexivity). assert (Q2 : bpow radix2 (-703) = 128 * bpow radix2 (-710)) by (change (-703)%Z with (7 + -710)%Z; rewrite bpow_plus; reflexivity).
  assert (Y1 : INR n * bpow radix2 (-710) <= 60 * bpow radix2 (-710)) by (apply Rmult_le_compat_r; lra). assert (Y2 : INR n * bpow radix2 681 <= 60 * bpow radix2 681) by (apply Rmult_le_compat_r; lra). assert (L1 : bpow radix2 (-703) <= bpow radix2 688) by (apply bpow_le; lia).
  assert (C' := cl_weak (25 + n) (25 + n) _ _ _ (2 * (INR n * bpow radix2 (-710))) (bpow radix2 (-703)) (2 * (INR n * bpow radix2 681)) (bpow radix2 688) ltac:(lia) ltac:(lra) ltac:(lra) L1 C).
  destruct mu3_error as (Fm & _ & Bm & Em). assert (X := cl_mul (25 + n) 0 _ _ _ _ _ _ _ _ _ _ (bpow radix2 (-517)) ltac:(lia) C' (cl_exact _ (bpow radix2 183) Fm ltac:(rewrite Rabs_pos_eq; lra))). fold (f_local3 left n w g c i j) in X.
  assert (E1 : bpow radix2 688 * bpow radix2 183 = bpow radix2 871) by (rewrite <- bpow_plus; reflexivity). assert (E2 : bpow radix2 (-703) * bpow radix2 183 = bpow radix2 (-520)) by (rewrite <- bpow_plus; reflexivity). rewrite E1, E2 in X.
  assert (X1 : 9 * bpow radix2 871 <= bpow radix2 1000). { apply Rle_trans with (bpow radix2 (871 + 4)); [|apply bpow_le; lia]. rewrite (bpow_plus radix2 871 4). change (bpow radix2 4) with 16. assert (P := bpow_gt_0 radix2 871). lra. }
  assert (X2 : 4 * (bpow radix2 (-520) + 0 * bpow radix2 688) + eta <= bpow radix2 (-517)). { rewrite eta_bp. assert (bpow radix2 (-1075) <= bpow radix2 (-520)) by (apply bpow_le; lia). assert (Q : bpow radix2 (-517) = 8 * bpow radix2 (-520)) by (change (-517)%Z with (3 + -520)%Z; rewrite bpow_plus; reflexivity). assert (P := bpow_gt_0 radix2 (-520)). lra. }
  specialize (X X1 X2 ltac:(apply bpow_le; lia)). eapply cl_eq; [| |eapply (cl_weak (25 + n + 0 + 1) (26 + n)); [lia| | | |exact X]; apply bpow_le; lia].
  - rewrite Em. unfold stiffness3. fold V. rewrite (rsum_ext n (fun q => - (rho * rho * rsum 3 (fun r => gradient3 J (rg q i) r * gradient3 J (rg q j) r)) * B2 (w q)) (fun q => - (rho * rho) * (rsum 3 (fun r => gradient3 J (rg q i) r * gradient3 J (rg q j) r) * B2 (w q)))) by (intros; ring). rewrite rsum_scal. ring.
  - rewrite (Rabs_pos_eq (B2 (f_measure 3 c))) by lra. rewrite Em. unfold astiffness3. fold V. rewrite (rsum_ext n (fun q => rho * rho * rsum 3 (fun r => agradient3 J (rg q i) r * agradient3 J (rg q j) r) * Rabs (B2 (w q))) (fun q => (rho * rho) * (rsum 3 (fun r => agradient3 J (rg q i) r * agradient3 J (rg q j) r) * Rabs (B2 (w q))))) by (intros; ring). rewrite rsum_scal. ring.
Qed.
Lemma local3_ok i j : fin (f_local3 left n w g c i j) = true /\ Rabs (B2 (f_local3 left n w g c i j) - stiffness3 n (fun q => B2 (w q)) rg J i j) <= (3 * INR n + 90 * kappa) * u * astiffness3 n (fun q => B2 (w q)) rg J i j + bpow radix2 (-500) /\
  Rabs (stiffness3 n (fun q => B2 (w q)) rg J i j) <= astiffness3 n (fun q => B2 (w q)) rg J i j /\ Rabs (B2 (f_local3 left n w g c i j)) <= 3 * bpow radix2 900.
Proof.
  assert (SZ : Rabs (B2 (f_local3 left n w g c i j)) <= 3 * bpow radix2 900) by (eapply cl_size; [|exact (local3_cl i j)]; lia). destruct (local3_cl i j) as (F & E & HA & _). split; auto. set (A := stiffness3 n (fun q => B2 (w q)) rg J i j) in *. set (S := astiffness3 n (fun q => B2 (w q)) rg J i j) in *. set (a := B2 (f_local3 left n w g c i j)) in *. assert (KU := ku3). destruct kappa3_1 as (K1 & _). assert (Pu := u_pos). assert (Re := rho3_error). destruct mu3_error as (_ & Me & _). set (x := kappa * u) in *.
  assert (T0 : Rabs (rho * rho * mu - 1) <= 33 * x). { replace (rho * rho * mu - 1) with ((rho - 1) * (rho + 1) * mu + (mu - 1)) by ring. apply Rle_trans with (1 := Rabs_triang _ _). rewrite !Rabs_mult. apply Rabs_le_inv in Re as R1. apply Rabs_le_inv in Me as M1. rewrite (Rabs_pos_eq (rho + 1)), (Rabs_pos_eq mu) by lra.
    assert (Y : Rabs (rho - 1) * (rho + 1) * mu <= 11 * x * (2001 / 1000) * (1001 / 1000)) by (apply Rmult_le_compat; try lra; [apply Rmult_le_pos; [apply Rabs_pos|lra]|apply Rmult_le_compat; try lra; apply Rabs_pos]). lra. }
  set (t := rho * rho * mu) in *. apply Rabs_le_inv in T0 as T1. assert (Pt : 999 / 1000 <= t <= 1001 / 1000) by lra. assert (HAS : Rabs A <= S). { rewrite Rabs_mult, (Rabs_pos_eq t) in HA by lra. apply Rmult_le_reg_l with t; lra. } assert (PA := Rabs_pos A). split; [|now split].
  assert (I : INR (26 + n) = 26 + INR n) by (rewrite plus_INR; cbn [INR]; lra). assert (In : 0 <= INR n <= 60) by (split; [apply pos_INR|]; replace 60 with (INR 60) by (cbn; lra); apply le_INR; lia).
  assert (L : (1 + u) ^ (26 + n) - 1 <= (26 + INR n) * (2 * u)) by (rewrite <- I; assert (Q := pow_linear (26 + n)); rewrite I in Q |- *; assert (Q' : (26 + INR n) * (2 * u) <= 1) by (apply Rle_trans with (86 * (2 * u)); [apply Rmult_le_compat_r; lra|rewrite u_small; lra]); specialize (Q Q'); lra).
  replace (a - A) with ((a - t * A) + (t - 1) * A) by ring. apply Rle_trans with (1 := Rabs_triang _ _). rewrite Rabs_mult.
  assert (G0 := pow_ge1 (26 + n)). assert (Z1 : ((1 + u) ^ (26 + n) - 1) * (t * S) <= (26 + INR n) * (2 * u) * (1001 / 1000 * S)) by (apply Rmult_le_compat; try lra; [apply Rmult_le_pos; lra|apply Rmult_le_compat_r; lra]).
  assert (Z2 : Rabs (t - 1) * Rabs A <= 33 * x * S) by (apply Rmult_le_compat; auto using Rabs_pos). assert (PuS : 0 <= u * S) by (apply Rmult_le_pos; lra).
  assert (Z3 : ((26 + INR n) * 2 * (1001 / 1000) + 33 * kappa) * (u * S) <= (3 * INR n + 90 * kappa) * (u * S)) by (apply Rmult_le_compat_r; lra). unfold x in Z2. lra.
Qed.
End Local3.
(* C229: every local entry is finite, and its error is at most (3 n + 90 kappa) u times the entry formed with absolute values (kappa measures
   the distortion of the tetrahedron, n is the number of quadrature nodes), whichever way the determinant is added up *)
Theorem C229_local left n w g c kappa i j : good_tetrahedron kappa c -> kappa <= 2 ^ 20 -> (n <= 50)%nat ->
  (forall q, (q < n)%nat -> fin (w q) = true /\ Rabs (B2 (w q)) <= 1) -> (forall q i s, (q < n)%nat -> (s < 3)%nat -> fin (g q i s) = true /\ Rabs (B2 (g q i s)) <= 1024) ->
  fin (f_local3 left n w g c i j) = true /\
  Rabs (B2 (f_local3 left n w g c i j) - stiffness3 n (fun q => B2 (w q)) (fun q i s => B2 (g q i s)) (span c) i j) <= (3 * INR n + 90 * kappa) * u * astiffness3 n (fun q => B2 (w q)) (fun q i s => B2 (g q i s)) (span c) i j + bpow radix2 (-500).
Proof. intros GT K Hn Hw Hg. destruct (local3_ok left n w g c kappa GT ltac:(lra) Hn Hw Hg i j) as (F & E & _). now split. Qed.

(* ---- the assembled matrix ---- *)
(* C229: symmetric; zero where no cell is shared; computing the lower half only changes nothing *)
Theorem C229_matrix left nb n w g mesh r s : (forall e, In e mesh -> distinct_dofs nb e) ->
  f_stiff3 left true nb n w g mesh r s = f_stiff3 left true nb n w g mesh s r /\ f_stiff3 left true nb n w g mesh r s = f_stiff3 left false nb n w g mesh r s /\
  ((forall c dof i j, In (c, dof) mesh -> (i < nb)%nat -> (j < nb)%nat -> dof i = r -> dof j <> s) -> f_stiff3 left true nb n w g mesh r s = d0).
Proof.
  intros D. unfold f_stiff3. split; [|split].
  - rewrite !matrix_items. cbn [andb]. destruct (Nat.leb_spec s r), (Nat.leb_spec r s); cbn [negb]; try lia; auto. now replace s with r by lia.
  - rewrite !matrix_items. cbn [andb]. destruct (negb (s <=? r)%nat); [|reflexivity]. f_equal. unfold items2. rewrite !map_flat_map. apply flat_map_ext_in. intros (e & cd) He. apply numbered_in in He. cbn [fst snd]. rewrite !map_map. unfold at2c. cbn [fst snd]. rewrite !(pairs_one nb cd) by (apply D; apply He).
    destruct (index nb cd r) as [i|] eqn:E, (index nb cd s) as [j|] eqn:E'; try reflexivity. cbn [map fst snd]. f_equal. apply C229_symmetric.
  - intros H. rewrite matrix_items. replace (if true && negb (s <=? r)%nat then items2 nb mesh s r else items2 nb mesh r s) with (@nil ((nat * f_cell) * (nat * nat))); [reflexivity|].
    destruct (true && _); match goal with |- [] = ?l => destruct l as [|h l0] eqn:E; [reflexivity|exfalso] end.
    + destruct (items2_in nb mesh s r h ltac:(rewrite E; now left)) as (dof & Hi & Hn & Hm & Hr & Hs). apply numbered_in in Hi. now apply (H _ _ _ _ (proj2 Hi) Hm Hn Hs).
    + destruct (items2_in nb mesh r s h ltac:(rewrite E; now left)) as (dof & Hi & Hn & Hm & Hr & Hs). apply numbered_in in Hi. now apply (H _ _ _ _ (proj2 Hi) Hn Hm Hr).
Qed.
Section Matrix3.
Variables (left half : bool) (nb n : nat) (w : nat -> double) (g : nat -> nat -> nat -> double) (mesh : list mesh_cell) (kappa : R).
Hypothesis Hc : forall e, In e mesh -> good_tetrahedron kappa (fst e).
Hypothesis HK : 1 <= kappa <= 2 ^ 20.
Hypothesis Hn : (n <= 50)%nat.
Hypothesis Hw : forall q, (q < n)%nat -> fin (w q) = true /\ Rabs (B2 (w q)) <= 1.
Hypothesis Hg : forall q i s, (q < n)%nat -> (s < 3)%nat -> fin (g q i s) = true /\ Rabs (B2 (g q i s)) <= 1024.
Let K := fun (_ : nat) (c : f_cell) i j => stiffness3 n (fun q => B2 (w q)) (fun q i s => B2 (g q i s)) (span c) i j.
Let A := fun (_ : nat) (c : f_cell) i j => astiffness3 n (fun q => B2 (w q)) (fun q i s => B2 (g q i s)) (span c) i j.
(* C229: every entry is finite, and close to the sum over the cells of the exact contributions *)
Theorem C229_accuracy r s : (meetings nb mesh r s <= 2 ^ 20)%nat ->
  fin (f_stiff3 left half nb n w g mesh r s) = true /\
  Rabs (B2 (f_stiff3 left half nb n w g mesh r s) - gathered nb K mesh r s) <=
    (3 * INR n + 90 * kappa + 3 * INR (meetings nb mesh r s)) * u * gathered nb A mesh r s + 2 * INR (meetings nb mesh r s) * bpow radix2 (-500).
Proof using Hc HK Hn Hw Hg.
  intros HS. replace ((3 * INR n + 90 * kappa + 3 * INR (meetings nb mesh r s)) * u) with ((3 * INR n + 90 * kappa) * u + 3 * INR (meetings nb mesh r s) * u) by ring.
  unfold f_stiff3. apply (matrix_accuracy half nb (fun _ => f_local3 left n w g) K A); auto.
  - intros e c i j. unfold K, stiffness3. do 2 f_equal. apply rsum_ext. intros q _. f_equal. apply rsum_ext. intros; ring.
  - intros e c i j. unfold A, astiffness3. f_equal. apply rsum_ext. intros q _. f_equal. apply rsum_ext. intros; ring.
  - assert (Pu := u_pos). assert (In : 0 <= INR n <= 60) by (split; [apply pos_INR|]; replace 60 with (INR 60) by (cbn; lra); apply le_INR; lia). split; [apply Rmult_le_pos; lra|]. apply Rle_trans with ((3 * 60 + 90 * 1048576) * u); [apply Rmult_le_compat_r; lra|rewrite u_small; lra].
  - apply bpow_gt_0.
  - intros e c dof i j He _ _. apply numbered_in in He. destruct He as [_ He]. apply Hc in He. cbn [fst] in He. destruct (local3_ok left n w g c kappa He ltac:(lra) Hn Hw Hg i j) as (F & E & S & Z). repeat split; auto.
Qed.
(* C229: when the gradients of the basis functions add up to zero, so do the rows of the matrix, up to the same errors *)
Theorem C229_rows nd r : (forall s, (s < nd)%nat -> (meetings nb mesh r s <= 2 ^ 20)%nat) -> (forall e j, In e mesh -> (j < nb)%nat -> (snd e j < nd)%nat) ->
  (forall q s, (q < n)%nat -> (s < 3)%nat -> rsum nb (fun j => B2 (g q j s)) = 0) ->
  Rabs (rsum nd (fun s => B2 (f_stiff3 left half nb n w g mesh r s))) <=
    rsum nd (fun s => (3 * INR n + 90 * kappa + 3 * INR (meetings nb mesh r s)) * u * gathered nb A mesh r s + 2 * INR (meetings nb mesh r s) * bpow radix2 (-500)).
Proof using Hc HK Hn Hw Hg.
  intros HS Hdof Z. assert (Zs : rsum nd (fun s => gathered nb K mesh r s) = 0).
  { unfold gathered. rewrite (rsum_lsum_swap _ nd (fun s (ec : nat * mesh_cell) => rsum nb (fun i => rsum nb (fun j => if (snd (snd ec) i =? r)%nat && (snd (snd ec) j =? s)%nat then K (fst ec) (fst (snd ec)) i j else 0))) (numbered mesh)). apply lsum_map_0. intros (e & c & dof) He. apply numbered_in in He. cbn [fst snd]. rewrite rsum_swap. apply rsum_zero. intros i Hi. rewrite rsum_swap.
    destruct (dof i =? r)%nat; [|apply rsum_zero; intros j _; apply rsum_zero; reflexivity]. cbn [andb].
    rewrite (rsum_ext nb _ (K e c i)). 2:{ intros j Hj. rewrite (rsum_single nd _ (dof j) (Hdof _ j (proj2 He) Hj)); [now rewrite Nat.eqb_refl|]. intros s _ N. destruct (Nat.eqb_spec (dof j) s); [congruence|reflexivity]. }
    unfold K. set (W := fun q => B2 (w q)). set (G := fun q i s => B2 (g q i s)).
    rewrite (rsum_ext nb _ (fun j => rsum n (fun q => rsum 3 (fun r => gradient3 (span c) (G q i) r * gradient3 (span c) (G q j) r) * W q) * (- (Rabs (volume 3 (span c)) / 6)))) by (intros j _; unfold stiffness3; ring). rewrite rsum_scal_r, rsum_swap. rewrite (rsum_zero n); [ring|]. intros q Hq. rewrite rsum_scal_r, rsum_swap. rewrite (rsum_zero 3); [ring|]. intros r' Hr. rewrite rsum_scal.
    replace (rsum nb (fun j => gradient3 (span c) (G q j) r')) with 0; [ring|]. unfold gradient3. rewrite rsum_swap. symmetry. apply rsum_zero. intros s Hs. rewrite rsum_scal. unfold G. rewrite (Z q s Hq Hs). ring. }
  rewrite <- (Rminus_0_r (rsum nd _)), <- Zs, <- rsum_minus. apply Rle_trans with (1 := rsum_abs _ _). apply rsum_le. intros s Hs. apply C229_accuracy. auto.
Qed.
End Matrix3.
Print Assumptions C229_inverse.
Print Assumptions C229_symmetric.
Print Assumptions C229_diagonal.
Print Assumptions C229_local.
Print Assumptions C229_matrix.
Print Assumptions C229_accuracy.
Print Assumptions C229_rows.
(* two tetrahedra with a common face, linear functions, the four-point rule of integrator_tables.h:256-272 *)
Definition tetra2 : f_cell := fun i => match i with O => at3 d0 d0 d0 | S O => at3 d0 (whole 3) d0 | S (S O) => at3 (whole 1) d0 (whole 4) | _ => at3 d0 d0 (whole 1) end.
Definition two_tetra : list mesh_cell := [(tetra, fun i => i); (tetra2, fun i => match i with O => 0%nat | S k => S (S k) end)].
Definition hats3 (_ i s : nat) : double := match i with O => whole (-1) | S k => if (k =? s)%nat then whole 1 else d0 end.
Example C229_example : (forall e, In e two_tetra -> distinct_dofs 4 e /\ good_tetrahedron 2 (fst e)) /\ 1 <= 2 <= 2 ^ 20 /\
  (forall q, (q < 4)%nat -> fin (dbl 1 (-2)) = true /\ 0 <= B2 (dbl 1 (-2)) /\ Rabs (B2 (dbl 1 (-2))) <= 1) /\ (forall q i s, (q < 4)%nat -> (s < 3)%nat -> fin (hats3 q i s) = true /\ Rabs (B2 (hats3 q i s)) <= 1024) /\
  (forall r s, (r < 5)%nat -> (s < 5)%nat -> (meetings 4 two_tetra r s <= 2)%nat) /\ meetings 4 two_tetra 3 2 = 2%nat /\ meetings 4 two_tetra 1 4 = 0%nat /\ (forall e j, In e two_tetra -> (j < 4)%nat -> (snd e j < 5)%nat) /\
  (forall q s, (q < 4)%nat -> (s < 3)%nat -> rsum 4 (fun j => B2 (hats3 q j s)) = 0) /\
  Rabs (B2 (f_local3 true 4 (fun _ => dbl 1 (-2)) hats3 tetra2 1 1) + 1 / 18) <= 200 * u.
Proof.
  assert (W : forall m, (-4 <= m <= 4)%Z -> fin (whole m) = true /\ B2 (whole m) = IZR m) by (intros m Hm; destruct (B2_dbl m 0) as [F E]; [cbn; lia|lia|]; split; [exact F|]; rewrite <- (Rmult_1_r (IZR m)); exact E).
  destruct (W 1%Z ltac:(lia)) as [F1 E1]. destruct (W 2%Z ltac:(lia)) as [F2 E2]. destruct (W 3%Z ltac:(lia)) as [F3 E3]. destruct (W 4%Z ltac:(lia)) as [F4 E4]. destruct (W (-1)%Z ltac:(lia)) as [Fm Em]. assert (Z0 : B2 d0 = 0) by reflexivity.
  destruct (B2_dbl 1 (-2) ltac:(cbn; lia) ltac:(lia)) as [Ft Et]. change (bpow radix2 (-2)) with (/ 4) in Et. change (B2R (dbl 1 (-2))) with (B2 (dbl 1 (-2))) in Et.
  assert (M : forall z, 1 <= z <= 4 -> z - 0 = 0 \/ bpow radix2 (-60) <= Rabs (z - 0) <= bpow radix2 60). { intros z Hz. right. rewrite Rminus_0_r, Rabs_pos_eq by lra. split; [apply Rle_trans with (bpow radix2 0); [apply bpow_le; lia|cbn; lra]|apply Rle_trans with (bpow radix2 2); [cbn; lra|apply bpow_le; lia]]. }
  assert (M0 : 0 - 0 = 0 \/ bpow radix2 (-60) <= Rabs (0 - 0) <= bpow radix2 60) by (left; ring).
  assert (V2 : volume 3 (span tetra2) = -3) by (unfold volume, minor, span, tetra2, at3; rewrite !Z0, !E1, !E3, !E4; ring).
  assert (G1 : good_tetrahedron 2 tetra). { destruct tetra_ok as ((F & _) & V & T). split; [exact F|]. split; [|rewrite V, T; split; [lra|rewrite Rabs_pos_eq; lra]]. intros [|[|[|r]]] [|[|[|k]]] Hr Hk; try lia; unfold span, tetra, at3; rewrite ?Z0, ?E1, ?E2, ?E3, ?E4; auto; apply M; lra. }
  assert (G2 : good_tetrahedron 2 tetra2). { split; [|split; [|split]].
    - intros [|[|[|[|i]]]] [|[|[|r]]] Hi Hr; try lia; auto.
    - intros [|[|[|r]]] [|[|[|k]]] Hr Hk; try lia; unfold span, tetra2, at3; rewrite ?Z0, ?E1, ?E2, ?E3, ?E4; auto; apply M; lra.
    - rewrite V2. lra.
    - rewrite V2, Rabs_left by lra. unfold terms, aminor, span, tetra2, at3. rewrite !Z0, !E1, !E3, !E4. rewrite !Rabs_mult, !Rminus_0_r, Rabs_R0, !Rabs_pos_eq by lra. lra. }
  assert (HW : forall q, (q < 4)%nat -> fin (dbl 1 (-2)) = true /\ Rabs (B2 (dbl 1 (-2))) <= 1) by (intros q _; split; auto; rewrite Et, Rabs_pos_eq; lra).
  assert (HG : forall q i s, (q < 4)%nat -> (s < 3)%nat -> fin (hats3 q i s) = true /\ Rabs (B2 (hats3 q i s)) <= 1024). { intros q [|i] s _ _; cbn [hats3]; [split; auto; rewrite Em, Rabs_left; lra|]. destruct (i =? s)%nat; split; auto; rewrite ?E1, ?Z0, ?Rabs_R0, ?Rabs_R1; lra. }
  split. { intros e [<-|[<-|[]]]; split; auto; intros i j Hi Hj E; cbn [snd] in E; auto. destruct i, j; congruence. }
  split; [lra|]. split; [intros q Hq; destruct (HW q Hq); split; auto; split; auto; rewrite Et; lra|]. split; [exact HG|].
  split. { intros [|[|[|[|[|r]]]]] [|[|[|[|[|s]]]]] Hr Hs; try lia; apply Nat.leb_le; vm_compute; reflexivity. } split; [reflexivity|]. split; [reflexivity|].
  split. { intros e j [<-|[<-|[]]] Hj; cbn [snd]; [lia|]. destruct j; lia. }
  split. { intros q [|[|[|s]]] _ Hs; try lia; cbn [rsum hats3 Nat.eqb]; rewrite Em, E1, Z0; ring. }
  destruct (C229_local true 4 (fun _ => dbl 1 (-2)) hats3 tetra2 2 1 1 G2 ltac:(lra) ltac:(lia) HW HG) as [_ E].
  assert (S1 : forall r, gradient3 (span tetra2) (fun s => B2 (hats3 0 1 s)) r = inverse3 (span tetra2) 0 r) by (intros r; unfold gradient3; cbn [rsum hats3 Nat.eqb]; rewrite E1, Z0; ring).
  assert (S2 : forall r, agradient3 (span tetra2) (fun s => B2 (hats3 0 1 s)) r = ainverse3 (span tetra2) 0 r) by (intros r; unfold agradient3; cbn [rsum hats3 Nat.eqb]; rewrite E1, Z0, Rabs_R0, Rabs_R1; ring).
  assert (I : inverse3 (span tetra2) 0 0 = 0 /\ inverse3 (span tetra2) 0 1 = / 3 /\ inverse3 (span tetra2) 0 2 = 0) by (unfold inverse3; rewrite V2; unfold cof, span, tetra2, at3; cbn [Nat.add Nat.modulo Nat.divmod snd Nat.sub]; rewrite ?Z0, ?E1, ?E3, ?E4; repeat split; field).
  assert (AI : ainverse3 (span tetra2) 0 0 = 0 /\ ainverse3 (span tetra2) 0 1 = / 3 /\ ainverse3 (span tetra2) 0 2 = 0) by (unfold ainverse3; rewrite V2, (Rabs_left (-3)) by lra; unfold acof, span, tetra2, at3; cbn [Nat.add Nat.modulo Nat.divmod snd Nat.sub]; rewrite ?Z0, ?E1, ?E3, ?E4, !Rabs_mult, !Rminus_0_r, Rabs_R0, ?Rabs_R1; rewrite ?(Rabs_pos_eq 3), ?(Rabs_pos_eq 4) by lra; repeat split; field).
  destruct I as (I0 & I1 & I2). destruct AI as (A0 & A1 & A2).
  assert (ES : stiffness3 4 (fun _ => B2 (dbl 1 (-2))) (fun q i s => B2 (hats3 q i s)) (span tetra2) 1 1 = - (1 / 18)). { unfold stiffness3. rewrite (rsum_ext 4 _ (fun _ => 1 / 9 * / 4)); [rewrite V2, Rabs_left by lra; cbn [rsum]; field|]. intros q _. change (fun s => B2 (hats3 q 1 s)) with (fun s => B2 (hats3 0 1 s)). cbn [rsum]. rewrite !S1, I0, I1, I2, Et. field. }
  assert (EA : astiffness3 4 (fun _ => B2 (dbl 1 (-2))) (fun q i s => B2 (hats3 q i s)) (span tetra2) 1 1 = 1 / 18). { unfold astiffness3. rewrite (rsum_ext 4 _ (fun _ => 1 / 9 * / 4)); [rewrite V2, Rabs_left by lra; cbn [rsum]; field|]. intros q _. change (fun s => B2 (hats3 q 1 s)) with (fun s => B2 (hats3 0 1 s)). cbn [rsum]. rewrite !S2, A0, A1, A2, Et, Rabs_pos_eq by lra. field. }
  rewrite ES, EA in E. replace (B2 (f_local3 true 4 (fun _ => dbl 1 (-2)) hats3 tetra2 1 1) + 1 / 18) with (B2 (f_local3 true 4 (fun _ => dbl 1 (-2)) hats3 tetra2 1 1) - - (1 / 18)) by ring. apply Rle_trans with (1 := E).
  assert (T : bpow radix2 (-500) <= u) by (apply Rle_trans with (bpow radix2 (-53)); [apply bpow_le; lia|rewrite u_small; cbn; lra]). assert (Pu := u_pos). cbn [INR]. lra.
Qed.
