(* C222: the local matrix of the Laplacian in double arithmetic. *)
From Coq Require Import Reals Lra Lia List Bool ZArith.
From Flocq Require Import Core IEEE754.BinarySingleNaN Relative Plus_error.
From Verif Require Import Base RSum SimplexModel FloatCellModel FloatPlaneModel FloatMeasureModel FloatFemModel FloatLinspaceModel SymbolsModel SymbolsProps FloatModel FloatProps FloatSearch FloatSplineModel FloatSpline FloatDiffModel FloatDiff FloatCell FloatPlane FloatMeasure.
From Verif Require FloatLinspace.
Import ListNotations.
Open Scope R_scope.

#[local] Instance vfexp8 : Valid_exp (SpecFloat.fexp 53 1024) := @fexp_correct 53 1024 prec64.

(* ---- specification ---- *)
(* entries of the inverse of the matrix of the edges *)
Definition inverse (J : nat -> nat -> R) (s r : nat) : R :=
  let adj := match s, r with O, O => J 1%nat 1%nat | O, _ => - J 0%nat 1%nat | _, O => - J 1%nat 0%nat | _, _ => J 0%nat 0%nat end in adj / volume 2 J.
(* r-th component of the gradient on the cell of a function whose gradient on the reference cell is g *)
Definition gradient (J : nat -> nat -> R) (g : nat -> R) (r : nat) : R := rsum 2 (fun s => inverse J s r * g s).
(* the same with absolute values *)
Definition agradient (J : nat -> nat -> R) (g : nat -> R) (r : nat) : R := rsum 2 (fun s => Rabs (inverse J s r * g s)).
(* minus the integral, by the quadrature rule, of the product of the gradients *)
Definition stiffness (n : nat) (w : nat -> R) (g : nat -> nat -> nat -> R) (J : nat -> nat -> R) (i j : nat) : R :=
  - rsum n (fun q => rsum 2 (fun r => gradient J (g q i) r * gradient J (g q j) r) * w q) * (Rabs (volume 2 J) / 2).
Definition astiffness (n : nat) (w : nat -> R) (g : nat -> nat -> nat -> R) (J : nat -> nat -> R) (i j : nat) : R :=
  rsum n (fun q => rsum 2 (fun r => agradient J (g q i) r * agradient J (g q j) r) * Rabs (w q)) * (Rabs (volume 2 J) / 2).

(* ---- symmetry ---- *)
Lemma dmul_comm a b : dmul a b = dmul b a.
Proof.
  apply B2SF_inj. destruct a as [sa|sa| |sa ma ea Ha], b as [sb|sb| |sb mb eb Hb]; cbn; try reflexivity; try (destruct sa, sb; reflexivity).
  rewrite !B2SF_SF2B. rewrite (xorb_comm sa sb), (Pos.mul_comm ma mb), (Z.add_comm ea eb). reflexivity.
Qed.
Lemma fsum_ext n f f' : (forall i, (i < n)%nat -> f i = f' i) -> fsum n f = fsum n f'.
Proof.
  intros H. unfold fsum. assert (G : forall l v, (forall i, In i l -> f i = f' i) -> fold_left (fun value i => dadd value (f i)) l v = fold_left (fun value i => dadd value (f' i)) l v). { induction l as [|a l IH]; intros v K; auto. cbn. rewrite (K a) by now left. apply IH. intros i Hi. apply K. now right. }
  apply G. intros i Hi. apply in_seq in Hi. apply H. lia.
Qed.
(* C222: the two entries of a pair of functions are the same double, whatever the doubles *)
Theorem C222_symmetric n w g c i j : f_local n w g c i j = f_local n w g c j i.
Proof. unfold f_local. f_equal. apply fsum_ext. intros q _. f_equal. unfold f_laplacian. f_equal. apply fsum_ext. intros r _. apply dmul_comm. Qed.
(* ---- sign of the diagonal ---- *)
Lemma fsum_nonneg n f : fin (fsum n f) = true -> (forall i, (i < n)%nat -> fin (f i) = true -> 0 <= B2 (f i)) -> 0 <= B2 (fsum n f) /\ forall i, (i < n)%nat -> fin (f i) = true.
Proof.
  induction n as [|n IH]; intros F H; [split; [cbn; lra|intros; lia]|]. rewrite fsum_S in F |- *. destruct (dadd_fin _ _ F) as (F1 & F2 & ->). destruct (IH F1 (fun i Hi => H i ltac:(lia))) as [P Q]. assert (P2 := H n ltac:(lia) F2).
  split; [apply rnd_pos; lra|]. intros i Hi. destruct (Nat.eq_dec i n) as [->|]; auto. apply Q. lia.
Qed.
Lemma measure_nonneg c : fin (f_measure 2 c) = true -> 0 <= B2 (f_measure 2 c).
Proof.
  intros F. unfold f_measure in *. set (D := f_determinant 2 (f_jac c)) in *. assert (Nq := FloatLinspace.d_index_near (fact 2) ltac:(reflexivity)). assert (Zf : INR (fact 2) <> 0) by (cbn [fact Nat.mul Nat.add]; cbn [INR]; lra). assert (Zq := near_nz _ _ _ Zf Nq). destruct Nq as (Fq & f & Eq & Hf). assert (Pf := fac_pos _ _ Hf). set (q := d_index (fact 2)) in *.
  assert (Pq : 0 < B2 q) by (rewrite Eq; apply Rmult_lt_0_compat; auto; cbn [fact Nat.mul Nat.add]; cbn [INR]; lra). assert (C := @Bdiv_correct 53 1024 prec64 emax64 mode_NE (Babs D) q Zq). fold (ddiv (Babs D) q) in C. rewrite B2R_Babs in C.
  destruct (Rlt_bool _ _) in C.
  - destruct C as (C1 & _). change (B2 (ddiv (Babs D) q) = rnd (Rabs (B2 D) / B2 q)) in C1. rewrite C1. apply rnd_pos. unfold Rdiv. apply Rmult_le_pos; [apply Rabs_pos|left; now apply Rinv_0_lt_compat].
  - exfalso. assert (X : is_finite_SF (B2SF (ddiv (Babs D) q)) = true) by (now rewrite is_finite_SF_B2SF). rewrite C in X. unfold binary_overflow in X. destruct (overflow_to_inf mode_NE _) eqn:O in X; [discriminate|]. discriminate.
Qed.
(* C222: a finite entry of a function with itself is not positive, when the weights are not negative *)
Theorem C222_diagonal n w g c i : (forall q, (q < n)%nat -> 0 <= B2 (w q)) -> fin (f_local n w g c i i) = true -> B2 (f_local n w g c i i) <= 0.
Proof.
  intros Hw F. unfold f_local in *. destruct (dmul_fin' _ _ F) as (F1 & F2 & ->). assert (Hm := measure_nonneg c F2). set (m := B2 (f_measure 2 c)) in *.
  assert (N : forall k f, (forall q, (q < k)%nat -> fin (f q) = true -> B2 (f q) <= 0) -> fin (fsum k f) = true -> B2 (fsum k f) <= 0).
  { induction k as [|k IH]; intros f H Fk; [cbn; lra|]. rewrite fsum_S in *. destruct (dadd_fin _ _ Fk) as (G1 & G2 & ->). rewrite <- rnd_0. apply rnd_le. assert (A := IH f (fun q Hq => H q ltac:(lia)) G1). assert (B := H k ltac:(lia) G2). lra. }
  assert (S : B2 (fsum n (fun q => dmul (f_laplacian c (g q i) (g q i)) (w q))) <= 0).
  { apply N; auto. intros q Hq Fq. destruct (dmul_fin' _ _ Fq) as (G1 & _ & ->). unfold f_laplacian in *. rewrite is_finite_Bopp in G1. rewrite B2R_Bopp. destruct (fsum_nonneg 2 (fun r => dmul (f_push c (g q i) r) (f_push c (g q i) r)) G1) as [P _].
    - intros r _ Fr. destruct (dmul_fin' _ _ Fr) as (_ & _ & ->). apply rnd_pos. apply Rle_0_sqr.
    - rewrite <- rnd_0. apply rnd_le. assert (K := Rmult_le_pos _ _ P (Hw q Hq)). lra. }
  rewrite <- rnd_0. apply rnd_le. assert (K := Rmult_le_pos (- B2 (fsum n (fun q => dmul (f_laplacian c (g q i) (g q i)) (w q)))) m ltac:(lra) Hm). lra.
Qed.
(* ---- accuracy: an error relative to S, an absolute one e, and a bound P ---- *)
Definition cl (m : nat) (a : double) (A S e P : R) : Prop := fin a = true /\ Rabs (B2 a - A) <= ((1 + u) ^ m - 1) * S + e /\ Rabs A <= S /\ S <= P /\ 0 <= e <= P.
Lemma pow_le2 m : (m <= 80)%nat -> 1 <= (1 + u) ^ m <= 2.
Proof. intros Hm. assert (G := pow_ge1 m). split; auto. assert (F : fac m ((1 + u) ^ m)) by (split; [|lra]; apply Rle_trans with 1; auto; assert (G2 := Rinv_le_contravar 1 _ ltac:(lra) G); now rewrite Rinv_1 in G2). now apply fac_small in F. Qed.
Lemma cl_size m a A S e P : (m <= 80)%nat -> cl m a A S e P -> Rabs (B2 a) <= 3 * P.
Proof.
  intros Hm (_ & E & HA & HS & He). destruct (pow_le2 m Hm) as [G1 G2]. assert (PA := Rabs_pos A). assert (X : ((1 + u) ^ m - 1) * S <= 1 * S) by (apply Rmult_le_compat_r; lra). replace (B2 a) with ((B2 a - A) + A) by ring. apply Rle_trans with (1 := Rabs_triang _ _). lra.
Qed.
Lemma cl_weak m m' a A S e e' P P' : (m <= m')%nat -> e <= e' -> P <= P' -> e' <= P' -> cl m a A S e P -> cl m' a A S e' P'.
Proof.
  intros Hm He HP Hq (F & E & HA & HS & Hp). assert (PA := Rabs_pos A). assert (W := weak m m' _ S Hm ltac:(lra) (Rle_refl _)). split; auto. split; [lra|]. split; [auto|]. split; lra.
Qed.
Lemma cl_exact a P : fin a = true -> Rabs (B2 a) <= P -> cl 0 a (B2 a) (Rabs (B2 a)) 0 P.
Proof. intros F H. assert (PA := Rabs_pos (B2 a)). split; auto. split; [rewrite Rminus_diag_eq, Rabs_R0 by auto; cbn; lra|]. split; [lra|]. split; lra. Qed.
Lemma cl_near k a A P : near k a A -> Rabs A <= P -> cl k a A (Rabs A) 0 P.
Proof. intros N H. assert (PA := Rabs_pos A). split; [now apply near_fin with (1 := N)|]. split; [assert (E := near_error _ _ _ N); lra|]. split; [lra|]. split; lra. Qed.
Lemma cl_opp m a A S e P : cl m a A S e P -> cl m (Bopp a) (- A) S e P.
Proof. intros (F & E & HA & H). split; [now rewrite is_finite_Bopp|]. split; [|now rewrite Rabs_Ropp]. rewrite B2R_Bopp. replace (- B2 a - - A) with (- (B2 a - A)) by ring. now rewrite Rabs_Ropp. Qed.
Lemma cl_mul m k a b A B S T e f P Q h : (m + k <= 79)%nat -> cl m a A S e P -> cl k b B T f Q -> 9 * (P * Q) <= bpow radix2 1000 -> 4 * (e * Q + f * P) + eta <= h -> h <= P * Q -> cl (m + k + 1) (dmul a b) (A * B) (S * T) h (P * Q).
Proof.
  intros Hmk Ca Cb HPQ Hh Hh2. assert (Sa := cl_size m a A S e P ltac:(lia) Ca). assert (Sb := cl_size k b B T f Q ltac:(lia) Cb). destruct Ca as (Fa & Ea & HA & HS & He). destruct Cb as (Fb & Eb & HB & HT & Hf). destruct (pow_le2 m ltac:(lia)) as [G1 G2]. destruct (pow_le2 k ltac:(lia)) as [K1 K2]. assert (PA := Rabs_pos A). assert (PB := Rabs_pos B). assert (Pa := Rabs_pos (B2 a)). assert (Pb := Rabs_pos (B2 b)). assert (Pe := eta_pos). assert (Pu := u_pos). assert (Su : u <= / 10000) by (rewrite u_small; lra).
  assert (Fm : fin (dmul a b) = true). { apply (dmul_ok a b 1000); auto; try lia. rewrite Rabs_mult. apply Rle_trans with (2 := HPQ). replace (9 * (P * Q)) with ((3 * P) * (3 * Q)) by ring. now apply Rmult_le_compat. }
  split; auto. assert (HST : Rabs (A * B) <= S * T) by (rewrite Rabs_mult; now apply Rmult_le_compat). assert (HPQ' : S * T <= P * Q) by (apply Rmult_le_compat; lra). split; [|split; [auto|split; [auto|]]]. 2:{ assert (N1 : 0 <= e * Q) by (apply Rmult_le_pos; lra). assert (N2 : 0 <= f * P) by (apply Rmult_le_pos; lra). lra. }
  set (x := (1 + u) ^ m) in *. set (y := (1 + u) ^ k) in *.
  assert (D : Rabs (B2 a * B2 b - A * B) <= ((1 + u) ^ (m + k) - 1) * (S * T) + (2 * (f * P) + 3 * (e * Q))).
  { rewrite pow_add. fold x y. assert (Bb : Rabs (B2 b) <= y * T + f) by (replace (B2 b) with ((B2 b - B) + B) by ring; apply Rle_trans with (1 := Rabs_triang _ _); lra).
    replace (B2 a * B2 b - A * B) with ((B2 a - A) * B2 b + A * (B2 b - B)) by ring. apply Rle_trans with (1 := Rabs_triang _ _). rewrite !Rabs_mult.
    assert (X1 : Rabs (B2 a - A) * Rabs (B2 b) <= ((x - 1) * S + e) * (y * T + f)) by (apply Rmult_le_compat; auto using Rabs_pos). assert (X2 : Rabs A * Rabs (B2 b - B) <= S * ((y - 1) * T + f)) by (apply Rmult_le_compat; auto using Rabs_pos).
    assert (X3 : x * (S * f) <= 2 * (P * f)) by (apply Rmult_le_compat; try lra; [apply Rmult_le_pos; lra|apply Rmult_le_compat_r; lra]). assert (X4 : y * (e * T) <= 2 * (e * Q)) by (apply Rmult_le_compat; try lra; [apply Rmult_le_pos; lra|apply Rmult_le_compat_l; lra]). assert (X5 : e * f <= e * Q) by (apply Rmult_le_compat_l; lra). lra. }
  assert (R := rounded (B2 a * B2 b) (A * B) (S * T) (m + k) _ (B2 (dmul a b)) eta D HST (dmul_error _ _ Fm)). apply Rle_trans with (1 := R). apply Rplus_le_compat_l.
  assert (N1 : 0 <= e * Q) by (apply Rmult_le_pos; lra). assert (N2 : 0 <= f * P) by (apply Rmult_le_pos; lra). assert (N3 : u * (2 * (f * P) + 3 * (e * Q)) <= / 10000 * (2 * (f * P) + 3 * (e * Q))) by (apply Rmult_le_compat_r; lra). lra.
Qed.
Lemma cl_sum n m f A S e P : (n <= 60)%nat -> (m + n <= 80)%nat -> (forall i, (i < n)%nat -> cl m (f i) (A i) (S i) e P) -> 0 <= e <= P -> 240 * P <= bpow radix2 1000 ->
  cl (m + n) (fsum n f) (rsum n A) (rsum n S) (2 * (INR n * e)) (2 * (INR n * P)).
Proof.
  intros Hn Hmn H He HP. assert (Pu := u_pos).
  assert (G : forall k, (k <= n)%nat -> fin (fsum k f) = true /\ Rabs (B2 (fsum k f) - rsum k A) <= ((1 + u) ^ (m + k) - 1) * rsum k S + (1 + u) ^ k * (INR k * e) /\ Rabs (rsum k A) <= rsum k S /\ rsum k S <= INR k * P).
  { induction k as [|k IH]; intros Hk.
    - cbn [rsum]. change (fsum 0 f) with d0. change (B2 d0) with 0. split; [reflexivity|]. rewrite Rminus_0_r, Rabs_R0. cbn [INR]. split; [lra|]. split; lra.
    - destruct (IH ltac:(lia)) as (F & E & HA & HS). assert (Ck := H k ltac:(lia)). assert (Sk := cl_size m _ _ _ _ _ ltac:(lia) Ck). destruct Ck as (Fk & Ek & HAk & HSk & Hek). destruct (pow_le2 (m + k) ltac:(lia)) as [G1 G2]. destruct (pow_le2 k ltac:(lia)) as [K1 K2]. assert (PA := Rabs_pos (rsum k A)). assert (PAk := Rabs_pos (A k)).
      assert (Ik : 0 <= INR k <= 59) by (split; [apply pos_INR|]; replace 59 with (INR 59) by (cbn; lra); apply le_INR; lia). rewrite S_INR. rewrite fsum_S. cbn [rsum].
      assert (Y0 : INR k * e <= INR k * P) by (apply Rmult_le_compat_l; lra). assert (Y0' : 0 <= INR k * e) by (apply Rmult_le_pos; lra). assert (Y1 : ((1 + u) ^ (m + k) - 1) * rsum k S <= 1 * rsum k S) by (apply Rmult_le_compat_r; lra). assert (Y2 : (1 + u) ^ k * (INR k * e) <= 2 * (INR k * e)) by (apply Rmult_le_compat_r; lra). assert (Y3 : INR k * P <= 59 * P) by (apply Rmult_le_compat_r; lra).
      assert (Bk : Rabs (B2 (fsum k f)) <= 4 * (INR k * P)) by (replace (B2 (fsum k f)) with ((B2 (fsum k f) - rsum k A) + rsum k A) by ring; apply Rle_trans with (1 := Rabs_triang _ _); lra).
      assert (Fa : fin (dadd (fsum k f) (f k)) = true) by (apply (dadd_ok _ _ 1000); auto; try lia; apply Rle_trans with (1 := Rabs_triang _ _); lra). split; auto. split; [|split; [apply Rle_trans with (1 := Rabs_triang _ _); lra|lra]].
      assert (W := weak m (m + k) _ (S k) ltac:(lia) ltac:(lra) (Rle_refl _)). assert (Y4 : 1 * e <= (1 + u) ^ k * e) by (apply Rmult_le_compat_r; lra).
      assert (Q := addS (B2 (fsum k f)) (rsum k A) (rsum k S) (B2 (f k)) (A k) (S k) (m + k) _ ((1 + u) ^ k * e) (B2 (dadd (fsum k f) (f k))) E HA ltac:(lra) HAk (dadd_error _ _ Fa)).
      replace (m + Datatypes.S k)%nat with (m + k + 1)%nat by lia. replace ((1 + u) ^ Datatypes.S k) with ((1 + u) * (1 + u) ^ k) by reflexivity. lra. }
  destruct (G n (le_n n)) as (F & E & HA & HS). destruct (pow_le2 n ltac:(lia)) as [K1 K2]. assert (In := pos_INR n). assert (Y0 : INR n * e <= INR n * P) by (apply Rmult_le_compat_l; lra). assert (Y0' : 0 <= INR n * e) by (apply Rmult_le_pos; lra). assert (Y2 : (1 + u) ^ n * (INR n * e) <= 2 * (INR n * e)) by (apply Rmult_le_compat_r; lra).
  split; auto. split; [lra|]. split; auto. split; lra.
Qed.
Lemma bp n : bpow radix2 (n + 1) = 2 * bpow radix2 n. Proof. rewrite bpow_plus. change (bpow radix2 1) with 2. ring. Qed.
Lemma terms2_large c : cell_ok 2 2 c -> volume 2 (span c) <> 0 -> bpow radix2 (-200) <= terms 2 (span c).
Proof.
  intros ok NV. destruct (Rle_or_lt (bpow radix2 (-200)) (terms 2 (span c))) as [L|L]; auto. exfalso. apply NV. cbn [terms volume] in *.
  assert (Z : forall x, rng 200 x -> Rabs x < bpow radix2 (-200) -> x = 0) by (intros x [E|[E _]] Hx; auto; exfalso; change (Z.opp 200) with (-200)%Z in E; lra). assert (P1 := Rabs_pos (span c 0 0 * span c 1 1)). assert (P2 := Rabs_pos (span c 1 0 * span c 0 1)).
  rewrite (Z (span c 0 0 * span c 1 1)), (Z (span c 1 0 * span c 0 1)); try lra; apply (rng_mul 100 100); apply (J_rng 2 2 c ok); lia.
Qed.
Section Local.
Variables (n : nat) (w : nat -> double) (g : nat -> nat -> nat -> double) (c : f_cell) (kappa : R).
Hypothesis ok : cell_ok 2 2 c.
Let J := span c.
Let V := volume 2 J.
Hypothesis NV : V <> 0.
Hypothesis HK : terms 2 J <= kappa * Rabs V.
Hypothesis K20 : kappa <= 1048576.
Hypothesis Hn : (n <= 60)%nat.
Hypothesis Hw : forall q, (q < n)%nat -> fin (w q) = true /\ Rabs (B2 (w q)) <= 1.
Hypothesis Hg : forall q i s, (q < n)%nat -> (s < 2)%nat -> fin (g q i s) = true /\ Rabs (B2 (g q i s)) <= 1024.
Let D := B2 (f_det (f_jac c)).
Let rho := V / D.
Lemma V_pos : 0 < Rabs V. Proof. now apply Rabs_pos_lt. Qed.
Lemma kappa_1 : 1 <= kappa.
Proof. assert (P := V_pos). assert (L := volume_le 2 J ltac:(lia)). fold V in L. destruct (Rle_dec 1 kappa) as [|N]; auto. exfalso. assert (kappa * Rabs V < 1 * Rabs V) by (apply Rmult_lt_compat_r; lra). lra. Qed.
Lemma ku : 0 < kappa * u <= / 1000000.
Proof. assert (Pu := u_pos). assert (K := kappa_1). split; [apply Rmult_lt_0_compat; lra|]. apply Rle_trans with (1048576 * u); [apply Rmult_le_compat_r; lra|]. rewrite u_small. lra. Qed.
Lemma V_large : bpow radix2 (-220) <= Rabs V.
Proof.
  assert (T := terms2_large c ok NV). fold J in T. assert (P := V_pos). assert (X : kappa * Rabs V <= bpow radix2 20 * Rabs V) by (apply Rmult_le_compat_r; [lra|]; change (bpow radix2 20) with 1048576; lra).
  assert (Y : bpow radix2 20 * bpow radix2 (-220) <= bpow radix2 20 * Rabs V) by (rewrite <- bpow_plus; change (20 + -220)%Z with (-200)%Z; lra). apply Rmult_le_reg_l with (2 := Y). apply bpow_gt_0.
Qed.
Lemma V_small : Rabs V <= bpow radix2 201.
Proof.
  assert (L := volume_le 2 J ltac:(lia)). fold V in L. apply Rle_trans with (1 := L). cbn [terms]. change 201%Z with (200 + 1)%Z. rewrite bp. assert (L1 := prod_le 2 2 c ok 0 0 1 1 ltac:(lia) ltac:(lia) ltac:(lia) ltac:(lia)). assert (L2 := prod_le 2 2 c ok 1 0 0 1 ltac:(lia) ltac:(lia) ltac:(lia) ltac:(lia)). fold J in L1, L2. lra.
Qed.
Lemma det_near : fin (f_det (f_jac c)) = true /\ Rabs (D - V) <= 5 * (kappa * u) * Rabs V /\ D <> 0 /\ rng 221 D.
Proof.
  destruct (det2_error 2 2 c ok 0 0 1 1 1 0 0 1) as [F E]; try lia. cbv zeta in F, E. fold (f_det (f_jac c)) in F, E. fold J in E. fold D in E. fold (volume 2 J) in E. fold V in E. fold (terms 2 J) in E. split; auto. assert (Pu := u_pos). assert (PV := V_pos). assert (KU := ku).
  assert (E' : Rabs (D - V) <= 5 * (kappa * u) * Rabs V). { apply Rle_trans with (1 := E). assert (P4 : (1 + u) ^ 4 - 1 <= 5 * u) by (rewrite u_small; cbn [pow]; lra). apply Rle_trans with (5 * u * terms 2 J); [apply Rmult_le_compat_r; auto; apply terms_pos|]. apply Rle_trans with (5 * u * (kappa * Rabs V)); [apply Rmult_le_compat_l; lra|]. lra. }
  split; auto. assert (Y : 5 * (kappa * u) * Rabs V <= / 2 * Rabs V) by (apply Rmult_le_compat_r; lra). assert (T1 := Rabs_triang_inv V D). rewrite (Rabs_minus_sym V D) in T1. assert (T2 := Rabs_triang (D - V) V). replace (D - V + V) with D in T2 by ring.
  split; [intros Z; assert (Z' : Rabs D = 0) by (rewrite Z; apply Rabs_R0); lra|]. right. assert (VL := V_large). assert (VS := V_small). split.
  - assert (B := bp (-221)). change (-221 + 1)%Z with (-220)%Z in B. change (Z.opp 221) with (-221)%Z. lra.
  - assert (bpow radix2 221 >= 2 * bpow radix2 201) by (rewrite <- bp; apply Rle_ge, bpow_le; lia). lra.
Qed.
Lemma rho_error : Rabs (rho - 1) <= 6 * (kappa * u).
Proof.
  destruct det_near as (_ & E & ND & _). assert (KU := ku). assert (PV := V_pos). assert (PD := Rabs_pos_lt _ ND). assert (T1 := Rabs_triang_inv V D). rewrite (Rabs_minus_sym V D) in T1.
  unfold rho. replace (V / D - 1) with (- (D - V) * / D) by (field; auto). rewrite Rabs_mult, Rabs_Ropp, Rabs_inv. apply Rmult_le_reg_r with (Rabs D); auto. rewrite Rmult_assoc, Rinv_l, Rmult_1_r by lra. apply Rle_trans with (1 := E).
  assert (Y : kappa * u * (5 * Rabs V) <= / 1000000 * (5 * Rabs V)) by (apply Rmult_le_compat_r; lra). assert (W : 999 / 1000 * Rabs V <= Rabs D) by lra. assert (Z : kappa * u * (999 / 1000 * Rabs V) <= kappa * u * Rabs D) by (apply Rmult_le_compat_l; lra). assert (Q : 0 <= kappa * u * Rabs V) by (apply Rmult_le_pos; lra). lra.
Qed.
Lemma inv_near s r : (s < 2)%nat -> (r < 2)%nat -> near 3 (f_inv (f_jac c) s r) (rho * inverse J s r) /\ Rabs (rho * inverse J s r) <= bpow radix2 321.
Proof.
  intros Hs Hr. destruct det_near as (F & _ & ND & RD). assert (N1 : near 1 (ddiv d1 (f_det (f_jac c))) (1 / D)).
  { apply (near_div 0 0); auto; try lia.
    - split; [reflexivity|]. exists 1. split; [|split; [cbn [pow]; lra|cbn [pow]; lra]]. rewrite Rmult_1_r. apply d1_ok.
    - split; auto. exists 1. split; [rewrite Rmult_1_r; reflexivity|split; cbn [pow]; lra].
    - unfold Rdiv. rewrite Rmult_1_l. apply rng_mono with 221%Z; [lia|]. now apply rng_inv. }
  assert (RI : rng 221 (1 / D)) by (unfold Rdiv; rewrite Rmult_1_l; now apply rng_inv).
  assert (C : forall a A, near 1 a A -> rng 100 A -> near 3 (dmul a (ddiv d1 (f_det (f_jac c)))) (A * (1 / D)) /\ Rabs (A * (1 / D)) <= bpow radix2 321).
  { intros a A Na Ra. assert (RA : rng 321 (A * (1 / D))) by (apply (rng_mul 100 221); auto). split; [apply (near_mul 1 1); auto; [lia|]; apply rng_mono with (2 := RA); lia|]. apply rng_le; auto. lia. }
  assert (NJ : forall r k, (r < 2)%nat -> (k < 2)%nat -> near 1 (f_jac c r k) (J r k) /\ rng 100 (J r k)) by (intros r' k Hr' Hk; split; [apply (j_near 2 2 c ok)|apply (J_rng 2 2 c ok)]; auto).
  assert (Op : forall a A, near 1 a A -> near 1 (Bopp a) (- A)). { intros a A (Fa & f & E & Hf). split; [now rewrite is_finite_Bopp|]. exists f. split; auto. rewrite B2R_Bopp, E. ring. }
  assert (Ro : forall A, rng 100 A -> rng 100 (- A)) by (intros A [->|H]; [left; ring|right; now rewrite Rabs_Ropp]).
  assert (Eq : forall A, rho * (A / V) = A * (1 / D)) by (intros A; unfold rho; field; auto).
  destruct s as [|[|s]], r as [|[|r]]; try lia; unfold inverse; fold V; rewrite Eq; cbn [f_inv].
  - destruct (NJ 1%nat 1%nat ltac:(lia) ltac:(lia)). now apply C.
  - destruct (NJ 0%nat 1%nat ltac:(lia) ltac:(lia)). apply C; auto.
  - destruct (NJ 1%nat 0%nat ltac:(lia) ltac:(lia)). apply C; auto.
  - destruct (NJ 0%nat 0%nat ltac:(lia) ltac:(lia)). now apply C.
Qed.
Let rg (q i s : nat) : R := B2 (g q i s).
Lemma cl_eq m a A A' S S' e P : A = A' -> S = S' -> cl m a A S e P -> cl m a A' S' e P. Proof. now intros -> ->. Qed.
Lemma eta_bp : eta = bpow radix2 (-1075). Proof. unfold eta. change (-1074)%Z with (-1075 + 1)%Z. rewrite bp. lra. Qed.
Lemma push_cl q i r : (q < n)%nat -> (r < 2)%nat -> cl 6 (f_push c (g q i) r) (rho * gradient J (rg q i) r) (Rabs rho * agradient J (rg q i) r) (bpow radix2 (-1073)) (bpow radix2 333).
Proof.
  intros Hq Hr. assert (T : forall s, (s < 2)%nat -> cl 4 (dmul (f_inv (f_jac c) s r) (g q i s)) (rho * inverse J s r * rg q i s) (Rabs (rho * inverse J s r) * Rabs (rg q i s)) (bpow radix2 (-1075)) (bpow radix2 331)).
  { intros s Hs. destruct (inv_near s r Hs Hr) as [N L]. destruct (Hg q i s Hq Hs) as [Fg Bg]. change 331%Z with (321 + 10)%Z. rewrite bpow_plus. apply (cl_mul 3 0 _ _ _ _ _ _ 0 0); [lia|now apply cl_near|apply cl_exact; auto; change (bpow radix2 10) with 1024; exact Bg| | |].
    - rewrite <- bpow_plus. apply Rle_trans with (bpow radix2 335); [|apply bpow_le; lia]. change (321 + 10)%Z with 331%Z. change 335%Z with (331 + 4)%Z. rewrite bpow_plus. change (bpow radix2 4) with 16. assert (P := bpow_gt_0 radix2 331). lra.
    - rewrite eta_bp. lra.
    - rewrite <- bpow_plus. apply bpow_le. lia. }
  assert (C := cl_sum 2 4 _ _ _ _ _ ltac:(lia) ltac:(lia) T). assert (B1 := bp 331). assert (B2' := bp 332). assert (B3 := bp (-1075)). assert (B4 := bp (-1074)). change (331 + 1)%Z with 332%Z in B1. change (332 + 1)%Z with 333%Z in B2'. change (-1075 + 1)%Z with (-1074)%Z in B3. change (-1074 + 1)%Z with (-1073)%Z in B4. assert (P := bpow_gt_0 radix2 (-1075)). assert (L0 : bpow radix2 (-1075) <= bpow radix2 331) by (apply bpow_le; lia). assert (L1 : bpow radix2 (-1073) <= bpow radix2 333) by (apply bpow_le; lia).
  assert (L2 : 240 * bpow radix2 331 <= bpow radix2 1000) by (apply Rle_trans with (bpow radix2 (331 + 8)); [rewrite bpow_plus; change (bpow radix2 8) with 256; assert (P' := bpow_gt_0 radix2 331); lra|apply bpow_le; lia]). specialize (C ltac:(lra) L2). cbn [Nat.add INR] in C.
  eapply cl_eq; [| |eapply (cl_weak 6 6 _ _ _ _ _ _ _ ltac:(lia)); [| |exact L1|exact C]; lra].
  - unfold gradient. cbn [rsum]. ring.
  - unfold agradient. cbn [rsum]. rewrite !Rabs_mult. ring.
Qed.
Lemma lap_cl q i j : (q < n)%nat -> cl 15 (f_laplacian c (g q i) (g q j)) (- (rho * rho * rsum 2 (fun r => gradient J (rg q i) r * gradient J (rg q j) r))) (rho * rho * rsum 2 (fun r => agradient J (rg q i) r * agradient J (rg q j) r)) (bpow radix2 (-734)) (bpow radix2 668).
Proof.
  intros Hq. unfold f_laplacian. apply cl_opp.
  assert (T : forall r, (r < 2)%nat -> cl 13 (dmul (f_push c (g q i) r) (f_push c (g q j) r)) (rho * gradient J (rg q i) r * (rho * gradient J (rg q j) r)) (Rabs rho * agradient J (rg q i) r * (Rabs rho * agradient J (rg q j) r)) (bpow radix2 (-736)) (bpow radix2 666)).
  { intros r Hr. change 666%Z with (333 + 333)%Z. rewrite (bpow_plus radix2 333 333). apply (cl_mul 6 6 _ _ _ _ _ _ _ _ _ _ _ ltac:(lia) (push_cl q i r Hq Hr) (push_cl q j r Hq Hr)).
    - rewrite <- bpow_plus. apply Rle_trans with (bpow radix2 (666 + 4)); [|apply bpow_le; lia]. rewrite (bpow_plus radix2 666 4). change (bpow radix2 4) with 16. change (333 + 333)%Z with 666%Z. assert (P := bpow_gt_0 radix2 666). lra.
    - rewrite <- !bpow_plus, eta_bp. change (-1073 + 333)%Z with (-740)%Z. assert (bpow radix2 (-1075) <= bpow radix2 (-740)) by (apply bpow_le; lia). assert (Q : bpow radix2 (-736) = 16 * bpow radix2 (-740)) by (change (-736)%Z with (4 + -740)%Z; rewrite bpow_plus; reflexivity). assert (P := bpow_gt_0 radix2 (-740)). lra.
    - rewrite <- bpow_plus. apply bpow_le. lia. }
  assert (C := cl_sum 2 13 _ _ _ _ _ ltac:(lia) ltac:(lia) T). assert (Q1 : bpow radix2 668 = 4 * bpow radix2 666) by (change 668%Z with (2 + 666)%Z; rewrite bpow_plus; reflexivity). assert (Q2 : bpow radix2 (-734) = 4 * bpow radix2 (-736)) by (change (-734)%Z with (2 + -736)%Z; rewrite bpow_plus; reflexivity). assert (P := bpow_gt_0 radix2 (-736)). assert (L0 : bpow radix2 (-736) <= bpow radix2 666) by (apply bpow_le; lia).
  assert (L2 : 240 * bpow radix2 666 <= bpow radix2 1000) by (apply Rle_trans with (bpow radix2 (666 + 8)); [rewrite bpow_plus; change (bpow radix2 8) with 256; assert (P' := bpow_gt_0 radix2 666); lra|apply bpow_le; lia]). specialize (C ltac:(lra) L2). cbn [Nat.add INR] in C. assert (L1 : bpow radix2 (-734) <= bpow radix2 668) by (apply bpow_le; lia).
  eapply cl_eq; [| |eapply (cl_weak 15 15 _ _ _ _ _ _ _ ltac:(lia)); [| |exact L1|exact C]; lra].
  - cbn [rsum]. ring.
  - assert (Rr : Rabs rho * Rabs rho = rho * rho) by (rewrite <- Rabs_mult; apply Rabs_pos_eq, Rle_0_sqr). rewrite <- Rr. cbn [rsum]. ring.
Qed.
Let mu := B2 (f_measure 2 c) / (Rabs V / 2).
Lemma mu_error : fin (f_measure 2 c) = true /\ Rabs (mu - 1) <= 10 * (kappa * u) /\ 0 <= B2 (f_measure 2 c) <= bpow radix2 203 /\ B2 (f_measure 2 c) = mu * (Rabs V / 2).
Proof.
  assert (PV := V_pos). assert (KU := ku). destruct (C221_measure_partial 2 c ltac:(lia) ok NV) as (F & P & _). destruct (C221_relative_partial 2 c kappa ltac:(lia) ok NV HK) as (E & _). fold J in E. fold V in E. replace (INR (fact 2)) with 2 in E by (cbn [fact Nat.mul Nat.add]; cbn [INR]; lra). split; auto. split; [|split].
  - unfold mu. replace (B2 (f_measure 2 c) / (Rabs V / 2) - 1) with ((B2 (f_measure 2 c) - Rabs V / 2) / (Rabs V / 2)) by (field; lra). unfold Rdiv at 1. rewrite Rabs_mult, Rabs_inv, (Rabs_pos_eq (Rabs V / 2)) by lra. apply Rmult_le_reg_r with (Rabs V / 2); [lra|]. rewrite Rmult_assoc, Rinv_l, Rmult_1_r by lra. lra.
  - split; auto. apply Rabs_le_inv in E. assert (Y : kappa * u * (5 * Rabs V) <= / 1000000 * (5 * Rabs V)) by (apply Rmult_le_compat_r; lra). assert (VS := V_small). assert (Q1 : bpow radix2 203 = 4 * bpow radix2 201) by (change 203%Z with (2 + 201)%Z; rewrite bpow_plus; reflexivity). lra.
  - unfold mu. field. lra.
Qed.
Lemma local_cl i j : cl (17 + n) (f_local n w g c i j) (rho * rho * mu * stiffness n (fun q => B2 (w q)) rg J i j) (rho * rho * mu * astiffness n (fun q => B2 (w q)) rg J i j) (bpow radix2 (-500)) (bpow radix2 900).
Proof.
  assert (T : forall q, (q < n)%nat -> cl 16 (dmul (f_laplacian c (g q i) (g q j)) (w q)) (- (rho * rho * rsum 2 (fun r => gradient J (rg q i) r * gradient J (rg q j) r)) * B2 (w q)) (rho * rho * rsum 2 (fun r => agradient J (rg q i) r * agradient J (rg q j) r) * Rabs (B2 (w q))) (bpow radix2 (-731)) (bpow radix2 668)).
  { intros q Hq. destruct (Hw q Hq) as [Fw Bw]. replace (bpow radix2 668) with (bpow radix2 668 * 1) by ring. apply (cl_mul 15 0 _ _ _ _ _ _ _ _ _ _ _ ltac:(lia) (lap_cl q i j Hq) (cl_exact _ 1 Fw Bw)); rewrite Rmult_1_r.
    - apply Rle_trans with (bpow radix2 (668 + 4)); [|apply bpow_le; lia]. rewrite bpow_plus. change (bpow radix2 4) with 16. assert (P := bpow_gt_0 radix2 668). lra.
    - rewrite eta_bp. assert (bpow radix2 (-1075) <= bpow radix2 (-734)) by (apply bpow_le; lia). assert (Q : bpow radix2 (-731) = 8 * bpow radix2 (-734)) by (change (-731)%Z with (3 + -734)%Z; rewrite bpow_plus; reflexivity). assert (P := bpow_gt_0 radix2 (-734)). lra.
    - apply bpow_le. lia. }
  assert (P1 := bpow_gt_0 radix2 (-731)). assert (L0 : bpow radix2 (-731) <= bpow radix2 668) by (apply bpow_le; lia). assert (L2 : 240 * bpow radix2 668 <= bpow radix2 1000) by (apply Rle_trans with (bpow radix2 (668 + 8)); [rewrite bpow_plus; change (bpow radix2 8) with 256; assert (P' := bpow_gt_0 radix2 668); lra|apply bpow_le; lia]).
  assert (C := cl_sum n 16 _ _ _ _ _ Hn ltac:(lia) T ltac:(lra) L2). assert (In : 0 <= INR n <= 60) by (split; [apply pos_INR|]; replace 60 with (INR 60) by (cbn; lra); now apply le_INR).
  assert (Q1 : bpow radix2 675 = 128 * bpow radix2 668) by (change 675%Z with (7 + 668)%Z; rewrite bpow_plus; reflexivity). assert (Q2 : bpow radix2 (-724) = 128 * bpow radix2 (-731)) by (change (-724)%Z with (7 + -731)%Z; rewrite bpow_plus; reflexivity).
  assert (Y1 : INR n * bpow radix2 (-731) <= 60 * bpow radix2 (-731)) by (apply Rmult_le_compat_r; lra). assert (Y2 : INR n * bpow radix2 668 <= 60 * bpow radix2 668) by (apply Rmult_le_compat_r; lra). assert (L1 : bpow radix2 (-724) <= bpow radix2 675) by (apply bpow_le; lia).
  assert (C' := cl_weak (16 + n) (16 + n) _ _ _ (2 * (INR n * bpow radix2 (-731))) (bpow radix2 (-724)) (2 * (INR n * bpow radix2 668)) (bpow radix2 675) ltac:(lia) ltac:(lra) ltac:(lra) L1 C).
  destruct mu_error as (Fm & _ & Bm & Em). assert (X := cl_mul (16 + n) 0 _ _ _ _ _ _ _ _ _ _ (bpow radix2 (-518)) ltac:(lia) C' (cl_exact _ (bpow radix2 203) Fm ltac:(rewrite Rabs_pos_eq; lra))). fold (f_local n w g c i j) in X.
  assert (E1 : bpow radix2 675 * bpow radix2 203 = bpow radix2 878) by (rewrite <- bpow_plus; reflexivity). assert (E2 : bpow radix2 (-724) * bpow radix2 203 = bpow radix2 (-521)) by (rewrite <- bpow_plus; reflexivity). rewrite E1, E2 in X.
  assert (X1 : 9 * bpow radix2 878 <= bpow radix2 1000). { apply Rle_trans with (bpow radix2 (878 + 4)); [|apply bpow_le; lia]. rewrite (bpow_plus radix2 878 4). change (bpow radix2 4) with 16. assert (P := bpow_gt_0 radix2 878). lra. }
  assert (X2 : 4 * (bpow radix2 (-521) + 0 * bpow radix2 675) + eta <= bpow radix2 (-518)). { rewrite eta_bp. assert (bpow radix2 (-1075) <= bpow radix2 (-521)) by (apply bpow_le; lia). assert (Q : bpow radix2 (-518) = 8 * bpow radix2 (-521)) by (change (-518)%Z with (3 + -521)%Z; rewrite bpow_plus; reflexivity). assert (P := bpow_gt_0 radix2 (-521)). lra. }
  specialize (X X1 X2 ltac:(apply bpow_le; lia)). eapply cl_eq; [| |eapply (cl_weak (16 + n + 0 + 1) (17 + n)); [lia| | | |exact X]; apply bpow_le; lia].
  - rewrite Em. unfold stiffness. fold V. rewrite (rsum_ext n (fun q => - (rho * rho * rsum 2 (fun r => gradient J (rg q i) r * gradient J (rg q j) r)) * B2 (w q)) (fun q => - (rho * rho) * (rsum 2 (fun r => gradient J (rg q i) r * gradient J (rg q j) r) * B2 (w q)))) by (intros; ring). rewrite rsum_scal. ring.
  - rewrite (Rabs_pos_eq (B2 (f_measure 2 c))) by lra. rewrite Em. unfold astiffness. fold V. rewrite (rsum_ext n (fun q => rho * rho * rsum 2 (fun r => agradient J (rg q i) r * agradient J (rg q j) r) * Rabs (B2 (w q))) (fun q => (rho * rho) * (rsum 2 (fun r => agradient J (rg q i) r * agradient J (rg q j) r) * Rabs (B2 (w q))))) by (intros; ring). rewrite rsum_scal. ring.
Qed.
Lemma local_ok i j : fin (f_local n w g c i j) = true /\ Rabs (B2 (f_local n w g c i j) - stiffness n (fun q => B2 (w q)) rg J i j) <= (3 * INR n + 60 * kappa) * u * astiffness n (fun q => B2 (w q)) rg J i j + bpow radix2 (-500).
Proof.
  destruct (local_cl i j) as (F & E & HA & _). split; auto. set (A := stiffness n (fun q => B2 (w q)) rg J i j) in *. set (S := astiffness n (fun q => B2 (w q)) rg J i j) in *. set (a := B2 (f_local n w g c i j)) in *. assert (KU := ku). assert (K1 := kappa_1). assert (Pu := u_pos). assert (Re := rho_error). destruct mu_error as (_ & Me & _). set (x := kappa * u) in *.
  assert (T : Rabs (rho * rho * mu - 1) <= 23 * x). { replace (rho * rho * mu - 1) with ((rho - 1) * (rho + 1) * mu + (mu - 1)) by ring. apply Rle_trans with (1 := Rabs_triang _ _). rewrite !Rabs_mult. apply Rabs_le_inv in Re as R1. apply Rabs_le_inv in Me as M1. rewrite (Rabs_pos_eq (rho + 1)), (Rabs_pos_eq mu) by lra.
    assert (Y : Rabs (rho - 1) * (rho + 1) * mu <= 6 * x * (2001 / 1000) * (1001 / 1000)) by (apply Rmult_le_compat; try lra; [apply Rmult_le_pos; [apply Rabs_pos|lra]|apply Rmult_le_compat; try lra; apply Rabs_pos]). lra. }
  set (t := rho * rho * mu) in *. apply Rabs_le_inv in T as T1. assert (Pt : 999 / 1000 <= t <= 1001 / 1000) by lra. assert (HAS : Rabs A <= S). { rewrite Rabs_mult, (Rabs_pos_eq t) in HA by lra. apply Rmult_le_reg_l with t; lra. } assert (PA := Rabs_pos A).
  assert (I : INR (17 + n) = 17 + INR n) by (rewrite plus_INR; cbn [INR]; lra). assert (In : 0 <= INR n <= 60) by (split; [apply pos_INR|]; replace 60 with (INR 60) by (cbn; lra); now apply le_INR).
  assert (L : (1 + u) ^ (17 + n) - 1 <= (17 + INR n) * (2 * u)) by (rewrite <- I; assert (Q := pow_linear (17 + n)); rewrite I in Q |- *; assert (Q' : (17 + INR n) * (2 * u) <= 1) by (apply Rle_trans with (77 * (2 * u)); [apply Rmult_le_compat_r; lra|rewrite u_small; lra]); specialize (Q Q'); lra).
  replace (a - A) with ((a - t * A) + (t - 1) * A) by ring. apply Rle_trans with (1 := Rabs_triang _ _). rewrite Rabs_mult.
  assert (G0 := pow_ge1 (17 + n)). assert (Z1 : ((1 + u) ^ (17 + n) - 1) * (t * S) <= (17 + INR n) * (2 * u) * (1001 / 1000 * S)) by (apply Rmult_le_compat; try lra; [apply Rmult_le_pos; lra|apply Rmult_le_compat_r; lra]).
  assert (Z2 : Rabs (t - 1) * Rabs A <= 23 * x * S) by (apply Rmult_le_compat; auto using Rabs_pos). assert (PuS : 0 <= u * S) by (apply Rmult_le_pos; lra).
  assert (Z3 : ((17 + INR n) * 2 * (1001 / 1000) + 23 * kappa) * (u * S) <= (3 * INR n + 60 * kappa) * (u * S)) by (apply Rmult_le_compat_r; lra). unfold x in Z2. lra.
Qed.
End Local.
(* C222: every entry is finite, and its error is at most (3 n + 60 kappa) u times the entry formed with absolute values (kappa measures the
   distortion of the triangle, n is the number of quadrature nodes) *)
Theorem C222_accuracy n w g c kappa i j : cell_ok 2 2 c -> volume 2 (span c) <> 0 -> terms 2 (span c) <= kappa * Rabs (volume 2 (span c)) -> kappa <= 2 ^ 20 -> (n <= 60)%nat ->
  (forall q, (q < n)%nat -> fin (w q) = true /\ Rabs (B2 (w q)) <= 1) -> (forall q i s, (q < n)%nat -> (s < 2)%nat -> fin (g q i s) = true /\ Rabs (B2 (g q i s)) <= 1024) ->
  fin (f_local n w g c i j) = true /\
  Rabs (B2 (f_local n w g c i j) - stiffness n (fun q => B2 (w q)) (fun q i s => B2 (g q i s)) (span c) i j) <= (3 * INR n + 60 * kappa) * u * astiffness n (fun q => B2 (w q)) (fun q i s => B2 (g q i s)) (span c) i j + bpow radix2 (-500).
Proof. intros ok NV HK K Hn Hw Hg. apply local_ok; auto. lra. Qed.
(* C222: when the gradients of the nb functions add up to zero, as they do for a Lagrangian basis, so do the rows, up to the same errors *)
Theorem C222_rows n w g c kappa nb i : cell_ok 2 2 c -> volume 2 (span c) <> 0 -> terms 2 (span c) <= kappa * Rabs (volume 2 (span c)) -> kappa <= 2 ^ 20 -> (n <= 60)%nat ->
  (forall q, (q < n)%nat -> fin (w q) = true /\ Rabs (B2 (w q)) <= 1) -> (forall q i s, (q < n)%nat -> (s < 2)%nat -> fin (g q i s) = true /\ Rabs (B2 (g q i s)) <= 1024) ->
  (forall q s, (q < n)%nat -> (s < 2)%nat -> rsum nb (fun j => B2 (g q j s)) = 0) ->
  Rabs (rsum nb (fun j => B2 (f_local n w g c i j))) <= (3 * INR n + 60 * kappa) * u * rsum nb (astiffness n (fun q => B2 (w q)) (fun q i s => B2 (g q i s)) (span c) i) + INR nb * bpow radix2 (-500).
Proof.
  intros ok NV HK K Hn Hw Hg Z. set (W := fun q => B2 (w q)). set (G := fun q i s => B2 (g q i s)).
  assert (Zs : rsum nb (stiffness n W G (span c) i) = 0).
  { rewrite (rsum_ext nb _ (fun j => rsum n (fun q => rsum 2 (fun r => gradient (span c) (G q i) r * gradient (span c) (G q j) r) * W q) * (- (Rabs (volume 2 (span c)) / 2)))) by (intros j _; unfold stiffness; ring). rewrite rsum_scal_r, rsum_swap. rewrite (rsum_zero n); [ring|]. intros q Hq. rewrite rsum_scal_r, rsum_swap. rewrite (rsum_zero 2); [ring|]. intros r Hr. rewrite rsum_scal.
    replace (rsum nb (fun j => gradient (span c) (G q j) r)) with 0; [ring|]. unfold gradient. rewrite rsum_swap. symmetry. apply rsum_zero. intros s Hs. rewrite rsum_scal. unfold G. rewrite (Z q s Hq Hs). ring. }
  rewrite <- (Rminus_0_r (rsum nb _)), <- Zs, <- rsum_minus. apply Rle_trans with (1 := rsum_abs _ _). rewrite <- rsum_scal. replace (INR nb * bpow radix2 (-500)) with (rsum nb (fun _ => bpow radix2 (-500))) by (clear; induction nb as [|k IH]; [cbn; ring|rewrite S_INR; cbn [rsum]; rewrite IH; ring]). rewrite <- rsum_plus. apply rsum_le. intros j _. now apply C222_accuracy.
Qed.
Print Assumptions C222_symmetric.
Print Assumptions C222_accuracy.
Print Assumptions C222_rows.
(* linear elements and the three-point rule of integrator_tables.h:146-160 on the triangle (0, 0), (2, 0), (1, 3) *)
Definition third : double := dbl 6004799503160655 (-54).
Definition hats (_ i s : nat) : double := match i, s with O, _ => whole (-1) | S O, O => whole 1 | S (S O), S O => whole 1 | _, _ => d0 end.
Definition tri23 : f_cell := nodes3 (at2 d0 d0) (at2 (whole 2) d0) (at2 (whole 1) (whole 3)).
Example C222_example :
  cell_ok 2 2 tri23 /\ volume 2 (span tri23) <> 0 /\ terms 2 (span tri23) <= 1 * Rabs (volume 2 (span tri23)) /\
  (forall q, (q < 3)%nat -> fin ((fun _ => third) q) = true /\ 0 <= B2 third /\ Rabs (B2 third) <= 1) /\ (forall q i s, (q < 3)%nat -> (s < 2)%nat -> fin (hats q i s) = true /\ Rabs (B2 (hats q i s)) <= 1024) /\
  (forall q s, (q < 3)%nat -> (s < 2)%nat -> rsum 3 (fun j => B2 (hats q j s)) = 0) /\
  Rabs (B2 (f_local 3 (fun _ => third) hats tri23 1 2) - 3 * B2 third * (1 / 6)) <= 100 * u.
Proof.
  assert (W : forall m, (-4 <= m <= 4)%Z -> fin (whole m) = true /\ B2 (whole m) = IZR m) by (intros m Hm; destruct (B2_dbl m 0) as [F E]; [cbn; lia|lia|]; split; [exact F|]; rewrite <- (Rmult_1_r (IZR m)); exact E).
  destruct (W 1%Z ltac:(lia)) as [F1 E1]. destruct (W 2%Z ltac:(lia)) as [F2 E2]. destruct (W 3%Z ltac:(lia)) as [F3 E3]. destruct (W (-1)%Z ltac:(lia)) as [Fm Em]. assert (Z0 : B2 d0 = 0) by reflexivity.
  destruct (B2_dbl 6004799503160655 (-54) ltac:(cbn; lia) ltac:(lia)) as [Ft Et]. fold third in Ft, Et. change (bpow radix2 (-54)) with (/ 18014398509481984) in Et.
  assert (M : forall z, 1 <= z <= 4 -> middling (z - 0)). { intros z Hz. right. rewrite Rminus_0_r, Rabs_pos_eq by lra. split; [apply Rle_trans with (bpow radix2 0); [apply bpow_le; lia|cbn; lra]|apply Rle_trans with (bpow radix2 2); [cbn; lra|apply bpow_le; lia]]. }
  assert (M0 : middling (0 - 0)) by (left; ring).
  assert (ok : cell_ok 2 2 tri23). { split.
    - intros [|[|[|i]]] [|[|r]] Hi Hr; try lia; auto.
    - intros [|[|r]] [|[|k]] Hr Hk; try lia; unfold span, tri23, nodes3, at2; rewrite ?Z0, ?E1, ?E2, ?E3; auto; apply M; lra. }
  assert (V : volume 2 (span tri23) = 6) by (unfold volume, span, tri23, nodes3, at2; rewrite !Z0, !E1, !E2, !E3; ring). assert (T : terms 2 (span tri23) = 6) by (unfold terms, span, tri23, nodes3, at2; rewrite !Z0, !E1, !E2, !E3, !Rabs_mult, !Rminus_0_r, Rabs_R0, !Rabs_pos_eq by lra; ring).
  assert (HV : volume 2 (span tri23) <> 0) by (rewrite V; lra). assert (HK : terms 2 (span tri23) <= 1 * Rabs (volume 2 (span tri23))) by (rewrite V, T, Rabs_pos_eq; lra).
  assert (H3 : forall q, (q < 3)%nat -> fin ((fun _ => third) q) = true /\ 0 <= B2 third /\ Rabs (B2 third) <= 1) by (intros q _; split; auto; split; [rewrite Et; lra|rewrite Et, Rabs_pos_eq; lra]).
  assert (H4 : forall q i s, (q < 3)%nat -> (s < 2)%nat -> fin (hats q i s) = true /\ Rabs (B2 (hats q i s)) <= 1024). { intros q [|[|[|i]]] [|[|s]] _ Hs; try lia; cbn [hats]; split; auto; rewrite ?E1, ?Em, ?Z0; rewrite ?Rabs_R0, ?Rabs_R1; try lra; rewrite Rabs_left; lra. }
  do 5 (split; [assumption|]). split; [intros q [|[|s]] _ Hs; try lia; cbn [rsum hats]; rewrite Em, E1, Z0; ring|].
  destruct (C222_accuracy 3 (fun _ => third) hats tri23 1 1 2 ok HV HK ltac:(lra) ltac:(lia) ltac:(intros q Hq; destruct (H3 q Hq) as (A & _ & B); auto) H4) as [_ A].
  set (X := B2 (f_local 3 (fun _ => third) hats tri23 1 2)) in *. assert (I : forall s r, inverse (span tri23) s r = match s, r with O, O => / 2 | O, _ => - / 6 | _, O => 0 | _, _ => / 3 end) by (intros [|s] [|r]; unfold inverse; rewrite V; unfold span, tri23, nodes3, at2; rewrite ?Z0, ?E1, ?E2, ?E3; lra).
  assert (S1 : stiffness 3 (fun _ => B2 third) (fun q i s => B2 (hats q i s)) (span tri23) 1 2 = 3 * B2 third * (1 / 6)) by (unfold stiffness, gradient; rewrite V; cbn [rsum hats]; rewrite !I, E1, Z0, Rabs_pos_eq by lra; field).
  assert (S2 : astiffness 3 (fun _ => B2 third) (fun q i s => B2 (hats q i s)) (span tri23) 1 2 = 3 * B2 third * (1 / 6)) by (unfold astiffness, agradient; rewrite V; cbn [rsum hats]; rewrite !I, E1, Z0, !Rmult_0_r, !Rmult_1_r, Rabs_R0, Rabs_Ropp, !Rabs_pos_eq by (rewrite ?Et; lra); field).
  rewrite S1, S2 in A. apply Rle_trans with (1 := A). assert (Pb : bpow radix2 (-500) <= u) by (apply Rle_trans with (bpow radix2 (-53)); [apply bpow_le; lia|rewrite u_small; cbn; lra]). rewrite Et. cbn [INR]. assert (Pu := u_pos). lra.
Qed.
