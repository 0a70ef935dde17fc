(* C219: the distance of a point from the line of a segment, and `contains` for a segment of a network, in double arithmetic. *)
From Coq Require Import Reals Lra Lia List Bool ZArith.
From Flocq Require Import Core IEEE754.BinarySingleNaN Relative Plus_error.
From Verif Require Import Base RSum SimplexModel FloatCellModel FloatPlaneModel SymbolsModel SymbolsProps FloatModel FloatProps FloatSearch FloatSplineModel FloatSpline FloatDiffModel FloatDiff FloatCell.
Import ListNotations.
Open Scope R_scope.

#[local] Instance vfexp6 : Valid_exp (SpecFloat.fexp 53 1024) := @fexp_correct 53 1024 prec64.

(* ---- relative errors as factors ---- *)
Definition fac (k : nat) (f : R) : Prop := / (1 + u) ^ k <= f <= (1 + u) ^ k.
Definition rng (n : Z) (x : R) : Prop := x = 0 \/ bpow radix2 (- n) <= Rabs x <= bpow radix2 n.
Definition near (k : nat) (a : double) (A : R) : Prop := fin a = true /\ exists f, B2 a = A * f /\ fac k f.

Lemma pow_pos k : 0 < (1 + u) ^ k. Proof. assert (H := pow_ge1 k). lra. Qed.
Lemma fac_pos k f : fac k f -> 0 < f. Proof. intros [H _]. assert (P := Rinv_0_lt_compat _ (pow_pos k)). lra. Qed.
Lemma fac_mul k l f g : fac k f -> fac l g -> fac (k + l) (f * g).
Proof.
  intros Hf Hg. assert (Pf := fac_pos _ _ Hf). assert (Pg := fac_pos _ _ Hg). destruct Hf as [F1 F2], Hg as [G1 G2]. unfold fac. rewrite pow_add, Rinv_mult.
  assert (P1 := Rinv_0_lt_compat _ (pow_pos k)). assert (P2 := Rinv_0_lt_compat _ (pow_pos l)). split; apply Rmult_le_compat; lra.
Qed.
Lemma fac_inv k f : fac k f -> fac k (/ f).
Proof.
  intros Hf. assert (Pf := fac_pos _ _ Hf). assert (P := pow_pos k). destruct Hf as [F1 F2]. split; [now apply Rinv_le_contravar|].
  rewrite <- (Rinv_inv ((1 + u) ^ k)). apply Rinv_le_contravar; auto. now apply Rinv_0_lt_compat.
Qed.
Lemma fac_sqrt k f : fac (k + k) f -> fac k (sqrt f).
Proof.
  intros Hf. assert (P := pow_pos k). destruct Hf as [F1 F2]. rewrite pow_add in F1, F2. rewrite Rinv_mult in F1. assert (Q := Rinv_0_lt_compat _ P). split.
  - rewrite <- (sqrt_square (/ (1 + u) ^ k)) by lra. now apply sqrt_le_1_alt.
  - rewrite <- (sqrt_square ((1 + u) ^ k)) by lra. now apply sqrt_le_1_alt.
Qed.
Lemma fac_mono k l f : (k <= l)%nat -> fac k f -> fac l f.
Proof.
  intros H [F1 F2]. assert (M : (1 + u) ^ k <= (1 + u) ^ l) by (apply Rle_pow; auto; assert (P := u_pos); lra). split; [|lra].
  apply Rle_trans with (2 := F1). apply Rinv_le_contravar; auto using pow_pos.
Qed.
Lemma fac_small k f : (k <= 80)%nat -> fac k f -> / 2 <= f <= 2.
Proof.
  intros H [F1 F2]. assert (K : INR k <= 80) by (replace 80 with (INR 80) by (cbn; lra); now apply le_INR). assert (P := pos_INR k).
  assert (U := u_small). assert (L : INR k * (2 * u) <= 1). { apply Rle_trans with (80 * (2 * u)); [apply Rmult_le_compat_r; [assert (Q := u_pos); lra|auto]|rewrite U; lra]. }
  assert (Q := pow_linear k L). split; [|lra]. apply Rle_trans with (2 := F1). apply Rinv_le_contravar; [apply pow_pos|lra].
Qed.
Lemma fac_error k f : fac k f -> Rabs (f - 1) <= (1 + u) ^ k - 1.
Proof.
  intros [F1 F2]. assert (P := pow_pos k). assert (G := pow_ge1 k). set (x := (1 + u) ^ k) in *. assert (2 - x <= / x).
  { apply Rmult_le_reg_r with x; auto. rewrite Rinv_l by lra. assert (Q := Rle_0_sqr (x - 1)). unfold Rsqr in Q. lra. }
  unfold Rabs. destruct (Rcase_abs _); lra.
Qed.
(* two terms of the same sign *)
Lemma fac_mix k a b f g : 0 <= a * b -> fac k f -> fac k g -> exists h, a * f + b * g = (a + b) * h /\ fac k h.
Proof.
  intros H Hf Hg. destruct (Req_dec (a + b) 0) as [E|N].
  - assert (a = 0). { replace b with (- a) in H by lra. assert (Q := Rle_0_sqr a). unfold Rsqr in Q. apply Rsqr_0_uniq. unfold Rsqr. lra. }
    exists f. split; auto. replace b with 0 by lra. subst a. ring.
  - exists ((a * f + b * g) / (a + b)). split; [field; auto|]. set (t := a / (a + b)). assert (Ht : 0 <= t <= 1).
    { unfold t. assert (Pn : 0 < (a + b) * (a + b)) by (assert (Q := Rsqr_pos_lt _ N); unfold Rsqr in Q; lra). assert (Sa := Rle_0_sqr a). assert (Sb := Rle_0_sqr b). unfold Rsqr in Sa, Sb.
      replace (a / (a + b)) with (a * (a + b) / ((a + b) * (a + b))) by (field; auto). split.
      - apply Rmult_le_pos; [lra|left; now apply Rinv_0_lt_compat].
      - apply Rmult_le_reg_r with ((a + b) * (a + b)); auto. unfold Rdiv. rewrite Rmult_assoc, Rinv_l by lra. lra. }
    replace ((a * f + b * g) / (a + b)) with (t * f + (1 - t) * g) by (unfold t; field; auto). destruct Hf as [F1 F2], Hg as [G1 G2].
    assert (A1 : t * / (1 + u) ^ k <= t * f) by (apply Rmult_le_compat_l; lra). assert (A2 : t * f <= t * (1 + u) ^ k) by (apply Rmult_le_compat_l; lra).
    assert (A3 : (1 - t) * / (1 + u) ^ k <= (1 - t) * g) by (apply Rmult_le_compat_l; lra). assert (A4 : (1 - t) * g <= (1 - t) * (1 + u) ^ k) by (apply Rmult_le_compat_l; lra).
    split; lra.
Qed.

(* ---- ranges ---- *)
Lemma rng_mono m n x : (m <= n)%Z -> rng m x -> rng n x.
Proof. intros H [->|[H1 H2]]; [now left|right]. split; [apply Rle_trans with (2 := H1)|apply Rle_trans with (1 := H2)]; apply bpow_le; lia. Qed.
Lemma rng_mul m n x y : rng m x -> rng n y -> rng (m + n) (x * y).
Proof.
  intros [->|[H1 H2]]; [left; ring|]. intros [->|[H3 H4]]; [left; ring|]. right. rewrite Rabs_mult. replace (- (m + n))%Z with (- m + - n)%Z by lia. rewrite !bpow_plus.
  split; apply Rmult_le_compat; auto using Rabs_pos, bpow_ge_0.
Qed.
Lemma rng_inv n x : x <> 0 -> rng n x -> rng n (/ x).
Proof.
  intros N [E|[H1 H2]]; [easy|]. right. rewrite Rabs_inv. assert (P := bpow_gt_0 radix2 (- n)). split.
  - rewrite bpow_opp. apply Rinv_le_contravar; auto. lra.
  - replace n with (- - n)%Z at 1 by lia. rewrite bpow_opp. apply Rinv_le_contravar; auto.
Qed.
Lemma rng_add n x y : 0 <= x * y -> rng n x -> rng n y -> rng (n + 1) (x + y).
Proof.
  intros H Hx Hy. destruct Hx as [->|[H1 H2]]; [rewrite Rplus_0_l; apply rng_mono with (2 := Hy); lia|]. destruct Hy as [->|[H3 H4]]; [rewrite Rplus_0_r; apply rng_mono with n; [lia|right; auto]|]. right.
  assert (P := bpow_gt_0 radix2 (- n)). assert (E : Rabs (x + y) = Rabs x + Rabs y).
  { destruct (Rle_or_lt 0 x) as [Px|Px], (Rle_or_lt 0 y) as [Py|Py].
    - rewrite !Rabs_pos_eq; lra.
    - rewrite Rabs_pos_eq in H1 by lra. assert (0 < x * - y) by (apply Rmult_lt_0_compat; lra). lra.
    - rewrite Rabs_pos_eq in H3 by lra. assert (0 < - x * y) by (apply Rmult_lt_0_compat; lra). lra.
    - rewrite !Rabs_left; lra. }
  rewrite E. replace (- (n + 1))%Z with (- n + -1)%Z by lia. rewrite !bpow_plus. change (bpow radix2 1) with 2. change (bpow radix2 (-1)) with (/ 2). lra.
Qed.
Lemma rng_sqrt n x : 0 <= x -> rng (n + n) x -> rng n (sqrt x).
Proof.
  intros P [->|[H1 H2]]; [left; apply sqrt_0|]. right. rewrite Rabs_pos_eq in H1, H2 by auto. rewrite Rabs_pos_eq by apply sqrt_pos. replace (- (n + n))%Z with (- n + - n)%Z in H1 by lia. rewrite bpow_plus in H1, H2. split.
  - rewrite <- (sqrt_square (bpow radix2 (- n))) by apply bpow_ge_0. now apply sqrt_le_1_alt.
  - rewrite <- (sqrt_square (bpow radix2 n)) by apply bpow_ge_0. now apply sqrt_le_1_alt.
Qed.

(* ---- operations ---- *)
Lemma fac_one e : Rabs e <= u_ro radix2 53 / (1 + u_ro radix2 53) -> fac 1 (1 + e).
Proof.
  change (u_ro radix2 53) with u. intros H. assert (P := u_pos). unfold fac. rewrite pow_1. assert (E : / (1 + u) = 1 - u / (1 + u)) by (field; lra).
  assert (Q : u / (1 + u) <= u). { unfold Rdiv. rewrite <- (Rmult_1_r u) at 3. apply Rmult_le_compat_l; [lra|]. rewrite <- Rinv_1. apply Rinv_le_contravar; lra. }
  rewrite E. unfold Rabs in H. destruct (Rcase_abs e); lra.
Qed.
Lemma rnd_fac z : z = 0 \/ bpow radix2 (-1022) <= Rabs z -> exists f, rnd z = z * f /\ fac 1 f.
Proof.
  intros [->|H]; [exists 1; split; [rewrite rnd_0; ring|]; replace 1 with (1 + 0) by ring; apply fac_one; rewrite Rabs_R0; change (u_ro radix2 53) with u; assert (P := u_pos); unfold Rdiv; apply Rmult_le_pos; [lra|left; apply Rinv_0_lt_compat; lra]|].
  destruct (@relative_error_N_FLX'_ex radix2 53 prec64 (fun x => negb (Z.even x)) z) as (e & Be & E). exists (1 + e). split; [|now apply fac_one].
  rewrite <- E. apply (@round_FLT_FLX radix2 (-1074) 53). exact H.
Qed.
Lemma near_size k A f n : (k <= 80)%nat -> fac k f -> rng n A -> rng (n + 1) (A * f).
Proof.
  intros Hk Hf Hr. apply rng_mul; auto. destruct (fac_small _ _ Hk Hf). right. change (bpow radix2 1) with 2. change (bpow radix2 (- (1))) with (/ 2). rewrite Rabs_pos_eq by lra. lra.
Qed.
Lemma rng_rnd n z : (n <= 1001)%Z -> rng n z -> z = 0 \/ bpow radix2 (-1022) <= Rabs z.
Proof. intros Hn [H|[H _]]; [now left|right]. apply Rle_trans with (2 := H). apply bpow_le. lia. Qed.
Lemma rng_le n z : (0 <= n)%Z -> rng n z -> Rabs z <= bpow radix2 n.
Proof. intros Hn [->|[_ H]]; auto. rewrite Rabs_R0. apply bpow_ge_0. Qed.
Lemma near_mul k l a b A B : (k + l <= 80)%nat -> near k a A -> near l b B -> rng 1000 (A * B) -> near (k + l + 1) (dmul a b) (A * B).
Proof.
  intros Hk (Fa & f & Ea & Hf) (Fb & g & Eb & Hg) Hr. assert (Hfg := fac_mul _ _ _ _ Hf Hg). assert (S := near_size _ _ _ _ Hk Hfg Hr). replace (A * B * (f * g)) with (B2 a * B2 b) in S by (rewrite Ea, Eb; ring).
  change (1000 + 1)%Z with 1001%Z in S. destruct (dmul_ok a b 1001) as [F E]; auto; try lia; [apply rng_le; auto; lia|]. split; auto. destruct (rnd_fac (B2 a * B2 b)) as (h & Eh & Hh); [now apply rng_rnd with 1001%Z; try lia|].
  exists (f * g * h). split; [rewrite E, Eh, Ea, Eb; ring|]. now apply fac_mul.
Qed.
Lemma near_nz k a A : A <> 0 -> near k a A -> B2 a <> 0.
Proof. intros N (_ & f & E & Hf). rewrite E. assert (P := fac_pos _ _ Hf). apply Rmult_integral_contrapositive. split; auto. lra. Qed.
Lemma near_div k l a b A B : (k + l <= 80)%nat -> B <> 0 -> near k a A -> near l b B -> rng 1000 (A / B) -> near (k + l + 1) (ddiv a b) (A / B).
Proof.
  intros Hk NB Na Nb Hr. assert (Zb := near_nz _ _ _ NB Nb). destruct Na as (Fa & f & Ea & Hf), Nb as (Fb & g & Eb & Hg). assert (Pg := fac_pos _ _ Hg). assert (Hfg := fac_mul _ _ _ _ Hf (fac_inv _ _ Hg)). assert (S := near_size _ _ _ _ Hk Hfg Hr).
  assert (Q : B2 a / B2 b = A / B * (f * / g)) by (rewrite Ea, Eb; field; lra). rewrite <- Q in S. change (1000 + 1)%Z with 1001%Z in S.
  assert (C := @Bdiv_correct 53 1024 prec64 emax64 mode_NE a b Zb). fold (ddiv a b) in C. rewrite Rlt_bool_true in C.
  2:{ apply Rle_lt_trans with (bpow radix2 1001); [apply rnd_bound; [lia|]; apply rng_le; auto; lia|apply bpow_lt; lia]. }
  destruct C as (C1 & C2 & _). change (B2 (ddiv a b) = rnd (B2 a / B2 b)) in C1. split; [rewrite C2; exact Fa|]. destruct (rnd_fac (B2 a / B2 b)) as (h & Eh & Hh); [now apply rng_rnd with 1001%Z; try lia|].
  exists (f * / g * h). split; [rewrite C1, Eh, Q; ring|]. now apply fac_mul.
Qed.
Lemma near_sqrt k a A : (k + k <= 80)%nat -> 0 < A -> near (k + k) a A -> rng 1000 A -> near (k + 1) (dsqrt a) (sqrt A).
Proof.
  intros Hk P (Fa & f & Ea & Hf) Hr. assert (Pf := fac_pos _ _ Hf). assert (S := near_size _ _ _ _ Hk Hf Hr). rewrite <- Ea in S. assert (Pa : 0 < B2 a) by (rewrite Ea; now apply Rmult_lt_0_compat).
  destruct (@Bsqrt_correct 53 1024 prec64 emax64 mode_NE a) as (C1 & C2 & _). fold (dsqrt a) in C1, C2. change (B2 (dsqrt a) = rnd (sqrt (B2 a))) in C1. split.
  - rewrite C2. clear - Fa Pa. destruct a as [s|s| |s m e H]; try discriminate; auto. destruct s; auto. exfalso. assert (B2 (@B754_finite 53 1024 true m e H) < 0) by (apply F2R_lt_0; cbn; lia). lra.
  - assert (S2 : rng 501 (sqrt (B2 a))) by (apply rng_sqrt; [lra|]; apply rng_mono with (2 := S); lia). destruct (rnd_fac (sqrt (B2 a))) as (h & Eh & Hh); [now apply rng_rnd with 501%Z; try lia|].
    exists (sqrt f * h). split; [rewrite C1, Eh, Ea, sqrt_mult by lra; ring|]. apply fac_mul; auto. now apply fac_sqrt.
Qed.
Lemma near_add k a b A B : (k <= 80)%nat -> 0 <= A * B -> near k a A -> near k b B -> rng 1000 (A + B) -> near (k + 1) (dadd a b) (A + B).
Proof.
  intros Hk H (Fa & f & Ea & Hf) (Fb & g & Eb & Hg) Hr. destruct (fac_mix k A B f g H Hf Hg) as (h & Eh & Hh). assert (S := near_size _ _ _ _ Hk Hh Hr). rewrite <- Eh, <- Ea, <- Eb in S. change (1000 + 1)%Z with 1001%Z in S.
  destruct (dadd_ok a b 1001) as [F E]; auto; try lia; [apply rng_le; auto; lia|]. split; auto. destruct (rnd_fac (B2 a + B2 b)) as (e & Ee & He); [now apply rng_rnd with 1001%Z; try lia|].
  exists (h * e). split; [rewrite E, Ee, Ea, Eb, Eh; ring|]. now apply fac_mul.
Qed.
Lemma near_sub a b : fin a = true -> fin b = true -> rng 1000 (B2 a - B2 b) -> near 1 (dsub a b) (B2 a - B2 b).
Proof.
  intros Fa Fb S. destruct (dsub_ok a b 1000) as (F & E & _); auto; try lia; [apply rng_le; auto; lia|]. split; auto. destruct (rnd_fac (B2 a - B2 b)) as (e & Ee & He); [now apply rng_rnd with 1000%Z; try lia|].
  exists e. split; auto. now rewrite E, Ee.
Qed.

(* ---- comparison of a norm with the tolerance ---- *)
Lemma eta_tiny : 100 * eta <= u * u.
Proof. unfold eta. assert (H : bpow radix2 (-1074) <= bpow radix2 (-200)) by (apply bpow_le; lia). assert (K : bpow radix2 (-200) * 50 <= u * u) by (rewrite u_small; cbn; lra). lra. Qed.
Lemma rnd_20u : rnd (20 * u) = 20 * u.
Proof. rewrite <- (proj2 meps_ok). apply round_generic; [typeclasses eauto|]. apply generic_format_B2R. Qed.
Lemma rnd_dbl m e : (Z.abs m < 2 ^ 53)%Z -> (-1074 <= e <= 900)%Z -> rnd (IZR m * bpow radix2 e) = IZR m * bpow radix2 e.
Proof. intros Hm He. rewrite <- (proj2 (B2_dbl m e Hm He)). apply round_generic; [typeclasses eauto|]. apply generic_format_B2R. Qed.
Lemma dsqrt_ok a : fin a = true -> 0 <= B2 a -> fin (dsqrt a) = true /\ B2 (dsqrt a) = rnd (sqrt (B2 a)).
Proof.
  intros Fa Pa. destruct (@Bsqrt_correct 53 1024 prec64 emax64 mode_NE a) as (C1 & C2 & _). fold (dsqrt a) in C1, C2. split; [|exact C1].
  rewrite C2. clear - Fa Pa. destruct a as [s|s| |s m e H]; try discriminate; auto. destruct s; auto. exfalso. assert (B2 (@B754_finite 53 1024 true m e H) < 0) by (apply F2R_lt_0; cbn; lia). lra.
Qed.
Lemma squares_ok a b : fin a = true -> fin b = true -> Rabs (B2 a) <= bpow radix2 200 -> Rabs (B2 b) <= bpow radix2 200 ->
  fin (dmul a a) = true /\ B2 (dmul a a) = rnd (B2 a * B2 a) /\ fin (dmul b b) = true /\ B2 (dmul b b) = rnd (B2 b * B2 b) /\
  fin (dadd (dmul a a) (dmul b b)) = true /\ B2 (dadd (dmul a a) (dmul b b)) = rnd (rnd (B2 a * B2 a) + rnd (B2 b * B2 b)).
Proof.
  intros Fa Fb Ha Hb. assert (Q : forall x, Rabs x <= bpow radix2 200 -> Rabs (x * x) <= bpow radix2 400). { intros x Hx. rewrite Rabs_mult. change 400%Z with (200 + 200)%Z. rewrite bpow_plus. apply Rmult_le_compat; auto using Rabs_pos. }
  destruct (dmul_ok a a 400) as [F1 E1]; auto; try lia. destruct (dmul_ok b b 400) as [F2 E2]; auto; try lia.
  assert (Q1 : Rabs (rnd (B2 a * B2 a)) <= bpow radix2 400) by (apply rnd_bound; [lia|auto]). assert (Q2 : Rabs (rnd (B2 b * B2 b)) <= bpow radix2 400) by (apply rnd_bound; [lia|auto]).
  destruct (dadd_ok (dmul a a) (dmul b b) 401) as [F3 E3]; auto; try lia. { rewrite E1, E2. apply Rle_trans with (1 := Rabs_triang _ _). change 401%Z with (400 + 1)%Z. rewrite bpow_plus. change (bpow radix2 1) with 2. lra. }
  rewrite E1, E2 in E3. repeat split; auto.
Qed.
Lemma norm_small a b : fin a = true -> fin b = true -> B2 a * B2 a + B2 b * B2 b <= 399 * (u * u) -> dlt d_meps (dsqrt (dadd (dmul a a) (dmul b b))) = false.
Proof.
  intros Fa Fb H. assert (Pu := u_pos). assert (Pa : 0 <= B2 a * B2 a) by apply Rle_0_sqr. assert (Pb : 0 <= B2 b * B2 b) by apply Rle_0_sqr.
  assert (Uu : u * u <= 1 / 400) by (rewrite u_small; lra). assert (Small : forall x, x * x <= 399 * (u * u) -> Rabs x <= bpow radix2 200).
  { intros x Hx. apply Rle_trans with 1; [|change 1 with (bpow radix2 0); apply bpow_le; lia]. rewrite <- (Rabs_R1). apply Rsqr_le_abs_0. unfold Rsqr. lra. }
  destruct (squares_ok a b Fa Fb ltac:(apply Small; lra) ltac:(apply Small; lra)) as (F1 & E1 & F2 & E2 & F3 & E3).
  assert (D1 := dmul_error a a F1). assert (D2 := dmul_error b b F2). assert (D3 := dadd_error _ _ F3). rewrite (Rabs_pos_eq (B2 a * B2 a)) in D1 by auto. rewrite (Rabs_pos_eq (B2 b * B2 b)) in D2 by auto.
  assert (P1 : 0 <= B2 (dmul a a)) by (rewrite E1; now apply rnd_pos). assert (P2 : 0 <= B2 (dmul b b)) by (rewrite E2; now apply rnd_pos). rewrite (Rabs_pos_eq (B2 (dmul a a) + B2 (dmul b b))) in D3 by lra.
  assert (P3 : 0 <= B2 (dadd (dmul a a) (dmul b b))) by (rewrite E3; apply rnd_pos; rewrite <- E1, <- E2; lra). destruct (dsqrt_ok _ F3 P3) as [F4 E4].
  destruct (dlt _ _) eqn:E; auto. exfalso. apply (dlt_fin _ _ (proj1 meps_ok) F4) in E. rewrite (proj2 meps_ok), E4 in E. apply Rlt_not_le in E. apply E. rewrite <- rnd_20u. apply rnd_le.
  rewrite <- (sqrt_square (20 * u)) by lra. apply sqrt_le_1_alt. clear E E4 F4 Small. assert (Te := eta_tiny). assert (Pe := eta_pos).
  set (A := B2 a * B2 a) in *. set (B := B2 b * B2 b) in *. set (A' := B2 (dmul a a)) in *. set (B' := B2 (dmul b b)) in *. set (C := B2 (dadd _ _)) in *. clearbody A B A' B' C.
  apply Rabs_le_inv in D1. apply Rabs_le_inv in D2. apply Rabs_le_inv in D3. assert (Su : u <= / 10000) by (rewrite u_small; lra).
  assert (K1 : u * (A + B) <= / 10000 * (A + B)) by (apply Rmult_le_compat_r; lra). assert (K2 : u * (A' + B') <= / 10000 * (A' + B')) by (apply Rmult_le_compat_r; lra). lra.
Qed.
Lemma norm_large a b : fin a = true -> fin b = true -> Rabs (B2 a) <= bpow radix2 200 -> Rabs (B2 b) <= bpow radix2 200 -> 21 * u <= Rabs (B2 a) \/ 21 * u <= Rabs (B2 b) -> dlt d_meps (dsqrt (dadd (dmul a a) (dmul b b))) = true.
Proof.
  intros Fa Fb Ha Hb H. assert (Pu := u_pos). assert (Pa : 0 <= B2 a * B2 a) by apply Rle_0_sqr. assert (Pb : 0 <= B2 b * B2 b) by apply Rle_0_sqr. destruct (squares_ok a b Fa Fb Ha Hb) as (F1 & E1 & F2 & E2 & F3 & E3).
  assert (R1 : rnd (441 * (u * u)) = 441 * (u * u)). { replace (441 * (u * u)) with (IZR 441 * bpow radix2 (-106)) by (rewrite u_small; cbn; lra). apply rnd_dbl; cbn; lia. }
  assert (R2 : rnd (21 * u) = 21 * u). { replace (21 * u) with (IZR 21 * bpow radix2 (-53)) by (rewrite u_small; cbn; lra). apply rnd_dbl; cbn; lia. }
  assert (Q : forall x, 21 * u <= Rabs x -> 441 * (u * u) <= rnd (x * x)). { intros x Hx. rewrite <- R1. apply rnd_le. replace (x * x) with (Rabs x * Rabs x) by (rewrite <- Rabs_mult; apply Rabs_pos_eq, Rle_0_sqr). replace (441 * (u * u)) with (21 * u * (21 * u)) by ring. apply Rmult_le_compat; lra. }
  assert (P1 := rnd_pos _ Pa). assert (P2 := rnd_pos _ Pb). assert (S : 441 * (u * u) <= B2 (dadd (dmul a a) (dmul b b))). { rewrite E3, <- R1. apply rnd_le. destruct H as [H|H]; apply Q in H; lra. }
  assert (P3 : 0 <= B2 (dadd (dmul a a) (dmul b b))) by (assert (Q3 : 0 <= u * u) by (apply Rle_0_sqr); lra). destruct (dsqrt_ok _ F3 P3) as [F4 E4]. apply (dlt_fin _ _ (proj1 meps_ok) F4).
  rewrite (proj2 meps_ok), E4. apply Rlt_le_trans with (21 * u); [lra|]. rewrite <- R2. apply rnd_le. rewrite <- (sqrt_square (21 * u)) by lra. apply sqrt_le_1_alt. lra.
Qed.

(* ---- specification: a segment of the plane, a point, the line of the segment ---- *)
(* r-th coordinate of the segment, and of the point seen from the first node *)
Definition along (c : f_cell) (r : nat) : R := B2 (c 1%nat r) - B2 (c 0%nat r).
Definition from_first (c : f_cell) (x : point) (r : nat) : R := B2 (x r) - B2 (c 0%nat r).
(* zero, or between 2^-100 and 2^100 in absolute value *)
Definition middling (z : R) : Prop := z = 0 \/ bpow radix2 (-100) <= Rabs z <= bpow radix2 100.
Definition segment_ok (c : f_cell) (x : point) : Prop :=
  (forall i r, (i < 2)%nat -> (r < 2)%nat -> fin (c i r) = true) /\ (forall r, (r < 2)%nat -> fin (x r) = true) /\
  (forall r, (r < 2)%nat -> middling (along c r)) /\ (forall r, (r < 2)%nat -> middling (from_first c x r)) /\
  (forall r, (r < 2)%nat -> Rabs (B2 (c 0%nat r)) <= bpow radix2 110) /\ (along c 0 <> 0 \/ along c 1 <> 0).
(* x is the point of the line with parameter t *)
Definition on_line (c : f_cell) (x : point) (t : R) : Prop := forall r, (r < 2)%nat -> B2 (x r) = (1 - t) * B2 (c 0%nat r) + t * B2 (c 1%nat r).

Lemma pow14 : (1 + u) ^ 14 - 1 <= 145 / 10 * u. Proof. rewrite u_small. cbn [pow]. lra. Qed.
Lemma pow10 : (1 + u) ^ 10 - 1 <= 11 * u. Proof. rewrite u_small. cbn [pow]. lra. Qed.
Lemma near_fin k a A : near k a A -> fin a = true. Proof. now intros [H _]. Qed.
Lemma near_error k a A : near k a A -> Rabs (B2 a - A) <= ((1 + u) ^ k - 1) * Rabs A.
Proof. intros (_ & f & E & Hf). rewrite E. replace (A * f - A) with ((f - 1) * A) by ring. rewrite Rabs_mult. apply Rmult_le_compat_r; [apply Rabs_pos|]. now apply fac_error. Qed.
Lemma near_le k a A n : (k <= 80)%nat -> (0 <= n)%Z -> near k a A -> rng n A -> Rabs (B2 a) <= bpow radix2 (n + 1).
Proof. intros Hk Hn (_ & f & E & Hf) Hr. rewrite E. apply rng_le; [lia|]. now apply near_size with k. Qed.

Section Segment.
Variables (c : f_cell) (x : point).
Hypothesis ok : segment_ok c x.
Let T := along c.
Let D := from_first c x.
Let Q := T 0%nat * T 0%nat + T 1%nat * T 1%nat.
Let L := sqrt Q.
(* the unit vector of the line *)
Let B (r : nat) := T r / L.
Let t (r : nat) := dsub (c 1%nat r) (c 0%nat r).
Let d (r : nat) := dsub (x r) (c 0%nat r).

Lemma T_rng r : (r < 2)%nat -> rng 100 (T r). Proof. intros H. destruct ok as (_ & _ & H3 & _). exact (H3 r H). Qed.
Lemma D_rng r : (r < 2)%nat -> rng 100 (D r). Proof. intros H. destruct ok as (_ & _ & _ & H4 & _). exact (H4 r H). Qed.
Lemma t_near r : (r < 2)%nat -> near 1 (t r) (T r).
Proof. intros H. destruct ok as (H1 & _). apply near_sub; [apply H1; lia|apply H1; lia|]. apply rng_mono with (2 := T_rng r H). lia. Qed.
Lemma d_near r : (r < 2)%nat -> near 1 (d r) (D r).
Proof. intros H. destruct ok as (H1 & H2 & _). apply near_sub; [apply H2; lia|apply H1; lia|]. apply rng_mono with (2 := D_rng r H). lia. Qed.
Lemma Q_pos : 0 < Q.
Proof.
  destruct ok as (_ & _ & _ & _ & _ & H). unfold Q. assert (P0 := Rle_0_sqr (T 0%nat)). assert (P1 := Rle_0_sqr (T 1%nat)). unfold Rsqr in *. destruct H as [H|H]; apply Rsqr_pos_lt in H; unfold Rsqr in H; fold T in H; lra.
Qed.
Lemma Q_rng : rng 201 Q.
Proof. apply (rng_add 200); [apply Rmult_le_pos; apply Rle_0_sqr| |]; apply (rng_mul 100 100); apply T_rng; lia. Qed.
Lemma q_near : near 4 (f_dot 2 t t) Q.
Proof.
  cbn [f_dot]. apply (near_add 3); [lia|apply Rmult_le_pos; apply Rle_0_sqr| | |apply rng_mono with (2 := Q_rng); lia].
  - apply (near_mul 1 1); [lia|apply t_near; lia|apply t_near; lia|]. apply rng_mono with 200%Z; [lia|]. apply (rng_mul 100 100); apply T_rng; lia.
  - apply (near_mul 1 1); [lia|apply t_near; lia|apply t_near; lia|]. apply rng_mono with 200%Z; [lia|]. apply (rng_mul 100 100); apply T_rng; lia.
Qed.
Lemma L_pos : 0 < L. Proof. apply sqrt_lt_R0, Q_pos. Qed.
Lemma L_sqr : L * L = Q. Proof. apply sqrt_sqrt. left. apply Q_pos. Qed.
Lemma L_rng : rng 101 L. Proof. apply rng_sqrt; [left; apply Q_pos|]. apply rng_mono with (2 := Q_rng). lia. Qed.
Lemma B_rng r : (r < 2)%nat -> rng 201 (B r).
Proof. intros H. apply (rng_mul 100 101); [now apply T_rng|]. apply rng_inv; [assert (P := L_pos); lra|apply L_rng]. Qed.
Lemma B_unit : B 0 * B 0 + B 1 * B 1 = 1.
Proof. unfold B. assert (P := L_pos). replace (T 0%nat / L * (T 0%nat / L) + T 1%nat / L * (T 1%nat / L)) with (Q / (L * L)) by (unfold Q; field; lra). rewrite L_sqr. assert (P2 := Q_pos). field. lra. Qed.
Lemma b_near r : (r < 2)%nat -> near 5 (f_basis 2 c 0 r) (B r).
Proof.
  intros H. unfold f_basis, f_normalized. change (fun r0 : nat => dsub (c 1%nat r0) (c 0%nat r0)) with t. assert (Nq := q_near). assert (Z : dlt d0 (f_dot 2 t t) = true).
  { apply dlt_fin; [reflexivity|now apply near_fin with (1 := Nq)|]. change (B2 d0) with 0. destruct Nq as (_ & f & E & Hf). rewrite E. apply Rmult_lt_0_compat; [apply Q_pos|now apply fac_pos with (1 := Hf)]. }
  rewrite Z. apply (near_div 1 3); [lia|assert (P := L_pos); lra|now apply t_near| |apply rng_mono with (2 := B_rng r H); lia].
  apply (near_sqrt 2); [lia|apply Q_pos|apply q_near|apply rng_mono with (2 := Q_rng); lia].
Qed.
Lemma term_near r s : (r < 2)%nat -> (s < 2)%nat -> near 13 (dmul (dmul (f_basis 2 c 0 r) (f_basis 2 c 0 s)) (d s)) (B r * B s * D s).
Proof.
  intros Hr Hs. apply (near_mul 11 1); [lia| |now apply d_near|].
  - apply (near_mul 5 5); [lia|now apply b_near|now apply b_near|]. apply rng_mono with 402%Z; [lia|]. apply (rng_mul 201 201); now apply B_rng.
  - apply rng_mono with 502%Z; [lia|]. apply (rng_mul 402 100); [|now apply D_rng]. apply (rng_mul 201 201); now apply B_rng.
Qed.
Lemma term_rng r s : (r < 2)%nat -> (s < 2)%nat -> rng 502 (B r * B s * D s).
Proof. intros Hr Hs. apply (rng_mul 402 100); [|now apply D_rng]. apply (rng_mul 201 201); now apply B_rng. Qed.
(* the orthogonal projection *)
Let foot (r : nat) := B2 (c 0%nat r) + B r * (B 0 * D 0%nat + B 1 * D 1%nat).
Let S (r : nat) := Rabs (B r) * (Rabs (B 0 * D 0%nat) + Rabs (B 1 * D 1%nat)).
Lemma D_le r : (r < 2)%nat -> Rabs (D r) <= bpow radix2 100. Proof. intros H. apply rng_le; [lia|now apply D_rng]. Qed.
Lemma B_le r : (r < 2)%nat -> Rabs (B r) <= 1.
Proof. intros H. rewrite <- Rabs_R1. apply Rsqr_le_abs_0. unfold Rsqr. rewrite Rmult_1_l. assert (U := B_unit). assert (P0 := Rle_0_sqr (B 0)). assert (P1 := Rle_0_sqr (B 1)). unfold Rsqr in *. destruct r as [|[|r]]; try lia; lra. Qed.
Lemma S_pos r : 0 <= S r. Proof. unfold S. assert (P0 := Rabs_pos (B 0 * D 0%nat)). assert (P1 := Rabs_pos (B 1 * D 1%nat)). apply Rmult_le_pos; [apply Rabs_pos|lra]. Qed.
Lemma BD_le s : (s < 2)%nat -> Rabs (B s * D s) <= bpow radix2 100.
Proof. intros H. rewrite Rabs_mult, <- (Rmult_1_l (bpow radix2 100)). apply Rmult_le_compat; auto using Rabs_pos, B_le, D_le. Qed.
Lemma S_le r : (r < 2)%nat -> S r <= bpow radix2 101.
Proof.
  intros H. unfold S. change 101%Z with (100 + 1)%Z. rewrite bpow_plus. change (bpow radix2 1) with 2. rewrite <- (Rmult_1_l (bpow radix2 100 * 2)). assert (H0 := BD_le 0 ltac:(lia)). assert (H1 := BD_le 1 ltac:(lia)).
  assert (P0 := Rabs_pos (B 0 * D 0%nat)). assert (P1 := Rabs_pos (B 1 * D 1%nat)). apply Rmult_le_compat; [apply Rabs_pos|lra|now apply B_le|lra].
Qed.
Let y (r : nat) := f_dot 2 (fun s => f_dot 1 (fun k => f_basis 2 c k r) (fun k => f_basis 2 c k s)) d.
Lemma y_error r : (r < 2)%nat -> fin (y r) = true /\ Rabs (B2 (y r) - B r * (B 0 * D 0%nat + B 1 * D 1%nat)) <= ((1 + u) ^ 14 - 1) * S r.
Proof.
  intros H. assert (N0 := term_near r 0 H ltac:(lia)). assert (N1 := term_near r 1 H ltac:(lia)). unfold y. cbn [f_dot]. set (m0 := dmul (dmul (f_basis 2 c 0 r) (f_basis 2 c 0 0%nat)) (d 0%nat)) in *. set (m1 := dmul (dmul (f_basis 2 c 0 r) (f_basis 2 c 0 1%nat)) (d 1%nat)) in *.
  assert (L0 := near_le 13 _ _ 502 ltac:(lia) ltac:(lia) N0 (term_rng r 0 H ltac:(lia))). assert (L1 := near_le 13 _ _ 502 ltac:(lia) ltac:(lia) N1 (term_rng r 1 H ltac:(lia))).
  destruct (dadd_ok m0 m1 504) as [F E]; try lia; [now apply near_fin with (1 := N0)|now apply near_fin with (1 := N1)| |].
  { apply Rle_trans with (1 := Rabs_triang _ _). change 504%Z with (502 + 1 + 1)%Z. rewrite (bpow_plus _ _ 1). change (bpow radix2 1) with 2. lra. }
  split; auto. assert (E0 := near_error _ _ _ N0). assert (E1 := near_error _ _ _ N1). assert (E2 := dadd_error _ _ F). replace (B r * (B 0 * D 0%nat + B 1 * D 1%nat)) with (B r * B 0 * D 0%nat + B r * B 1 * D 1%nat) by ring.
  assert (ES : S r = Rabs (B r * B 0 * D 0%nat) + Rabs (B r * B 1 * D 1%nat)) by (unfold S; rewrite !Rabs_mult; ring).
  assert (R := rounded (B2 m0 + B2 m1) (B r * B 0 * D 0%nat + B r * B 1 * D 1%nat) (S r) 13 0 (B2 (dadd m0 m1)) 0). replace ((1 + u) * 0 + 0) with 0 in R by ring. rewrite !Rplus_0_r in R. apply R; auto.
  - replace (B2 m0 + B2 m1 - (B r * B 0 * D 0%nat + B r * B 1 * D 1%nat)) with ((B2 m0 - B r * B 0 * D 0%nat) + (B2 m1 - B r * B 1 * D 1%nat)) by ring. apply Rle_trans with (1 := Rabs_triang _ _). rewrite ES. lra.
  - rewrite ES. apply Rabs_triang.
Qed.
Lemma foot_error r : (r < 2)%nat -> fin (f_project 1 2 c x r) = true /\ Rabs (B2 (f_project 1 2 c x r) - foot r) <= 146 / 10 * u * S r + u * Rabs (foot r).
Proof.
  intros H. destruct (y_error r H) as [Fy Ey]. unfold f_project. change (f_dot 2 (fun s => f_dot 1 (fun k => f_basis 2 c k r) (fun k => f_basis 2 c k s)) (fun s => dsub (x s) (c 0%nat s))) with (y r).
  assert (Pu := u_pos). assert (Su : u <= / 10000) by (rewrite u_small; lra). assert (PS := S_pos r). assert (P14 := pow14). assert (P1 := Rabs_pos (foot r)).
  assert (Ey' : Rabs (B2 (y r) - B r * (B 0 * D 0%nat + B 1 * D 1%nat)) <= 145 / 10 * u * S r) by (apply Rle_trans with (1 := Ey); apply Rmult_le_compat_r; auto).
  assert (BS : Rabs (B r * (B 0 * D 0%nat + B 1 * D 1%nat)) <= S r) by (rewrite Rabs_mult; unfold S; apply Rmult_le_compat_l; [apply Rabs_pos|apply Rabs_triang]).
  destruct ok as (Fc & _ & _ & _ & Bc & _). specialize (Bc r H).
  assert (K : 145 / 10 * u * S r <= S r) by (rewrite <- (Rmult_1_l (S r)) at 2; apply Rmult_le_compat_r; lra).
  destruct (dadd_ok (y r) (c 0%nat r) 111) as [F E]; try lia; [exact Fy|apply Fc; lia| |].
  { assert (LS := S_le r H). assert (M : bpow radix2 101 <= / 512 * bpow radix2 110) by (change 110%Z with (101 + 9)%Z; rewrite bpow_plus; change (bpow radix2 9) with 512; lra). change 111%Z with (110 + 1)%Z. rewrite bpow_plus. change (bpow radix2 1) with 2.
    replace (B2 (y r) + B2 (c 0%nat r)) with ((B2 (y r) - B r * (B 0 * D 0%nat + B 1 * D 1%nat)) + B r * (B 0 * D 0%nat + B 1 * D 1%nat) + B2 (c 0%nat r)) by ring.
    apply Rle_trans with (1 := Rabs_triang _ _). assert (T2 := Rabs_triang (B2 (y r) - B r * (B 0 * D 0%nat + B 1 * D 1%nat)) (B r * (B 0 * D 0%nat + B 1 * D 1%nat))). lra. }
  split; auto. assert (E2 := dadd_error _ _ F). set (Y := B r * (B 0 * D 0%nat + B 1 * D 1%nat)) in *. set (pr := B2 (dadd (y r) (c 0%nat r))) in *. unfold foot. fold Y. fold Y in P1. unfold foot in P1. fold Y in P1. set (p := B2 (c 0%nat r)) in *. set (b := B2 (y r)) in *. clearbody pr p b.
  assert (T1 : Rabs (b + p) <= Rabs (b - Y) + Rabs (p + Y)) by (replace (b + p) with ((b - Y) + (p + Y)) by ring; apply Rabs_triang).
  assert (M : u * Rabs (b + p) <= u * (145 / 10 * u * S r + Rabs (p + Y))) by (apply Rmult_le_compat_l; lra). replace (pr - (p + Y)) with ((pr - (b + p)) + (b - Y)) by ring. apply Rle_trans with (1 := Rabs_triang _ _).
  assert (M2 : u * (145 / 10 * u * S r) <= / 10000 * (145 / 10 * u * S r)) by (apply Rmult_le_compat_r; [apply Rmult_le_pos; lra|auto]). assert (M3 : 0 <= u * S r) by (apply Rmult_le_pos; lra). lra.
Qed.
Let e (r : nat) := dsub (x r) (f_project 1 2 c x r).
Lemma e_error r : (r < 2)%nat -> Rabs (B2 (x r)) <= bpow radix2 112 -> fin (e r) = true /\ Rabs (B2 (e r)) <= bpow radix2 200 /\ Rabs (B2 (e r) - (B2 (x r) - foot r)) <= 147 / 10 * u * S r + 101 / 100 * u * Rabs (foot r) + u * Rabs (B2 (x r) - foot r).
Proof.
  intros H Hx. destruct (foot_error r H) as [Fp Ep]. destruct ok as (Fc & Fx & _ & _ & Bc & _). specialize (Bc r H).
  assert (Pu := u_pos). assert (Su : u <= / 10000) by (rewrite u_small; lra). assert (PS := S_pos r). assert (P1 := Rabs_pos (foot r)). assert (LS := S_le r H).
  assert (BS : Rabs (foot r) <= Rabs (B2 (c 0%nat r)) + S r). { unfold foot. apply Rle_trans with (1 := Rabs_triang _ _). apply Rplus_le_compat_l. rewrite Rabs_mult. unfold S. apply Rmult_le_compat_l; [apply Rabs_pos|apply Rabs_triang]. }
  set (pr := f_project 1 2 c x r) in *. set (F := foot r) in *. assert (K : 146 / 10 * u * S r <= S r) by (rewrite <- (Rmult_1_l (S r)) at 2; apply Rmult_le_compat_r; lra). assert (K1 : u * Rabs F <= Rabs F) by (rewrite <- (Rmult_1_l (Rabs F)) at 2; apply Rmult_le_compat_r; lra).
  assert (Bp : Rabs (B2 pr) <= bpow radix2 112). { replace (B2 pr) with ((B2 pr - F) + F) by ring. apply Rle_trans with (1 := Rabs_triang _ _). assert (M : bpow radix2 101 <= / 512 * bpow radix2 110) by (change 110%Z with (101 + 9)%Z; rewrite bpow_plus; change (bpow radix2 9) with 512; lra). change 112%Z with (110 + 2)%Z. rewrite bpow_plus. change (bpow radix2 2) with 4. lra. }
  assert (Bd : Rabs (B2 (x r) - B2 pr) <= bpow radix2 113). { unfold Rminus. apply Rle_trans with (1 := Rabs_triang _ _). rewrite Rabs_Ropp. change 113%Z with (112 + 1)%Z. rewrite bpow_plus. change (bpow radix2 1) with 2. lra. }
  destruct (dsub_ok (x r) pr 113) as (Fe & Ee & De); auto; try lia. change (dsub (x r) pr) with (e r) in *. change uu with u in De. split; auto. split.
  { rewrite Ee. apply Rle_trans with (bpow radix2 113); [apply rnd_bound; auto; lia|apply bpow_le; lia]. }
  assert (T1 : Rabs (B2 (x r) - B2 pr) <= Rabs (B2 (x r) - F) + Rabs (B2 pr - F)) by (replace (B2 (x r) - B2 pr) with ((B2 (x r) - F) - (B2 pr - F)) by ring; unfold Rminus at 1; rewrite <- (Rabs_Ropp (B2 pr - F)); apply Rabs_triang).
  replace (B2 (e r) - (B2 (x r) - F)) with ((B2 (e r) - (B2 (x r) - B2 pr)) + - (B2 pr - F)) by ring. apply Rle_trans with (1 := Rabs_triang _ _). rewrite Rabs_Ropp.
  assert (M : u * Rabs (B2 (x r) - B2 pr) <= u * (Rabs (B2 (x r) - F) + (146 / 10 * u * S r + u * Rabs F))) by (apply Rmult_le_compat_l; lra).
  assert (M1 : u * (146 / 10 * u * S r + u * Rabs F) <= / 10000 * (146 / 10 * u * S r + u * Rabs F)) by (apply Rmult_le_compat_r; [|auto]; assert (0 <= u * S r) by (apply Rmult_le_pos; lra); assert (0 <= u * Rabs F) by (apply Rmult_le_pos; lra); lra).
  assert (M2 : 0 <= u * S r) by (apply Rmult_le_pos; lra). assert (M3 : 0 <= u * Rabs F) by (apply Rmult_le_pos; lra). lra.
Qed.

Lemma D_line l r : on_line c x l -> (r < 2)%nat -> D r = l * T r.
Proof. intros H Hr. unfold D, from_first, T, along. rewrite (H r Hr). ring. Qed.
Lemma foot_line l r : on_line c x l -> (r < 2)%nat -> foot r = B2 (x r).
Proof.
  intros H Hr. unfold foot. rewrite (D_line l 0), (D_line l 1) by (auto; lia). assert (P := L_pos). replace (B 0 * (l * T 0%nat) + B 1 * (l * T 1%nat)) with (l * (Q / L)) by (unfold B, Q; field; lra). rewrite <- L_sqr. unfold B.
  replace (T r / L * (l * (L * L / L))) with (l * T r) by (field; lra). rewrite <- (D_line l r) by auto. unfold D, from_first. ring.
Qed.
Lemma S_line l r : on_line c x l -> (r < 2)%nat -> S r = Rabs (D r).
Proof.
  intros H Hr. unfold S. rewrite (D_line l 0), (D_line l 1), (D_line l r) by (auto; lia). assert (P := L_pos). assert (A : forall s, Rabs (B s * (l * T s)) = Rabs l * (T s * T s / L)).
  { intros s. unfold B. replace (T s / L * (l * T s)) with (l * (T s * T s / L)) by (field; lra). rewrite Rabs_mult. f_equal. apply Rabs_pos_eq. apply Rmult_le_pos; [apply Rle_0_sqr|left; now apply Rinv_0_lt_compat]. }
  rewrite !A. replace (Rabs l * (T 0%nat * T 0%nat / L) + Rabs l * (T 1%nat * T 1%nat / L)) with (Rabs l * (Q / L)) by (unfold Q; field; lra). rewrite <- L_sqr. unfold B, Rdiv. rewrite !Rabs_mult, Rabs_inv, (Rabs_pos_eq L) by lra. field. lra.
Qed.
(* the coordinate along the segment *)
Lemma z_near l : on_line c x l -> near 10 (f_mtail 1 2 c x 0) l.
Proof.
  intros H. assert (P := Q_pos). assert (E : l = / Q * T 0%nat * D 0%nat + / Q * T 1%nat * D 1%nat). { rewrite (D_line l 0), (D_line l 1) by (auto; lia). replace (/ Q * T 0%nat * (l * T 0%nat) + / Q * T 1%nat * (l * T 1%nat)) with (l * (Q / Q)) by (unfold Q; field; fold Q; lra). unfold Rdiv. rewrite Rinv_r by lra. ring. }
  assert (NQ : near 5 (ddiv FloatSplineModel.d1 (f_dot 2 t t)) (/ Q)).
  { replace (/ Q) with (1 / Q) by (unfold Rdiv; ring). apply (near_div 0 4); [lia|lra| |apply q_near|].
    - destruct d1_ok as [F1 E1]. split; auto. exists 1. split; [rewrite E1; ring|]. unfold fac. cbn [pow]. rewrite Rinv_1. lra.
    - unfold Rdiv. rewrite Rmult_1_l. apply rng_mono with 201%Z; [lia|]. apply rng_inv; [lra|apply Q_rng]. }
  assert (RQ : forall s, (s < 2)%nat -> rng 301 (/ Q * T s)) by (intros s Hs; apply (rng_mul 201 100); [apply rng_inv; [lra|apply Q_rng]|now apply T_rng]).
  assert (RT : forall s, (s < 2)%nat -> rng 401 (/ Q * T s * D s)) by (intros s Hs; apply (rng_mul 301 100); [now apply RQ|now apply D_rng]).
  assert (N : forall s, (s < 2)%nat -> near 9 (dmul (dmul (ddiv FloatSplineModel.d1 (f_dot 2 t t)) (t s)) (d s)) (/ Q * T s * D s)).
  { intros s Hs. apply (near_mul 7 1); [lia| |now apply d_near|apply rng_mono with (2 := RT s Hs); lia]. apply (near_mul 5 1); [lia|exact NQ|now apply t_near|]. apply rng_mono with (2 := RQ s Hs). lia. }
  assert (Sg : 0 <= / Q * T 0%nat * D 0%nat * (/ Q * T 1%nat * D 1%nat)).
  { rewrite (D_line l 0), (D_line l 1) by (auto; lia). replace (/ Q * T 0%nat * (l * T 0%nat) * (/ Q * T 1%nat * (l * T 1%nat))) with ((/ Q * l * T 0%nat * T 1%nat) * (/ Q * l * T 0%nat * T 1%nat)) by ring. apply Rle_0_sqr. }
  rewrite E. change (f_mtail 1 2 c x 0) with (dadd (dmul (dmul (ddiv FloatSplineModel.d1 (f_dot 2 t t)) (t 0%nat)) (d 0%nat)) (dmul (dmul (ddiv FloatSplineModel.d1 (f_dot 2 t t)) (t 1%nat)) (d 1%nat))).
  apply (near_add 9); [lia|exact Sg|apply N; lia|apply N; lia|]. apply rng_mono with 402%Z; [lia|]. apply (rng_add 401); [exact Sg|apply RT; lia|apply RT; lia].
Qed.
Lemma distance_line l : on_line c x l -> D 0%nat * D 0%nat + D 1%nat * D 1%nat <= 1 -> (forall r, (r < 2)%nat -> Rabs (B2 (x r)) <= 3) -> dlt d_meps (f_distance 1 2 c x) = false.
Proof.
  intros H HD Hx. assert (B3 : 3 <= bpow radix2 112) by (apply Rle_trans with (bpow radix2 2); [cbn; lra|apply bpow_le; lia]). assert (Pu := u_pos).
  assert (K : forall r, (r < 2)%nat -> fin (e r) = true /\ Rabs (B2 (e r)) <= u * (147 / 10 * Rabs (D r) + 303 / 100)).
  { intros r Hr. destruct (e_error r Hr) as (F & _ & E); [apply Rle_trans with (2 := B3); now apply Hx|]. split; auto. rewrite (foot_line l r H Hr), (S_line l r H Hr) in E. replace (B2 (x r) - B2 (x r)) with 0 in E by ring. rewrite Rabs_R0, Rminus_0_r in E.
    assert (M : u * Rabs (B2 (x r)) <= u * 3) by (apply Rmult_le_compat_l; [lra|now apply Hx]). lra. }
  unfold f_distance. change (fun r : nat => dsub (x r) (f_project 1 2 c x r)) with e. cbn [f_dot]. destruct (K 0%nat ltac:(lia)) as [F0 E0]. destruct (K 1%nat ltac:(lia)) as [F1 E1]. apply norm_small; auto.
  assert (Sq : forall z a, Rabs z <= u * (147 / 10 * Rabs a + 303 / 100) -> z * z <= u * u * ((147 / 10 * 147 / 10) * (a * a) + 2 * (147 / 10) * (303 / 100) * Rabs a + 92 / 10)).
  { intros z a Hz. replace (z * z) with (Rabs z * Rabs z) by (rewrite <- Rabs_mult; apply Rabs_pos_eq, Rle_0_sqr). assert (Ea : Rabs a * Rabs a = a * a) by (rewrite <- Rabs_mult; apply Rabs_pos_eq, Rle_0_sqr).
    apply Rle_trans with ((u * (147 / 10 * Rabs a + 303 / 100)) * (u * (147 / 10 * Rabs a + 303 / 100))); [apply Rmult_le_compat; auto using Rabs_pos|]. rewrite <- Ea. replace (u * (147 / 10 * Rabs a + 303 / 100) * (u * (147 / 10 * Rabs a + 303 / 100))) with (u * u * ((147 / 10 * Rabs a + 303 / 100) * (147 / 10 * Rabs a + 303 / 100))) by ring.
    apply Rmult_le_compat_l; [apply Rle_0_sqr|]. lra. }
  apply Sq in E0. apply Sq in E1. assert (Two : Rabs (D 0%nat) + Rabs (D 1%nat) <= 3 / 2).
  { assert (Q0 := Rle_0_sqr (Rabs (D 0%nat) - 3 / 4)). assert (Q1 := Rle_0_sqr (Rabs (D 1%nat) - 3 / 4)). unfold Rsqr in Q0, Q1. assert (A0 : Rabs (D 0%nat) * Rabs (D 0%nat) = D 0%nat * D 0%nat) by (rewrite <- Rabs_mult; apply Rabs_pos_eq, Rle_0_sqr). assert (A1 : Rabs (D 1%nat) * Rabs (D 1%nat) = D 1%nat * D 1%nat) by (rewrite <- Rabs_mult; apply Rabs_pos_eq, Rle_0_sqr). lra. }
  assert (Uu : 0 <= u * u) by apply Rle_0_sqr. rewrite Rmult_comm with (r1 := 399). apply Rle_trans with (1 := Rplus_le_compat _ _ _ _ E0 E1). rewrite <- Rmult_plus_distr_l. apply Rmult_le_compat_l; auto. lra.
Qed.
End Segment.

(* what `contains` returns once the coordinate along the segment is known *)
Lemma position c x l : segment_ok c x -> on_line c x l -> 0 <= l <= 1 -> dlt d_meps (f_distance 1 2 c x) = false ->
  f_mcontains 1 2 c x <> OUTSIDE /\ (64 * u <= l <= 1 - 64 * u -> f_mcontains 1 2 c x = INSIDE) /\ (l = 0 \/ l = 1 -> f_mcontains 1 2 c x = ON_VERTEX).
Proof.
  intros ok H Hl Hd. assert (N := z_near c x ok l H). assert (Pu := u_pos). assert (Su : u <= / 10000) by (rewrite u_small; lra). assert (P10 := pow10). destruct N as (Fz & f & Ez & Hf). assert (Ef := fac_error _ _ Hf). assert (Pf := fac_pos _ _ Hf). set (z := f_mtail 1 2 c x 0) in *. apply Rabs_le_inv in Ef.
  assert (Bz : l - 11 * u <= B2 z <= l + 11 * u). { rewrite Ez. assert (A : l * Rabs (f - 1) <= 1 * (11 * u)) by (apply Rmult_le_compat; [lra|apply Rabs_pos|lra|apply Rabs_le; lra]). assert (A2 : Rabs (l * (f - 1)) <= 11 * u) by (rewrite Rabs_mult, (Rabs_pos_eq l) by lra; lra). apply Rabs_le_inv in A2. lra. }
  assert (Pz : 0 <= B2 z) by (rewrite Ez; apply Rmult_le_pos; lra). destruct d1_ok as [F1 E1].
  destruct (dsub_ok FloatSplineModel.d1 z 1) as (F0 & E0 & D0); auto; try lia. { rewrite E1. change (bpow radix2 1) with 2. apply Rabs_le. lra. } rewrite E1 in E0, D0. change uu with u in D0. set (z0 := dsub FloatSplineModel.d1 z) in *.
  assert (R20 : rnd (- (20 * u)) = - (20 * u)). { rewrite <- (proj2 meps_ok), <- B2R_Bopp. apply round_generic; [typeclasses eauto|]. apply generic_format_B2R. }
  assert (L0 : - (20 * u) <= B2 z0) by (rewrite E0, <- R20; apply rnd_le; lra). assert (A1 : Rabs (1 - B2 z) <= 2) by (apply Rabs_le; lra). assert (M1 : u * Rabs (1 - B2 z) <= u * 2) by (apply Rmult_le_compat_l; lra). apply Rabs_le_inv in D0.
  destruct meps_ok as [Fm Em]. assert (Fo : fin (Bopp d_meps) = true) by now rewrite is_finite_Bopp. assert (Lo : B2 (Bopp d_meps) = - (20 * u)) by now rewrite B2R_Bopp, Em.
  assert (X0 : dlt z0 (Bopp d_meps) = false) by (destruct (dlt z0 (Bopp d_meps)) eqn:E; auto; apply dlt_fin in E; auto; rewrite Lo in E; lra). assert (X1 : dlt z (Bopp d_meps) = false) by (destruct (dlt z (Bopp d_meps)) eqn:E; auto; apply dlt_fin in E; auto; rewrite Lo in E; lra).
  assert (EC : f_mcontains 1 2 c x = (let nz := count_if (fun i => dlt d_meps (f_mbary 1 2 c x i)) 2 in if Nat.eqb nz 1 then ON_VERTEX else if Nat.eqb nz 1 then ON_FACE else INSIDE)).
  { unfold f_mcontains. rewrite Hd. cbn [seq existsb]. change (f_mbary 1 2 c x 0) with z0. change (f_mbary 1 2 c x 1) with z. now rewrite X0, X1. }
  unfold count_if in EC. cbn [seq filter] in EC. change (f_mbary 1 2 c x 0) with z0 in EC. change (f_mbary 1 2 c x 1) with z in EC.
  assert (Y0 : forall b : bool, (if b then 20 * u < B2 z0 else B2 z0 <= 20 * u) -> dlt d_meps z0 = b). { intros [|] K; [apply dlt_fin; auto; lra|]. destruct (dlt d_meps z0) eqn:E; auto. apply dlt_fin in E; auto. lra. }
  assert (Y1 : forall b : bool, (if b then 20 * u < B2 z else B2 z <= 20 * u) -> dlt d_meps z = b). { intros [|] K; [apply dlt_fin; auto; lra|]. destruct (dlt d_meps z) eqn:E; auto. apply dlt_fin in E; auto. lra. }
  split; [rewrite EC; destruct (dlt d_meps z0), (dlt d_meps z); cbn; discriminate|split].
  - intros K. rewrite EC, (Y0 true), (Y1 true) by lra. reflexivity.
  - intros [->| ->]; rewrite EC; [rewrite (Y0 true), (Y1 false) by lra|rewrite (Y0 false), (Y1 true) by lra]; reflexivity.
Qed.
(* C219: a point of a segment of length at most 1 whose coordinates are at most 3 is recognised, with its position *)
Theorem C219_contains_partial c x l : segment_ok c x -> on_line c x l -> 0 <= l <= 1 -> from_first c x 0 * from_first c x 0 + from_first c x 1 * from_first c x 1 <= 1 -> (forall r, (r < 2)%nat -> Rabs (B2 (x r)) <= 3) ->
  f_mcontains 1 2 c x <> OUTSIDE /\ (64 * u <= l <= 1 - 64 * u -> f_mcontains 1 2 c x = INSIDE) /\ (l = 0 \/ l = 1 -> f_mcontains 1 2 c x = ON_VERTEX).
Proof. intros ok H Hl HD Hx. apply (position c x l); auto. now apply distance_line with l. Qed.
(* C219: the first node of a segment of any size is recognised *)
Theorem C219_first_node c : segment_ok c (c 0%nat) -> f_mcontains 1 2 c (c 0%nat) = ON_VERTEX.
Proof.
  intros ok. assert (H : on_line c (c 0%nat) 0) by (intros r Hr; ring). apply (position c (c 0%nat) 0); auto; try lra. destruct ok as (Fc & Fx & R1 & R2 & Bc & NZ). assert (ok : segment_ok c (c 0%nat)) by (repeat split; auto).
  assert (K : forall r, (r < 2)%nat -> fin (dsub (c 0%nat r) (f_project 1 2 c (c 0%nat) r)) = true /\ B2 (dsub (c 0%nat r) (f_project 1 2 c (c 0%nat) r)) = 0).
  { intros r Hr. destruct (y_error c (c 0%nat) ok r Hr) as [Fy Ey]. assert (Z : forall s, from_first c (c 0%nat) s = 0) by (intros s; unfold from_first; ring). rewrite !Z, !Rmult_0_r, Rabs_R0, Rplus_0_r, !Rmult_0_r, Rminus_0_r in Ey.
    assert (Y0 : B2 (f_dot 2 (fun s : nat => f_dot 1 (fun k : nat => f_basis 2 c k r) (fun k : nat => f_basis 2 c k s)) (fun r0 : nat => dsub (c 0%nat r0) (c 0%nat r0))) = 0) by (apply Rabs_eq_R0; assert (P := Rabs_pos (B2 (f_dot 2 (fun s : nat => f_dot 1 (fun k : nat => f_basis 2 c k r) (fun k : nat => f_basis 2 c k s)) (fun r0 : nat => dsub (c 0%nat r0) (c 0%nat r0))))); lra).
    assert (Ep : fin (f_project 1 2 c (c 0%nat) r) = true /\ B2 (f_project 1 2 c (c 0%nat) r) = B2 (c 0%nat r)).
    { unfold f_project. set (y := f_dot 2 _ _) in *. destruct (dadd_ok y (c 0%nat r) 110) as [F E]; try lia; [exact Fy|apply Fc; lia|rewrite Y0, Rplus_0_l; now apply Bc|]. split; auto. rewrite E, Y0, Rplus_0_l. apply round_generic; [typeclasses eauto|]. apply generic_format_B2R. }
    destruct Ep as [Fp Ep]. destruct (dsub_ok (c 0%nat r) (f_project 1 2 c (c 0%nat) r) 0) as (F & E & _); auto; try lia; [rewrite Ep; replace (B2 (c 0%nat r) - B2 (c 0%nat r)) with 0 by ring; rewrite Rabs_R0; apply bpow_ge_0|]. split; auto. rewrite E, Ep. replace (B2 (c 0%nat r) - B2 (c 0%nat r)) with 0 by ring. apply rnd_0. }
  unfold f_distance. cbn [f_dot]. destruct (K 0%nat ltac:(lia)) as [F0 E0]. destruct (K 1%nat ltac:(lia)) as [F1 E1]. apply norm_small; auto. rewrite E0, E1. assert (P := Rle_0_sqr u). unfold Rsqr in P. lra.
Qed.
(* C219: a point away from the line of the segment is not in the segment *)
Theorem C219_outside c x W : segment_ok c x -> 1 <= W <= bpow radix2 100 -> from_first c x 0 * from_first c x 0 + from_first c x 1 * from_first c x 1 <= W * W -> (forall r, (r < 2)%nat -> Rabs (B2 (x r)) <= 3 * W) ->
  (forall s, (128 * u * W) * (128 * u * W) <= (B2 (x 0%nat) - (B2 (c 0%nat 0%nat) + s * along c 0)) * (B2 (x 0%nat) - (B2 (c 0%nat 0%nat) + s * along c 0)) + (B2 (x 1%nat) - (B2 (c 0%nat 1%nat) + s * along c 1)) * (B2 (x 1%nat) - (B2 (c 0%nat 1%nat) + s * along c 1))) ->
  f_mcontains 1 2 c x = OUTSIDE.
Proof.
  intros ok HW HD Hx Far. assert (Pu := u_pos). assert (Su : u <= / 10000) by (rewrite u_small; lra). assert (X : dlt d_meps (f_distance 1 2 c x) = true); [|unfold f_mcontains; now rewrite X].
  assert (B2x : forall r, (r < 2)%nat -> Rabs (B2 (x r)) <= bpow radix2 112). { intros r Hr. apply Rle_trans with (1 := Hx r Hr). apply Rle_trans with (bpow radix2 2 * bpow radix2 100); [change (bpow radix2 2) with 4; lra|]. rewrite <- bpow_plus. apply bpow_le. lia. }
  assert (E0 := e_error c x ok 0 ltac:(lia) (B2x 0%nat ltac:(lia))). assert (E1 := e_error c x ok 1 ltac:(lia) (B2x 1%nat ltac:(lia))). assert (U := B_unit c x ok). assert (BL := B_le c x ok). assert (LP := L_pos c x ok). assert (LS := L_sqr c x ok). cbv beta in E0, E1, U, BL, LP, LS.
  set (T := along c) in *. set (D := from_first c x) in *. set (Lg := sqrt (T 0%nat * T 0%nat + T 1%nat * T 1%nat)) in *. set (g := T 0%nat / Lg * D 0%nat + T 1%nat / Lg * D 1%nat) in *. set (h := Rabs (T 0%nat / Lg * D 0%nat) + Rabs (T 1%nat / Lg * D 1%nat)) in *.
  assert (Sq : forall z, Rabs z * Rabs z = z * z) by (intros z; rewrite <- Rabs_mult; apply Rabs_pos_eq, Rle_0_sqr).
  assert (Hh : 0 <= h <= W).
  { assert (P0 := Rabs_pos (T 0%nat / Lg * D 0%nat)). assert (P1 := Rabs_pos (T 1%nat / Lg * D 1%nat)). split; [unfold h; lra|]. apply Rsqr_incr_0_var; [|lra]. unfold Rsqr. apply Rle_trans with (2 := HD). unfold h. rewrite !Rabs_mult. set (a := T 0%nat / Lg) in *. set (b := T 1%nat / Lg) in *.
    assert (K := Rle_0_sqr (Rabs a * Rabs (D 1%nat) - Rabs b * Rabs (D 0%nat))). unfold Rsqr in K. assert (Sa := Sq a). assert (Sb := Sq b). assert (S0 := Sq (D 0%nat)). assert (S1 := Sq (D 1%nat)).
    replace (D 0%nat * D 0%nat + D 1%nat * D 1%nat) with ((a * a + b * b) * (D 0%nat * D 0%nat + D 1%nat * D 1%nat)) by (rewrite U; ring). rewrite <- Sa, <- Sb, <- S0, <- S1. set (A := Rabs a) in *. set (C := Rabs b) in *. set (E := Rabs (D 0%nat)) in *. set (F := Rabs (D 1%nat)) in *. lra. }
  assert (Hg : Rabs g <= W) by (apply Rle_trans with h; [apply Rabs_triang|lra]).
  assert (HD1 : forall r, (r < 2)%nat -> Rabs (D r) <= W). { intros r Hr. apply Rsqr_incr_0_var; [|lra]. unfold Rsqr. rewrite Sq. assert (P0 := Rle_0_sqr (D 0%nat)). assert (P1 := Rle_0_sqr (D 1%nat)). unfold Rsqr in P0, P1. destruct r as [|[|r]]; try lia; lra. }
  assert (Main : forall r, (r < 2)%nat -> fin (dsub (x r) (f_project 1 2 c x r)) = true /\ Rabs (B2 (dsub (x r) (f_project 1 2 c x r))) <= bpow radix2 200 /\
    (90 * u * W <= Rabs (B2 (x r) - (B2 (c 0%nat r) + T r / Lg * g)) -> 21 * u <= Rabs (B2 (dsub (x r) (f_project 1 2 c x r))))).
  { intros r Hr. assert (Er : fin (dsub (x r) (f_project 1 2 c x r)) = true /\ Rabs (B2 (dsub (x r) (f_project 1 2 c x r))) <= bpow radix2 200 /\
      Rabs (B2 (dsub (x r) (f_project 1 2 c x r)) - (B2 (x r) - (B2 (c 0%nat r) + T r / Lg * g))) <= 147 / 10 * u * (Rabs (T r / Lg) * h) + 101 / 100 * u * Rabs (B2 (c 0%nat r) + T r / Lg * g) + u * Rabs (B2 (x r) - (B2 (c 0%nat r) + T r / Lg * g))) by (destruct r as [|[|r]]; try lia; [exact E0|exact E1]).
    destruct Er as (F & Bd & Er). split; auto. split; auto. intros K. specialize (BL r Hr). specialize (HD1 r Hr). specialize (Hx r Hr). assert (ED : B2 (c 0%nat r) = B2 (x r) - D r) by (unfold D, from_first; ring).
    assert (K1 : Rabs (T r / Lg) * h <= 1 * W) by (apply Rmult_le_compat; [apply Rabs_pos|lra|exact BL|lra]). assert (K2 : Rabs (T r / Lg * g) <= 1 * W) by (rewrite Rabs_mult; apply Rmult_le_compat; auto using Rabs_pos).
    assert (K3 : Rabs (B2 (c 0%nat r) + T r / Lg * g) <= 5 * W). { rewrite ED. apply Rle_trans with (1 := Rabs_triang _ _). assert (Q1 := Rabs_triang (B2 (x r)) (- D r)). rewrite Rabs_Ropp in Q1. unfold Rminus. lra. }
    set (dl := B2 (x r) - (B2 (c 0%nat r) + T r / Lg * g)) in *. set (ee := B2 (dsub (x r) (f_project 1 2 c x r))) in *. assert (K4 : 147 / 10 * u * (Rabs (T r / Lg) * h) <= 147 / 10 * u * W) by (apply Rmult_le_compat_l; lra).
    assert (K5 : 101 / 100 * u * Rabs (B2 (c 0%nat r) + T r / Lg * g) <= 101 / 100 * u * (5 * W)) by (apply Rmult_le_compat_l; lra). assert (K6 : u * Rabs dl <= / 10000 * Rabs dl) by (apply Rmult_le_compat_r; [apply Rabs_pos|auto]).
    assert (K7 : Rabs dl <= Rabs ee + Rabs (ee - dl)). { replace dl with (ee + - (ee - dl)) at 1 by ring. apply Rle_trans with (1 := Rabs_triang _ _). rewrite Rabs_Ropp. lra. } assert (K8 : u * 1 <= u * W) by (apply Rmult_le_compat_l; lra). lra. }
  unfold f_distance. cbn [f_dot]. destruct (Main 0%nat ltac:(lia)) as (F0 & G0 & M0). destruct (Main 1%nat ltac:(lia)) as (F1 & G1 & M1). apply norm_large; auto.
  specialize (Far (g / Lg)). replace (g / Lg * T 0%nat) with (T 0%nat / Lg * g) in Far by (field; lra). replace (g / Lg * T 1%nat) with (T 1%nat / Lg * g) in Far by (field; lra).
  set (d0' := B2 (x 0%nat) - (B2 (c 0%nat 0%nat) + T 0%nat / Lg * g)) in *. set (d1' := B2 (x 1%nat) - (B2 (c 0%nat 1%nat) + T 1%nat / Lg * g)) in *.
  destruct (Rle_or_lt (90 * u * W) (Rabs d0')) as [K|K]; [left; auto|]. destruct (Rle_or_lt (90 * u * W) (Rabs d1')) as [K'|K']; [right; auto|]. exfalso.
  assert (Pw : 0 < u * W) by (apply Rmult_lt_0_compat; lra). assert (Q0 : Rabs d0' * Rabs d0' <= (90 * u * W) * (90 * u * W)) by (apply Rmult_le_compat; auto using Rabs_pos; lra). assert (Q1 : Rabs d1' * Rabs d1' <= (90 * u * W) * (90 * u * W)) by (apply Rmult_le_compat; auto using Rabs_pos; lra). rewrite Sq in Q0, Q1.
  assert (Pp : 0 < (u * W) * (u * W)) by now apply Rmult_lt_0_compat. replace (90 * u * W * (90 * u * W)) with (8100 * ((u * W) * (u * W))) in * by ring. replace (128 * u * W * (128 * u * W)) with (16384 * ((u * W) * (u * W))) in Far by ring. lra.
Qed.
Print Assumptions C219_contains_partial.
Print Assumptions C219_first_node.
Print Assumptions C219_outside.

(* ---- examples ---- *)
Definition seg2 (a b : point) : f_cell := fun i => match i with O => a | _ => b end.
Definition at3 (x y z : double) : point := fun k => match k with O => x | S O => y | _ => z end.
Definition whole (m : Z) : double := dbl m 0.
(* C219 refuted: the segment from the origin to (1, 13) does not contain its own second node *)
Theorem C219_segment_refuted : let c := seg2 (at2 d0 d0) (at2 (whole 1) (whole 13)) in segment_ok c (c 1%nat) /\ on_line c (c 1%nat) 1 /\ f_mcontains 1 2 c (c 1%nat) = OUTSIDE.
Proof.
  cbv zeta. assert (V : forall m e, (Z.abs m < 2 ^ 53)%Z -> (-1074 <= e <= 900)%Z -> fin (dbl m e) = true /\ B2 (dbl m e) = IZR m * bpow radix2 e) by exact B2_dbl.
  destruct (V 1%Z 0%Z ltac:(cbn; lia) ltac:(lia)) as [F1 E1]. destruct (V 13%Z 0%Z ltac:(cbn; lia) ltac:(lia)) as [F13 E13]. change (bpow radix2 0) with 1 in *. assert (Z0 : B2 d0 = 0) by reflexivity.
  assert (Lw : bpow radix2 (-100) <= 1) by (change 1 with (bpow radix2 0); apply bpow_le; lia). assert (Hi : 16 <= bpow radix2 100) by (change 16 with (bpow radix2 4); apply bpow_le; lia).
  assert (M : forall z, 1 <= z <= 13 -> middling z) by (intros z Hz; right; rewrite Rabs_pos_eq by lra; lra).
  split; [|split; [|vm_compute; reflexivity]].
  - assert (A0 : along (seg2 (at2 d0 d0) (at2 (whole 1) (whole 13))) 0 = 1) by (unfold along, seg2, at2, whole; rewrite E1, Z0; lra). assert (A1 : along (seg2 (at2 d0 d0) (at2 (whole 1) (whole 13))) 1 = 13) by (unfold along, seg2, at2, whole; rewrite E13, Z0; lra).
    repeat split.
    + intros [|[|i]] [|[|r]] Hi' Hr; try lia; auto.
    + intros [|[|r]] Hr; try lia; auto.
    + intros [|[|r]] Hr; try lia; [rewrite A0|rewrite A1]; apply M; lra.
    + intros [|[|r]] Hr; try lia; [change (middling (along (seg2 (at2 d0 d0) (at2 (whole 1) (whole 13))) 0)); rewrite A0|change (middling (along (seg2 (at2 d0 d0) (at2 (whole 1) (whole 13))) 1)); rewrite A1]; apply M; lra.
    + intros [|[|r]] Hr; try lia; change (Rabs 0 <= bpow radix2 110); rewrite Rabs_R0; apply bpow_ge_0.
    + left. rewrite A0. lra.
  - intros r Hr. ring.
Qed.
(* C219 refuted: nor does the triangle (0, 0, 0), (1, 1, 0), (4, 5, 0) of a surface contain its own third node *)
Theorem C219_triangle_refuted : let c := nodes3 (at3 d0 d0 d0) (at3 (whole 1) (whole 1) d0) (at3 (whole 4) (whole 5) d0) in f_mcontains 2 3 c (c 2%nat) = OUTSIDE /\ f_mcontains 2 3 c (c 0%nat) = ON_VERTEX.
Proof. cbv zeta. split; vm_compute; reflexivity. Qed.
Print Assumptions C219_segment_refuted.
Print Assumptions C219_triangle_refuted.
(* the segment from (0, 0) to (1/2, 1/4): its middle, and the point (0, 1) *)
Definition short : f_cell := seg2 (at2 d0 d0) (at2 (dbl 1 (-1)) (dbl 1 (-2))).
Lemma short_val : fin (dbl 1 (-1)) = true /\ B2 (dbl 1 (-1)) = / 2 /\ fin (dbl 1 (-2)) = true /\ B2 (dbl 1 (-2)) = / 4 /\ fin (dbl 1 (-3)) = true /\ B2 (dbl 1 (-3)) = / 8 /\ fin (dbl 1 0) = true /\ B2 (dbl 1 0) = 1.
Proof.
  destruct (B2_dbl 1 (-1) ltac:(cbn; lia) ltac:(lia)) as [F1 E1]. destruct (B2_dbl 1 (-2) ltac:(cbn; lia) ltac:(lia)) as [F2 E2]. destruct (B2_dbl 1 (-3) ltac:(cbn; lia) ltac:(lia)) as [F3 E3]. destruct (B2_dbl 1 0 ltac:(cbn; lia) ltac:(lia)) as [F0 E0].
  repeat split; auto; [rewrite E1|rewrite E2|rewrite E3|rewrite E0]; cbn; lra.
Qed.
Lemma middling_le z : / 8 <= Rabs z <= 1 -> middling z.
Proof. intros H. right. split; [apply Rle_trans with (bpow radix2 (-3)); [apply bpow_le; lia|cbn; lra]|apply Rle_trans with (bpow radix2 0); [cbn; lra|apply bpow_le; lia]]. Qed.
Lemma short_ok a b : fin a = true -> fin b = true -> (B2 a = 0 \/ / 8 <= Rabs (B2 a) <= 1) -> (B2 b = 0 \/ / 8 <= Rabs (B2 b) <= 1) -> segment_ok short (at2 a b).
Proof.
  intros Fa Fb Ha Hb. destruct short_val as (F1 & E1 & F2 & E2 & _). assert (Z0 : B2 d0 = 0) by reflexivity. assert (S0 : forall z, z - 0 = z) by (intros z; ring). repeat split.
  - intros [|[|i]] [|[|r]] Hi Hr; try lia; auto.
  - intros [|[|r]] Hr; try lia; auto.
  - intros [|[|r]] Hr; try lia; unfold along, short, seg2, at2; rewrite Z0, S0; [rewrite E1|rewrite E2]; apply middling_le; rewrite Rabs_pos_eq; lra.
  - intros [|[|r]] Hr; try lia; unfold from_first, short, seg2, at2; rewrite Z0, S0; [destruct Ha as [Ha|Ha]|destruct Hb as [Hb|Hb]]; try (now left); now apply middling_le.
  - intros [|[|r]] Hr; try lia; change (Rabs 0 <= bpow radix2 110); rewrite Rabs_R0; apply bpow_ge_0.
  - left. unfold along, short, seg2, at2. rewrite E1, Z0. lra.
Qed.
Example C219_example : f_mcontains 1 2 short (at2 (dbl 1 (-2)) (dbl 1 (-3))) = INSIDE /\ f_mcontains 1 2 short (short 1%nat) = ON_VERTEX /\ f_mcontains 1 2 short (short 0%nat) = ON_VERTEX /\ f_mcontains 1 2 short (at2 d0 (dbl 1 0)) = OUTSIDE.
Proof.
  destruct short_val as (F1 & E1 & F2 & E2 & F3 & E3 & F0 & E0). assert (Z0 : B2 d0 = 0) by reflexivity. assert (Us := u_small). split; [|split; [|split]].
  - apply (C219_contains_partial short _ (/ 2)); try (rewrite Us); try lra.
    + apply short_ok; auto; right; [rewrite E2|rewrite E3]; rewrite Rabs_pos_eq; lra.
    + intros [|[|r]] Hr; try lia; unfold short, seg2, at2; rewrite ?Z0, ?E1, ?E2, ?E3; lra.
    + unfold from_first, short, seg2, at2. rewrite Z0, E2, E3. lra.
    + intros [|[|r]] Hr; try lia; unfold at2; [rewrite E2|rewrite E3]; rewrite Rabs_pos_eq; lra.
  - apply (C219_contains_partial short _ 1); try lra.
    + apply short_ok; auto; right; [rewrite E1|rewrite E2]; rewrite Rabs_pos_eq; lra.
    + intros r Hr. ring.
    + unfold from_first, short, seg2, at2. rewrite Z0, E1, E2. lra.
    + intros [|[|r]] Hr; try lia; unfold short, seg2, at2; [rewrite E1|rewrite E2]; rewrite Rabs_pos_eq; lra.
  - apply C219_first_node. apply short_ok; auto.
  - apply (C219_outside short _ 1).
    + apply short_ok; auto. right. rewrite E0, Rabs_pos_eq; lra.
    + split; [lra|]. change 1 with (bpow radix2 0). apply bpow_le. lia.
    + unfold from_first, short, seg2, at2. rewrite Z0, E0. lra.
    + intros [|[|r]] Hr; try lia; unfold at2; [rewrite Z0|rewrite E0]; rewrite Rabs_pos_eq; lra.
    + intros s. unfold along, short, seg2, at2. rewrite !Z0, !E0, !E1, !E2, Us. assert (Q := Rle_0_sqr (s - 4 / 5)). unfold Rsqr in Q. lra.
Qed.
