(* C221: the measure of a cell in double arithmetic. *)
From Coq Require Import Reals Lra Lia List Bool ZArith.
From Flocq Require Import Core IEEE754.BinarySingleNaN Relative Plus_error.
From Verif Require Import Base RSum SimplexModel FloatCellModel FloatPlaneModel FloatMeasureModel FloatLinspaceModel SymbolsModel SymbolsProps FloatModel FloatProps FloatSearch FloatSplineModel FloatSpline FloatDiffModel FloatDiff FloatCell FloatPlane.
From Verif Require FloatLinspace.
Import ListNotations.
Open Scope R_scope.

#[local] Instance vfexp7 : Valid_exp (SpecFloat.fexp 53 1024) := @fexp_correct 53 1024 prec64.

(* ---- specification ---- *)
(* r-th coordinate of the edge from the first node to node k + 1 *)
Definition span (c : f_cell) (r k : nat) : R := B2 (c (S k) r) - B2 (c 0%nat r).
(* finite coordinates; the coordinates of the edges are zero or between 2^-100 and 2^100 in absolute value *)
Definition cell_ok (d N : nat) (c : f_cell) : Prop :=
  (forall i r, (i <= d)%nat -> (r < N)%nat -> fin (c i r) = true) /\ (forall r k, (r < N)%nat -> (k < d)%nat -> middling (span c r k)).
Definition minor (J : nat -> nat -> R) (b c : nat) : R := J 1%nat b * J 2%nat c - J 1%nat c * J 2%nat b.
(* d! times the signed measure *)
Definition volume (d : nat) (J : nat -> nat -> R) : R :=
  match d with S O => J 0%nat 0%nat | S (S O) => J 0%nat 0%nat * J 1%nat 1%nat - J 1%nat 0%nat * J 0%nat 1%nat
  | _ => J 0%nat 0%nat * minor J 1 2 - J 0%nat 1%nat * minor J 0 2 + J 0%nat 2%nat * minor J 0 1 end.
Definition aminor (J : nat -> nat -> R) (b c : nat) : R := Rabs (J 1%nat b * J 2%nat c) + Rabs (J 1%nat c * J 2%nat b).
(* the same with absolute values: the size of the terms which cancel *)
Definition terms (d : nat) (J : nat -> nat -> R) : R :=
  match d with S O => Rabs (J 0%nat 0%nat) | S (S O) => Rabs (J 0%nat 0%nat * J 1%nat 1%nat) + Rabs (J 1%nat 0%nat * J 0%nat 1%nat)
  | _ => Rabs (J 0%nat 0%nat) * aminor J 1 2 + Rabs (J 0%nat 1%nat) * aminor J 0 2 + Rabs (J 0%nat 2%nat) * aminor J 0 1 end.

(* ---- errors ---- *)
Lemma mulS a A k b B S m : Rabs (a - A) <= ((1 + u) ^ k - 1) * Rabs A -> Rabs (b - B) <= ((1 + u) ^ m - 1) * S -> Rabs B <= S -> Rabs (a * b - A * B) <= ((1 + u) ^ (k + m) - 1) * (Rabs A * S).
Proof.
  intros Ha Hb HB. assert (Qa := pow_ge1 k). assert (Qb := pow_ge1 m). rewrite pow_add. set (x := (1 + u) ^ k) in *. set (y := (1 + u) ^ m) in *. assert (PA := Rabs_pos A). assert (PB := Rabs_pos B).
  assert (Bb : Rabs b <= y * S). { replace b with ((b - B) + B) by ring. apply Rle_trans with (1 := Rabs_triang _ _). lra. }
  replace (a * b - A * B) with ((a - A) * b + A * (b - B)) by ring. apply Rle_trans with (1 := Rabs_triang _ _). rewrite !Rabs_mult.
  assert (H1 : Rabs (a - A) * Rabs b <= ((x - 1) * Rabs A) * (y * S)) by (apply Rmult_le_compat; auto using Rabs_pos). assert (H2 : Rabs A * Rabs (b - B) <= Rabs A * ((y - 1) * S)) by (apply Rmult_le_compat_l; auto). lra.
Qed.
Lemma addS a A S b B T m s t y : Rabs (a - A) <= ((1 + u) ^ m - 1) * S + s -> Rabs A <= S -> Rabs (b - B) <= ((1 + u) ^ m - 1) * T + t -> Rabs B <= T -> Rabs (y - (a + b)) <= u * Rabs (a + b) -> Rabs (y - (A + B)) <= ((1 + u) ^ (m + 1) - 1) * (S + T) + (1 + u) * (s + t).
Proof.
  intros Ha HA Hb HB Hy. assert (R := rounded (a + b) (A + B) (S + T) m (s + t) y 0). rewrite !Rplus_0_r in R. apply R; auto.
  - replace (a + b - (A + B)) with ((a - A) + (b - B)) by ring. apply Rle_trans with (1 := Rabs_triang _ _). lra.
  - apply Rle_trans with (1 := Rabs_triang _ _). lra.
Qed.
Lemma dsub_error a b : fin (dsub a b) = true -> Rabs (B2 (dsub a b) - (B2 a + - B2 b)) <= u * Rabs (B2 a + - B2 b).
Proof. rewrite dsub_add. intros H. assert (E := dadd_error _ _ H). rewrite B2R_Bopp in E. exact E. Qed.
Lemma bounded x X S m : (m <= 80)%nat -> Rabs (x - X) <= ((1 + u) ^ m - 1) * S -> Rabs X <= S -> Rabs x <= 2 * S.
Proof.
  intros Hm H HX. assert (P := Rabs_pos X). assert (Q : (1 + u) ^ m <= 2) by (assert (F : fac m ((1 + u) ^ m)) by (split; [|lra]; assert (G := pow_ge1 m); apply Rle_trans with 1; auto; assert (G2 := Rinv_le_contravar 1 _ ltac:(lra) G); now rewrite Rinv_1 in G2); now apply fac_small in F).
  replace x with ((x - X) + X) by ring. apply Rle_trans with (1 := Rabs_triang _ _). assert (((1 + u) ^ m - 1) * S <= 1 * S) by (apply Rmult_le_compat_r; lra). lra.
Qed.
Section Cell.
Variables (d N : nat) (c : f_cell).
Hypothesis ok : cell_ok d N c.
Let J := span c.
Let j := f_jac c.
Lemma j_near r k : (r < N)%nat -> (k < d)%nat -> near 1 (j r k) (J r k).
Proof. intros Hr Hk. destruct ok as [F M]. apply near_sub; [apply F; lia|apply F; lia|]. apply rng_mono with 100%Z; [lia|]. exact (M r k Hr Hk). Qed.
Lemma J_rng r k : (r < N)%nat -> (k < d)%nat -> rng 100 (J r k). Proof. intros Hr Hk. destruct ok as [_ M]. exact (M r k Hr Hk). Qed.
Lemma prod_near r k r' k' : (r < N)%nat -> (k < d)%nat -> (r' < N)%nat -> (k' < d)%nat -> near 3 (dmul (j r k) (j r' k')) (J r k * J r' k').
Proof. intros. apply (near_mul 1 1); [lia|now apply j_near|now apply j_near|]. apply rng_mono with 200%Z; [lia|]. apply (rng_mul 100 100); now apply J_rng. Qed.
Lemma prod_le r k r' k' : (r < N)%nat -> (k < d)%nat -> (r' < N)%nat -> (k' < d)%nat -> Rabs (J r k * J r' k') <= bpow radix2 200.
Proof. intros. apply rng_le; [lia|]. apply (rng_mul 100 100); now apply J_rng. Qed.
(* a difference of two products *)
Lemma det2_error r k r' k' s l s' l' : (r < N)%nat -> (k < d)%nat -> (r' < N)%nat -> (k' < d)%nat -> (s < N)%nat -> (l < d)%nat -> (s' < N)%nat -> (l' < d)%nat ->
  let D := dsub (dmul (j r k) (j r' k')) (dmul (j s l) (j s' l')) in fin D = true /\
  Rabs (B2 D - (J r k * J r' k' - J s l * J s' l')) <= ((1 + u) ^ 4 - 1) * (Rabs (J r k * J r' k') + Rabs (J s l * J s' l')).
Proof.
  intros. assert (N1 := prod_near r k r' k' ltac:(auto) ltac:(auto) ltac:(auto) ltac:(auto)). assert (N2 := prod_near s l s' l' ltac:(auto) ltac:(auto) ltac:(auto) ltac:(auto)). assert (L1 := prod_le r k r' k' ltac:(auto) ltac:(auto) ltac:(auto) ltac:(auto)). assert (L2 := prod_le s l s' l' ltac:(auto) ltac:(auto) ltac:(auto) ltac:(auto)).
  assert (E1 := near_error _ _ _ N1). assert (E2 := near_error _ _ _ N2). assert (B1 := bounded _ _ _ 3 ltac:(lia) E1 ltac:(lra)). assert (B2' := bounded _ _ _ 3 ltac:(lia) E2 ltac:(lra)).
  assert (F : fin D = true). { unfold D. apply (dsub_ok _ _ 203); try lia; [now apply near_fin with (1 := N1)|now apply near_fin with (1 := N2)|]. unfold Rminus. apply Rle_trans with (1 := Rabs_triang _ _). rewrite Rabs_Ropp. change 203%Z with (200 + 3)%Z. rewrite bpow_plus. change (bpow radix2 3) with 8. assert (P := bpow_gt_0 radix2 200). lra. }
  split; auto. assert (Q := addS (B2 (dmul (j r k) (j r' k'))) (J r k * J r' k') (Rabs (J r k * J r' k')) (- B2 (dmul (j s l) (j s' l'))) (- (J s l * J s' l')) (Rabs (J s l * J s' l')) 3 0 0 (B2 D)). rewrite !Rplus_0_r, Rmult_0_r, Rplus_0_r in Q. apply Q; auto; try lra.
  - replace (- B2 (dmul (j s l) (j s' l')) - - (J s l * J s' l')) with (- (B2 (dmul (j s l) (j s' l')) - J s l * J s' l')) by ring. now rewrite Rabs_Ropp.
  - rewrite Rabs_Ropp. lra.
  - now apply dsub_error.
Qed.
End Cell.
Lemma helper_error c a b e : cell_ok 3 3 c -> (a < 3)%nat -> (b < 3)%nat -> (e < 3)%nat ->
  fin (f_det3_helper (f_jac c) a b e) = true /\ Rabs (B2 (f_det3_helper (f_jac c) a b e) - span c 0 a * minor (span c) b e) <= ((1 + u) ^ 6 - 1) * (Rabs (span c 0 a) * aminor (span c) b e) + eta /\
  Rabs (B2 (f_det3_helper (f_jac c) a b e)) <= bpow radix2 303.
Proof.
  intros ok Ha Hb He. assert (Na := j_near 3 3 c ok 0 a ltac:(lia) Ha). destruct (det2_error 3 3 c ok 1 b 2 e 1 e 2 b) as [Fm Em]; try lia. cbv zeta in Em, Fm. unfold f_det3_helper. set (m := dsub (dmul (f_jac c 1 b) (f_jac c 2 e)) (dmul (f_jac c 1 e) (f_jac c 2 b))) in *.
  assert (Ea := near_error _ _ _ Na). assert (La : Rabs (span c 0 a) <= bpow radix2 100) by (apply rng_le; [lia|]; apply (J_rng 3 3 c ok); lia).
  assert (L1 := prod_le 3 3 c ok 1 b 2 e ltac:(lia) Hb ltac:(lia) He). assert (L2 := prod_le 3 3 c ok 1 e 2 b ltac:(lia) He ltac:(lia) Hb). fold (minor (span c) b e) in Em. fold (aminor (span c) b e) in Em.
  assert (Lm : aminor (span c) b e <= bpow radix2 201) by (unfold aminor; change 201%Z with (200 + 1)%Z; rewrite bpow_plus; change (bpow radix2 1) with 2; lra).
  assert (Mm : Rabs (minor (span c) b e) <= aminor (span c) b e) by (unfold minor, aminor, Rminus; apply Rle_trans with (1 := Rabs_triang _ _); rewrite Rabs_Ropp; lra).
  assert (Pm : 0 <= aminor (span c) b e) by (assert (P := Rabs_pos (minor (span c) b e)); lra).
  assert (M := mulS _ _ 1 _ _ _ 4 Ea Em Mm). cbn [Nat.add] in M. assert (Bx : Rabs (B2 (f_jac c 0 a) * B2 m) <= bpow radix2 302).
  { apply Rle_trans with (2 * (Rabs (span c 0 a) * aminor (span c) b e)); [apply bounded with (2 := M); [lia|]; rewrite Rabs_mult; apply Rmult_le_compat_l; auto using Rabs_pos|]. change 302%Z with (100 + 201 + 1)%Z. rewrite !bpow_plus. change (bpow radix2 1) with 2. rewrite Rmult_comm. apply Rmult_le_compat_r; [lra|]. apply Rmult_le_compat; auto using Rabs_pos. }
  destruct (dmul_ok (f_jac c 0 a) m 302) as [F E]; auto; try lia; [now apply near_fin with (1 := Na)|]. assert (D := dmul_error _ _ F). split; auto. split.
  - assert (R := rounded (B2 (f_jac c 0 a) * B2 m) (span c 0 a * minor (span c) b e) (Rabs (span c 0 a) * aminor (span c) b e) 5 0 (B2 (dmul (f_jac c 0 a) m)) eta). rewrite Rmult_0_r, !Rplus_0_r, Rplus_0_l in R. apply R; auto. rewrite Rabs_mult. apply Rmult_le_compat_l; auto using Rabs_pos.
  - rewrite E. apply Rle_trans with (bpow radix2 302); [apply rnd_bound; auto; lia|apply bpow_le; lia].
Qed.
Lemma eta_u : eta <= bpow radix2 (-400) * u.
Proof. unfold eta, u. assert (H : bpow radix2 (-1074) <= bpow radix2 (-400) * bpow radix2 (-52)) by (rewrite <- bpow_plus; apply bpow_le; lia). lra. Qed.
Lemma volume_le d J : (1 <= d <= 3)%nat -> Rabs (volume d J) <= terms d J.
Proof.
  intros Hd. assert (M : forall b e, Rabs (minor J b e) <= aminor J b e) by (intros b e; unfold minor, aminor, Rminus; apply Rle_trans with (1 := Rabs_triang _ _); rewrite Rabs_Ropp; lra).
  destruct d as [|[|[|[|d]]]]; try lia; cbn [volume terms].
  - lra.
  - unfold Rminus. apply Rle_trans with (1 := Rabs_triang _ _). rewrite Rabs_Ropp. lra.
  - assert (T : forall a b e, Rabs (J 0%nat a * minor J b e) <= Rabs (J 0%nat a) * aminor J b e) by (intros a b e; rewrite Rabs_mult; apply Rmult_le_compat_l; auto using Rabs_pos).
    assert (T1 := T 0%nat 1%nat 2%nat). assert (T2 := T 1%nat 0%nat 2%nat). assert (T3 := T 2%nat 0%nat 1%nat). unfold Rminus. assert (Q1 := Rabs_triang (J 0%nat 0%nat * minor J 1 2 + - (J 0%nat 1%nat * minor J 0 2)) (J 0%nat 2%nat * minor J 0 1)). assert (Q2 := Rabs_triang (J 0%nat 0%nat * minor J 1 2) (- (J 0%nat 1%nat * minor J 0 2))). rewrite Rabs_Ropp in Q2. lra.
Qed.
Lemma terms_pos d J : 0 <= terms d J.
Proof.
  assert (M : forall b e, 0 <= aminor J b e) by (intros b e; unfold aminor; assert (P1 := Rabs_pos (J 1%nat b * J 2%nat e)); assert (P2 := Rabs_pos (J 1%nat e * J 2%nat b)); lra). assert (T : forall a b e, 0 <= Rabs (J 0%nat a) * aminor J b e) by (intros a b e; apply Rmult_le_pos; auto using Rabs_pos).
  assert (T1 := T 0%nat 1%nat 2%nat). assert (T2 := T 1%nat 0%nat 2%nat). assert (T3 := T 2%nat 0%nat 1%nat). destruct d as [|[|[|d]]]; cbn [terms]; try lra; [apply Rabs_pos|]. assert (P1 := Rabs_pos (J 0%nat 0%nat * J 1%nat 1%nat)). assert (P2 := Rabs_pos (J 1%nat 0%nat * J 0%nat 1%nat)). lra.
Qed.
(* terms which do not vanish are not tiny *)
Lemma terms_large d c : (1 <= d <= 3)%nat -> cell_ok d d c -> volume d (span c) <> 0 -> bpow radix2 (-300) <= terms d (span c).
Proof.
  intros Hd ok NV. destruct (Rle_or_lt (bpow radix2 (-300)) (terms d (span c))) as [L|L]; auto. exfalso. apply NV.
  assert (Z : forall n x, (n <= 300)%Z -> rng n x -> Rabs x < bpow radix2 (-300) -> x = 0). { intros n x Hn [E|[E _]] Hx; auto. exfalso. assert (Q : bpow radix2 (-300) <= bpow radix2 (- n)) by (apply bpow_le; lia). lra. }
  assert (R : forall r k, (r < d)%nat -> (k < d)%nat -> rng 100 (span c r k)) by (intros r k Hr Hk; now apply (J_rng d d c ok)).
  destruct d as [|[|[|[|d]]]]; try lia; cbn [volume terms] in *.
  - apply (Z 100%Z); auto; try lia; apply R; lia.
  - assert (P1 := Rabs_pos (span c 0 0 * span c 1 1)). assert (P2 := Rabs_pos (span c 1 0 * span c 0 1)).
    rewrite (Z 200%Z (span c 0 0 * span c 1 1)), (Z 200%Z (span c 1 0 * span c 0 1)); try lia; try lra; apply (rng_mul 100 100); apply R; lia.
  - assert (T : forall a b e, (a < 3)%nat -> (b < 3)%nat -> (e < 3)%nat -> Rabs (span c 0 a) * aminor (span c) b e < bpow radix2 (-300) -> span c 0 a * minor (span c) b e = 0).
    { intros a b e Ha Hb He K. unfold aminor in K. rewrite Rmult_plus_distr_l, <- !Rabs_mult in K. assert (P1 := Rabs_pos (span c 0 a * (span c 1 b * span c 2 e))). assert (P2 := Rabs_pos (span c 0 a * (span c 1 e * span c 2 b))).
      unfold minor. rewrite Rmult_minus_distr_l. rewrite (Z 300%Z (span c 0 a * (span c 1 b * span c 2 e))), (Z 300%Z (span c 0 a * (span c 1 e * span c 2 b))); try lia; try lra; apply (rng_mul 100 200); try (apply (rng_mul 100 100)); apply R; lia. }
    assert (M : forall b e, 0 <= aminor (span c) b e) by (intros b e; unfold aminor; assert (P1 := Rabs_pos (span c 1 b * span c 2 e)); assert (P2 := Rabs_pos (span c 1 e * span c 2 b)); lra). assert (T0 : forall a b e, 0 <= Rabs (span c 0 a) * aminor (span c) b e) by (intros a b e; apply Rmult_le_pos; auto using Rabs_pos).
    assert (Q1 := T0 0%nat 1%nat 2%nat). assert (Q2 := T0 1%nat 0%nat 2%nat). assert (Q3 := T0 2%nat 0%nat 1%nat). rewrite (T 0%nat 1%nat 2%nat), (T 1%nat 0%nat 2%nat), (T 2%nat 0%nat 1%nat) by (lia || lra). ring.
Qed.
Lemma weak k k' x S : (k <= k')%nat -> 0 <= S -> x <= ((1 + u) ^ k - 1) * S -> x <= ((1 + u) ^ k' - 1) * S.
Proof. intros H P K. apply Rle_trans with (1 := K). apply Rmult_le_compat_r; auto. assert (M : (1 + u) ^ k <= (1 + u) ^ k') by (apply Rle_pow; auto; assert (Q := u_pos); lra). lra. Qed.
Lemma determinant_error d c : (1 <= d <= 3)%nat -> cell_ok d d c ->
  fin (f_determinant d (f_jac c)) = true /\ Rabs (B2 (f_determinant d (f_jac c)) - volume d (span c)) <= ((1 + u) ^ 8 - 1) * terms d (span c) + 4 * eta /\ Rabs (B2 (f_determinant d (f_jac c))) <= bpow radix2 310.
Proof.
  intros Hd ok. assert (Pe := eta_pos). assert (Pu := u_pos). assert (Su : u <= / 10000) by (rewrite u_small; lra). assert (PT := terms_pos d (span c)). destruct d as [|[|[|[|d]]]]; try lia.
  - cbn [f_determinant volume terms]. assert (Nj := j_near 1 1 c ok 0 0 ltac:(lia) ltac:(lia)). split; [now apply near_fin with (1 := Nj)|]. assert (E := near_error _ _ _ Nj). split.
    + assert (W := weak 1 8 _ _ ltac:(lia) (Rabs_pos _) E). lra.
    + apply Rle_trans with (bpow radix2 101); [|apply bpow_le; lia]. apply (near_le 1 _ _ 100 ltac:(lia) ltac:(lia) Nj). apply (J_rng 1 1 c ok); lia.
  - cbn [f_determinant volume terms]. destruct (det2_error 2 2 c ok 0 0 1 1 1 0 0 1) as [F E]; try lia. cbv zeta in F, E. fold (f_det (f_jac c)) in F, E. split; auto. split.
    + assert (W := weak 4 8 _ _ ltac:(lia) PT E). cbn [terms] in W. lra.
    + assert (L1 := prod_le 2 2 c ok 0 0 1 1 ltac:(lia) ltac:(lia) ltac:(lia) ltac:(lia)). assert (L2 := prod_le 2 2 c ok 1 0 0 1 ltac:(lia) ltac:(lia) ltac:(lia) ltac:(lia)).
      apply Rle_trans with (bpow radix2 202); [|apply bpow_le; lia]. apply Rle_trans with (1 := bounded _ _ _ 4 ltac:(lia) E ltac:(exact (volume_le 2 (span c) ltac:(lia)))). change 202%Z with (200 + 2)%Z. rewrite bpow_plus. change (bpow radix2 2) with 4. lra.
  - cbn [f_determinant volume terms]. destruct (helper_error c 0 1 2 ok ltac:(lia) ltac:(lia) ltac:(lia)) as (F1 & E1 & L1). destruct (helper_error c 1 0 2 ok ltac:(lia) ltac:(lia) ltac:(lia)) as (F2 & E2 & L2). destruct (helper_error c 2 0 1 ok ltac:(lia) ltac:(lia) ltac:(lia)) as (F3 & E3 & L3).
    assert (M : forall b e, 0 <= aminor (span c) b e) by (intros b e; unfold aminor; assert (P1 := Rabs_pos (span c 1 b * span c 2 e)); assert (P2 := Rabs_pos (span c 1 e * span c 2 b)); lra). assert (T0 : forall a b e, 0 <= Rabs (span c 0 a) * aminor (span c) b e) by (intros a b e; apply Rmult_le_pos; auto using Rabs_pos).
    assert (T : forall a b e, Rabs (span c 0 a * minor (span c) b e) <= Rabs (span c 0 a) * aminor (span c) b e). { intros a b e; rewrite Rabs_mult; apply Rmult_le_compat_l; [apply Rabs_pos|]. unfold minor, aminor, Rminus; apply Rle_trans with (1 := Rabs_triang _ _); rewrite Rabs_Ropp; lra. }
    unfold f_det3. set (h1 := f_det3_helper (f_jac c) 0 1 2) in *. set (h2 := f_det3_helper (f_jac c) 1 0 2) in *. set (h3 := f_det3_helper (f_jac c) 2 0 1) in *.
    assert (Lb : forall n, bpow radix2 (n + 1) = 2 * bpow radix2 n) by (intros n; rewrite bpow_plus; change (bpow radix2 1) with 2; ring).
    assert (L12 : Rabs (B2 h1 - B2 h2) <= bpow radix2 304) by (change 304%Z with (303 + 1)%Z; rewrite Lb; unfold Rminus; apply Rle_trans with (1 := Rabs_triang _ _); rewrite Rabs_Ropp; lra).
    destruct (dsub_ok h1 h2 304) as (Fd & Ed & _); auto; try lia. assert (Ld : Rabs (B2 (dsub h1 h2)) <= bpow radix2 304) by (rewrite Ed; apply rnd_bound; auto; lia).
    assert (L34 : Rabs (B2 (dsub h1 h2) + B2 h3) <= bpow radix2 305). { change 305%Z with (304 + 1)%Z. rewrite Lb. assert (bpow radix2 303 <= bpow radix2 304) by (apply bpow_le; lia). apply Rle_trans with (1 := Rabs_triang _ _). lra. }
    destruct (dadd_ok (dsub h1 h2) h3 305) as (Fa & Ea); auto; try lia. split; auto. split; [|rewrite Ea; apply Rle_trans with (bpow radix2 305); [apply rnd_bound; auto; lia|apply bpow_le; lia]].
    assert (A1 := addS (B2 h1) (span c 0 0 * minor (span c) 1 2) (Rabs (span c 0 0) * aminor (span c) 1 2) (- B2 h2) (- (span c 0 1 * minor (span c) 0 2)) (Rabs (span c 0 1) * aminor (span c) 0 2) 6 eta eta (B2 (dsub h1 h2)) E1 (T 0%nat 1%nat 2%nat)).
    assert (K1 : Rabs (- B2 h2 - - (span c 0 1 * minor (span c) 0 2)) <= ((1 + u) ^ 6 - 1) * (Rabs (span c 0 1) * aminor (span c) 0 2) + eta) by (replace (- B2 h2 - - (span c 0 1 * minor (span c) 0 2)) with (- (B2 h2 - span c 0 1 * minor (span c) 0 2)) by ring; now rewrite Rabs_Ropp).
    assert (K2 : Rabs (- (span c 0 1 * minor (span c) 0 2)) <= Rabs (span c 0 1) * aminor (span c) 0 2) by (rewrite Rabs_Ropp; apply T). specialize (A1 K1 K2 (dsub_error _ _ Fd)). cbn [Nat.add] in A1.
    assert (E3' : Rabs (B2 h3 - span c 0 2 * minor (span c) 0 1) <= ((1 + u) ^ 7 - 1) * (Rabs (span c 0 2) * aminor (span c) 0 1) + eta) by (assert (Wk := weak 6 7 _ _ ltac:(lia) (T0 2%nat 0%nat 1%nat) (Rle_refl _)); lra).
    assert (K3 : Rabs (span c 0 0 * minor (span c) 1 2 + - (span c 0 1 * minor (span c) 0 2)) <= Rabs (span c 0 0) * aminor (span c) 1 2 + Rabs (span c 0 1) * aminor (span c) 0 2) by (apply Rle_trans with (1 := Rabs_triang _ _); assert (Q := T 0%nat 1%nat 2%nat); lra).
    assert (A2 := addS _ _ _ _ _ _ 7 _ _ (B2 (dadd (dsub h1 h2) h3)) A1 K3 E3' (T 2%nat 0%nat 1%nat) (dadd_error _ _ Fa)). cbn [Nat.add] in A2. unfold Rminus at 2. apply Rle_trans with (1 := A2). apply Rplus_le_compat_l.
    assert (U1 : u * eta <= / 10000 * eta) by (apply Rmult_le_compat_r; lra). assert (U2 : u * (u * eta) <= / 10000 * (/ 10000 * eta)) by (apply Rmult_le_compat; try lra; apply Rmult_le_pos; lra). lra.
Qed.
Lemma pow9 : (1 + u) ^ 9 - 1 <= 95 / 10 * u. Proof. rewrite u_small. cbn [pow]. lra. Qed.
(* C221: the measure is finite and not negative, and its error is at most 10 u times the size of the terms of the determinant *)
Theorem C221_measure_partial d c : (1 <= d <= 3)%nat -> cell_ok d d c -> volume d (span c) <> 0 ->
  fin (f_measure d c) = true /\ 0 <= B2 (f_measure d c) /\ Rabs (B2 (f_measure d c) - Rabs (volume d (span c)) / INR (fact d)) <= 10 * u * (terms d (span c) / INR (fact d)).
Proof.
  intros Hd ok NV. destruct (determinant_error d c Hd ok) as (F & E & L). assert (Pe := eta_pos). assert (Pu := u_pos). assert (Su : u <= / 10000) by (rewrite u_small; lra). unfold f_measure. set (D := f_determinant d (f_jac c)) in *.
  assert (Fc : INR (fact d) = 1 \/ INR (fact d) = 2 \/ INR (fact d) = 6) by (destruct d as [|[|[|[|d]]]]; try lia; cbn [fact Nat.mul Nat.add]; cbn [INR]; lra). assert (Nq := FloatLinspace.d_index_near (fact d) ltac:(destruct d as [|[|[|[|d]]]]; try lia; reflexivity)). assert (Zf : INR (fact d) <> 0) by lra. assert (Zq := near_nz _ _ _ Zf Nq). destruct Nq as (Fq & g & Eq & Hg).
  assert (g = 1) by (destruct Hg as [G1 G2]; cbn [pow] in G1, G2; rewrite Rinv_1 in G1; lra). subst g. rewrite Rmult_1_r in Eq. set (q := d_index (fact d)) in *. assert (Fb : fin (Babs D) = true) by (rewrite is_finite_Babs; auto). assert (Eb : B2 (Babs D) = Rabs (B2 D)) by apply B2R_Babs.
  assert (C := @Bdiv_correct 53 1024 prec64 emax64 mode_NE (Babs D) q Zq). fold (ddiv (Babs D) q) in C. rewrite Eb, Eq in C. set (n := INR (fact d)) in *. assert (In : / n <= 1) by (destruct Fc as [->|[->| ->]]; lra). assert (Pn : 0 < / n) by (destruct Fc as [->|[->| ->]]; lra). assert (PD := Rabs_pos (B2 D)).
  assert (Bq : 0 <= Rabs (B2 D) / n <= bpow radix2 310). { unfold Rdiv. split; [apply Rmult_le_pos; lra|]. rewrite <- (Rmult_1_r (bpow radix2 310)). apply Rmult_le_compat; lra. }
  rewrite Rlt_bool_true in C. 2:{ apply Rle_lt_trans with (bpow radix2 310); [apply rnd_bound; [lia|]; rewrite Rabs_pos_eq; apply Bq|apply bpow_lt; lia]. }
  destruct C as (C1 & C2 & _). change (B2 (ddiv (Babs D) q) = rnd (Rabs (B2 D) / n)) in C1. split; [rewrite C2; exact Fb|]. split; [rewrite C1; apply rnd_pos; lra|]. rewrite C1.
  destruct (@relative_error_N_FLT'_ex radix2 (-1074) 53 prec64 (fun x => negb (Z.even x)) (Rabs (B2 D) / n)) as (e & t & Be & Bt & _ & Ee). change (round radix2 (FLT_exp (-1074) 53) (Znearest (fun x => negb (Z.even x)))) with rnd in Ee.
  assert (TL := terms_large d c Hd ok NV). assert (VL := volume_le d (span c) Hd). assert (PT := terms_pos d (span c)). set (V := volume d (span c)) in *. set (T := terms d (span c)) in *.
  assert (A : Rabs (Rabs (B2 D) / n - Rabs V / n) <= ((1 + u) ^ 8 - 1) * (T / n) + 4 * eta).
  { replace (Rabs (B2 D) / n - Rabs V / n) with ((Rabs (B2 D) - Rabs V) * / n) by (unfold Rdiv; ring). rewrite Rabs_mult, (Rabs_pos_eq (/ n)) by lra. apply Rle_trans with ((((1 + u) ^ 8 - 1) * T + 4 * eta) * / n); [apply Rmult_le_compat_r; [lra|]; apply Rle_trans with (2 := E); apply Rabs_triang_inv2|].
    unfold Rdiv. rewrite Rmult_plus_distr_r, Rmult_assoc. apply Rplus_le_compat_l. rewrite <- (Rmult_1_r (4 * eta)) at 2. apply Rmult_le_compat_l; lra. }
  assert (VT : Rabs (Rabs V / n) <= T / n) by (unfold Rdiv; rewrite Rabs_mult, Rabs_Rabsolu, (Rabs_pos_eq (/ n)) by lra; apply Rmult_le_compat_r; lra).
  assert (R := rounded (Rabs (B2 D) / n) (Rabs V / n) (T / n) 8 (4 * eta) (rnd (Rabs (B2 D) / n)) eta A VT). cbn [Nat.add] in R. apply Rle_trans with (1 := R ltac:(rewrite Ee; replace (Rabs (B2 D) / n * (1 + e) + t - Rabs (B2 D) / n) with (e * (Rabs (B2 D) / n) + t) by ring; apply Rle_trans with (1 := Rabs_triang _ _); rewrite Rabs_mult; apply Rplus_le_compat; [apply Rmult_le_compat_r; [apply Rabs_pos|now apply u_ro_u]|exact Bt])).
  assert (P9 := pow9). assert (PTn : 0 <= T / n) by (unfold Rdiv; apply Rmult_le_pos; lra). assert (X1 : ((1 + u) ^ 9 - 1) * (T / n) <= 95 / 10 * u * (T / n)) by (apply Rmult_le_compat_r; lra).
  assert (X2 : (1 + u) * (4 * eta) + eta <= 6 * eta) by (assert (u * eta <= / 10000 * eta) by (apply Rmult_le_compat_r; lra); lra).
  assert (X3 : 6 * eta <= 1 / 2 * u * (T / n)). { assert (Eu := eta_u). assert (I6 : / 6 <= / n) by (destruct Fc as [->|[->| ->]]; lra). assert (Y : bpow radix2 (-300) * / 6 <= T / n) by (unfold Rdiv; apply Rmult_le_compat; try lra; apply bpow_ge_0). assert (Y1 : 12 * bpow radix2 (-400) <= bpow radix2 (-300) * / 6) by (replace (bpow radix2 (-300)) with (bpow radix2 (-400) * bpow radix2 100) by (rewrite <- bpow_plus; reflexivity); assert (P4 := bpow_gt_0 radix2 (-400)); assert (P5 : 72 <= bpow radix2 100) by (apply Rle_trans with (bpow radix2 7); [cbn; lra|apply bpow_le; lia]); assert (P6 : bpow radix2 (-400) * 72 <= bpow radix2 (-400) * bpow radix2 100) by (apply Rmult_le_compat_l; lra); lra).
    assert (Y2 : 12 * bpow radix2 (-400) * u <= T / n * u) by (apply Rmult_le_compat_r; lra). lra. }
  lra.
Qed.
(* C221: relative error and sign for cells whose terms do not cancel too much *)
Theorem C221_relative_partial d c kappa : (1 <= d <= 3)%nat -> cell_ok d d c -> volume d (span c) <> 0 -> terms d (span c) <= kappa * Rabs (volume d (span c)) ->
  Rabs (B2 (f_measure d c) - Rabs (volume d (span c)) / INR (fact d)) <= 10 * u * kappa * (Rabs (volume d (span c)) / INR (fact d)) /\ (10 * u * kappa < 1 -> 0 < B2 (f_measure d c)).
Proof.
  intros Hd ok NV HK. destruct (C221_measure_partial d c Hd ok NV) as (F & P & E). assert (Pu := u_pos). assert (Pn : 0 < / INR (fact d)) by (apply Rinv_0_lt_compat; assert (Q := INR_fact_lt_0 d); lra). assert (PV := Rabs_pos_lt _ NV).
  assert (K : 10 * u * (terms d (span c) / INR (fact d)) <= 10 * u * kappa * (Rabs (volume d (span c)) / INR (fact d))). { unfold Rdiv. rewrite <- !Rmult_assoc. apply Rmult_le_compat_r; [lra|]. rewrite (Rmult_assoc (10 * u)). apply Rmult_le_compat_l; lra. }
  split; [lra|]. intros Hk. assert (Q : 0 < Rabs (volume d (span c)) / INR (fact d)) by (unfold Rdiv; now apply Rmult_lt_0_compat). assert (M : 10 * u * kappa * (Rabs (volume d (span c)) / INR (fact d)) < 1 * (Rabs (volume d (span c)) / INR (fact d))) by (apply Rmult_lt_compat_r; auto).
  assert (E' := Rle_trans _ _ _ E K). apply Rabs_le_inv in E'. lra.
Qed.
(* C221: the length of a segment of the plane has a relative error of at most 4 u *)
Theorem C221_length c : cell_ok 1 2 c -> span c 0 0 <> 0 \/ span c 1 0 <> 0 ->
  fin (f_length 2 c) = true /\ 0 < B2 (f_length 2 c) /\ Rabs (B2 (f_length 2 c) - sqrt (span c 0 0 * span c 0 0 + span c 1 0 * span c 1 0)) <= 4 * u * sqrt (span c 0 0 * span c 0 0 + span c 1 0 * span c 1 0).
Proof.
  intros ok NZ. set (Q := span c 0 0 * span c 0 0 + span c 1 0 * span c 1 0). assert (P0 := Rle_0_sqr (span c 0 0)). assert (P1 := Rle_0_sqr (span c 1 0)). unfold Rsqr in P0, P1. assert (PQ : 0 < Q) by (unfold Q; destruct NZ as [NZ|NZ]; apply Rsqr_pos_lt in NZ; unfold Rsqr in NZ; lra).
  assert (RQ : rng 201 Q) by (apply (rng_add 200); [now apply Rmult_le_pos| |]; apply (rng_mul 100 100); apply (J_rng 1 2 c ok); lia).
  assert (Nq : near 4 (f_dot 2 (fun r => f_jac c r 0) (fun r => f_jac c r 0)) Q). { cbn [f_dot]. apply (near_add 3); [lia|now apply Rmult_le_pos| | |apply rng_mono with (2 := RQ); lia]; apply (prod_near 1 2 c ok); lia. }
  assert (Nl := near_sqrt 2 _ _ ltac:(lia) PQ Nq (rng_mono 201 1000 Q ltac:(lia) RQ)). fold (f_length 2 c) in Nl. cbn [Nat.add] in Nl. split; [now apply near_fin with (1 := Nl)|]. assert (PS := sqrt_lt_R0 Q PQ). split.
  - destruct Nl as (_ & f & E & Hf). rewrite E. apply Rmult_lt_0_compat; auto. now apply fac_pos with (1 := Hf).
  - apply Rle_trans with (1 := near_error _ _ _ Nl). rewrite Rabs_pos_eq by lra. apply Rmult_le_compat_r; [lra|]. assert (P3 := FloatLinspace.pow3). assert (Pu := u_pos). lra.
Qed.
Print Assumptions C221_measure_partial.
Print Assumptions C221_relative_partial.
Print Assumptions C221_length.
(* C221 refuted: with e = 2^-52, the triangle (0, 0), (1 + e, 1), (1 + 2e, 1 + e) has the measure e^2 / 2 and is given the measure 0 *)
Definition sliver : f_cell := nodes3 (at2 d0 d0) (at2 (dbl 4503599627370497 (-52)) (dbl 1 0)) (at2 (dbl 4503599627370498 (-52)) (dbl 4503599627370497 (-52))).
Theorem C221_refuted : cell_ok 2 2 sliver /\ volume 2 (span sliver) = 4 * (u * u) /\ B2 (f_measure 2 sliver) = 0.
Proof.
  destruct (B2_dbl 4503599627370497 (-52) ltac:(cbn; lia) ltac:(lia)) as [F1 E1]. destruct (B2_dbl 4503599627370498 (-52) ltac:(cbn; lia) ltac:(lia)) as [F2 E2]. destruct (B2_dbl 1 0 ltac:(cbn; lia) ltac:(lia)) as [F3 E3].
  change (bpow radix2 (-52)) with (/ 4503599627370496) in E1, E2. change (bpow radix2 0) with 1 in E3. assert (Z0 : B2 d0 = 0) by reflexivity.
  assert (M : forall z, 1 <= z <= 2 -> middling (z - 0)). { intros z Hz. right. rewrite Rminus_0_r, Rabs_pos_eq by lra. split; [apply Rle_trans with (bpow radix2 0); [apply bpow_le; lia|cbn; lra]|apply Rle_trans with (bpow radix2 1); [cbn; lra|apply bpow_le; lia]]. }
  split; [split|split].
  - intros [|[|[|i]]] [|[|r]] Hi Hr; try lia; auto.
  - intros [|[|r]] [|[|k]] Hr Hk; try lia; unfold span, sliver, nodes3, at2; rewrite Z0; apply M; rewrite ?E1, ?E2, ?E3; lra.
  - unfold volume, span, sliver, nodes3, at2. rewrite Z0, E1, E2, E3, u_small. lra.
  - assert (Z : f_measure 2 sliver = d0) by (apply B2SF_inj; vm_compute; reflexivity). now rewrite Z.
Qed.
Print Assumptions C221_refuted.
(* the tetrahedron (0, 0, 0), (2, 0, 1), (0, 3, 0), (1, 0, 4) *)
Definition tetra : f_cell := fun i => match i with O => at3 d0 d0 d0 | S O => at3 (whole 2) d0 (whole 1) | S (S O) => at3 d0 (whole 3) d0 | _ => at3 (whole 1) d0 (whole 4) end.
Lemma tetra_ok : cell_ok 3 3 tetra /\ volume 3 (span tetra) = 21 /\ terms 3 (span tetra) = 27.
Proof.
  assert (W : forall m, (1 <= m <= 4)%Z -> fin (whole m) = true /\ B2 (whole m) = IZR m) by (intros m Hm; destruct (B2_dbl m 0) as [F E]; [cbn; lia|lia|]; split; [exact F|]; rewrite <- (Rmult_1_r (IZR m)); exact E).
  destruct (W 1%Z ltac:(lia)) as [F1 E1]. destruct (W 2%Z ltac:(lia)) as [F2 E2]. destruct (W 3%Z ltac:(lia)) as [F3 E3]. destruct (W 4%Z ltac:(lia)) as [F4 E4]. assert (Z0 : B2 d0 = 0) by reflexivity.
  assert (M : forall z, 1 <= z <= 4 -> middling (z - 0)). { intros z Hz. right. rewrite Rminus_0_r, Rabs_pos_eq by lra. split; [apply Rle_trans with (bpow radix2 0); [apply bpow_le; lia|cbn; lra]|apply Rle_trans with (bpow radix2 2); [cbn; lra|apply bpow_le; lia]]. }
  assert (M0 : middling (0 - 0)) by (left; ring). split; [split|split].
  - intros [|[|[|[|i]]]] [|[|[|r]]] Hi Hr; try lia; auto.
  - intros [|[|[|r]]] [|[|[|k]]] Hr Hk; try lia; unfold span, tetra, at3; rewrite ?Z0, ?E1, ?E2, ?E3, ?E4; auto; apply M; lra.
  - unfold volume, minor, span, tetra, at3. rewrite !Z0, !E1, !E2, !E3, !E4. ring.
  - unfold terms, aminor, span, tetra, at3. rewrite !Z0, !E1, !E2, !E3, !E4. rewrite !Rabs_mult, !Rminus_0_r, Rabs_R0, !Rabs_pos_eq by lra. ring.
Qed.
Example C221_example : 0 < B2 (f_measure 3 tetra) /\ Rabs (B2 (f_measure 3 tetra) - 21 / 6) <= 45 * u.
Proof.
  destruct tetra_ok as (ok & V & T). assert (Us := u_small). destruct (C221_measure_partial 3 tetra ltac:(lia) ok ltac:(rewrite V; lra)) as (_ & _ & E). destruct (C221_relative_partial 3 tetra (27 / 21) ltac:(lia) ok ltac:(rewrite V; lra) ltac:(rewrite V, T, Rabs_pos_eq; lra)) as (_ & P).
  split; [apply P; rewrite Us; lra|]. rewrite V, T, (Rabs_pos_eq 21) in E by lra. replace (INR (fact 3)) with 6 in E by (cbn [fact Nat.mul Nat.add]; cbn [INR]; lra). lra.
Qed.
Example C221_length_example : cell_ok 1 2 short /\ (span short 0 0 <> 0 \/ span short 1 0 <> 0).
Proof.
  destruct short_val as (F1 & E1 & F2 & E2 & _). assert (Z0 : B2 d0 = 0) by reflexivity. split; [split|].
  - intros [|[|i]] [|[|r]] Hi Hr; try lia; auto.
  - intros [|[|r]] [|k] Hr Hk; try lia; unfold span, short, seg2, at2; rewrite Z0, ?E1, ?E2; apply middling_le; rewrite Rabs_pos_eq; lra.
  - left. unfold span, short, seg2, at2. rewrite Z0, E1. lra.
Qed.
