(* C199: the diagonal second derivatives in double arithmetic. *)
From Coq Require Import Reals Lra Lia List Bool ZArith FunctionalExtensionality.
From Flocq Require Import Core IEEE754.BinarySingleNaN Relative Plus_error Mult_error.
From Coquelicot Require Import Coquelicot.
From Verif Require Import Base RSum FieldModel FieldProps FieldErr FieldMixed SymbolsModel SymbolsProps FloatModel FloatProps FloatSearch FloatSplineModel FloatSpline FloatDiffModel FloatDiff.
Open Scope R_scope.

Lemma central2 g D w h M : 0 < h -> derivatives g D 6 -> (forall t, w - 2 * h <= t <= w + 2 * h -> Rabs (D 6%nat t) <= M) ->
  Rabs ((- g (w + 2 * h) + 16 * g (w + h) - 30 * g w + 16 * g (w - h) - g (w - 2 * h)) / (12 * h * h) - D 2%nat w) <= M * h ^ 4 / 54.
Proof.
  intros Hh HD HM.
  destruct (taylor_right g D 6 w h ltac:(lia) HD Hh) as (z1 & Hz1 & E1).
  destruct (taylor_left g D 6 w h ltac:(lia) HD Hh) as (z2 & Hz2 & E2).
  destruct (taylor_right g D 6 w (2 * h) ltac:(lia) HD ltac:(lra)) as (z3 & Hz3 & E3).
  destruct (taylor_left g D 6 w (2 * h) ltac:(lia) HD ltac:(lra)) as (z4 & Hz4 & E4).
  rewrite E1, E2, E3, E4. rewrite <- (proj1 HD w). cbn.
  generalize (abs_bounds _ _ (HM z1 ltac:(lra))) (abs_bounds _ _ (HM z2 ltac:(lra)))
    (abs_bounds _ _ (HM z3 ltac:(lra))) (abs_bounds _ _ (HM z4 ltac:(lra))). intros B1 B2 B3 B4.
  match goal with |- Rabs ?q <= _ =>
    replace q with (h ^ 4 / 8640 * (16 * D 6%nat z1 + 16 * D 6%nat z2 - 64 * D 6%nat z3 - 64 * D 6%nat z4)) by (field; lra) end.
  change (h * (h * (h * (h * 1)))) with (h ^ 4).
  assert (0 <= h ^ 4) by (apply pow_le; lra). apply abs_le. split; nra.
Qed.

(* the five points *)
Definition node (x h : double) (k : nat) : double := Nat.iter k (fun t => dsub t h) (dadd x (dmul (lit 2) h)).
Lemma f_diff2_diag f h i x : let v k := f (fset x i (node (x i) h k)) in
  f_diff2 f h i i x =
    ddiv (dsub (dadd (dsub (dadd (Bopp (v 0%nat)) (dmul (lit 16) (v 1%nat))) (dmul (lit 30) (v 2%nat))) (dmul (lit 16) (v 3%nat))) (v 4%nat))
      (dmul (dmul (lit 12) h) h).
Proof. intros v. unfold f_diff2. rewrite Nat.eqb_refl. cbn [negb]. cbv zeta. rewrite !fset_same, !fset_fset. reflexivity. Qed.

Lemma nodes_fin x h : fin (node x h 4) = true -> fin x = true /\ fin h = true /\ fin (dmul (lit 2) h) = true /\ forall k, (k <= 4)%nat -> fin (node x h k) = true.
Proof.
  intros F. assert (A : forall k, (k <= 4)%nat -> fin (node x h (4 - k)) = true).
  { induction k; intros Hk; [exact F|]. specialize (IHk ltac:(lia)). replace (4 - k)%nat with (S (4 - S k)) in IHk by lia. cbn [node Nat.iter] in IHk. exact (proj1 (dsub_fin _ _ IHk)). }
  assert (F0 := A 4%nat ltac:(lia)). change (fin (dadd x (dmul (lit 2) h)) = true) in F0. destruct (dadd_fin _ _ F0) as (Fx & F2 & _). assert (F3 := A 3%nat ltac:(lia)). change (node x h (4 - 3)) with (dsub (node x h 0) h) in F3. destruct (dsub_fin _ _ F3) as (_ & Fh & _).
  repeat (split; auto). intros k Hk. replace k with (4 - (4 - k))%nat by lia. apply A. lia.
Qed.
Lemma nodes_error x h : fin (node x h 4) = true -> 0 < B2 h -> forall k, (k <= 4)%nat ->
  Rabs (B2 (node x h k) - (B2 x + (2 - INR k) * B2 h)) <= ((1 + u) ^ S k - 1) * (Rabs (B2 x) + 2 * B2 h).
Proof.
  intros F Hh. destruct (nodes_fin x h F) as (Fx & Fh & F2 & A). assert (E2 := dmul_pow2 1 h ltac:(lia) F2). change (2 ^ 1)%Z with 2%Z in E2. assert (U := u_pos).
  set (W := Rabs (B2 x) + 2 * B2 h).
  assert (T : forall c, -2 <= c <= 2 -> Rabs (B2 x + c * B2 h) <= W).
  { intros c Hc. apply Rle_trans with (1 := Rabs_triang _ _). unfold W. apply Rplus_le_compat_l. rewrite Rabs_mult, (Rabs_pos_eq (B2 h)) by lra. apply Rmult_le_compat_r; [lra|]. apply Rabs_le. lra. }
  induction k; intros Hk.
  - change (node x h 0) with (dadd x (dmul (lit 2) h)). change (INR 0) with 0. assert (Fk := A 0%nat ltac:(lia)). change (fin (dadd x (dmul (lit 2) h)) = true) in Fk. generalize (dadd_error _ _ Fk). rewrite E2. replace (2 - 0) with 2 by ring. replace ((1 + u) ^ 1 - 1) with u by ring.
    intros D. apply Rle_trans with (1 := D). apply Rmult_le_compat_l; [lra|]. apply T. lra.
  - specialize (IHk ltac:(lia)). assert (Fk := A (S k) Hk). change (node x h (S k)) with (dsub (node x h k) h) in *. assert (D := dsub_error _ _ Fk). rewrite S_INR.
    assert (K : 0 <= INR k <= 3). { split; [apply pos_INR|]. replace 3 with (INR 3) by (cbn; ring). apply le_INR. lia. }
    set (p := B2 (node x h k)) in *. set (q := B2 (dsub (node x h k) h)) in *. assert (Tk := T (2 - (INR k + 1)) ltac:(lra)).
    assert (P : Rabs (p - B2 h) <= (1 + u) ^ S k * W).
    { replace (p - B2 h) with ((p - (B2 x + (2 - INR k) * B2 h)) + (B2 x + (2 - (INR k + 1)) * B2 h)) by ring. apply Rle_trans with (1 := Rabs_triang _ _). lra. }
    replace (q - (B2 x + (2 - (INR k + 1)) * B2 h)) with ((q - (p - B2 h)) + (p - (B2 x + (2 - INR k) * B2 h))) by ring. apply Rle_trans with (1 := Rabs_triang _ _).
    assert (u * Rabs (p - B2 h) <= u * ((1 + u) ^ S k * W)) by (apply Rmult_le_compat_l; lra).
    change ((1 + u) ^ S (S k)) with ((1 + u) * (1 + u) ^ S k). lra.
Qed.

(* the five terms *)
Lemma five a0 a1 a2 a3 a4 : fin (dsub (dadd (dsub (dadd (Bopp a0) (dmul (lit 16) a1)) (dmul (lit 30) a2)) (dmul (lit 16) a3)) a4) = true ->
  Rabs (B2 (dsub (dadd (dsub (dadd (Bopp a0) (dmul (lit 16) a1)) (dmul (lit 30) a2)) (dmul (lit 16) a3)) a4) - (- B2 a0 + 16 * B2 a1 - 30 * B2 a2 + 16 * B2 a3 - B2 a4))
    <= ((1 + u) ^ 4 - 1) * (Rabs (B2 a0) + 16 * Rabs (B2 a1) + 30 * Rabs (B2 a2) + 16 * Rabs (B2 a3) + Rabs (B2 a4)) + 2 * eta.
Proof.
  intros F. generalize (dsub_error _ _ F). destruct (dsub_fin _ _ F) as (F3 & _ & _). generalize (dadd_error _ _ F3). destruct (dadd_fin _ _ F3) as (F2 & G3 & _). generalize (dsub_error _ _ F2).
  destruct (dsub_fin _ _ F2) as (F1 & G2 & _). generalize (dadd_error _ _ F1). destruct (dadd_fin _ _ F1) as (F0 & G1 & _). rewrite B2R_Bopp.
  assert (E1 := dmul_pow2 4 a1 ltac:(lia) G1). assert (E3 := dmul_pow2 4 a3 ltac:(lia) G3). change (2 ^ 4)%Z with 16%Z in E1, E3. rewrite E1, E3.
  generalize (dmul_error _ _ G2). rewrite (proj2 (lit_ok 30 ltac:(lia))).
  generalize (B2 (dsub (dadd (dsub (dadd (Bopp a0) (dmul (lit 16) a1)) (dmul (lit 30) a2)) (dmul (lit 16) a3)) a4)) (B2 (dadd (dsub (dadd (Bopp a0) (dmul (lit 16) a1)) (dmul (lit 30) a2)) (dmul (lit 16) a3)))
    (B2 (dsub (dadd (Bopp a0) (dmul (lit 16) a1)) (dmul (lit 30) a2))) (B2 (dadd (Bopp a0) (dmul (lit 16) a1))) (B2 (dmul (lit 30) a2)) (B2 a0) (B2 a1) (B2 a2) (B2 a3) (B2 a4). clear.
  intros r4 r3 r2 r1 m p0 p1 p2 p3 p4 M R1 R2 R3 R4. assert (U := u_pos). assert (ET := eta_pos). assert (U1 : u <= 1 / 16) by (rewrite u_small; lra).
  rewrite Rabs_mult, (Rabs_pos_eq 30) in M by lra.
  set (S1 := Rabs p0 + 16 * Rabs p1). set (S2 := S1 + 30 * Rabs p2). set (S3 := S2 + 16 * Rabs p3).
  generalize (Rabs_pos p0) (Rabs_pos p1) (Rabs_pos p2) (Rabs_pos p3) (Rabs_pos p4). intros Q0 Q1 Q2 Q3 Q4.
  assert (T1 : Rabs (- p0 + 16 * p1) <= S1). { apply Rle_trans with (1 := Rabs_triang _ _). rewrite Rabs_Ropp, Rabs_mult, (Rabs_pos_eq 16) by lra. unfold S1. lra. }
  assert (T2 : Rabs (- p0 + 16 * p1 - 30 * p2) <= S2). { apply Rle_trans with (1 := Rabs_triang _ _). rewrite Rabs_Ropp, Rabs_mult, (Rabs_pos_eq 30) by lra. unfold S2. lra. }
  assert (T3 : Rabs (- p0 + 16 * p1 - 30 * p2 + 16 * p3) <= S3). { apply Rle_trans with (1 := Rabs_triang _ _). rewrite Rabs_mult, (Rabs_pos_eq 16) by lra. unfold S3. lra. }
  assert (V1 : Rabs (r1 - (- p0 + 16 * p1)) <= u * S1) by (apply Rle_trans with (1 := R1), Rmult_le_compat_l; lra).
  assert (S10 : 0 <= S1) by (unfold S1; lra). assert (S20 : 0 <= S2) by (unfold S2; lra). assert (S30 : 0 <= S3) by (unfold S3; lra).
  assert (V2 : Rabs (r2 - (- p0 + 16 * p1 - 30 * p2)) <= ((1 + u) ^ 2 - 1) * S2 + (1 + u) * eta).
  { assert (P : Rabs (r1 - m) <= (1 + u) * S2 + eta).
    { replace (r1 - m) with ((r1 - (- p0 + 16 * p1)) + - (m - 30 * p2) + (- p0 + 16 * p1 - 30 * p2)) by ring. apply Rle_trans with (1 := Rabs_triang _ _). generalize (Rabs_triang (r1 - (- p0 + 16 * p1)) (- (m - 30 * p2))). rewrite Rabs_Ropp. unfold S2 in *. lra. }
    assert (u * Rabs (r1 - m) <= u * ((1 + u) * S2 + eta)) by (apply Rmult_le_compat_l; lra).
    replace (r2 - (- p0 + 16 * p1 - 30 * p2)) with ((r2 - (r1 - m)) + (r1 - (- p0 + 16 * p1)) + - (m - 30 * p2)) by ring. apply Rle_trans with (1 := Rabs_triang _ _). generalize (Rabs_triang (r2 - (r1 - m)) (r1 - (- p0 + 16 * p1))). rewrite Rabs_Ropp. unfold S2 in *. lra. }
  assert (V3 : Rabs (r3 - (- p0 + 16 * p1 - 30 * p2 + 16 * p3)) <= ((1 + u) ^ 3 - 1) * S3 + (1 + u) ^ 2 * eta).
  { assert (P : Rabs (r2 + 16 * p3) <= (1 + u) ^ 2 * S3 + (1 + u) * eta).
    { replace (r2 + 16 * p3) with ((r2 - (- p0 + 16 * p1 - 30 * p2)) + (- p0 + 16 * p1 - 30 * p2 + 16 * p3)) by ring. apply Rle_trans with (1 := Rabs_triang _ _).
      assert (((1 + u) ^ 2 - 1) * S2 <= ((1 + u) ^ 2 - 1) * S3) by (apply Rmult_le_compat_l; [generalize (pow_ge1 2); lra|unfold S3; lra]). lra. }
    assert (u * Rabs (r2 + 16 * p3) <= u * ((1 + u) ^ 2 * S3 + (1 + u) * eta)) by (apply Rmult_le_compat_l; lra).
    assert (((1 + u) ^ 2 - 1) * S2 <= ((1 + u) ^ 2 - 1) * S3) by (apply Rmult_le_compat_l; [generalize (pow_ge1 2); lra|unfold S3; lra]).
    replace (r3 - (- p0 + 16 * p1 - 30 * p2 + 16 * p3)) with ((r3 - (r2 + 16 * p3)) + (r2 - (- p0 + 16 * p1 - 30 * p2))) by ring. apply Rle_trans with (1 := Rabs_triang _ _). lra. }
  fold S1. fold S2. fold S3. 
  assert (P : Rabs (r3 - p4) <= (1 + u) ^ 3 * (S3 + Rabs p4) + (1 + u) ^ 2 * eta).
  { replace (r3 - p4) with ((r3 - (- p0 + 16 * p1 - 30 * p2 + 16 * p3)) + (- p0 + 16 * p1 - 30 * p2 + 16 * p3) + - p4) by ring. apply Rle_trans with (1 := Rabs_triang _ _).
    generalize (Rabs_triang (r3 - (- p0 + 16 * p1 - 30 * p2 + 16 * p3)) (- p0 + 16 * p1 - 30 * p2 + 16 * p3)). rewrite Rabs_Ropp.
    assert (Rabs p4 <= (1 + u) ^ 3 * Rabs p4) by (generalize (pow_ge1 3); intros; rewrite <- (Rmult_1_l (Rabs p4)) at 1; apply Rmult_le_compat_r; lra). lra. }
  assert (u * Rabs (r3 - p4) <= u * ((1 + u) ^ 3 * (S3 + Rabs p4) + (1 + u) ^ 2 * eta)) by (apply Rmult_le_compat_l; lra).
  assert (0 <= ((1 + u) ^ 3 - 1) * Rabs p4) by (apply Rmult_le_pos; [generalize (pow_ge1 3); lra|lra]).
  assert (Z : (1 + u) ^ 3 * eta <= 2 * eta). { apply Rmult_le_compat_r; [lra|]. assert ((1 + u) ^ 3 <= (1 + 1 / 16) ^ 3) by (apply pow_incr; lra). lra. }
  replace (r4 - (- p0 + 16 * p1 - 30 * p2 + 16 * p3 - p4)) with ((r4 - (r3 - p4)) + (r3 - (- p0 + 16 * p1 - 30 * p2 + 16 * p3))) by ring. apply Rle_trans with (1 := Rabs_triang _ _). lra.
Qed.
(* the divisor *)
Lemma divisor h : fin (dmul (dmul (lit 12) h) h) = true -> bpow radix2 (-500) <= B2 h -> Rabs (B2 (dmul (dmul (lit 12) h) h) - 12 * B2 h * B2 h) <= ((1 + u) ^ 2 - 1) * (12 * B2 h * B2 h).
Proof.
  intros F Hh. assert (P := bpow_gt_0 radix2 (-500)). destruct (dmul_fin' _ _ F) as (F1 & Fh & E). destruct (dmul_fin' _ _ F1) as (_ & _ & E1). rewrite (proj2 (lit_ok 12 ltac:(lia))) in E1.
  assert (R : forall z, bpow radix2 (-1022) <= z -> Rabs (rnd z - z) <= u * z).
  { intros z Hz. assert (Z := @relative_error_N_FLT radix2 (-1074) 53 prec64 (fun x => negb (Z.even x)) z). change (round radix2 (FLT_exp (-1074) 53) (Znearest (fun x => negb (Z.even x)))) with rnd in Z.
    assert (0 < z) by (generalize (bpow_gt_0 radix2 (-1022)); lra). rewrite (Rabs_pos_eq z) in Z by lra. exact (Z Hz). }
  assert (B : bpow radix2 (-1000) = bpow radix2 (-500) * bpow radix2 (-500)) by (rewrite <- bpow_plus; reflexivity).
  assert (L1 : bpow radix2 (-1022) <= bpow radix2 (-500)) by (apply bpow_le; lia). assert (L2 : bpow radix2 (-1022) <= bpow radix2 (-1000)) by (apply bpow_le; lia).
  assert (H2 : bpow radix2 (-1000) <= B2 h * B2 h) by (rewrite B; apply Rmult_le_compat; lra).
  assert (X1 := R (12 * B2 h) ltac:(lra)). rewrite <- E1 in X1. set (a := B2 (dmul (lit 12) h)) in *. assert (U := u_pos). assert (U1 : u <= 1 / 16) by (rewrite u_small; lra).
  apply Rabs_le_between in X1. assert (A1 : 11 * B2 h <= a) by nra.
  assert (X2 := R (a * B2 h) ltac:(nra)). rewrite <- E in X2. set (c := B2 (dmul (dmul (lit 12) h) h)) in *.
  set (H := B2 h) in *. replace (c - 12 * H * H) with ((c - a * H) + (a - 12 * H) * H) by ring. apply Rle_trans with (1 := Rabs_triang _ _).
  assert (Y : Rabs ((a - 12 * H) * H) <= u * (12 * H) * H). { rewrite Rabs_mult, (Rabs_pos_eq H) by lra. apply Rmult_le_compat_r; [lra|]. apply Rabs_le. lra. }
  assert (a * H <= (1 + u) * (12 * H) * H) by (apply Rmult_le_compat_r; lra).
  assert (u * (a * H) <= u * ((1 + u) * (12 * H) * H)) by (apply Rmult_le_compat_l; lra). lra.
Qed.

(* ---- C199 ---- *)
(* the relative error of the five points *)
Definition drift (x h : R) : R := ((1 + u) ^ 5 - 1) * (Rabs x + 2 * h).
Definition near2 (x h t : R) : Prop := Rabs (t - x) <= 2 * h + drift x h.
Theorem C199_second (f : point -> double) h i x G D L M V e :
  bpow radix2 (-500) <= B2 h -> fin (node (x i) h 4) = true -> fin (dmul (dmul (lit 12) h) h) = true -> fin (f_diff2 f h i i x) = true ->
  derivatives G D 6 ->
  (forall t, near2 (B2 (x i)) (B2 h) t -> Rabs (D 1%nat t) <= L) ->
  (forall t, near2 (B2 (x i)) (B2 h) t -> Rabs (D 6%nat t) <= M) ->
  (forall v, fin v = true -> near2 (B2 (x i)) (B2 h) (B2 v) -> Rabs (B2 (f (fset x i v)) - G (B2 v)) <= e /\ Rabs (B2 (f (fset x i v))) <= V) ->
  Rabs (B2 (f_diff2 f h i i x) - D 2%nat (B2 (x i))) <=
    (1 + 4 * u) * (M * B2 h ^ 4 / 54 + (64 * (e + L * drift (B2 (x i)) (B2 h) + ((1 + u) ^ 4 - 1) * V) + 2 * eta) / (12 * B2 h * B2 h))
    + 4 * u * Rabs (D 2%nat (B2 (x i))) + eta.
Proof.
  intros Hm Fn Fc Fd HD HL HM Hf. assert (P := bpow_gt_0 radix2 (-500)). assert (Hh : 0 < B2 h) by lra. assert (N := nodes_error _ _ Fn Hh). destruct (nodes_fin _ _ Fn) as (Fx & Fh & F2 & A).
  assert (Ec := divisor h Fc Hm). rewrite f_diff2_diag in *. cbv zeta in *. set (v k := f (fset x i (node (x i) h k))) in *.
  change (f (fset x i (node (x i) h 0))) with (v 0%nat) in *. change (f (fset x i (node (x i) h 1))) with (v 1%nat) in *. change (f (fset x i (node (x i) h 2))) with (v 2%nat) in *. change (f (fset x i (node (x i) h 3))) with (v 3%nat) in *. change (f (fset x i (node (x i) h 4))) with (v 4%nat) in *.
  set (d := ddiv _ _) in *. set (c := dmul (dmul (lit 12) h) h) in *. set (H := B2 h) in *. set (X := B2 (x i)) in *. assert (U := u_pos). assert (U1 : u <= 1 / 1024) by (rewrite u_small; lra). assert (ET := eta_pos).
  assert (HH : 0 < H * H) by (apply Rmult_lt_0_compat; lra).
  set (K := 12 * H * H) in *. assert (K0 : 0 < K) by (unfold K; lra).
  apply Rabs_le_between in Ec. assert (C0 : 0 < B2 c). { assert (2 * u + u * u <= 1 / 2) by nra. assert ((2 * u + u * u) * K <= 1 / 2 * K) by (apply Rmult_le_compat_r; lra). lra. }
  destruct (ddiv_error _ _ Fd Fc) as (Fs & Ed); [lra|]. fold d in Ed. assert (E5 := five _ _ _ _ _ Fs). set (s := B2 (dsub _ (v 4%nat))) in *.
  assert (W0 : 0 <= Rabs X + 2 * H) by (generalize (Rabs_pos X); lra).
  assert (Dr : 0 <= drift X H) by (unfold drift; apply Rmult_le_pos; [generalize (pow_ge1 5); lra|lra]).
  assert (NE : forall k, (k <= 4)%nat -> Rabs (B2 (node (x i) h k) - (X + (2 - INR k) * H)) <= drift X H).
  { intros k Hk. apply Rle_trans with (1 := N k Hk). unfold drift. apply Rmult_le_compat_r; [lra|]. apply Rplus_le_compat_r. apply Rle_pow; [lra|lia]. }
  assert (IK : forall k, (k <= 4)%nat -> -2 <= 2 - INR k <= 2). { intros k Hk. assert (0 <= INR k) by apply pos_INR. assert (INR k <= INR 4) by (apply le_INR; lia). replace (INR 4) with 4 in H1 by (cbn; ring). lra. }
  assert (N0 : forall t, X - 2 * H <= t <= X + 2 * H -> near2 X H t). { intros t Ht. unfold near2. apply Rle_trans with (2 * H); [apply Rabs_le; lra|lra]. }
  assert (NN : forall k, (k <= 4)%nat -> near2 X H (B2 (node (x i) h k))).
  { intros k Hk. unfold near2. specialize (NE k Hk). specialize (IK k Hk). apply Rabs_le_between in NE. assert (-2 * H <= (2 - INR k) * H <= 2 * H) by nra. apply Rabs_le. lra. }
  assert (Lip : forall t1 t2, near2 X H t1 -> near2 X H t2 -> Rabs (G t2 - G t1) <= L * Rabs (t2 - t1)).
  { assert (Z : forall t1 t2, near2 X H t1 -> near2 X H t2 -> t1 < t2 -> Rabs (G t2 - G t1) <= L * Rabs (t2 - t1)).
    { intros t1 t2 H1 H2 Lt. destruct HD as [D0 DS].
      destruct (MVT_cor2 (D 0%nat) (D 1%nat) t1 t2 Lt) as (cc & Ecc & Hc). { intros cc _. apply DS. lia. }
      rewrite <- !D0, Ecc, Rabs_mult. apply Rmult_le_compat_r; [apply Rabs_pos|]. apply HL. unfold near2 in *. apply Rabs_le_between in H1. apply Rabs_le_between in H2. apply Rabs_le. lra. }
    intros t1 t2 H1 H2. destruct (Rtotal_order t1 t2) as [Lt|[->|Lt]]; auto.
    - unfold Rminus. rewrite !Rplus_opp_r, Rabs_R0. lra.
    - rewrite Rabs_minus_sym, (Rabs_minus_sym t2). auto. }
  assert (L0 : 0 <= L). { apply Rle_trans with (2 := HL X (N0 X ltac:(lra))). apply Rabs_pos. }
  assert (VE : forall k, (k <= 4)%nat -> Rabs (B2 (v k) - G (X + (2 - INR k) * H)) <= e + L * drift X H).
  { intros k Hk. destruct (Hf (node (x i) h k) (A k Hk) (NN k Hk)) as [Hf1 _]. fold (v k) in Hf1. specialize (IK k Hk). assert (IB : -2 * H <= (2 - INR k) * H <= 2 * H) by nra.
    replace (B2 (v k) - G (X + (2 - INR k) * H)) with ((B2 (v k) - G (B2 (node (x i) h k))) + (G (B2 (node (x i) h k)) - G (X + (2 - INR k) * H))) by ring.
    apply Rle_trans with (1 := Rabs_triang _ _). apply Rplus_le_compat; [exact Hf1|]. apply Rle_trans with (1 := Lip (X + (2 - INR k) * H) _ (N0 (X + (2 - INR k) * H) ltac:(lra)) (NN k Hk)). apply Rmult_le_compat_l; auto. }
  assert (VV : forall k, (k <= 4)%nat -> Rabs (B2 (v k)) <= V) by (intros k Hk; exact (proj2 (Hf _ (A k Hk) (NN k Hk)))).
  set (E := e + L * drift X H) in *.
  assert (C := central2 G D X H M Hh HD (fun t Ht => HM t (N0 t Ht))). fold K in C. set (g := - G (X + 2 * H) + 16 * G (X + H) - 30 * G X + 16 * G (X - H) - G (X - 2 * H)) in *.
  assert (SG : Rabs (s - g) <= 64 * (E + ((1 + u) ^ 4 - 1) * V) + 2 * eta).
  { generalize (VE 0%nat ltac:(lia)) (VE 1%nat ltac:(lia)) (VE 2%nat ltac:(lia)) (VE 3%nat ltac:(lia)) (VE 4%nat ltac:(lia)). cbn [INR].
    replace (X + (2 - 0) * H) with (X + 2 * H) by ring. replace (X + (2 - 1) * H) with (X + H) by ring. replace (X + (2 - (1 + 1)) * H) with X by ring. replace (X + (2 - (1 + 1 + 1)) * H) with (X - H) by ring. replace (X + (2 - (1 + 1 + 1 + 1)) * H) with (X - 2 * H) by ring.
    intros Y0 Y1 Y2 Y3 Y4. generalize (VV 0%nat ltac:(lia)) (VV 1%nat ltac:(lia)) (VV 2%nat ltac:(lia)) (VV 3%nat ltac:(lia)) (VV 4%nat ltac:(lia)). intros Z0 Z1 Z2 Z3 Z4.
    assert (q0 : 0 <= (1 + u) ^ 4 - 1) by (generalize (pow_ge1 4); lra).
    assert (Q : ((1 + u) ^ 4 - 1) * (Rabs (B2 (v 0%nat)) + 16 * Rabs (B2 (v 1%nat)) + 30 * Rabs (B2 (v 2%nat)) + 16 * Rabs (B2 (v 3%nat)) + Rabs (B2 (v 4%nat))) <= ((1 + u) ^ 4 - 1) * (64 * V)) by (apply Rmult_le_compat_l; lra).
    apply Rabs_le_between in Y0. apply Rabs_le_between in Y1. apply Rabs_le_between in Y2. apply Rabs_le_between in Y3. apply Rabs_le_between in Y4. apply Rabs_le_between in E5. apply Rabs_le. unfold g. lra. }
  set (T := M * H ^ 4 / 54 + (64 * (E + ((1 + u) ^ 4 - 1) * V) + 2 * eta) / K).
  assert (ST : Rabs (s / K - D 2%nat X) <= T).
  { replace (s / K - D 2%nat X) with ((g / K - D 2%nat X) + (s - g) / K) by (field; lra). apply Rle_trans with (1 := Rabs_triang _ _). unfold T. apply Rplus_le_compat; [exact C|]. unfold Rdiv. rewrite Rabs_mult, (Rabs_pos_eq (/ K)) by (apply Rlt_le, Rinv_0_lt_compat, K0). apply Rmult_le_compat_r; [apply Rlt_le, Rinv_0_lt_compat, K0|exact SG]. }
  (* replace the divisor *)
  assert (SC : Rabs (s / B2 c - s / K) <= (5 / 2 * u) * Rabs (s / K)).
  { replace (s / B2 c - s / K) with (s / K * ((K - B2 c) / B2 c)) by (field; lra). rewrite Rabs_mult, Rmult_comm. apply Rmult_le_compat_r; [apply Rabs_pos|].
    unfold Rdiv at 1. rewrite Rabs_mult, (Rabs_pos_eq (/ B2 c)) by (apply Rlt_le, Rinv_0_lt_compat, C0). apply Rmult_le_reg_r with (B2 c); auto. rewrite Rmult_assoc, Rinv_l, Rmult_1_r by lra.
    assert (B1 : Rabs (K - B2 c) <= ((1 + u) ^ 2 - 1) * K) by (apply Rabs_le; lra). apply Rle_trans with (1 := B1).
    assert (B3 : (1 - (2 * u + u * u)) * K <= B2 c) by lra. apply Rle_trans with (5 / 2 * u * ((1 - (2 * u + u * u)) * K)); [|apply Rmult_le_compat_l; lra].
    rewrite <- Rmult_assoc. apply Rmult_le_compat_r; [lra|]. nra. }
  set (w := s / K) in *.
  assert (WD : Rabs w <= Rabs (D 2%nat X) + T). { replace w with (D 2%nat X + (w - D 2%nat X)) by ring. apply Rle_trans with (1 := Rabs_triang _ _). lra. }
  assert (SW : Rabs (s / B2 c) <= (1 + 5 / 2 * u) * Rabs w). { replace (s / B2 c) with ((s / B2 c - w) + w) by ring. apply Rle_trans with (1 := Rabs_triang _ _). lra. }
  assert (u * Rabs (s / B2 c) <= u * ((1 + 5 / 2 * u) * Rabs w)) by (apply Rmult_le_compat_l; lra).
  assert (u * (5 / 2 * u) <= 1 / 2 * u) by nra. assert (W1 := Rabs_pos w). assert (u * (5 / 2 * u) * Rabs w <= 1 / 2 * u * Rabs w) by (apply Rmult_le_compat_r; lra).
  assert (Y : Rabs (B2 d - w) <= 4 * u * Rabs w + eta).
  { replace (B2 d - w) with ((B2 d - s / B2 c) + (s / B2 c - w)) by ring. apply Rle_trans with (1 := Rabs_triang _ _). lra. }
  assert (4 * u * Rabs w <= 4 * u * (Rabs (D 2%nat X) + T)) by (apply Rmult_le_compat_l; lra).
  replace (B2 d - D 2%nat X) with ((B2 d - w) + (w - D 2%nat X)) by ring. apply Rle_trans with (1 := Rabs_triang _ _). fold T. lra.
Qed.
(* non-vacuity: the square at 1 with step 2^-10; the second derivative is 2 up to 2^-20 *)
Example C199_example : Rabs (B2 (f_diff2 square mesh 0 0 at1) - 2) <= bpow radix2 (-20).
Proof.
  assert (Em : B2 mesh = / 1024). { destruct (B2_dbl 1 (-10)) as [_ E]; [lia|lia|]. unfold mesh. rewrite E. cbn. lra. }
  assert (E1 : B2 (at1 0%nat) = 1) by exact (proj2 (lit_ok 1 ltac:(lia))).
  assert (U := u_small). assert (EU := eta_u). assert (EP := eta_pos).
  assert (Dr : 0 <= drift 1 (/ 1024) <= 12 * u). { unfold drift. rewrite Rabs_R1, U. lra. }
  assert (Nr : forall t, near2 1 (/ 1024) t -> Rabs (t - 1) <= / 256). { intros t H. unfold near2 in H. rewrite U in Dr. lra. }
  assert (G := C199_second square mesh 0 at1 (fun t => t * t) (fun k t => match k with O => t * t | 1%nat => 2 * t | 2%nat => 2 | _ => 0 end) 3 0 5 (4 * u + eta)).
  cbv beta iota in G. rewrite Em, E1 in G.
  assert (H : Rabs (B2 (f_diff2 square mesh 0 0 at1) - 2) <= (1 + 4 * u) * (0 * (/ 1024) ^ 4 / 54 + (64 * (4 * u + eta + 3 * drift 1 (/ 1024) + ((1 + u) ^ 4 - 1) * 5) + 2 * eta) / (12 * / 1024 * / 1024)) + 4 * u * Rabs 2 + eta).
  { apply G.
    - replace (/ 1024) with (bpow radix2 (-10)) by (cbn; lra). apply bpow_le. lia.
    - vm_compute. reflexivity.
    - vm_compute. reflexivity.
    - vm_compute. reflexivity.
    - apply square_derivatives.
    - intros t Ht. apply Nr in Ht. apply Rabs_le_between in Ht. apply Rabs_le. lra.
    - intros. rewrite Rabs_R0. lra.
    - intros v Fv Hv. apply Nr in Hv. assert (Hv2 : Rabs (B2 v) <= 2) by (apply Rabs_le_between in Hv; apply Rabs_le; lra).
      destruct (square_error v at1 0 Fv Hv2) as [A B]. split; [exact A|]. rewrite Rmult_0_l, Rplus_0_r in B. exact B. }
  apply Rle_trans with (1 := H). clear H G Nr. rewrite (Rabs_pos_eq 2) by lra. revert Dr. generalize (drift 1 (/ 1024)). intros dr Dr. replace (bpow radix2 (-20)) with (/ 1048576) by (cbn; lra). rewrite U in *. revert EU EP. generalize eta. intros et EU EP.
  apply Rle_trans with ((1 + 4 * / 9007199254740992) * (0 * (/ 1024) ^ 4 / 54 + (64 * (4 * / 9007199254740992 + / 9007199254740992 + 3 * (12 * / 9007199254740992) + ((1 + / 9007199254740992) ^ 4 - 1) * 5) + 2 * / 9007199254740992) / (12 * / 1024 * / 1024)) + 4 * / 9007199254740992 * 2 + / 9007199254740992).
  - apply Rplus_le_compat; [|exact EU]. apply Rplus_le_compat_r. apply Rmult_le_compat_l; [lra|]. apply Rplus_le_compat_l. unfold Rdiv. apply Rmult_le_compat_r; [lra|]. lra.
  - lra.
Qed.
Print Assumptions C199_second.
