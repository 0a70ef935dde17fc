(* C200: the barycentric coordinates of a point in a triangle, and `contains`, in double arithmetic. *)
From Coq Require Import Reals Lra Lia List Bool ZArith.
From Flocq Require Import Core IEEE754.BinarySingleNaN Relative.
From Verif Require Import Base RSum SimplexModel SymbolsModel SymbolsProps FloatModel FloatProps FloatSearch FloatSplineModel FloatSpline FloatDiffModel FloatDiff FloatCellModel.
Import ListNotations.
Open Scope R_scope.

#[local] Instance vfexp5 : Valid_exp (SpecFloat.fexp 53 1024) := @fexp_correct 53 1024 prec64.

(* ---- specification: exact barycentric coordinates, area, shape ---- *)
Definition barycentric (c : f_cell) (p : point) (Z : nat -> R) : Prop :=
  Z 0%nat + Z 1%nat + Z 2%nat = 1 /\
  forall k, (k < 2)%nat -> Z 0%nat * B2 (c 0%nat k) + Z 1%nat * B2 (c 1%nat k) + Z 2%nat * B2 (c 2%nat k) = B2 (p k).
(* k-th coordinate of the edge from the first node to the j-th *)
Definition edge (c : f_cell) (j k : nat) : R := B2 (c j k) - B2 (c 0%nat k).
(* twice the signed area *)
Definition area2 (c : f_cell) : R := edge c 1 0 * edge c 2 1 - edge c 1 1 * edge c 2 0.
Definition shape (kappa : R) (c : f_cell) : Prop :=
  Rabs (edge c 1 0 * edge c 2 1) + Rabs (edge c 1 1 * edge c 2 0) <= kappa * Rabs (area2 c) /\
  2 * Rabs (edge c 1 0 * edge c 1 1) <= kappa * Rabs (area2 c) /\ 2 * Rabs (edge c 2 0 * edge c 2 1) <= kappa * Rabs (area2 c).
(* coordinates whose size prevents overflow and underflow *)
Definition sized (c : f_cell) (p : point) : Prop :=
  (forall i k, (i < 3)%nat -> (k < 2)%nat -> fin (c i k) = true) /\ (forall k, (k < 2)%nat -> fin (p k) = true) /\
  (forall i k, (i < 3)%nat -> (k < 2)%nat -> Rabs (edge c i k) <= bpow radix2 200) /\
  (forall k, (k < 2)%nat -> Rabs (B2 (p k) - B2 (c 0%nat k)) <= bpow radix2 200) /\
  bpow radix2 (-400) <= Rabs (area2 c).

(* a triangle whose two edges at the first node have squared length at most kappa times twice its area *)
Lemma shape_of_lengths kappa c : 0 <= kappa -> (forall j, (j = 1 \/ j = 2)%nat -> edge c j 0 * edge c j 0 + edge c j 1 * edge c j 1 <= kappa * Rabs (area2 c)) -> shape kappa c.
Proof.
  intros Hk H. assert (H1 := H 1%nat (or_introl eq_refl)). assert (H2 := H 2%nat (or_intror eq_refl)). clear H. unfold shape. generalize dependent (kappa * Rabs (area2 c)). intros K H1 H2.
  revert H1 H2. generalize (edge c 1 0) (edge c 1 1) (edge c 2 0) (edge c 2 1). intros A C B D H1 H2. rewrite !Rabs_mult.
  assert (Q : forall x y, 2 * (Rabs x * Rabs y) <= x * x + y * y).
  { intros x y. assert (S := Rle_0_sqr (Rabs x - Rabs y)). unfold Rsqr in S. assert (Rabs x * Rabs x = x * x) by (rewrite <- Rabs_mult, Rabs_pos_eq by apply Rle_0_sqr; ring). assert (Rabs y * Rabs y = y * y) by (rewrite <- Rabs_mult, Rabs_pos_eq by apply Rle_0_sqr; ring). lra. }
  assert (Q1 := Q A D). assert (Q2 := Q C B). assert (Q3 := Q A C). assert (Q4 := Q B D). repeat split; lra.
Qed.

(* ---- errors ---- *)
Lemma mul2 a A m b B n : Rabs (a - A) <= ((1 + u) ^ m - 1) * Rabs A -> Rabs (b - B) <= ((1 + u) ^ n - 1) * Rabs B -> Rabs (a * b - A * B) <= ((1 + u) ^ (m + n) - 1) * Rabs (A * B).
Proof.
  intros Ha Hb. rewrite Rabs_mult. assert (Pa := Rabs_pos A). assert (Pb := Rabs_pos B). assert (Qa : 1 <= (1 + u) ^ m) by (apply pow_ge1; assert (H := u_pos); lra). assert (Qb : 1 <= (1 + u) ^ n) by (apply pow_ge1; assert (H := u_pos); lra).
  rewrite pow_add. set (x := (1 + u) ^ m) in *. set (y := (1 + u) ^ n) in *.
  assert (T1 : Rabs a <= x * Rabs A). { replace a with ((a - A) + A) by ring. apply Rle_trans with (1 := Rabs_triang _ _). lra. }
  replace (a * b - A * B) with (a * (b - B) + (a - A) * B) by ring. apply Rle_trans with (1 := Rabs_triang _ _). rewrite !Rabs_mult.
  assert (H1 : Rabs a * Rabs (b - B) <= (x * Rabs A) * ((y - 1) * Rabs B)) by (apply Rmult_le_compat; auto using Rabs_pos).
  assert (H2 : Rabs (a - A) * Rabs B <= ((x - 1) * Rabs A) * Rabs B) by (apply Rmult_le_compat_r; auto).
  apply Rle_trans with (1 := Rplus_le_compat _ _ _ _ H1 H2). right. ring.
Qed.
Lemma rounded x X S m s y t : Rabs (x - X) <= ((1 + u) ^ m - 1) * S + s -> Rabs X <= S -> Rabs (y - x) <= u * Rabs x + t -> Rabs (y - X) <= ((1 + u) ^ (m + 1) - 1) * S + ((1 + u) * s + t).
Proof.
  intros Hx HX Hy. assert (Pu := u_pos). assert (T1 : Rabs x <= (1 + u) ^ m * S + s). { replace x with ((x - X) + X) by ring. apply Rle_trans with (1 := Rabs_triang _ _). lra. }
  replace (y - X) with ((y - x) + (x - X)) by ring. apply Rle_trans with (1 := Rabs_triang _ _).
  assert (H : u * Rabs x <= u * ((1 + u) ^ m * S + s)) by (apply Rmult_le_compat_l; lra).
  rewrite pow_add, pow_1. replace (((1 + u) ^ m * (1 + u) - 1) * S + ((1 + u) * s + t)) with ((u * ((1 + u) ^ m * S + s) + t) + (((1 + u) ^ m - 1) * S + s)) by ring. lra.
Qed.
Lemma one_ulp x X : Rabs (x - X) <= u * Rabs X -> Rabs (x - X) <= ((1 + u) ^ 1 - 1) * Rabs X.
Proof. intros H. rewrite pow_1. lra. Qed.

(* one product of the matrix-vector product: entry D of the adjugate, reciprocal g of the determinant, coordinate X *)
Lemma term_error D d g g0 X x i m W : Rabs (d - D) <= u * Rabs D -> Rabs (g - g0) <= u * Rabs g0 -> Rabs (x - X) <= u * Rabs X -> Rabs x <= W ->
  Rabs (i - d * g) <= u * Rabs (d * g) + eta -> Rabs (m - i * x) <= u * Rabs (i * x) + eta ->
  Rabs (m - D * g0 * X) <= ((1 + u) ^ 5 - 1) * Rabs (D * g0 * X) + ((1 + u) * (eta * W) + eta).
Proof.
  intros Hd Hg Hx HW Hi Hm. assert (Pe := eta_pos). assert (M := mul2 _ _ _ _ _ _ (one_ulp _ _ Hd) (one_ulp _ _ Hg)). cbn [plus] in M.
  assert (I : Rabs (i - D * g0) <= ((1 + u) ^ 3 - 1) * Rabs (D * g0) + eta).
  { replace eta with ((1 + u) * 0 + eta) by ring. apply (rounded (d * g) (D * g0) (Rabs (D * g0)) 2 0 i eta); [lra|lra|exact Hi]. }
  assert (V : exists j, Rabs (j - D * g0) <= ((1 + u) ^ 3 - 1) * Rabs (D * g0) /\ Rabs (i - j) <= eta).
  { set (L := ((1 + u) ^ 3 - 1) * Rabs (D * g0)) in *. assert (PL : 0 <= L). { apply Rmult_le_pos; [|apply Rabs_pos]. assert (1 <= (1 + u) ^ 3) by (apply pow_ge1; assert (H := u_pos); lra). lra. }
    set (t := i - D * g0) in *. destruct (Rle_dec (Rabs t) L) as [H|H].
    - exists i. split; auto. rewrite Rminus_eq_0, Rabs_R0. lra.
    - destruct (Rle_dec 0 t) as [S|S].
      + rewrite Rabs_pos_eq in * by auto. exists (D * g0 + L). split; [replace (D * g0 + L - D * g0) with L by ring; rewrite Rabs_pos_eq; lra|]. replace (i - (D * g0 + L)) with (t - L) by (unfold t; ring). rewrite Rabs_pos_eq; lra.
      + rewrite (Rabs_left t) in * by lra. exists (D * g0 - L). split; [replace (D * g0 - L - D * g0) with (- L) by ring; rewrite Rabs_Ropp, Rabs_pos_eq; lra|]. replace (i - (D * g0 - L)) with (- (- t - L)) by (unfold t; ring). rewrite Rabs_Ropp, Rabs_pos_eq; lra. }
  destruct V as (j & Hj & Hij). assert (M2 := mul2 _ _ _ _ _ _ Hj (one_ulp _ _ Hx)). change (3 + 1)%nat with 4%nat in M2.
  apply (rounded (i * x) (D * g0 * X) (Rabs (D * g0 * X)) 4 (eta * W) m eta); [|lra|exact Hm].
  replace (i * x - D * g0 * X) with ((j * x - D * g0 * X) + (i - j) * x) by ring. apply Rle_trans with (1 := Rabs_triang _ _). apply Rplus_le_compat; auto. rewrite Rabs_mult. apply Rmult_le_compat; auto using Rabs_pos.
Qed.

(* ---- the operations ---- *)
Lemma recip_abs g : fin g = true -> bpow radix2 (-501) <= Rabs (B2 g) <= bpow radix2 501 ->
  fin (ddiv FloatSplineModel.d1 g) = true /\ Rabs (B2 (ddiv FloatSplineModel.d1 g)) <= / Rabs (B2 g) * (1 + u) /\ Rabs (B2 (ddiv FloatSplineModel.d1 g) - / B2 g) <= u * Rabs (/ B2 g).
Proof.
  intros Fg Hg. assert (P := bpow_gt_0 radix2 (-501)). assert (Ng : B2 g <> 0) by (intros E; rewrite E, Rabs_R0 in Hg; lra). destruct d1_ok as [F1 E1].
  assert (I : bpow radix2 (-501) <= Rabs (/ B2 g) <= bpow radix2 501).
  { rewrite Rabs_inv. split; [replace (bpow radix2 (-501)) with (/ bpow radix2 501)|replace (bpow radix2 501) with (/ bpow radix2 (-501))]; try (rewrite <- bpow_opp; reflexivity); apply Rinv_le_contravar; try lra. }
  assert (C := @Bdiv_correct 53 1024 prec64 emax64 mode_NE FloatSplineModel.d1 g Ng). fold (ddiv FloatSplineModel.d1 g) in C. rewrite E1 in C. replace (1 / B2 g) with (/ B2 g) in C by (unfold Rdiv; ring).
  assert (R1 : Rabs (rnd (/ B2 g)) <= bpow radix2 501) by (apply rnd_bound; [lia|apply I]).
  rewrite Rlt_bool_true in C. 2:{ apply Rle_lt_trans with (1 := R1). apply bpow_lt. lia. }
  destruct C as (C1 & C2 & _). split; [rewrite C2; exact F1|]. rewrite C1.
  assert (Z := @relative_error_N_FLT radix2 (-1074) 53 prec64 (fun x => negb (Z.even x)) (/ B2 g)). change (round radix2 (FLT_exp (-1074) 53) (Znearest (fun x => negb (Z.even x)))) with rnd in Z.
  assert (K : Rabs (rnd (/ B2 g) - / B2 g) <= u * Rabs (/ B2 g)). { apply Z. apply Rle_trans with (2 := proj1 I). apply bpow_le. lia. }
  split; auto. rewrite <- Rabs_inv. replace (rnd (/ B2 g)) with ((rnd (/ B2 g) - / B2 g) + / B2 g) by ring. apply Rle_trans with (1 := Rabs_triang _ _). lra.
Qed.
Definition tau : R := bpow radix2 (-870).
Lemma tau_bound : (1 + u) * (((1 + u) * (eta * bpow radix2 200) + eta) + ((1 + u) * (eta * bpow radix2 200) + eta)) <= tau.
Proof.
  assert (E1 : eta * bpow radix2 200 = bpow radix2 (-875)). { unfold eta. rewrite Rmult_assoc, <- bpow_plus. change (/ 2) with (bpow radix2 (-1)). rewrite <- bpow_plus. reflexivity. }
  assert (E2 : eta <= bpow radix2 (-875)). { unfold eta. change (/ 2) with (bpow radix2 (-1)). rewrite <- bpow_plus. apply bpow_le. lia. }
  assert (E3 : tau = 32 * bpow radix2 (-875)). { unfold tau. replace (-870)%Z with (5 + -875)%Z by reflexivity. rewrite bpow_plus. f_equal. }
  rewrite E1, E3. assert (P := bpow_gt_0 radix2 (-875)). assert (Pu := u_pos). assert (Su : u <= 1) by (rewrite u_small; lra). assert (Pe := eta_pos). generalize dependent (bpow radix2 (-875)). intros x _ E2 _ Px.
  assert (A : (1 + u) * x <= 2 * x) by (apply Rmult_le_compat_r; lra). set (y := (1 + u) * x) in *.
  assert (B : (1 + u) * (y + eta + (y + eta)) <= 2 * (y + eta + (y + eta))) by (apply Rmult_le_compat_r; [unfold y; assert (0 <= (1 + u) * x) by (apply Rmult_le_pos; lra); lra|lra]). lra.
Qed.
Lemma row_ok (d b x y g : SymbolsModel.double) D B X Y g0 : fin d = true -> fin b = true -> fin x = true -> fin y = true -> fin g = true ->
  Rabs (B2 d - D) <= u * Rabs D -> Rabs (B2 b - B) <= u * Rabs B -> Rabs (B2 x - X) <= u * Rabs X -> Rabs (B2 y - Y) <= u * Rabs Y -> Rabs (B2 g - g0) <= u * Rabs g0 ->
  Rabs (B2 d) <= bpow radix2 200 -> Rabs (B2 b) <= bpow radix2 200 -> Rabs (B2 x) <= bpow radix2 200 -> Rabs (B2 y) <= bpow radix2 200 -> Rabs (B2 g) <= bpow radix2 402 ->
  let z := dadd (dmul (dmul d g) x) (dmul (dmul b g) y) in
  fin z = true /\ Rabs (B2 z) <= bpow radix2 803 /\ Rabs (B2 z - (D * g0 * X + B * g0 * Y)) <= ((1 + u) ^ 6 - 1) * (Rabs (D * g0 * X) + Rabs (B * g0 * Y)) + tau.
Proof.
  intros Fd Fb Fx Fy Fg Hd Hb Hx Hy Hg Bd Bb Bx By Bg.
  assert (Pr : forall a c e f k, (e + f = k)%Z -> (-1074 <= k < 1024)%Z -> fin a = true -> fin c = true -> Rabs (B2 a) <= bpow radix2 e -> Rabs (B2 c) <= bpow radix2 f ->
     fin (dmul a c) = true /\ Rabs (B2 (dmul a c)) <= bpow radix2 k).
  { intros a c e f k Ek Hk Fa Fc Ba Bc. assert (Bp : Rabs (B2 a * B2 c) <= bpow radix2 k) by (rewrite <- Ek, bpow_plus, Rabs_mult; apply Rmult_le_compat; auto using Rabs_pos). destruct (dmul_ok a c k Hk Fa Fc Bp) as [F E]. split; auto. rewrite E. apply rnd_bound; auto. lia. }
  destruct (Pr d g 200 402 602)%Z as [F1 B1]; auto; try lia. destruct (Pr b g 200 402 602)%Z as [F2 B2']; auto; try lia.
  destruct (Pr (dmul d g) x 602 200 802)%Z as [F3 B3]; auto; try lia. destruct (Pr (dmul b g) y 602 200 802)%Z as [F4 B4]; auto; try lia.
  assert (Bs : Rabs (B2 (dmul (dmul d g) x) + B2 (dmul (dmul b g) y)) <= bpow radix2 803).
  { apply Rle_trans with (1 := Rabs_triang _ _). replace 803%Z with (1 + 802)%Z by reflexivity. rewrite bpow_plus. change (bpow radix2 1) with 2. lra. }
  cbv zeta. destruct (dadd_ok _ _ 803 ltac:(lia) F3 F4 Bs) as [F E]. split; auto. split; [rewrite E; apply rnd_bound; [lia|auto]|].
  assert (T1 := term_error D (B2 d) (B2 g) g0 X (B2 x) _ _ _ Hd Hg Hx Bx (dmul_error _ _ F1) (dmul_error _ _ F3)).
  assert (T2 := term_error B (B2 b) (B2 g) g0 Y (B2 y) _ _ _ Hb Hg Hy By (dmul_error _ _ F2) (dmul_error _ _ F4)).
  apply Rle_trans with (2 := Rplus_le_compat_l _ _ _ tau_bound).
  set (t := (1 + u) * (eta * bpow radix2 200) + eta) in *. replace ((1 + u) * (t + t)) with ((1 + u) * (t + t) + 0) by ring.
  apply (rounded (B2 (dmul (dmul d g) x) + B2 (dmul (dmul b g) y)) (D * g0 * X + B * g0 * Y) (Rabs (D * g0 * X) + Rabs (B * g0 * Y)) 5 (t + t)).
  - replace (B2 (dmul (dmul d g) x) + B2 (dmul (dmul b g) y) - (D * g0 * X + B * g0 * Y)) with ((B2 (dmul (dmul d g) x) - D * g0 * X) + (B2 (dmul (dmul b g) y) - B * g0 * Y)) by ring. apply Rle_trans with (1 := Rabs_triang _ _). lra.
  - apply Rabs_triang.
  - rewrite Rplus_0_r. now apply dadd_error.
Qed.

Lemma jac_ok c p r k : sized c p -> (r < 2)%nat -> (k < 2)%nat ->
  fin (f_jac c r k) = true /\ Rabs (B2 (f_jac c r k) - edge c (S k) r) <= u * Rabs (edge c (S k) r) /\ Rabs (B2 (f_jac c r k)) <= bpow radix2 200.
Proof.
  intros (Fc & _ & Be & _) Hr Hk. unfold f_jac. assert (B := Be (S k) r ltac:(lia) Hr). unfold edge in *.
  destruct (dsub_ok (c (S k) r) (c 0%nat r) 200 ltac:(lia) (Fc (S k) r ltac:(lia) Hr) (Fc 0%nat r ltac:(lia) Hr) B) as (F & E & D). split; auto. split; auto. rewrite E. apply rnd_bound; auto. lia.
Qed.
Lemma shift_ok c p r : sized c p -> (r < 2)%nat ->
  fin (dsub (p r) (c 0%nat r)) = true /\ Rabs (B2 (dsub (p r) (c 0%nat r)) - (B2 (p r) - B2 (c 0%nat r))) <= u * Rabs (B2 (p r) - B2 (c 0%nat r)) /\ Rabs (B2 (dsub (p r) (c 0%nat r))) <= bpow radix2 200.
Proof.
  intros (Fc & Fp & _ & Bp & _) Hr. destruct (dsub_ok (p r) (c 0%nat r) 200 ltac:(lia) (Fp r Hr) (Fc 0%nat r ltac:(lia) Hr) (Bp r Hr)) as (F & E & D). split; auto. split; auto. rewrite E. apply rnd_bound; auto. lia.
Qed.
Lemma shape_ge1 kappa c p : sized c p -> shape kappa c -> 1 <= kappa.
Proof.
  intros (_ & _ & _ & _ & Ha) (H & _). assert (P := bpow_gt_0 radix2 (-400)). assert (T : Rabs (area2 c) <= Rabs (edge c 1 0 * edge c 2 1) + Rabs (edge c 1 1 * edge c 2 0)).
  { unfold area2, Rminus. apply Rle_trans with (1 := Rabs_triang _ _). rewrite Rabs_Ropp. lra. }
  destruct (Rle_dec 1 kappa) as [?|N]; auto. exfalso. assert (kappa * Rabs (area2 c) < 1 * Rabs (area2 c)) by (apply Rmult_lt_compat_r; lra). lra.
Qed.

Lemma det_ok c p kappa : sized c p -> shape kappa c -> kappa <= 2 ^ 20 ->
  fin (f_det (f_jac c)) = true /\ Rabs (B2 (f_det (f_jac c)) - area2 c) <= (41 / 10 * kappa * u) * Rabs (area2 c) /\ Rabs (B2 (f_det (f_jac c))) <= bpow radix2 401.
Proof.
  intros Hs Hsh Hk. assert (K1 := shape_ge1 _ _ _ Hs Hsh). destruct (jac_ok c p 0 0 Hs ltac:(lia) ltac:(lia)) as (Fa & Ea & Ba). destruct (jac_ok c p 0 1 Hs ltac:(lia) ltac:(lia)) as (Fb & Eb & Bb).
  destruct (jac_ok c p 1 0 Hs ltac:(lia) ltac:(lia)) as (Fc & Ec & Bc). destruct (jac_ok c p 1 1 Hs ltac:(lia) ltac:(lia)) as (Fd & Ed & Bd). destruct Hs as (_ & _ & _ & _ & Ha). destruct Hsh as (S1 & _).
  assert (Pr : forall a b A B, fin a = true -> fin b = true -> Rabs (B2 a - A) <= u * Rabs A -> Rabs (B2 b - B) <= u * Rabs B -> Rabs (B2 a) <= bpow radix2 200 -> Rabs (B2 b) <= bpow radix2 200 ->
    fin (dmul a b) = true /\ Rabs (B2 (dmul a b)) <= bpow radix2 400 /\ Rabs (B2 (dmul a b) - A * B) <= ((1 + u) ^ 3 - 1) * Rabs (A * B) + eta).
  { intros a b A B Fa' Fb' Da Db Ba' Bb'. assert (Bp : Rabs (B2 a * B2 b) <= bpow radix2 400) by (replace 400%Z with (200 + 200)%Z by reflexivity; rewrite bpow_plus, Rabs_mult; apply Rmult_le_compat; auto using Rabs_pos).
    destruct (dmul_ok a b 400 ltac:(lia) Fa' Fb' Bp) as [F E]. split; auto. split; [rewrite E; apply rnd_bound; auto; lia|]. replace eta with ((1 + u) * 0 + eta) by ring.
    apply (rounded (B2 a * B2 b) (A * B) (Rabs (A * B)) 2 0); [|lra|now apply dmul_error]. assert (M := mul2 _ _ _ _ _ _ (one_ulp _ _ Da) (one_ulp _ _ Db)). cbn [plus] in M. lra. }
  destruct (Pr _ _ _ _ Fa Fd Ea Ed Ba Bd) as (F1 & B1 & D1). destruct (Pr _ _ _ _ Fc Fb Ec Eb Bc Bb) as (F2 & B2' & D2). clear Pr.
  set (p1 := dmul (f_jac c 0 0) (f_jac c 1 1)) in *. set (p2 := dmul (f_jac c 1 0) (f_jac c 0 1)) in *.
  assert (Bs : Rabs (B2 p1 - B2 p2) <= bpow radix2 401). { replace 401%Z with (1 + 400)%Z by reflexivity. rewrite bpow_plus. change (bpow radix2 1) with 2. unfold Rminus. apply Rle_trans with (1 := Rabs_triang _ _). rewrite Rabs_Ropp. lra. }
  change (f_det (f_jac c)) with (dsub p1 p2). destruct (dsub_ok p1 p2 401 ltac:(lia) F1 F2 Bs) as (F & E & D). split; auto. split; [|rewrite E; apply rnd_bound; auto; lia].
  assert (R : Rabs (B2 (dsub p1 p2) - area2 c) <= ((1 + u) ^ 4 - 1) * (Rabs (edge c 1 0 * edge c 2 1) + Rabs (edge c 1 1 * edge c 2 0)) + ((1 + u) * (eta + eta) + 0)).
  { apply (rounded (B2 p1 - B2 p2) (area2 c) (Rabs (edge c 1 0 * edge c 2 1) + Rabs (edge c 1 1 * edge c 2 0)) 3 (eta + eta)).
    - unfold area2. replace (B2 p1 - B2 p2 - (edge c 1 0 * edge c 2 1 - edge c 1 1 * edge c 2 0)) with ((B2 p1 - edge c 1 0 * edge c 2 1) + - (B2 p2 - edge c 1 1 * edge c 2 0)) by ring. apply Rle_trans with (1 := Rabs_triang _ _). rewrite Rabs_Ropp. lra.
    - unfold area2, Rminus. apply Rle_trans with (1 := Rabs_triang _ _). rewrite Rabs_Ropp. lra.
    - lra. }
  apply Rle_trans with (1 := R). set (S := Rabs (edge c 1 0 * edge c 2 1) + Rabs (edge c 1 1 * edge c 2 0)) in *. set (De := Rabs (area2 c)) in *.
  assert (Pu := u_pos). assert (U4 : (1 + u) ^ 4 - 1 <= 401 / 100 * u) by (rewrite u_small; lra).
  assert (PS : 0 <= S) by (unfold S; assert (X := Rabs_pos (edge c 1 0 * edge c 2 1)); assert (Y := Rabs_pos (edge c 1 1 * edge c 2 0)); lra).
  assert (H1 : ((1 + u) ^ 4 - 1) * S <= 401 / 100 * u * (kappa * De)) by (apply Rmult_le_compat; auto; assert (1 <= (1 + u) ^ 4) by (apply pow_ge1; lra); lra).
  assert (Pe := eta_pos). assert (H2 : (1 + u) * (eta + eta) <= 1 / 100 * u * De).
  { assert (E1 : bpow radix2 (-1070) = 32 * eta). { unfold eta. replace (-1070)%Z with (4 + -1074)%Z by reflexivity. rewrite bpow_plus. change (bpow radix2 4) with 16. lra. }
    assert (E2 : bpow radix2 (-1070) <= 1 / 100 * u * bpow radix2 (-400)).
    { apply Rle_trans with (bpow radix2 (-1 * 60) * bpow radix2 (-400)); [rewrite <- bpow_plus; apply bpow_le; lia|]. apply Rmult_le_compat_r; [apply bpow_ge_0|]. rewrite u_small. cbn. lra. }
    assert (E3 : 1 / 100 * u * bpow radix2 (-400) <= 1 / 100 * u * De) by (apply Rmult_le_compat_l; lra).
    assert (E4 : (1 + u) * (eta + eta) <= 2 * (eta + eta)) by (apply Rmult_le_compat_r; [lra|rewrite u_small; lra]). lra. }
  assert (PD : 0 <= u * De) by (apply Rmult_le_pos; [lra|apply Rabs_pos]). assert (1 * (u * De) <= kappa * (u * De)) by (apply Rmult_le_compat_r; auto). lra.
Qed.

Lemma det_range c p kappa : sized c p -> shape kappa c -> kappa <= 2 ^ 20 -> B2 (f_det (f_jac c)) <> 0 /\ bpow radix2 (-401) <= Rabs (B2 (f_det (f_jac c))) /\ 999 / 1000 * Rabs (area2 c) <= Rabs (B2 (f_det (f_jac c))).
Proof.
  intros Hs Hsh Hk. destruct (det_ok c p kappa Hs Hsh Hk) as (_ & D & _). assert (K1 := shape_ge1 _ _ _ Hs Hsh). destruct Hs as (_ & _ & _ & _ & Ha). set (d := B2 (f_det (f_jac c))) in *. set (De := area2 c) in *.
  assert (L : 41 / 10 * kappa * u <= 1 / 1000). { rewrite u_small. lra. }
  assert (H : 999 / 1000 * Rabs De <= Rabs d).
  { assert (T : Rabs De <= Rabs d + Rabs (d - De)). { replace De with (d + - (d - De)) at 1 by ring. apply Rle_trans with (1 := Rabs_triang _ _). rewrite Rabs_Ropp. lra. }
    assert (41 / 10 * kappa * u * Rabs De <= 1 / 1000 * Rabs De) by (apply Rmult_le_compat_r; [apply Rabs_pos|auto]). lra. }
  assert (P := bpow_gt_0 radix2 (-400)). repeat split; auto.
  - intros E. rewrite E, Rabs_R0 in H. lra.
  - replace (-401)%Z with (-1 + -400)%Z by reflexivity. rewrite bpow_plus. change (bpow radix2 (-1)) with (/ 2). lra.
Qed.
Lemma combine z Z De det kappa sigma T : De <> 0 -> 1 <= kappa <= 2 ^ 20 -> 0 <= sigma -> 0 <= T -> T <= kappa * sigma * Rabs De ->
  Rabs (det - De) <= (41 / 10 * kappa * u) * Rabs De -> 999 / 1000 * Rabs De <= Rabs det ->
  Rabs (z - Z * De / det) <= ((1 + u) ^ 6 - 1) * (T / Rabs det) + tau -> Rabs (z - Z) <= 411 / 100 * kappa * u * Rabs Z + 603 / 100 * kappa * sigma * u + tau.
Proof.
  intros ND Hk Hs PT HT Hd Hr Hz. assert (PD : 0 < Rabs De) by now apply Rabs_pos_lt. assert (Pd : 0 < Rabs det) by lra. assert (Nd : det <> 0) by (intros E; rewrite E, Rabs_R0 in Pd; lra).
  assert (Pu := u_pos). assert (Q : Rabs De / Rabs det <= 1002 / 1000). { apply Rmult_le_reg_r with (Rabs det); auto. unfold Rdiv at 1. rewrite Rmult_assoc, Rinv_l by lra. lra. }
  assert (A : Rabs (Z * De / det - Z) <= 411 / 100 * kappa * u * Rabs Z).
  { replace (Z * De / det - Z) with (Z * (- (det - De) / det)) by (field; auto). rewrite Rabs_mult. unfold Rdiv. rewrite Rabs_mult, Rabs_Ropp, Rabs_inv. rewrite (Rmult_comm (Rabs Z)). apply Rmult_le_compat_r; [apply Rabs_pos|].
    apply Rle_trans with ((41 / 10 * kappa * u) * Rabs De * / Rabs det); [apply Rmult_le_compat_r; [left; now apply Rinv_0_lt_compat|auto]|].
    rewrite Rmult_assoc. change (Rabs De * / Rabs det) with (Rabs De / Rabs det). apply Rle_trans with (41 / 10 * kappa * u * (1002 / 1000)); [apply Rmult_le_compat_l; auto; assert (0 <= kappa * u) by (apply Rmult_le_pos; lra); lra|].
    assert (0 <= kappa * u) by (apply Rmult_le_pos; lra). lra. }
  assert (B : ((1 + u) ^ 6 - 1) * (T / Rabs det) <= 603 / 100 * kappa * sigma * u).
  { assert (U6 : 0 <= (1 + u) ^ 6 - 1 <= 601 / 100 * u) by (split; rewrite u_small; lra).
    assert (T' : 0 <= T / Rabs det <= kappa * sigma * (1002 / 1000)).
    { split; [apply Rmult_le_pos; auto; left; now apply Rinv_0_lt_compat|]. apply Rle_trans with (kappa * sigma * Rabs De * / Rabs det); [apply Rmult_le_compat_r; auto; left; now apply Rinv_0_lt_compat|]. rewrite Rmult_assoc. apply Rmult_le_compat_l; auto. apply Rmult_le_pos; lra. }
    apply Rle_trans with (601 / 100 * u * (kappa * sigma * (1002 / 1000))); [apply Rmult_le_compat; lra|]. assert (0 <= kappa * sigma) by (apply Rmult_le_pos; lra). assert (0 <= kappa * sigma * u) by (apply Rmult_le_pos; lra). lra. }
  replace (z - Z) with ((z - Z * De / det) + (Z * De / det - Z)) by ring. apply Rle_trans with (1 := Rabs_triang _ _). lra.
Qed.

(* C200: every barycentric coordinate of a point is computed within 20 kappa u of its exact value (times the size of the coordinates) *)
Theorem C200_accuracy c p Z kappa : sized c p -> barycentric c p Z -> shape kappa c -> kappa <= 2 ^ 20 ->
  forall i, (i < 3)%nat -> fin (f_bary c p i) = true /\ Rabs (B2 (f_bary c p i) - Z i) <= 20 * kappa * u * Rmax 1 (Rabs (Z 1%nat) + Rabs (Z 2%nat)).
Proof.
  intros Hs (Hsum & HZ) Hsh Hk. assert (K1 := shape_ge1 _ _ _ Hs Hsh). destruct (det_ok c p kappa Hs Hsh Hk) as (Fdet & Ddet & Bdet). destruct (det_range c p kappa Hs Hsh Hk) as (Ndet & Ldet & Rdet).
  assert (ND : area2 c <> 0). { intros E. destruct Hs as (_ & _ & _ & _ & Ha). rewrite E, Rabs_R0 in Ha. assert (P := bpow_gt_0 radix2 (-400)). lra. }
  destruct (recip_abs (f_det (f_jac c)) Fdet) as (Fg & Bg & Dg).
  { split; [apply Rle_trans with (2 := Ldet); apply bpow_le; lia|apply Rle_trans with (1 := Bdet); apply bpow_le; lia]. }
  assert (Pu := u_pos). assert (Su : u <= 1) by (rewrite u_small; lra).
  assert (Bg' : Rabs (B2 (ddiv FloatSplineModel.d1 (f_det (f_jac c)))) <= bpow radix2 402).
  { apply Rle_trans with (1 := Bg). replace 402%Z with (401 + 1)%Z by reflexivity. rewrite bpow_plus. change (bpow radix2 1) with 2. apply Rmult_le_compat; [left; apply Rinv_0_lt_compat; assert (P := bpow_gt_0 radix2 (-401)); lra|lra| |lra].
    replace (bpow radix2 401) with (/ bpow radix2 (-401)) by (rewrite <- bpow_opp; reflexivity). apply Rinv_le_contravar; auto. apply bpow_gt_0. }
  set (g := ddiv FloatSplineModel.d1 (f_det (f_jac c))) in *. set (det := B2 (f_det (f_jac c))) in *.
  destruct (jac_ok c p 0 0 Hs ltac:(lia) ltac:(lia)) as (Fa & Ea & Ba). destruct (jac_ok c p 0 1 Hs ltac:(lia) ltac:(lia)) as (Fb & Eb & Bb).
  destruct (jac_ok c p 1 0 Hs ltac:(lia) ltac:(lia)) as (Fc & Ec & Bc). destruct (jac_ok c p 1 1 Hs ltac:(lia) ltac:(lia)) as (Fd & Ed & Bd).
  destruct (shift_ok c p 0 Hs ltac:(lia)) as (Fx & Ex & Bx). destruct (shift_ok c p 1 Hs ltac:(lia)) as (Fy & Ey & By).
  assert (EX : B2 (p 0%nat) - B2 (c 0%nat 0%nat) = Z 1%nat * edge c 1 0 + Z 2%nat * edge c 2 0). { rewrite <- (HZ 0%nat) by lia. unfold edge. replace (Z 0%nat) with (1 - Z 1%nat - Z 2%nat) by lra. ring. }
  assert (EY : B2 (p 1%nat) - B2 (c 0%nat 1%nat) = Z 1%nat * edge c 1 1 + Z 2%nat * edge c 2 1). { rewrite <- (HZ 1%nat) by lia. unfold edge. replace (Z 0%nat) with (1 - Z 1%nat - Z 2%nat) by lra. ring. }
  set (X := B2 (p 0%nat) - B2 (c 0%nat 0%nat)) in *. set (Y := B2 (p 1%nat) - B2 (c 0%nat 1%nat)) in *.
  assert (Op : forall (a : SymbolsModel.double) A, fin a = true -> Rabs (B2 a - A) <= u * Rabs A -> Rabs (B2 a) <= bpow radix2 200 -> fin (Bopp a) = true /\ Rabs (B2 (Bopp a) - - A) <= u * Rabs (- A) /\ Rabs (B2 (Bopp a)) <= bpow radix2 200).
  { intros a A F D B. rewrite is_finite_Bopp, B2R_Bopp, !Rabs_Ropp. split; auto. split; auto. replace (- B2 a - - A) with (- (B2 a - A)) by ring. now rewrite Rabs_Ropp. }
  destruct (Op _ _ Fb Eb Bb) as (Fnb & Enb & Bnb). destruct (Op _ _ Fc Ec Bc) as (Fnc & Enc & Bnc). clear Op.
  destruct (row_ok _ _ _ _ g (edge c 2 1) (- edge c 2 0) X Y (/ det) Fd Fnb Fx Fy Fg Ed Enb Ex Ey Dg Bd Bnb Bx By Bg') as (F1 & B1 & D1).
  destruct (row_ok _ _ _ _ g (- edge c 1 1) (edge c 1 0) X Y (/ det) Fnc Fa Fx Fy Fg Enc Ea Ex Ey Dg Bnc Ba Bx By Bg') as (F2 & B2' & D2).
  change (fin (f_tail c p 0) = true) in F1. change (Rabs (B2 (f_tail c p 0)) <= bpow radix2 803) in B1. change (fin (f_tail c p 1) = true) in F2. change (Rabs (B2 (f_tail c p 1)) <= bpow radix2 803) in B2'.
  set (sigma := Rabs (Z 1%nat) + Rabs (Z 2%nat)). assert (Ps : 0 <= sigma) by (unfold sigma; assert (Q1 := Rabs_pos (Z 1%nat)); assert (Q2 := Rabs_pos (Z 2%nat)); lra).
  destruct Hsh as (S1 & S2 & S3). set (De := Rabs (area2 c)) in *.
  (* the sums of the absolute values of the products, without the determinant *)
  assert (T1 : Rabs (edge c 2 1 * X) + Rabs (- edge c 2 0 * Y) <= kappa * sigma * De).
  { rewrite EX, EY. replace (edge c 2 1 * (Z 1%nat * edge c 1 0 + Z 2%nat * edge c 2 0)) with (Z 1%nat * (edge c 1 0 * edge c 2 1) + Z 2%nat * (edge c 2 0 * edge c 2 1)) by ring.
    replace (- edge c 2 0 * (Z 1%nat * edge c 1 1 + Z 2%nat * edge c 2 1)) with (- (Z 1%nat * (edge c 1 1 * edge c 2 0) + Z 2%nat * (edge c 2 0 * edge c 2 1))) by ring. rewrite Rabs_Ropp.
    assert (H1 := Rabs_triang (Z 1%nat * (edge c 1 0 * edge c 2 1)) (Z 2%nat * (edge c 2 0 * edge c 2 1))). assert (H2 := Rabs_triang (Z 1%nat * (edge c 1 1 * edge c 2 0)) (Z 2%nat * (edge c 2 0 * edge c 2 1))).
    rewrite (Rabs_mult (Z 1%nat) (edge c 1 0 * edge c 2 1)), (Rabs_mult (Z 2%nat)) in H1. rewrite (Rabs_mult (Z 1%nat) (edge c 1 1 * edge c 2 0)), (Rabs_mult (Z 2%nat)) in H2.
    assert (H3 := Rmult_le_compat_l _ _ _ (Rabs_pos (Z 1%nat)) S1). assert (H4 := Rmult_le_compat_l _ _ _ (Rabs_pos (Z 2%nat)) S3). unfold sigma. lra. }
  assert (T2 : Rabs (- edge c 1 1 * X) + Rabs (edge c 1 0 * Y) <= kappa * sigma * De).
  { rewrite EX, EY. replace (- edge c 1 1 * (Z 1%nat * edge c 1 0 + Z 2%nat * edge c 2 0)) with (- (Z 2%nat * (edge c 1 1 * edge c 2 0) + Z 1%nat * (edge c 1 0 * edge c 1 1))) by ring.
    replace (edge c 1 0 * (Z 1%nat * edge c 1 1 + Z 2%nat * edge c 2 1)) with (Z 2%nat * (edge c 1 0 * edge c 2 1) + Z 1%nat * (edge c 1 0 * edge c 1 1)) by ring. rewrite Rabs_Ropp.
    assert (H1 := Rabs_triang (Z 2%nat * (edge c 1 0 * edge c 2 1)) (Z 1%nat * (edge c 1 0 * edge c 1 1))). assert (H2 := Rabs_triang (Z 2%nat * (edge c 1 1 * edge c 2 0)) (Z 1%nat * (edge c 1 0 * edge c 1 1))).
    rewrite (Rabs_mult (Z 2%nat) (edge c 1 0 * edge c 2 1)), (Rabs_mult (Z 1%nat)) in H1. rewrite (Rabs_mult (Z 2%nat) (edge c 1 1 * edge c 2 0)), (Rabs_mult (Z 1%nat)) in H2.
    assert (H3 := Rmult_le_compat_l _ _ _ (Rabs_pos (Z 2%nat)) S1). assert (H4 := Rmult_le_compat_l _ _ _ (Rabs_pos (Z 1%nat)) S2). unfold sigma. lra. }
  assert (Ab : forall a b, Rabs (a * / det * b) = Rabs (a * b) / Rabs det) by (intros a b; rewrite !Rabs_mult, Rabs_inv; unfold Rdiv; ring).
  rewrite !Ab in D1, D2.
  assert (E1 : Rabs (B2 (f_tail c p 0) - Z 1%nat) <= 411 / 100 * kappa * u * Rabs (Z 1%nat) + 603 / 100 * kappa * sigma * u + tau).
  { apply (combine _ _ (area2 c) det kappa sigma (Rabs (edge c 2 1 * X) + Rabs (- edge c 2 0 * Y))); auto.
    - assert (Q1 := Rabs_pos (edge c 2 1 * X)); assert (Q2 := Rabs_pos (- edge c 2 0 * Y)); lra.
    - replace (Z 1%nat * area2 c / det) with (edge c 2 1 * / det * X + - edge c 2 0 * / det * Y) by (rewrite EX, EY; unfold area2; field; auto).
      replace ((Rabs (edge c 2 1 * X) + Rabs (- edge c 2 0 * Y)) / Rabs det) with (Rabs (edge c 2 1 * X) / Rabs det + Rabs (- edge c 2 0 * Y) / Rabs det) by (unfold Rdiv; ring). exact D1. }
  assert (E2 : Rabs (B2 (f_tail c p 1) - Z 2%nat) <= 411 / 100 * kappa * u * Rabs (Z 2%nat) + 603 / 100 * kappa * sigma * u + tau).
  { apply (combine _ _ (area2 c) det kappa sigma (Rabs (- edge c 1 1 * X) + Rabs (edge c 1 0 * Y))); auto.
    - assert (Q1 := Rabs_pos (- edge c 1 1 * X)); assert (Q2 := Rabs_pos (edge c 1 0 * Y)); lra.
    - replace (Z 2%nat * area2 c / det) with (- edge c 1 1 * / det * X + edge c 1 0 * / det * Y) by (rewrite EX, EY; unfold area2; field; auto).
      replace ((Rabs (- edge c 1 1 * X) + Rabs (edge c 1 0 * Y)) / Rabs det) with (Rabs (- edge c 1 1 * X) / Rabs det + Rabs (edge c 1 0 * Y) / Rabs det) by (unfold Rdiv; ring). exact D2. }
  clear D1 D2 T1 T2 Ab S1 S2 S3 EX EY Ea Eb Ec Ed Ex Ey Enb Enc Dg Ddet.
  (* the first coordinate *)
  assert (Bs : Rabs (B2 (f_tail c p 0) + B2 (f_tail c p 1)) <= bpow radix2 804).
  { apply Rle_trans with (1 := Rabs_triang _ _). replace 804%Z with (1 + 803)%Z by reflexivity. rewrite bpow_plus. change (bpow radix2 1) with 2. lra. }
  destruct (dadd_ok _ _ 804 ltac:(lia) F1 F2 Bs) as [F3 E3]. assert (D3 := dadd_error _ _ F3). destruct d1_ok as [Fo Eo].
  assert (B0 : Rabs (B2 FloatSplineModel.d1 - B2 (dadd (f_tail c p 0) (f_tail c p 1))) <= bpow radix2 805).
  { rewrite Eo. assert (Rabs (B2 (dadd (f_tail c p 0) (f_tail c p 1))) <= bpow radix2 804) by (rewrite E3; apply rnd_bound; [lia|auto]). unfold Rminus. apply Rle_trans with (1 := Rabs_triang _ _). rewrite Rabs_Ropp, (Rabs_pos_eq 1) by lra.
    replace 805%Z with (1 + 804)%Z by reflexivity. rewrite bpow_plus. change (bpow radix2 1) with 2. assert (1 <= bpow radix2 804) by (change 1 with (bpow radix2 0); apply bpow_le; lia). lra. }
  destruct (dsub_ok _ _ 805 ltac:(lia) Fo F3 B0) as (F0 & _ & D0). rewrite Eo in D0.
  assert (Tt : tau <= u / 1000). { unfold tau. apply Rle_trans with (bpow radix2 (-1 * 64)); [apply bpow_le; lia|]. rewrite u_small. cbn. lra. }
  assert (M1 : 1 <= Rmax 1 sigma) by apply Rmax_l. assert (M2 : sigma <= Rmax 1 sigma) by apply Rmax_r.
  change (Rabs (Z 1%nat) + Rabs (Z 2%nat)) with sigma. set (M := Rmax 1 sigma) in *.
  set (z1 := B2 (f_tail c p 0)) in *. set (z2 := B2 (f_tail c p 1)) in *. set (s := B2 (dadd (f_tail c p 0) (f_tail c p 1))) in *.
  assert (Pk : 0 <= kappa * u) by (apply Rmult_le_pos; lra). assert (Kk : u <= kappa * u) by (assert (1 * u <= kappa * u) by (apply Rmult_le_compat_r; lra); lra).
  assert (KM : kappa * u * 1 <= kappa * u * M) by (apply Rmult_le_compat_l; lra). assert (KS : kappa * u * sigma <= kappa * u * M) by (apply Rmult_le_compat_l; lra).
  assert (A1 : kappa * u * Rabs (Z 1%nat) + kappa * u * Rabs (Z 2%nat) = kappa * u * sigma) by (unfold sigma; ring).
  assert (P1 : 0 <= kappa * u * Rabs (Z 1%nat)) by (apply Rmult_le_pos; auto using Rabs_pos). assert (P2 : 0 <= kappa * u * Rabs (Z 2%nat)) by (apply Rmult_le_pos; auto using Rabs_pos).
  assert (W1 : Rabs (z1 - Z 1%nat) <= 411 / 100 * (kappa * u * Rabs (Z 1%nat)) + 603 / 100 * (kappa * u * sigma) + u / 1000) by lra.
  assert (W2 : Rabs (z2 - Z 2%nat) <= 411 / 100 * (kappa * u * Rabs (Z 2%nat)) + 603 / 100 * (kappa * u * sigma) + u / 1000) by lra.
  assert (W3 : Rabs (z1 - Z 1%nat) + Rabs (z2 - Z 2%nat) <= 1620 / 100 * (kappa * u * M)) by lra.
  assert (Ku : kappa * u * M <= 1 / 100000 * M) by (apply Rmult_le_compat_r; [lra|rewrite u_small; lra]).
  assert (W4 : Rabs (z1 + z2) <= 101 / 100 * M).
  { replace (z1 + z2) with ((z1 - Z 1%nat) + (z2 - Z 2%nat) + (Z 1%nat + Z 2%nat)) by ring. assert (Q1 := Rabs_triang (z1 - Z 1%nat + (z2 - Z 2%nat)) (Z 1%nat + Z 2%nat)). assert (Q2 := Rabs_triang (z1 - Z 1%nat) (z2 - Z 2%nat)). assert (Q3 := Rabs_triang (Z 1%nat) (Z 2%nat)). fold sigma in Q3. lra. }
  assert (UM : u * M <= kappa * u * M) by (apply Rmult_le_compat_r; lra).
  assert (W5 : Rabs (s - (z1 + z2)) <= 101 / 100 * (u * M)). { apply Rle_trans with (1 := D3). assert (u * Rabs (z1 + z2) <= u * (101 / 100 * M)) by (apply Rmult_le_compat_l; lra). lra. }
  assert (W6 : Rabs (1 - s) <= 203 / 100 * M).
  { replace (1 - s) with (1 + - (s - (z1 + z2)) + - (z1 + z2)) by ring. assert (Q1 := Rabs_triang (1 + - (s - (z1 + z2))) (- (z1 + z2))). assert (Q2 := Rabs_triang 1 (- (s - (z1 + z2)))). rewrite !Rabs_Ropp in *. rewrite (Rabs_pos_eq 1) in Q2 by lra. lra. }
  assert (W7 : u * Rabs (1 - s) <= 203 / 100 * (u * M)) by (assert (u * Rabs (1 - s) <= u * (203 / 100 * M)) by (apply Rmult_le_compat_l; lra); lra).
  assert (Q1 := Rabs_pos (z1 - Z 1%nat)). assert (Q2 := Rabs_pos (z2 - Z 2%nat)).
  intros [|[|[|i]]] Hi; try lia; cbn [f_bary]; split; auto.
  - set (z0 := B2 (dsub FloatSplineModel.d1 (dadd (f_tail c p 0) (f_tail c p 1)))) in *.
    replace (z0 - Z 0%nat) with ((z0 - (1 - s)) + - (s - (z1 + z2)) + - ((z1 - Z 1%nat) + (z2 - Z 2%nat))) by (replace (Z 0%nat) with (1 - Z 1%nat - Z 2%nat) by lra; ring).
    assert (V1 := Rabs_triang (z0 - (1 - s) + - (s - (z1 + z2))) (- (z1 - Z 1%nat + (z2 - Z 2%nat)))). assert (V2 := Rabs_triang (z0 - (1 - s)) (- (s - (z1 + z2)))). assert (V3 := Rabs_triang (z1 - Z 1%nat) (z2 - Z 2%nat)). rewrite !Rabs_Ropp in *. lra.
  - fold z1. lra.
  - fold z2. lra.
Qed.
Print Assumptions C200_accuracy.

(* ---- contains ---- *)
Lemma meps_ok : fin d_meps = true /\ B2 d_meps = 20 * u.
Proof. destruct (B2_dbl 10 (-52) ltac:(cbn; lia) ltac:(lia)) as [F E]. split; [exact F|]. change (B2 d_meps) with (B2 (dbl 10 (-52))). rewrite E. unfold u. lra. Qed.
Lemma below c p i : fin (f_bary c p i) = true -> dlt (f_bary c p i) (Bopp d_meps) = true <-> B2 (f_bary c p i) < - (20 * u).
Proof. intros F. destruct meps_ok as [Fm Em]. rewrite dlt_fin by (auto; now rewrite is_finite_Bopp). now rewrite B2R_Bopp, Em. Qed.
Lemma above c p i : fin (f_bary c p i) = true -> dlt d_meps (f_bary c p i) = true <-> 20 * u < B2 (f_bary c p i).
Proof. intros F. destruct meps_ok as [Fm Em]. rewrite dlt_fin by auto. now rewrite Em. Qed.
Lemma weights_le1 c p Z : barycentric c p Z -> (forall i, (i < 3)%nat -> 0 <= Z i) -> Rmax 1 (Rabs (Z 1%nat) + Rabs (Z 2%nat)) = 1.
Proof. intros (S & _) H. assert (H0 := H 0%nat ltac:(lia)). assert (H1 := H 1%nat ltac:(lia)). assert (H2 := H 2%nat ltac:(lia)). rewrite !Rabs_pos_eq by auto. apply Rmax_left. lra. Qed.

(* C200: a point of the triangle is recognised when its coordinates exceed 20 (kappa - 1) u, hence every one when kappa = 1 *)
Theorem C200_contains_partial c p Z kappa : sized c p -> barycentric c p Z -> shape kappa c -> kappa <= 2 ^ 20 ->
  (forall i, (i < 3)%nat -> 20 * (kappa - 1) * u <= Z i) -> f_contains c p <> OUTSIDE.
Proof.
  intros Hs HZ Hsh Hk H. assert (K1 := shape_ge1 _ _ _ Hs Hsh). assert (Pu := u_pos). assert (A := C200_accuracy _ _ _ _ Hs HZ Hsh Hk). rewrite (weights_le1 c p) in A; auto.
  2:{ intros i Hi. apply Rle_trans with (2 := H i Hi). apply Rmult_le_pos; lra. }
  unfold f_contains. destruct (existsb _ _) eqn:E.
  - exfalso. apply existsb_exists in E. destruct E as (i & Hi & E). apply in_seq in Hi. destruct (A i ltac:(lia)) as [F D]. apply below in E; auto. assert (H' := H i ltac:(lia)). revert D. unfold Rabs. destruct (Rcase_abs _); lra.
  - destruct (Nat.eqb _ 1); [discriminate|]. destruct (Nat.eqb _ 2); discriminate.
Qed.
(* C200: a point far enough from the triangle is rejected *)
Theorem C200_outside c p Z kappa i : sized c p -> barycentric c p Z -> shape kappa c -> kappa <= 2 ^ 20 -> (i < 3)%nat ->
  Z i < - (20 * u * (1 + kappa * Rmax 1 (Rabs (Z 1%nat) + Rabs (Z 2%nat)))) -> f_contains c p = OUTSIDE.
Proof.
  intros Hs HZ Hsh Hk Hi H. destruct (C200_accuracy _ _ _ _ Hs HZ Hsh Hk i Hi) as [F D]. unfold f_contains. destruct (existsb _ _) eqn:E; auto. exfalso.
  assert (X : existsb (fun i => dlt (f_bary c p i) (Bopp d_meps)) (seq 0 3) = true). { apply existsb_exists. exists i. split; [apply in_seq; lia|]. apply below; auto. revert D. unfold Rabs at 1. destruct (Rcase_abs _); lra. }
  congruence.
Qed.
(* C200: the reported position is the right one when every coordinate is zero or clearly positive *)
Theorem C200_position_partial c p Z kappa : sized c p -> barycentric c p Z -> shape kappa c -> kappa <= 2 ^ 20 ->
  (forall i, (i < 3)%nat -> 20 * (kappa + 1) * u < Z i \/ (Z i = 0 /\ kappa = 1)) ->
  f_contains c p = match length (filter (fun i => if Rlt_dec 0 (Z i) then true else false) [0; 1; 2]%nat) with 1%nat => ON_VERTEX | 2%nat => ON_FACE | _ => INSIDE end.
Proof.
  intros Hs HZ Hsh Hk H. assert (K1 := shape_ge1 _ _ _ Hs Hsh). assert (Pu := u_pos).
  assert (P20 : 0 < 20 * (kappa + 1) * u) by (apply Rmult_lt_0_compat; lra).
  assert (A := C200_accuracy _ _ _ _ Hs HZ Hsh Hk). rewrite (weights_le1 c p) in A; auto. 2:{ intros i Hi. destruct (H i Hi); lra. }
  assert (Nb : forall i, (i < 3)%nat -> dlt (f_bary c p i) (Bopp d_meps) = false).
  { intros i Hi. destruct (dlt _ _) eqn:E; auto. exfalso. destruct (A i Hi) as [F D]. apply below in E; auto. revert D. unfold Rabs. destruct (H i Hi) as [B|[B ->]]; destruct (Rcase_abs _); lra. }
  assert (Na : forall i, (i < 3)%nat -> dlt d_meps (f_bary c p i) = if Rlt_dec 0 (Z i) then true else false).
  { intros i Hi. destruct (A i Hi) as [F D]. destruct (H i Hi) as [B|[B E1]].
    - destruct (Rlt_dec 0 (Z i)); [|lra]. apply above; auto. revert D. unfold Rabs. destruct (Rcase_abs _); lra.
    - destruct (Rlt_dec 0 (Z i)); [lra|]. destruct (dlt _ _) eqn:E; auto. exfalso. apply above in E; auto. rewrite B, E1 in D. revert D. unfold Rabs. destruct (Rcase_abs _); lra. }
  unfold f_contains, count_if. cbn [seq existsb]. rewrite (Nb 0%nat), (Nb 1%nat), (Nb 2%nat) by lia. cbn [orb filter]. rewrite (Na 0%nat), (Na 1%nat), (Na 2%nat) by lia.
  destruct (Rlt_dec 0 (Z 0%nat)), (Rlt_dec 0 (Z 1%nat)), (Rlt_dec 0 (Z 2%nat)); reflexivity.
Qed.
Print Assumptions C200_contains_partial.
Print Assumptions C200_outside.
Print Assumptions C200_position_partial.

(* a cell and a point given by literals m 2^e *)
Definition at2 (x y : SymbolsModel.double) : point := fun k => match k with O => x | _ => y end.
Definition nodes3 (a b d : point) : f_cell := fun i => match i with O => a | S O => b | _ => d end.
(* two triangles of a mesh sharing the edge from (0, 0) to (37/128, 15/32), and a point of the first one *)
Definition thin1 : f_cell := nodes3 (at2 d0 d0) (at2 (dbl 37 (-7)) (dbl 15 (-5))) (at2 (dbl 7 (-5)) (dbl 3 (-3))).
Definition thin2 : f_cell := nodes3 (at2 d0 d0) (at2 (dbl 19 (-6)) (dbl 117 (-8))) (at2 (dbl 37 (-7)) (dbl 15 (-5))).
Definition lost : point := at2 (dbl 5071266588476751 (-54)) (dbl 8223675548881218 (-54)).
Definition lost_weights (i : nat) : R := match i with O => 58819667316923 / 2251799813685248 | S O => 548245036592081 / 562949953421312 | _ => 1 / 2251799813685248 end.
(* C200 refuted: a point of a mesh belongs to no cell *)
Theorem C200_gap_refuted : barycentric thin1 lost lost_weights /\ (forall i, (i < 3)%nat -> 0 < lost_weights i) /\ f_contains thin1 lost = OUTSIDE /\ f_contains thin2 lost = OUTSIDE.
Proof.
  split; [|split; [intros [|[|[|i]]] Hi; cbn; lra || lia|split; vm_compute; reflexivity]].
  assert (V : forall m e, (Z.abs m < 2 ^ 53)%Z -> (-1074 <= e <= 900)%Z -> B2 (dbl m e) = IZR m * bpow radix2 e) by (intros m e Hm He; now apply B2_dbl).
  split; [cbn; lra|]. intros [|[|k]] Hk; try lia; unfold thin1, lost, nodes3, at2, lost_weights; rewrite !V by (cbn; lia); change (B2 d0) with 0; cbn; lra.
Qed.
Print Assumptions C200_gap_refuted.

(* C200 refuted: a degenerate triangle, its nodes on a line of positive slope, is said to contain every point above and to the right of its first node *)
Theorem C200_degenerate_refuted c p : (forall r k, (r < 2)%nat -> (k < 2)%nat -> fin (f_jac c r k) = true /\ 0 < B2 (f_jac c r k)) ->
  deq (f_det (f_jac c)) d0 = true -> (forall r, (r < 2)%nat -> fin (dsub (p r) (c 0%nat r)) = true /\ 0 < B2 (dsub (p r) (c 0%nat r))) -> f_contains c p = INSIDE.
Proof.
  intros HJ HD HP.
  assert (Pos : forall a : SymbolsModel.double, fin a = true /\ 0 < B2 a -> exists m e H, a = B754_finite false m e H).
  { intros a [F P]. destruct a as [s|s| |s m e H]; try discriminate; cbn in P; try lra. destruct s; [|eauto]. exfalso. assert (X := F2R_lt_0 radix2 (Float radix2 (Zneg m) e) ltac:(cbn; lia)). change (cond_Zopp true (Zpos m)) with (Zneg m) in P. lra. }
  destruct (Pos _ (HJ 0%nat 0%nat ltac:(lia) ltac:(lia))) as (ma & ea & Ha & Ea). destruct (Pos _ (HJ 0%nat 1%nat ltac:(lia) ltac:(lia))) as (mb & eb & Hb & Eb).
  destruct (Pos _ (HJ 1%nat 0%nat ltac:(lia) ltac:(lia))) as (mc & ec & Hc & Ec). destruct (Pos _ (HJ 1%nat 1%nat ltac:(lia) ltac:(lia))) as (md & ed & Hd & Ed).
  destruct (Pos _ (HP 0%nat ltac:(lia))) as (mx & ex & Hx & Ex). destruct (Pos _ (HP 1%nat ltac:(lia))) as (my & ey & Hy & Ey).
  assert (G : exists s, ddiv FloatSplineModel.d1 (f_det (f_jac c)) = B754_infinity s).
  { destruct (f_det (f_jac c)) as [s|s| |s m e H]; try discriminate; [exists s|destruct s; discriminate|destruct s; discriminate]. destruct s; reflexivity. }
  destruct G as (s & G).
  assert (T0 : f_tail c p 0 = B754_nan). { unfold f_tail, f_inv. rewrite G, Ed, Eb, Ex, Ey. destruct s; reflexivity. }
  assert (T1 : f_tail c p 1 = B754_nan). { unfold f_tail, f_inv. rewrite G, Ec, Ea, Ex, Ey. destruct s; reflexivity. }
  unfold f_contains, count_if. cbn [seq existsb filter]. unfold f_bary. rewrite T0, T1. reflexivity.
Qed.
Print Assumptions C200_degenerate_refuted.

(* ---- non-vacuity ---- *)
Definition unit_cell : f_cell := nodes3 (at2 d0 d0) (at2 (dbl 1 0) d0) (at2 d0 (dbl 1 0)).
Definition third_point : point := at2 (dbl 6004799503160661 (-54)) (dbl 6004799503160661 (-54)).
Definition third_weights (i : nat) : R := match i with O => 1 - 2 * (6004799503160661 * bpow radix2 (-54)) | _ => 6004799503160661 * bpow radix2 (-54) end.
Lemma unit_edge : edge unit_cell 1 0 = 1 /\ edge unit_cell 1 1 = 0 /\ edge unit_cell 2 0 = 0 /\ edge unit_cell 2 1 = 1 /\ area2 unit_cell = 1.
Proof.
  assert (V : B2 (dbl 1 0) = 1) by (rewrite (proj2 (B2_dbl 1 0 ltac:(cbn; lia) ltac:(lia))); cbn; lra).
  unfold area2, edge, unit_cell, nodes3, at2. rewrite V. change (B2 d0) with 0. repeat split; lra.
Qed.
Example C200_accuracy_ex : sized unit_cell third_point /\ barycentric unit_cell third_point third_weights /\ shape 1 unit_cell /\ f_contains unit_cell third_point = INSIDE.
Proof.
  destruct unit_edge as (E1 & E2 & E3 & E4 & E5).
  assert (P : Rabs (B2 (dbl 6004799503160661 (-54))) <= bpow radix2 200 /\ B2 (dbl 6004799503160661 (-54)) = 6004799503160661 * bpow radix2 (-54)).
  { rewrite (proj2 (B2_dbl 6004799503160661 (-54) ltac:(cbn; lia) ltac:(lia))). split; auto. rewrite Rabs_pos_eq by (cbn; lra). apply Rle_trans with (bpow radix2 0); [cbn; lra|apply bpow_le; lia]. }
  assert (One : 1 <= bpow radix2 200) by (change 1 with (bpow radix2 0); apply bpow_le; lia).
  split; [|split; [|split]].
  - split; [intros [|[|[|i]]] [|[|k]] Hi Hk; try lia; reflexivity|]. split; [intros [|[|k]] Hk; try lia; reflexivity|]. split.
    + intros [|[|[|i]]] [|[|k]] Hi Hk; try lia; rewrite ?E1, ?E2, ?E3, ?E4; try (unfold edge; rewrite Rminus_eq_0); rewrite ?Rabs_R0, ?(Rabs_pos_eq 1) by lra; lra.
    + split; [intros [|[|k]] Hk; try lia; cbn [third_point at2 unit_cell nodes3]; change (B2 d0) with 0; rewrite Rminus_0_r; apply P|]. rewrite E5, (Rabs_pos_eq 1) by lra. change 1 with (bpow radix2 0). apply bpow_le. lia.
  - assert (V : B2 (dbl 1 0) = 1) by (rewrite (proj2 (B2_dbl 1 0 ltac:(cbn; lia) ltac:(lia))); cbn; lra).
    split; [cbn; lra|]. intros [|[|k]] Hk; try lia; cbn [third_point at2 unit_cell nodes3]; rewrite V, (proj2 P); change (B2 d0) with 0; unfold third_weights; ring.
  - unfold shape. rewrite E1, E2, E3, E4, E5. rewrite !Rmult_0_r, !Rmult_0_l, !Rmult_1_l, Rabs_R0, Rabs_R1. lra.
  - vm_compute. reflexivity.
Qed.
(* an edge midpoint and a node of the same cell *)
Example C200_position_ex : f_contains unit_cell (at2 (dbl 1 (-1)) (dbl 1 (-1))) = ON_FACE /\ f_contains unit_cell (at2 d0 (dbl 1 0)) = ON_VERTEX /\ f_contains unit_cell (at2 (dbl 1 0) (dbl 1 (-40))) = OUTSIDE.
Proof. repeat split; vm_compute; reflexivity. Qed.
(* collinear nodes (0, 0), (1, 1), (2, 2) and the point (1, 5) *)
Example C200_degenerate_ex : f_contains (nodes3 (at2 d0 d0) (at2 (dbl 1 0) (dbl 1 0)) (at2 (dbl 2 0) (dbl 2 0))) (at2 (dbl 1 0) (dbl 5 0)) = INSIDE.
Proof. vm_compute. reflexivity. Qed.
