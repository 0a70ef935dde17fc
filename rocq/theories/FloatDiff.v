(* C197, C198: the numerical derivatives in double arithmetic. *)
From Coq Require Import Reals Lra Lia List Bool ZArith FunctionalExtensionality.
From Flocq Require Import Core IEEE754.BinarySingleNaN Relative Plus_error Mult_error.
From Coquelicot Require Import Coquelicot.
From Verif Require Import Base RSum FieldModel FieldProps FieldErr FieldMixed SymbolsModel SymbolsProps FloatModel FloatProps FloatSearch FloatSplineModel FloatSpline FloatDiffModel.
Open Scope R_scope.

#[local] Instance vfexp'' : Valid_exp (SpecFloat.fexp 53 1024) := @fexp_correct 53 1024 prec64.

(* ---- single operations ---- *)
Lemma dsub_fin a b : fin (dsub a b) = true -> fin a = true /\ fin b = true /\ B2 (dsub a b) = rnd (B2 a - B2 b).
Proof.
  rewrite dsub_add. intros H. destruct (dadd_fin _ _ H) as (Fa & Fb & ->). rewrite is_finite_Bopp in Fb. repeat split; auto. rewrite B2R_Bopp. reflexivity.
Qed.
Lemma dsub_error a b : fin (dsub a b) = true -> Rabs (B2 (dsub a b) - (B2 a - B2 b)) <= u * Rabs (B2 a - B2 b).
Proof. rewrite dsub_add. intros H. generalize (dadd_error _ _ H). rewrite B2R_Bopp. exact (fun x => x). Qed.
Lemma ddiv_error a b : fin (ddiv a b) = true -> fin b = true -> B2 b <> 0 -> fin a = true /\ Rabs (B2 (ddiv a b) - B2 a / B2 b) <= u * Rabs (B2 a / B2 b) + eta.
Proof.
  intros H Fb Nb. assert (Fa : fin a = true).
  { unfold ddiv in H. destruct a as [sa|sa| |sa ma ea Ha], b as [sb|sb| |sb mb eb Hb]; cbn in H |- *; auto; discriminate. }
  split; auto. assert (C := @Bdiv_correct 53 1024 prec64 emax64 mode_NE a b Nb). fold (ddiv a b) in C.
  assert (E : B2 (ddiv a b) = rnd (B2 a / B2 b)).
  { destruct (Rlt_bool _ _); [exact (proj1 C)|]. rewrite (overflow_nan _ _ C) in H. discriminate. }
  rewrite E. destruct (@relative_error_N_FLT'_ex radix2 (-1074) 53 prec64 (fun x => negb (Z.even x)) (B2 a / B2 b)) as (e & t & Be & Bt & _ & Ee).
  change (round radix2 (FLT_exp (-1074) 53) (Znearest (fun x => negb (Z.even x)))) with rnd in Ee. rewrite Ee. replace (B2 a / B2 b * (1 + e) + t - B2 a / B2 b) with (e * (B2 a / B2 b) + t) by ring.
  apply Rle_trans with (1 := Rabs_triang _ _). rewrite Rabs_mult. apply Rplus_le_compat; [|exact Bt]. apply Rmult_le_compat_r; [apply Rabs_pos|]. now apply u_ro_u.
Qed.
Lemma lit_ok m : (Z.abs m < 2 ^ 53)%Z -> fin (lit m) = true /\ B2 (lit m) = IZR m.
Proof. intros H. destruct (B2_dbl m 0 H) as [A B]; [lia|]. split; [exact A|]. unfold lit. unfold dbl in B. rewrite B. cbn. ring. Qed.
(* a multiplication by a power of two is exact *)
Lemma dmul_pow2 k a : (0 <= k < 53)%Z -> fin (dmul (lit (2 ^ k)) a) = true -> B2 (dmul (lit (2 ^ k)) a) = IZR (2 ^ k) * B2 a.
Proof.
  intros Hk H. destruct (dmul_fin' _ _ H) as (_ & Fa & ->). destruct (lit_ok (2 ^ k)) as [_ E].
  { rewrite Z.abs_eq by (apply Z.pow_nonneg; lia). apply Z.pow_lt_mono_r; lia. }
  rewrite E. apply round_generic; [typeclasses eauto|]. rewrite Rmult_comm. replace (IZR (2 ^ k)) with (bpow radix2 k).
  - apply (mult_bpow_pos_exact_FLT radix2 (-1074) 53); [|lia]. exact (generic_format_B2R 53 1024 a).
  - symmetry. apply (IZR_Zpower radix2). lia.
Qed.

(* ---- the points of evaluation ---- *)
Definition forward (x h : double) : double := dadd x h.
Definition backward (x h : double) : double := dsub (dadd x h) (dmul (lit 2) h).
Lemma fset_fset x i a b : fset (fset x i a) i b = fset x i b.
Proof. apply functional_extensionality. intros k. unfold fset. now destruct (k =? i)%nat. Qed.
Lemma fset_same x i v : fset x i v i = v.
Proof. unfold fset. now rewrite Nat.eqb_refl. Qed.
Lemma f_diff1_eq f h i x : f_diff1 f h i x = ddiv (dsub (f (fset x i (forward (x i) h))) (f (fset x i (backward (x i) h)))) (dmul (lit 2) h).
Proof. unfold f_diff1, forward, backward. cbv zeta. now rewrite fset_same, fset_fset. Qed.

Lemma points_error x h : fin (backward x h) = true -> 0 < B2 h ->
  fin x = true /\ fin h = true /\ fin (dmul (lit 2) h) = true /\ B2 (dmul (lit 2) h) = 2 * B2 h /\
  Rabs (B2 (forward x h) - (B2 x + B2 h)) <= u * (Rabs (B2 x) + B2 h) /\
  Rabs (B2 (backward x h) - (B2 x - B2 h)) <= 3 * u * (Rabs (B2 x) + B2 h).
Proof.
  intros Fb Hh. unfold backward, forward in *. destruct (dsub_fin _ _ Fb) as (F1 & F2 & _). destruct (dadd_fin _ _ F1) as (Fx & Fh & _).
  assert (E2 := dmul_pow2 1 h ltac:(lia) F2). change (2 ^ 1)%Z with 2%Z in E2.
  repeat (split; [assumption|]). generalize (dadd_error _ _ F1) (dsub_error _ _ Fb). rewrite E2.
  set (p := B2 (dadd x h)). set (q := B2 (dsub (dadd x h) (dmul (lit 2) h))). intros A1 A2.
  assert (U := u_pos). assert (U1 : u <= 1 / 4) by (rewrite u_small; lra).
  assert (T : Rabs (B2 x + B2 h) <= Rabs (B2 x) + B2 h). { apply Rle_trans with (1 := Rabs_triang _ _). rewrite (Rabs_pos_eq (B2 h)); lra. }
  assert (T2 : Rabs (B2 x - B2 h) <= Rabs (B2 x) + B2 h). { unfold Rminus. apply Rle_trans with (1 := Rabs_triang _ _). rewrite Rabs_Ropp, (Rabs_pos_eq (B2 h)); lra. }
  assert (P1 : Rabs (p - (B2 x + B2 h)) <= u * (Rabs (B2 x) + B2 h)). { apply Rle_trans with (1 := A1). apply Rmult_le_compat_l; lra. }
  split; [exact P1|].
  assert (Q : Rabs (p - 2 * B2 h) <= (1 + u) * (Rabs (B2 x) + B2 h)).
  { replace (p - 2 * B2 h) with ((p - (B2 x + B2 h)) + (B2 x - B2 h)) by ring. apply Rle_trans with (1 := Rabs_triang _ _). lra. }
  replace (q - (B2 x - B2 h)) with ((q - (p - 2 * B2 h)) + (p - (B2 x + B2 h))) by ring.
  apply Rle_trans with (1 := Rabs_triang _ _).
  assert (X : 0 <= Rabs (B2 x) + B2 h) by (generalize (Rabs_pos (B2 x)); lra).
  assert (u * Rabs (p - 2 * B2 h) <= u * ((1 + u) * (Rabs (B2 x) + B2 h))) by (apply Rmult_le_compat_l; lra).
  assert (0 <= u * (Rabs (B2 x) + B2 h)) by (apply Rmult_le_pos; lra). nra.
Qed.

(* ---- C197 ---- *)
(* the points whose distance from x is at most the step, up to rounding *)
Definition near (x h t : R) : Prop := Rabs (t - x) <= h + 3 * u * (Rabs x + h).
(* G along axis i with derivatives D: the field the code was meant to compute, f what it computes, within e of it *)
Theorem C197_gradient (f : point -> double) h i x G D L M e :
  0 < B2 h -> fin (backward (x i) h) = true -> fin (f_diff1 f h i x) = true ->
  derivatives G D 3 ->
  (forall t, near (B2 (x i)) (B2 h) t -> Rabs (D 1%nat t) <= L) ->
  (forall t, near (B2 (x i)) (B2 h) t -> Rabs (D 3%nat t) <= M) ->
  (forall v, fin v = true -> near (B2 (x i)) (B2 h) (B2 v) -> Rabs (B2 (f (fset x i v)) - G (B2 v)) <= e) ->
  Rabs (B2 (f_diff1 f h i x) - D 1%nat (B2 (x i))) <=
    (1 + u) ^ 2 * (M * (B2 h * B2 h) / 6 + e / B2 h + 2 * u * L * (Rabs (B2 (x i)) + B2 h) / B2 h)
    + ((1 + u) ^ 2 - 1) * Rabs (D 1%nat (B2 (x i))) + eta.
Proof.
  intros Hh Fb Fd HD HL HM Hf. destruct (points_error _ _ Fb Hh) as (Fx & Fh & F2 & E2 & P1 & P2).
  rewrite f_diff1_eq in *. set (d := B2 (ddiv _ _)). 
  destruct (ddiv_error _ _ Fd F2) as (Fs & Ed); [rewrite E2; lra|]. fold d in Ed.
  generalize (dsub_error _ _ Fs). intros Es. rewrite E2 in Ed.
  assert (Fp : fin (forward (x i) h) = true) by (unfold backward in Fb; exact (proj1 (dsub_fin _ _ Fb))).
  set (p := forward (x i) h) in *. set (q := backward (x i) h) in *. set (a := B2 (f (fset x i p))) in *. set (b := B2 (f (fset x i q))) in *.
  set (s := B2 (dsub (f (fset x i p)) (f (fset x i q)))) in *. set (X := B2 (x i)) in *. set (H := B2 h) in *.
  set (W := Rabs X + H) in *. assert (U := u_pos). assert (W0 : 0 <= W) by (unfold W; generalize (Rabs_pos X); lra).
  assert (uW : 0 <= u * W) by (apply Rmult_le_pos; lra).
  assert (N0 : forall t, X - H <= t <= X + H -> near X H t). { intros t Ht. unfold near. fold W. apply Rle_trans with H; [apply Rabs_le; lra|lra]. }
  assert (Np : near X H (B2 p)). { unfold near. fold W. replace (B2 p - X) with ((B2 p - (X + H)) + H) by ring. apply Rle_trans with (1 := Rabs_triang _ _). rewrite (Rabs_pos_eq H) by lra. lra. }
  assert (Nq : near X H (B2 q)). { unfold near. fold W. replace (B2 q - X) with ((B2 q - (X - H)) + - H) by ring. apply Rle_trans with (1 := Rabs_triang _ _). rewrite Rabs_Ropp, (Rabs_pos_eq H) by lra. lra. }
  (* the field at the rounded points *)
  assert (Lip : forall t1 t2, near X H t1 -> near X H t2 -> Rabs (G t2 - G t1) <= L * Rabs (t2 - t1)).
  { assert (Z : forall t1 t2, near X H t1 -> near X H t2 -> t1 < t2 -> Rabs (G t2 - G t1) <= L * Rabs (t2 - t1)).
    { intros t1 t2 H1 H2 Lt. destruct HD as [D0 DS].
      destruct (MVT_cor2 (D 0%nat) (D 1%nat) t1 t2 Lt) as (c & Ec & Hc). { intros c _. apply DS. lia. }
      rewrite <- !D0, Ec, Rabs_mult. apply Rmult_le_compat_r; [apply Rabs_pos|]. apply HL. unfold near in *. apply Rabs_le_between in H1. apply Rabs_le_between in H2. apply Rabs_le. lra. }
    intros t1 t2 H1 H2. destruct (Rtotal_order t1 t2) as [Lt|[->|Lt]]; auto.
    - unfold Rminus. rewrite !Rplus_opp_r, Rabs_R0. lra.
    - rewrite Rabs_minus_sym, (Rabs_minus_sym t2). auto. }
  assert (A : Rabs (a - G (X + H)) <= e + L * (u * W)).
  { replace (a - G (X + H)) with ((a - G (B2 p)) + (G (B2 p) - G (X + H))) by ring. apply Rle_trans with (1 := Rabs_triang _ _). apply Rplus_le_compat; [apply Hf; auto|].
    apply Rle_trans with (1 := Lip _ _ (N0 (X + H) ltac:(lra)) Np). apply Rmult_le_compat_l; [|exact P1]. apply Rle_trans with (2 := HL X (N0 X ltac:(lra))). apply Rabs_pos. }
  assert (B : Rabs (b - G (X - H)) <= e + L * (3 * u * W)).
  { replace (b - G (X - H)) with ((b - G (B2 q)) + (G (B2 q) - G (X - H))) by ring. apply Rle_trans with (1 := Rabs_triang _ _). apply Rplus_le_compat; [apply Hf; auto|].
    apply Rle_trans with (1 := Lip _ _ (N0 (X - H) ltac:(lra)) Nq). apply Rmult_le_compat_l; [|exact P2]. apply Rle_trans with (2 := HL X (N0 X ltac:(lra))). apply Rabs_pos. }
  assert (C := central G D X H M Hh HD (fun t Ht => HM t (N0 t Ht))).
  (* the exact quotient of the computed values *)
  set (T := M * (H * H) / 6 + e / H + 2 * u * L * W / H).
  assert (Q : Rabs ((a - b) / (2 * H) - D 1%nat X) <= T).
  { replace ((a - b) / (2 * H) - D 1%nat X) with (((G (X + H) - G (X - H)) / (2 * H) - D 1%nat X) + ((a - G (X + H)) - (b - G (X - H))) / (2 * H)) by (field; lra).
    apply Rle_trans with (1 := Rabs_triang _ _). unfold T. rewrite Rplus_assoc. apply Rplus_le_compat; [exact C|].
    unfold Rdiv at 1. rewrite Rabs_mult, (Rabs_pos_eq (/ (2 * H))) by (apply Rlt_le, Rinv_0_lt_compat; lra).
    apply Rle_trans with ((2 * e + 4 * (u * L * W)) * / (2 * H)).
    - apply Rmult_le_compat_r; [apply Rlt_le, Rinv_0_lt_compat; lra|]. unfold Rminus. apply Rle_trans with (1 := Rabs_triang _ _). rewrite Rabs_Ropp. fold (a - G (X + H)) (b - G (X - H)). unfold Rminus in A, B. unfold Rminus. lra.
    - right. field. lra. }
  set (v := (a - b) / (2 * H)) in *.
  assert (S : Rabs (s / (2 * H) - v) <= u * Rabs v).
  { unfold v. replace (s / (2 * H) - (a - b) / (2 * H)) with ((s - (a - b)) / (2 * H)) by (field; lra). unfold Rdiv. rewrite !Rabs_mult, <- Rmult_assoc. apply Rmult_le_compat_r; [apply Rabs_pos|exact Es]. }
  assert (V : Rabs v <= Rabs (D 1%nat X) + T).
  { replace v with (D 1%nat X + (v - D 1%nat X)) by ring. apply Rle_trans with (1 := Rabs_triang _ _). lra. }
  assert (SV : Rabs (s / (2 * H)) <= (1 + u) * Rabs v).
  { replace (s / (2 * H)) with (v + (s / (2 * H) - v)) by ring. apply Rle_trans with (1 := Rabs_triang _ _). lra. }
  replace (d - D 1%nat X) with ((d - s / (2 * H)) + (s / (2 * H) - v) + (v - D 1%nat X)) by ring.
  apply Rle_trans with (1 := Rabs_triang _ _). eapply Rle_trans; [apply Rplus_le_compat_r, Rabs_triang|].
  assert (u * Rabs (s / (2 * H)) <= u * ((1 + u) * Rabs v)) by (apply Rmult_le_compat_l; lra).
  assert (K : (u * (1 + u) + u) * Rabs v <= (u * (1 + u) + u) * (Rabs (D 1%nat X) + T)) by (apply Rmult_le_compat_l; [nra|exact V]).
  fold T. lra.
Qed.

(* far from the origin the step is absorbed and the derivative of every field is zero *)
Lemma absorbed (x h : R) : generic_format radix2 (SpecFloat.fexp 53 1024) x -> Rabs h * bpow radix2 55 <= Rabs x -> x <> 0 -> rnd (x + h) = x.
Proof.
  assert (P : forall x h, generic_format radix2 (SpecFloat.fexp 53 1024) x -> Rabs h * bpow radix2 55 <= x -> 0 < x -> rnd (x + h) = x).
  { clear x h. intros x h Fx Hh Px. set (y := rnd (x + h)). assert (Fy : generic_format radix2 (SpecFloat.fexp 53 1024) y) by (apply generic_format_round; typeclasses eauto).
    assert (N : Rabs (y - (x + h)) <= Rabs h).
    { destruct (round_N_pt radix2 (SpecFloat.fexp 53 1024) (fun z => negb (Z.even z)) (x + h)) as [_ N]. change (round radix2 (SpecFloat.fexp 53 1024) (Znearest (fun z => negb (Z.even z)))) with rnd in N. fold y in N.
      generalize (N x Fx). replace (x - (x + h)) with (- h) by ring. rewrite Rabs_Ropp. exact (fun z => z). }
    assert (N2 : Rabs (y - x) <= 2 * Rabs h). { replace (y - x) with ((y - (x + h)) + h) by ring. apply Rle_trans with (1 := Rabs_triang _ _). lra. }
    assert (K : bpow radix2 55 = 4 * bpow radix2 53) by (cbn; lra). assert (KP := bpow_gt_0 radix2 53).
    assert (J : bpow radix2 (- (53)) * bpow radix2 53 = 1). { rewrite <- bpow_plus. reflexivity. }
    assert (JP := bpow_gt_0 radix2 (-(53))).
    assert (Hs : 4 * Rabs h <= x * bpow radix2 (-(53))). { rewrite K in Hh. apply Rmult_le_reg_r with (bpow radix2 53); auto. rewrite (Rmult_assoc x), J. lra. }
    apply Rabs_le_between in N2. assert (HP := Rabs_pos h).
    assert (J1 : bpow radix2 (-(53)) <= / 4). { replace (/ 4) with (bpow radix2 (-2)) by (cbn; lra). apply bpow_le. lia. }
    destruct (Rtotal_order y x) as [Lt|[E|Gt]]; auto; exfalso.
    - assert (Py : x / 2 < y) by nra. assert (Z := succ_le_lt radix2 (SpecFloat.fexp 53 1024) y x Fy Fx Lt). rewrite succ_eq_pos in Z by lra.
      assert (G := @ulp_FLT_gt radix2 (-1074) 53 prec64 y). change (FLT_exp (-1074) 53) with (SpecFloat.fexp 53 1024) in G. rewrite Rabs_pos_eq in G by lra.
      assert (x / 2 * bpow radix2 (-(53)) < y * bpow radix2 (-(53))) by (apply Rmult_lt_compat_r; lra). lra.
    - assert (Z := succ_le_lt radix2 (SpecFloat.fexp 53 1024) x y Fx Fy Gt). rewrite succ_eq_pos in Z by lra.
      assert (G := @ulp_FLT_gt radix2 (-1074) 53 prec64 x). change (FLT_exp (-1074) 53) with (SpecFloat.fexp 53 1024) in G. rewrite Rabs_pos_eq in G by lra. nra. }
  intros Fx Hh Nx. destruct (Rle_lt_dec 0 x) as [Px|Px].
  - assert (0 < x) by (destruct Px as [|Px]; auto; congruence). apply P; auto. rewrite (Rabs_pos_eq x) in Hh; lra.
  - rewrite (Rabs_left x) in Hh by lra. replace (x + h) with (- (- x + - h)) by ring. 
    change (round_mode mode_NE) with (Znearest (fun z => negb (Z.even z))). rewrite round_NE_opp. change (Znearest (fun z => negb (Z.even z))) with (round_mode mode_NE).
    rewrite P; [ring|now apply generic_format_opp|rewrite Rabs_Ropp; lra|lra].
Qed.
Lemma strict (a : double) : fin a = true -> B2 a <> 0 -> is_finite_strict a = true.
Proof. destruct a; cbn; intros F N; auto; try discriminate; now elim N. Qed.
Lemma dadd_absorbed x h : fin x = true -> fin h = true -> Rabs (B2 h) * bpow radix2 55 <= Rabs (B2 x) -> B2 x <> 0 -> dadd x h = x.
Proof.
  intros Fx Fh Hh Nx. assert (E : rnd (B2 x + B2 h) = B2 x) by (apply absorbed; auto; exact (generic_format_B2R 53 1024 x)).
  assert (C := @Bplus_correct 53 1024 prec64 emax64 mode_NE x h Fx Fh). fold (dadd x h) in C. change (BinarySingleNaN.round_mode mode_NE) with (round_mode mode_NE) in C. rewrite E in C.
  rewrite Rlt_bool_true in C by exact (abs_B2R_lt_emax 53 1024 x). destruct C as (C1 & C2 & _).
  apply B2R_inj; [| |exact C1].
  - apply strict; [now rewrite C2|now rewrite C1].
  - now apply strict.
Qed.
Theorem C197_far f h i x : fin (x i) = true -> fin h = true -> fin (dmul (lit 2) h) = true -> 0 < B2 h ->
  B2 h * bpow radix2 56 <= Rabs (B2 (x i)) -> fin (f x) = true -> B2 (f_diff1 f h i x) = 0.
Proof.
  intros Fx Fh F2 Hh Hx Ff. assert (E2 := dmul_pow2 1 h ltac:(lia) F2). change (2 ^ 1)%Z with 2%Z in E2.
  assert (K : bpow radix2 56 = 2 * bpow radix2 55) by (cbn; lra). assert (KP := bpow_gt_0 radix2 55).
  assert (HP : 0 < B2 h * bpow radix2 55) by (apply Rmult_lt_0_compat; lra).
  rewrite K in Hx. assert (Nx : B2 (x i) <> 0). { intros E. rewrite E, Rabs_R0 in Hx. lra. }
  assert (A1 : dadd (x i) h = x i). { apply dadd_absorbed; auto. rewrite (Rabs_pos_eq (B2 h)) by lra. lra. }
  assert (A2 : dsub (x i) (dmul (lit 2) h) = x i). { rewrite dsub_add. apply dadd_absorbed; auto; [now rewrite is_finite_Bopp|]. rewrite B2R_Bopp, Rabs_Ropp, E2, Rabs_pos_eq by lra. lra. }
  rewrite f_diff1_eq. unfold forward, backward. rewrite A1, A2.
  replace (fset x i (x i)) with x by (apply functional_extensionality; intros k; unfold fset; destruct (Nat.eqb_spec k i); subst; auto).
  destruct (dsub_ok (f x) (f x) 0 ltac:(lia) Ff Ff) as [Fs Es]. { unfold Rminus. rewrite Rplus_opp_r, Rabs_R0. apply bpow_ge_0. }
  rewrite Rminus_diag_eq in Es by reflexivity. rewrite rnd_0 in Es.
  destruct (fin_zero _ Fs (proj1 Es)) as [sg ->].
  assert (N2 : B2 (dmul (lit 2) h) <> 0) by (rewrite E2; lra). revert N2. destruct (dmul (lit 2) h) as [s|s| |s m e He]; cbn; auto; try discriminate; lra.
Qed.

(* ---- C198 ---- *)
Definition product : point -> double := fun y => dmul (y 0%nat) (y 1%nat).
(* 1e-3, the default step *)
Definition step : double := dbl 1152921504606847 (-60).
Definition at12 : point := fun k => match k with O => lit 1 | _ => lit 2 end.
Theorem C198_symmetry_refuted : B2 (f_diff2 product step 0 1 at12) < B2 (f_diff2 product step 1 0 at12).
Proof.
  assert (E : dlt (f_diff2 product step 0 1 at12) (f_diff2 product step 1 0 at12) = true) by (vm_compute; reflexivity).
  unfold dlt in E. rewrite Bltb_correct in E by (vm_compute; reflexivity). now destruct (Rlt_bool_spec (B2 (f_diff2 product step 0 1 at12)) (B2 (f_diff2 product step 1 0 at12))).
Qed.

(* what remains: where the steps are taken exactly the two entries differ by rounding errors of the four values only *)
Lemma fset_comm x i j a b : i <> j -> fset (fset x i a) j b = fset (fset x j b) i a.
Proof. intros N. apply functional_extensionality. intros k. unfold fset. destruct (Nat.eqb_spec k j), (Nat.eqb_spec k i); auto. congruence. Qed.
Lemma fset_other x i j a : i <> j -> fset x i a j = x j.
Proof. intros N. unfold fset. destruct (Nat.eqb_spec j i); congruence. Qed.
Lemma f_diff2_mixed f h i j x : i <> j -> dadd (backward (x j) h) (dmul (lit 2) h) = forward (x j) h ->
  f_diff2 f h i j x =
    ddiv (dsub (dadd (dsub (f (fset (fset x i (forward (x i) h)) j (forward (x j) h))) (f (fset (fset x i (forward (x i) h)) j (backward (x j) h))))
                     (f (fset (fset x i (backward (x i) h)) j (backward (x j) h))))
               (f (fset (fset x i (backward (x i) h)) j (forward (x j) h)))) (dmul (dmul (lit 4) h) h).
Proof.
  intros N E. assert (Nij := proj2 (Nat.eqb_neq i j) N). assert (Nji := proj2 (Nat.eqb_neq j i) (not_eq_sym N)).
  unfold f_diff2. rewrite Nij. cbn [negb]. cbv zeta.
  assert (P1 : fset x i (dadd (x i) h) j = x j) by (unfold fset; now rewrite Nji). rewrite P1. fold (forward (x i) h) (forward (x j) h).
  set (X1 := fset (fset x i (forward (x i) h)) j (forward (x j) h)).
  assert (P2 : X1 j = forward (x j) h) by (apply fset_same). rewrite P2. change (dsub (forward (x j) h) (dmul (lit 2) h)) with (backward (x j) h).
  assert (P3 : fset X1 j (backward (x j) h) = fset (fset x i (forward (x i) h)) j (backward (x j) h)) by (unfold X1; apply fset_fset). rewrite P3.
  set (X2 := fset (fset x i (forward (x i) h)) j (backward (x j) h)).
  assert (P4 : X2 i = forward (x i) h) by (unfold X2; rewrite (fset_comm _ i j) by auto; apply fset_same). rewrite P4. change (dsub (forward (x i) h) (dmul (lit 2) h)) with (backward (x i) h).
  assert (P5 : fset X2 i (backward (x i) h) = fset (fset x i (backward (x i) h)) j (backward (x j) h)) by (unfold X2; rewrite (fset_comm x i j), fset_fset by auto; now apply fset_comm, not_eq_sym). rewrite P5.
  rewrite fset_same, fset_fset, E. reflexivity.
Qed.
Lemma four a b c d : fin (dsub (dadd (dsub a b) c) d) = true ->
  Rabs (B2 (dsub (dadd (dsub a b) c) d) - (B2 a - B2 b + B2 c - B2 d)) <= ((1 + u) ^ 3 - 1) * (Rabs (B2 a) + Rabs (B2 b) + Rabs (B2 c) + Rabs (B2 d)).
Proof.
  intros H. generalize (dsub_error _ _ H). destruct (dsub_fin _ _ H) as (H2 & Fd & _). generalize (dadd_error _ _ H2). destruct (dadd_fin _ _ H2) as (H3 & Fc & _). generalize (dsub_error _ _ H3).
  generalize (B2 (dsub (dadd (dsub a b) c) d)) (B2 (dadd (dsub a b) c)) (B2 (dsub a b)) (B2 a) (B2 b) (B2 c) (B2 d). clear. intros z y x a b c d E1 E2 E3.
  assert (U := u_pos). set (A := Rabs a + Rabs b). assert (T1 : Rabs (a - b) <= A) by (unfold A, Rminus; apply Rle_trans with (1 := Rabs_triang _ _); rewrite Rabs_Ropp; lra).
  assert (A0 : 0 <= A) by (unfold A; generalize (Rabs_pos a) (Rabs_pos b); lra). assert (C0 := Rabs_pos c). assert (D0 := Rabs_pos d).
  assert (X : Rabs (x - (a - b)) <= u * A) by (apply Rle_trans with (1 := E1), Rmult_le_compat_l; lra).
  assert (Y : Rabs (y - (a - b + c)) <= ((1 + u) ^ 2 - 1) * (A + Rabs c)).
  { assert (Rabs (x + c) <= (1 + u) * A + Rabs c). { replace (x + c) with ((x - (a - b)) + (a - b) + c) by ring. apply Rle_trans with (1 := Rabs_triang _ _). generalize (Rabs_triang (x - (a - b)) (a - b)). lra. }
    assert (u * Rabs (x + c) <= u * ((1 + u) * A + Rabs c)) by (apply Rmult_le_compat_l; lra).
    replace (y - (a - b + c)) with ((y - (x + c)) + (x - (a - b))) by ring. apply Rle_trans with (1 := Rabs_triang _ _). assert (0 <= u * Rabs c) by (apply Rmult_le_pos; lra). assert (0 <= u * (u * Rabs c)) by (apply Rmult_le_pos; lra). lra. }
  assert (B0 : Rabs (a - b + c) <= A + Rabs c) by (apply Rle_trans with (1 := Rabs_triang _ _); lra).
  assert (Rabs (y - d) <= (1 + u) ^ 2 * (A + Rabs c) + Rabs d). { replace (y - d) with ((y - (a - b + c)) + (a - b + c) + - d) by ring. apply Rle_trans with (1 := Rabs_triang _ _). rewrite Rabs_Ropp. generalize (Rabs_triang (y - (a - b + c)) (a - b + c)). lra. }
  assert (u * Rabs (y - d) <= u * ((1 + u) ^ 2 * (A + Rabs c) + Rabs d)) by (apply Rmult_le_compat_l; lra).
  replace (z - (a - b + c - d)) with ((z - (y - d)) + (y - (a - b + c))) by ring. apply Rle_trans with (1 := Rabs_triang _ _). fold A.
  assert (0 <= u * Rabs d) by (apply Rmult_le_pos; lra). assert (0 <= u * (u * Rabs d)) by (apply Rmult_le_pos; lra). assert (0 <= u * (u * (u * Rabs d))) by (apply Rmult_le_pos; lra). lra.
Qed.
(* the steps of coordinate i, forward, back and forward again, end where they should *)
Definition steps_exact (x : point) (h : double) (i : nat) : Prop := dadd (backward (x i) h) (dmul (lit 2) h) = forward (x i) h.
Theorem C198_symmetry_partial f h i j x : steps_exact x h i -> steps_exact x h j ->
  fin (dmul (dmul (lit 4) h) h) = true -> B2 (dmul (dmul (lit 4) h) h) <> 0 -> fin (f_diff2 f h i j x) = true -> fin (f_diff2 f h j i x) = true ->
  let v a b := Rabs (B2 (f (fset (fset x i a) j b))) in
  let p := forward (x i) h in let q := backward (x i) h in let r := forward (x j) h in let s := backward (x j) h in
  Rabs (B2 (f_diff2 f h i j x) - B2 (f_diff2 f h j i x)) <= 2 * ((1 + u) ^ 4 - 1) * (v p r + v p s + v q s + v q r) / Rabs (B2 (dmul (dmul (lit 4) h) h)) + 2 * eta.
Proof.
  intros Ei Ej Fc Nc. destruct (Nat.eq_dec i j) as [->|N].
  - intros _ _ v p q r s. unfold Rminus at 1. rewrite Rplus_opp_r, Rabs_R0. assert (E := eta_pos). assert (G := pow_ge1 4). apply Rplus_le_le_0_compat; [|lra]. unfold Rdiv. apply Rmult_le_pos; [|apply Rlt_le, Rinv_0_lt_compat, Rabs_pos_lt, Nc].
    apply Rmult_le_pos; [lra|]. assert (V : forall a b, 0 <= v a b) by (intros; apply Rabs_pos). generalize (V p r) (V p s) (V q s) (V q r). lra.
  - rewrite (f_diff2_mixed f h i j x N Ej), (f_diff2_mixed f h j i x (not_eq_sym N) Ei). rewrite !(fset_comm x j i) by auto.
    intros F1 F2 v p q r s. set (c := dmul (dmul (lit 4) h) h) in *.
    destruct (ddiv_error _ _ F1 Fc Nc) as [G1 D1]. destruct (ddiv_error _ _ F2 Fc Nc) as [G2 D2]. generalize (four _ _ _ _ G1) (four _ _ _ _ G2).
    fold p q r s. fold p q r s in D1, D2. fold (v p r) (v p s) (v q s) (v q r).
    revert D1 D2. generalize (B2 (dsub (dadd (dsub (f (fset (fset x i p) j r)) (f (fset (fset x i p) j s))) (f (fset (fset x i q) j s))) (f (fset (fset x i q) j r)))).
    generalize (B2 (dsub (dadd (dsub (f (fset (fset x i p) j r)) (f (fset (fset x i q) j r))) (f (fset (fset x i q) j s))) (f (fset (fset x i p) j s)))).
    assert (T : Rabs (B2 (f (fset (fset x i p) j r)) - B2 (f (fset (fset x i p) j s)) + B2 (f (fset (fset x i q) j s)) - B2 (f (fset (fset x i q) j r))) <= v p r + v p s + v q s + v q r).
    { unfold v. do 3 (apply Rle_trans with (1 := Rabs_triang _ _); rewrite ?Rabs_Ropp; apply Rplus_le_compat_r). lra. }
    revert T. generalize (B2 (f (fset (fset x i p) j r))) (B2 (f (fset (fset x i p) j s))) (B2 (f (fset (fset x i q) j s))) (B2 (f (fset (fset x i q) j r))).
    generalize (v p r) (v p s) (v q s) (v q r). revert Nc. generalize (B2 c).
    match goal with |- context [B2 (ddiv ?A c) - B2 (ddiv ?B c)] => generalize (B2 (ddiv A c)) (B2 (ddiv B c)) end. clear.
    intros d2 d1 C Nc v1 v2 v3 v4 a b cc d T n2 n1 D1 D2 E1 E2. assert (U := u_pos). set (S := v1 + v2 + v3 + v4) in *. replace (v1 + v4 + v3 + v2) with S in E2 by (unfold S; ring).
    replace (a - d + cc - b) with (a - b + cc - d) in E2 by ring. set (t := a - b + cc - d) in *.
    assert (S0 : 0 <= S) by (generalize (Rabs_pos t); lra).
    assert (M1 : Rabs n1 <= (1 + u) ^ 3 * S). { replace n1 with ((n1 - t) + t) by ring. apply Rle_trans with (1 := Rabs_triang _ _). lra. }
    assert (M2 : Rabs n2 <= (1 + u) ^ 3 * S). { replace n2 with ((n2 - t) + t) by ring. apply Rle_trans with (1 := Rabs_triang _ _). lra. }
    assert (IC : 0 < / Rabs C) by (apply Rinv_0_lt_compat, Rabs_pos_lt, Nc).
    assert (Q : forall n, Rabs (n / C) = Rabs n * / Rabs C). { intros n. unfold Rdiv. now rewrite Rabs_mult, Rabs_Rinv. }
    rewrite Q in D1, D2.
    assert (K1 : u * (Rabs n1 * / Rabs C) <= u * ((1 + u) ^ 3 * S * / Rabs C)) by (apply Rmult_le_compat_l; [lra|]; apply Rmult_le_compat_r; lra).
    assert (K2 : u * (Rabs n2 * / Rabs C) <= u * ((1 + u) ^ 3 * S * / Rabs C)) by (apply Rmult_le_compat_l; [lra|]; apply Rmult_le_compat_r; lra).
    assert (K3 : Rabs (n1 / C - n2 / C) <= 2 * ((1 + u) ^ 3 - 1) * S * / Rabs C).
    { replace (n1 / C - n2 / C) with ((n1 - n2) / C) by (field; auto). rewrite Q. apply Rmult_le_compat_r; [lra|]. replace (n1 - n2) with ((n1 - t) + - (n2 - t)) by ring. apply Rle_trans with (1 := Rabs_triang _ _). rewrite Rabs_Ropp. lra. }
    replace (d2 - d1) with ((d2 - n1 / C) + (n1 / C - n2 / C) + - (d1 - n2 / C)) by ring.
    apply Rle_trans with (1 := Rabs_triang _ _). rewrite Rabs_Ropp. eapply Rle_trans; [apply Rplus_le_compat_r, Rabs_triang|]. unfold Rdiv. fold S. lra.
Qed.

(* ---- non-vacuity ---- *)
Definition square : point -> double := fun y => dmul (y 0%nat) (y 0%nat).
Definition at1 : point := fun _ => lit 1.
Definition mesh : double := dbl 1 (-10).
Lemma square_derivatives n : derivatives (fun t => t * t) (fun k t => match k with O => t * t | 1%nat => 2 * t | 2%nat => 2 | _ => 0 end) n.
Proof.
  split; [reflexivity|]. intros k t _. destruct k as [|[|[|k]]].
  - replace (2 * t) with (1 * t + t * 1) by ring. apply (derivable_pt_lim_mult id id t 1 1); apply derivable_pt_lim_id.
  - assert (A : derivable_pt_lim (fun t => 2 * t) t (2 * 1)) by (apply (derivable_pt_lim_scal id 2 t 1), derivable_pt_lim_id). rewrite Rmult_1_r in A. exact A.
  - apply derivable_pt_lim_const.
  - apply derivable_pt_lim_const.
Qed.
Lemma square_error (v : double) x k : fin v = true -> Rabs (B2 v) <= 2 -> Rabs (B2 (square (fset x 0 v)) - B2 v * B2 v) <= 4 * u + eta /\ Rabs (B2 (square (fset x 0 v))) <= 5 + k * k.
Proof.
  intros Fv Hv. unfold square. rewrite fset_same. assert (A : Rabs (B2 v * B2 v) <= 4) by (rewrite Rabs_mult; generalize (Rabs_pos (B2 v)); nra).
  destruct (dmul_ok v v 2 ltac:(lia) Fv Fv) as [F _]. { apply Rle_trans with (1 := A). cbn. lra. }
  assert (D := dmul_error _ _ F). assert (U := u_pos). assert (u * Rabs (B2 v * B2 v) <= u * 4) by (apply Rmult_le_compat_l; lra). split; [lra|].
  replace (B2 (dmul v v)) with ((B2 (dmul v v) - B2 v * B2 v) + B2 v * B2 v) by ring. apply Rle_trans with (1 := Rabs_triang _ _).
  assert (u <= 1 / 16) by (rewrite u_small; lra). assert (eta <= 1 / 16). { unfold eta. replace (1 / 16) with (/ 2 * bpow radix2 (-3)) by (cbn; lra). apply Rmult_le_compat_l; [lra|]. apply bpow_le. lia. }
  assert (0 <= k * k) by nra. lra.
Qed.
Lemma eta_u : eta <= u. Proof. unfold eta, u. apply Rmult_le_compat_l; [lra|]. apply bpow_le. lia. Qed.
(* the square at 1 with step 2^-10: the derivative is 2 up to 2^-35 *)
Example C197_example : Rabs (B2 (f_diff1 square mesh 0 at1) - 2) <= bpow radix2 (-35).
Proof.
  assert (Em : B2 mesh = / 1024). { destruct (B2_dbl 1 (-10)) as [_ E]; [lia|lia|]. unfold mesh. rewrite E. cbn. lra. }
  assert (E1 : B2 (at1 0%nat) = 1) by exact (proj2 (lit_ok 1 ltac:(lia))).
  assert (U := u_small). assert (EU := eta_u). assert (EP := eta_pos).
  assert (Nr : forall t, near 1 (/ 1024) t -> Rabs (t - 1) <= / 512). { intros t H. unfold near in H. rewrite Rabs_R1 in H. rewrite U in H. lra. }
  assert (H := C197_gradient square mesh 0 at1 _ _ 3 0 (4 * u + eta) ltac:(rewrite Em; lra) ltac:(vm_compute; reflexivity) ltac:(vm_compute; reflexivity) (square_derivatives 3)).
  cbv beta iota in H. rewrite Em, E1 in H. specialize (H ltac:(intros t Ht; apply Nr in Ht; apply Rabs_le_between in Ht; apply Rabs_le; lra) ltac:(intros; rewrite Rabs_R0; lra)).
  assert (K : forall v, fin v = true -> near 1 (/ 1024) (B2 v) -> Rabs (B2 (square (fset at1 0 v)) - B2 v * B2 v) <= 4 * u + eta).
  { intros v Fv Hv. apply Nr in Hv. apply (square_error v at1 0 Fv). apply Rabs_le_between in Hv. apply Rabs_le. lra. }
  specialize (H K). rewrite Rmult_1_r, Rabs_R1, (Rabs_pos_eq 2) in H by lra. apply Rle_trans with (1 := H). clear H K Nr.
  replace (bpow radix2 (-35)) with (/ 34359738368) by (cbn; lra). rewrite U in *. assert (eta <= / 9007199254740992) by lra. clear EU. revert H EP. generalize eta. intros et H EP.
  apply Rle_trans with ((1 + / 9007199254740992) ^ 2 * (0 * (/ 1024 * / 1024) / 6 + (4 * / 9007199254740992 + / 9007199254740992) / / 1024 + 2 * / 9007199254740992 * 3 * (1 + / 1024) / / 1024) + ((1 + / 9007199254740992) ^ 2 - 1) * 2 + / 9007199254740992).
  - apply Rplus_le_compat; [|exact H]. apply Rplus_le_compat_r. apply Rmult_le_compat_l; [apply pow_le; lra|]. lra.
  - lra.
Qed.
(* the identity at 2^47 with the default step: the derivative is computed as zero *)
Definition identity : point -> double := fun y => y 0%nat.
Definition far : point := fun _ => dbl 1 47.
Example C197_far_example : B2 (f_diff1 identity step 0 far) = 0.
Proof.
  assert (E : B2 step = 1152921504606847 * bpow radix2 (-60)) by (apply (B2_dbl 1152921504606847 (-60)); lia).
  apply C197_far; try (vm_compute; reflexivity).
  - rewrite E. apply Rmult_lt_0_compat; [lra|apply bpow_gt_0].
  - assert (F : B2 (far 0%nat) = 1 * bpow radix2 47) by (apply (B2_dbl 1 47); lia). rewrite F, E. rewrite Rabs_pos_eq by (apply Rmult_le_pos; [lra|apply bpow_ge_0]). rewrite Rmult_assoc, <- bpow_plus. change (-60 + 56)%Z with (-4)%Z. replace (bpow radix2 47) with (bpow radix2 (-4) * bpow radix2 51) by (rewrite <- bpow_plus; reflexivity).
    replace (bpow radix2 51) with 2251799813685248 by (cbn; lra). generalize (bpow_gt_0 radix2 (-4)). lra.
Qed.
(* the product of the coordinates at (1, 2) with step 1/4 *)
Example C198_example : Rabs (B2 (f_diff2 product (dbl 1 (-2)) 0 1 at12) - B2 (f_diff2 product (dbl 1 (-2)) 1 0 at12)) <= bpow radix2 (-40).
Proof.
  assert (E : B2 (dmul (dmul (lit 4) (dbl 1 (-2))) (dbl 1 (-2))) = / 4).
  { replace (dmul (dmul (lit 4) (dbl 1 (-2))) (dbl 1 (-2))) with (dbl 1 (-2)) by (apply B2SF_inj; vm_compute; reflexivity). rewrite (proj2 (B2_dbl 1 (-2) ltac:(lia) ltac:(lia))). cbn. lra. }
  assert (H := C198_symmetry_partial product (dbl 1 (-2)) 0 1 at12). cbv zeta in H.
  assert (V : forall a b, fin a = true -> fin b = true -> Rabs (B2 a) <= 2 -> Rabs (B2 b) <= 4 -> Rabs (B2 (product (fset (fset at12 0 a) 1 b))) <= 8).
  { intros a b Fa Fb Ha Hb. change (product (fset (fset at12 0 a) 1 b)) with (dmul a b).
    assert (A : Rabs (B2 a * B2 b) <= bpow radix2 3). { rewrite Rabs_mult. apply Rle_trans with (2 * 4); [|cbn; lra]. apply Rmult_le_compat; auto using Rabs_pos. }
    destruct (dmul_ok a b 3 ltac:(lia) Fa Fb A) as [_ ->]. replace 8 with (bpow radix2 3) by (cbn; lra). apply rnd_bound; [lia|exact A]. }
  assert (Q : forall m e, (Z.abs m < 2 ^ 53)%Z -> (-1074 <= e <= 900)%Z -> B2 (dbl m e) = IZR m * bpow radix2 e) by (intros m e A B; exact (proj2 (B2_dbl m e A B))).
  assert (P1 : forward (at12 0%nat) (dbl 1 (-2)) = dbl 5 (-2)) by (apply B2SF_inj; vm_compute; reflexivity).
  assert (P2 : backward (at12 0%nat) (dbl 1 (-2)) = dbl 3 (-2)) by (apply B2SF_inj; vm_compute; reflexivity).
  assert (P3 : forward (at12 1%nat) (dbl 1 (-2)) = dbl 9 (-2)) by (apply B2SF_inj; vm_compute; reflexivity).
  assert (P4 : backward (at12 1%nat) (dbl 1 (-2)) = dbl 7 (-2)) by (apply B2SF_inj; vm_compute; reflexivity).
  assert (Fd : forall m e, (Z.abs m < 2 ^ 53)%Z -> (-1074 <= e <= 900)%Z -> fin (dbl m e) = true) by (intros m e A B; exact (proj1 (B2_dbl m e A B))).
  rewrite P1, P2, P3, P4, E in H.
  eapply Rle_trans; [apply H|].
  - unfold steps_exact. apply B2SF_inj. vm_compute. reflexivity.
  - unfold steps_exact. apply B2SF_inj. vm_compute. reflexivity.
  - vm_compute. reflexivity.
  - lra.
  - vm_compute. reflexivity.
  - vm_compute. reflexivity.
  - rewrite (Rabs_pos_eq (/ 4)) by lra.
    assert (B5 : Rabs (B2 (dbl 5 (-2))) <= 2) by (rewrite Q by lia; cbn; apply Rabs_le; lra). assert (B3 : Rabs (B2 (dbl 3 (-2))) <= 2) by (rewrite Q by lia; cbn; apply Rabs_le; lra).
    assert (B9 : Rabs (B2 (dbl 9 (-2))) <= 4) by (rewrite Q by lia; cbn; apply Rabs_le; lra). assert (B7 : Rabs (B2 (dbl 7 (-2))) <= 4) by (rewrite Q by lia; cbn; apply Rabs_le; lra).
    generalize (V _ _ (Fd 5%Z (-2)%Z ltac:(lia) ltac:(lia)) (Fd 9%Z (-2)%Z ltac:(lia) ltac:(lia)) B5 B9) (V _ _ (Fd 5%Z (-2)%Z ltac:(lia) ltac:(lia)) (Fd 7%Z (-2)%Z ltac:(lia) ltac:(lia)) B5 B7) (V _ _ (Fd 3%Z (-2)%Z ltac:(lia) ltac:(lia)) (Fd 7%Z (-2)%Z ltac:(lia) ltac:(lia)) B3 B7) (V _ _ (Fd 3%Z (-2)%Z ltac:(lia) ltac:(lia)) (Fd 9%Z (-2)%Z ltac:(lia) ltac:(lia)) B3 B9).
    generalize (Rabs (B2 (product (fset (fset at12 0 (dbl 5 (-2))) 1 (dbl 9 (-2)))))) (Rabs (B2 (product (fset (fset at12 0 (dbl 5 (-2))) 1 (dbl 7 (-2)))))) (Rabs (B2 (product (fset (fset at12 0 (dbl 3 (-2))) 1 (dbl 7 (-2)))))) (Rabs (B2 (product (fset (fset at12 0 (dbl 3 (-2))) 1 (dbl 9 (-2)))))).
    intros a b c d Ha Hb Hc Hd. assert (EU := eta_u). rewrite u_small in *. replace (bpow radix2 (-40)) with (/ 1099511627776) by (cbn; lra).
    apply Rle_trans with (2 * ((1 + / 9007199254740992) ^ 4 - 1) * (8 + 8 + 8 + 8) / / 4 + 2 * / 9007199254740992).
    + apply Rplus_le_compat; [|lra]. unfold Rdiv. apply Rmult_le_compat_r; [lra|]. apply Rmult_le_compat_l; lra.
    + lra.
Qed.
Print Assumptions C197_gradient. Print Assumptions C197_far. Print Assumptions C198_symmetry_refuted. Print Assumptions C198_symmetry_partial.
