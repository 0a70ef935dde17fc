(* C199: the mixed second derivatives in double arithmetic. *)
From Coq Require Import Reals Lra Lia List Bool ZArith FunctionalExtensionality.
From Flocq Require Import Core IEEE754.BinarySingleNaN Relative Plus_error Mult_error.
From Coquelicot Require Import Coquelicot.
From Verif Require Import Base RSum FieldModel FieldProps FieldErr FieldMixed SymbolsModel SymbolsProps FloatModel FloatProps FloatSearch FloatSplineModel FloatSpline FloatDiffModel FloatDiff FloatDiff2.
Open Scope R_scope.

(* back where the first step ended, up to rounding *)
Definition returned (x h : double) : double := dadd (backward x h) (dmul (lit 2) h).
Lemma f_diff2_stencil f h i j x : i <> j ->
  f_diff2 f h i j x =
    ddiv (dsub (dadd (dsub (f (fset (fset x i (forward (x i) h)) j (forward (x j) h))) (f (fset (fset x i (forward (x i) h)) j (backward (x j) h))))
                     (f (fset (fset x i (backward (x i) h)) j (backward (x j) h))))
               (f (fset (fset x i (backward (x i) h)) j (returned (x j) h)))) (dmul (dmul (lit 4) h) h).
Proof.
  intros N. assert (Nij := proj2 (Nat.eqb_neq i j) N). assert (Nji := proj2 (Nat.eqb_neq j i) (not_eq_sym N)).
  unfold f_diff2. rewrite Nij. cbn [negb]. cbv zeta.
  assert (P1 : fset x i (dadd (x i) h) j = x j) by (unfold fset; now rewrite Nji). rewrite P1. fold (forward (x i) h) (forward (x j) h).
  set (X1 := fset (fset x i (forward (x i) h)) j (forward (x j) h)).
  assert (P2 : X1 j = forward (x j) h) by (apply fset_same). rewrite P2. change (dsub (forward (x j) h) (dmul (lit 2) h)) with (backward (x j) h).
  assert (P3 : fset X1 j (backward (x j) h) = fset (fset x i (forward (x i) h)) j (backward (x j) h)) by (unfold X1; apply fset_fset). rewrite P3.
  set (X2 := fset (fset x i (forward (x i) h)) j (backward (x j) h)).
  assert (P4 : X2 i = forward (x i) h) by (unfold X2; rewrite (fset_comm _ i j) by auto; apply fset_same). rewrite P4. change (dsub (forward (x i) h) (dmul (lit 2) h)) with (backward (x i) h).
  assert (P5 : fset X2 i (backward (x i) h) = fset (fset x i (backward (x i) h)) j (backward (x j) h)) by (unfold X2; rewrite (fset_comm x i j), fset_fset by auto; now apply fset_comm, not_eq_sym). rewrite P5.
  rewrite fset_same, fset_fset. reflexivity.
Qed.
Lemma returned_error x h : fin (returned x h) = true -> 0 < B2 h ->
  fin (backward x h) = true /\ Rabs (B2 (returned x h) - (B2 x + B2 h)) <= 5 * u * (Rabs (B2 x) + B2 h).
Proof.
  intros Fr Hh. unfold returned in *. destruct (dadd_fin _ _ Fr) as (Fb & F2 & _). split; auto. destruct (points_error _ _ Fb Hh) as (Fx & Fh & _ & E2 & P1 & P2).
  generalize (dadd_error _ _ Fr). rewrite E2. set (q := B2 (backward x h)) in *. set (r := B2 (dadd (backward x h) (dmul (lit 2) h))). intros A.
  assert (U := u_pos). assert (U1 : u <= 1 / 16) by (rewrite u_small; lra). set (W := Rabs (B2 x) + B2 h) in *. assert (W0 : 0 <= W) by (unfold W; generalize (Rabs_pos (B2 x)); lra).
  assert (T : Rabs (B2 x + B2 h) <= W). { apply Rle_trans with (1 := Rabs_triang _ _). unfold W. rewrite (Rabs_pos_eq (B2 h)); lra. }
  assert (Q : Rabs (q + 2 * B2 h) <= (1 + 3 * u) * W). { replace (q + 2 * B2 h) with ((q - (B2 x - B2 h)) + (B2 x + B2 h)) by ring. apply Rle_trans with (1 := Rabs_triang _ _). lra. }
  assert (u * Rabs (q + 2 * B2 h) <= u * ((1 + 3 * u) * W)) by (apply Rmult_le_compat_l; lra).
  assert (uW : 0 <= u * W) by (apply Rmult_le_pos; lra). assert (u * ((1 + 3 * u) * W) <= 2 * (u * W)) by nra.
  replace (r - (B2 x + B2 h)) with ((r - (q + 2 * B2 h)) + (q - (B2 x - B2 h))) by ring. apply Rle_trans with (1 := Rabs_triang _ _). lra.
Qed.
Lemma divisor4 h : fin (dmul (dmul (lit 4) h) h) = true -> bpow radix2 (-500) <= B2 h -> Rabs (B2 (dmul (dmul (lit 4) h) h) - 4 * B2 h * B2 h) <= u * (4 * B2 h * B2 h).
Proof.
  intros F Hh. assert (P := bpow_gt_0 radix2 (-500)). destruct (dmul_fin' _ _ F) as (F1 & Fh & E). assert (E1 := dmul_pow2 2 h ltac:(lia) F1). change (2 ^ 2)%Z with 4%Z in E1. rewrite E, E1.
  assert (B : bpow radix2 (-1000) = bpow radix2 (-500) * bpow radix2 (-500)) by (rewrite <- bpow_plus; reflexivity).
  assert (L2 : bpow radix2 (-1022) <= bpow radix2 (-1000)) by (apply bpow_le; lia).
  assert (H2 : bpow radix2 (-1000) <= B2 h * B2 h) by (rewrite B; apply Rmult_le_compat; lra).
  assert (Z := @relative_error_N_FLT radix2 (-1074) 53 prec64 (fun x => negb (Z.even x)) (4 * B2 h * B2 h)). change (round radix2 (FLT_exp (-1074) 53) (Znearest (fun x => negb (Z.even x)))) with rnd in Z.
  assert (P2 := bpow_gt_0 radix2 (-1000)). rewrite (Rabs_pos_eq (4 * B2 h * B2 h)) in Z by lra. apply Z. change (-1074 + 53 - 1)%Z with (-1022)%Z. lra.
Qed.

Definition near5 (x h t : R) : Prop := Rabs (t - x) <= h + 5 * u * (Rabs x + h).
(* F the function of the coordinates i and j the code was meant to compute; P, Q, M1, M2 as in C109_mixed_error *)
Theorem C199_mixed (f : point -> double) h i j x F P Q L M1 M2 V e : i <> j ->
  bpow radix2 (-500) <= B2 h -> fin (returned (x i) h) = true -> fin (returned (x j) h) = true -> fin (dmul (dmul (lit 4) h) h) = true -> fin (f_diff2 f h i j x) = true ->
  let a := B2 (x i) in let b := B2 (x j) in let H := B2 h in
  (forall t, derivatives (fun s => F s t) (fun k s => P k s t) 3) -> derivatives (P 1%nat a) Q 3 ->
  (forall t, b - H <= t <= b + H -> Rabs (Q 3%nat t) <= M1) ->
  (forall s, a - H <= s <= a + H -> Rabs (P 3%nat s (b + H) - P 3%nat s (b - H)) <= M2 * (2 * H)) ->
  (forall s s' t t', near5 a H s -> near5 a H s' -> near5 b H t -> near5 b H t' -> Rabs (F s t - F s' t') <= L * (Rabs (s - s') + Rabs (t - t'))) ->
  (forall v w, fin v = true -> fin w = true -> near5 a H (B2 v) -> near5 b H (B2 w) ->
    Rabs (B2 (f (fset (fset x i v) j w)) - F (B2 v) (B2 w)) <= e /\ Rabs (B2 (f (fset (fset x i v) j w))) <= V) ->
  Rabs (B2 (f_diff2 f h i j x) - Q 1%nat b) <=
    (1 + 3 * u) * ((M1 + M2) * (H * H) / 6 + (e + 3 * u * L * (Rabs a + Rabs b + 2 * H) + ((1 + u) ^ 3 - 1) * V) / (H * H)) + 3 * u * Rabs (Q 1%nat b) + eta.
Proof.
  intros Nij Hm Fi Fj Fc Fd a b H HP HQ HM1 HM2 HL Hf. assert (Pm := bpow_gt_0 radix2 (-500)). assert (Hh : 0 < H) by (unfold H; lra).
  destruct (returned_error _ _ Fi Hh) as [Bi _]. destruct (returned_error _ _ Fj Hh) as [Bj Rj]. destruct (points_error _ _ Bi Hh) as (_ & Fh & _ & _ & Pi & Qi). destruct (points_error _ _ Bj Hh) as (_ & _ & _ & _ & Pj & Qj).
  assert (Gi : fin (forward (x i) h) = true) by (unfold backward in Bi; exact (proj1 (dsub_fin _ _ Bi))). assert (Gj : fin (forward (x j) h) = true) by (unfold backward in Bj; exact (proj1 (dsub_fin _ _ Bj))).
  assert (Ec := divisor4 h Fc Hm). rewrite (f_diff2_stencil _ _ _ _ _ Nij) in *. fold H in Ec, Pi, Qi, Pj, Qj, Rj. fold a in Pi, Qi. fold b in Pj, Qj, Rj.
  set (p := forward (x i) h) in *. set (q := backward (x i) h) in *. set (r := forward (x j) h) in *. set (s := backward (x j) h) in *. set (r' := returned (x j) h) in *.
  set (K := 4 * H * H) in *. assert (HH : 0 < H * H) by (apply Rmult_lt_0_compat; lra). assert (K0 : 0 < K) by (unfold K; lra).
  set (c := dmul (dmul (lit 4) h) h) in *. assert (U := u_pos). assert (U1 : u <= 1 / 1024) by (rewrite u_small; lra). assert (ET := eta_pos).
  apply Rabs_le_between in Ec. assert (uK : u * K <= 1 / 1024 * K) by (apply Rmult_le_compat_r; lra). assert (C0 : 0 < B2 c) by lra.
  set (d := ddiv _ _) in *. destruct (ddiv_error _ _ Fd Fc) as (Fs & Ed); [lra|]. fold d in Ed. assert (E4 := four _ _ _ _ Fs). set (n := B2 (dsub _ (f (fset (fset x i q) j r')))) in *.
  set (Wa := Rabs a + H) in *. set (Wb := Rabs b + H) in *. assert (Wa0 : 0 <= u * Wa) by (apply Rmult_le_pos; [lra|unfold Wa; generalize (Rabs_pos a); lra]). assert (Wb0 : 0 <= u * Wb) by (apply Rmult_le_pos; [lra|unfold Wb; generalize (Rabs_pos b); lra]).
  assert (N1 : forall y z k, -H <= k <= H -> Rabs (z - (y + k)) <= 5 * (u * (Rabs y + H)) -> near5 y H z).
  { intros y z k Hk Hz. unfold near5. apply Rabs_le_between in Hz. apply Rabs_le. lra. }
  assert (Npi : near5 a H (B2 p)) by (apply (N1 a _ H); [lra|fold Wa; lra]). assert (Nqi : near5 a H (B2 q)) by (apply (N1 a _ (- H)); [lra|fold Wa; fold (a - H); lra]).
  assert (Npj : near5 b H (B2 r)) by (apply (N1 b _ H); [lra|fold Wb; lra]). assert (Nqj : near5 b H (B2 s)) by (apply (N1 b _ (- H)); [lra|fold Wb; fold (b - H); lra]). assert (Nrj : near5 b H (B2 r')) by (apply (N1 b _ H); [lra|fold Wb; lra]).
  assert (N2 : forall y k, -H <= k <= H -> near5 y H (y + k)). { intros y k Hk. apply (N1 y _ k Hk). unfold Rminus. rewrite Rplus_opp_r, Rabs_R0. generalize (Rabs_pos y). intros. apply Rmult_le_pos; [lra|]. apply Rmult_le_pos; lra. }
  assert (L0 : 0 <= L). { destruct (Rle_lt_dec 0 L) as [|Neg]; auto. assert (Z := HL (a + 0) (a + H) (b + 0) (b + 0) (N2 a 0 ltac:(lra)) (N2 a H ltac:(lra)) (N2 b 0 ltac:(lra)) (N2 b 0 ltac:(lra))).
    replace (a + 0 - (a + H)) with (- H) in Z by ring. replace (b + 0 - (b + 0)) with 0 in Z by ring. rewrite Rabs_R0, (Rabs_Ropp H), (Rabs_pos_eq H), (Rplus_0_r H) in Z by lra. assert (Z2 := Rle_trans _ _ _ (Rabs_pos _) Z). assert (L * H < 0 * H) by (apply Rmult_lt_compat_r; lra). lra. }
  assert (VE : forall v w k l ka lb, fin v = true -> fin w = true -> near5 a H (B2 v) -> near5 b H (B2 w) -> -H <= k <= H -> -H <= l <= H -> Rabs (B2 v - (a + k)) <= ka * (u * Wa) -> Rabs (B2 w - (b + l)) <= lb * (u * Wb) ->
    Rabs (B2 (f (fset (fset x i v) j w)) - F (a + k) (b + l)) <= e + L * (ka * (u * Wa) + lb * (u * Wb))).
  { intros v w k l ka lb Fv Fw Nv Nw Hk Hl Ev Ew. destruct (Hf v w Fv Fw Nv Nw) as [A _].
    replace (B2 (f (fset (fset x i v) j w)) - F (a + k) (b + l)) with ((B2 (f (fset (fset x i v) j w)) - F (B2 v) (B2 w)) + (F (B2 v) (B2 w) - F (a + k) (b + l))) by ring.
    apply Rle_trans with (1 := Rabs_triang _ _). apply Rplus_le_compat; [exact A|]. apply Rle_trans with (1 := HL (B2 v) (a + k) (B2 w) (b + l) Nv (N2 a k Hk) Nw (N2 b l Hl)). apply Rmult_le_compat_l; lra. }
  assert (Y1 := VE p r H H 1 1 Gi Gj Npi Npj ltac:(lra) ltac:(lra) ltac:(lra) ltac:(lra)).
  assert (Y2 := VE p s H (- H) 1 3 Gi Bj Npi Nqj ltac:(lra) ltac:(lra) ltac:(lra) ltac:(fold (b - H); lra)).
  assert (Y3 := VE q s (- H) (- H) 3 3 Bi Bj Nqi Nqj ltac:(lra) ltac:(lra) ltac:(fold (a - H); lra) ltac:(fold (b - H); lra)).
  assert (Y4 := VE q r' (- H) H 3 5 Bi Fj Nqi Nrj ltac:(lra) ltac:(lra) ltac:(fold (a - H); lra) ltac:(lra)).
  fold (a - H) in Y3, Y4. fold (b - H) in Y2, Y3.
  assert (C := central_mixed F a b H P Q M1 M2 Hh HP HQ HM1 HM2). fold K in C. set (g := F (a + H) (b + H) - F (a + H) (b - H) + F (a - H) (b - H) - F (a - H) (b + H)) in *.
  set (E := e + 3 * u * L * (Wa + Wb) + ((1 + u) ^ 3 - 1) * V).
  assert (LW : 0 <= L * (u * Wa) /\ 0 <= L * (u * Wb)) by (split; apply Rmult_le_pos; lra).
  assert (SG : Rabs (n - g) <= 4 * E).
  { generalize (proj2 (Hf p r Gi Gj Npi Npj)) (proj2 (Hf p s Gi Bj Npi Nqj)) (proj2 (Hf q s Bi Bj Nqi Nqj)) (proj2 (Hf q r' Bi Fj Nqi Nrj)). intros Z1 Z2 Z3 Z4.
    assert (q0 : 0 <= (1 + u) ^ 3 - 1) by (generalize (pow_ge1 3); lra).
    assert (QQ : ((1 + u) ^ 3 - 1) * (Rabs (B2 (f (fset (fset x i p) j r))) + Rabs (B2 (f (fset (fset x i p) j s))) + Rabs (B2 (f (fset (fset x i q) j s))) + Rabs (B2 (f (fset (fset x i q) j r')))) <= ((1 + u) ^ 3 - 1) * (4 * V)) by (apply Rmult_le_compat_l; lra).
    apply Rabs_le_between in Y1. apply Rabs_le_between in Y2. apply Rabs_le_between in Y3. apply Rabs_le_between in Y4. apply Rabs_le_between in E4. apply Rabs_le. unfold g, E. lra. }
  set (T := (M1 + M2) * (H * H) / 6 + E / (H * H)).
  assert (ST : Rabs (n / K - Q 1%nat b) <= T).
  { replace (n / K - Q 1%nat b) with ((g / K - Q 1%nat b) + (n - g) / K) by (field; lra). apply Rle_trans with (1 := Rabs_triang _ _). unfold T. apply Rplus_le_compat; [exact C|]. unfold Rdiv at 1. rewrite Rabs_mult, (Rabs_pos_eq (/ K)) by (apply Rlt_le, Rinv_0_lt_compat, K0).
    apply Rle_trans with (4 * E * / K); [apply Rmult_le_compat_r; [apply Rlt_le, Rinv_0_lt_compat, K0|exact SG]|]. right. unfold K. field. lra. }
  assert (SC : Rabs (n / B2 c - n / K) <= (3 / 2 * u) * Rabs (n / K)).
  { replace (n / B2 c - n / K) with (n / K * ((K - B2 c) / B2 c)) by (field; lra). rewrite Rabs_mult, Rmult_comm. apply Rmult_le_compat_r; [apply Rabs_pos|].
    unfold Rdiv at 1. rewrite Rabs_mult, (Rabs_pos_eq (/ B2 c)) by (apply Rlt_le, Rinv_0_lt_compat, C0). apply Rmult_le_reg_r with (B2 c); auto. rewrite Rmult_assoc, Rinv_l, Rmult_1_r by lra.
    assert (B1 : Rabs (K - B2 c) <= u * K) by (apply Rabs_le; lra). apply Rle_trans with (1 := B1). assert (2 / 3 * K <= B2 c) by lra. apply Rle_trans with (3 / 2 * u * (2 / 3 * K)); [lra|apply Rmult_le_compat_l; lra]. }
  set (w := n / K) in *.
  assert (WD : Rabs w <= Rabs (Q 1%nat b) + T). { replace w with (Q 1%nat b + (w - Q 1%nat b)) by ring. apply Rle_trans with (1 := Rabs_triang _ _). lra. }
  assert (SW : Rabs (n / B2 c) <= (1 + 3 / 2 * u) * Rabs w). { replace (n / B2 c) with ((n / B2 c - w) + w) by ring. apply Rle_trans with (1 := Rabs_triang _ _). lra. }
  assert (u * Rabs (n / B2 c) <= u * ((1 + 3 / 2 * u) * Rabs w)) by (apply Rmult_le_compat_l; lra).
  assert (u * (3 / 2 * u) <= 1 / 2 * u) by nra. assert (W1 := Rabs_pos w). assert (u * (3 / 2 * u) * Rabs w <= 1 / 2 * u * Rabs w) by (apply Rmult_le_compat_r; lra).
  assert (Y : Rabs (B2 d - w) <= 3 * u * Rabs w + eta). { replace (B2 d - w) with ((B2 d - n / B2 c) + (n / B2 c - w)) by ring. apply Rle_trans with (1 := Rabs_triang _ _). lra. }
  assert (3 * u * Rabs w <= 3 * u * (Rabs (Q 1%nat b) + T)) by (apply Rmult_le_compat_l; lra).
  replace (B2 d - Q 1%nat b) with ((B2 d - w) + (w - Q 1%nat b)) by ring. apply Rle_trans with (1 := Rabs_triang _ _).
  replace (Rabs a + Rabs b + 2 * H) with (Wa + Wb) by (unfold Wa, Wb; ring). fold E. fold T. lra.
Qed.
(* non-vacuity: the product of the coordinates at (1, 2) with step 2^-10: the mixed derivative is 1 up to 2^-24 *)
Example C199_mixed_example : Rabs (B2 (f_diff2 product mesh 0 1 at12) - 1) <= bpow radix2 (-24).
Proof.
  assert (Em : B2 mesh = / 1024). { destruct (B2_dbl 1 (-10)) as [_ E]; [lia|lia|]. unfold mesh. rewrite E. cbn. lra. }
  assert (E1 : B2 (at12 0%nat) = 1) by exact (proj2 (lit_ok 1 ltac:(lia))). assert (E2 : B2 (at12 1%nat) = 2) by exact (proj2 (lit_ok 2 ltac:(lia))).
  assert (U := u_small). assert (EU := eta_u). assert (EP := eta_pos).
  assert (N1 : forall t, near5 1 (/ 1024) t -> Rabs t <= 2). { intros t H. unfold near5 in H. rewrite Rabs_R1, U in H. apply Rabs_le_between in H. apply Rabs_le. lra. }
  assert (N2 : forall t, near5 2 (/ 1024) t -> Rabs t <= 3). { intros t H. unfold near5 in H. rewrite (Rabs_pos_eq 2), U in H by lra. apply Rabs_le_between in H. apply Rabs_le. lra. }
  assert (G := C199_mixed product mesh 0 1 at12 (fun s t => s * t) (fun k s t => match k with O => s * t | 1%nat => t | _ => 0 end) (fun k t => match k with O => t | 1%nat => 1 | _ => 0 end) 3 0 0 7 (6 * u + eta)).
  cbv zeta beta iota in G. rewrite Em, E1, E2 in G.
  assert (H : Rabs (B2 (f_diff2 product mesh 0 1 at12) - 1) <= (1 + 3 * u) * ((0 + 0) * (/ 1024 * / 1024) / 6 + (6 * u + eta + 3 * u * 3 * (Rabs 1 + Rabs 2 + 2 * / 1024) + ((1 + u) ^ 3 - 1) * 7) / (/ 1024 * / 1024)) + 3 * u * Rabs 1 + eta).
  { apply G.
    - lia.
    - replace (/ 1024) with (bpow radix2 (-10)) by (cbn; lra). apply bpow_le. lia.
    - vm_compute. reflexivity.
    - vm_compute. reflexivity.
    - vm_compute. reflexivity.
    - vm_compute. reflexivity.
    - intros t. split; [reflexivity|]. intros k s Hk. destruct k as [|[|k]].
      + assert (A : derivable_pt_lim (fun s => t * s) s (t * 1)) by (apply (derivable_pt_lim_scal id t s 1), derivable_pt_lim_id). rewrite Rmult_1_r in A.
        replace (fun s => s * t) with (fun s => t * s) by (apply functional_extensionality; intros; ring). exact A.
      + apply derivable_pt_lim_const.
      + apply derivable_pt_lim_const.
    - split; [reflexivity|]. intros k t Hk. destruct k as [|[|k]]; [apply derivable_pt_lim_id|apply derivable_pt_lim_const|apply derivable_pt_lim_const].
    - intros. rewrite Rabs_R0. lra.
    - intros. unfold Rminus. rewrite Rplus_opp_r, Rabs_R0. lra.
    - intros s s' t t' Hs Hs' Ht Ht'. apply N1 in Hs'. apply N2 in Ht. replace (s * t - s' * t') with (t * (s - s') + s' * (t - t')) by ring.
      apply Rle_trans with (1 := Rabs_triang _ _). rewrite !Rabs_mult. generalize (Rabs_pos (s - s')) (Rabs_pos (t - t')). intros. nra.
    - intros v w Fv Fw Hv Hw. apply N1 in Hv. apply N2 in Hw. change (product (fset (fset at12 0 v) 1 w)) with (dmul v w).
      assert (A : Rabs (B2 v * B2 w) <= 6). { rewrite Rabs_mult. replace 6 with (2 * 3) by ring. apply Rmult_le_compat; auto using Rabs_pos. }
      destruct (dmul_ok v w 3 ltac:(lia) Fv Fw) as [Fm _]. { apply Rle_trans with (1 := A). cbn. lra. }
      assert (D := dmul_error _ _ Fm). assert (UP := u_pos). assert (u * Rabs (B2 v * B2 w) <= u * 6) by (apply Rmult_le_compat_l; lra). split; [lra|].
      replace (B2 (dmul v w)) with ((B2 (dmul v w) - B2 v * B2 w) + B2 v * B2 w) by ring. apply Rle_trans with (1 := Rabs_triang _ _). assert (u <= 1 / 16) by (rewrite U; lra). lra. }
  apply Rle_trans with (1 := H). clear H G N1 N2. rewrite Rabs_R1, (Rabs_pos_eq 2) by lra. replace (bpow radix2 (-24)) with (/ 16777216) by (cbn; lra). rewrite U in *. revert EU EP. generalize eta. intros et EU EP.
  apply Rle_trans with ((1 + 3 * / 9007199254740992) * ((0 + 0) * (/ 1024 * / 1024) / 6 + (6 * / 9007199254740992 + / 9007199254740992 + 3 * / 9007199254740992 * 3 * (1 + 2 + 2 * / 1024) + ((1 + / 9007199254740992) ^ 3 - 1) * 7) / (/ 1024 * / 1024)) + 3 * / 9007199254740992 * 1 + / 9007199254740992).
  - apply Rplus_le_compat; [|exact EU]. apply Rplus_le_compat_r. apply Rmult_le_compat_l; [lra|]. apply Rplus_le_compat_l. unfold Rdiv. apply Rmult_le_compat_r; [lra|]. lra.
  - lra.
Qed.
Print Assumptions C199_mixed.
