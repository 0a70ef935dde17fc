(* C193-C194: the line searches in double arithmetic.  Backtracking with a factor of at most 1/2 always returns; with a larger factor it
   may not.  The Wolfe search with its default parameters may not return close to a minimiser. *)
From Coq Require Import Reals Lra Lia List Bool ZArith.
From Flocq Require Import Core IEEE754.BinarySingleNaN.
From Verif Require Import Base SymbolsModel SymbolsProps FloatModel FloatProps.
Import ListNotations.
Open Scope R_scope.

(* ---- specification ---- *)
(* the same number, up to the sign of zero *)
Definition same_value (a b : double) : Prop := a = b \/ exists s s', a = B754_zero s /\ b = B754_zero s'.
(* the objective does not tell 0 from -0 *)
Definition respects (obj : list double -> double) : Prop := forall p q, Forall2 same_value p q -> obj p = obj q.

#[local] Instance vfexp2 : Valid_exp (SpecFloat.fexp 53 1024) := @fexp_correct 53 1024 prec64.
Lemma rnd_bpow e : (-1074 <= e)%Z -> rnd (bpow radix2 e) = bpow radix2 e.
Proof. intros H. apply round_generic; [typeclasses eauto|]. apply generic_format_bpow. unfold SpecFloat.fexp, SpecFloat.emin. lia. Qed.
Lemma rnd_tiny : rnd (bpow radix2 (-1075)) = 0.
Proof.
  unfold round, scaled_mantissa, cexp. rewrite mag_bpow. replace (SpecFloat.fexp 53 1024 (-1075 + 1)) with (-1074)%Z by reflexivity. rewrite <- bpow_plus. replace (-1075 + - -1074)%Z with (-1)%Z by reflexivity.
  replace (round_mode mode_NE (bpow radix2 (-1))) with 0%Z; [unfold F2R; cbn; lra|]. symmetry. cbn [round_mode]. unfold Znearest. replace (Zfloor (bpow radix2 (-1))) with 0%Z by (symmetry; apply Zfloor_imp; cbn; lra).
  rewrite Rcompare_Eq by (cbn; lra). reflexivity.
Qed.
Lemma rnd_bound x e : (-1074 <= e)%Z -> Rabs x <= bpow radix2 e -> Rabs (rnd x) <= bpow radix2 e.
Proof. intros He H. rewrite <- rnd_abs, <- (rnd_bpow e He). now apply rnd_le. Qed.
Lemma fin_zero (a : double) : fin a = true -> B2 a = 0 -> exists s, a = B754_zero s.
Proof.
  destruct a as [s|s| |s m e H]; cbn [is_finite B2R]; intros F E; try discriminate; eauto. exfalso. destruct s; cbn [SpecFloat.cond_Zopp] in E.
  - assert (F2R (Float radix2 (Z.neg m) e) < 0) by (apply F2R_lt_0; reflexivity). cbn in *. lra.
  - assert (0 < F2R (Float radix2 (Z.pos m) e)) by (apply F2R_gt_0; reflexivity). cbn in *. lra.
Qed.
Lemma dmul_ok a b e : (-1074 <= e < 1024)%Z -> fin a = true -> fin b = true -> Rabs (B2 a * B2 b) <= bpow radix2 e -> fin (dmul a b) = true /\ B2 (dmul a b) = rnd (B2 a * B2 b).
Proof.
  intros He Fa Fb H. assert (C := @Bmult_correct 53 1024 prec64 emax64 mode_NE a b). fold (dmul a b) in C. rewrite Rlt_bool_true in C.
  - destruct C as (C1 & C2 & _). rewrite C2, Fa, Fb. auto.
  - apply Rle_lt_trans with (bpow radix2 e); [apply rnd_bound; [lia|auto]|]. apply bpow_lt. lia.
Qed.
Lemma dadd_ok a b e : (-1074 <= e < 1024)%Z -> fin a = true -> fin b = true -> Rabs (B2 a + B2 b) <= bpow radix2 e -> fin (dadd a b) = true /\ B2 (dadd a b) = rnd (B2 a + B2 b).
Proof.
  intros He Fa Fb H. assert (C := @Bplus_correct 53 1024 prec64 emax64 mode_NE a b Fa Fb). fold (dadd a b) in C. rewrite Rlt_bool_true in C.
  - destruct C as (C1 & C2 & _). auto.
  - apply Rle_lt_trans with (bpow radix2 e); [apply rnd_bound; [lia|auto]|]. apply bpow_lt. lia.
Qed.

(* ---- C193 ---- *)
Lemma halve a b e : (-1074 <= e < 1024)%Z -> fin a = true -> fin b = true -> Rabs (B2 b) <= / 2 -> Rabs (B2 a) <= bpow radix2 (e + 1) -> fin (dmul a b) = true /\ Rabs (B2 (dmul a b)) <= bpow radix2 e.
Proof.
  intros He Fa Fb Hb Ha. assert (P : Rabs (B2 a * B2 b) <= bpow radix2 e).
  { rewrite Rabs_mult. replace (bpow radix2 e) with (bpow radix2 (e + 1) * / 2) by (rewrite bpow_plus; cbn; lra). apply Rmult_le_compat; auto using Rabs_pos. }
  destruct (dmul_ok a b e He Fa Fb P) as [F E]. split; auto. rewrite E. apply rnd_bound; [lia|auto].
Qed.
Fixpoint shrunk (beta alpha : double) (k : nat) : double := match k with O => alpha | S k' => shrunk beta (dmul alpha beta) k' end.
Lemma shrunk_S beta alpha k : shrunk beta alpha (S k) = dmul (shrunk beta alpha k) beta.
Proof. revert alpha. induction k as [|k IH]; intros alpha; [reflexivity|]. cbn [shrunk] in *. now rewrite IH. Qed.
Lemma shrunk_bound beta alpha k : fin alpha = true -> fin beta = true -> Rabs (B2 beta) <= / 2 -> (k <= 2098)%nat -> fin (shrunk beta alpha k) = true /\ Rabs (B2 (shrunk beta alpha k)) <= bpow radix2 (1024 - Z.of_nat k).
Proof.
  intros Fa Fb Hb. induction k as [|k IH]; intros Hk.
  - cbn [shrunk]. split; auto. left. apply abs_B2R_lt_emax.
  - rewrite shrunk_S. destruct (IH ltac:(lia)) as [F B]. apply halve; auto; [lia|]. replace (1024 - Z.of_nat (S k) + 1)%Z with (1024 - Z.of_nat k)%Z by lia. exact B.
Qed.
Lemma shrunk_zero beta alpha : fin alpha = true -> fin beta = true -> Rabs (B2 beta) <= / 2 -> exists s, shrunk beta alpha 2099 = B754_zero s.
Proof.
  intros Fa Fb Hb. destruct (shrunk_bound beta alpha 2098 Fa Fb Hb (le_n _)) as [F B]. change 2099%nat with (S 2098). rewrite shrunk_S. set (a := shrunk beta alpha 2098) in *. clearbody a.
  assert (P : Rabs (B2 a * B2 beta) <= bpow radix2 (-1075)).
  { rewrite Rabs_mult. replace (bpow radix2 (-1075)) with (bpow radix2 (1024 - Z.of_nat 2098) * / 2). 2:{ replace (1024 - Z.of_nat 2098)%Z with (-1075 + 1)%Z by reflexivity. rewrite bpow_plus. change (bpow radix2 1) with 2. lra. }
    apply Rmult_le_compat; auto using Rabs_pos. }
  destruct (dmul_ok a beta 0 ltac:(lia) F Fb) as [F' E'].
  { apply Rle_trans with (1 := P). apply bpow_le. lia. }
  apply fin_zero; auto. rewrite E'. assert (Q : Rabs (rnd (B2 a * B2 beta)) <= 0) by (rewrite <- rnd_abs, <- rnd_tiny; now apply rnd_le). destruct (Req_dec (rnd (B2 a * B2 beta)) 0) as [Z|Z]; auto. apply Rabs_pos_lt in Z. lra.
Qed.
(* a step of zero passes the test, whatever the other numbers *)
Lemma ray_zero x : forall u s, length x = length u -> Forall (fun b => fin b = true) u -> Forall2 same_value x (f_ray x u (B754_zero s)).
Proof.
  induction x as [|a x IH]; intros [|b u] s Hl Hu; cbn [length] in Hl; try discriminate; cbn [f_ray]; [constructor|]. inversion Hu as [|? ? Fb Hu']; subst. constructor; [|apply IH; auto].
  destruct b as [sb|sb| |sb mb eb Hb]; cbn in Fb; try discriminate; destruct a as [sa|sa| |sa ma ea Ha]; unfold dadd, dmul; cbn.
  all: try (left; reflexivity). all: right; destruct s, sb, sa; cbn; do 2 eexists; split; reflexivity.
Qed.
Lemma zero_passes obj x u m gamma s : respects obj -> length x = length u -> Forall (fun b => fin b = true) u -> f_armijo_fails obj x u m gamma (B754_zero s) = false.
Proof.
  intros HR Hl Hu. unfold f_armijo_fails. rewrite <- (HR x (f_ray x u (B754_zero s))) by now apply ray_zero. set (o := obj x). clearbody o.
  assert (Z : dsub o o = B754_nan \/ dsub o o = B754_zero false).
  { destruct o as [so|so| |so mo eo Ho]; unfold dsub; [destruct so; cbn; auto|destruct so; cbn; auto|cbn; auto|]. right. assert (C := @Bminus_correct 53 1024 prec64 emax64 mode_NE (B754_finite so mo eo Ho) (B754_finite so mo eo Ho) eq_refl eq_refl).
    rewrite Rminus_diag_eq in C by reflexivity. rewrite rnd_0, Rabs_R0, Rlt_bool_true in C by apply bpow_gt_0. destruct C as (C1 & C2 & C3). destruct (fin_zero _ C2 C1) as (s' & E). rewrite E in *. cbn [Bsign] in C3. rewrite Rcompare_Eq in C3 by reflexivity. rewrite C3. destruct so; reflexivity. }
  destruct Z as [-> | ->]; destruct gamma as [sg|sg| |sg mg eg Hg], m as [sm|sm| |sm mm em Hm]; unfold dmul, dadd; cbn; try reflexivity; destruct s; try destruct sg; try destruct sm; reflexivity.
Qed.
Theorem C193_backtracking_partial obj x u m alpha beta gamma : respects obj -> length x = length u -> Forall (fun b => fin b = true) u -> fin alpha = true -> fin beta = true -> Rabs (B2 beta) <= / 2 ->
  exists a, f_backtracking obj x u m 2100 alpha beta gamma = Ok a /\ (dlt m d0 = true -> f_armijo_fails obj x u m gamma a = false) /\ exists k, (k <= 2099)%nat /\ a = shrunk beta alpha k /\ forall j, (j < k)%nat -> f_armijo_fails obj x u m gamma (shrunk beta alpha j) = true.
Proof.
  intros HR Hl Hu Fa Fb Hb. unfold f_backtracking. destruct (dlt m d0) eqn:Em.
  2:{ exists alpha. split; [reflexivity|]. split; [discriminate|]. exists 0%nat. split; [lia|]. split; [reflexivity|]. intros j Hj. lia. }
  destruct (shrunk_zero beta alpha Fa Fb Hb) as (s & E0). assert (S0 : f_armijo_fails obj x u m gamma (shrunk beta alpha 2099) = false) by (rewrite E0; now apply zero_passes). clear E0.
  assert (G : forall n a, f_armijo_fails obj x u m gamma (shrunk beta a n) = false -> exists b, f_backtrack obj x u m (S n) beta gamma a = Ok b /\ f_armijo_fails obj x u m gamma b = false /\
      exists k, (k <= n)%nat /\ b = shrunk beta a k /\ forall j, (j < k)%nat -> f_armijo_fails obj x u m gamma (shrunk beta a j) = true).
  { induction n as [|n IH]; intros a Hz.
    - cbn [shrunk] in Hz. exists a. cbn [f_backtrack]. rewrite Hz. split; [reflexivity|]. split; [auto|]. exists 0%nat. split; [lia|]. split; [reflexivity|]. intros j Hj. lia.
    - destruct (f_armijo_fails obj x u m gamma a) eqn:Ea.
      + destruct (IH (dmul a beta) Hz) as (b & E1 & E2 & k & Hk & Eb & Hj). exists b. split; [|split; auto].
        * change (f_backtrack obj x u m (S (S n)) beta gamma a) with (if f_armijo_fails obj x u m gamma a then f_backtrack obj x u m (S n) beta gamma (dmul a beta) else Ok a). now rewrite Ea.
        * exists (S k). split; [lia|]. split; [exact Eb|]. intros [|j] Hj'; [exact Ea|]. apply Hj. lia.
      + exists a. split; [|split; auto].
        * change (f_backtrack obj x u m (S (S n)) beta gamma a) with (if f_armijo_fails obj x u m gamma a then f_backtrack obj x u m (S n) beta gamma (dmul a beta) else Ok a). now rewrite Ea.
        * exists 0%nat. split; [lia|]. split; [reflexivity|]. intros j Hj. lia. }
  destruct (G 2099%nat alpha S0) as (a & E & A & K). exists a. split; [exact E|]. split; auto.
Qed.

(* beta and gamma above 1/2: 1e17 + t evaluates to 1e17 around t = 1, so the decrease is never seen, and the step stalls at the smallest double *)
Definition one : double := dbl 1 0.
Definition mone : double := dbl (-1) 0.
Definition big : double := dbl 100000000000000000 0.
Definition tilted (p : list double) : double := dadd big (hd d0 p).
Lemma B2_one : B2 one = 1. Proof. replace one with (@B754_finite 53 1024 false 4503599627370496 (-52) eq_refl) by (apply B2SF_inj; vm_compute; reflexivity). cbn. unfold F2R. cbn. lra. Qed.
Lemma B2_mone : B2 mone = -1. Proof. replace mone with (@B754_finite 53 1024 true 4503599627370496 (-52) eq_refl) by (apply B2SF_inj; vm_compute; reflexivity). cbn. unfold F2R. cbn. lra. Qed.
Lemma fin_one : fin one = true. Proof. vm_compute. reflexivity. Qed.
Lemma fin_mone : fin mone = true. Proof. vm_compute. reflexivity. Qed.
Lemma fin_big : fin big = true. Proof. vm_compute. reflexivity. Qed.
Lemma B2_big : B2 big = 100000000000000000. Proof. replace big with (@B754_finite 53 1024 false 6250000000000000 4 eq_refl) by (apply B2SF_inj; vm_compute; reflexivity). cbn. unfold F2R. cbn. lra. Qed.
Lemma smallest (a : double) : fin a = true -> 0 < B2 a -> bpow radix2 (-1074) <= B2 a.
Proof. intros F P. rewrite <- (Rabs_pos_eq (B2 a)) by lra. apply (abs_B2R_ge_emin 53 1024 a). destruct a; cbn in *; try discriminate; try lra; reflexivity. Qed.
Lemma rnd_survives z : bpow radix2 (-1075) < z -> 0 < rnd z.
Proof.
  intros H. assert (B := bpow_gt_0 radix2 (-1075)). assert (B2' : bpow radix2 (-1074) = 2 * bpow radix2 (-1075)). { replace (-1074)%Z with (1 + -1075)%Z by reflexivity. rewrite bpow_plus. reflexivity. }
  destruct (Rle_or_lt (bpow radix2 (-1074)) z) as [L|L].
  - apply Rlt_le_trans with (bpow radix2 (-1074)); [apply bpow_gt_0|]. rewrite <- (rnd_bpow (-1074)) by lia. now apply rnd_le.
  - assert (P : 0 <= rnd z) by (apply rnd_pos; lra). destruct P as [P|Z]; auto. exfalso. destruct (round_N_pt radix2 (SpecFloat.fexp 53 1024) (fun x => negb (Z.even x)) z) as [_ N].
    specialize (N (bpow radix2 (-1074)) ltac:(apply generic_format_bpow; unfold SpecFloat.fexp, SpecFloat.emin; lia)). change (round radix2 (SpecFloat.fexp 53 1024) (Znearest (fun x => negb (Z.even x))) z) with (rnd z) in N. rewrite <- Z in N.
    rewrite (Rabs_pos_eq (bpow radix2 (-1074) - z)) in N by lra. replace (0 - z) with (- z) in N by ring. rewrite Rabs_Ropp, Rabs_pos_eq in N by lra. lra.
Qed.
(* multiplying by a factor in (1/2, 1] keeps a positive number positive *)
Lemma stays a b : fin a = true -> fin b = true -> 0 < B2 a <= 2 -> / 2 < B2 b <= 1 -> fin (dmul a b) = true /\ 0 < B2 (dmul a b) <= 2.
Proof.
  intros Fa Fb Ha Hb. assert (P : 0 < B2 a * B2 b <= 2) by nra. destruct (dmul_ok a b 1 ltac:(lia) Fa Fb) as [F E].
  { rewrite Rabs_pos_eq by lra. cbn. lra. }
  split; auto. rewrite E. split.
  - apply rnd_survives. assert (S0 := smallest a Fa (proj1 Ha)). assert (B := bpow_gt_0 radix2 (-1074)). replace (bpow radix2 (-1075)) with (bpow radix2 (-1074) * / 2). 2:{ replace (-1074)%Z with (-1075 + 1)%Z by reflexivity. rewrite bpow_plus. change (bpow radix2 1) with 2. lra. }
    apply Rlt_le_trans with (bpow radix2 (-1074) * B2 b); [apply Rmult_lt_compat_l; lra|]. apply Rmult_le_compat_r; lra.
  - change 2 with (bpow radix2 1). rewrite <- (rnd_bpow 1) by lia. apply rnd_le. cbn. lra.
Qed.
Lemma tilted_flat v : fin v = true -> Rabs (B2 v) <= 2 -> dadd big v = big.
Proof.
  intros Fv Hv. assert (K := Rabs_le_inv _ _ Hv). destruct (dadd_ok big v 1000 ltac:(lia) fin_big Fv) as [F E].
  { rewrite B2_big. rewrite Rabs_pos_eq by lra. apply Rle_trans with (bpow radix2 60); [cbn; lra|apply bpow_le; lia]. }
  assert (U : rnd (B2 big + 2) = B2 big). { destruct (dadd_fin big (dbl 2 0)) as (_ & _ & E2); [vm_compute; reflexivity|]. replace (dadd big (dbl 2 0)) with big in E2 by (apply B2SF_inj; vm_compute; reflexivity). rewrite E2 at 2. do 2 f_equal. replace (dbl 2 0) with (@B754_finite 53 1024 false 4503599627370496 (-51) eq_refl) by (apply B2SF_inj; vm_compute; reflexivity). cbn. unfold F2R. cbn. lra. }
  assert (L : rnd (B2 big + -2) = B2 big). { destruct (dadd_fin big (dbl (-2) 0)) as (_ & _ & E2); [vm_compute; reflexivity|]. replace (dadd big (dbl (-2) 0)) with big in E2 by (apply B2SF_inj; vm_compute; reflexivity). rewrite E2 at 2. do 2 f_equal. replace (dbl (-2) 0) with (@B754_finite 53 1024 true 4503599627370496 (-51) eq_refl) by (apply B2SF_inj; vm_compute; reflexivity). cbn. unfold F2R. cbn. lra. }
  assert (Eq : B2 (dadd big v) = B2 big). { rewrite E. apply Rle_antisym; [rewrite <- U at 2|rewrite <- L at 1]; apply rnd_le; lra. }
  apply B2R_inj; auto. destruct (dadd big v) as [s|s| |s m e H]; cbn in F |- *; try discriminate; auto. cbn [B2R] in Eq. rewrite B2_big in Eq. lra.
Qed.
Lemma tilted_fails gamma a : fin a = true -> 0 < B2 a <= 2 -> fin gamma = true -> / 2 < B2 gamma <= 1 -> f_armijo_fails tilted [one] [mone] mone gamma a = true.
Proof.
  intros Fa Ha Fg Hg. unfold f_armijo_fails, tilted. cbn [hd f_ray]. assert (A : fin (dmul a mone) = true /\ Rabs (B2 (dmul a mone)) <= 2 /\ B2 (dmul a mone) <= 0).
  { destruct (dmul_ok a mone 1 ltac:(lia) Fa fin_mone) as [F E]. { rewrite B2_mone. replace (B2 a * -1) with (- B2 a) by ring. rewrite Rabs_Ropp, Rabs_pos_eq by lra. cbn. lra. }
    split; auto. rewrite E. split; [|rewrite <- rnd_0; apply rnd_le; rewrite B2_mone; lra]. change 2 with (bpow radix2 1). apply rnd_bound; [lia|]. rewrite B2_mone. replace (B2 a * -1) with (- B2 a) by ring. rewrite Rabs_Ropp, Rabs_pos_eq by lra. cbn. lra. }
  destruct A as (F1 & B1 & N1). apply Rabs_le_inv in B1. destruct (dadd_ok one (dmul a mone) 1 ltac:(lia) fin_one F1) as [F2 E2]. { rewrite B2_one. apply Rabs_le. change (bpow radix2 1) with 2. lra. }
  assert (Bv : Rabs (B2 (dadd one (dmul a mone))) <= 2). { rewrite E2. change 2 with (bpow radix2 1). apply rnd_bound; [lia|]. rewrite B2_one. apply Rabs_le. change (bpow radix2 1) with 2. lra. }
  rewrite (tilted_flat _ F2 Bv). replace (dadd big one) with big by (apply B2SF_inj; vm_compute; reflexivity). replace (dsub big big) with d0 by (apply B2SF_inj; vm_compute; reflexivity).
  assert (C : fin (dmul gamma a) = true /\ 0 < B2 (dmul gamma a) <= 2). { replace (dmul gamma a) with (dmul a gamma); [now apply stays|]. apply B2R_Bsign_inj.
    - now apply stays. 
    - destruct (dmul_ok gamma a 1 ltac:(lia) Fg Fa) as [F _]; auto. rewrite Rabs_pos_eq by nra. cbn. nra.
    - destruct (dmul_ok gamma a 1 ltac:(lia) Fg Fa) as [F E]; [rewrite Rabs_pos_eq by nra; cbn; nra|]. destruct (dmul_ok a gamma 1 ltac:(lia) Fa Fg) as [F' E']; [rewrite Rabs_pos_eq by nra; cbn; nra|]. rewrite E, E'. f_equal. ring.
    - assert (S1 := proj2 (stays a gamma Fa Fg Ha Hg)). rewrite (positive_sign (dmul a gamma) (proj1 (stays a gamma Fa Fg Ha Hg)) (proj1 S1)). symmetry. apply positive_sign.
      + destruct (dmul_ok gamma a 1 ltac:(lia) Fg Fa) as [F _]; auto. rewrite Rabs_pos_eq by nra. cbn. nra.
      + destruct (dmul_ok gamma a 1 ltac:(lia) Fg Fa) as [F E]; [rewrite Rabs_pos_eq by nra; cbn; nra|]. destruct (dmul_ok a gamma 1 ltac:(lia) Fa Fg) as [F' E']; [rewrite Rabs_pos_eq by nra; cbn; nra|]. rewrite E, Rmult_comm, <- E'. lra. }
  destruct C as (F3 & B3). set (y := dmul gamma a) in *. destruct (dmul_ok y mone 1 ltac:(lia) F3 fin_mone) as [F4 E4]. { rewrite B2_mone. replace (B2 y * -1) with (- B2 y) by ring. rewrite Rabs_Ropp, Rabs_pos_eq by lra. cbn. lra. }
  rewrite B2_mone in E4. replace (B2 y * -1) with (- B2 y) in E4 by ring. rewrite rnd_opp, rnd_id in E4. assert (Z : dadd d0 (dmul y mone) = dmul y mone). { destruct (dmul y mone) as [s|s| |s m e H]; cbn in F4; try discriminate; [cbn in E4; lra|reflexivity]. }
  rewrite Z. apply dlt_fin; auto. rewrite E4. cbn. lra.
Qed.
Theorem C193_stalls_refuted alpha beta gamma fuel : fin alpha = true -> fin beta = true -> fin gamma = true -> 0 < B2 alpha <= 2 -> / 2 < B2 beta <= 1 -> / 2 < B2 gamma <= 1 ->
  respects tilted /\ f_backtracking tilted [one] [mone] mone fuel alpha beta gamma = OutOfFuel.
Proof.
  intros Fa Fb Fg Ha Hb Hg. split.
  - intros p q H. unfold tilted. destruct H as [|a b p q [-> |(s & s' & -> & ->)] _]; cbn [hd]; auto.
  - unfold f_backtracking. replace (dlt mone d0) with true by (vm_compute; reflexivity). revert alpha Fa Ha. induction fuel as [|fuel IH]; intros alpha Fa Ha; cbn [f_backtrack]; [reflexivity|]. rewrite tilted_fails by auto. apply IH; now apply stays.
Qed.

(* ---- C194: the Wolfe search ---- *)
(* what it returns satisfies both conditions as computed *)
Theorem C194_sound_partial obj x u m slope c1 c2 half two fuel alpha a : f_wolfe obj x u m slope c1 c2 half two fuel alpha = Ok a ->
  f_armijo_fails obj x u m c1 a = false /\ dlt (slope (f_ray x u a)) (dmul c2 m) = false.
Proof.
  unfold f_wolfe. generalize (FBracket alpha d0 (B754_infinity false)). induction fuel as [|fuel IH]; intros s; cbn [f_wolfe_loop]; [discriminate|].
  destruct (f_wolfe_step obj x u m slope c1 c2 half two s) as [s'|] eqn:E; [apply IH|]. intros H. injection H as <-. unfold f_wolfe_step in E.
  destruct (f_armijo_fails obj x u m c1 (f_alpha s)) eqn:E1; [discriminate|]. destruct (dlt (slope (f_ray x u (f_alpha s))) (dmul c2 m)) eqn:E2; [discriminate|]. auto.
Qed.
Lemma B2_dbl m e : (Z.abs m < 2 ^ 53)%Z -> (-1074 <= e <= 900)%Z -> fin (dbl m e) = true /\ B2 (dbl m e) = IZR m * bpow radix2 e.
Proof.
  intros Hm He. assert (C := @binary_normalize_correct 53 1024 prec64 emax64 mode_NE m e false). fold (dbl m e) in C.
  assert (G : rnd (F2R (Float radix2 m e)) = F2R (Float radix2 m e)).
  { apply round_generic; [typeclasses eauto|]. apply generic_format_FLT. exists (Float radix2 m e); cbn; [reflexivity|exact Hm|lia]. }
  cbv zeta in C. rewrite G in C. rewrite Rlt_bool_true in C; [destruct C as (C1 & C2 & _); split; [exact C2|exact C1]|].
  unfold F2R. cbn [Fnum Fexp]. rewrite Rabs_mult, (Rabs_pos_eq (bpow radix2 e)) by apply bpow_ge_0. apply Rlt_le_trans with (bpow radix2 53 * bpow radix2 e).
  - apply Rmult_lt_compat_r; [apply bpow_gt_0|]. rewrite <- abs_IZR. change (bpow radix2 53) with (IZR (2 ^ 53)). now apply IZR_lt.
  - rewrite <- bpow_plus. apply bpow_le. lia.
Qed.
(* 1 + y^2 / 2 from y = 2^-30 along the steepest descent -2^-30, with the default parameters 1, 1e-4, 0.9 *)
Definition half : double := dbl 1 (-1).
Definition two : double := dbl 2 0.
Definition c1_default : double := dbl 7378697629483821 (-66).
Definition c2_default : double := dbl 8106479329266893 (-53).
Definition near : double := dbl 1 (-30).
Definition down : double := dbl (-1) (-30).
Definition mslope : double := dbl (-1) (-60).
Definition bowl (p : list double) : double := dadd one (dmul (dmul (hd d0 p) (hd d0 p)) half).
Definition bowl_slope (p : list double) : double := dmul (hd d0 p) down.
Definition inside (a : double) : Prop := fin a = true /\ 0 <= B2 a <= 1.

Lemma B2_near : fin near = true /\ B2 near = bpow radix2 (-30).
Proof. destruct (B2_dbl 1 (-30)) as [F E]; [reflexivity|lia|]. split; [exact F|]. unfold near. rewrite E. lra. Qed.
Lemma B2_down : fin down = true /\ B2 down = - bpow radix2 (-30).
Proof. destruct (B2_dbl (-1) (-30)) as [F E]; [reflexivity|lia|]. split; [exact F|]. unfold down. rewrite E. lra. Qed.
Lemma B2_mslope : fin mslope = true /\ B2 mslope = - bpow radix2 (-60).
Proof. destruct (B2_dbl (-1) (-60)) as [F E]; [reflexivity|lia|]. split; [exact F|]. unfold mslope. rewrite E. lra. Qed.
Lemma B2_half : fin half = true /\ B2 half = / 2.
Proof. destruct (B2_dbl 1 (-1)) as [F E]; [reflexivity|lia|]. split; [exact F|]. unfold half. rewrite E. cbn. lra. Qed.
Lemma rnd_between lo hi z : rnd lo = lo -> rnd hi = hi -> lo <= z <= hi -> lo <= rnd z <= hi.
Proof. intros L H [A B]. split; [rewrite <- L|rewrite <- H]; now apply rnd_le. Qed.
(* the step of the point *)
Lemma step_down lo hi a : fin a = true -> rnd (- (lo * bpow radix2 (-30))) = - (lo * bpow radix2 (-30)) -> rnd (- (hi * bpow radix2 (-30))) = - (hi * bpow radix2 (-30)) -> 0 <= lo -> hi <= 1 -> lo <= B2 a <= hi ->
  fin (dmul a down) = true /\ - (hi * bpow radix2 (-30)) <= B2 (dmul a down) <= - (lo * bpow radix2 (-30)).
Proof.
  intros Fa Rl Rh Hl Hh Ha. destruct B2_down as [Fd Ed]. assert (B := bpow_gt_0 radix2 (-30)). destruct (dmul_ok a down (-30) ltac:(lia) Fa Fd) as [F E].
  { rewrite Ed, Rabs_mult, Rabs_Ropp, (Rabs_pos_eq (B2 a)), (Rabs_pos_eq (bpow radix2 (-30))) by lra. nra. }
  split; auto. rewrite E, Ed. apply rnd_between; auto. nra.
Qed.
Lemma rnd_neg_bpow e : (-1074 <= e)%Z -> rnd (- bpow radix2 e) = - bpow radix2 e.
Proof. intros H. rewrite rnd_opp, rnd_bpow; auto. Qed.
Definition point (a : double) : double := dadd near (dmul a down).
Lemma point_in a : inside a -> fin (point a) = true /\ 0 <= B2 (point a) <= bpow radix2 (-30).
Proof.
  intros [Fa Ha]. assert (B := bpow_gt_0 radix2 (-30)). destruct (step_down 0 1 a Fa) as [F E]; try lra.
  { rewrite Rmult_0_l, Ropp_0. apply rnd_0. } { rewrite Rmult_1_l. apply rnd_neg_bpow. lia. }
  destruct B2_near as [Fn En]. destruct (dadd_ok near (dmul a down) (-30) ltac:(lia) Fn F) as [F2 E2].
  { rewrite En. apply Rabs_le. lra. }
  split; [exact F2|]. unfold point. rewrite E2, En. apply rnd_between; [apply rnd_0|apply rnd_bpow; lia|lra].
Qed.
Lemma point_far a : inside a -> B2 a <= bpow radix2 (-4) -> 15 * bpow radix2 (-34) <= B2 (point a).
Proof.
  intros [Fa Ha] H4. assert (B := bpow_gt_0 radix2 (-34)). assert (S30 : bpow radix2 (-30) = 16 * bpow radix2 (-34)). { replace (-30)%Z with (4 + -34)%Z by reflexivity. rewrite bpow_plus. reflexivity. }
  assert (S4 : bpow radix2 (-4) * bpow radix2 (-30) = bpow radix2 (-34)) by (rewrite <- bpow_plus; reflexivity).
  destruct (step_down 0 (bpow radix2 (-4)) a Fa) as [F E]; try lra.
  { rewrite Rmult_0_l, Ropp_0. apply rnd_0. } { rewrite S4. apply rnd_neg_bpow. lia. } { cbn. lra. }
  rewrite S4 in E. destruct B2_near as [Fn En]. destruct (dadd_ok near (dmul a down) (-30) ltac:(lia) Fn F) as [F2 E2].
  { rewrite En. apply Rabs_le. lra. }
  unfold point. rewrite E2, En. destruct (B2_dbl 15 (-34)) as [F15 E15]; [reflexivity|lia|]. rewrite <- E15, <- (rnd_id (dbl 15 (-34))). apply rnd_le. rewrite E15. lra.
Qed.
(* all the values of the objective are 1 *)
Lemma bowl_flat (p : double) : fin p = true -> 0 <= B2 p <= bpow radix2 (-30) -> bowl [p] = one.
Proof.
  intros Fp Hp. unfold bowl. cbn [hd]. assert (B := bpow_gt_0 radix2 (-30)). assert (S60 : bpow radix2 (-30) * bpow radix2 (-30) = bpow radix2 (-60)) by (rewrite <- bpow_plus; reflexivity).
  assert (Q : 0 <= B2 p * B2 p <= bpow radix2 (-60)) by (rewrite <- S60; split; [nra|apply Rmult_le_compat; lra]).
  destruct (dmul_ok p p (-60) ltac:(lia) Fp Fp) as [F1 E1]. { rewrite Rabs_pos_eq by lra. lra. }
  assert (Q1 : 0 <= B2 (dmul p p) <= bpow radix2 (-60)) by (rewrite E1; apply rnd_between; [apply rnd_0|apply rnd_bpow; lia|lra]).
  set (s := dmul p p) in *. destruct B2_half as [Fh Eh]. destruct (dmul_ok s half (-60) ltac:(lia) F1 Fh) as [F2 E2]. { rewrite Eh, Rabs_pos_eq by lra. lra. }
  assert (Q2 : 0 <= B2 (dmul s half) <= bpow radix2 (-60)) by (rewrite E2, Eh; apply rnd_between; [apply rnd_0|apply rnd_bpow; lia|lra]).
  set (y := dmul s half) in *. assert (B60 : bpow radix2 (-60) <= 1) by (change 1 with (bpow radix2 0); apply bpow_le; lia).
  destruct (dadd_ok one y 1 ltac:(lia) fin_one F2) as [F3 E3]. { rewrite B2_one, Rabs_pos_eq by lra. change (bpow radix2 1) with 2. lra. }
  assert (U : rnd (1 + bpow radix2 (-60)) = 1). { destruct (dadd_fin one (dbl 1 (-60))) as (_ & _ & E); [vm_compute; reflexivity|]. replace (dadd one (dbl 1 (-60))) with one in E by (apply B2SF_inj; vm_compute; reflexivity). rewrite B2_one in E. rewrite E at 2. f_equal. destruct (B2_dbl 1 (-60)) as [_ ->]; [reflexivity|lia|]. lra. }
  assert (R1 : rnd 1 = 1) by (change 1 with (bpow radix2 0); apply rnd_bpow; lia).
  assert (Eq : B2 (dadd one y) = 1). { rewrite E3, B2_one. apply Rle_antisym; [rewrite <- U at 2|rewrite <- R1 at 1]; apply rnd_le; lra. }
  apply B2R_inj.
  - destruct (dadd one y); cbn in F3, Eq |- *; try discriminate; auto. lra.
  - vm_compute. reflexivity.
  - now rewrite Eq, B2_one.
Qed.
Lemma wolfe_fails a : inside a -> bpow radix2 (-4) <= B2 a -> f_armijo_fails bowl [near] [down] mslope c1_default a = true.
Proof.
  intros Ia Ha. unfold f_armijo_fails. change (f_ray [near] [down] a) with [point a]. destruct (point_in a Ia) as [Fp Hp]. rewrite (bowl_flat _ Fp Hp). destruct B2_near as [Fn En]. assert (B := bpow_gt_0 radix2 (-30)). rewrite (bowl_flat near Fn) by (rewrite En; lra).
  replace (dsub one one) with d0 by (apply B2SF_inj; vm_compute; reflexivity). destruct Ia as [Fa Ia]. destruct (B2_dbl 7378697629483821 (-66)) as [Fc Ec]; [reflexivity|lia|]. fold c1_default in Fc, Ec.
  assert (Hc : bpow radix2 (-14) <= B2 c1_default <= 1) by (rewrite Ec; cbn; lra). clear Ec. assert (B14 := bpow_gt_0 radix2 (-14)). assert (B4 := bpow_gt_0 radix2 (-4)).
  assert (S18 : bpow radix2 (-14) * bpow radix2 (-4) = bpow radix2 (-18)) by (rewrite <- bpow_plus; reflexivity).
  assert (Q : bpow radix2 (-18) <= B2 c1_default * B2 a <= bpow radix2 0) by (rewrite <- S18; change (bpow radix2 0) with 1; split; [apply Rmult_le_compat; lra|nra]). assert (B18 := bpow_gt_0 radix2 (-18)).
  destruct (dmul_ok c1_default a 0 ltac:(lia) Fc Fa) as [F1 E1]. { rewrite Rabs_pos_eq by lra. lra. }
  assert (Q1 : bpow radix2 (-18) <= B2 (dmul c1_default a) <= bpow radix2 0) by (rewrite E1; apply rnd_between; [apply rnd_bpow; lia|apply rnd_bpow; lia|exact Q]).
  set (y := dmul c1_default a) in *. clearbody y. destruct B2_mslope as [Fm Em]. assert (B60 := bpow_gt_0 radix2 (-60)).
  assert (S78 : bpow radix2 (-18) * bpow radix2 (-60) = bpow radix2 (-78)) by (rewrite <- bpow_plus; reflexivity). assert (B78 := bpow_gt_0 radix2 (-78)). change (bpow radix2 0) with 1 in Q1.
  assert (Q2 : - bpow radix2 (-60) <= B2 y * B2 mslope <= - bpow radix2 (-78)) by (rewrite Em, <- S78; split; nra).
  destruct (dmul_ok y mslope (-60) ltac:(lia) F1 Fm) as [F2 E2]. { apply Rabs_le. lra. }
  assert (Q3 : B2 (dmul y mslope) <= - bpow radix2 (-78)) by (rewrite E2, <- (rnd_neg_bpow (-78)) by lia; apply rnd_le; lra).
  set (z := dmul y mslope) in *. clearbody z. assert (Z : dadd d0 z = z). { destruct z as [s|s| |s m e H]; cbn in F2; try discriminate; [cbn in Q3; lra|reflexivity]. }
  rewrite Z. apply dlt_fin; auto. change (B2 d0) with 0. lra.
Qed.
Lemma curvature_fails a : inside a -> B2 a <= bpow radix2 (-4) -> dlt (bowl_slope (f_ray [near] [down] a)) (dmul c2_default mslope) = true.
Proof.
  intros Ia Ha. change (f_ray [near] [down] a) with [point a]. unfold bowl_slope. cbn [hd]. destruct (point_in a Ia) as [Fp Hp]. assert (L := point_far a Ia Ha). set (p := point a) in *. clearbody p. destruct B2_down as [Fd Ed]. assert (B30 := bpow_gt_0 radix2 (-30)).
  assert (S60 : bpow radix2 (-30) * bpow radix2 (-30) = bpow radix2 (-60)) by (rewrite <- bpow_plus; reflexivity).
  assert (S64 : bpow radix2 (-34) * bpow radix2 (-30) = bpow radix2 (-64)) by (rewrite <- bpow_plus; reflexivity).
  assert (Q : - bpow radix2 (-60) <= B2 p * B2 down <= - (15 * bpow radix2 (-64))) by (rewrite Ed, <- S60, <- S64; split; nra). assert (B64 := bpow_gt_0 radix2 (-64)).
  destruct (dmul_ok p down (-60) ltac:(lia) Fp Fd) as [F1 E1]. { apply Rabs_le. lra. }
  destruct (B2_dbl (-15) (-64)) as [F15 E15]; [reflexivity|lia|].
  assert (Q1 : B2 (dmul p down) <= - (15 * bpow radix2 (-64))). { rewrite E1. replace (- (15 * bpow radix2 (-64))) with (B2 (dbl (-15) (-64))) by (rewrite E15; lra). rewrite <- (rnd_id (dbl (-15) (-64))). apply rnd_le. rewrite E15. lra. }
  assert (Fc : fin (dmul c2_default mslope) = true /\ - (15 * bpow radix2 (-64)) < B2 (dmul c2_default mslope)).
  { replace (dmul c2_default mslope) with (dbl (-8106479329266893) (-113)) by (apply B2SF_inj; vm_compute; reflexivity). destruct (B2_dbl (-8106479329266893) (-113)) as [F E]; [reflexivity|lia|]. split; [exact F|]. rewrite E.
    assert (S49 : bpow radix2 (-64) = 562949953421312 * bpow radix2 (-113)). { replace (-64)%Z with (49 + -113)%Z by reflexivity. rewrite bpow_plus. reflexivity. } rewrite S49. assert (B113 := bpow_gt_0 radix2 (-113)). lra. }
  destruct Fc as [Fc Lc]. apply dlt_fin; auto. lra.
Qed.
Lemma midpoint a b : inside a -> inside b -> inside (dmul (dadd a b) half).
Proof.
  intros [Fa Ha] [Fb Hb]. destruct (dadd_ok a b 1 ltac:(lia) Fa Fb) as [F E]. { rewrite Rabs_pos_eq by lra. change (bpow radix2 1) with 2. lra. }
  assert (Q : 0 <= B2 (dadd a b) <= bpow radix2 1) by (rewrite E; apply rnd_between; [apply rnd_0|apply rnd_bpow; lia|change (bpow radix2 1) with 2; lra]). change (bpow radix2 1) with 2 in Q. set (s := dadd a b) in *. destruct B2_half as [Fh Eh].
  destruct (dmul_ok s half 0 ltac:(lia) F Fh) as [F2 E2]. { rewrite Eh, Rabs_pos_eq by lra. change (bpow radix2 0) with 1. lra. }
  split; [exact F2|]. rewrite E2, Eh. apply rnd_between; [apply rnd_0|change 1 with (bpow radix2 0); apply rnd_bpow; lia|lra].
Qed.
Lemma inside_not_inf a : inside a -> is_inf a = false. Proof. intros [F _]. destruct a; auto; discriminate. Qed.
Theorem C194_wolfe_refuted fuel : f_wolfe bowl [near] [down] mslope bowl_slope c1_default c2_default half two fuel one = OutOfFuel.
Proof.
  assert (I1 : inside one) by (split; [apply fin_one|rewrite B2_one; lra]). assert (I0 : inside d0) by (split; [reflexivity|change (B2 d0) with 0; lra]).
  assert (G : forall n a lo hi, inside a -> inside lo -> inside hi -> f_wolfe_loop bowl [near] [down] mslope bowl_slope c1_default c2_default half two n (FBracket a lo hi) = OutOfFuel).
  { induction n as [|n IH]; intros a lo hi Ia Il Ih; cbn [f_wolfe_loop]; [reflexivity|]. unfold f_wolfe_step. cbn [f_alpha f_min f_max].
    destruct (f_armijo_fails bowl [near] [down] mslope c1_default a) eqn:E1; [apply IH; auto using midpoint|].
    destruct (Rle_or_lt (B2 a) (bpow radix2 (-4))) as [L|L]; [|rewrite wolfe_fails in E1 by (auto; lra); discriminate].
    rewrite curvature_fails, (inside_not_inf hi) by auto. apply IH; auto using midpoint. }
  unfold f_wolfe. destruct fuel as [|n]; cbn [f_wolfe_loop]; [reflexivity|]. unfold f_wolfe_step. cbn [f_alpha f_min f_max]. rewrite wolfe_fails by (auto; rewrite B2_one; cbn; lra). apply G; auto using midpoint.
Qed.
(* the parameters are the default ones up to one rounding, and in exact arithmetic the first trial is accepted *)
Lemma default_parameters : B2 one = 1 /\ Rabs (B2 c1_default - / 10000) <= bpow radix2 (-67) /\ Rabs (B2 c2_default - 9 / 10) <= bpow radix2 (-54) /\
  let f y := 1 + y * y / 2 in let y := bpow radix2 (-30) in f y - f (y + 1 * - y) + / 10000 * 1 * - (y * y) >= 0 /\ (y + 1 * - y) * - y >= 9 / 10 * - (y * y).
Proof.
  split; [apply B2_one|]. destruct (B2_dbl 7378697629483821 (-66)) as [_ Ec]; [reflexivity|lia|]. fold c1_default in Ec. destruct (B2_dbl 8106479329266893 (-53)) as [_ Ed]; [reflexivity|lia|]. fold c2_default in Ed. rewrite Ec, Ed.
  split; [apply Rabs_le; cbn; lra|]. split; [apply Rabs_le; cbn; lra|]. intros f y. unfold f. assert (B := bpow_gt_0 radix2 (-30)). fold y in B. split; nra.
Qed.

(* the defaults of backtracking meet the hypotheses of C193 and a linear objective is a case of C194_sound_partial *)
Example C193_example : respects tilted /\ length [one] = length [mone] /\ Forall (fun b => fin b = true) [mone] /\ fin two = true /\ fin half = true /\ Rabs (B2 half) <= / 2 /\ dlt mone d0 = true.
Proof.
  split; [|split; [reflexivity|split; [repeat constructor; apply fin_mone|split; [vm_compute; reflexivity|split; [apply B2_half|split; [rewrite (proj2 B2_half), Rabs_pos_eq; lra|vm_compute; reflexivity]]]]]].
  intros p q H. unfold tilted. destruct H as [|a b p q [-> |(s & s' & -> & ->)] _]; cbn [hd]; auto.
Qed.
Example C194_example : f_wolfe (fun p => hd d0 p) [one] [mone] mone (fun _ => mone) c1_default one half two 3 one = Ok one.
Proof.
  unfold f_wolfe. cbn [f_wolfe_loop]. unfold f_wolfe_step. cbn [f_alpha f_min f_max].
  replace (f_armijo_fails (fun p => hd d0 p) [one] [mone] mone c1_default one) with false by (vm_compute; reflexivity). replace (dlt mone (dmul one mone)) with false by (vm_compute; reflexivity). reflexivity.
Qed.
Print Assumptions C193_backtracking_partial.
Print Assumptions C193_stalls_refuted.
Print Assumptions C194_sound_partial.
Print Assumptions C194_wolfe_refuted.
