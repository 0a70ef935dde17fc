(* C134-C136: almost_equal, log1pexp and the SparseLU wrapper (utils/symbols.h). *)
From Coq Require Import Reals Lra Lia List Bool ZArith.
From Flocq Require Import Core IEEE754.BinarySingleNaN.
From Verif Require Import Base SymbolsModel.
Import ListNotations.
Open Scope R_scope.

Notation B2 := (@B2R 53 1024).
Notation fin := (@is_finite 53 1024).
Notation rnd := (round radix2 (SpecFloat.fexp 53 1024) (round_mode mode_NE)).

#[local] Instance vfexp : Valid_exp (SpecFloat.fexp 53 1024) := @fexp_correct 53 1024 prec64.
Lemma rnd_le x y : x <= y -> rnd x <= rnd y.
Proof. apply round_le; typeclasses eauto. Qed.
Lemma rnd_id (a : double) : rnd (B2 a) = B2 a.
Proof. apply round_generic; [typeclasses eauto|]. apply generic_format_B2R. Qed.
Lemma rnd_opp x : rnd (- x) = - rnd x.
Proof. change (round_mode mode_NE) with ZnearestE. apply round_NE_opp. Qed.
Lemma rnd_abs x : rnd (Rabs x) = Rabs (rnd x).
Proof. change (round_mode mode_NE) with ZnearestE. apply round_NE_abs; typeclasses eauto. Qed.

Lemma dlt_fin a b : fin a = true -> fin b = true -> dlt a b = true <-> B2 a < B2 b.
Proof. intros Ha Hb. unfold dlt. rewrite Bltb_correct by assumption. destruct (Rlt_bool_spec (B2 a) (B2 b)); intuition (discriminate || lra). Qed.

(* the difference of two finite doubles: its absolute value is the rounded one, or it overflows *)
Lemma dsub_fin a b : fin a = true -> fin b = true ->
  (fin (dabs (dsub a b)) = true /\ B2 (dabs (dsub a b)) = rnd (Rabs (B2 a - B2 b)) /\ rnd (Rabs (B2 a - B2 b)) < bpow radix2 1024)
  \/ (dabs (dsub a b) = B754_infinity false /\ bpow radix2 1024 <= rnd (Rabs (B2 a - B2 b))).
Proof.
  intros Ha Hb. pose proof (@Bminus_correct 53 1024 prec64 emax64 mode_NE a b Ha Hb) as H.
  destruct (Rlt_bool_spec (Rabs (rnd (B2 a - B2 b))) (bpow radix2 1024)) as [L|L].
  - destruct H as (H1 & H2 & _). left. unfold dabs. rewrite is_finite_Babs, B2R_Babs. unfold dsub. rewrite H1, rnd_abs. auto.
  - destruct H as (H1 & _). right. rewrite rnd_abs. split; [|assumption]. unfold dabs, dsub.
    destruct (Bminus mode_NE a b) as [s|s| |s m e He]; cbn in H1; try discriminate. reflexivity.
Qed.
Lemma dabs_max (a b : double) : fin a = true -> fin b = true ->
  fin (if dlt (dabs a) (dabs b) then dabs b else dabs a) = true /\
  B2 (if dlt (dabs a) (dabs b) then dabs b else dabs a) = Rmax (Rabs (B2 a)) (Rabs (B2 b)).
Proof.
  intros Ha Hb. assert (Fa : fin (dabs a) = true) by (unfold dabs; now rewrite is_finite_Babs).
  assert (Fb : fin (dabs b) = true) by (unfold dabs; now rewrite is_finite_Babs).
  pose proof (dlt_fin (dabs a) (dabs b) Fa Fb) as H. unfold dabs in *. rewrite !B2R_Babs in H.
  destruct (dlt (Babs a) (Babs b)) eqn:E.
  - split; [assumption|]. rewrite B2R_Babs. assert (L : Rabs (B2 a) < Rabs (B2 b)) by now apply H. rewrite Rmax_right; [reflexivity|lra].
  - split; [assumption|]. rewrite B2R_Babs. rewrite Rmax_left; [reflexivity|].
    destruct (Rle_or_lt (Rabs (B2 b)) (Rabs (B2 a))) as [L|L]; [assumption|]. apply H in L. discriminate.
Qed.
Lemma dmul_fin (m e : double) : fin m = true -> fin e = true -> 0 <= B2 m -> 0 < B2 e -> Bsign m = false -> Bsign e = false ->
  (fin (dmul m e) = true /\ B2 (dmul m e) = rnd (B2 m * B2 e)) \/
  (dmul m e = B754_infinity false /\ bpow radix2 1024 <= rnd (B2 m * B2 e)).
Proof.
  intros Hm He Pm Pe Sm Se. pose proof (@Bmult_correct 53 1024 prec64 emax64 mode_NE m e) as H.
  assert (P : Rabs (rnd (B2 m * B2 e)) = rnd (B2 m * B2 e)).
  { rewrite <- rnd_abs. f_equal. apply Rabs_pos_eq. apply Rmult_le_pos; lra. }
  destruct (Rlt_bool_spec (Rabs (rnd (B2 m * B2 e))) (bpow radix2 1024)) as [L|L].
  - destruct H as (H1 & H2 & _). left. unfold dmul. rewrite H2, Hm, He. auto.
  - right. split; [|lra]. unfold dmul. rewrite Sm, Se in H.
    destruct (Bmult mode_NE m e) as [s|s| |s x y Hy]; cbn in H; try discriminate. injection H as ->. reflexivity.
Qed.
Lemma positive_sign (e : double) : fin e = true -> 0 < B2 e -> Bsign e = false.
Proof.
  intros _ H. destruct e as [s|s| |[|] m x Hx]; cbn in *; try lra; try reflexivity.
  exfalso. assert (K : F2R (Float radix2 (Z.neg m) x) < 0) by (apply F2R_lt_0; reflexivity). lra.
Qed.
Lemma dabs_sign (a b : double) : Bsign (if dlt (dabs a) (dabs b) then dabs b else dabs a) = false \/ a = B754_nan \/ b = B754_nan.
Proof. destruct (dlt (dabs a) (dabs b)), a, b; cbn; auto. Qed.
Lemma inf_lt (x : double) : dlt (B754_infinity false) x = false.
Proof. destruct x as [s|[|]| |[|] m e H]; reflexivity. Qed.
Lemma fin_lt_inf (x : double) : fin x = true -> dlt x (B754_infinity false) = true.
Proof. destruct x as [s|s| |[|] m e H]; cbn; auto; discriminate. Qed.
Lemma nan_lt (x : double) : dlt B754_nan x = false.
Proof. destruct x as [s|[|]| |[|] m e H]; reflexivity. Qed.

(* the tolerance that almost_equal is meant to apply, in real arithmetic *)
Definition tolerance (a b eps : R) : R := eps * Rmax 1 (Rmax (Rabs a) (Rabs b)).

(* ---- C134 ---- *)
(* the answer "equal" is never wrong, for all doubles including the infinities and NaN *)
Theorem almost_equal_sound a b eps : fin eps = true -> 0 < B2 eps -> almost_equal a b eps = true ->
  fin a = true /\ fin b = true /\ Rabs (B2 a - B2 b) < tolerance (B2 a) (B2 b) (B2 eps).
Proof.
  intros Fe Pe H. unfold almost_equal in H.
  assert (Fab : fin a = true /\ fin b = true).
  { destruct a as [sa|sa| |sa ma ea Ha], b as [sb|sb| |sb mb eb Hb]; try (split; reflexivity); exfalso;
      try (cbn in H; rewrite ?inf_lt, ?nan_lt in H; discriminate H).
    cbn in H. destruct (Bool.eqb sa (negb sb)); cbn in H; rewrite ?inf_lt, ?nan_lt in H; discriminate H. }
  destruct Fab as [Fa Fb]. split; [assumption|]. split; [assumption|]. unfold tolerance.
  set (Mx := Rmax (Rabs (B2 a)) (Rabs (B2 b))).
  destruct (dsub_fin a b Fa Fb) as [(Fd & Ed & _)|(Ed & _)].
  2:{ rewrite Ed, !inf_lt in H. discriminate. }
  apply orb_true_iff in H as [H|H].
  - apply dlt_fin in H; [|assumption|assumption]. rewrite Ed in H.
    assert (L : Rabs (B2 a - B2 b) < B2 eps).
    { destruct (Rlt_or_le (Rabs (B2 a - B2 b)) (B2 eps)) as [L|L]; [assumption|]. apply rnd_le in L. rewrite rnd_id in L. lra. }
    apply Rlt_le_trans with (1 := L). rewrite <- (Rmult_1_r (B2 eps)) at 1. apply Rmult_le_compat_l; [lra|apply Rmax_l].
  - destruct (dabs_max a b Fa Fb) as [Fm Em0]. set (mx := if dlt (dabs a) (dabs b) then dabs b else dabs a) in *.
    assert (Em : B2 mx = Rmax (Rabs (B2 a)) (Rabs (B2 b))) by exact Em0.
    assert (Pm : 0 <= B2 mx) by (rewrite Em; apply Rle_trans with (1 := Rabs_pos (B2 a)); apply Rmax_l).
    assert (Sm : Bsign mx = false).
    { destruct (dabs_sign a b) as [S|[->| ->]]; [exact S|discriminate|discriminate]. }
    assert (L : Rabs (B2 a - B2 b) < B2 mx * B2 eps).
    { destruct (Rlt_or_le (Rabs (B2 a - B2 b)) (B2 mx * B2 eps)) as [L|L]; [assumption|]. exfalso. apply rnd_le in L.
      destruct (dmul_fin mx eps Fm Fe Pm Pe Sm (positive_sign _ Fe Pe)) as [[Fp Ep]|[Ep Lp]].
      - apply dlt_fin in H; [|assumption|assumption]. rewrite Ed, Ep in H. lra.
      - rewrite <- Ed in L. pose proof (@abs_B2R_lt_emax 53 1024 (dabs (dsub a b))) as K.
        pose proof (Rle_abs (B2 (dabs (dsub a b)))). lra. }
    apply Rlt_le_trans with (1 := L). rewrite Em, Rmult_comm. apply Rmult_le_compat_l; [lra|apply Rmax_r].
Qed.
(* the answer "different" is never wrong either, up to the rounding: two consecutive doubles below the tolerance
   separate the difference from it *)
Theorem almost_equal_complete a b eps y z : fin a = true -> fin b = true -> fin eps = true -> 0 < B2 eps ->
  fin y = true -> fin z = true ->
  Rabs (B2 a - B2 b) <= B2 y -> B2 y < B2 z -> B2 z <= tolerance (B2 a) (B2 b) (B2 eps) -> almost_equal a b eps = true.
Proof.
  intros Fa Fb Fe Pe Fy Fz Hy Hyz Hz. unfold almost_equal. apply orb_true_iff.
  apply rnd_le in Hy. rewrite rnd_id in Hy.
  destruct (dsub_fin a b Fa Fb) as [(Fd & Ed & _)|(_ & K)].
  2:{ exfalso. pose proof (@abs_B2R_lt_emax 53 1024 y). pose proof (Rle_abs (B2 y)). lra. }
  destruct (dabs_max a b Fa Fb) as [Fm Em0]. set (mx := if dlt (dabs a) (dabs b) then dabs b else dabs a) in *.
    assert (Em : B2 mx = Rmax (Rabs (B2 a)) (Rabs (B2 b))) by exact Em0.
  assert (Pm : 0 <= B2 mx) by (rewrite Em; apply Rle_trans with (1 := Rabs_pos (B2 a)); apply Rmax_l).
  assert (Sm : Bsign mx = false).
  { destruct (dabs_sign a b) as [S|[->| ->]]; [exact S|discriminate|discriminate]. }
  unfold tolerance in Hz. rewrite <- Em in Hz.
  destruct (Rle_or_lt (B2 mx) 1) as [C|C].
  - left. apply dlt_fin; [assumption|assumption|]. rewrite Ed. rewrite Rmax_left in Hz by assumption. lra.
  - right. rewrite Rmax_right in Hz by lra. rewrite Rmult_comm in Hz. apply rnd_le in Hz. rewrite rnd_id in Hz.
    destruct (dmul_fin mx eps Fm Fe Pm Pe Sm (positive_sign _ Fe Pe)) as [[Fp Ep]|[Ep Lp]].
    + apply dlt_fin; [assumption|assumption|]. rewrite Ed, Ep. lra.
    + rewrite Ep. now apply fin_lt_inf.
Qed.

Lemma abs_sign (x : double) : fin (dabs x) = true -> Bsign (dabs x) = false.
Proof. destruct x; cbn; congruence. Qed.
Lemma dsub_swap a b : dabs (dsub a b) = dabs (dsub b a).
Proof.
  destruct (fin a) eqn:Fa, (fin b) eqn:Fb.
  - assert (Sw : Rabs (B2 a - B2 b) = Rabs (B2 b - B2 a)) by apply Rabs_minus_sym.
    destruct (dsub_fin a b Fa Fb) as [(F1 & E1 & L1)|(E1 & L1)], (dsub_fin b a Fb Fa) as [(F2 & E2 & L2)|(E2 & L2)].
    + apply B2R_Bsign_inj; [assumption|assumption|congruence|]. 
      rewrite (abs_sign _ F1), (abs_sign _ F2). reflexivity.
    + rewrite Sw in L1. lra.
    + rewrite Sw in L1. lra.
    + congruence.
  - destruct a as [sa|[|]| |sa ma ea Ha], b as [sb|[|]| |sb mb eb Hb]; try discriminate; reflexivity.
  - destruct a as [sa|[|]| |sa ma ea Ha], b as [sb|[|]| |sb mb eb Hb]; try discriminate; reflexivity.
  - destruct a as [sa|[|]| |sa ma ea Ha], b as [sb|[|]| |sb mb eb Hb]; try discriminate; reflexivity.
Qed.
Theorem almost_equal_sym a b eps : almost_equal a b eps = almost_equal b a eps.
Proof.
  unfold almost_equal. rewrite (dsub_swap b a). f_equal.
  assert (E : (if dlt (dabs a) (dabs b) then dabs b else dabs a) = (if dlt (dabs b) (dabs a) then dabs a else dabs b) \/
    dsub a b = B754_nan).
  { destruct (fin a) eqn:Fa, (fin b) eqn:Fb.
    - left. destruct (dabs_max a b Fa Fb) as [F1 E1], (dabs_max b a Fb Fa) as [F2 E2].
      apply B2R_Bsign_inj; [assumption|assumption|exact (eq_trans E1 (eq_trans (Rmax_comm _ _) (eq_sym E2)))|].
      assert (N : a <> B754_nan /\ b <> B754_nan) by (split; intros ->; discriminate). destruct N as [Na Nb].
      destruct (dabs_sign a b) as [S|[N|N]], (dabs_sign b a) as [S'|[N'|N']]; try contradiction. exact (eq_trans S (eq_sym S')).
    - destruct a as [sa|[|]| |[|] ma ea Ha], b as [sb|[|]| |[|] mb eb Hb]; try discriminate; cbn; auto.
    - destruct a as [sa|[|]| |[|] ma ea Ha], b as [sb|[|]| |[|] mb eb Hb]; try discriminate; cbn; auto.
    - destruct a as [sa|[|]| |[|] ma ea Ha], b as [sb|[|]| |[|] mb eb Hb]; try discriminate; cbn; auto. }
  destruct E as [->|E]; [reflexivity|]. rewrite E. cbn [dabs Babs]. now rewrite !nan_lt.
Qed.
Theorem almost_equal_refl_partial a eps : fin a = true -> fin eps = true -> 0 < B2 eps -> almost_equal a a eps = true.
Proof.
  intros Fa Fe Pe. unfold almost_equal. apply orb_true_iff. left.
  assert (Z0 : rnd (Rabs (B2 a - B2 a)) = 0).
  { replace (B2 a - B2 a) with 0 by ring. rewrite Rabs_R0. apply round_0. typeclasses eauto. }
  destruct (dsub_fin a a Fa Fa) as [(F1 & E1 & _)|(_ & L)].
  - apply dlt_fin; [assumption|assumption|]. rewrite E1, Z0. assumption.
  - rewrite Z0 in L. pose proof (bpow_gt_0 radix2 1024). lra.
Qed.
(* an infinity is not almost equal to itself *)
Theorem almost_equal_refl_refuted eps : almost_equal (B754_infinity false) (B754_infinity false) eps = false.
Proof.
  unfold almost_equal. change (dabs (dsub (B754_infinity false) (B754_infinity false))) with (@B754_nan 53 1024). now rewrite !nan_lt.
Qed.

(* 1 and 1 + 2^-52 with the default tolerance 50 * 2^-52 *)
Definition one : double := @B754_finite 53 1024 false 4503599627370496 (-52) eq_refl.
Definition one_next : double := @B754_finite 53 1024 false 4503599627370497 (-52) eq_refl.
Definition tol50 : double := @B754_finite 53 1024 false 7036874417766400 (-99) eq_refl.
Example almost_equal_example : almost_equal one one_next tol50 = true /\ almost_equal one (B754_zero true) tol50 = false /\
  fin tol50 = true /\ 0 < B2 tol50.
Proof. split; [vm_compute; reflexivity|]. split; [vm_compute; reflexivity|]. split; [reflexivity|]. apply F2R_gt_0. reflexivity. Qed.

(* ---- C135: log1pexp is log(1 + exp x) up to half a unit in the last place ---- *)
Lemma exp_tenth : 11051708 / 10000000 <= exp (1 / 10).
Proof.
  unfold exp. destruct (exist_exp (1 / 10)) as [l Hl]. cbn [proj1_sig].
  apply Rle_trans with (sum_f_R0 (fun i => / INR (Factorial.fact i) * (1 / 10) ^ i) 4).
  - cbn [sum_f_R0 pow Factorial.fact Nat.mul Nat.add INR]. lra.
  - apply sum_incr; [exact Hl|]. intros n. apply Rmult_le_pos; [|apply pow_le; lra].
    apply Rlt_le, Rinv_0_lt_compat, INR_fact_lt_0.
Qed.
Lemma exp_pow_tenth (n : nat) : (11051708 / 10000000) ^ n <= exp (INR n * (1 / 10)).
Proof.
  induction n as [|n IH].
  - simpl. rewrite Rmult_0_l, exp_0. lra.
  - rewrite S_INR. replace ((INR n + 1) * (1 / 10)) with (1 / 10 + INR n * (1 / 10)) by ring. rewrite exp_plus. simpl pow.
    apply Rmult_le_compat; [lra|apply pow_le; lra|apply exp_tenth|assumption].
Qed.
(* lower bounds of exp decided on integers *)
Lemma exp_value_bound (p q n : Z) (x : R) : (0 < q)%Z -> (0 <= n)%Z -> x * 10 = IZR n ->
  (p * 10000000 ^ n <=? q * 11051708 ^ n)%Z = true -> IZR p / IZR q <= exp x.
Proof.
  intros Hq Hn Hx H. replace x with (INR (Z.to_nat n) * (1 / 10)).
  2:{ rewrite INR_IZR_INZ, Z2Nat.id, <- Hx by assumption. field. }
  apply Rle_trans with (2 := exp_pow_tenth (Z.to_nat n)).
  rewrite <- (Z2Nat.id n Hn) in H. set (k := Z.to_nat n) in *. clearbody k.
  apply Z.leb_le, IZR_le in H. rewrite !mult_IZR, <- !pow_IZR in H.
  assert (Pq : 0 < IZR q) by (apply IZR_lt; assumption).
  unfold Rdiv. rewrite Rpow_mult_distr, pow_inv.
  assert (Pn : 0 < 10000000 ^ k) by (apply pow_lt; lra).
  apply (Rmult_le_reg_r (IZR q * 10000000 ^ k)); [nra|].
  replace (IZR p * / IZR q * (IZR q * 10000000 ^ k)) with (IZR p * 10000000 ^ k) by (field; lra).
  replace (11051708 ^ k * / 10000000 ^ k * (IZR q * 10000000 ^ k)) with (IZR q * 11051708 ^ k) by (field; lra). assumption.
Qed.
Lemma ln_upper t : 0 < t -> ln (1 + t) <= t.
Proof. intros H. rewrite <- (ln_exp t) at 2. left. apply ln_increasing; [lra|]. apply exp_ineq1. lra. Qed.
Lemma ln_lower t : 0 < t -> t / (1 + t) <= ln (1 + t).
Proof.
  intros H. assert (K : ln (/ (1 + t)) <= / (1 + t) - 1).
  { rewrite <- (ln_exp (/ (1 + t) - 1)). apply Rlt_le, ln_increasing; [apply Rinv_0_lt_compat; lra|].
    pose proof (exp_ineq1 (/ (1 + t) - 1)) as E. assert (N : / (1 + t) - 1 <> 0).
    { intros N. assert (/ (1 + t) < / 1) by (apply Rinv_lt_contravar; lra). lra. }
    specialize (E N). lra. }
  rewrite ln_Rinv in K by lra. replace (t / (1 + t)) with (- (/ (1 + t) - 1)) by (field; lra). lra.
Qed.
Lemma ln_shift x : ln (1 + exp x) = x + ln (1 + exp (- x)).
Proof.
  pose proof (exp_pos x). pose proof (exp_pos (- x)). rewrite <- (ln_exp x) at 2. rewrite <- ln_mult by lra. f_equal.
  rewrite Rmult_plus_distr_l, Rmult_1_r, <- exp_plus, Rplus_opp_r, exp_0. lra.
Qed.
Definition half_ulp : R := / 9007199254740992.       (* 2^-53 *)
Lemma exp_37 : 9007199254740992 <= exp 37.
Proof.
  apply Rle_trans with (9007199254740992 / 1); [lra|].
  apply (exp_value_bound 9007199254740992 1 370 37); [lia|lia|lra|]. vm_compute. reflexivity.
Qed.
Lemma exp_36 : 9007199254740992 / 18 <= exp 36.
Proof. apply (exp_value_bound 9007199254740992 18 360 36); [lia|lia|lra|]. vm_compute. reflexivity. Qed.
Lemma exp_333 : 90071992547409920 / 333 <= exp (333 / 10).
Proof. apply (exp_value_bound 90071992547409920 333 333 (333 / 10)); [lia|lia|lra|]. vm_compute. reflexivity. Qed.

Theorem log1pexp_accuracy x : Rabs (log1pexp x - ln (1 + exp x)) <= half_ulp * ln (1 + exp x).
Proof.
  pose proof (exp_pos x) as Px. pose proof (ln_lower (exp x) Px) as Lo. pose proof (ln_upper (exp x) Px) as Up.
  assert (Hh : 0 < half_ulp) by (unfold half_ulp; lra).
  unfold log1pexp. destruct (Rle_dec x (-37)) as [C|C]; [|destruct (Rle_dec x 18) as [C'|C']; [|destruct (Rlt_dec (333 / 10) x) as [C2|C2]]].
  - (* exp x: ln(1 + t) is between t / (1 + t) and t, and t <= 2^-53 *)
    set (t := exp x) in *. assert (T : t <= half_ulp).
    { unfold t, half_ulp. apply Rle_trans with (exp (- (37))).
      - destruct (Req_dec x (-37)) as [->|N]; [right; f_equal; lra|]. left. apply exp_increasing. lra.
      - rewrite exp_Ropp. apply Rinv_le_contravar; [lra|apply exp_37]. }
    rewrite Rabs_pos_eq by lra. apply Rle_trans with (t - t / (1 + t)); [lra|].
    apply Rle_trans with (half_ulp * (t / (1 + t))); [|apply Rmult_le_compat_l; lra].
    assert (D : 0 < / (1 + t)) by (apply Rinv_0_lt_compat; lra).
    replace (t - t / (1 + t)) with (t * (t / (1 + t))) by (field; lra).
    apply Rmult_le_compat_r; [|assumption]. unfold Rdiv. nra.
  - replace (ln (1 + exp x) - ln (1 + exp x)) with 0 by ring. rewrite Rabs_R0.
    apply Rmult_le_pos; [lra|]. rewrite <- ln_1. left. apply ln_increasing; lra.
  - (* x: what is dropped is ln(1 + exp(-x)) <= exp(-x) <= 33.3 * 2^-53 *)
    rewrite ln_shift in *. pose proof (exp_pos (- x)) as P. pose proof (ln_upper (exp (- x)) P) as U.
    assert (L0 : 0 < ln (1 + exp (- x))) by (rewrite <- ln_1; apply ln_increasing; lra).
    rewrite Rabs_minus_sym, Rabs_pos_eq by lra.
    apply Rle_trans with (exp (- x)); [lra|]. apply Rle_trans with (half_ulp * (333 / 10)); [|apply Rmult_le_compat_l; lra].
    apply Rle_trans with (exp (- (333 / 10))); [left; apply exp_increasing; lra|].
    rewrite exp_Ropp. replace (half_ulp * (333 / 10)) with (/ (90071992547409920 / 333)) by (unfold half_ulp; lra).
    apply Rinv_le_contravar; [lra|apply exp_333].
  - (* x + exp(-x): off by at most exp(-2x) <= 18 * 2^-53 *)
    rewrite ln_shift in *. pose proof (exp_pos (- x)) as P. set (u := exp (- x)) in *.
    pose proof (ln_upper u P) as U. pose proof (ln_lower u P) as L.
    rewrite Rabs_pos_eq by lra. assert (D : 0 < / (1 + u)) by (apply Rinv_0_lt_compat; lra).
    apply Rle_trans with (u * u).
    + apply Rle_trans with (u - u / (1 + u)); [lra|]. replace (u - u / (1 + u)) with (u * u * / (1 + u)) by (field; lra).
      assert (D1 : / (1 + u) <= 1) by (rewrite <- Rinv_1; apply Rinv_le_contravar; lra). assert (0 <= u * u) by nra.
      apply Rle_trans with (u * u * 1); [|lra]. now apply Rmult_le_compat_l.
    + assert (0 <= ln (1 + u)) by (apply Rle_trans with (2 := L); unfold Rdiv; nra).
      apply Rle_trans with (half_ulp * 18); [|apply Rmult_le_compat_l; lra].
      unfold u. rewrite <- exp_plus. apply Rle_trans with (exp (- (36))); [left; apply exp_increasing; lra|].
      rewrite exp_Ropp. replace (half_ulp * 18) with (/ (9007199254740992 / 18)) by (unfold half_ulp; lra).
      apply Rinv_le_contravar; [lra|apply exp_36].
Qed.
(* the branches do not join monotonically *)
Theorem log1pexp_monotone_refuted : exists x y, x < y /\ log1pexp y < log1pexp x.
Proof.
  pose proof (exp_pos (- (333 / 10))) as P. exists (333 / 10), (333 / 10 + exp (- (333 / 10)) / 2).
  split; [lra|]. unfold log1pexp.
  destruct (Rle_dec _ (-37)) as [?|_]; [lra|]. destruct (Rle_dec _ 18) as [?|_]; [lra|]. destruct (Rlt_dec _ _) as [_|?]; [|lra].
  destruct (Rle_dec _ (-37)) as [?|_]; [lra|]. destruct (Rle_dec _ 18) as [?|_]; [lra|]. destruct (Rlt_dec _ _) as [?|_]; [lra|]. lra.
Qed.

(* ---- C136: the SparseLU wrapper behaves like a value ---- *)
Close Scope R_scope.
Section LuProps.
Variables (M V : Type) (factors : M -> bool) (lu_solve : M -> V -> V).
(* the intended meaning: a wrapper is the matrix of its last compute, copied with it *)
Definition spec_step (ws : list (list M)) (o : lu_op M) : list (list M) :=
  match o with
  | New _ => ws ++ [[]]
  | Copy _ w => ws ++ [nth w ws []]
  | Compute _ w m => upd ws w (m :: nth w ws [])
  | Arrow _ _ _ => ws
  end.
(* the matrices computed by each wrapper and by those it was copied from, the last first *)
Definition spec_run (ops : list (lu_op M)) : list (list M) := fold_left spec_step ops [].
Definition no_arrow (o : lu_op M) : Prop := match o with Arrow _ _ _ => False | _ => True end.
Definition legal (ws : list (list M)) (o : lu_op M) : Prop :=
  match o with New _ => True | Copy _ w | Compute _ w _ | Arrow _ w _ => w < length ws end.
Inductive legal_run : list (list M) -> list (lu_op M) -> Prop :=
| legal_nil ws : legal_run ws []
| legal_cons ws o ops : legal ws o -> legal_run (spec_step ws o) ops -> legal_run ws (o :: ops).

Definition agrees (h : list M) (x : wrapper) (ms : list M) : Prop :=
  w_computed x = existsb factors ms /\
  match ms with [] => w_ptr x = None | m :: _ => exists p, w_ptr x = Some p /\ nth_error h p = Some m end.
Definition rel (s : lu_state M) (ws : list (list M)) : Prop := Forall2 (agrees (heap M s)) (wrappers M s) ws.

Lemma agrees_app h h' x ms : agrees h x ms -> agrees (h ++ h') x ms.
Proof.
  intros [H1 H2]. split; [assumption|]. destruct ms as [|m ms]; [assumption|]. destruct H2 as (p & Hp & Hm).
  exists p. split; [assumption|]. rewrite nth_error_app1; [assumption|]. apply nth_error_Some. congruence.
Qed.
Lemma forall2_nth {A B} (R : A -> B -> Prop) l k w d : Forall2 R l k -> w < length k ->
  exists x, nth_error l w = Some x /\ R x (nth w k d).
Proof.
  intros F. revert w. induction F as [|x y l k H F IH]; intros [|w] Hw; simpl in *; try lia; [eauto|]. apply IH. lia.
Qed.
Lemma forall2_upd {A B} (R : A -> B -> Prop) l k w x y : Forall2 R l k -> R x y -> Forall2 R (upd l w x) (upd k w y).
Proof.
  intros F. revert w. induction F as [|x' y' l k H F IH]; intros [|w] Hxy; simpl; constructor; auto.
Qed.
Lemma step_rel s ws o : rel s ws -> no_arrow o -> legal ws o ->
  exists s', lu_step M factors s o = Ok s' /\ rel s' (spec_step ws o).
Proof.
  intros HR Hn Hl. destruct o as [|w|w m|w m]; cbn [lu_step spec_step legal no_arrow] in *; [| | |contradiction].
  - eexists. split; [reflexivity|]. apply Forall2_app; [assumption|]. constructor; [|constructor]. split; reflexivity.
  - destruct (forall2_nth _ _ _ w [] HR Hl) as (x & Hx & Ha). rewrite (proj2 (nth_res_ok _ _ _) Hx). cbn [bind].
    eexists. split; [reflexivity|]. apply Forall2_app; [assumption|]. constructor; [assumption|constructor].
  - destruct (forall2_nth _ _ _ w [] HR Hl) as (x & Hx & Ha). rewrite (proj2 (nth_res_ok _ _ _) Hx). cbn [bind].
    unfold upd_res. replace (w <? length (wrappers M s)) with true.
    2:{ symmetry. apply Nat.ltb_lt. apply nth_error_Some. congruence. }
    cbn [bind]. eexists. split; [reflexivity|]. unfold rel. cbn [heap wrappers]. apply forall2_upd.
    + clear - HR. unfold rel in HR. induction HR; constructor; [now apply agrees_app|assumption].
    + destruct Ha as [Ha _]. split.
      * cbn [w_computed existsb]. rewrite Ha. now destruct (factors m).
      * exists (length (heap M s)). split; [reflexivity|]. rewrite nth_error_app2 by lia. now rewrite Nat.sub_diag.
Qed.
Lemma run_rel ops : Forall no_arrow ops -> legal_run [] ops ->
  exists s, lu_run M factors ops = Ok s /\ rel s (spec_run ops).
Proof.
  intros Hn Hl. unfold lu_run, spec_run.
  assert (G : forall s ws, rel s ws -> legal_run ws ops -> exists s', foldM (lu_step M factors) ops s = Ok s' /\ rel s' (fold_left spec_step ops ws)).
  { clear Hl. induction ops as [|o ops IH]; intros s ws HR Hl; [exists s; split; [reflexivity|assumption]|].
    inversion Hn as [|? ? Hno Hn']; subst. inversion Hl as [|? ? ? Hlo Hl']; subst.
    destruct (step_rel s ws o HR Hno Hlo) as (s1 & E1 & R1). cbn [foldM fold_left]. rewrite E1. cbn [bind]. now apply IH. }
  apply G; [constructor|assumption].
Qed.

(* solve uses the last matrix given to compute, whatever happened to the copies; the flag says that some compute succeeded *)
Theorem sparse_lu_partial ops : Forall no_arrow ops -> legal_run [] ops ->
  exists s, lu_run M factors ops = Ok s /\ forall w ms, nth_error (spec_run ops) w = Some ms ->
    (forall b, lu_apply M V factors lu_solve s w b =
       match ms with [] => UB | m :: _ => if factors m then Ok (lu_solve m b) else Throw end) /\
    exists c, lu_bool M s w = Ok c /\ (c = true <-> exists m, In m ms /\ factors m = true).
Proof.
  intros Hn Hl. destruct (run_rel ops Hn Hl) as (s & E & HR). exists s. split; [assumption|]. intros w ms Hw.
  assert (Lw : w < length (spec_run ops)) by (apply nth_error_Some; congruence).
  destruct (forall2_nth _ _ _ w [] HR Lw) as (x & Hx & Ha). rewrite (nth_error_nth _ _ _ Hw) in Ha.
  unfold lu_apply, lu_bool. rewrite (proj2 (nth_res_ok _ _ _) Hx). cbn [bind]. destruct Ha as [Hc Hp]. split.
  - intros b. destruct ms as [|m ms]; [now rewrite Hp|]. destruct Hp as (p & -> & Hm).
    rewrite (proj2 (nth_res_ok _ _ _) Hm). cbn [bind]. unfold assert_. now destruct (factors m).
  - exists (w_computed x). split; [reflexivity|]. rewrite Hc. rewrite existsb_exists. reflexivity.
Qed.
End LuProps.
(* after a failed compute the flag still says true when an earlier one succeeded *)
Theorem sparse_lu_flag_refuted : exists (ops : list (lu_op bool)) s, lu_run bool (fun m => m) ops = Ok s /\
  lu_bool bool s 0 = Ok true /\ lu_apply bool nat (fun m => m) (fun _ b => b) s 0 7 = Throw.
Proof. exists [New _; Compute _ 0 true; Compute _ 0 false]. eexists. split; [reflexivity|]. split; reflexivity. Qed.
(* operator-> reaches the factorisation shared with the copies *)
Theorem sparse_lu_arrow_refuted : exists (ops : list (lu_op nat)) m s s', lu_run nat (fun _ => true) ops = Ok s /\
  lu_step nat (fun _ => true) s (Arrow _ 1 m) = Ok s' /\
  lu_apply nat nat (fun _ => true) (fun m b => m + b) s 0 7 <> lu_apply nat nat (fun _ => true) (fun m b => m + b) s' 0 7.
Proof. exists [New _; Compute _ 0 3; Copy _ 0], 5. do 2 eexists. split; [reflexivity|]. split; [reflexivity|]. discriminate. Qed.
Example sparse_lu_example : Forall (no_arrow nat) [New _; Compute _ 0 3; Copy _ 0; Compute _ 0 4; Compute _ 1 5] /\
  legal_run nat [] [New _; Compute _ 0 3; Copy _ 0; Compute _ 0 4; Compute _ 1 5] /\
  (s <- lu_run nat Nat.even [New _; Compute _ 0 3; Copy _ 0; Compute _ 0 4; Compute _ 1 5] ;; lu_apply nat nat Nat.even (fun m b => m + b) s 0 7) = Ok 11.
Proof. split; [repeat constructor|]. split; [|reflexivity]. repeat (constructor; [cbn; lia|]). constructor. Qed.

Print Assumptions almost_equal_sound.
Print Assumptions almost_equal_complete.
Print Assumptions almost_equal_sym.
Print Assumptions log1pexp_accuracy.
Print Assumptions sparse_lu_partial.
