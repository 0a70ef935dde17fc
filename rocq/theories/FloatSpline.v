(* C195-C196: B-splines evaluated in double arithmetic are accurate relative to their values. *)
From Coq Require Import Reals Lra Lia List Bool ZArith.
From Flocq Require Import Core IEEE754.BinarySingleNaN Relative.
From Verif Require Import Base RSum FieldProps SplineModel SplineProps SymbolsModel SymbolsProps FloatModel FloatProps FloatSearch FloatSplineModel.
Import ListNotations.
Open Scope R_scope.

#[local] Instance vfexp3 : Valid_exp (SpecFloat.fexp 53 1024) := @fexp_correct 53 1024 prec64.
Notation uu := FloatProps.u.

(* ---- single operations ---- *)
Lemma dsub_add a b : dsub a b = dadd a (Bopp b).
Proof.
  unfold dsub, dadd. destruct a as [sa|sa| |sa ma ea Ha], b as [sb|sb| |sb mb eb Hb]; reflexivity.
Qed.
Lemma dsub_ok a b e : (-1074 <= e < 1024)%Z -> fin a = true -> fin b = true -> Rabs (B2 a - B2 b) <= bpow radix2 e ->
  fin (dsub a b) = true /\ B2 (dsub a b) = rnd (B2 a - B2 b) /\ Rabs (B2 (dsub a b) - (B2 a - B2 b)) <= uu * Rabs (B2 a - B2 b).
Proof.
  intros He Fa Fb H. rewrite dsub_add. assert (Fo : fin (Bopp b) = true) by now rewrite is_finite_Bopp. assert (Eo : B2 a + B2 (Bopp b) = B2 a - B2 b) by (rewrite B2R_Bopp; ring).
  destruct (dadd_ok a (Bopp b) e He Fa Fo) as [F E]; [now rewrite Eo|]. split; auto. rewrite Eo in E. split; auto. rewrite <- Eo. now apply dadd_error.
Qed.
Lemma d1_ok : fin d1 = true /\ B2 d1 = 1.
Proof. split; [apply is_finite_Bone|apply Bone_correct]. Qed.
Lemma dtol_ok : fin dtol = true /\ B2 dtol = tol.
Proof. destruct (B2_dbl 50 (-52)) as [F E]; [reflexivity|lia|]. split; [exact F|]. change (B2 dtol) with (B2 (dbl 50 (-52))). rewrite E. unfold tol. cbn. lra. Qed.
Lemma deq_fin a : fin a = true -> deq a d0 = true <-> B2 a = 0.
Proof. intros Fa. unfold deq. rewrite Beqb_correct by auto. change (B2 d0) with 0. destruct (Req_bool_spec (B2 a) 0); intuition discriminate. Qed.
Lemma dle_fin a b : fin a = true -> fin b = true -> dle a b = true <-> B2 a <= B2 b.
Proof. intros Fa Fb. unfold dle. rewrite Bleb_correct by auto. destruct (Rle_bool_spec (B2 a) (B2 b)); intuition (discriminate || lra). Qed.
(* the reciprocal of a number in [2^-e, 2^e] *)
Lemma recip_fin g : fin g = true -> bpow radix2 (-501) <= B2 g <= bpow radix2 501 ->
  fin (ddiv d1 g) = true /\ 0 < B2 (ddiv d1 g) <= bpow radix2 501 /\ Rabs (B2 (ddiv d1 g) - / B2 g) <= uu * / B2 g.
Proof.
  intros Fg Hg. assert (P := bpow_gt_0 radix2 (-501)). assert (Pg : 0 < B2 g) by lra. destruct d1_ok as [F1 E1].
  assert (I : bpow radix2 (-501) <= / B2 g <= bpow radix2 501).
  { split; [replace (bpow radix2 (-501)) with (/ bpow radix2 501)|replace (bpow radix2 501) with (/ bpow radix2 (-501))]; try (rewrite <- bpow_opp; reflexivity); apply Rinv_le_contravar; try lra. }
  assert (C := @Bdiv_correct 53 1024 prec64 emax64 mode_NE d1 g ltac:(lra)). fold (ddiv d1 g) in C. rewrite E1 in C. replace (1 / B2 g) with (/ B2 g) in C by (unfold Rdiv; ring).
  assert (R1 : bpow radix2 (-501) <= rnd (/ B2 g) <= bpow radix2 501) by (apply rnd_between; [apply rnd_bpow; lia|apply rnd_bpow; lia|exact I]).
  rewrite Rlt_bool_true in C. 2:{ rewrite Rabs_pos_eq by lra. apply Rle_lt_trans with (1 := proj2 R1). apply bpow_lt. lia. }
  destruct C as (C1 & C2 & _). split; [rewrite C2; exact F1|]. rewrite C1. split; [lra|].
  assert (Z := @relative_error_N_FLT radix2 (-1074) 53 prec64 (fun x => negb (Z.even x)) (/ B2 g)). change (round radix2 (FLT_exp (-1074) 53) (Znearest (fun x => negb (Z.even x)))) with rnd in Z.
  rewrite (Rabs_pos_eq (/ B2 g)) in Z by lra. apply Z. apply Rle_trans with (2 := proj1 I). apply bpow_le. lia.
Qed.

(* ---- errors relative to a nonnegative exact value ---- *)
Definition close (k : nat) (E s e : R) : Prop := Rabs (s - e) <= ((1 + uu) ^ k - 1) * e + E.
Lemma close_weaken k k' E E' s e : (k <= k')%nat -> E <= E' -> 0 <= e -> close k E s e -> close k' E' s e.
Proof.
  intros Hk HE He H. unfold close in *. assert (U := u_pos). assert ((1 + uu) ^ k <= (1 + uu) ^ k') by (apply Rle_pow; [lra|auto]).
  assert (((1 + uu) ^ k - 1) * e <= ((1 + uu) ^ k' - 1) * e) by (apply Rmult_le_compat_r; lra). lra.
Qed.
Lemma pow_small k : (k <= 2000)%nat -> (1 + uu) ^ k <= 2.
Proof.
  intros H. apply Rle_trans with ((1 + uu) ^ 2000); [apply Rle_pow; [assert (U := u_pos); lra|auto]|].
  assert (N : INR 2000 = 2000) by (rewrite INR_IZR_INZ; reflexivity). assert (L := pow_linear 2000). rewrite N in L. generalize dependent ((1 + uu) ^ 2000). intros z L. rewrite u_small in L. assert (z <= 1 + 2000 * (2 * / 9007199254740992)) by (apply L; lra). lra.
Qed.
(* a weight D / G, 0 <= D <= G, from the rounded differences d and g and the rounded reciprocal a *)
Lemma weight_close G D g d a w : 0 < G -> 0 <= D <= G -> 0 < g -> Rabs (g - G) <= uu * G -> Rabs (d - D) <= uu * D ->
  Rabs (a - / g) <= uu * / g -> Rabs (w - a * d) <= uu * Rabs (a * d) + eta -> close 5 eta w (D / G).
Proof.
  intros PG HD Pg Hg Hd Ha Hw. assert (U := u_pos). assert (Us := u_small). assert (He := eta_pos). unfold close. set (om := D / G).
  assert (Om : 0 <= om) by (apply Rmult_le_pos; [lra|left; now apply Rinv_0_lt_compat]). assert (EG : om * G = D) by (unfold om; field; lra).
  apply Rabs_le_inv in Hg. apply Rabs_le_inv in Hd. apply Rabs_le_inv in Ha.
  (* a d = om (1 + theta) *)
  assert (Ig : (1 - uu) * / G <= / g <= (1 + uu) * (1 + uu) * / G).
  { assert (IG : 0 < / G) by now apply Rinv_0_lt_compat. split.
    - apply Rmult_le_reg_r with g; auto. rewrite Rinv_l by lra. apply Rle_trans with ((1 - uu) * / G * ((1 + uu) * G)).
      + apply Rmult_le_compat_l; [apply Rmult_le_pos; lra|lra].
      + replace ((1 - uu) * / G * ((1 + uu) * G)) with ((1 - uu) * (1 + uu)) by (field; lra). nra.
    - apply Rmult_le_reg_r with g; auto. rewrite Rinv_l by lra. apply Rle_trans with ((1 + uu) * (1 + uu) * / G * ((1 - uu) * G)).
      + replace ((1 + uu) * (1 + uu) * / G * ((1 - uu) * G)) with ((1 + uu) * (1 + uu) * (1 - uu)) by (field; lra). nra.
      + apply Rmult_le_compat_l; [|lra]. apply Rmult_le_pos; [nra|lra]. }
  assert (Pi : 0 < / g) by now apply Rinv_0_lt_compat. assert (IG : 0 < / G) by now apply Rinv_0_lt_compat.
  assert (La : (1 - uu) * ((1 - uu) * / G) <= a). { apply Rle_trans with ((1 - uu) * / g); [apply Rmult_le_compat_l; lra|lra]. }
  assert (Ua : a <= (1 + uu) * ((1 + uu) * (1 + uu) * / G)). { apply Rle_trans with ((1 + uu) * / g); [lra|apply Rmult_le_compat_l; lra]. }
  assert (Pa : 0 <= a). { apply Rle_trans with (2 := La). apply Rmult_le_pos; [lra|apply Rmult_le_pos; lra]. }
  assert (Ld : (1 - uu) * D <= d) by lra. assert (Ud : d <= (1 + uu) * D) by lra. assert (Pd : 0 <= d). { apply Rle_trans with (2 := Ld). apply Rmult_le_pos; lra. }
  assert (Lp : (1 - uu) ^ 3 * om <= a * d). { replace ((1 - uu) ^ 3 * om) with ((1 - uu) * ((1 - uu) * / G) * ((1 - uu) * D)) by (unfold om; field; lra). apply Rmult_le_compat; auto; [apply Rmult_le_pos; [lra|apply Rmult_le_pos; lra]|apply Rmult_le_pos; lra]. }
  assert (Up : a * d <= (1 + uu) ^ 4 * om). { replace ((1 + uu) ^ 4 * om) with ((1 + uu) * ((1 + uu) * (1 + uu) * / G) * ((1 + uu) * D)) by (unfold om; field; lra). apply Rmult_le_compat; auto. }
  assert (Pp : 0 <= a * d) by now apply Rmult_le_pos. rewrite (Rabs_pos_eq (a * d)) in Hw by lra. apply Rabs_le_inv in Hw.
  apply Rabs_le. split.
  - assert ((1 - uu) * ((1 - uu) ^ 3 * om) <= (1 - uu) * (a * d)) by (apply Rmult_le_compat_l; lra).
    assert (K : 2 - (1 + uu) ^ 5 <= (1 - uu) ^ 4) by (rewrite Us; lra). assert ((2 - (1 + uu) ^ 5) * om <= (1 - uu) ^ 4 * om) by (apply Rmult_le_compat_r; lra). nra.
  - assert ((1 + uu) * (a * d) <= (1 + uu) * ((1 + uu) ^ 4 * om)) by (apply Rmult_le_compat_l; lra). nra.
Qed.
(* a product with a weight of at most 1 *)
Lemma mul_close k E w om p e T : 0 <= om <= 1 -> 0 <= e <= 1 -> 0 <= E <= 1 -> (1 + uu) ^ k <= 2 -> close 5 eta w om -> close k E p e -> Rabs (T - w * p) <= uu * Rabs (w * p) + eta ->
  close (k + 6) (2 * E + 5 * eta) T (om * e).
Proof.
  intros Ho He HE Q2 Hw Hp HT. assert (U := u_pos). assert (Us := u_small). assert (Et := eta_pos). unfold close in *. set (W := (1 + uu) ^ 5) in *. set (Q := (1 + uu) ^ k) in *.
  assert (Q1 : 1 <= Q) by apply pow_ge1. assert (W1 : 1 <= W) by apply pow_ge1. assert (W2 : (1 + uu) * W <= 2) by (unfold W; rewrite Us; lra).
  assert (Bw : Rabs w <= W * om + eta). { replace w with (om + (w - om)) by ring. apply Rle_trans with (1 := Rabs_triang _ _). rewrite (Rabs_pos_eq om) by lra. lra. }
  assert (Bp : Rabs p <= Q * e + E). { replace p with (e + (p - e)) by ring. apply Rle_trans with (1 := Rabs_triang _ _). rewrite (Rabs_pos_eq e) by lra. lra. }
  assert (D : Rabs (w * p - om * e) <= (W * Q - 1) * (om * e) + (W * om * E + eta * (Q * e + E))).
  { replace (w * p - om * e) with ((w - om) * p + om * (p - e)) by ring. apply Rle_trans with (1 := Rabs_triang _ _). rewrite !Rabs_mult, (Rabs_pos_eq om) by lra.
    assert (Rabs (w - om) * Rabs p <= ((W - 1) * om + eta) * (Q * e + E)) by (apply Rmult_le_compat; auto using Rabs_pos). assert (om * Rabs (p - e) <= om * ((Q - 1) * e + E)) by (apply Rmult_le_compat_l; lra). nra. }
  set (Z := W * om * E + eta * (Q * e + E)) in *.
  assert (HZ : 0 <= Z /\ (1 + uu) * Z <= 2 * E + 4 * eta).
  { assert (0 <= W * om * E) by (apply Rmult_le_pos; [apply Rmult_le_pos|]; lra). assert (0 <= Q * e) by (apply Rmult_le_pos; lra). assert (Q * e <= 2) by nra. assert (0 <= eta * (Q * e + E)) by (apply Rmult_le_pos; lra).
    assert (eta * (Q * e + E) <= eta * 3) by (apply Rmult_le_compat_l; lra). assert (W * om * E <= W * E). { replace (W * om * E) with (W * E * om) by ring. rewrite <- (Rmult_1_r (W * E)) at 2. apply Rmult_le_compat_l; [apply Rmult_le_pos; lra|lra]. }
    assert ((1 + uu) * (W * E) <= 2 * E) by (rewrite <- Rmult_assoc; apply Rmult_le_compat_r; lra). unfold Z. split; [lra|]. assert ((1 + uu) * (W * om * E) <= (1 + uu) * (W * E)) by (apply Rmult_le_compat_l; lra).
    assert ((1 + uu) * (eta * (Q * e + E)) <= (1 + uu) * (eta * 3)) by (apply Rmult_le_compat_l; lra). assert (uu * (eta * 3) <= eta) by (rewrite Us; lra). lra. }
  assert (Bwp : Rabs (w * p) <= W * Q * (om * e) + Z). { replace (w * p) with (om * e + (w * p - om * e)) by ring. apply Rle_trans with (1 := Rabs_triang _ _). rewrite (Rabs_pos_eq (om * e)) by (apply Rmult_le_pos; lra). lra. }
  replace ((1 + uu) ^ (k + 6)) with ((1 + uu) * (W * Q)) by (unfold W, Q; rewrite pow_add; ring). replace (T - om * e) with ((T - w * p) + (w * p - om * e)) by ring. apply Rle_trans with (1 := Rabs_triang _ _).
  assert (uu * Rabs (w * p) <= uu * (W * Q * (om * e) + Z)) by (apply Rmult_le_compat_l; lra). lra.
Qed.
Lemma add_close k E s1 e1 s2 e2 t : 0 <= e1 -> 0 <= e2 -> 0 <= E -> close k E s1 e1 -> close k E s2 e2 -> Rabs (t - (s1 + s2)) <= uu * Rabs (s1 + s2) -> close (S k) (2 * (1 + uu) * E) t (e1 + e2).
Proof.
  intros H1 H2 HE C1 C2 Ht. unfold close in *. set (Q := (1 + uu) ^ k) in *. assert (Q1 : 1 <= Q) by apply pow_ge1. assert (U := u_pos). cbn [pow]. fold Q.
  assert (D : Rabs (s1 + s2 - (e1 + e2)) <= (Q - 1) * (e1 + e2) + 2 * E). { replace (s1 + s2 - (e1 + e2)) with ((s1 - e1) + (s2 - e2)) by ring. apply Rle_trans with (1 := Rabs_triang _ _). lra. }
  assert (B : Rabs (s1 + s2) <= Q * (e1 + e2) + 2 * E). { replace (s1 + s2) with ((e1 + e2) + (s1 + s2 - (e1 + e2))) by ring. apply Rle_trans with (1 := Rabs_triang _ _). rewrite (Rabs_pos_eq (e1 + e2)) by lra. lra. }
  replace (t - (e1 + e2)) with ((t - (s1 + s2)) + (s1 + s2 - (e1 + e2))) by ring. apply Rle_trans with (1 := Rabs_triang _ _). assert (uu * Rabs (s1 + s2) <= uu * (Q * (e1 + e2) + 2 * E)) by (apply Rmult_le_compat_l; lra). lra.
Qed.

Definition weight (lo hi p q : double) : double := dmul (if deq (dsub hi lo) d0 then d0 else ddiv d1 (dsub hi lo)) (dsub p q).
Lemma weight_ok lo hi p q : fin lo = true -> fin hi = true -> fin p = true -> fin q = true -> Rabs (B2 lo) <= bpow radix2 500 -> Rabs (B2 hi) <= bpow radix2 500 -> Rabs (B2 p) <= bpow radix2 500 -> Rabs (B2 q) <= bpow radix2 500 ->
  (B2 hi - B2 lo = 0 \/ bpow radix2 (-500) <= B2 hi - B2 lo) ->
  fin (weight lo hi p q) = true /\ Rabs (B2 (weight lo hi p q)) <= bpow radix2 1002 /\
  (0 <= B2 p - B2 q <= B2 hi - B2 lo -> 0 <= B2 (weight lo hi p q) /\ close 5 eta (B2 (weight lo hi p q)) ((if Req_EM_T (B2 hi - B2 lo) 0 then 0 else 1 / (B2 hi - B2 lo)) * (B2 p - B2 q))).
Proof.
  intros Fl Fh Fp Fq Bl Bh Bp Bq Hg. assert (S501 : bpow radix2 501 = 2 * bpow radix2 500). { replace 501%Z with (1 + 500)%Z by reflexivity. rewrite bpow_plus. reflexivity. }
  apply Rabs_le_inv in Bl. apply Rabs_le_inv in Bh. apply Rabs_le_inv in Bp. apply Rabs_le_inv in Bq. assert (P500 := bpow_gt_0 radix2 500). assert (Pm := bpow_gt_0 radix2 (-500)).
  destruct (dsub_ok hi lo 501 ltac:(lia) Fh Fl) as (F1 & E1 & D1); [apply Rabs_le; lra|]. destruct (dsub_ok p q 501 ltac:(lia) Fp Fq) as (F2 & E2 & D2); [apply Rabs_le; lra|].
  assert (B2d : Rabs (B2 (dsub p q)) <= bpow radix2 501) by (rewrite E2; apply rnd_bound; [lia|apply Rabs_le; lra]). set (d := dsub p q) in *. set (g := dsub hi lo) in *. unfold weight. fold d g. assert (He := eta_pos).
  destruct Hg as [Z|Hg].
  - assert (Eg : B2 g = 0) by (rewrite E1, Z; apply rnd_0). rewrite (proj2 (deq_fin g F1) Eg). assert (E0 : B2 d0 * B2 d = 0) by (change (B2 d0) with 0; ring). destruct (dmul_ok d0 d 0 ltac:(lia) eq_refl F2) as [F E]; [rewrite E0, Rabs_R0; apply bpow_ge_0|].
    rewrite E0, rnd_0 in E. rewrite E. split; auto. split; [rewrite Rabs_R0; apply bpow_ge_0|]. intros H. split; [lra|]. unfold close. replace (_ * (B2 p - B2 q)) with 0 by (replace (B2 p - B2 q) with 0 by lra; ring). rewrite Rminus_0_r, Rabs_R0. lra.
  - assert (Rg : bpow radix2 (-500) <= B2 g <= bpow radix2 501) by (rewrite E1; apply rnd_between; [apply rnd_bpow; lia|apply rnd_bpow; lia|lra]).
    assert (Eg : deq g d0 = false). { destruct (deq g d0) eqn:E; auto. apply deq_fin in E; auto. lra. } rewrite Eg.
    destruct (recip_fin g F1) as (Fa & Ba & Da); [assert (bpow radix2 (-501) <= bpow radix2 (-500)) by (apply bpow_le; lia); lra|]. set (a := ddiv d1 g) in *.
    assert (Bad : Rabs (B2 a * B2 d) <= bpow radix2 1002). { rewrite Rabs_mult. replace 1002%Z with (501 + 501)%Z by reflexivity. rewrite bpow_plus. apply Rmult_le_compat; auto using Rabs_pos. rewrite Rabs_pos_eq; lra. }
    destruct (dmul_ok a d 1002 ltac:(lia) Fa F2 Bad) as [F E]. split; auto. split; [rewrite E; apply rnd_bound; [lia|auto]|]. intros H. split.
    + rewrite E. apply rnd_pos. apply Rmult_le_pos; [lra|]. rewrite E2. apply rnd_pos. lra.
    + destruct (Req_EM_T _ _) as [Z|NZ]; [lra|]. replace (1 / (B2 hi - B2 lo) * (B2 p - B2 q)) with ((B2 p - B2 q) / (B2 hi - B2 lo)) by (field; lra). rewrite (Rabs_pos_eq (B2 p - B2 q)) in D2 by lra. rewrite (Rabs_pos_eq (B2 hi - B2 lo)) in D1 by lra.
      apply (weight_close (B2 hi - B2 lo) (B2 p - B2 q) (B2 g) (B2 d) (B2 a)); auto; [lra|lra|]. now apply dmul_error.
Qed.

(* ---- the recursion ---- *)
Definition fk (t : list double) (i : nat) : double := nth i t d0.
Lemma nth_res_fk t i : (i < length t)%nat -> nth_res t i = Ok (fk t i).
Proof. intros H. apply nth_res_ok. now apply nth_error_nth'. Qed.
Lemma kn_fk t i : kn (map B2 t) i = B2 (fk t i).
Proof. unfold kn, fk. change 0 with (B2 d0). apply map_nth. Qed.
(* the knots of a vector are finite, not huge, and equal or not too close *)
Definition moderate (t : list double) : Prop :=
  (forall i, (i < length t)%nat -> fin (fk t i) = true /\ Rabs (B2 (fk t i)) <= bpow radix2 500) /\
  (forall i j, (i <= j < length t)%nat -> B2 (fk t j) - B2 (fk t i) = 0 \/ bpow radix2 (-500) <= B2 (fk t j) - B2 (fk t i)).
Section Active.
Variables (t : list double) (M k : nat) (x : double).
Hypothesis Ht : moderate t.
Hypothesis Fx : fin x = true.
Hypothesis Bx : Rabs (B2 x) <= bpow radix2 500.
Let T := kn (map B2 t).
Let len := length t.
Hypothesis Hk : T k < T (S k).
Hypothesis Hx : T k <= B2 x <= T (S k).
Hypothesis HM : (M <= k)%nat /\ (k + M + 2 <= len)%nat.
Hypothesis H0 : forall j, (j + 1 < len)%nat -> f_spline0 M t j x = Ok (if (j =? k)%nat then d1 else d0).
Lemma T_mono i j : (i <= j < len)%nat -> T i <= T j.
Proof. intros H. unfold T. rewrite !kn_fk. destruct (proj2 Ht i j H) as [E|E]; [lra|]. assert (P := bpow_gt_0 radix2 (-500)). lra. Qed.
Lemma cox_le1 r i : (r <= M)%nat -> (i + r + 1 < len)%nat -> 0 <= cox T (one_at k) r i (B2 x) <= 1.
Proof.
  intros Hr Hi. assert (N := cox_nonneg T len T_mono k (B2 x) Hx r). split; [now apply N|]. rewrite <- (cox_partition T len T_mono k (B2 x) Hk r (len - r - 1)) by lia.
  assert (S1 := rsum_single (len - r - 1) (fun j => if (j =? i)%nat then cox T (one_at k) r j (B2 x) else 0) i ltac:(lia)). cbv beta in S1. rewrite Nat.eqb_refl in S1. rewrite <- S1.
  - apply rsum_le. intros j Hj. destruct (j =? i)%nat; [lra|apply N; lia].
  - intros j _ Hne. apply Nat.eqb_neq in Hne. now rewrite Hne.
Qed.
Definition under (r : nat) : R := 16 ^ r * eta.
Lemma under_small r : (r <= 200)%nat -> 0 <= under r <= 1.
Proof.
  intros H. assert (E := eta_pos). assert (P : 0 < 16 ^ r) by (apply pow_lt; lra). unfold under. split; [nra|]. assert (L : 16 ^ r <= 16 ^ 200) by (apply Rle_pow; [lra|auto]).
  apply Rle_trans with (16 ^ 200 * eta); [apply Rmult_le_compat_r; lra|]. replace (16 ^ 200) with (bpow radix2 800). 2:{ rewrite <- IZR_Zpower by lia. replace 16 with (IZR 16) by reflexivity. rewrite pow_IZR. f_equal. }
  unfold eta. replace (bpow radix2 800 * (/ 2 * bpow radix2 (-1074))) with (/ 2 * bpow radix2 (800 + -1074)) by (rewrite bpow_plus; ring). assert (bpow radix2 (800 + -1074) <= bpow radix2 0) by (apply bpow_le; lia). change (bpow radix2 0) with 1 in *. lra.
Qed.
(* one of the two products of the recursion *)
Lemma term_ok r w om p e : (r <= 199)%nat -> fin w = true -> Rabs (B2 w) <= bpow radix2 1002 -> fin p = true -> 0 <= B2 p -> 0 <= e <= 1 -> close (7 * r) (under r) (B2 p) e ->
  (B2 p = 0 /\ e = 0) \/ (0 <= B2 w /\ 0 <= om <= 1 /\ close 5 eta (B2 w) om) ->
  fin (dmul w p) = true /\ 0 <= B2 (dmul w p) <= bpow radix2 1004 /\ 0 <= om * e /\ close (7 * r + 6) (2 * under r + 5 * eta) (B2 (dmul w p)) (om * e) /\ (B2 p = 0 -> B2 (dmul w p) = 0).
Proof.
  intros Hr Fw Bw Fp Np He Cp Hw. assert (Q2 : (1 + uu) ^ (7 * r) <= 2) by (apply pow_small; lia). assert (U := under_small r ltac:(lia)). assert (Et := eta_pos).
  assert (P4 : B2 p <= bpow radix2 2). { unfold close in Cp. apply Rabs_le_inv in Cp. change (bpow radix2 2) with 4. assert (Q1 := pow_ge1 (7 * r)). assert (((1 + uu) ^ (7 * r) - 1) * e <= 1 * 1) by (apply Rmult_le_compat; lra). lra. }
  assert (B : Rabs (B2 w * B2 p) <= bpow radix2 1004). { rewrite Rabs_mult. replace 1004%Z with (1002 + 2)%Z by reflexivity. rewrite bpow_plus. apply Rmult_le_compat; auto using Rabs_pos. rewrite Rabs_pos_eq; lra. }
  destruct (dmul_ok w p 1004 ltac:(lia) Fw Fp B) as [F E]. assert (BT : Rabs (B2 (dmul w p)) <= bpow radix2 1004) by (rewrite E; apply rnd_bound; [lia|auto]). split; auto.
  destruct Hw as [[Z1 Z2]|(W0 & Ho & Cw)].
  - assert (E0 : B2 (dmul w p) = 0) by (rewrite E, Z1, Rmult_0_r; apply rnd_0). rewrite E0, Z2, Rmult_0_r. split; [split; [lra|apply bpow_ge_0]|]. split; [lra|]. split; auto. unfold close. rewrite Rminus_0_r, Rabs_R0. lra.
  - assert (N : 0 <= B2 (dmul w p)) by (rewrite E; apply rnd_pos; now apply Rmult_le_pos). split; [split; auto; rewrite Rabs_pos_eq in BT; auto|]. split; [apply Rmult_le_pos; lra|]. split.
    + apply (mul_close (7 * r) (under r) (B2 w) om (B2 p) e); auto. now apply dmul_error.
    + intros Z. rewrite E, Z, Rmult_0_r. apply rnd_0.
Qed.
Lemma rc_le1 r i y : (i + r < len)%nat -> 0 <= y <= T (i + r)%nat - T i -> 0 <= rc T r i * y <= 1.
Proof.
  intros Hi Hy. unfold rc. destruct (Req_EM_T _ _) as [Z|N]; [lra|]. assert (P : 0 < T (i + r)%nat - T i) by lra. assert (I : 0 < / (T (i + r)%nat - T i)) by now apply Rinv_0_lt_compat.
  unfold Rdiv. rewrite Rmult_1_l. split; [apply Rmult_le_pos; lra|]. rewrite <- (Rinv_l (T (i + r)%nat - T i)) by lra. apply Rmult_le_compat_l; lra.
Qed.
Lemma f_spline_ok r : (r <= M)%nat -> (r <= 200)%nat -> forall i, (i + r + 1 < len)%nat ->
  exists s, f_spline M t r i x = Ok s /\ fin s = true /\ 0 <= B2 s /\ (~ (i <= k <= i + r)%nat -> B2 s = 0) /\ close (7 * r) (under r) (B2 s) (cox T (one_at k) r i (B2 x)).
Proof.
  induction r as [|r IH]; intros HrM Hr i Hi.
  - cbn [f_spline]. rewrite H0 by lia. assert (Et := eta_pos). destruct d1_ok as [F1 E1]. unfold close, under. replace (7 * 0)%nat with 0%nat by lia. cbn [cox pow]. unfold one_at. destruct (i =? k)%nat eqn:E.
    + apply Nat.eqb_eq in E. exists d1. rewrite E1. split; auto. split; auto. split; [lra|]. split; [intros X; exfalso; apply X; lia|]. rewrite Rminus_diag_eq, Rabs_R0 by auto. lra.
    + exists d0. change (B2 d0) with 0. split; auto. split; auto. split; [lra|]. split; [auto|]. rewrite Rminus_diag_eq, Rabs_R0 by auto. lra.
  - destruct (IH ltac:(lia) ltac:(lia) i ltac:(lia)) as (p & Ep & Fp & Np & Zp & Cp). destruct (IH ltac:(lia) ltac:(lia) (i + 1)%nat ltac:(lia)) as (q & Eq & Fq & Nq & Zq & Cq).
    cbn [f_spline]. unfold f_recip. rewrite !nth_res_fk by (fold len; lia). cbn [bind]. rewrite Ep, Eq. cbn [bind]. fold (weight (fk t i) (fk t (i + S r)) x (fk t i)). fold (weight (fk t (i + 1)) (fk t (i + 1 + S r)) (fk t (i + S r + 1)) x).
    set (w1 := weight (fk t i) (fk t (i + S r)) x (fk t i)). set (w2 := weight (fk t (i + 1)) (fk t (i + 1 + S r)) (fk t (i + S r + 1)) x).
    assert (K : forall j, (j < len)%nat -> fin (fk t j) = true /\ Rabs (B2 (fk t j)) <= bpow radix2 500) by apply Ht.
    destruct (weight_ok (fk t i) (fk t (i + S r)) x (fk t i)) as (Fw1 & Bw1 & Cw1); try apply K; auto; try lia. { apply Ht. fold len. lia. }
    destruct (weight_ok (fk t (i + 1)) (fk t (i + 1 + S r)) (fk t (i + S r + 1)) x) as (Fw2 & Bw2 & Cw2); try apply K; auto; try lia. { apply Ht. fold len. lia. }
    fold w1 in Fw1, Bw1, Cw1. fold w2 in Fw2, Bw2, Cw2.
    assert (G1 := cox_le1 r i ltac:(lia) ltac:(lia)). assert (G2 := cox_le1 r (i + 1) ltac:(lia) ltac:(lia)).
    set (e1 := cox T (one_at k) r i (B2 x)) in *. set (e2 := cox T (one_at k) r (i + 1) (B2 x)) in *.
    destruct (term_ok r w1 (rc T (S r) i * (B2 x - T i)) p e1) as (A1 & A2 & A3 & A4 & A5); auto; try lia.
    { destruct (Nat.le_gt_cases i k) as [L|L]; [|left; split; [apply Zp; lia|apply cox_zero; lia]]. destruct (Nat.le_gt_cases k (i + r)) as [L'|L']; [|left; split; [apply Zp; lia|apply cox_zero; lia]]. right.
      assert (X1 : T i <= T k) by (apply T_mono; lia). assert (X2 : T (S k) <= T (i + S r)%nat) by (apply T_mono; lia). assert (X3 : 0 <= B2 x - T i <= T (i + S r)%nat - T i) by lra.
      assert (X4 := X3). unfold T in X4. rewrite !kn_fk in X4. destruct (Cw1 X4) as [N C]. split; auto. split; [apply rc_le1; [lia|auto]|]. unfold rc, T. rewrite !kn_fk. exact C. }
    destruct (term_ok r w2 (rc T (S r) (i + 1) * (T (i + S r + 1)%nat - B2 x)) q e2) as (C1 & C2 & C3 & C4 & C5); auto; try lia.
    { destruct (Nat.le_gt_cases (i + 1) k) as [L|L]; [|left; split; [apply Zq; lia|apply cox_zero; lia]]. destruct (Nat.le_gt_cases k (i + 1 + r)) as [L'|L']; [|left; split; [apply Zq; lia|apply cox_zero; lia]]. right.
      assert (X1 : T (i + 1)%nat <= T k) by (apply T_mono; lia). assert (X2 : T (S k) <= T (i + S r + 1)%nat) by (apply T_mono; lia). replace (i + 1 + S r)%nat with (i + S r + 1)%nat in * by lia. assert (X3 : 0 <= T (i + S r + 1)%nat - B2 x <= T (i + S r + 1)%nat - T (i + 1)%nat) by lra.
      assert (X4 := X3). unfold T in X4. rewrite !kn_fk in X4. destruct (Cw2 X4) as [N C]. split; auto. split; [replace (i + S r + 1)%nat with (i + 1 + S r)%nat by lia; apply rc_le1; [lia|replace (i + 1 + S r)%nat with (i + S r + 1)%nat by lia; auto]|].
      unfold rc, T. rewrite !kn_fk. replace (i + 1 + S r)%nat with (i + S r + 1)%nat by lia. exact C. }
    set (s1 := dmul w1 p) in *. set (s2 := dmul w2 q) in *. destruct (dadd_ok s1 s2 1005 ltac:(lia) A1 C1) as [F E].
    { rewrite Rabs_pos_eq by lra. replace 1005%Z with (1 + 1004)%Z by reflexivity. rewrite bpow_plus. change (bpow radix2 1) with 2. lra. }
    exists (dadd s1 s2). split; auto. split; auto. split; [rewrite E; apply rnd_pos; lra|]. split.
    + intros Hn. rewrite E, A5, C5, Rplus_0_r by (apply Zp || apply Zq; lia). apply rnd_0.
    + cbn [cox]. fold e1 e2. assert (U := under_small r ltac:(lia)). assert (Et := eta_pos). assert (Us := u_small).
      apply close_weaken with (k := S (7 * r + 6)) (E := 2 * (1 + uu) * (2 * under r + 5 * eta)); [lia| |lra|].
      * unfold under in *. cbn [pow]. rewrite Us. assert (P1 : 1 <= 16 ^ r) by (apply pow_R1_Rle; lra). assert (eta <= 16 ^ r * eta) by nra. lra.
      * apply add_close with (s1 := B2 s1) (s2 := B2 s2); auto; [lra|]. now apply dadd_error.
Qed.
End Active.

(* ---- the padded knots ---- *)
Definition fpadded (r : nat) (us : list double) : list double := map (fun i => nth (Nat.min (i - r) (length us - 1)) us d0) (seq 0 (length us + 2 * r)).
Lemma f_pad_ok r us : (1 <= length us)%nat -> f_pad_knots r us = Ok (fpadded r us).
Proof.
  intros H. unfold f_pad_knots, fpadded. apply mapM_fun. intros i Hi. apply in_seq in Hi.
  destruct (Nat.ltb_spec i r); [|destruct (Nat.ltb_spec i (length us + r))]; rewrite nth_res_fk by lia; unfold fk; do 2 f_equal; lia.
Qed.
Lemma fpadded_length r us : length (fpadded r us) = (length us + 2 * r)%nat. Proof. unfold fpadded. now rewrite map_length, seq_length. Qed.
Lemma fpadded_fk r us i : (i < length (fpadded r us))%nat -> fk (fpadded r us) i = fk us (Nat.min (i - r) (length us - 1)).
Proof.
  rewrite fpadded_length. intros H. unfold fk at 1. apply nth_error_nth. unfold fpadded. rewrite nth_error_map, nth_error_seq. apply Nat.ltb_lt in H. now rewrite H.
Qed.
Lemma fpadded_B2 r us : map B2 (fpadded r us) = padded r (map B2 us).
Proof.
  unfold fpadded, padded. rewrite map_map, map_length. apply map_ext. intros i. change 0 with (B2 d0). symmetry. apply map_nth.
Qed.
Lemma moderate_padded r us : (1 <= length us)%nat -> moderate us -> moderate (fpadded r us).
Proof.
  intros H1 [Ha Hb]. split.
  - intros i Hi. rewrite fpadded_fk by auto. apply Ha. lia.
  - intros i j Hij. rewrite !fpadded_fk by lia. apply Hb. lia.
Qed.
(* the order 0 test in doubles selects the same interval as in exact arithmetic *)
Lemma f_indicator M t j x : moderate t -> fin x = true -> Rabs (B2 x) <= bpow radix2 500 -> (j + 1 < length t)%nat -> B2 x <= kn (map B2 t) (length t - 1) ->
  ((j + M + 2)%nat = length t -> kn (map B2 t) (S j) = kn (map B2 t) (length t - 1) /\ kn (map B2 t) j + tol <= kn (map B2 t) (length t - 1)) ->
  f_spline0 M t j x = Ok (if Req_EM_T (ind (kn (map B2 t)) (length t) M j (B2 x)) 1 then d1 else d0).
Proof.
  intros [Ht _] Fx Bx Hj Hl Hr. unfold f_spline0. rewrite !nth_res_fk by lia. cbn [bind]. f_equal. unfold ind.
  destruct (Ht j ltac:(lia)) as [Fu _]. destruct (Ht (S j) ltac:(lia)) as [Fv _]. destruct (Ht (length t - 1)%nat ltac:(lia)) as [Fl Bl]. rewrite !kn_fk in *.
  set (a := fk t j) in *. set (b := fk t (S j)) in *. set (l := fk t (length t - 1)) in *.
  assert (A : dle a x && dlt x b = Rleb (B2 a) (B2 x) && Rltb (B2 x) (B2 b)).
  { f_equal; apply Bool.eq_true_iff_eq; [rewrite dle_fin, Rleb_spec|rewrite dlt_fin, Rltb_spec]; auto; reflexivity. }
  rewrite A. apply Rabs_le_inv in Bx. apply Rabs_le_inv in Bl. destruct (dsub_ok x l 501 ltac:(lia) Fx Fl) as (Fd & Ed & _).
  { replace 501%Z with (1 + 500)%Z by reflexivity. rewrite bpow_plus. change (bpow radix2 1) with 2. apply Rabs_le. lra. }
  assert (Fa : fin (dabs (dsub x l)) = true) by (unfold dabs; now rewrite is_finite_Babs). assert (Ea : B2 (dabs (dsub x l)) = rnd (Rabs (B2 x - B2 l))) by (unfold dabs; rewrite B2R_Babs, Ed, <- rnd_abs; reflexivity).
  destruct dtol_ok as [Fto Eto]. assert (Rt : rnd tol = tol) by (rewrite <- Eto; apply rnd_id). assert (Tp := tol_pos).
  destruct (Nat.eqb_spec (j + M + 2) (length t)) as [Ej|Ej]; [|rewrite !andb_false_r, !orb_false_r; destruct (Rleb (B2 a) (B2 x) && Rltb (B2 x) (B2 b)); destruct (Req_EM_T _ _) as [X|X]; try reflexivity; exfalso; first [apply X; reflexivity|lra]].
  rewrite !andb_true_r. destruct (Hr Ej) as [Hb Hg].
  assert (B : Rleb (B2 a) (B2 x) && Rltb (B2 x) (B2 b) || dlt (dabs (dsub x l)) dtol = Rleb (B2 a) (B2 x) && Rltb (B2 x) (B2 b) || Rltb (Rabs (B2 x - B2 l)) tol).
  { destruct (Rleb (B2 a) (B2 x) && Rltb (B2 x) (B2 b)) eqn:EA; [reflexivity|]. cbn [orb]. apply Bool.eq_true_iff_eq. rewrite dlt_fin, Rltb_spec by auto. rewrite Ea, Eto. split; intros H.
    - destruct (Rlt_or_le (Rabs (B2 x - B2 l)) tol) as [L|L]; auto. apply rnd_le in L. lra.
    - destruct (Req_dec (B2 x) (B2 l)) as [E|N]; [rewrite E, Rminus_diag_eq, Rabs_R0, rnd_0 by auto; lra|]. exfalso. apply Rabs_def2 in H.
      assert (X : Rleb (B2 a) (B2 x) && Rltb (B2 x) (B2 b) = true) by (apply andb_true_intro; split; [apply Rleb_spec|apply Rltb_spec]; lra). rewrite X in EA. discriminate. }
  rewrite B. match goal with |- (if ?c then _ else _) = _ => generalize c end. intros c. destruct c; destruct (Req_EM_T _ _) as [X|X]; try reflexivity; exfalso; first [apply X; reflexivity|lra].
Qed.

(* ---- C195 ---- *)
Theorem C195_accuracy r us x : (r <= 200)%nat -> moderate us -> knots_ok (map B2 us) -> fin x = true -> first_knot (map B2 us) <= B2 x <= last_knot (map B2 us) ->
  exists t, f_pad_knots r us = Ok t /\ pad_knots r (map B2 us) = Ok (map B2 t) /\ (length t - r - 1 = length us + r - 1)%nat /\
  forall i, (i < length us + r - 1)%nat -> exists s e, f_spline r t r i x = Ok s /\ spline r (map B2 t) r i (B2 x) = Ok e /\
    fin s = true /\ 0 <= B2 s /\ 0 <= e /\ Rabs (B2 s - e) <= ((1 + uu) ^ (7 * r) - 1) * e + 16 ^ r * eta /\ (B2 x < B2 (fk t i) \/ B2 (fk t (i + r + 1)) < B2 x -> B2 s = 0).
Proof.
  intros Hr Hm Hu Fx Hx. assert (Hl : (2 <= length us)%nat) by (destruct Hu as [H _]; rewrite map_length in H; exact H). exists (fpadded r us). set (t := fpadded r us). split; [apply f_pad_ok; lia|]. assert (ET : map B2 t = padded r (map B2 us)) by apply fpadded_B2.
  split; [rewrite ET; now apply pad_ok|]. assert (Lt : length t = (length us + 2 * r)%nat) by apply fpadded_length. split; [lia|]. assert (Mt : moderate t) by (apply moderate_padded; auto; lia).
  destruct (p_active r (map B2 us) Hu (B2 x) Hx) as (k & K1 & K2 & K3 & K4 & K5). assert (LP : length (padded r (map B2 us)) = length t) by (rewrite <- ET; apply map_length). rewrite LP in *. rewrite <- ET in K3, K4, K5.
  assert (PL : kn (map B2 t) (length t - 1) = last_knot (map B2 us)) by (rewrite ET, <- LP; now apply p_last). assert (PF : kn (map B2 t) 0 = first_knot (map B2 us)) by (rewrite ET; now apply p_first).
  assert (Bx : Rabs (B2 x) <= bpow radix2 500).
  { rewrite <- PL, <- PF, !kn_fk in Hx. destruct (proj1 Mt 0%nat ltac:(lia)) as [_ B1]. destruct (proj1 Mt (length t - 1)%nat ltac:(lia)) as [_ B3]. apply Rabs_le_inv in B1. apply Rabs_le_inv in B3. apply Rabs_le. lra. }
  assert (H0 : forall j, (j + 1 < length t)%nat -> f_spline0 r t j x = Ok (if (j =? k)%nat then d1 else d0)).
  { intros j Hj. rewrite (f_indicator r t j x); auto; [|rewrite PL; lra|].
    - rewrite K5 by auto. unfold one_at. destruct (j =? k)%nat; destruct (Req_EM_T _ _) as [X|X]; try reflexivity; exfalso; first [apply X; reflexivity|lra].
    - intros Ej. assert (G := p_gap r (map B2 us) Hu). assert (RR := p_right r (map B2 us) Hu (S j)). rewrite LP in *. rewrite <- ET in *. split; [apply RR; lia|]. replace j with (length t - r - 2)%nat by lia. exact G. }
  intros i Hi. destruct (f_spline_ok t r k x Mt Fx Bx K3 K4 (conj K1 K2) H0 r (le_n _) Hr i ltac:(lia)) as (s & E1 & E2 & E3 & E4 & E5). exists s, (cox (kn (map B2 t)) (one_at k) r i (B2 x)).
  split; auto. split.
  { assert (Li : (i + r + 1 < length (map B2 t))%nat) by (rewrite map_length; change (i + r + 1 < @length double t)%nat; lia). rewrite (spline_ok r (map B2 t) r i (B2 x) Li). f_equal. change (dcox (kn (map B2 t)) (fun j => ind (kn (map B2 t)) (length (map B2 t)) r j (B2 x)) 0 r i (B2 x) = dcox (kn (map B2 t)) (one_at k) 0 r i (B2 x)). apply dcox_ext. intros j Hj. rewrite map_length. apply K5. lia. }
  assert (MT := T_mono t Mt). split; auto. split; auto. split; [apply (cox_nonneg _ (length t) MT k (B2 x) K4); lia|]. split; [exact E5|]. intros Out. apply E4. intros [L1 L2]. rewrite <- !kn_fk in Out. destruct Out as [O|O].
  - assert (kn (map B2 t) i <= kn (map B2 t) k) by (apply MT; lia). lra.
  - assert (kn (map B2 t) (S k) <= kn (map B2 t) (i + r + 1)%nat) by (apply MT; lia). lra.
Qed.
Lemma C195_functions r us x : (r <= 200)%nat -> moderate us -> knots_ok (map B2 us) -> fin x = true -> first_knot (map B2 us) <= B2 x <= last_knot (map B2 us) ->
  exists t N e, f_pad_knots r us = Ok t /\ pad_knots r (map B2 us) = Ok (map B2 t) /\ (length t - r - 1 = length us + r - 1)%nat /\ (basis_size r (map B2 t) = length us + r - 1)%nat /\
  forall i, (i < length us + r - 1)%nat -> f_spline r t r i x = Ok (N i) /\ spline r (map B2 t) r i (B2 x) = Ok (e i) /\ fin (N i) = true /\ 0 <= B2 (N i) /\ 0 <= e i /\ Rabs (B2 (N i) - e i) <= ((1 + uu) ^ (7 * r) - 1) * e i + 16 ^ r * eta.
Proof.
  intros Hr Hm Hu Fx Hx. destruct (C195_accuracy r us x Hr Hm Hu Fx Hx) as (t & E1 & E2 & E3 & E4). exists t, (fun i => match f_spline r t r i x with Ok s => s | _ => d0 end), (fun i => match spline r (map B2 t) r i (B2 x) with Ok s => s | _ => 0 end).
  split; auto. split; auto. split; auto. split; [unfold basis_size; rewrite map_length; exact E3|]. intros i Hi. destruct (E4 i Hi) as (s & e & A1 & A2 & A3 & A4 & A5 & A6 & _). rewrite A1, A2. auto 10.
Qed.
Lemma rsum_const' n c : rsum n (fun _ => c) = INR n * c.
Proof. induction n as [|n IH]; cbn [rsum]; [cbn; ring|]. rewrite IH, S_INR. ring. Qed.
(* the computed values add up to 1, to rounding *)
Theorem C195_partition_of_unity r us x : (r <= 200)%nat -> moderate us -> knots_ok (map B2 us) -> fin x = true -> first_knot (map B2 us) <= B2 x <= last_knot (map B2 us) ->
  exists t N, f_pad_knots r us = Ok t /\ (forall i, (i < length us + r - 1)%nat -> f_spline r t r i x = Ok (N i)) /\
    Rabs (rsum (length us + r - 1) (fun i => B2 (N i)) - 1) <= ((1 + uu) ^ (7 * r) - 1) + INR (length us + r - 1) * (16 ^ r * eta).
Proof.
  intros Hr Hm Hu Fx Hx. destruct (C195_functions r us x Hr Hm Hu Fx Hx) as (t & N & e & E1 & E2 & E3 & E3' & E4). exists t, N. split; auto. split; [intros i Hi; apply E4; auto|]. set (n := (length us + r - 1)%nat) in *.
  destruct (C75_partition_of_unity_partial r (map B2 us) (B2 x) Hu Hx) as (t' & P1 & P2 & N' & P3 & P4). rewrite E2 in P1. injection P1 as <-. rewrite E3' in P3, P4.
  assert (Se : rsum n e = 1). { rewrite <- P4. apply rsum_ext. intros i Hi. destruct (E4 i Hi) as (_ & A & _). destruct (P3 i Hi) as [B _]. rewrite A in B. now injection B. }
  replace (rsum n (fun i => B2 (N i)) - 1) with (rsum n (fun i => B2 (N i)) - rsum n e) by (rewrite Se; reflexivity). rewrite <- rsum_minus. apply Rle_trans with (1 := rsum_abs _ _).
  apply Rle_trans with (rsum n (fun i => ((1 + uu) ^ (7 * r) - 1) * e i + 16 ^ r * eta)); [apply rsum_le; intros i Hi; apply E4; auto|]. rewrite rsum_plus, rsum_scal, Se, rsum_const'. lra.
Qed.
(* knots closer than the reciprocal of the largest double: the values are not even finite *)
Definition close_list : list double := [d0; dbl 1 (-1074); dbl 1 0].
Theorem C195_close_knots : exists t s, (forall i j, (i < j < 3)%nat -> B2 (fk close_list i) < B2 (fk close_list j)) /\ f_pad_knots 1 close_list = Ok t /\ f_spline 1 t 1 1 d0 = Ok s /\ fin s = false.
Proof.
  exists (fpadded 1 close_list). set (v := f_spline 1 (fpadded 1 close_list) 1 1 d0). assert (E : match v with Ok s => fin s = false | _ => False end) by (vm_compute; reflexivity). clearbody v. destruct v as [s| | |]; try contradiction. exists s. split.
  - assert (P := bpow_gt_0 radix2 (-1074)). assert (L : bpow radix2 (-1074) < 1) by (change 1 with (bpow radix2 0); apply bpow_lt; lia). destruct (B2_dbl 1 (-1074)) as [_ A]; [reflexivity|lia|]. destruct (B2_dbl 1 0) as [_ B]; [reflexivity|lia|].
    intros i j H. assert (C : (i = 0 /\ j = 1)%nat \/ (i = 0 /\ j = 2)%nat \/ (i = 1 /\ j = 2)%nat) by lia. destruct C as [[-> ->]|[[-> ->]|[-> ->]]]; cbn [fk close_list nth]; rewrite ?A, ?B; change (B2 d0) with 0; change (bpow radix2 0) with 1; lra.
  - split; [apply f_pad_ok; cbn; lia|]. split; auto.
Qed.

(* ---- C196: expansions ---- *)
Lemma foldM_fsum (f : nat -> Res double) g n : (forall i, (i < n)%nat -> f i = Ok (g i)) -> foldM (fun s h => v <- f h ;; Ok (dadd s v)) (seq 0 n) d0 = Ok (fsum n g).
Proof.
  intros H. induction n as [|n IH]; [reflexivity|]. rewrite seq_S, foldM_app, IH by (intros; apply H; lia). cbn [bind foldM plus]. rewrite H by lia. cbn [bind]. now rewrite fsum_S.
Qed.
Lemma expansion_foldM r t c x n : foldM (fun s h => w <- nth_res c h ;; v <- f_spline r t r h x ;; Ok (dadd s (dmul w v))) (seq 0 n) d0 = foldM (fun s h => v <- (w <- nth_res c h ;; v <- f_spline r t r h x ;; Ok (dmul w v)) ;; Ok (dadd s v)) (seq 0 n) d0.
Proof.
  generalize d0. generalize (seq 0 n). induction l as [|h l IH]; intros s; cbn [foldM]; [reflexivity|]. destruct (nth_res c h); cbn [bind]; auto. destruct (f_spline r t r h x); cbn [bind]; auto.
Qed.
Lemma nth_res_B2 (c : list double) h : (h < length c)%nat -> nth_res (map B2 c) h = Ok (B2 (fk c h)).
Proof. intros H. apply nth_res_ok. rewrite nth_error_map. unfold fk. assert (E := nth_error_nth' c d0 H). unfold double, prec64, emax64 in *. rewrite E. reflexivity. Qed.
Theorem C196_expansion r us c x : (r <= 200)%nat -> moderate us -> knots_ok (map B2 us) -> length c = (length us + r - 1)%nat -> fin x = true -> first_knot (map B2 us) <= B2 x <= last_knot (map B2 us) ->
  exists t y v e, f_pad_knots r us = Ok t /\ f_expansion r t c [x] = Ok [y] /\ spline_expansion r (map B2 t) (map B2 c) [B2 x] = Ok [v] /\
    (forall i, (i < length c)%nat -> spline r (map B2 t) r i (B2 x) = Ok (e i)) /\
    (fin y = true -> Rabs (B2 y - v) <= ((1 + uu) ^ (7 * r + length c + 1) - 1) * rsum (length c) (fun i => Rabs (B2 (fk c i)) * e i) + (1 + uu) ^ (length c + 1) * (rsum (length c) (fun i => Rabs (B2 (fk c i))) * (16 ^ r * eta) + INR (length c) * eta)).
Proof.
  intros Hr Hm Hu Hc Fx Hx. destruct (C195_functions r us x Hr Hm Hu Fx Hx) as (t & N & e & E1 & E2 & E3 & E3' & E4). rewrite <- Hc in *. set (n := length c) in *.
  exists t, (fsum n (fun h => dmul (fk c h) (N h))), (rsum n (fun h => B2 (fk c h) * e h)), e. split; auto. split; [|split; [|split]].
  - unfold f_expansion. rewrite E3. fold n. rewrite Nat.eqb_refl. cbn [assert_ bind mapM]. rewrite expansion_foldM, (foldM_fsum _ (fun h => dmul (fk c h) (N h))); [reflexivity|]. intros h Hh. rewrite nth_res_fk by (fold n; lia). cbn [bind]. destruct (E4 h Hh) as (-> & _). reflexivity.
  - unfold spline_expansion. rewrite E3', map_length. fold n. change (@length (binary_float 53 1024) c) with n. rewrite Nat.eqb_refl. cbn [assert_ bind mapM]. rewrite (sum_loop_ok _ (fun h => B2 (fk c h) * e h)); [reflexivity|]. intros h Hh. rewrite nth_res_B2 by exact Hh. cbn [bind]. destruct (E4 h Hh) as (_ & -> & _). reflexivity.
  - intros i Hi. apply E4. exact Hi.
  - intros Fy. assert (D := dot_error n (fk c) N Fy). set (y := B2 (fsum n (fun h => dmul (fk c h) (N h)))) in *. set (Q := (1 + uu) ^ (7 * r)) in *. set (E := 16 ^ r * eta) in *. set (A := rsum n (fun i => Rabs (B2 (fk c i)) * e i)). set (B := rsum n (fun i => Rabs (B2 (fk c i)))).
    assert (HU := u_pos). assert (He := eta_pos). assert (Q1 : 1 <= Q) by apply pow_ge1.
    assert (S1 : Rabs (rsum n (fun q => B2 (fk c q) * B2 (N q)) - rsum n (fun h => B2 (fk c h) * e h)) <= (Q - 1) * A + B * E).
    { rewrite <- rsum_minus. apply Rle_trans with (1 := rsum_abs _ _). unfold A, B. rewrite <- rsum_scal, (Rmult_comm (rsum n _) E), <- rsum_scal, <- rsum_plus. apply rsum_le. intros i Hi. destruct (E4 i Hi) as (_ & _ & _ & _ & Ne & C). fold Q E in C.
      replace (B2 (fk c i) * B2 (N i) - B2 (fk c i) * e i) with (B2 (fk c i) * (B2 (N i) - e i)) by ring. rewrite Rabs_mult. apply Rle_trans with (Rabs (B2 (fk c i)) * ((Q - 1) * e i + E)); [apply Rmult_le_compat_l; [apply Rabs_pos|exact C]|]. apply Req_le. ring. }
    assert (S2 : rsum n (fun q => Rabs (B2 (fk c q) * B2 (N q))) <= Q * A + B * E).
    { unfold A, B. rewrite <- rsum_scal, (Rmult_comm (rsum n _) E), <- rsum_scal, <- rsum_plus. apply rsum_le. intros i Hi. destruct (E4 i Hi) as (_ & _ & _ & _ & Ne & C). fold Q E in C. rewrite Rabs_mult.
      assert (Rabs (B2 (N i)) <= Q * e i + E). { replace (B2 (N i)) with (e i + (B2 (N i) - e i)) by ring. apply Rle_trans with (1 := Rabs_triang _ _). rewrite (Rabs_pos_eq (e i)) by lra. lra. }
      apply Rle_trans with (Rabs (B2 (fk c i)) * (Q * e i + E)); [apply Rmult_le_compat_l; [apply Rabs_pos|auto]|]. apply Req_le. ring. }
    replace (7 * r + n + 1)%nat with (7 * r + S n)%nat by lia. replace (n + 1)%nat with (S n) by lia. rewrite pow_add. fold Q. set (P := (1 + uu) ^ S n) in *. assert (P1 : 1 <= P) by apply pow_ge1. assert (Pn : (1 + uu) ^ n <= P) by (apply Rle_pow; [lra|lia]).
    set (v := rsum n (fun h => B2 (fk c h) * e h)) in *. set (z := rsum n (fun q => B2 (fk c q) * B2 (N q))) in *. set (W := rsum n (fun q => Rabs (B2 (fk c q) * B2 (N q)))) in *.
    replace (y - v) with ((y - z) + (z - v)) by ring. apply Rle_trans with (1 := Rabs_triang _ _). assert ((P - 1) * W <= (P - 1) * (Q * A + B * E)) by (apply Rmult_le_compat_l; lra).
    assert ((1 + uu) ^ n * (INR n * eta) <= P * (INR n * eta)) by (apply Rmult_le_compat_r; [apply Rmult_le_pos; [apply pos_INR|lra]|auto]). apply Rle_trans with (((P - 1) * (Q * A + B * E) + P * (INR n * eta)) + ((Q - 1) * A + B * E)); [lra|]. apply Req_le. ring.
Qed.

(* knots 0, 1, 1, 3 with order 3 at 2 *)
Definition list_0113 : list double := [d0; dbl 1 0; dbl 1 0; dbl 3 0].
Example C195_example : (3 <= 200)%nat /\ moderate list_0113 /\ knots_ok (map B2 list_0113) /\ fin (dbl 2 0) = true /\ first_knot (map B2 list_0113) <= B2 (dbl 2 0) <= last_knot (map B2 list_0113).
Proof.
  destruct (B2_dbl 1 0) as [F1 E1]; [reflexivity|lia|]. destruct (B2_dbl 3 0) as [F3 E3]; [reflexivity|lia|]. destruct (B2_dbl 2 0) as [F2 E2]; [reflexivity|lia|]. change (bpow radix2 0) with 1 in *. rewrite Rmult_1_r in *.
  assert (P5 : 4 <= bpow radix2 500) by (change 4 with (bpow radix2 2); apply bpow_le; lia). assert (P0 : bpow radix2 (-500) <= 1) by (change 1 with (bpow radix2 0); apply bpow_le; lia).
  assert (E : map B2 list_0113 = [0; 1; 1; 3]) by (unfold list_0113; cbn [map]; rewrite E1, E3; reflexivity). rewrite E, E2. split; [lia|]. split; [|split; [apply knots_example|split; [exact F2|apply knots_example]]]. split.
  - intros i Hi. cbn in Hi. destruct i as [|[|[|[|i]]]]; [| | | |lia]; unfold fk, list_0113; cbn [nth]; rewrite ?E1, ?E3; change (B2 d0) with 0; (split; [first [exact F1|exact F3|reflexivity]|apply Rabs_le; lra]).
  - intros i j H. cbn in H. destruct i as [|[|[|[|i]]]], j as [|[|[|[|j]]]]; try lia; unfold fk, list_0113; cbn [nth]; rewrite ?E1, ?E3; change (B2 d0) with 0; first [left; lra|right; lra].
Qed.
Example C196_example : length (repeat (dbl 5 (-1)) 6) = (length list_0113 + 3 - 1)%nat /\
  match f_expansion 3 (fpadded 3 list_0113) (repeat (dbl 5 (-1)) 6) [dbl 2 0] with Ok [y] => fin y = true | _ => False end.
Proof. split; [reflexivity|vm_compute; reflexivity]. Qed.
Print Assumptions C195_accuracy.
Print Assumptions C195_partition_of_unity.
Print Assumptions C195_close_knots.
(* a vector of the wrong length is refused, whatever the points *)
Theorem C196_size r t c locs : length c <> (length t - r - 1)%nat -> f_expansion r t c locs = Throw.
Proof. intros H. unfold f_expansion. now rewrite (proj2 (Nat.eqb_neq _ _) H). Qed.
Print Assumptions C196_expansion.
