(* Zeros of splines: a non-zero spline of degree d on N knot intervals has fewer than N + d separated zeros. *)
From Coq Require Import Lia Lra Psatz.
From Coquelicot Require Import Coquelicot.
From Verif Require Import SimplexProps FieldProps FemProps EvalProps QuadProps SolverProps LinAlg FemEnergy MeasureProps FemKernel SplineSolverModel SplineModel SplineProps SplineSolverProps.
Local Close Scope Q_scope.
Local Open Scope R_scope.

(* ------------------------------------------------------------------ splines on one knot interval *)
Lemma abel n (c g : nat -> R) : g 0%nat = 0 -> g n = 0 -> rsum n (fun i => c i * (g i - g (i + 1)%nat)) = rsum n (fun i => (c i - c (i - 1)%nat) * g i).
Proof.
  intros H0 Hn. rewrite (rsum_ext n _ (fun i => c i * g i - (fun i => c (i - 1)%nat * g i) (i + 1)%nat)).
  2:{ intros i _. cbv beta. replace (i + 1 - 1)%nat with i by lia. ring. }
  rewrite rsum_minus. rewrite (rsum_shift n (fun i => c (i - 1)%nat * g i)). cbn [rsum]. rewrite H0, Hn.
  rewrite (rsum_ext n (fun i => (c i - c (i - 1)%nat) * g i) (fun i => c i * g i - c (i - 1)%nat * g i)) by (intros; ring). rewrite rsum_minus. ring.
Qed.
Section Interval.
Variables (t : nat -> R) (len k n : nat).
Hypothesis Hn : (k < n)%nat.
(* coefficients of the derivative *)
Definition diffc (r : nat) (c : nat -> R) (i : nat) : R := INR (S r) * rc t (S r) i * (c i - c (i - 1)%nat).
Lemma diff_sum K r c x : (S r <= k)%nat ->
  rsum n (fun i => c i * dcox t (one_at k) (S K) (S r) i x) = rsum n (fun i => diffc r c i * dcox t (one_at k) K r i x).
Proof.
  intros Hr. etransitivity; [refine (abel n c (fun i => INR (S r) * rc t (S r) i * dcox t (one_at k) K r i x) _ _)|].
  3:{ apply rsum_ext. intros i _. unfold diffc. ring. }
  - cbv beta. rewrite dcox_zero by lia. ring.
  - cbv beta. rewrite dcox_zero by lia. ring.
Qed.
Hypothesis mono : forall i j, (i <= j < len)%nat -> t i <= t j.
Hypothesis Hk : t k < t (S k).
Lemma sum_derive r c x : (k + r + 1 < len)%nat -> is_derive (fun y => rsum n (fun i => c i * cox t (one_at k) r i y)) x (rsum n (fun i => c i * dcox t (one_at k) 1 r i x)).
Proof.
  intros Hl. clear Hn. assert (E : forall i, dcox t (one_at k) 1 r i x = if (i <=? k)%nat then dcox t (one_at k) 1 r i x else 0).
  { intros i. destruct (Nat.leb_spec i k); [reflexivity|]. apply dcox_zero. lia. }
  induction n as [|m IH]; cbn [rsum]; [apply (is_derive_const (K := R_AbsRing) (V := R_NormedModule))|].
  apply (is_derive_plus (K := R_AbsRing) (V := R_NormedModule) (fun y => rsum m (fun i => c i * cox t (one_at k) r i y)) (fun y => c m * cox t (one_at k) r m y)); [exact IH|].
  apply (is_derive_scal (fun y => cox t (one_at k) r m y)). destruct (Nat.leb_spec m k) as [L|G].
  - apply (cox_derive t len mono k r m x); [lia|auto].
  - rewrite dcox_zero by lia. apply (is_derive_ext (fun _ => 0)); [intros; symmetry; apply cox_zero; lia|apply (is_derive_const (K := R_AbsRing) (V := R_NormedModule))].
Qed.
Lemma rc_pos r i : (i <= k)%nat -> (k < i + S r)%nat -> (i + S r < len)%nat -> 0 < rc t (S r) i.
Proof.
  intros H1 H2 H3. assert (t i <= t k) by (apply mono; lia). assert (t (S k) <= t (i + S r)%nat) by (apply mono; lia).
  unfold rc. destruct (Req_EM_T _ _); [lra|]. apply Rdiv_lt_0_compat; lra.
Qed.
(* a spline that vanishes on the interval has no coefficient there *)
Lemma local_zero r : forall c, (r <= k)%nat -> (k + r + 1 < len)%nat ->
  (forall x, t k < x < t (S k) -> rsum n (fun i => c i * cox t (one_at k) r i x) = 0) -> forall i, (k <= i + r)%nat -> (i <= k)%nat -> c i = 0.
Proof.
  induction r as [|r IH]; intros c Hr Hl H i Hi1 Hi2.
  - replace i with k by lia. specialize (H ((t k + t (S k)) / 2) ltac:(lra)). cbn [cox] in H. rewrite (rsum_single n _ k Hn) in H.
    + rewrite one_at_same in H. lra.
    + intros j _ Hj. rewrite one_at_other by auto. ring.
  - assert (D : forall x, t k < x < t (S k) -> rsum n (fun i => diffc r c i * cox t (one_at k) r i x) = 0).
    { intros x Hx. transitivity (rsum n (fun i => c i * dcox t (one_at k) 1 (S r) i x)); [symmetry; exact (diff_sum 0 r c x Hr)|]. pose proof (sum_derive (S r) c x ltac:(lia)) as D1.
      assert (D0 : is_derive (fun y => rsum n (fun i => c i * cox t (one_at k) (S r) i y)) x 0).
      { apply (is_derive_ext_loc (fun _ => 0)); [|apply (is_derive_const (K := R_AbsRing) (V := R_NormedModule))].
        assert (HP : 0 < Rmin (x - t k) (t (S k) - x)) by (apply Rmin_pos; lra). exists (mkposreal _ HP). intros y Hy. symmetry. apply H.
        unfold ball in Hy. cbn in Hy. unfold AbsRing_ball, abs, minus, plus, opp in Hy. cbn in Hy.
        apply Rabs_def2 in Hy. pose proof (Rmin_l (x - t k) (t (S k) - x)). pose proof (Rmin_r (x - t k) (t (S k) - x)). lra. }
      apply is_derive_unique in D1. apply is_derive_unique in D0. congruence. }
    specialize (IH (diffc r c) ltac:(lia) ltac:(lia) D).
    assert (E : forall d, (d <= S r)%nat -> c (k - d)%nat = c k).
    { induction d as [|d IHd]; intros Hd; [f_equal; lia|]. rewrite <- IHd by lia. specialize (IH (k - d)%nat ltac:(lia) ltac:(lia)). unfold diffc in IH.
      pose proof (rc_pos r (k - d)%nat ltac:(lia) ltac:(lia) ltac:(lia)) as RP. pose proof (lt_0_INR (S r) ltac:(lia)).
      assert (Z : c (k - d)%nat - c (k - d - 1)%nat = 0) by (apply Rmult_integral in IH as [Z|Z]; [apply Rmult_integral in Z as [Z|Z]; lra|exact Z]).
      replace (k - S d)%nat with (k - d - 1)%nat by lia. lra. }
    specialize (H ((t k + t (S k)) / 2) ltac:(lra)).
    rewrite (rsum_ext n _ (fun i => c k * cox t (one_at k) (S r) i ((t k + t (S k)) / 2))) in H.
    + rewrite rsum_scal, (cox_partition t len mono k ((t k + t (S k)) / 2) Hk) in H by lia. replace i with (k - (k - i))%nat by lia. rewrite E by lia. lra.
    + intros j _. destruct (le_lt_dec j k) as [L|G]; [|rewrite cox_zero by lia; ring]. destruct (le_lt_dec k (j + S r)) as [L'|G']; [|rewrite cox_zero by lia; ring].
      replace j with (k - (k - j))%nat at 1 by lia. rewrite E by lia. reflexivity.
Qed.
(* averages of knots give the identity *)
Lemma cox_identity r : forall x, (r <= k)%nat -> (k + r + 1 < len)%nat -> rsum n (fun i => rsum r (fun l => t (i + 1 + l)%nat) * cox t (one_at k) r i x) = INR r * x.
Proof.
  induction r as [|r IH]; intros x Hr Hl.
  - rewrite rsum_zero by (intros; cbn; ring). cbn. ring.
  - set (G := fun i => rsum (S r) (fun l => t (i + 1 + l)%nat)).
    assert (GG : forall i, (1 <= i)%nat -> G (i - 1)%nat = t i + rsum r (fun l => t (i + 1 + l)%nat)).
    { intros i Hi. unfold G. rewrite rsum_head. replace (i - 1 + 1 + 0)%nat with i by lia. f_equal. apply rsum_ext. intros l _. f_equal. lia. }
    assert (GH : forall i, G i = rsum r (fun l => t (i + 1 + l)%nat) + t (i + S r)%nat) by (intros i; unfold G; cbn [rsum]; f_equal; f_equal; lia).
    transitivity (rsum n (fun i => (x + rsum r (fun l => t (i + 1 + l)%nat)) * cox t (one_at k) r i x)).
    2:{ rewrite (rsum_ext n _ (fun i => x * cox t (one_at k) r i x + rsum r (fun l => t (i + 1 + l)%nat) * cox t (one_at k) r i x)) by (intros; ring).
        rewrite rsum_plus, rsum_scal, IH, (cox_partition t len mono k x Hk) by lia. rewrite S_INR. ring. }
    transitivity (rsum n (fun i => G i * (rc t (S r) i * (x - t i) * cox t (one_at k) r i x)) + rsum n (fun i => G i * (rc t (S r) (i + 1) * (t (i + S r + 1)%nat - x) * cox t (one_at k) r (i + 1) x))).
    { rewrite <- rsum_plus. apply rsum_ext. intros i _. unfold G. cbn [cox]. ring. }
    rewrite (rsum_ext n (fun i => G i * (rc t (S r) (i + 1) * (t (i + S r + 1)%nat - x) * cox t (one_at k) r (i + 1) x))
      (fun i => (fun i => G (i - 1)%nat * (rc t (S r) i * (t (i + S r)%nat - x) * cox t (one_at k) r i x)) (i + 1)%nat)).
    2:{ intros i _. cbv beta. replace (i + 1 - 1)%nat with i by lia. replace (i + 1 + S r)%nat with (i + S r + 1)%nat by lia. reflexivity. }
    rewrite (rsum_shift n (fun i => G (i - 1)%nat * (rc t (S r) i * (t (i + S r)%nat - x) * cox t (one_at k) r i x))). cbn [rsum]. rewrite (cox_zero t k r n), (cox_zero t k r 0) by lia.
    match goal with |- ?A + (?B + ?C - ?D) = ?E => replace (A + (B + C - D)) with (A + B) by ring end.
    rewrite <- rsum_plus. apply rsum_ext. intros i _.
    destruct (le_lt_dec i k) as [L|Gt]; [|rewrite cox_zero by lia; ring]. destruct (Nat.lt_ge_cases k (i + S r)%nat) as [L'|]; [|rewrite cox_zero by lia; ring].
    assert (t i <= t k) by (apply mono; lia). assert (t (S k) <= t (i + S r)%nat) by (apply mono; lia).
    assert (E := rc_mul t (S r) i ltac:(lra)). rewrite GG by lia. rewrite GH.
    set (g := rsum r (fun l => t (i + 1 + l)%nat)). set (N := cox t (one_at k) r i x). set (q := rc t (S r) i) in *.
    transitivity ((q * (t (i + S r)%nat - t i)) * (x + g) * N); [ring|]. rewrite E. ring.
Qed.
End Interval.

(* ------------------------------------------------------------------ zeros separated by non-zero values *)
Definition separated (f : R -> R) (K : nat) : Prop :=
  exists z : nat -> R, (forall i, (i <= K)%nat -> f (z i) = 0) /\ (forall i, (i < K)%nat -> exists w, z i < w < z (S i) /\ f w <> 0).
Lemma extremum (f f' : R -> R) (a b w : R) : (forall x, is_derive f x (f' x)) -> f a = 0 -> f b = 0 -> a < w < b -> f w <> 0 -> exists y, a < y < b /\ f y <> 0 /\ f' y = 0.
Proof.
  intros D Ha Hb Hw Hn.
  assert (P : forall g g' : R -> R, (forall x, is_derive g x (g' x)) -> g a = 0 -> g b = 0 -> 0 < g w -> exists y, a < y < b /\ g y <> 0 /\ g' y = 0).
  { clear - Hw. intros g g' D Ha Hb Hp. assert (DL : forall x, derivable_pt_lim g x (g' x)) by (intros x; apply is_derive_Reals, D).
    destruct (continuity_ab_maj g a b ltac:(lra)) as (M & HM & HI).
    { intros c _. apply derivable_continuous_pt. exists (g' c). apply DL. }
    pose proof (HM w ltac:(lra)) as Hwm. assert (M <> a) by (intros ->; lra). assert (M <> b) by (intros ->; lra). exists M. split; [lra|]. split; [lra|].
    pose proof (deriv_maximum g a b M (exist _ (g' M) (DL M)) ltac:(lra) ltac:(lra) (fun x H1 H2 => HM x ltac:(lra))) as E. exact E. }
  destruct (Rlt_le_dec 0 (f w)) as [L|G]; [exact (P f f' D Ha Hb L)|].
  destruct (P (fun x => - f x) (fun x => - f' x)) as (y & H1 & H2 & H3); [|lra|lra|lra|].
  - intros x. apply (is_derive_opp (K := R_AbsRing) (V := R_NormedModule) f). apply D.
  - exists y. split; [auto|]. split; lra.
Qed.
Lemma rolle (f f' : R -> R) K : (forall x, is_derive f x (f' x)) -> separated f (S K) -> separated f' K.
Proof.
  intros D (z & Hz & Hw).
  destruct (finite_choice (S K) (fun i y => z i < y < z (S i) /\ f y <> 0 /\ f' y = 0) 0) as (y & Hy).
  { intros i Hi. destruct (Hw i Hi) as (w & W1 & W2). apply (extremum f f' (z i) (z (S i)) w D); auto; apply Hz; lia. }
  exists y. split; [intros i Hi; apply Hy; lia|]. intros i Hi. destruct (Hy i ltac:(lia)) as (A1 & A2 & _). destruct (Hy (S i) ltac:(lia)) as (B1 & B2 & _).
  destruct (MVT_cor2 f f' (y i) (z (S i)) ltac:(lra)) as (c & E & Hc); [intros c _; apply is_derive_Reals, D|].
  exists c. split; [lra|]. intros F. rewrite F, (Hz (S i) ltac:(lia)) in E. apply A2. lra.
Qed.

(* ------------------------------------------------------------------ functions given piece by piece *)
Section Glue.
Variable b : nat -> R.
Fixpoint idx (n : nat) (x : R) : nat := match n with O => O | S n' => if Rle_dec x (b (S n')) then idx n' x else S n' end.
Definition glue (P : nat -> R -> R) (n : nat) (x : R) : R := P (idx n x) x.
Lemma idx_le n x : (idx n x <= n)%nat.
Proof. induction n as [|n IH]; cbn [idx]; [lia|]. destruct (Rle_dec _ _); lia. Qed.
Lemma idx_mono n x y : x <= y -> (idx n x <= idx n y)%nat.
Proof.
  intros H. induction n as [|n IH]; cbn [idx]; [lia|]. destruct (Rle_dec y (b (S n))) as [L|G].
  - destruct (Rle_dec x (b (S n))) as [_|]; [exact IH|lra].
  - pose proof (idx_le n x). destruct (Rle_dec x (b (S n))); lia.
Qed.
Lemma idx_at n j x : (forall i, (i < n)%nat -> b i < b (S i)) -> (j <= n)%nat -> b j < x -> (j = n \/ x <= b (S j)) -> idx n x = j.
Proof.
  intros Hb Hj H1 H2. induction n as [|n IH]; cbn [idx]; [lia|].
  destruct (Nat.eq_dec j (S n)) as [->|N]; [destruct (Rle_dec x (b (S n))); [lra|auto]|].
  assert (M : forall i, (i <= S n)%nat -> forall k, (k <= i)%nat -> b k <= b i).
  { clear - Hb. induction i as [|i IHi]; intros Hi k Hk; [replace k with 0%nat by lia; lra|]. destruct (Nat.eq_dec k (S i)) as [->|]; [lra|].
    pose proof (IHi ltac:(lia) k ltac:(lia)). pose proof (Hb i ltac:(lia)). lra. }
  assert (x <= b (S j)) by (destruct H2; [lia|auto]). pose proof (M (S n) ltac:(lia) (S j) ltac:(lia)).
  destruct (Rle_dec x (b (S n))) as [_|]; [|lra]. apply IH; [intros; apply Hb; lia|lia|]. right. auto.
Qed.
Lemma glue_two (f1 f2 : R -> R) (a l : R) : f1 a = f2 a -> is_derive f1 a l -> is_derive f2 a l -> is_derive (fun x => if Rle_dec x a then f1 x else f2 x) a l.
Proof.
  intros E D1 D2. apply is_derive_Reals in D1. apply is_derive_Reals in D2. apply is_derive_Reals. intros eps He.
  destruct (D1 eps He) as (d1 & H1). destruct (D2 eps He) as (d2 & H2). assert (HP : 0 < Rmin d1 d2) by (apply Rmin_pos; apply cond_pos).
  exists (mkposreal _ HP). intros h Hh0 Hh. cbn in Hh. pose proof (Rmin_l d1 d2). pose proof (Rmin_r d1 d2).
  destruct (Rle_dec a a) as [_|]; [|lra]. destruct (Rle_dec (a + h) a) as [_|_]; [apply H1; [auto|lra]|]. rewrite E. apply H2; [auto|lra].
Qed.
Lemma glue_derive (P P' : nat -> R -> R) n : (forall i, (i < n)%nat -> b i < b (S i)) -> (forall i x, (i <= n)%nat -> is_derive (P i) x (P' i x)) ->
  (forall i, (i < n)%nat -> P i (b (S i)) = P (S i) (b (S i)) /\ P' i (b (S i)) = P' (S i) (b (S i))) ->
  forall x, is_derive (glue P n) x (glue P' n x).
Proof.
  induction n as [|n IH]; intros Hb D J x; [exact (D 0%nat x ltac:(lia))|].
  assert (I : forall y, is_derive (glue P n) y (glue P' n y)) by (apply IH; [intros; apply Hb; lia|intros; apply D; lia|intros; apply J; lia]).
  assert (E : forall Q y, glue Q (S n) y = if Rle_dec y (b (S n)) then glue Q n y else Q (S n) y) by (intros Q y; unfold glue; cbn [idx]; destruct (Rle_dec y (b (S n))); reflexivity).
  assert (L : forall Q, glue Q n (b (S n)) = Q n (b (S n))) by (intros Q; unfold glue; rewrite (idx_at n n); auto; intros; apply Hb; lia).
  apply (is_derive_ext (fun y => if Rle_dec y (b (S n)) then glue P n y else P (S n) y)); [intros; symmetry; apply E|]. rewrite E.
  destruct (J n ltac:(lia)) as [J1 J2]. destruct (Rtotal_order x (b (S n))) as [Lt|[->|Gt]].
  - destruct (Rle_dec x (b (S n))) as [_|]; [|lra]. apply (is_derive_ext_loc (glue P n)); [|apply I].
    assert (HP : 0 < b (S n) - x) by lra. exists (mkposreal _ HP). intros y Hy. unfold ball in Hy. cbn in Hy. unfold AbsRing_ball, abs, minus, plus, opp in Hy. cbn in Hy.
    apply Rabs_def2 in Hy. destruct (Rle_dec y (b (S n))); [auto|lra].
  - destruct (Rle_dec (b (S n)) (b (S n))) as [_|]; [|lra]. apply glue_two; [rewrite L; exact J1|apply I|]. rewrite L, J2. apply D. lia.
  - destruct (Rle_dec x (b (S n))) as [|_]; [lra|]. apply (is_derive_ext_loc (P (S n))); [|apply D; lia].
    assert (HP : 0 < x - b (S n)) by lra. exists (mkposreal _ HP). intros y Hy. unfold ball in Hy. cbn in Hy. unfold AbsRing_ball, abs, minus, plus, opp in Hy. cbn in Hy.
    apply Rabs_def2 in Hy. destruct (Rle_dec y (b (S n))); [lra|auto].
Qed.
Lemma affine_two A B x y w : x <> y -> A + B * x = 0 -> A + B * y = 0 -> A + B * w = 0.
Proof. intros H X Y. assert (B = 0) by (apply (Rmult_eq_reg_r (x - y)); [lra|intros E; lra]). subst B. lra. Qed.
Lemma affine_count P n K : (forall i, (i <= n)%nat -> exists A B, forall x, P i x = A + B * x) -> separated (glue P n) K -> (K <= n)%nat.
Proof.
  intros HA (z & Hz & Hw).
  assert (SI : forall i, (i < K)%nat -> (idx n (z i) < idx n (z (S i)))%nat).
  { intros i Hi. destruct (Hw i Hi) as (w & W1 & W2). pose proof (idx_mono n (z i) w ltac:(lra)). pose proof (idx_mono n w (z (S i)) ltac:(lra)).
    destruct (Nat.eq_dec (idx n (z i)) (idx n (z (S i)))) as [E|]; [|lia]. exfalso. apply W2. unfold glue in *. assert (E' : idx n w = idx n (z i)) by lia. rewrite E'.
    pose proof (Hz i ltac:(lia)) as Z1. pose proof (Hz (S i) ltac:(lia)) as Z2. rewrite <- E in Z2.
    destruct (HA (idx n (z i)) (idx_le n (z i))) as (A & B & HAB). rewrite HAB in *. apply (affine_two A B (z i) (z (S i))); auto. lra. }
  assert (G : forall i, (i <= K)%nat -> (i <= idx n (z i))%nat) by (induction i as [|i IH]; intros Hi; [lia|]; specialize (IH ltac:(lia)); specialize (SI i ltac:(lia)); lia).
  specialize (G K ltac:(lia)). pose proof (idx_le n (z K)). lia.
Qed.
End Glue.

(* ------------------------------------------------------------------ splines on several intervals *)
Lemma cox_join t k r : (1 <= r)%nat -> t k < t (S k) -> t (S k) < t (S (S k)) -> forall i, cox t (one_at k) r i (t (S k)) = cox t (one_at (S k)) r i (t (S k)).
Proof.
  intros Hr H1 H2. induction r as [|r IH]; [lia|]. intros i. destruct (Nat.eq_dec r 0) as [->|]; [|cbn [cox]; rewrite !IH by lia; reflexivity].
  cbn [cox]. destruct (Nat.eq_dec i k) as [->|N1].
  - rewrite one_at_same, one_at_other by lia. rewrite (one_at_other (S k) k) by lia. replace (k + 1)%nat with (S k) by lia. rewrite one_at_same.
    pose proof (rc_mul t 1 k ltac:(replace (k + 1)%nat with (S k) by lia; lra)) as E1. pose proof (rc_mul t 1 (S k) ltac:(replace (S k + 1)%nat with (S (S k)) by lia; lra)) as E2.
    replace (k + 1)%nat with (S k) in E1 by lia. replace (S k + 1)%nat with (S (S k)) in * by lia. replace (k + 1 + 1)%nat with (S (S k)) by lia. lra.
  - rewrite (one_at_other k i) by auto. destruct (Nat.eq_dec i (S k)) as [->|N2].
    + rewrite one_at_same, !one_at_other by lia. replace (t (S k) - t (S k)) with 0 by lra. ring.
    + rewrite (one_at_other (S k) i) by auto. rewrite (one_at_other (S k) (i + 1)) by lia. destruct (Nat.eq_dec (i + 1) k) as [E|N3]; [|rewrite (one_at_other k (i + 1)) by auto; ring].
      replace (i + 1 + 1)%nat with (S k) by lia. replace (t (S k) - t (S k)) with 0 by lra. ring.
Qed.
(* no coefficient on interval k *)
Definition local (d : nat) (c : nat -> R) (k : nat) : Prop := forall i, (k <= i + d)%nat -> (i <= k)%nat -> c i = 0.
Lemma local_dec d c k : {local d c k} + {~ local d c k}.
Proof.
  assert (H : {Forall (fun i => c i = 0) (filter (fun i => (k <=? i + d)%nat) (seq 0 (S k)))} + {~ Forall (fun i => c i = 0) (filter (fun i => (k <=? i + d)%nat) (seq 0 (S k)))})
    by (apply Forall_dec; intros i; apply Req_EM_T).
  destruct H as [H|H]; [left|right].
  - intros i H1 H2. rewrite Forall_forall in H. apply H. apply filter_In. split; [apply in_seq; lia|apply Nat.leb_le; lia].
  - intros L. apply H. apply Forall_forall. intros i Hi. apply filter_In in Hi as [Hi1 Hi2]. apply in_seq in Hi1. apply Nat.leb_le in Hi2. apply L; lia.
Qed.
Section Pieces.
Variables (t : nat -> R) (len n k0 N D : nat).
Hypothesis mono : forall i j, (i <= j < len)%nat -> t i <= t j.
Hypothesis HN : (k0 + N <= n)%nat.
Hypothesis HD : (D <= k0)%nat.
Hypothesis Hlen : (k0 + N + D < len)%nat.
Hypothesis gap : forall k, (k0 <= k < k0 + N)%nat -> t k < t (S k).
(* the polynomial of degree d of the spline of coefficients c on interval k *)
Definition sp (d : nat) (c : nat -> R) (k : nat) (x : R) : R := rsum n (fun i => c i * cox t (one_at k) d i x).
Lemma local_sp d c k : local d c k -> forall x, sp d c k x = 0.
Proof.
  intros L x. unfold sp. apply rsum_zero. intros i _. destruct (le_lt_dec i k) as [H1|]; [|rewrite cox_zero by lia; ring].
  destruct (le_lt_dec k (i + d)) as [H2|]; [rewrite L by auto; ring|rewrite cox_zero by lia; ring].
Qed.
Lemma sp_local d c k : (k0 <= k < k0 + N)%nat -> (d <= D)%nat -> (forall x, sp d c k x = 0) -> local d c k.
Proof. intros Hk Hd H. exact (local_zero t len k n ltac:(lia) mono (gap k Hk) d c ltac:(lia) ltac:(lia) (fun x _ => H x)). Qed.
Lemma sp_derive d c k x : (k0 <= k < k0 + N)%nat -> (S d <= D)%nat -> is_derive (sp (S d) c k) x (sp d (diffc t d c) k x).
Proof.
  intros Hk Hd. pose proof (sum_derive t len k n mono (S d) c x ltac:(lia)) as H.
  rewrite (diff_sum t k n ltac:(lia) 0 d c x ltac:(lia)) in H. exact H.
Qed.
Lemma sp_join d c k : (1 <= d)%nat -> (k0 <= k)%nat -> (S k < k0 + N)%nat -> sp d c k (t (S k)) = sp d c (S k) (t (S k)).
Proof. intros Hd H1 H2. unfold sp. apply rsum_ext. intros i _. f_equal. apply cox_join; [auto|apply gap; lia|apply gap; lia]. Qed.
Lemma sp_affine c k : exists A B, forall x, sp 1 c k x = A + B * x.
Proof.
  unfold sp. clear HN. induction n as [|m IH]; cbn [rsum]; [exists 0, 0; intros; ring|]. destruct IH as (A & B & H).
  exists (A + c m * (- (rc t 1 m * t m * one_at k m) + rc t 1 (m + 1) * t (m + 1 + 1)%nat * one_at k (m + 1))), (B + c m * (rc t 1 m * one_at k m - rc t 1 (m + 1) * one_at k (m + 1))).
  intros x. rewrite H. cbn [cox]. ring.
Qed.
Lemma constant (f f' : R -> R) : (forall x, is_derive f x (f' x)) -> (forall x, f' x = 0) -> forall x y, f x = f y.
Proof.
  intros Df Z. assert (H : forall x y, x < y -> f x = f y).
  { intros x y L. destruct (MVT_cor2 f f' x y L) as (c & E & _); [intros c _; apply is_derive_Reals, Df|]. rewrite Z in E. lra. }
  intros x y. destruct (Rtotal_order x y) as [L|[->|G]]; [auto|auto|symmetry; auto].
Qed.
(* a piece that is not zero is not zero on any interval *)
Lemma nonzero_point d : forall c k a b, (k0 <= k < k0 + N)%nat -> (d <= D)%nat -> ~ local d c k -> a < b -> exists w, a < w < b /\ sp d c k w <> 0.
Proof.
  induction d as [|d IH]; intros c k a b Hk Hd Hl Hab.
  - exists ((a + b) / 2). split; [lra|]. intros E. apply Hl. apply (sp_local 0 c k Hk Hd). intros x. rewrite <- E. reflexivity.
  - pose proof (fun x => sp_derive d c k x Hk Hd) as Df. destruct (local_dec d (diffc t d c) k) as [L|G].
    + exists ((a + b) / 2). split; [lra|]. intros E. apply Hl. apply (sp_local (S d) c k Hk Hd). intros x. rewrite <- E. apply (constant _ _ Df). exact (local_sp d _ k L).
    + destruct (IH (diffc t d c) k a b Hk ltac:(lia) G Hab) as (w & W1 & W2). destruct (Req_EM_T (sp (S d) c k w) 0) as [E|]; [|exists w; auto].
      specialize (Df w). apply is_derive_Reals in Df. set (l := sp d (diffc t d c) k w) in *. assert (Hl' : 0 < Rabs l) by (now apply Rabs_pos_lt).
      destruct (Df (Rabs l) Hl') as (e & He). assert (P1 : 0 < Rmin e (b - w)) by (apply Rmin_pos; [apply cond_pos|lra]). pose proof (Rmin_l e (b - w)). pose proof (Rmin_r e (b - w)).
      exists (w + Rmin e (b - w) / 2). split; [lra|]. intros F. specialize (He (Rmin e (b - w) / 2) ltac:(lra) ltac:(rewrite Rabs_pos_eq; lra)). rewrite F, E in He.
      replace ((0 - 0) / (Rmin e (b - w) / 2) - l) with (- l) in He by (field; lra). rewrite Rabs_Ropp in He. lra.
Qed.
(* all derivatives up to the one before the last vanish *)
Fixpoint flat (d : nat) (c : nat -> R) (k : nat) (a : R) : Prop := match d with O => True | S d' => sp d c k a = 0 /\ flat d' (diffc t d' c) k a end.
Lemma flat_zero d : forall c k a z, (k0 <= k < k0 + N)%nat -> (d <= D)%nat -> flat d c k a -> z <> a -> sp d c k z = 0 -> forall x, sp d c k x = 0.
Proof.
  induction d as [|d IH]; intros c k a z Hk Hd Hf Hz E x; [rewrite <- E; reflexivity|]. destruct Hf as [F0 F1].
  pose proof (fun x => sp_derive d c k x Hk Hd) as Df.
  assert (Y : exists y, y <> a /\ sp d (diffc t d c) k y = 0).
  { destruct (Rlt_le_dec a z) as [L|G].
    - destruct (MVT_cor2 (sp (S d) c k) (sp d (diffc t d c) k) a z L) as (y & M & Hy); [intros y _; apply is_derive_Reals, Df|]. exists y. split; [lra|]. rewrite E, F0 in M. apply (Rmult_eq_reg_r (z - a)); lra.
    - destruct (MVT_cor2 (sp (S d) c k) (sp d (diffc t d c) k) z a ltac:(lra)) as (y & M & Hy); [intros y _; apply is_derive_Reals, Df|]. exists y. split; [lra|]. rewrite E, F0 in M. apply (Rmult_eq_reg_r (a - z)); lra. }
  destruct Y as (y & Hy & Ey). rewrite <- F0. apply (constant _ _ Df). exact (IH _ k a y Hk ltac:(lia) F1 Hy Ey).
Qed.
Lemma derived_zero d c k : (k0 <= k < k0 + N)%nat -> (S d <= D)%nat -> (forall x, sp (S d) c k x = 0) -> forall x, sp d (diffc t d c) k x = 0.
Proof.
  intros Hk Hd Z x. pose proof (sp_derive d c k x Hk Hd) as D1.
  assert (D0 : is_derive (sp (S d) c k) x 0) by (apply (is_derive_ext (fun _ => 0)); [intros; symmetry; apply Z|apply (is_derive_const (K := R_AbsRing) (V := R_NormedModule))]).
  apply is_derive_unique in D1. apply is_derive_unique in D0. congruence.
Qed.
Lemma flat_up d : forall c k, (k0 <= k)%nat -> (S k < k0 + N)%nat -> (d <= D)%nat -> (forall x, sp d c k x = 0) -> flat d c (S k) (t (S k)).
Proof.
  induction d as [|d IH]; intros c k H1 H2 Hd Z; [exact I|]. split; [rewrite <- sp_join by lia; apply Z|]. apply IH; [lia|lia|lia|]. apply derived_zero; [lia|lia|exact Z].
Qed.
Lemma flat_down d : forall c k, (k0 <= k)%nat -> (S k < k0 + N)%nat -> (d <= D)%nat -> (forall x, sp d c (S k) x = 0) -> flat d c k (t (S k)).
Proof.
  induction d as [|d IH]; intros c k H1 H2 Hd Z; [exact I|]. split; [rewrite sp_join by lia; apply Z|]. apply IH; [lia|lia|lia|]. apply derived_zero; [lia|lia|exact Z].
Qed.
(* fewer than N + d separated zeros *)
Lemma zero_count d : forall c K, (1 <= d <= D)%nat -> (0 < N)%nat -> separated (glue (fun j => t (k0 + j)%nat) (fun j => sp d c (k0 + j)) (N - 1)) K -> (K <= N - 1 + (d - 1))%nat.
Proof.
  induction d as [|d IH]; intros c K Hd HP Hs; [lia|]. destruct (Nat.eq_dec d 0) as [->|Nd].
  - apply affine_count in Hs; [lia|]. intros i _. apply sp_affine.
  - destruct K as [|K]; [lia|]. apply (rolle _ (glue (fun j => t (k0 + j)%nat) (fun j => sp d (diffc t d c) (k0 + j)) (N - 1))) in Hs; [apply IH in Hs; lia|].
    apply glue_derive.
    + intros i Hi. replace (k0 + S i)%nat with (S (k0 + i)) by lia. apply gap. lia.
    + intros i x Hi. apply sp_derive; lia.
    + intros i Hi. replace (k0 + S i)%nat with (S (k0 + i)) by lia. split; apply sp_join; lia.
Qed.
(* three zeros inside every interval *)
Variable node : nat -> nat -> R.
Hypothesis node_in : forall k q, (k0 <= k < k0 + N)%nat -> (q < 3)%nat -> t k < node k q < t (S k).
Hypothesis node_lt : forall k q, (k0 <= k < k0 + N)%nat -> (q < 2)%nat -> node k q < node k (S q).
Lemma many_zeros d c : (d <= D)%nat -> (d <= 2 * N)%nat -> (forall k q, (k0 <= k < k0 + N)%nat -> (q < 3)%nat -> sp d c k (node k q) = 0) -> forall k, (k0 <= k < k0 + N)%nat -> local d c k.
Proof.
  intros Hd H2 Z. destruct (Nat.eq_dec d 0) as [->|Nd].
  { intros k Hk. apply (sp_local 0 c k Hk Hd). intros x. rewrite <- (Z k 0%nat Hk ltac:(lia)). reflexivity. }
  assert (Ex : (exists k, (k0 <= k < k0 + N)%nat /\ local d c k) \/ (forall k, (k0 <= k < k0 + N)%nat -> ~ local d c k)).
  { clear - N. induction N as [|m IH]; [right; intros; lia|]. destruct IH as [(k & Hk & L)|H]; [left; exists k; split; [lia|auto]|].
    destruct (local_dec d c (k0 + m)) as [L|G]; [left; exists (k0 + m)%nat; split; [lia|auto]|right]. intros k Hk. destruct (Nat.eq_dec k (k0 + m)) as [->|]; [auto|apply H; lia]. }
  destruct Ex as [(k & Hk & L)|None].
  - assert (Up : forall j, (k + j < k0 + N)%nat -> forall x, sp d c (k + j) x = 0).
    { induction j as [|j IH]; intros Hj; [replace (k + 0)%nat with k by lia; exact (local_sp d c k L)|]. replace (k + S j)%nat with (S (k + j)) in * by lia.
      pose proof (node_in (S (k + j)) 0 ltac:(lia) ltac:(lia)). apply (flat_zero d c (S (k + j)) (t (S (k + j))) (node (S (k + j)) 0)); [lia|lia| |lra|apply Z; lia]. apply flat_up; [lia|lia|lia|]. apply IH. lia. }
    assert (Down : forall j, (j <= k - k0)%nat -> forall x, sp d c (k - j) x = 0).
    { induction j as [|j IH]; intros Hj; [replace (k - 0)%nat with k by lia; exact (local_sp d c k L)|]. 
      pose proof (node_in (k - S j) 0 ltac:(lia) ltac:(lia))%nat. apply (flat_zero d c (k - S j) (t (S (k - S j))) (node (k - S j)%nat 0)); [lia|lia| |lra|apply Z; lia].
      apply flat_down; [lia|lia|lia|]. replace (S (k - S j)) with (k - j)%nat by lia. apply IH. lia. }
    intros k' Hk'. apply (sp_local d c k' Hk' Hd). destruct (le_lt_dec k k') as [G|G].
    + replace k' with (k + (k' - k))%nat by lia. apply Up. lia.
    + replace k' with (k - (k - k'))%nat by lia. apply Down. lia.
  - intros k Hk. exfalso. set (b := fun j => t (k0 + j)%nat).
    assert (Hb : forall i, (i < N - 1)%nat -> b i < b (S i)) by (intros i Hi; unfold b; replace (k0 + S i)%nat with (S (k0 + i)) by lia; apply gap; lia).
    assert (At : forall j x, (j < N)%nat -> t (k0 + j)%nat < x < t (S (k0 + j)) -> glue b (fun j => sp d c (k0 + j)) (N - 1) x = sp d c (k0 + j) x).
    { intros j x Hj Hx. unfold glue. rewrite (idx_at b (N - 1) j x Hb); [reflexivity|lia|unfold b; lra|]. right. unfold b. replace (k0 + S j)%nat with (S (k0 + j)) by lia. lra. }
    assert (Sep : separated (glue b (fun j => sp d c (k0 + j)) (N - 1)) (3 * N - 1)).
    { exists (fun i => node (k0 + i / 3)%nat (i mod 3)%nat). split.
      - intros i Hi. assert (i / 3 < N)%nat by (apply Nat.div_lt_upper_bound; lia). pose proof (Nat.mod_upper_bound i 3 ltac:(lia)).
        rewrite (At (i / 3)%nat) by (auto; apply node_in; lia). apply Z; lia.
      - intros i Hi. assert (i / 3 < N)%nat by (apply Nat.div_lt_upper_bound; lia). pose proof (Nat.mod_upper_bound i 3 ltac:(lia)) as Hm. pose proof (Nat.div_mod i 3 ltac:(lia)) as Hi3.
        pose proof (node_in (k0 + i / 3) (i mod 3) ltac:(lia) Hm)%nat as NI.
        assert (Top : exists e, node (k0 + i / 3)%nat (i mod 3)%nat < e /\ e <= node (k0 + S i / 3)%nat (S i mod 3)%nat /\ e <= t (S (k0 + i / 3))).
        { destruct (Nat.eq_dec (i mod 3) 2) as [E|NE].
          - exists (t (S (k0 + i / 3))). split; [lra|]. split; [|lra]. assert (E1 : (S i / 3 = S (i / 3))%nat) by (symmetry; apply (Nat.div_unique _ 3 _ 0); lia).
            assert (E2 : (S i mod 3 = 0)%nat) by (symmetry; apply (Nat.mod_unique _ 3 (S (i / 3)) 0); lia). rewrite E1, E2.
            assert (S (i / 3) < N)%nat by lia. pose proof (node_in (k0 + S (i / 3)) 0 ltac:(lia) ltac:(lia))%nat as NJ. replace (k0 + S (i / 3))%nat with (S (k0 + i / 3)) in * by lia. lra.
          - assert (E1 : (S i / 3 = i / 3)%nat) by (symmetry; apply (Nat.div_unique _ 3 _ (S (i mod 3))); lia).
            assert (E2 : (S i mod 3 = S (i mod 3))%nat) by (symmetry; apply (Nat.mod_unique _ 3 (i / 3) (S (i mod 3))); lia). rewrite E1, E2.
            exists (node (k0 + i / 3)%nat (S (i mod 3))). split; [apply node_lt; lia|]. split; [lra|]. pose proof (node_in (k0 + i / 3) (S (i mod 3)) ltac:(lia) ltac:(lia))%nat. lra. }
        destruct Top as (e & T1 & T2 & T3). destruct (nonzero_point d c (k0 + i / 3) _ e ltac:(lia) Hd (None (k0 + i / 3)%nat ltac:(lia)) T1) as (w & W1 & W2).
        exists w. split; [lra|]. rewrite (At (i / 3)%nat) by (auto; lra). exact W2. }
    apply zero_count in Sep; lia.
Qed.
End Pieces.
