(* C181-C182: B-spline expansions keep the shape of their coefficients: increasing coefficients give increasing splines, convex ones convex splines. *)
From Coq Require Import Lia Lra Psatz.
From Coquelicot Require Import Coquelicot.
From Verif Require Import SimplexProps FieldProps FemProps EvalProps QuadProps SolverProps LinAlg FemEnergy MeasureProps FemKernel SplineSolverModel SplineModel SplineProps SplineSolverProps SplineZeros SplineSpace SplinePoly.
Local Close Scope Q_scope.
Local Open Scope R_scope.

(* ------------------------------------------------------------------ one piece *)
Section Shape.
Variables (t : nat -> R) (len : nat).
Hypothesis mono : forall i j, (i <= j < len)%nat -> t i <= t j.
(* the piece of the spline of order r between knots k and k + 1 *)
Definition run (r n : nat) (c : nat -> R) (k : nat) (x : R) : R := rsum n (fun i => c i * cox t (one_at k) r i x).
Definition increasing (n : nat) (c : nat -> R) : Prop := forall i, (S i < n)%nat -> c i <= c (S i).
Lemma increasing_le n c : increasing n c -> forall i j, (i <= j < n)%nat -> c i <= c j.
Proof. intros H i j Hij. induction j as [|j IH]; [replace i with 0%nat by lia; lra|]. destruct (Nat.eq_dec i (S j)) as [->|]; [lra|]. apply Rle_trans with (c j); [apply IH; lia|apply H; lia]. Qed.
(* coefficients of the derivative *)
Definition dcoef (r : nat) (c : nat -> R) (i : nat) : R := INR r * rc t r i * (c i - c (i - 1)%nat).
Lemma abel n (c g : nat -> R) : g 0%nat = 0 -> g n = 0 -> rsum n (fun i => c i * (g i - g (i + 1)%nat)) = rsum n (fun i => (c i - c (i - 1)%nat) * g i).
Proof.
  intros H0. destruct n as [|n]; [reflexivity|]. intros Hn.
  assert (E : forall m, rsum (S m) (fun i => c i * (g i - g (i + 1)%nat)) = rsum (S m) (fun i => (c i - c (i - 1)%nat) * g i) - c m * g (S m)).
  { induction m as [|m IH]; [cbn; rewrite H0; ring|]. change (rsum (S m) (fun i => c i * (g i - g (i + 1)%nat)) + c (S m) * (g (S m) - g (S m + 1)%nat) = rsum (S m) (fun i => (c i - c (i - 1)%nat) * g i) + (c (S m) - c (S m - 1)%nat) * g (S m) - c (S m) * g (S (S m))). rewrite IH.
    replace (S m + 1)%nat with (S (S m)) by lia. replace (S m - 1)%nat with m by lia. ring. }
  rewrite E, Hn. ring.
Qed.
Lemma run_derive_sum r n c k x : (r < k)%nat -> (k < n)%nat -> rsum n (fun i => c i * dcox t (one_at k) 1 (S r) i x) = run r n (dcoef (S r) c) k x.
Proof.
  intros Hk Hn. set (g := fun i => INR (S r) * rc t (S r) i * cox t (one_at k) r i x).
  rewrite (rsum_ext n _ (fun i => c i * (g i - g (i + 1)%nat))) by (intros; reflexivity).
  rewrite abel; [|unfold g; rewrite cox_zero by lia; ring|unfold g; rewrite cox_zero by lia; ring].
  unfold run. apply rsum_ext. intros i Hi. unfold g, dcoef. ring.
Qed.
Lemma is_derive_rsum n (f : nat -> R -> R) (f' : nat -> R) (x : R) : (forall i, (i < n)%nat -> is_derive (f i) x (f' i)) -> is_derive (fun y : R => rsum n (fun i => f i y)) x (rsum n f').
Proof.
  induction n as [|n IH]; intros H; [cbn [rsum]; apply (is_derive_const (K := R_AbsRing) (V := R_NormedModule) 0)|]. cbn [rsum].
  apply (is_derive_plus (K := R_AbsRing) (V := R_NormedModule) (fun y : R => rsum n (fun i => f i y)) (f n)); [apply IH; intros; apply H; lia|apply H; lia].
Qed.
Lemma run_derive r n c k x : (n + S r < len)%nat -> (r < k)%nat -> (k < n)%nat -> is_derive (run (S r) n c k) x (run r n (dcoef (S r) c) k x).
Proof.
  intros Hl Hk Hn. rewrite <- run_derive_sum by auto. apply (is_derive_rsum n (fun i y => c i * cox t (one_at k) (S r) i y)). intros i Hi.
  apply (is_derive_scal (fun y => cox t (one_at k) (S r) i y)). apply (cox_derive t len mono); auto. lia.
Qed.
Lemma run_nonneg r n c k x : (n + r < len)%nat -> (forall i, (i < n)%nat -> (k <= i + r)%nat -> (i <= k)%nat -> 0 <= c i) -> t k < t (S k) -> t k <= x <= t (S k) -> 0 <= run r n c k x.
Proof.
  intros Hl Hc Hk Hx. unfold run. apply rsum_nonneg. intros i Hi. destruct (le_lt_dec i k); [|rewrite cox_zero by lia; lra]. destruct (le_lt_dec k (i + r)); [|rewrite cox_zero by lia; lra].
  apply Rmult_le_pos; [apply Hc; auto|]. apply (cox_nonneg t len mono k x Hx). lia.
Qed.
Lemma nondecreasing (f f' : R -> R) (a b : R) : (forall x, a <= x <= b -> is_derive f x (f' x)) -> (forall x, a <= x <= b -> 0 <= f' x) -> forall x y, a <= x -> x <= y -> y <= b -> f x <= f y.
Proof.
  intros D P x y Hx Hxy Hy. destruct Hxy as [Hxy| ->]; [|lra]. destruct (MVT_gen f x y f') as (z & Hz & E).
  - rewrite Rmin_left, Rmax_right by lra. intros z Hz. apply D. lra.
  - rewrite Rmin_left, Rmax_right by lra. intros z Hz. apply continuity_pt_filterlim. apply (ex_derive_continuous f). exists (f' z). apply D. lra.
  - rewrite Rmin_left, Rmax_right in Hz by lra. assert (0 <= f' z * (y - x)) by (apply Rmult_le_pos; [apply P; lra|lra]). lra.
Qed.
Lemma run_increasing r n c k x y : (n + r < len)%nat -> (r <= k)%nat -> (k < n)%nat -> increasing n c -> t k < t (S k) -> t k <= x -> x <= y -> y <= t (S k) -> run r n c k x <= run r n c k y.
Proof.
  intros Hl Hr Hn Hc Hk Hx Hxy Hy. destruct r as [|r]; [unfold run; right; apply rsum_ext; intros; reflexivity|].
  apply (nondecreasing (run (S r) n c k) (run r n (dcoef (S r) c) k) (t k) (t (S k))); auto.
  - intros z _. apply run_derive; auto.
  - intros z Hz. apply run_nonneg; auto; [lia|]. intros i Hi Hi1 Hi2. unfold dcoef. apply Rmult_le_pos.
    + apply Rmult_le_pos; [apply pos_INR|apply (rc_nonneg t len mono); lia].
    + destruct i as [|i]; [replace (0 - 1)%nat with 0%nat by lia; lra|]. replace (S i - 1)%nat with i by lia. specialize (Hc i ltac:(lia)). lra.
Qed.
(* from a piece to the next non-empty one *)
Lemma run_jump r n c k m : (1 <= m)%nat -> (n + r < len)%nat -> (r <= k)%nat -> (k + m < n)%nat -> increasing n c -> t k < t (S k) -> (forall i, (1 <= i <= m)%nat -> t (k + i)%nat = t (S k)) -> t (S k) < t (k + m + 1)%nat ->
  run r n c k (t (S k)) <= run r n c (k + m) (t (S k)).
Proof.
  intros H1 Hl Hr Hn Hc Hk Hm Hk'. destruct (le_lt_dec m r) as [L|G].
  - right. unfold run. apply rsum_ext. intros i Hi. now rewrite (cox_joins t k m r).
  - assert (E1 : run r n c k (t (S k)) = c k).
    { unfold run. rewrite (rsum_single n _ k); [rewrite (join_left t k m r Hk Hm) by lia; rewrite one_at_same; ring|lia|]. intros i _ Hi. rewrite (join_left t k m r Hk Hm) by lia. rewrite one_at_other by auto. ring. }
    assert (E2 : run r n c (k + m) (t (S k)) = c (k + m - r)%nat).
    { assert (J : forall i, cox t (one_at (k + m)) r i (t (S k)) = one_at (k + m - r) i) by (destruct r as [|r']; [intros i; cbn [cox]; now rewrite Nat.sub_0_r|apply (join_right t k m (S r') Hm Hk'); lia]).
      unfold run. rewrite (rsum_single n _ (k + m - r)); [rewrite J, one_at_same; ring|lia|]. intros i _ Hi. rewrite J, one_at_other by auto. ring. }
    rewrite E1, E2. apply (increasing_le n c Hc). lia.
Qed.
Lemma next_piece k k' : (k < k')%nat -> (S k' < len)%nat -> t k' < t (S k') ->
  exists m, (1 <= m)%nat /\ (k + m <= k')%nat /\ (forall i, (1 <= i <= m)%nat -> t (k + i)%nat = t (S k)) /\ t (S k) < t (k + m + 1)%nat.
Proof.
  intros Hk Hl Hk'.
  assert (W : forall e, (k + 1 + e <= k')%nat -> (exists m, (1 <= m <= e)%nat /\ (forall i, (1 <= i <= m)%nat -> t (k + i)%nat = t (S k)) /\ t (S k) < t (k + m + 1)%nat) \/ (forall i, (1 <= i <= S e)%nat -> t (k + i)%nat = t (S k))).
  { induction e as [|e IHe]; intros He; [right; intros i Hi; replace i with 1%nat by lia; f_equal; lia|]. destruct IHe as [(m & A & B)|A]; [lia|left; exists m; split; [lia|auto]|].
    assert (t (k + S e)%nat <= t (k + S e + 1)%nat) by (apply mono; lia). destruct (Rle_lt_or_eq_dec _ _ H) as [L|Q].
    - left. exists (S e). split; [lia|]. rewrite A in L by lia. split; [auto|auto].
    - right. intros i Hi. destruct (Nat.eq_dec i (S (S e))) as [->|]; [|apply A; lia]. replace (k + S (S e))%nat with (k + S e + 1)%nat by lia. rewrite <- Q. apply A. lia. }
  destruct (W (k' - k - 1)%nat ltac:(lia)) as [(m & A & B)|A]; [exists m; split; [lia|]; split; [lia|auto]|]. exists (k' - k)%nat. split; [lia|]. split; [lia|].
  split; [intros i Hi; apply A; lia|]. replace (k + (k' - k) + 1)%nat with (S k') by lia.
  rewrite <- (A (k' - k)%nat) by lia. replace (k + (k' - k))%nat with k' by lia. auto.
Qed.
Lemma run_chain r n c : (n + r < len)%nat -> increasing n c -> forall d k k' x y, (k' = k + d)%nat -> (r <= k)%nat -> (k' < n)%nat -> (S k' < len)%nat -> t k < t (S k) -> t k' < t (S k') -> t k <= x <= t (S k) -> t k' <= y <= t (S k') -> x <= y ->
  run r n c k x <= run r n c k' y.
Proof.
  intros Hl Hc. induction d as [d IH] using (well_founded_induction lt_wf). intros k k' x y E Hr Hn Hl' Hk Hk' Hx Hy Hxy. destruct d as [|d].
  - replace k' with k in * by lia. apply run_increasing; auto; lra.
  - destruct (next_piece k k') as (m & M1 & M2 & M3 & M4); [lia|auto|auto|].
    apply Rle_trans with (run r n c k (t (S k))); [apply run_increasing; auto; try lia; lra|]. apply Rle_trans with (run r n c (k + m) (t (S k))); [apply run_jump; auto; lia|].
    assert (Hm : t (k + m)%nat = t (S k)) by (apply M3; lia).
    apply (IH (S d - m)%nat ltac:(lia) (k + m)%nat k' (t (S k)) y); auto; try lia.
    + rewrite Hm. replace (S (k + m)) with (k + m + 1)%nat by lia. auto.
    + rewrite Hm. replace (S (k + m)) with (k + m + 1)%nat by lia. lra.
    + assert (t (S k) <= t k') by (apply mono; lia). lra.
Qed.
(* ------------------------------------------------------------------ supporting lines *)
Definition dcoef1 (r : nat) (c : nat -> R) (i : nat) : R := match i with O => dcoef r c 1 | S _ => dcoef r c i end.
Lemma run_first r n c c' k x : (r < k)%nat -> (forall i, (0 < i < n)%nat -> c i = c' i) -> run r n c k x = run r n c' k x.
Proof. intros Hk H. unfold run. apply rsum_ext. intros [|i] Hi; [rewrite cox_zero by lia; ring|now rewrite H by lia]. Qed.
Lemma run_between r n c k x y : (n + S r < len)%nat -> (r < k)%nat -> (k < n)%nat -> increasing n (dcoef1 (S r) c) -> t k < t (S k) -> t k <= x -> x <= y -> y <= t (S k) ->
  run r n (dcoef1 (S r) c) k x * (y - x) <= run (S r) n c k y - run (S r) n c k x <= run r n (dcoef1 (S r) c) k y * (y - x).
Proof.
  intros Hl Hr Hn Hc Hk Hx Hxy Hy. destruct Hxy as [Hxy| ->]; [|lra].
  assert (D : forall z, is_derive (run (S r) n c k) z (run r n (dcoef1 (S r) c) k z)).
  { intros z. rewrite (run_first r n (dcoef1 (S r) c) (dcoef (S r) c)); [now apply run_derive|auto|]. intros [|i] Hi; [lia|reflexivity]. }
  destruct (MVT_gen (run (S r) n c k) x y (run r n (dcoef1 (S r) c) k)) as (z & Hz & E).
  - intros z _. apply D.
  - intros z _. apply continuity_pt_filterlim. apply (ex_derive_continuous (run (S r) n c k)). eexists. apply D.
  - rewrite Rmin_left, Rmax_right in Hz by lra. rewrite E. split; (apply Rmult_le_compat_r; [lra|]); apply run_increasing; auto; try lia; lra.
Qed.
Lemma run_lines r n c : (n + S r < len)%nat -> increasing n (dcoef1 (S r) c) -> (forall i, (1 <= i < n)%nat -> t i < t (i + S r)%nat) ->
  forall d k k' x y, (k' = k + d)%nat -> (r < k)%nat -> (k' < n)%nat -> t k < t (S k) -> t k' < t (S k') -> t k <= x <= t (S k) -> t k' <= y <= t (S k') -> x <= y ->
  run r n (dcoef1 (S r) c) k x * (y - x) <= run (S r) n c k' y - run (S r) n c k x <= run r n (dcoef1 (S r) c) k' y * (y - x).
Proof.
  intros Hl Hc Hs. induction d as [d IH] using (well_founded_induction lt_wf). intros k k' x y E Hr Hn Hk Hk' Hx Hy Hxy. destruct d as [|d].
  - replace k' with k in * by lia. apply run_between; auto; lra.
  - destruct (next_piece k k') as (m & M1 & M2 & M3 & M4); [lia|lia|auto|]. assert (Hm : t (k + m)%nat = t (S k)) by (apply M3; lia).
    assert (L : (m <= S r)%nat).
    { destruct (le_lt_dec m (S r)) as [L|G]; [auto|]. specialize (Hs (k + 1)%nat ltac:(lia)). replace (k + 1 + S r)%nat with (k + S (S r))%nat in Hs by lia. rewrite !M3 in Hs by lia. lra. }
    assert (J : run (S r) n c k (t (S k)) = run (S r) n c (k + m) (t (S k))) by (unfold run; apply rsum_ext; intros i Hi; now rewrite (cox_joins t k m (S r))).
    assert (Hk1 : t (k + m)%nat < t (S (k + m))) by (rewrite Hm; replace (S (k + m)) with (k + m + 1)%nat by lia; auto).
    assert (Hy1 : t (S k) <= y) by (assert (t (S k) <= t k') by (apply mono; lia); lra).
    destruct (run_between r n c k x (t (S k))) as [A1 A2]; auto; try lia; try lra.
    destruct (IH (S d - m)%nat ltac:(lia) (k + m)%nat k' (t (S k)) y) as [B1 B2]; auto; try lia; try lra.
    assert (C1 : run r n (dcoef1 (S r) c) k x <= run r n (dcoef1 (S r) c) (k + m) (t (S k))) by (apply (run_chain r n _ ltac:(lia) Hc m); auto; try lia; lra).
    assert (C2 : run r n (dcoef1 (S r) c) k (t (S k)) <= run r n (dcoef1 (S r) c) k' y) by (apply (run_chain r n _ ltac:(lia) Hc (S d)); auto; try lia; lra).
    rewrite <- J in B1, B2. set (D1 := run r n (dcoef1 (S r) c) k x) in *. set (D2 := run r n (dcoef1 (S r) c) k' y) in *.
    assert (D1 * (y - t (S k)) <= run r n (dcoef1 (S r) c) (k + m) (t (S k)) * (y - t (S k))) by (apply Rmult_le_compat_r; lra).
    assert (run r n (dcoef1 (S r) c) k (t (S k)) * (t (S k) - x) <= D2 * (t (S k) - x)) by (apply Rmult_le_compat_r; lra).
    split; lra.
Qed.
End Shape.

(* ------------------------------------------------------------------ C181: monotone splines *)
Lemma pieces r u x y : knots_ok u -> first_knot u <= x -> x <= y -> y <= last_knot u -> exists k k', (r <= k)%nat /\ (k <= k')%nat /\ (k' < basis_size r (padded r u))%nat /\ (k' + r + 2 <= length (padded r u))%nat /\
  kn (padded r u) k < kn (padded r u) (S k) /\ kn (padded r u) k' < kn (padded r u) (S k') /\
  kn (padded r u) k <= x <= kn (padded r u) (S k) /\ kn (padded r u) k' <= y <= kn (padded r u) (S k') /\
  (forall c K, comb r u c x K = rsum (basis_size r (padded r u)) (fun a => c a * dcox (kn (padded r u)) (one_at k) K r a x)) /\
  (forall c K, comb r u c y K = rsum (basis_size r (padded r u)) (fun a => c a * dcox (kn (padded r u)) (one_at k') K r a y)).
Proof.
  intros Hu Hx Hxy Hy. destruct (p_active r u Hu x ltac:(lra)) as (k & A1 & A2 & A3 & A4 & A5).
  destruct (Req_dec x y) as [<-|N].
  - exists k, k. repeat (split; [assumption || lia || (unfold basis_size; lia)|]). split; intros c K; now apply comb_at.
  - destruct (p_active r u Hu y ltac:(lra)) as (k' & B1 & B2 & B3 & B4 & B5). exists k, k'.
    assert (L : (k <= k')%nat). { destruct (le_lt_dec k k') as [L|G]; [auto|]. assert (kn (padded r u) (S k') <= kn (padded r u) k) by (apply (p_mono r u Hu); lia). lra. }
    repeat (split; [assumption || lia || (unfold basis_size; lia)|]). split; intros c K; now apply comb_at.
Qed.
Lemma comb_increasing r u c x y : knots_ok u -> increasing (basis_size r (padded r u)) c -> first_knot u <= x -> x <= y -> y <= last_knot u -> comb r u c x 0 <= comb r u c y 0.
Proof.
  intros Hu Hc Hx Hxy Hy. destruct (pieces r u x y Hu Hx Hxy Hy) as (k & k' & A1 & A2 & A3 & A4 & A5 & A6 & A7 & A8 & A9 & A10). rewrite A9, A10.
  apply (run_chain (kn (padded r u)) (length (padded r u)) (p_mono r u Hu) r _ c) with (d := (k' - k)%nat); auto; try lia. unfold basis_size. lia.
Qed.
Theorem C181_increasing r u t c : knots_ok u -> pad_knots r u = Ok t -> length c = basis_size r t -> (forall i, (S i < length c)%nat -> nth i c 0 <= nth (S i) c 0) ->
  forall x y, first_knot u <= x -> x <= y -> y <= last_knot u -> exists p q, spline_expansion r t c [x] = Ok [p] /\ spline_expansion r t c [y] = Ok [q] /\ p <= q.
Proof.
  intros Hu Et Hc H x y Hx Hxy Hy. rewrite (pad_ok r u Hu) in Et. injection Et as <-. rewrite !(expansion_comb r u) by auto. do 2 eexists. split; [reflexivity|]. split; [reflexivity|].
  apply comb_increasing; auto. intros i Hi. apply H. lia.
Qed.
Theorem C181_decreasing r u t c : knots_ok u -> pad_knots r u = Ok t -> length c = basis_size r t -> (forall i, (S i < length c)%nat -> nth (S i) c 0 <= nth i c 0) ->
  forall x y, first_knot u <= x -> x <= y -> y <= last_knot u -> exists p q, spline_expansion r t c [x] = Ok [p] /\ spline_expansion r t c [y] = Ok [q] /\ q <= p.
Proof.
  intros Hu Et Hc H x y Hx Hxy Hy. rewrite (pad_ok r u Hu) in Et. injection Et as <-. rewrite !(expansion_comb r u) by auto. do 2 eexists. split; [reflexivity|]. split; [reflexivity|].
  assert (G : comb r u (fun i => - nth i c 0) x 0 <= comb r u (fun i => - nth i c 0) y 0) by (apply comb_increasing; auto; intros i Hi; specialize (H i ltac:(lia)); lra).
  assert (N : forall z, comb r u (fun i => - nth i c 0) z 0 = - comb r u (fun i => nth i c 0) z 0).
  { intros z. unfold comb. rewrite (rsum_ext _ _ (fun i => (-1) * (nth i c 0 * phi r u i z 0))) by (intros; ring). rewrite rsum_scal. ring. }
  rewrite !N in G. lra.
Qed.

(* ------------------------------------------------------------------ C182: convex splines *)
(* the slope of the control polygon through the points (greville i, c_i) *)
Definition control_slope (r : nat) (t c : list R) (i : nat) : R := (nth i c 0 - nth (i - 1) c 0) / (greville r t i - greville r t (i - 1)).
Lemma greville_step r t i : (1 <= r)%nat -> (1 <= i)%nat -> INR r * (greville r t i - greville r t (i - 1)) = nth (i + r) t 0 - nth i t 0.
Proof.
  intros Hr Hi. unfold greville. assert (INR r <> 0) by (apply not_0_INR; lia).
  transitivity (rsum r (fun l => nth (i + 1 + l) t 0) - rsum r (fun l => nth (i - 1 + 1 + l) t 0)); [field; auto|].
  clear - Hi. induction r as [|r IH]; [cbn; replace (i + 0)%nat with i by lia; ring|].
  cbn [rsum]. replace (i - 1 + 1 + r)%nat with (i + r)%nat by lia. replace (i + 1 + r)%nat with (i + S r)%nat by lia. lra.
Qed.
Lemma slope_dcoef r t c i : (1 <= r)%nat -> (1 <= i)%nat -> nth i t 0 < nth (i + r) t 0 -> dcoef (kn t) r (fun i => nth i c 0) i = control_slope r t c i.
Proof.
  intros Hr Hi Ht. unfold control_slope, dcoef. assert (E := greville_step r t i Hr Hi). set (g := greville r t i - greville r t (i - 1)) in *. assert (0 < INR r) by (apply lt_0_INR; lia).
  assert (g <> 0) by (intros Z; rewrite Z in E; lra). assert (M := rc_mul (kn t) r i ltac:(unfold kn; lra)). unfold kn in M at 2 3. rewrite <- E in M. set (q := rc (kn t) r i) in *.
  assert (Q : INR r * q = / g). { apply (Rmult_eq_reg_r g); [|auto]. rewrite Rinv_l by auto. lra. }
  rewrite Q. unfold Rdiv. ring.
Qed.
Theorem C182_convex r u t c : knots_ok u -> pad_knots r u = Ok t -> (1 <= r)%nat -> length c = basis_size r t ->
  (forall i, (1 <= i < basis_size r t)%nat -> nth i t 0 < nth (i + r) t 0) ->
  (forall i, (1 <= i)%nat -> (S i < length c)%nat -> control_slope r t c i <= control_slope r t c (S i)) ->
  forall x y s, first_knot u <= x <= last_knot u -> first_knot u <= y <= last_knot u -> 0 <= s <= 1 ->
  exists a b z, spline_expansion r t c [x] = Ok [a] /\ spline_expansion r t c [y] = Ok [b] /\ spline_expansion r t c [s * x + (1 - s) * y] = Ok [z] /\ z <= s * a + (1 - s) * b.
Proof.
  intros Hu Et Hr Hc Hs H. rewrite (pad_ok r u Hu) in Et. injection Et as <-. destruct r as [|r]; [lia|]. clear Hr. set (t := padded (S r) u) in *. set (f := fun i => nth i c 0).
  assert (PL := p_len (S r) u Hu). fold t in PL. set (n := basis_size (S r) t) in *. assert (Hn : n = (length t - S r - 1)%nat) by reflexivity.
  assert (Inc : increasing n (dcoef1 (kn t) (S r) f)).
  { intros [|i] Hi; [right; reflexivity|]. cbn [dcoef1]. unfold f. rewrite !slope_dcoef by (try lia; apply Hs; lia). apply H; lia. }
  assert (Hs' : forall i, (1 <= i < n)%nat -> kn t i < kn t (i + S r)) by (intros i Hi; unfold kn; now apply Hs).
  (* a supporting line at z *)
  assert (Up : forall z, first_knot u <= z <= last_knot u -> exists g, forall y, first_knot u <= y <= last_knot u -> comb (S r) u f z 0 + g * (y - z) <= comb (S r) u f y 0).
  { intros z Hz. destruct (p_active (S r) u Hu z Hz) as (k & A1 & A2 & A3 & A4 & A5). fold t in A2, A3, A4, A5. exists (run (kn t) r n (dcoef1 (kn t) (S r) f) k z). intros y Hy.
    destruct (Req_dec y z) as [->|N]; [lra|]. destruct (p_active (S r) u Hu y Hy) as (j & B1 & B2 & B3 & B4 & B5). fold t in B2, B3, B4, B5.
    rewrite (comb_at (S r) u f z 0 k A5), (comb_at (S r) u f y 0 j B5). cbn [dcox]. fold t. fold n. fold (run (kn t) (S r) n f k z). fold (run (kn t) (S r) n f j y).
    destruct (Rlt_le_dec z y) as [L|G].
    - assert (k <= j)%nat. { destruct (le_lt_dec k j) as [|G]; [auto|]. assert (kn t (S j) <= kn t k) by (apply (p_mono (S r) u Hu); fold t; lia). lra. }
      destruct (run_lines (kn t) (length t) (p_mono (S r) u Hu) r n f ltac:(lia) Inc Hs' (j - k) k j z y) as [Q _]; auto; try lia; lra.
    - assert (j <= k)%nat. { destruct (le_lt_dec j k) as [|G']; [auto|]. assert (kn t (S k) <= kn t j) by (apply (p_mono (S r) u Hu); fold t; lia). lra. }
      destruct (run_lines (kn t) (length t) (p_mono (S r) u Hu) r n f ltac:(lia) Inc Hs' (k - j) j k y z) as [_ Q]; auto; try lia; lra. }
  intros x y s Hx Hy Hs1. rewrite !(expansion_comb (S r) u) by auto. do 3 eexists. split; [reflexivity|]. split; [reflexivity|]. split; [reflexivity|]. fold f.
  assert (D : first_knot u <= s * x + (1 - s) * y <= last_knot u).
  { assert (0 <= s * (x - first_knot u)) by (apply Rmult_le_pos; lra). assert (0 <= (1 - s) * (y - first_knot u)) by (apply Rmult_le_pos; lra).
    assert (0 <= s * (last_knot u - x)) by (apply Rmult_le_pos; lra). assert (0 <= (1 - s) * (last_knot u - y)) by (apply Rmult_le_pos; lra). lra. }
  destruct (Up _ D) as (g & G). assert (G1 := G x Hx). assert (G2 := G y Hy). set (z := s * x + (1 - s) * y) in *.
  assert (E1 := Rmult_le_compat_l s _ _ ltac:(lra) G1). assert (E2 := Rmult_le_compat_l (1 - s) _ _ ltac:(lra) G2).
  assert (g * (s * (x - z) + (1 - s) * (y - z)) = 0) by (unfold z; ring). lra.
Qed.
(* with distinct knots the hypothesis on the knots holds *)
Lemma distinct_knots r u i : knots_ok u -> strictly_increasing u -> (1 <= r)%nat -> (1 <= i < basis_size r (padded r u))%nat -> nth i (padded r u) 0 < nth (i + r) (padded r u) 0.
Proof.
  intros [H2 _] Hs Hr Hi. unfold basis_size in Hi. assert (L := padded_length r u). change (kn (padded r u) i < kn (padded r u) (i + r)).
  rewrite !padded_kn by lia. replace (i + r - r)%nat with i by lia. apply Hs. lia.
Qed.
(* the coefficients of the square on the knots 0, 1, 3 *)
Example C181_example : exists p q, spline_expansion 2 (padded 2 three_knots) [0; 0; 3; 9] [1 / 2] = Ok [p] /\ spline_expansion 2 (padded 2 three_knots) [0; 0; 3; 9] [5 / 2] = Ok [q] /\ p <= q.
Proof.
  destruct three_ok as [H1 H2]. apply (C181_increasing 2 three_knots (padded 2 three_knots) [0; 0; 3; 9] H1 (pad_ok 2 _ H1)); [reflexivity| |cbn; lra|lra|cbn; lra].
  intros i Hi. cbn in Hi. destruct i as [|[|[|i]]]; cbn; try lia; lra.
Qed.
Example C182_example : (forall i, (1 <= i < basis_size 2 (padded 2 three_knots))%nat -> nth i (padded 2 three_knots) 0 < nth (i + 2) (padded 2 three_knots) 0) /\
  exists a b z, spline_expansion 2 (padded 2 three_knots) [0; 0; 3; 9] [1 / 2] = Ok [a] /\ spline_expansion 2 (padded 2 three_knots) [0; 0; 3; 9] [5 / 2] = Ok [b] /\
    spline_expansion 2 (padded 2 three_knots) [0; 0; 3; 9] [1 / 4 * (1 / 2) + (1 - 1 / 4) * (5 / 2)] = Ok [z] /\ z <= 1 / 4 * a + (1 - 1 / 4) * b.
Proof.
  destruct three_ok as [H1 H2]. assert (D : forall i, (1 <= i < basis_size 2 (padded 2 three_knots))%nat -> nth i (padded 2 three_knots) 0 < nth (i + 2) (padded 2 three_knots) 0) by (intros i Hi; apply distinct_knots; auto).
  split; [exact D|]. apply (C182_convex 2 three_knots (padded 2 three_knots) [0; 0; 3; 9] H1 (pad_ok 2 _ H1)); [lia|reflexivity|exact D| |cbn; lra|cbn; lra|lra].
  intros i Hi Hi'. cbn in Hi'. destruct i as [|[|[|i]]]; try lia; unfold control_slope, greville; cbn; lra.
Qed.
Print Assumptions C181_increasing.
Print Assumptions C181_decreasing.
Print Assumptions C182_convex.
