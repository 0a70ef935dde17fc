(* C173-C175: what B-spline expansions can represent and how smooth they are: polynomials, bounds, continuity at the knots. *)
From Coq Require Import Lia Lra Psatz Binomial.
From Coquelicot Require Import Coquelicot.
From Verif Require Import SimplexProps FieldProps FemProps EvalProps QuadProps SolverProps LinAlg FemEnergy MeasureProps FemKernel SplineSolverModel SplineModel SplineProps SplineSolverProps SplineZeros SplineSpace.
Local Close Scope Q_scope.
Local Open Scope R_scope.

(* ------------------------------------------------------------------ specification *)
(* the sum of the products of j entries of a list *)
Fixpoint products (j : nat) (l : list R) : R :=
  match j, l with
  | O, _ => 1
  | S j', x :: l' => x * products j' l' + products j l'
  | S _, [] => 0
  end.
(* the r knots inside the support of basis function i *)
Definition inner_knots (r : nat) (t : list R) (i : nat) : list R := map (fun l => nth (i + 1 + l) t 0) (seq 0 r).
(* their average product of j factors *)
Definition mean_product (r : nat) (t : list R) (i j : nat) : R := products j (inner_knots r t i) / Binomial.C r j.
(* the polynomial of coefficients a *)
Definition poly (a : nat -> R) (r : nat) (x : R) : R := rsum (S r) (fun j => a j * x ^ j).
(* how often x is a knot *)
Definition multiplicity (u : list R) (x : R) : nat := count_occ Req_EM_T u x.

(* ------------------------------------------------------------------ powers *)
Fixpoint bin (n j : nat) : nat := match n, j with _, O => 1%nat | O, S _ => 0%nat | S n', S j' => (bin n' j' + bin n' (S j'))%nat end.
Lemma bin_over n : forall j, (n < j)%nat -> bin n j = 0%nat.
Proof. induction n as [|n IH]; intros [|j] Hj; cbn [bin]; try lia. rewrite !IH by lia. reflexivity. Qed.
Lemma bin_C n : forall j, (j <= n)%nat -> INR (bin n j) = Binomial.C n j.
Proof.
  induction n as [|n IH]; intros [|j] Hj; [|lia| |].
  - unfold Binomial.C. cbn. field.
  - unfold Binomial.C. replace (S n - 0)%nat with (S n) by lia. cbn [bin fact INR]. assert (INR (fact (S n)) <> 0) by (apply not_0_INR, fact_neq_0). cbn [fact] in H. field. exact H.
  - cbn [bin]. rewrite plus_INR. destruct (Nat.eq_dec j n) as [->|].
    + rewrite (bin_over n (S n)) by lia. rewrite IH by lia. unfold Binomial.C. rewrite !Nat.sub_diag. cbn [INR]. pose proof (INR_fact_neq_0 n). pose proof (INR_fact_neq_0 (S n)).
      replace (fact 0) with 1%nat by reflexivity. cbn [INR]. field. auto.
    + rewrite !IH by lia. apply pascal. lia.
Qed.
Lemma products_0 l : products 0 l = 1.
Proof. now destruct l. Qed.
Lemma products_snoc l x : forall j, products (S j) (l ++ [x]) = products (S j) l + x * products j l.
Proof.
  induction l as [|y l IH]; intros j; [destruct j; cbn; ring|]. cbn [app products]. rewrite IH. destruct j as [|j].
  - rewrite !products_0. ring.
  - rewrite IH. cbn [products]. ring.
Qed.
Section Powers.
Variables (t : nat -> R) (len k n : nat).
Hypothesis Hn : (k < n)%nat.
Hypothesis mono : forall i j, (i <= j < len)%nat -> t i <= t j.
Hypothesis Hk : t k < t (S k).
Definition inside (r i : nat) : list R := map (fun l => t (i + 1 + l)%nat) (seq 0 r).
Lemma inside_right j r i : products (S j) (inside (S r) i) = products (S j) (inside r i) + t (i + S r)%nat * products j (inside r i).
Proof. unfold inside. rewrite seq_S, map_app. cbn [map]. rewrite products_snoc. replace (i + 1 + (0 + r))%nat with (i + S r)%nat by lia. reflexivity. Qed.
Lemma inside_left j r i : (1 <= i)%nat -> products (S j) (inside (S r) (i - 1)) = products (S j) (inside r i) + t i * products j (inside r i).
Proof.
  intros Hi. unfold inside. cbn [seq map products]. replace (i - 1 + 1 + 0)%nat with i by lia. rewrite <- seq_shift, map_map.
  rewrite (map_ext (fun l => t (i - 1 + 1 + S l)%nat) (fun l => t (i + 1 + l)%nat)) by (intros; f_equal; lia). ring.
Qed.
Lemma cox_power r : forall j x, (r <= k)%nat -> (k + r + 1 < len)%nat -> rsum n (fun i => products j (inside r i) * cox t (one_at k) r i x) = INR (bin r j) * x ^ j.
Proof.
  induction r as [|r IH]; intros [|j] x Hr Hl.
  - rewrite (rsum_ext n _ (fun i => cox t (one_at k) 0 i x)) by (intros; rewrite products_0; ring). rewrite (cox_partition t len mono k x Hk) by lia. cbn. ring.
  - cbn [bin INR]. rewrite Rmult_0_l. apply rsum_zero. intros i _. cbn. ring.
  - rewrite (rsum_ext n _ (fun i => cox t (one_at k) (S r) i x)) by (intros; rewrite products_0; ring). rewrite (cox_partition t len mono k x Hk) by lia. cbn. ring.
  - set (G := fun i => products (S j) (inside (S r) i)).
    transitivity (rsum n (fun i => (products (S j) (inside r i) + x * products j (inside r i)) * cox t (one_at k) r i x)).
    2:{ rewrite (rsum_ext n _ (fun i => products (S j) (inside r i) * cox t (one_at k) r i x + x * (products j (inside r i) * cox t (one_at k) r i x))) by (intros; ring).
        rewrite rsum_plus, rsum_scal, !IH by lia. cbn [bin pow]. rewrite plus_INR. ring. }
    transitivity (rsum n (fun i => G i * (rc t (S r) i * (x - t i) * cox t (one_at k) r i x)) + rsum n (fun i => G i * (rc t (S r) (i + 1) * (t (i + S r + 1)%nat - x) * cox t (one_at k) r (i + 1) x))).
    { rewrite <- rsum_plus. apply rsum_ext. intros i _. unfold G. cbn [cox]. ring. }
    rewrite (rsum_ext n (fun i => G i * (rc t (S r) (i + 1) * (t (i + S r + 1)%nat - x) * cox t (one_at k) r (i + 1) x))
      (fun i => (fun i => G (i - 1)%nat * (rc t (S r) i * (t (i + S r)%nat - x) * cox t (one_at k) r i x)) (i + 1)%nat)).
    2:{ intros i _. cbv beta. replace (i + 1 - 1)%nat with i by lia. replace (i + 1 + S r)%nat with (i + S r + 1)%nat by lia. reflexivity. }
    rewrite (rsum_shift n (fun i => G (i - 1)%nat * (rc t (S r) i * (t (i + S r)%nat - x) * cox t (one_at k) r i x))). cbn [rsum]. rewrite (cox_zero t k r n), (cox_zero t k r 0) by lia.
    match goal with |- ?A + (?B + ?C - ?D) = ?E => replace (A + (B + C - D)) with (A + B) by ring end.
    rewrite <- rsum_plus. apply rsum_ext. intros i _.
    destruct (le_lt_dec i k) as [L|Gt]; [|rewrite cox_zero by lia; ring]. destruct (Nat.lt_ge_cases k (i + S r)%nat) as [L'|]; [|rewrite cox_zero by lia; ring].
    assert (t i <= t k) by (apply mono; lia). assert (t (S k) <= t (i + S r)%nat) by (apply mono; lia).
    assert (E := rc_mul t (S r) i ltac:(lra)). unfold G. rewrite inside_left by lia. rewrite inside_right.
    set (g := products (S j) (inside r i)). set (h := products j (inside r i)). set (N := cox t (one_at k) r i x). set (q := rc t (S r) i) in *.
    transitivity ((q * (t (i + S r)%nat - t i)) * (g + x * h) * N); [ring|]. rewrite E. ring.
Qed.
End Powers.

(* ------------------------------------------------------------------ C173: polynomials *)
Section Space.
Variables (r : nat) (u : list R).
Hypothesis Hu : knots_ok u.
Local Notation t := (padded r u).
Local Notation m := (basis_size r (padded r u)).
Lemma comb_poly a x : first_knot u <= x <= last_knot u -> comb r u (fun i => rsum (S r) (fun j => a j * mean_product r t i j)) x 0 = poly a r x.
Proof.
  intros Hx. destruct (p_active r u Hu x Hx) as (k & A & B & C & _ & I). rewrite (comb_at r u _ x 0 k I). cbn [dcox].
  rewrite (rsum_ext m _ (fun i => rsum (S r) (fun j => a j / Binomial.C r j * (products j (inside (kn t) r i) * cox (kn t) (one_at k) r i x)))).
  2:{ intros i _. rewrite <- rsum_scal_r. apply rsum_ext. intros j _. unfold mean_product. change (inner_knots r t i) with (inside (kn t) r i). unfold Rdiv. ring. }
  rewrite rsum_swap. apply rsum_ext. intros j Hj. rewrite rsum_scal.
  rewrite (cox_power (kn t) (length t) k m ltac:(unfold basis_size; lia) (p_mono r u Hu) C) by lia. rewrite bin_C by lia. field.
  rewrite <- bin_C by lia. apply not_0_INR. clear - Hj. assert (j <= r)%nat by lia. clear Hj. revert j H. induction r as [|n IH]; intros [|j] H; cbn [bin]; try lia. specialize (IH j ltac:(lia)). lia.
Qed.
End Space.
Theorem C173_polynomials r u t a c : knots_ok u -> pad_knots r u = Ok t -> length c = basis_size r t ->
  (forall i, (i < basis_size r t)%nat -> nth i c 0 = rsum (S r) (fun j => a j * mean_product r t i j)) ->
  forall x, first_knot u <= x <= last_knot u -> spline_expansion r t c [x] = Ok [poly a r x].
Proof.
  intros Hu Et Hc H x Hx. rewrite (pad_ok r u Hu) in Et. injection Et as <-. rewrite (expansion_comb r u) by auto. do 2 f_equal.
  rewrite <- (comb_poly r u Hu a x Hx). unfold comb. apply rsum_ext. intros i Hi. now rewrite H.
Qed.
(* and no other coefficients give the polynomial *)
Theorem C173_only r u t a c : knots_ok u -> pad_knots r u = Ok t -> supports r t -> length c = basis_size r t ->
  (forall x, first_knot u <= x <= last_knot u -> spline_expansion r t c [x] = Ok [poly a r x]) ->
  forall i, (i < basis_size r t)%nat -> nth i c 0 = rsum (S r) (fun j => a j * mean_product r t i j).
Proof.
  intros Hu Et Hs Hc H i Hi. set (g := fun i => rsum (S r) (fun j => a j * mean_product r t i j)). set (d := map g (seq 0 (basis_size r t))).
  assert (Hd : length d = basis_size r t) by (unfold d; now rewrite map_length, seq_length).
  assert (Nd : forall i, (i < basis_size r t)%nat -> nth i d 0 = g i).
  { intros j Hj. unfold d. rewrite (nth_indep _ 0 (g 0%nat)) by (rewrite map_length, seq_length; auto). rewrite map_nth, seq_nth by auto. reflexivity. }
  rewrite (proj1 (C159_independent r u t Hu Et) Hs c d Hc Hd); [now apply Nd|]. intros x Hx. rewrite H by auto. symmetry. now apply (C173_polynomials r u t a d).
Qed.

(* ------------------------------------------------------------------ C174: bounds *)
(* between two consecutive knots the spline stays between the smallest and the largest of r + 1 coefficients *)
Theorem C174_local_bounds r u t c k x lo hi : knots_ok u -> pad_knots r u = Ok t -> length c = basis_size r t ->
  (k + 1 < length t)%nat -> nth k t 0 < x < nth (S k) t 0 -> (forall i, (k <= i + r)%nat -> (i <= k)%nat -> lo <= nth i c 0 <= hi) ->
  exists y, spline_expansion r t c [x] = Ok [y] /\ lo <= y <= hi.
Proof.
  intros Hu Et Hc Hk Hx H. rewrite (pad_ok r u Hu) in Et. injection Et as <-. rewrite (expansion_comb r u) by auto. eexists. split; [reflexivity|].
  destruct (p_active_at r u Hu x k Hk Hx) as (A & B & I). rewrite (comb_at r u _ x 0 k I). cbn [dcox]. set (t := padded r u) in *.
  assert (G : kn t k < kn t (S k)) by (unfold kn; lra).
  assert (One := cox_partition (kn t) (length t) (p_mono r u Hu) k x G r (basis_size r t) A ltac:(unfold basis_size; lia) ltac:(lia)).
  assert (Pos : forall i, (i < basis_size r t)%nat -> 0 <= cox (kn t) (one_at k) r i x).
  { intros i Hi. assert (Hx2 : kn t k <= x <= kn t (S k)) by (unfold kn; lra). apply (cox_nonneg _ _ (p_mono r u Hu) k x Hx2). unfold basis_size in Hi. fold t. lia. }
  split.
  - rewrite <- (Rmult_1_r lo), <- One, <- rsum_scal. apply rsum_le. intros i Hi. destruct (le_lt_dec i k) as [L|]; [|rewrite cox_zero by lia; lra].
    destruct (le_lt_dec k (i + r)) as [L'|]; [|rewrite cox_zero by lia; lra]. apply Rmult_le_compat_r; [auto|]. apply H; auto.
  - rewrite <- (Rmult_1_r hi), <- One, <- rsum_scal. apply rsum_le. intros i Hi. destruct (le_lt_dec i k) as [L|]; [|rewrite cox_zero by lia; lra].
    destruct (le_lt_dec k (i + r)) as [L'|]; [|rewrite cox_zero by lia; lra]. apply Rmult_le_compat_r; [auto|]. apply H; auto.
Qed.
Theorem C174_bounds r u t c x lo hi : knots_ok u -> pad_knots r u = Ok t -> length c = basis_size r t -> first_knot u <= x <= last_knot u ->
  (forall y, In y c -> lo <= y <= hi) -> exists y, spline_expansion r t c [x] = Ok [y] /\ lo <= y <= hi.
Proof.
  intros Hu Et Hc Hx H. rewrite (pad_ok r u Hu) in Et. injection Et as <-. rewrite (expansion_comb r u) by auto. eexists. split; [reflexivity|].
  destruct (p_active r u Hu x Hx) as (k & A & B & G & D & I). rewrite (comb_at r u _ x 0 k I). cbn [dcox]. set (t := padded r u) in *.
  assert (One := cox_partition (kn t) (length t) (p_mono r u Hu) k x G r (basis_size r t) A ltac:(unfold basis_size; lia) ltac:(lia)).
  assert (Pos : forall i, (i < basis_size r t)%nat -> 0 <= cox (kn t) (one_at k) r i x).
  { intros i Hi. apply (cox_nonneg _ _ (p_mono r u Hu) k x D). unfold basis_size in Hi. fold t. lia. }
  assert (Hc' : forall i, (i < basis_size r t)%nat -> lo <= nth i c 0 <= hi) by (intros i Hi; apply H, nth_In; lia).
  split; [rewrite <- (Rmult_1_r lo)|rewrite <- (Rmult_1_r hi)]; rewrite <- One, <- rsum_scal; apply rsum_le; intros i Hi; apply Rmult_le_compat_r; auto; now apply Hc'.
Qed.

(* ------------------------------------------------------------------ C175: smoothness *)
(* where m knots coincide the pieces on both sides agree from degree m on *)
Lemma join_left t k m r : t k < t (S k) -> (forall i, (1 <= i <= m)%nat -> t (k + i)%nat = t (S k)) -> (r <= m)%nat -> forall i, cox t (one_at k) r i (t (S k)) = one_at k i.
Proof.
  intros Hk Hm. induction r as [|r IH]; intros Hr i; [reflexivity|]. cbn [cox]. rewrite !IH by lia.
  destruct (Nat.eq_dec i k) as [->|N1].
  - rewrite one_at_same, one_at_other by lia. assert (E := Hm (S r) ltac:(lia)). assert (E1 := rc_mul t (S r) k ltac:(rewrite E; lra)). rewrite E in E1. lra.
  - rewrite (one_at_other k i) by auto. destruct (Nat.eq_dec (i + 1) k) as [N2|N2]; [|rewrite (one_at_other k (i + 1)) by auto; ring].
    replace (i + S r + 1)%nat with (k + S r)%nat by lia. rewrite Hm by lia. ring.
Qed.
Lemma join_right t k m r : (forall i, (1 <= i <= m)%nat -> t (k + i)%nat = t (S k)) -> t (S k) < t (k + m + 1)%nat -> (1 <= r <= m)%nat ->
  forall i, cox t (one_at (k + m)) r i (t (S k)) = one_at (k + m - r) i.
Proof.
  intros Hm Hk. induction r as [|r IH]; intros Hr i; [lia|]. cbn [cox].
  assert (J : forall i, cox t (one_at (k + m)) r i (t (S k)) = one_at (k + m - r) i).
  { destruct r as [|r']; [intros j; cbn [cox]; now rewrite Nat.sub_0_r|]. apply IH. lia. }
  rewrite !J. assert (E := Hm (m - r)%nat ltac:(lia)). replace (k + (m - r))%nat with (k + m - r)%nat in E by lia.
  destruct (Nat.eq_dec (i + 1) (k + m - r)) as [N1|N1].
  - rewrite <- N1, one_at_same. rewrite (one_at_other (i + 1) i) by lia. replace (k + m - S r)%nat with i by lia. rewrite one_at_same.
    replace (i + S r + 1)%nat with (k + m + 1)%nat by lia. replace (i + 1)%nat with (k + m - r)%nat by lia.
    assert (E1 := rc_mul t (S r) (k + m - r) ltac:(replace (k + m - r + S r)%nat with (k + m + 1)%nat by lia; rewrite E; lra)).
    replace (k + m - r + S r)%nat with (k + m + 1)%nat in E1 by lia. rewrite E in E1. lra.
  - rewrite (one_at_other _ (i + 1)) by auto. rewrite (one_at_other (k + m - S r) i) by lia.
    destruct (Nat.eq_dec i (k + m - r)) as [->|N2]; [rewrite E; ring|rewrite one_at_other by auto; ring].
Qed.
Lemma cox_joins t k m r : (1 <= m)%nat -> t k < t (S k) -> (forall i, (1 <= i <= m)%nat -> t (k + i)%nat = t (S k)) -> t (S k) < t (k + m + 1)%nat -> (m <= r)%nat ->
  forall i, cox t (one_at k) r i (t (S k)) = cox t (one_at (k + m)) r i (t (S k)).
Proof.
  intros H1 Hk Hm Hk' Hr. induction Hr as [|r Hr IH]; intros i.
  - rewrite (join_left t k m m Hk Hm (Nat.le_refl m)), (join_right t k m m Hm Hk' ltac:(lia)). f_equal. lia.
  - cbn [cox]. now rewrite !IH.
Qed.
Lemma dcox_joins t k m K : forall r, (1 <= m)%nat -> t k < t (S k) -> (forall i, (1 <= i <= m)%nat -> t (k + i)%nat = t (S k)) -> t (S k) < t (k + m + 1)%nat -> (K + m <= r)%nat ->
  forall i, dcox t (one_at k) K r i (t (S k)) = dcox t (one_at (k + m)) K r i (t (S k)).
Proof.
  induction K as [|K IH]; intros r H1 Hk Hm Hk' Hr i; [cbn [dcox]; now apply cox_joins|]. destruct r as [|r]; [lia|]. cbn [dcox]. rewrite !IH by (auto; lia). reflexivity.
Qed.
(* the knots around a point *)
Lemma split_below (t : nat -> R) len x : (forall i j, (i <= j < len)%nat -> t i <= t j) -> t 0%nat < x ->
  forall n, (n < len)%nat -> t n <= x -> exists j m, n = (j + m)%nat /\ t j < x /\ forall i, (1 <= i <= m)%nat -> t (j + i)%nat = x.
Proof.
  intros Hm H0. induction n as [|n IH]; intros Hn Hx.
  - exists 0%nat, 0%nat. split; [auto|]. split; [auto|]. intros; lia.
  - destruct (Rlt_le_dec (t (S n)) x) as [L|G]; [exists (S n), 0%nat; split; [lia|]; split; [auto|intros; lia]|].
    destruct IH as (j & m & E & L & H); [lia|assert (t n <= t (S n)) by (apply Hm; lia); lra|]. exists j, (S m). split; [lia|]. split; [auto|].
    intros i Hi. destruct (Nat.eq_dec i (S m)) as [->|]; [replace (j + S m)%nat with (S n) by lia; lra|apply H; lia].
Qed.
Lemma split_at (t : nat -> R) len x : (forall i j, (i <= j < len)%nat -> t i <= t j) -> t 0%nat < x -> forall n, (n < len)%nat -> x < t n ->
  exists j m, (j + m + 1 <= n)%nat /\ t j < x /\ (forall i, (1 <= i <= m)%nat -> t (j + i)%nat = x) /\ x < t (j + m + 1)%nat.
Proof.
  intros Hm H0. induction n as [|n IH]; intros Hn Hx; [lra|]. destruct (Rlt_le_dec x (t n)) as [L|G].
  - destruct IH as (j & m & A & B); [lia|auto|]. exists j, m. split; [lia|auto].
  - destruct (split_below t len x Hm H0 n ltac:(lia) G) as (j & m & E & L & H). exists j, m. split; [lia|]. split; [auto|]. split; [auto|]. replace (j + m + 1)%nat with (S n) by lia. auto.
Qed.
Lemma multiplicity_ge l : forall x i n, (forall j, (j < n)%nat -> (i + j < length l)%nat /\ nth (i + j) l 0 = x) -> (n <= multiplicity l x)%nat.
Proof.
  unfold multiplicity. induction l as [|y l IH]; intros x i [|n] H; try lia; [destruct (H 0%nat ltac:(lia)); cbn in *; lia|]. destruct i as [|i].
  - assert (E := proj2 (H 0%nat ltac:(lia))). cbn in E. rewrite count_occ_cons_eq by auto. apply le_n_S. apply (IH x 0%nat). intros j Hj. destruct (H (S j) ltac:(lia)) as [A B]. cbn in A, B. cbn. split; [lia|auto].
  - assert (G : (S n <= count_occ Req_EM_T l x)%nat) by (apply (IH x i); intros j Hj; destruct (H j Hj) as [A B]; cbn in A, B; split; [lia|auto]). cbn [count_occ]. destruct (Req_EM_T y x); lia.
Qed.
Lemma continuous_two (f1 f2 : R -> R) (a : R) : f1 a = f2 a -> continuous f1 a -> continuous f2 a -> continuous (fun x : R => if Rle_dec x a then f1 x else f2 x) a.
Proof.
  intros E C1 C2. apply filterlim_locally. intros eps. destruct (Rle_dec a a) as [_|]; [|lra].
  assert (D1 := proj1 (filterlim_locally _ _) C1 eps). assert (D2 := proj1 (filterlim_locally _ _) C2 eps). 
  apply (filter_imp (fun x => ball (f1 a) eps (f1 x) /\ ball (f2 a) eps (f2 x))); [|now apply filter_and].
  intros x [B1 B2]. destruct (Rle_dec x a); [auto|now rewrite E].
Qed.
(* basis function i and its derivatives at any point inside the domain, by the number of knots there *)
Theorem C175_smooth r u t K i : knots_ok u -> pad_knots r u = Ok t -> (i < basis_size r t)%nat -> (K < r)%nat ->
  exists f f' : R -> R, (forall y, derive r t K r i y = Ok (f y)) /\ (forall y, derive r t (S K) r i y = Ok (f' y)) /\
    forall x, first_knot u < x < last_knot u ->
      ((K + multiplicity u x <= r)%nat -> continuous f x) /\
      ((S K + multiplicity u x <= r)%nat -> is_derive f x (f' x)).
Proof.
  intros Hu Ht Hi HK. rewrite (pad_ok r u Hu) in Ht. injection Ht as <-.
  pose proof (p_len r u Hu) as PL. assert (Hi' : (i + r + 1 < length (padded r u))%nat) by (unfold basis_size in Hi; lia).
  set (t := padded r u) in *. set (F := fun K y => dcox (kn t) (fun j => ind (kn t) (length t) r j y) K r i y).
  exists (F K), (F (S K)). split; [intros y; apply derive_ok; lia|]. split; [intros y; apply derive_ok; lia|]. intros x Hx.
  destruct (split_at (kn t) (length t) x (p_mono r u Hu)) with (n := (length t - 1)%nat) as (k & m & A & B & Hm & C).
  { unfold t. rewrite (p_first r u Hu). lra. } { fold t. lia. } { unfold t. rewrite (p_last r u Hu). lra. }
  assert (M : (m <= multiplicity u x)%nat).
  { apply (multiplicity_ge u x (k + 1 - r)). intros j Hj. assert (E := Hm (S j) ltac:(lia)). unfold t in E. rewrite padded_kn in E by (fold t; lia).
    assert (N1 : (k + S j - r <> 0)%nat) by (intros Z; rewrite Z in E; cbn [Nat.min] in E; unfold first_knot in Hx; lra).
    assert (N2 : (k + S j - r < length u - 1)%nat) by (destruct (le_lt_dec (length u - 1) (k + S j - r)); [rewrite Nat.min_r in E by auto; unfold last_knot in Hx; lra|auto]).
    rewrite Nat.min_l in E by lia. destruct j as [|j].
    - replace (k + 1 - r + 0)%nat with (k + 1 - r)%nat by lia. split; [lia|auto].
    - assert (E0 := Hm 1%nat ltac:(lia)). unfold t in E0. rewrite padded_kn in E0 by (fold t; lia).
      assert (k + 1 - r <> 0)%nat by (intros Z; rewrite Z in E0; cbn [Nat.min] in E0; unfold first_knot in Hx; lra).
      replace (k + 1 - r + S j)%nat with (k + S (S j) - r)%nat by lia. split; [lia|auto]. }
  set (f1 := fun K y => dcox (kn t) (one_at k) K r i y). set (f2 := fun K y => dcox (kn t) (one_at (k + m)) K r i y).
  (* the two sides *)
  assert (Lo : forall K y, kn t k < y < x -> F K y = f1 K y).
  { intros K' y Hy. assert (x <= kn t (S k)) by (destruct m; [replace (k + 0 + 1)%nat with (S k) in C by lia; lra|right; symmetry; replace (S k) with (k + 1)%nat by lia; apply Hm; lia]).
    destruct (p_active_at r u Hu y k ltac:(fold t; lia) ltac:(fold t; lra)) as (_ & _ & G). unfold F, f1. apply dcox_ext. intros j Hj. apply G. fold t. lia. }
  assert (Hi2 : forall K y, x < y < kn t (k + m + 1) -> F K y = f2 K y).
  { intros K' y Hy. assert (kn t (k + m) <= x) by (destruct m; [replace (k + 0)%nat with k by lia; lra|right; apply Hm; lia]).
    destruct (p_active_at r u Hu y (k + m) ltac:(fold t; lia) ltac:(fold t; replace (S (k + m)) with (k + m + 1)%nat by lia; lra)) as (_ & _ & G). unfold F, f2. apply dcox_ext. intros j Hj. apply G. fold t. lia. }
  assert (J : forall K, (K + m <= r)%nat -> f1 K x = f2 K x).
  { intros K' HK'. unfold f1, f2. destruct m as [|m]; [replace (k + 0)%nat with k by lia; reflexivity|]. rewrite <- (Hm 1%nat) by lia. replace (k + 1)%nat with (S k) by lia.
    apply dcox_joins; auto; [lia| | |].
    - replace (S k) with (k + 1)%nat by lia. rewrite Hm by lia. auto.
    - intros j Hj. rewrite Hm by lia. replace (S k) with (k + 1)%nat by lia. rewrite Hm by lia. reflexivity.
    - replace (S k) with (k + 1)%nat by lia. rewrite Hm by lia. auto. }
  assert (At : forall K, (K + m <= r)%nat -> F K x = f1 K x).
  { intros K' HK'. destruct (p_active r u Hu x ltac:(lra)) as (k' & _ & A2 & A3 & A4 & A5). fold t in A2, A3, A4, A5.
    assert (E : F K' x = dcox (kn t) (one_at k') K' r i x) by (unfold F; apply dcox_ext; intros j Hj; apply A5; lia). rewrite E.
    assert (Hk : k' = k \/ k' = (k + m)%nat).
    { destruct (Rlt_le_dec (kn t k') x) as [L|G].
      - left. assert (~ (k' < k)%nat) by (intros W; assert (kn t (S k') <= kn t k) by (apply (p_mono r u Hu); fold t; lia); lra).
        assert (~ (k < k')%nat); [intros W|lia]. destruct (le_lt_dec k' (k + m)) as [W'|W'].
        + assert (kn t k' = x) by (replace k' with (k + (k' - k))%nat by lia; apply Hm; lia). lra.
        + assert (kn t (k + m + 1) <= kn t k') by (apply (p_mono r u Hu); fold t; lia). lra.
      - right. assert (~ (k + m < k')%nat) by (intros W; assert (kn t (k + m + 1) <= kn t k') by (apply (p_mono r u Hu); fold t; lia); lra).
        assert (~ (k' < k + m)%nat); [intros W|lia]. destruct (le_lt_dec k' k) as [W'|W'].
        + assert (kn t k' <= kn t k) by (apply (p_mono r u Hu); fold t; lia). lra.
        + assert (kn t (S k') = x) by (replace (S k') with (k + (S k' - k))%nat by lia; apply Hm; lia). lra. }
    destruct Hk as [->| ->]; [reflexivity|]. symmetry. now apply J. }
  assert (Loc : forall K, (K + m <= r)%nat -> locally x (fun y : R => (if Rle_dec y x then f1 K y else f2 K y) = F K y)).
  { intros K' HK'. assert (HP : 0 < Rmin (x - kn t k) (kn t (k + m + 1) - x)) by (apply Rmin_pos; lra). exists (mkposreal _ HP). intros y Hy.
    unfold ball in Hy. cbn in Hy. unfold AbsRing_ball, abs, minus, plus, opp in Hy. cbn in Hy.
    apply Rabs_def2 in Hy. pose proof (Rmin_l (x - kn t k) (kn t (k + m + 1) - x)). pose proof (Rmin_r (x - kn t k) (kn t (k + m + 1) - x)).
    destruct (Rle_dec y x) as [L|G]; [|symmetry; apply Hi2; lra]. destruct L as [L| ->]; [symmetry; apply Lo; lra|symmetry; now apply At]. }
  assert (D : forall k, is_derive (fun y => dcox (kn t) (one_at k) K r i y) x (dcox (kn t) (one_at k) (S K) r i x)) by (intros k'; apply (dcox_derive (kn t) (length t) (p_mono r u Hu)); auto).
  split; intros HM.
  - apply (continuous_ext_loc _ _ x (Loc K ltac:(lia))). apply continuous_two; [apply J; lia| |].
    + apply (ex_derive_continuous (f1 K)). eexists. apply D.
    + apply (ex_derive_continuous (f2 K)). eexists. apply D.
  - apply (is_derive_ext_loc _ _ x _ (Loc K ltac:(lia))). apply glue_two; [apply J; lia| |].
    + rewrite At by lia. apply D.
    + rewrite At, J by lia. apply D.
Qed.

(* the square on three knots; a double knot *)
Example C173_example : exists t, pad_knots 2 three_knots = Ok t /\ supports 2 t /\ forall x, 0 <= x <= 3 -> spline_expansion 2 t [0; 0; 3; 9] [x] = Ok [x * x].
Proof.
  destruct three_ok as [H1 H2]. exists (padded 2 three_knots). split; [now apply pad_ok|]. split; [exact (C159_supports 2 three_knots _ H1 H2 (pad_ok 2 _ H1))|]. intros x Hx.
  rewrite (C173_polynomials 2 three_knots (padded 2 three_knots) (fun j => if (j =? 2)%nat then 1 else 0) [0; 0; 3; 9] H1 (pad_ok 2 _ H1)).
  - unfold poly. cbn. do 2 f_equal. ring.
  - reflexivity.
  - change (basis_size 2 (padded 2 three_knots)) with 4%nat. intros i Hi. unfold mean_product, inner_knots, Binomial.C. destruct i as [|[|[|[|i]]]]; try lia; cbn; field.
  - unfold first_knot, last_knot, three_knots. cbn. lra.
Qed.
Example C174_example : exists y, spline_expansion 2 (padded 2 three_knots) [1; 2; 0; 5] [1 / 2] = Ok [y] /\ 0 <= y <= 2.
Proof.
  destruct three_ok as [H1 _]. apply (C174_local_bounds 2 three_knots (padded 2 three_knots) [1; 2; 0; 5] 2 (1 / 2) 0 2 H1 (pad_ok 2 _ H1)); [reflexivity|cbn; lia|cbn; lra|].
  intros i Hi Hi'. destruct i as [|[|[|i]]]; cbn; try lia; lra.
Qed.
Definition double_knot : list R := [0; 1; 1; 3].
Example C175_example : knots_ok double_knot /\ multiplicity double_knot 1 = 2%nat /\ multiplicity double_knot 2 = 0%nat /\
  exists t f f', pad_knots 3 double_knot = Ok t /\ (forall y, derive 3 t 0 3 2 y = Ok (f y)) /\ (forall y, derive 3 t 1 3 2 y = Ok (f' y)) /\ is_derive f 1 (f' 1).
Proof.
  assert (H : knots_ok double_knot).
  { unfold knots_ok, tol, double_knot. split; [cbn; lia|]. split; [|cbn; lra]. intros i j H. cbn in H. destruct i as [|[|[|[|i]]]], j as [|[|[|[|j]]]]; cbn; try lia; lra. }
  assert (M : multiplicity double_knot 1 = 2%nat) by (unfold multiplicity, double_knot; cbn; repeat (destruct (Req_EM_T _ _); try lra); reflexivity).
  split; [exact H|]. split; [exact M|]. split; [unfold multiplicity, double_knot; cbn; repeat (destruct (Req_EM_T _ _); try lra); reflexivity|].
  destruct (C175_smooth 3 double_knot (padded 3 double_knot) 0 2 H (pad_ok 3 _ H)) as (f & f' & A & B & C); [cbn; lia|lia|].
  exists (padded 3 double_knot), f, f'. split; [now apply pad_ok|]. split; [exact A|]. split; [exact B|]. apply C; [unfold first_knot, last_knot, double_knot; cbn; lra|]. rewrite M. lia.
Qed.
Print Assumptions C173_polynomials.
Print Assumptions C173_only.
Print Assumptions C174_local_bounds.
Print Assumptions C174_bounds.
Print Assumptions C175_smooth.
