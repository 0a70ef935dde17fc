(* C207: BFGS with the Wolfe line search on strongly convex objectives. *)
From Coq Require Import Lia Lra Psatz.
From Verif Require Import Base RSum SimplexModel SimplexProps HyperProps OptModel OptProps LineSearchProps OptConv OptWolfe.

(* ---- specification ---- *)
Definition strongly_monotone (N : nat) (grad : vec -> vec) (mu : R) : Prop :=
  forall x y, mu * dot N (vsub y x) (vsub y x) <= dot N (vsub (grad y) (grad x)) (vsub y x).

(* ---- determinants of positive definite matrices, by elimination of the last row and column ---- *)
Notation matrix := (nat -> nat -> R).
Definition schur (k : nat) (B : matrix) : matrix := fun i j => B i j - B i k * B j k / B k k.
Fixpoint sdet (n : nat) (B : matrix) : R := match n with O => 1 | S k => B k k * sdet k (schur k B) end.
Definition trace (n : nat) (B : matrix) : R := rsum n (fun i => B i i).
Definition rank1 (B : matrix) (t : R) (v : vec) : matrix := fun i j => B i j + t * (v i * v j).

Lemma mulv_S k B x i : mulv (S k) B x i = mulv k B x i + B i k * x k.
Proof. reflexivity. Qed.
Lemma dot_S k a b : dot (S k) a b = dot k a b + a k * b k.
Proof. reflexivity. Qed.
Lemma mulv_ext n B B' x x' i : (forall j, (j < n)%nat -> B i j = B' i j) -> (forall j, (j < n)%nat -> x j = x' j) -> mulv n B x i = mulv n B' x' i.
Proof. intros H H'. apply rsum_ext. intros j Hj. now rewrite H, H'. Qed.
Lemma quad_ext n B B' x x' : (forall i j, (i < n)%nat -> (j < n)%nat -> B i j = B' i j) -> (forall j, (j < n)%nat -> x j = x' j) -> quad n B x = quad n B' x'.
Proof. intros H H'. unfold quad. apply dot_ext; auto. intros r Hr. apply mulv_ext; auto. Qed.
Lemma sdet_ext n : forall B B', (forall i j, (i < n)%nat -> (j < n)%nat -> B i j = B' i j) -> sdet n B = sdet n B'.
Proof.
  induction n as [|k IH]; intros B B' H; cbn [sdet]; auto. rewrite H by lia. f_equal. apply IH. intros i j Hi Hj. unfold schur. now rewrite !H by lia.
Qed.
Lemma schur_mulv k B x i : mulv k (schur k B) x i = mulv k B x i - B i k * rsum k (fun j => B j k * x j) / B k k.
Proof.
  unfold mulv, schur. rewrite (rsum_ext k _ (fun j => B i j * x j - B i k / B k k * (B j k * x j))) by (intros; unfold Rdiv; ring). rewrite rsum_minus, rsum_scal. unfold Rdiv. ring.
Qed.
Lemma schur_sym k B : symmetric (S k) B -> symmetric k (schur k B).
Proof. intros H i j Hi Hj. unfold schur. rewrite (H i j) by lia. unfold Rdiv. ring. Qed.
Lemma pivot_pos k B : positive_definite (S k) B -> 0 < B k k.
Proof.
  intros H. specialize (H (fun j => if Nat.eqb j k then 1 else 0)). unfold quad in H. rewrite dot_S, mulv_S, Nat.eqb_refl in H.
  assert (Z : forall f : nat -> R, rsum k (fun j => f j * (if Nat.eqb j k then 1 else 0)) = 0).
  { intros f. apply rsum_zero. intros j Hj. replace (Nat.eqb j k) with false by (symmetry; apply Nat.eqb_neq; lia). ring. }
  unfold mulv at 1 2 in H. rewrite Z in H. unfold dot in H. rewrite rsum_zero in H.
  - assert (0 < 0 + 1 * (0 + B k k * 1)); [|lra]. apply H. exists k. rewrite Nat.eqb_refl. split; [lia|lra].
  - intros j Hj. replace (Nat.eqb j k) with false by (symmetry; apply Nat.eqb_neq; lia). ring.
Qed.
Lemma schur_quad k B z : symmetric (S k) B -> B k k <> 0 ->
  quad k (schur k B) z = quad (S k) B (fun j => if Nat.eqb j k then - rsum k (fun j => B j k * z j) / B k k else z j).
Proof.
  intros Hs Hp. set (b := rsum k (fun j => B j k * z j)). set (z' := fun j => _). assert (Ez : z' k = - b / B k k) by (unfold z'; now rewrite Nat.eqb_refl).
  assert (El : forall j, (j < k)%nat -> z' j = z j) by (intros j Hj; unfold z'; replace (Nat.eqb j k) with false by (symmetry; apply Nat.eqb_neq; lia); auto).
  unfold quad. rewrite dot_S, mulv_S, Ez.
  assert (Ek : mulv k B z' k = b). { unfold mulv, b. apply rsum_ext. intros j Hj. rewrite El, (Hs k j) by lia. ring. }
  rewrite Ek. replace (- b / B k k * (b + B k k * (- b / B k k))) with 0 by (field; auto). rewrite Rplus_0_r. apply dot_ext; [intros; now rewrite El|].
  intros i Hi. rewrite schur_mulv, mulv_S, Ez. fold b. rewrite (mulv_ext k B B z' z) by auto. field. auto.
Qed.
Lemma schur_pd k B : symmetric (S k) B -> positive_definite (S k) B -> positive_definite k (schur k B).
Proof.
  intros Hs Hp z (r & Hr & Hz). assert (P := pivot_pos k B Hp). rewrite schur_quad by (auto; lra). apply Hp. exists r. split; [lia|]. replace (Nat.eqb r k) with false by (symmetry; apply Nat.eqb_neq; lia). auto.
Qed.
Lemma sdet_pos n : forall B, symmetric n B -> positive_definite n B -> 0 < sdet n B.
Proof. induction n as [|k IH]; intros B Hs Hp; cbn [sdet]; [lra|]. apply Rmult_lt_0_compat; [now apply pivot_pos|]. apply IH; [now apply schur_sym|now apply schur_pd]. Qed.
(* the determinant is at most exp (trace - n) *)
Lemma sdet_trace n : forall B, symmetric n B -> positive_definite n B -> sdet n B <= exp (trace n B - INR n).
Proof.
  induction n as [|k IH]; intros B Hs Hp.
  - cbn. rewrite Rminus_0_r, exp_0. lra.
  - cbn [sdet]. assert (P := pivot_pos k B Hp). assert (Hs' := schur_sym k B Hs). assert (Hp' := schur_pd k B Hs Hp). specialize (IH _ Hs' Hp'). assert (P' := sdet_pos k _ Hs' Hp').
    assert (T : trace k (schur k B) <= trace k B).
    { unfold trace. apply rsum_le. intros i Hi. unfold schur. assert (0 <= B i k * B i k / B k k); [|lra]. apply Rmult_le_pos; [nra|]. left. now apply Rinv_0_lt_compat. }
    assert (E1 := exp_ineq1_le (B k k - 1)). assert (E2 : sdet k (schur k B) <= exp (trace k B - INR k)). { apply Rle_trans with (1 := IH). destruct T as [T|T]; [left; apply exp_increasing; lra|rewrite T; lra]. }
    unfold trace. cbn [rsum]. rewrite S_INR. fold (trace k B). replace (trace k B + B k k - (INR k + 1)) with (B k k - 1 + (trace k B - INR k)) by ring. rewrite exp_plus. apply Rmult_le_compat; lra.
Qed.
(* the determinant of a rank one update, x solving B x = v *)
Lemma sdet_rank1 n : forall B t v x, symmetric n B -> positive_definite n B -> positive_definite n (rank1 B t v) ->
  (forall i, (i < n)%nat -> mulv n B x i = v i) -> sdet n (rank1 B t v) = sdet n B * (1 + t * dot n v x).
Proof.
  induction n as [|k IH]; intros B t v x Hs Hp Hp' Hx.
  - cbn. unfold dot. cbn. ring.
  - assert (P := pivot_pos k B Hp). assert (P' := pivot_pos k _ Hp'). unfold rank1 in P'. set (d := B k k) in *. set (w := v k) in *.
    assert (Hs' : symmetric (S k) (rank1 B t v)) by (intros i j Hi Hj; unfold rank1; rewrite (Hs i j) by auto; ring).
    set (z := fun i => v i - w / d * B i k). set (t' := t * d / (d + t * (w * w))).
    assert (E : forall i j, schur k (rank1 B t v) i j = rank1 (schur k B) t' z i j).
    { intros i j. unfold schur, rank1, t', z. fold d w. field. split; lra. }
    cbn [sdet]. rewrite (sdet_ext k _ (rank1 (schur k B) t' z)) by auto. unfold rank1 at 1. fold d w. set (b := rsum k (fun j => B j k * x j)).
    assert (Ek : b + d * x k = w). { unfold w. rewrite <- (Hx k) by lia. rewrite mulv_S. fold d. f_equal. unfold mulv, b. apply rsum_ext. intros j Hj. rewrite (Hs k j) by lia. ring. }
    rewrite (IH (schur k B) t' z x).
    + rewrite dot_S. fold w. assert (Ez : dot k z x = dot k v x - w / d * b). { unfold dot, z, b. rewrite <- rsum_scal, <- rsum_minus. apply rsum_ext. intros. ring. }
      rewrite Ez. unfold t'. replace (x k) with ((w - b) / d) by (rewrite <- Ek; field; lra). field. split; lra.
    + now apply schur_sym.
    + now apply schur_pd.
    + intros u Hu. rewrite (quad_ext k _ (schur k (rank1 B t v)) u u) by auto. exact (schur_pd k _ Hs' Hp' u Hu).
    + intros i Hi. rewrite schur_mulv. fold d b. assert (Ei := Hx i ltac:(lia)). rewrite mulv_S in Ei. unfold z. rewrite <- Ei. replace w with (b + d * x k) by auto. field. lra.
Qed.

(* ---- the matrix BFGS approximates, as a ghost: the inverse of the matrix the code keeps ---- *)
Section Ghost.
Variable N : nat.
Definition next (B : matrix) (s y : vec) : matrix := rank1 (rank1 B (/ dot N y s) y) (- / quad N B s) (mulv N B s).
Definition inverse (B H : matrix) : Prop := forall x i, (i < N)%nat -> mulv N H (mulv N B x) i = x i.
Lemma rank1_mulv B t v x i : mulv N (rank1 B t v) x i = mulv N B x i + t * v i * dot N v x.
Proof.
  unfold mulv, rank1, dot. rewrite (rsum_ext N _ (fun j => B i j * x j + t * v i * (v j * x j))) by (intros; ring). rewrite rsum_plus, rsum_scal. reflexivity.
Qed.
Lemma rank1_quad B t v x : quad N (rank1 B t v) x = quad N B x + t * (dot N v x * dot N v x).
Proof.
  unfold quad. rewrite (dot_ext N x x _ (vadd (mulv N B x) (vscale (t * dot N v x) v))); auto.
  - rewrite dot_comm, dot_add_l, dot_scale_l, dot_comm. ring.
  - intros r Hr. rewrite rank1_mulv. unfold vadd, vscale. ring.
Qed.
Lemma rank1_sym B t v : symmetric N B -> symmetric N (rank1 B t v).
Proof. intros H i j Hi Hj. unfold rank1. rewrite (H i j) by auto. ring. Qed.
Lemma quad_nonneg B u : positive_definite N B -> 0 <= quad N B u.
Proof.
  intros HP. destruct (classic_nonzero N u) as [H|H]; [left; now apply HP|]. right. unfold quad, dot. symmetry. apply rsum_zero. intros i Hi. rewrite H by auto. ring.
Qed.
Lemma mulv_zero B u i : (forall j, (j < N)%nat -> u j = 0) -> mulv N B u i = 0.
Proof. intros H. apply rsum_zero. intros j Hj. rewrite H by auto. ring. Qed.
Lemma inverse_pd B H : symmetric N H -> positive_definite N H -> inverse B H -> positive_definite N B.
Proof.
  intros Hs Hp HI z (r & Hr & Hz). assert (E : quad N B z = quad N H (mulv N B z)).
  { unfold quad. rewrite (dot_ext N (mulv N B z) (mulv N B z) _ z) by auto. apply dot_comm. }
  rewrite E. apply Hp. destruct (classic_nonzero N (mulv N B z)) as [G|G]; auto. exfalso. apply Hz. rewrite <- (HI z r Hr). now apply mulv_zero.
Qed.
Lemma inverse_comm B H : symmetric N H -> positive_definite N H -> inverse B H -> inverse H B.
Proof.
  intros Hs Hp HI z i Hi. set (d := vsub (mulv N B (mulv N H z)) z). assert (Z : forall j, (j < N)%nat -> mulv N H d j = 0).
  { intros j Hj. assert (E := mulv_sub N H (mulv N B (mulv N H z)) z 1 j). rewrite HI, Rmult_1_l, Rminus_eq_0 in E by auto. rewrite <- E. apply mulv_ext; auto. intros r Hr. unfold d, vsub, vscale. ring. }
  destruct (classic_nonzero N d) as [G|G].
  - exfalso. specialize (Hp d G). unfold quad, dot in Hp. rewrite rsum_zero in Hp; [lra|]. intros j Hj. rewrite Z by auto. ring.
  - specialize (G i Hi). unfold d, vsub in G. lra.
Qed.
Section Step.
Variables (B H : matrix) (s y : vec).
Hypothesis HsB : symmetric N B.
Hypothesis HsH : symmetric N H.
Hypothesis HpH : positive_definite N H.
Hypothesis HI : inverse B H.
Hypothesis Hsy : 0 < dot N y s.
Hypothesis HA : 0 < quad N B s.
Lemma next_inverse : inverse (next B s y) (bfgs_update N H s y).
Proof.
  intros x i Hi. set (z := mulv N (next B s y) x). set (sy := dot N y s) in *. set (A := quad N B s) in *. set (Bsx := dot N (mulv N B s) x). set (yx := dot N y x).
  assert (Ez : forall j, z j = mulv N B x j + / sy * y j * yx - / A * mulv N B s j * Bsx).
  { intros j. unfold z, next. rewrite !rank1_mulv. fold sy A yx Bsx. ring. }
  assert (E1 : dot N s z = yx).
  { rewrite (dot_ext N s s z (vadd (mulv N B x) (vsub (vscale (/ sy * yx) y) (vscale (/ A * Bsx) (mulv N B s))))); auto; [|intros j Hj; rewrite Ez; unfold vadd, vsub, vscale; ring].
    rewrite dot_comm, dot_add_l, dot_sub_l, !dot_scale_l. fold sy. rewrite (dot_comm N (mulv N B s) s). fold (quad N B s). fold A. rewrite (dot_comm N (mulv N B x) s), (dot_mulv_sym N B s x HsB), (dot_comm N x). fold Bsx. field. split; lra. }
  assert (E2 : forall j, (j < N)%nat -> mulv N H z j = x j + / sy * yx * mulv N H y j - / A * Bsx * s j).
  { intros j Hj. rewrite <- (HI x j Hj), <- (HI s j Hj). unfold mulv at 1. rewrite (rsum_ext N _ (fun k => H j k * mulv N B x k + / sy * yx * (H j k * y k) - / A * Bsx * (H j k * mulv N B s k))) by (intros; rewrite Ez; ring).
    rewrite rsum_minus, rsum_plus, !rsum_scal. reflexivity. }
  assert (E3 : dot N (mulv N H y) z = yx + / sy * yx * dot N y (mulv N H y) - / A * Bsx * sy).
  { rewrite dot_comm, (dot_mulv_sym N H z y HsH). rewrite (dot_ext N y y _ (vsub (vadd x (vscale (/ sy * yx) (mulv N H y))) (vscale (/ A * Bsx) s))) by auto.
    rewrite dot_sub_r, dot_scale_r. fold sy. rewrite dot_comm, dot_add_l, dot_scale_l, (dot_comm N x y), (dot_comm N (mulv N H y) y). reflexivity. }
  rewrite bfgs_mulv, E1, E2, E3 by auto. rewrite (dot_comm N s y). fold sy. field. split; lra.
Qed.
Lemma next_sym : symmetric N (next B s y).
Proof. now apply rank1_sym, rank1_sym. Qed.
Lemma mid_pd : positive_definite N (rank1 B (/ dot N y s) y).
Proof.
  intros z Hz. rewrite rank1_quad. assert (0 < quad N B z) by (now apply (inverse_pd B H)). assert (0 <= / dot N y s * (dot N y z * dot N y z)); [|lra]. apply Rmult_le_pos; [left; now apply Rinv_0_lt_compat|nra].
Qed.
Lemma next_trace : trace N (next B s y) = trace N B + dot N y y / dot N y s - dot N (mulv N B s) (mulv N B s) / quad N B s.
Proof.
  unfold trace, next, rank1. rewrite (rsum_ext N _ (fun i => B i i + / dot N y s * (y i * y i) - / quad N B s * (mulv N B s i * mulv N B s i))) by (intros; ring). rewrite rsum_minus, rsum_plus, !rsum_scal. unfold dot, Rdiv. ring.
Qed.
Lemma next_det : sdet N (next B s y) = sdet N B * (dot N y s / quad N B s).
Proof.
  assert (PB := inverse_pd B H HsH HpH HI). assert (HI' := inverse_comm B H HsH HpH HI). set (sy := dot N y s) in *. set (A := quad N B s) in *. set (h := dot N y (mulv N H y)). assert (Hh : 0 <= h) by (apply quad_nonneg; auto).
  assert (PN : positive_definite N (next B s y)).
  { apply (inverse_pd _ (bfgs_update N H s y)); [now apply C105_symmetric|apply C105_positive_definite; auto; now rewrite dot_comm|apply next_inverse]. }
  set (x := vsub s (vscale (sy / (sy + h)) (mulv N H y))). set (Bm := rank1 B (/ sy) y).
  assert (Ex : forall i, (i < N)%nat -> mulv N Bm x i = mulv N B s i).
  { intros i Hi. unfold Bm. rewrite rank1_mulv. unfold x. rewrite mulv_sub, HI' by auto. rewrite dot_sub_r, dot_scale_r. fold sy h. field. split; lra. }
  unfold next. fold sy A Bm. rewrite (sdet_rank1 N Bm (- / A) (mulv N B s) x); [|apply rank1_sym; auto|exact mid_pd|exact PN|exact Ex].
  unfold Bm. rewrite (sdet_rank1 N B (/ sy) y (mulv N H y)); [|auto|auto|exact mid_pd|intros i Hi; now apply HI']. fold h.
  unfold x. rewrite dot_sub_r, dot_scale_r. rewrite (dot_comm N (mulv N B s) s). fold (quad N B s). fold A.
  assert (E : dot N (mulv N B s) (mulv N H y) = sy).
  { rewrite (dot_mulv_sym N H (mulv N B s) y HsH). rewrite (dot_ext N y y _ s); auto. }
  rewrite E. field. repeat split; lra.
Qed.
End Step.
End Ghost.

(* ---- the run ---- *)
Section Run.
Variables (N : nat) (M : Type) (obj : vec -> R) (grad : vec -> vec) (L mu low alpha c1 c2 tol : R).
Hypothesis HL : 0 < L.
Hypothesis Hmu : 0 < mu.
Hypothesis Hext : extensional N obj.
Hypothesis Hgrad : gradient_of N obj grad.
Hypothesis Hgext : forall x y, (forall r, (r < N)%nat -> x r = y r) -> forall r, (r < N)%nat -> grad x r = grad y r.
Hypothesis Hlip : gradient_lipschitz N grad L.
Hypothesis Hmon : strongly_monotone N grad mu.
Hypothesis Hlow : forall x, low <= obj x.
Hypothesis Ha : 0 < alpha.
Hypothesis Hc : 0 < c1 < c2.
Hypothesis Hc2 : c2 < 1.
Hypothesis Htol : 0 < tol.
Let body fuel := bfgs_body N M grad [line_search M (wolfe_search N obj grad fuel alpha c1 c2)] None.
(* guaranteed decrease per iteration *)
Let delta := c1 * (1 - c2) / L * exp (ln mu + 1 - L * L / mu) * (tol * tol).
Definition psi (B : matrix) : R := trace N B - ln (sdet N B).
(* the code's matrix H is the inverse of the symmetric positive definite ghost B *)
Definition paired (H B : matrix) : Prop := symmetric N B /\ symmetric N H /\ positive_definite N H /\ inverse N B H.
Lemma psi_low H B : paired H B -> INR N <= psi B.
Proof.
  intros (Sb & Sh & Ph & Hi). assert (Pb := inverse_pd N B H Sh Ph Hi). unfold psi. assert (D := sdet_trace N B Sb Pb). assert (P := sdet_pos N B Sb Pb).
  assert (ln (sdet N B) <= trace N B - INR N); [|lra]. rewrite <- (ln_exp (trace N B - INR N)). destruct D as [D|D]; [left; now apply ln_increasing|rewrite D; lra].
Qed.
Lemma delta_pos : 0 < delta.
Proof. unfold delta. apply Rmult_lt_0_compat; [|nra]. apply Rmult_lt_0_compat; [|apply exp_pos]. apply Rdiv_lt_0_compat; auto. apply Rmult_lt_0_compat; lra. Qed.

(* the ghost potential after a step s with gradient change y, when B s = - a g *)
Lemma potential_step H B s y : paired H B -> (exists r, (r < N)%nat /\ s r <> 0) -> mu * dot N s s <= dot N y s -> dot N y y <= L * L * dot N s s ->
  let cos2 := quad N B s * quad N B s / (dot N s s * dot N (mulv N B s) (mulv N B s)) in
  0 < dot N y s /\ 0 < cos2 /\ paired (bfgs_update N H s y) (next N B s y) /\ psi (next N B s y) <= psi B + (L * L / mu - ln mu - 1) + ln cos2.
Proof.
  intros (Sb & Sh & Ph & Hi) Hnz Hsc Hy cos2. assert (Pb := inverse_pd N B H Sh Ph Hi). assert (HA := Pb s Hnz). assert (Hss := dot_nonzero N s Hnz).
  assert (Hsy : 0 < dot N y s) by (apply Rlt_le_trans with (2 := Hsc); apply Rmult_lt_0_compat; auto).
  assert (HBs : 0 < dot N (mulv N B s) (mulv N B s)).
  { apply dot_nonzero. destruct (classic_nonzero N (mulv N B s)) as [G|G]; auto. exfalso. unfold quad, dot in HA. rewrite rsum_zero in HA; [lra|]. intros j Hj. rewrite G by auto. ring. }
  set (A := quad N B s) in *. set (bs := dot N (mulv N B s) (mulv N B s)) in *. set (ss := dot N s s) in *. set (sy := dot N y s) in *. set (T := bs / A).
  assert (HT : 0 < T) by now apply Rdiv_lt_0_compat. assert (Hcos : 0 < cos2) by (unfold cos2; apply Rdiv_lt_0_compat; nra).
  split; auto. split; auto. split.
  - split; [now apply next_sym|]. split; [now apply C105_symmetric|]. split; [apply C105_positive_definite; auto; rewrite dot_comm; exact Hsy|]. now apply next_inverse.
  - unfold psi. rewrite next_trace by auto. rewrite (next_det N B H s y) by auto. fold sy A bs T. assert (Pd := sdet_pos N B Sb Pb).
    rewrite ln_mult; [|exact Pd|now apply Rdiv_lt_0_compat].
    assert (E : sy / A = sy / ss * (/ (T * cos2))) by (unfold T, cos2; field; repeat split; lra). rewrite E. rewrite ln_mult; [|now apply Rdiv_lt_0_compat|apply Rinv_0_lt_compat; nra]. rewrite ln_Rinv by nra. rewrite ln_mult by auto.
    assert (I1 : ln mu <= ln (sy / ss)).
    { assert (Q : mu <= sy / ss) by (apply Rmult_le_reg_r with ss; auto; replace (sy / ss * ss) with sy by (field; lra); auto). destruct Q as [Q|Q]; [left; now apply ln_increasing|rewrite <- Q; lra]. }
    assert (I2 : dot N y y / sy <= L * L / mu).
    { apply Rmult_le_reg_r with sy; auto. replace (dot N y y / sy * sy) with (dot N y y) by (field; lra). apply Rle_trans with (1 := Hy). replace (L * L * ss) with (L * L / mu * (mu * ss)) by (field; lra). apply Rmult_le_compat_l; [|auto]. apply Rmult_le_pos; [nra|]. left. now apply Rinv_0_lt_compat. }
    assert (I3 : ln T <= T - 1). { assert (Q := exp_ineq1_le (ln T)). rewrite exp_ln in Q by auto. lra. }
    lra.
Qed.

Definition good (w : pub * M) (B : matrix) : Prop := grad_old (fst w) = grad (x_old (fst w)) /\ paired (inv_hess (fst w)) B.
Lemma bfgs_pass (w : pub * M) B : good w B -> tol < norm N (grad (x_old (fst w))) ->
  exists f0 w', obj (x_old (fst w')) <= obj (x_old (fst w)) /\
   ((exists B', (forall fuel, (f0 <= fuel)%nat -> body fuel w = Next w' (norm N (grad (x_old (fst w')))) false) /\ good w' B' /\
       obj (x_old (fst w')) / delta + psi B' <= obj (x_old (fst w)) / delta + psi B - 1) \/
    ((forall fuel, (f0 <= fuel)%nat -> body fuel w = Return w') /\ x_old (fst w') = x_old (fst w) /\
       exists a u, 0 < a /\ dot N (grad (ray (x_old (fst w)) u a)) (grad (ray (x_old (fst w)) u a)) = 0 /\ obj (ray (x_old (fst w)) u a) < obj (x_old (fst w)))).
Proof.
  intros [HG HP] Hn. assert (Hd := delta_pos). set (x := x_old (fst w)) in *. set (g := grad x) in *. set (H := inv_hess (fst w)) in *. destruct HP as (Sb & Sh & Ph & Hi). assert (HP : paired H B) by (repeat split; auto).
  assert (Hgg : tol * tol < dot N g g) by (now apply (big_gradient N grad tol)).
  assert (Hgnz : exists r, (r < N)%nat /\ g r <> 0).
  { destruct (classic_nonzero N g) as [G|G]; auto. exfalso. assert (Z : dot N g g = 0) by (apply rsum_zero; intros r Hr; rewrite G by auto; ring). assert (0 < tol * tol) by (apply Rmult_lt_0_compat; auto). lra. }
  set (p := set_update (fst w) (vscale (-1) (mulv N H g))). set (u := update p). assert (Eu : u = vscale (-1) (mulv N H g)) by reflexivity.
  assert (Hm : dot N g u < 0) by (rewrite Eu; now apply C105_descent_direction).
  destruct (wolfe_returns N obj grad L low alpha c1 c2 HL Hext Hgrad Hgext Hlip Hlow Ha Hc Hc2 p) as (f0 & a & Hf & Pa & Ar & Cu & Sm); [exact HG| |].
  { unfold p at 1. cbn [set_update grad_old]. rewrite HG. exact Hm. }
  replace (grad_old p) with g in Ar, Cu, Sm by (symmetry; exact HG). change (x_old p) with x in *. fold u in Ar, Cu, Sm.
  set (xn := vadd x (vscale a u)). change (ray x u a) with xn in *. set (m := dot N g u) in *.
  assert (Huu : 0 < dot N u u).
  { apply dot_nonzero. destruct (classic_nonzero N u) as [G|G]; auto. exfalso. assert (m = 0) by (apply rsum_zero; intros r Hr; rewrite G by auto; ring). lra. }
  set (p3 := set_new (set_h p a) xn (grad xn)).
  assert (Body : forall fuel, (f0 <= fuel)%nat -> body fuel w = if is_zero N (grad xn) then Return (p3, snd w) else
      Next (shift (set_inv p3 (bfgs_update N H (vsub xn x) (vsub (grad xn) (grad_old (fst w))))), snd w) (norm N (grad xn)) false).
  { intros fuel Hff. unfold body, bfgs_body, finish, line_search. cbn [execute_pre execute_post map pre_hook post_hook fold_left execute_criterion exec_hook on_pub fst snd orb].
    replace (set_update (fst w) (vscale (-1) (mulv N (inv_hess (fst w)) (grad_old (fst w))))) with p by (unfold p; rewrite HG; reflexivity). rewrite (Hf fuel Hff). cbn [exec_hook fst snd orb on_pub].
    change (move grad (set_h p a)) with p3. change (grad_new p3) with (grad xn). destruct (is_zero N (grad xn)); reflexivity. }
  destruct (is_zero N (grad xn)) eqn:Ez.
  - exists f0, (p3, snd w). split; [cbn; fold x; lra|]. right. split; [exact Body|]. split; [reflexivity|]. exists a, u. split; auto. split; [now apply eqb_eq_R in Ez|]. apply Rle_lt_trans with (1 := Ar). assert (c1 * a * m < 0); [|lra]. assert (0 < c1 * a) by (apply Rmult_lt_0_compat; lra). nra.
  - exists f0. eexists. split; [|left; eexists; split; [exact Body|]].
    + cbn [fst shift set_inv x_old x_new p3 set_new]. apply Rle_trans with (1 := Ar). assert (0 < c1 * a) by (apply Rmult_lt_0_compat; lra). nra.
    + set (s := vsub xn x). set (y := vsub (grad xn) (grad_old (fst w))). assert (Es : forall r, s r = a * u r) by (intros r; unfold s, xn, vsub, vadd, vscale; ring).
      assert (Ess : dot N s s = a * a * dot N u u) by (rewrite (dot_ext N s (vscale a u) s (vscale a u)) by (intros; apply Es); rewrite dot_scale_l, dot_scale_r; ring).
      assert (Hsnz : exists r, (r < N)%nat /\ s r <> 0).
      { destruct (classic_nonzero N s) as [G|G]; auto. exfalso. assert (Z : dot N s s = 0) by (apply rsum_zero; intros r Hr; rewrite G by auto; ring). rewrite Ess in Z. assert (0 < a * a * dot N u u) by (apply Rmult_lt_0_compat; [nra|auto]). lra. }
      assert (EBs : forall r, (r < N)%nat -> mulv N B s r = - a * g r).
      { intros r Hr. assert (E0 := inverse_comm N B H Sh Ph Hi g r Hr). rewrite <- E0. unfold mulv at 1 2. rewrite <- rsum_scal. apply rsum_ext. intros j Hj. rewrite Es, Eu. unfold vscale. ring. }
      assert (EA : quad N B s = a * a * - m).
      { unfold quad. rewrite (dot_ext N s (vscale a u) _ (vscale (- a) g)) by (intros; auto; try apply Es; now rewrite EBs). rewrite dot_scale_l, dot_scale_r, dot_comm. fold m. ring. }
      assert (Ebs : dot N (mulv N B s) (mulv N B s) = a * a * dot N g g) by (rewrite (dot_ext N _ (vscale (- a) g) _ (vscale (- a) g)) by (intros; now rewrite EBs); rewrite dot_scale_l, dot_scale_r; ring).
      destruct (potential_step H B s y HP Hsnz) as (Hsy & Hcos & HP' & Hpsi).
      { unfold y. rewrite HG. apply Hmon. }
      { unfold y. rewrite HG, Ess. fold g. apply Rle_trans with (1 := Hlip x u a). right. ring. }
      split; [split; [reflexivity|exact HP']|].
      cbn [fst shift set_inv x_old x_new p3 set_new]. set (cos2 := _ / _) in Hcos, Hpsi.
      assert (Ec : cos2 = m * m / (dot N u u * dot N g g)). { unfold cos2. rewrite EA, Ess, Ebs. field. assert (0 < tol * tol) by (apply Rmult_lt_0_compat; auto). repeat split; lra. }
      assert (Hex : exp (ln mu + 1 - L * L / mu) * (1 + (psi (next N B s y) - psi B)) <= cos2).
      { apply Rle_trans with (exp (ln mu + 1 - L * L / mu) * exp (psi (next N B s y) - psi B)).
        - apply Rmult_le_compat_l; [left; apply exp_pos|]. apply exp_ineq1_le.
        - rewrite <- exp_plus. rewrite <- (exp_ln cos2 Hcos) at 1. assert (Q : ln mu + 1 - L * L / mu + (psi (next N B s y) - psi B) <= ln cos2) by lra. destruct Q as [Q|Q]; [left; now apply exp_increasing|rewrite Q; rewrite exp_ln; lra]. }
      assert (Dec : obj xn <= obj x - c1 * (1 - c2) / L * (cos2 * dot N g g)).
      { apply Rle_trans with (1 := Ar). rewrite Ec. replace (m * m / (dot N u u * dot N g g) * dot N g g) with (m * m / dot N u u) by (field; assert (0 < tol * tol) by (apply Rmult_lt_0_compat; auto); repeat split; lra).
        assert (Q : (1 - c2) * - m / (L * dot N u u) <= a). { apply Rmult_le_reg_r with (L * dot N u u); [apply Rmult_lt_0_compat; auto|]. replace ((1 - c2) * - m / (L * dot N u u) * (L * dot N u u)) with ((1 - c2) * - m) by (field; split; lra). lra. }
        replace (c1 * (1 - c2) / L * (m * m / dot N u u)) with (c1 * - m * ((1 - c2) * - m / (L * dot N u u))) by (field; split; lra).
        assert (c1 * - m * ((1 - c2) * - m / (L * dot N u u)) <= c1 * - m * a) by (apply Rmult_le_compat_l; [apply Rmult_le_pos; lra|auto]). lra. }
      set (k := c1 * (1 - c2) / L) in *. assert (Hk : 0 < k) by (unfold k; apply Rdiv_lt_0_compat; auto; apply Rmult_lt_0_compat; lra).
      assert (Dec2 : obj xn <= obj x - delta * (1 + (psi (next N B s y) - psi B))).
      { apply Rle_trans with (1 := Dec). unfold delta. fold k. set (E := exp _) in *. set (q := 1 + _) in *.
        assert (Q1 : k * (cos2 * (tol * tol)) <= k * (cos2 * dot N g g)) by (apply Rmult_le_compat_l; [lra|]; apply Rmult_le_compat_l; lra).
        assert (Q2 : k * (tol * tol) * (E * q) <= k * (tol * tol) * cos2) by (apply Rmult_le_compat_l; [apply Rmult_le_pos; nra|auto]). lra. }
      apply Rmult_le_reg_l with delta; auto. fold s y. replace (delta * (obj xn / delta + psi (next N B s y))) with (obj xn + delta * psi (next N B s y)) by (field; lra).
      replace (delta * (obj x / delta + psi B - 1)) with (obj x + delta * psi B - delta) by (field; lra). lra.
Qed.
(* some step leads from x to a point where the gradient is zero and the objective is smaller *)
Definition step_to_zero (x : vec) : Prop := exists a u, 0 < a /\ (forall r, (r < N)%nat -> grad (ray x u a) r = 0) /\ obj (ray x u a) < obj x.
Lemma bfgs_run rem : forall n (w : pub * M) B, good w B ->
  exists f0 w' n' e', (forall fuel, (f0 <= fuel)%nat -> loop M tol (body fuel) rem n w (Some (norm N (grad (x_old (fst w))))) false = (w', n', e', false)) /\ obj (x_old (fst w')) <= obj (x_old (fst w)) /\
  (norm N (grad (x_old (fst w'))) <= tol \/ step_to_zero (x_old (fst w')) \/ INR rem + INR N + low / delta <= obj (x_old (fst w)) / delta + psi B).
Proof.
  assert (Hd := delta_pos). induction rem as [|rem IH]; intros n w B HI.
  - exists 0%nat, w, n, (Some (norm N (grad (x_old (fst w))))). split; [reflexivity|]. split; [lra|]. right. right. cbn [INR]. assert (P := psi_low _ _ (proj2 HI)).
    assert (low / delta <= obj (x_old (fst w)) / delta) by (apply Rmult_le_compat_r; [left; now apply Rinv_0_lt_compat|auto]). lra.
  - destruct (ltb tol (norm N (grad (x_old (fst w))))) eqn:E.
    + destruct (bfgs_pass w B HI (proj1 (ltb_true _ _) E)) as (f0 & w' & Hle & [(B' & Hb & HI' & Hpot)|(Hb & Ex & a & u & Pa & Z & Hlt)]).
      * destruct (IH (S n) w' B' HI') as (f1 & wf & nf & ef & Hf & Hle' & A). exists (Nat.max f0 f1), wf, nf, ef. split.
        { intros fuel Hff. cbn [loop]. rewrite E. cbn [negb andb]. rewrite Hb by lia. apply Hf. lia. }
        split; [lra|]. destruct A as [A|[A|A]]; auto. right. right. rewrite S_INR. lra.
      * exists f0, w', n, (Some (norm N (grad (x_old (fst w))))). split; [intros fuel Hff; cbn [loop]; rewrite E; cbn [negb andb]; now rewrite Hb|]. split; [lra|]. right. left. rewrite Ex. exists a, u. split; auto. split; auto. intros r Hr. now apply (dot_zero N _ Z).
    + exists 0%nat, w, n, (Some (norm N (grad (x_old (fst w))))). split; [intros fuel _; cbn [loop]; now rewrite E|]. split; [lra|]. left. now apply ltb_false in E.
Qed.
Lemma identity_det n : sdet n identity = 1.
Proof.
  induction n as [|k IH]; cbn [sdet]; auto. rewrite (sdet_ext k _ identity); [unfold identity at 1; rewrite Nat.eqb_refl, IH; ring|].
  intros i j Hi Hj. unfold schur, identity. replace (Nat.eqb i k) with false by (symmetry; apply Nat.eqb_neq; lia). unfold Rdiv. ring.
Qed.
Lemma identity_paired : paired identity identity /\ psi identity = INR N.
Proof.
  destruct (C105_identity N) as [A B]. split.
  - split; auto. split; auto. split; auto. intros x i Hi. assert (Id : forall z j, (j < N)%nat -> mulv N identity z j = z j) by (intros z j Hj; exact (rsum_delta_l N j z Hj)). now rewrite Id, Id.
  - unfold psi. rewrite identity_det, ln_1, Rminus_0_r. unfold trace. rewrite (rsum_ext N _ (fun _ => 1)) by (intros; unfold identity; now rewrite Nat.eqb_refl). clear. induction N as [|n IH]; [reflexivity|]. cbn [rsum]. rewrite IH, S_INR. reflexivity.
Qed.
(* BFGS never returns a larger value, and reaches the tolerance within gap / delta iterations, delta = c1 (1 - c2) / L e^(ln mu + 1 - L^2 / mu) tol^2,
   unless an iterate has a gradient that is exactly zero: then the one before it is returned *)
Theorem C207_tolerance_partial : forall max_iter w0 step m0 x0,
  obj x0 - low < INR max_iter * (c1 * (1 - c2) / L * (mu * exp (1 - L * L / mu)) * (tol * tol)) ->
  exists f0, forall fuel, (f0 <= fuel)%nat ->
  let r := bfgs N M obj grad [line_search M (wolfe_search N obj grad fuel alpha c1 c2)] None max_iter tol w0 step m0 x0 in
  value r <= obj x0 /\ (norm N (grad (optimum r)) <= tol \/ step_to_zero (optimum r)).
Proof.
  intros max_iter w0 step m0 x0 Hm. assert (Hd := delta_pos). assert (Ed : c1 * (1 - c2) / L * (mu * exp (1 - L * L / mu)) * (tol * tol) = delta).
  { unfold delta. replace (ln mu + 1 - L * L / mu) with (ln mu + (1 - L * L / mu)) by ring. rewrite exp_plus, exp_ln by auto. reflexivity. }
  rewrite Ed in Hm. destruct identity_paired as [IP IPsi]. unfold bfgs. cbn [grad_old set_old]. destruct (is_zero N (grad x0)) eqn:Ez.
  - exists 0%nat. intros fuel _. cbn [value optimum]. split; [lra|]. left. apply eqb_eq_R in Ez. unfold norm. rewrite Ez, sqrt_0. lra.
  - destruct (bfgs_run max_iter 0 (set_old (set_inv (start w0 step x0) identity) (grad x0) (hess_ w0), m0) identity (conj eq_refl IP)) as (f0 & w & n & e & Hf & Hle & A).
    cbn [fst set_old set_inv start x_old] in Hle, A. exists f0. intros fuel Hff. match goal with |- context [loop ?a ?b ?c ?d ?k ?l ?g ?h] => replace (loop a b c d k l g h) with (w, n, e, false) by (symmetry; exact (Hf fuel Hff)) end. cbn [close optimum value]. split; auto.
    destruct A as [A|[A|A]]; auto. exfalso. rewrite IPsi in A. apply (Rmult_le_compat_l delta) in A; [|lra].
    replace (delta * (INR max_iter + INR N + low / delta)) with (INR max_iter * delta + delta * INR N + low) in A by (field; lra). replace (delta * (obj x0 / delta + INR N)) with (obj x0 + delta * INR N) in A by (field; lra). lra.
Qed.
(* at the point with the zero gradient the objective is smallest *)
Theorem C207_zero_is_minimum : forall x, (forall r, (r < N)%nat -> grad x r = 0) -> forall y, obj x <= obj y.
Proof.
  intros x Hz y. set (u := vsub y x). assert (E1 : obj (ray x u 1) = obj y) by (apply Hext; intros r Hr; unfold ray, vadd, vscale, u, vsub; ring).
  destruct (MVT_cor2 (fun b => obj (ray x u b)) (fun b => dot N (grad (ray x u b)) u) 0 1 Rlt_0_1 (fun b _ => Hgrad x u b)) as (b & E & Hb).
  rewrite E1, (ray_0 N obj Hext) in E. assert (Q := Hmon x (ray x u b)).
  rewrite (dot_ext N (vsub (grad (ray x u b)) (grad x)) (grad (ray x u b)) (vsub (ray x u b) x) (vscale b u)) in Q.
  - rewrite dot_scale_r in Q. assert (0 <= mu * dot N (vsub (ray x u b) x) (vsub (ray x u b) x)) by (apply Rmult_le_pos; [lra|apply dot_pos]).
    assert (0 <= dot N (grad (ray x u b)) u); [|lra]. apply Rmult_le_reg_l with b; lra.
  - intros r Hr. unfold vsub. rewrite Hz by auto. ring.
  - intros r Hr. unfold vsub, ray, vadd, vscale. ring.
Qed.
End Run.

(* half the squared norm meets the hypotheses with L = mu = 1 *)
Example C207_example N : strongly_monotone N (fun x => x) 1 /\ gradient_of N (fun x => dot N x x / 2) (fun x => x) /\ gradient_lipschitz N (fun x => x) 1 /\ extensional N (fun x => dot N x x / 2).
Proof. destruct (C206_example N) as (A & B & C & _). repeat split; auto. intros x y. lra. Qed.
Example C207_run M w0 m0 : exists f0, forall fuel, (f0 <= fuel)%nat ->
  let r := bfgs 2 M (fun x => dot 2 x x / 2) (fun x => x) [line_search M (wolfe_search 2 (fun x => dot 2 x x / 2) (fun x => x) fuel 3 (1 / 4) (1 / 2))] None 200 (1 / 4) w0 1 m0 (fun _ => 1) in
  value r <= 1 /\ (norm 2 (optimum r) <= 1 / 4 \/ step_to_zero 2 (fun x => dot 2 x x / 2) (fun x => x) (optimum r)).
Proof.
  destruct (C207_example 2) as (A & B & C & D).
  destruct (C207_tolerance_partial 2 M (fun x => dot 2 x x / 2) (fun x => x) 1 1 0 3 (1 / 4) (1 / 2) (1 / 4)) with (max_iter := 200%nat) (w0 := w0) (step := 1) (m0 := m0) (x0 := fun _ : nat => 1) as (f0 & Hf); auto; try lra.
  - intros x. assert (P := dot_pos 2 x). lra.
  - replace (1 - 1 * 1 / 1) with 0 by field. rewrite exp_0. unfold dot. cbn. lra.
  - exists f0. intros fuel Hff. destruct (Hf fuel Hff) as [V W]. split; [|exact W]. apply Rle_trans with (1 := V). unfold dot. cbn. lra.
Qed.
(* x^2 / 2 from 1: the first step of the search leads to the minimum, and 1 is returned, with gradient 1 *)
Theorem C207_returned_refuted : forall M w0 m0 fuel, (1 <= fuel)%nat ->
  let r := bfgs 1 M (fun x => dot 1 x x / 2) (fun x => x) [line_search M (wolfe_search 1 (fun x => dot 1 x x / 2) (fun x => x) fuel 1 (1 / 4) (1 / 2))] None 200 (1 / 4) w0 1 m0 (fun _ => 1) in
  n_iter r = 0%nat /\ stopped r = false /\ norm 1 (optimum r) = 1.
Proof.
  intros M w0 m0 fuel Hf. assert (Hn1 : norm 1 (fun _ => 1) = 1) by (unfold norm, dot; cbn; replace (0 + 1 * 1) with 1 by ring; apply sqrt_1).
  assert (Hz : is_zero 1 (fun _ => 1) = false) by (unfold is_zero, eqb_, dot; cbn; destruct (Req_EM_T _ _); auto; lra).
  unfold bfgs. cbn [grad_old set_old]. rewrite Hz. cbn [loop]. rewrite Hn1. replace (ltb (1 / 4) 1) with true by (symmetry; apply ltb_true; lra). cbn [andb negb].
  unfold bfgs_body, line_search. cbn [execute_pre execute_post map pre_hook post_hook fold_left exec_hook on_pub fst snd orb].
  set (p := set_update _ _).
  assert (E : wolfe_search 1 (fun x => dot 1 x x / 2) (fun x => x) fuel 1 (1 / 4) (1 / 2) p = Ok 1).
  { destruct fuel as [|f]; [lia|]. unfold wolfe_search, wolfe. cbn [wolfe_loop]. unfold wolfe_step. cbn [w_alpha].
    assert (Eu : update p 0%nat = -1) by (unfold p, vscale, mulv, identity; cbn; ring). unfold dot, ray, vadd, vscale. cbn [rsum]. change (x_old p 0%nat) with 1. change (grad_old p 0%nat) with 1. rewrite !Eu.
    replace (ltb (_ - _ + _) 0) with false by (symmetry; apply ltb_false; lra). replace (ltb (_ + _) _) with false by (symmetry; apply ltb_false; lra). reflexivity. }
  rewrite E. cbn [exec_hook fst snd orb on_pub].
  replace (is_zero 1 _) with true; [cbn [close n_iter stopped optimum]; repeat split; exact Hn1|].
  symmetry. unfold is_zero, eqb_, dot. cbn. unfold p, vadd, vscale, mulv, identity. cbn. destruct (Req_EM_T _ _) as [|Hne]; auto. exfalso. apply Hne. ring.
Qed.
Print Assumptions C207_tolerance_partial.
Print Assumptions C207_zero_is_minimum.
Print Assumptions C207_returned_refuted.
