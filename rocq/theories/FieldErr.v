(* C109: accuracy of the numerical derivatives on smooth fields. *)
From Verif Require Import Base RSum SimplexModel FieldModel FieldProps.
From Coquelicot Require Import Coquelicot.

(* D 0, D 1, ... are the successive derivatives of g, up to order n *)
Definition derivatives (g : R -> R) (D : nat -> R -> R) (n : nat) : Prop :=
  (forall t, D 0%nat t = g t) /\ forall k t, (k < n)%nat -> derivable_pt_lim (D k) t (D (S k) t).

Lemma derive_n_D g D n : derivatives g D n -> forall k, (k <= n)%nat -> forall t, is_derive_n g k t (D k t).
Proof.
  intros [H0 HS]. induction k as [|k IH]; intros Hk t; cbn.
  - symmetry; apply H0.
  - apply (is_derive_ext (D k)).
    + intros s. symmetry. apply is_derive_n_unique, IH. lia.
    + apply is_derive_Reals, HS. lia.
Qed.

(* Taylor with Lagrange remainder, on either side *)
Lemma taylor_right g D n x h : (0 < n)%nat -> derivatives g D n -> 0 < h ->
  exists z, x < z < x + h /\
    g (x + h) = rsum n (fun k => h ^ k / INR (fact k) * D k x) + h ^ n / INR (fact n) * D n z.
Proof.
  intros Hn HD Hh. destruct n as [|n]; [lia|].
  destruct (Taylor_Lagrange g n x (x + h)) as (z & Hz & E); [lra| |].
  - intros t _ k Hk. destruct k; cbn; auto. exists (D (S k) t). apply (derive_n_D g D (S n) HD (S k)); lia.
  - exists z. split; [exact Hz|]. rewrite E. replace (x + h - x) with h by ring. f_equal.
    + transitivity (rsum (S n) (fun k => h ^ k / INR (fact k) * Derive_n g k x)).
      * generalize (fun k => h ^ k / INR (fact k) * Derive_n g k x). intros F. clear. induction n; cbn in *; [ring|]. rewrite IHn. ring.
      * apply rsum_ext. intros k Hk. f_equal. apply is_derive_n_unique, (derive_n_D g D (S n) HD); lia.
    + f_equal. apply is_derive_n_unique, (derive_n_D g D (S n) HD); lia.
Qed.
Lemma derivatives_opp g D n : derivatives g D n ->
  derivatives (fun t => g (- t)) (fun k t => (-1) ^ k * D k (- t)) n.
Proof.
  intros [H0 HS]. split; [intros t; cbn; rewrite H0; ring|].
  intros k t Hk. replace ((-1) ^ S k * D (S k) (- t)) with ((-1) ^ k * (D (S k) (- t) * - (1))) by (cbn; ring).
  apply derivable_pt_lim_scal with (f := fun t => D k (- t)).
  apply (derivable_pt_lim_comp (fun t => - t) (D k)).
  - apply derivable_pt_lim_opp, derivable_pt_lim_id.
  - apply HS; auto.
Qed.
Lemma taylor_left g D n x h : (0 < n)%nat -> derivatives g D n -> 0 < h ->
  exists z, x - h < z < x /\
    g (x - h) = rsum n (fun k => (-1) ^ k * (h ^ k / INR (fact k) * D k x)) + (-1) ^ n * (h ^ n / INR (fact n) * D n z).
Proof.
  intros Hn HD Hh. destruct (taylor_right (fun t => g (- t)) _ n (- x) h Hn (derivatives_opp _ _ _ HD) Hh) as (z & Hz & E).
  exists (- z). split; [lra|]. replace (- (- x + h)) with (x - h) in E by ring. rewrite E.
  f_equal.
  - apply rsum_ext. intros k _. rewrite Ropp_involutive. ring.
  - ring.
Qed.

Lemma abs_le a b : - b <= a <= b -> Rabs a <= b.
Proof. apply Rabs_le. Qed.
Lemma abs_bounds a b : Rabs a <= b -> - b <= a <= b.
Proof. apply Rabs_le_between. Qed.

(* derive(): the error of each component is at most M3 h^2 / 6 *)
Theorem C109_gradient_error f x i h D M : 0 < h -> derivatives (along f x i) D 3 ->
  (forall t, x i - h <= t <= x i + h -> Rabs (D 3%nat t) <= M) ->
  exists d, seval (SDer1 h i (SField f)) x = Ok d /\ Rabs (d - D 1%nat (x i)) <= M * (h * h) / 6.
Proof.
  intros Hh HD HM. eexists. split.
  - cbn [seval]. apply (diff1_ok _ f). reflexivity.
  - rewrite !move_set. fold (along f x i (x i + h)) (along f x i (x i + - h)).
    replace (x i + - h) with (x i - h) by ring. set (g := along f x i) in *. set (u := x i) in *.
    destruct (taylor_right g D 3 u h ltac:(lia) HD Hh) as (z1 & Hz1 & E1).
    destruct (taylor_left g D 3 u h ltac:(lia) HD Hh) as (z2 & Hz2 & E2).
    rewrite E1, E2. cbn.
    generalize (abs_bounds _ _ (HM z1 ltac:(lra))) (abs_bounds _ _ (HM z2 ltac:(lra))). intros B1 B2.
    match goal with |- Rabs ?q <= _ => replace q with (h * h / 12 * (D 3%nat z1 + D 3%nat z2)) by (field; lra) end.
    apply abs_le. assert (0 <= h * h) by nra. split; nra.
Qed.

(* derive_twice(): the error of each diagonal entry is at most M6 h^4 / 54 *)
Theorem C109_second_error f x i h D M : 0 < h -> derivatives (along f x i) D 6 ->
  (forall t, x i - 2 * h <= t <= x i + 2 * h -> Rabs (D 6%nat t) <= M) ->
  exists d, seval (SDer2 h i i (SField f)) x = Ok d /\ Rabs (d - D 2%nat (x i)) <= M * h ^ 4 / 54.
Proof.
  intros Hh HD HM. eexists. split.
  - cbn [seval]. apply (diff2_ok _ f). reflexivity.
  - unfold second_difference. rewrite Nat.eqb_refl, !move_set.
    replace (f x) with (along f x i (x i)) by (unfold along; rewrite <- set_self; reflexivity).
    fold (along f x i (x i + 2 * h)) (along f x i (x i + h)) (along f x i (x i + - h)) (along f x i (x i + - (2 * h))).
    replace (x i + - h) with (x i - h) by ring. replace (x i + - (2 * h)) with (x i - 2 * h) by ring.
    set (g := along f x i) in *. set (u := x i) in *.
    destruct (taylor_right g D 6 u h ltac:(lia) HD Hh) as (z1 & Hz1 & E1).
    destruct (taylor_left g D 6 u h ltac:(lia) HD Hh) as (z2 & Hz2 & E2).
    destruct (taylor_right g D 6 u (2 * h) ltac:(lia) HD ltac:(lra)) as (z3 & Hz3 & E3).
    destruct (taylor_left g D 6 u (2 * h) ltac:(lia) HD ltac:(lra)) as (z4 & Hz4 & E4).
    rewrite E1, E2, E3, E4. rewrite <- (proj1 HD u). cbn.
    generalize (abs_bounds _ _ (HM z1 ltac:(lra))) (abs_bounds _ _ (HM z2 ltac:(lra)))
      (abs_bounds _ _ (HM z3 ltac:(lra))) (abs_bounds _ _ (HM z4 ltac:(lra))). intros B1 B2 B3 B4.
    match goal with |- Rabs ?q <= _ =>
      replace q with (h ^ 4 / 8640 * (16 * D 6%nat z1 + 16 * D 6%nat z2 - 64 * D 6%nat z3 - 64 * D 6%nat z4)) by (field; lra) end.
    change (h * (h * (h * (h * 1)))) with (h ^ 4).
    assert (0 <= h ^ 4) by (apply pow_le; lra). apply abs_le. split; nra.
Qed.
(* non-vacuity: sin along an axis, all derivatives bounded by one *)
Example C109_example x i : derivatives (along (fun y => sin (y i)) x i)
    (fun k t => match k with O => sin t | 1%nat => cos t | 2%nat => - sin t | _ => - cos t end) 3%nat /\
  forall t, Rabs (- cos t) <= 1.
Proof.
  split; [split|].
  - intros t. unfold along, FieldModel.set. rewrite Nat.eqb_refl. reflexivity.
  - intros k t Hk. destruct k as [|[|[|k]]]; [| | |lia]; cbn.
    + apply derivable_pt_lim_sin.
    + apply derivable_pt_lim_cos.
    + apply derivable_pt_lim_opp, derivable_pt_lim_sin.
  - intros t. apply abs_le. generalize (COS_bound t). lra.
Qed.
