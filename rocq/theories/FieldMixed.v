(* C109: accuracy of the mixed entries of derive_twice() on smooth fields. *)
From Verif Require Import Base RSum SimplexModel FieldModel FieldProps FieldErr.
From Coquelicot Require Import Coquelicot.

Lemma central g D u h M : 0 < h -> derivatives g D 3 -> (forall t, u - h <= t <= u + h -> Rabs (D 3%nat t) <= M) ->
  Rabs ((g (u + h) - g (u - h)) / (2 * h) - D 1%nat u) <= M * (h * h) / 6.
Proof.
  intros Hh HD HM.
  destruct (taylor_right g D 3 u h ltac:(lia) HD Hh) as (z1 & Hz1 & E1).
  destruct (taylor_left g D 3 u h ltac:(lia) HD Hh) as (z2 & Hz2 & E2).
  rewrite E1, E2. cbn.
  generalize (abs_bounds _ _ (HM z1 ltac:(lra))) (abs_bounds _ _ (HM z2 ltac:(lra))). intros B1 B2.
  match goal with |- Rabs ?q <= _ => replace q with (h * h / 12 * (D 3%nat z1 + D 3%nat z2)) by (field; lra) end.
  apply abs_le. assert (0 <= h * h) by nra. split; nra.
Qed.
Lemma derivatives_minus g1 g2 D1 D2 n : derivatives g1 D1 n -> derivatives g2 D2 n ->
  derivatives (fun s => g1 s - g2 s) (fun k s => D1 k s - D2 k s) n.
Proof.
  intros [A1 B1] [A2 B2]. split.
  - intros t. rewrite A1, A2. reflexivity.
  - intros k t Hk. apply derivable_pt_lim_minus; auto.
Qed.

Lemma central_mixed (F : R -> R -> R) a0 b0 h P Q M1 M2 : 0 < h ->
  (forall t, derivatives (fun s => F s t) (fun k s => P k s t) 3) -> derivatives (P 1%nat a0) Q 3 ->
  (forall t, b0 - h <= t <= b0 + h -> Rabs (Q 3%nat t) <= M1) ->
  (forall s, a0 - h <= s <= a0 + h -> Rabs (P 3%nat s (b0 + h) - P 3%nat s (b0 - h)) <= M2 * (2 * h)) ->
  Rabs ((F (a0 + h) (b0 + h) - F (a0 + h) (b0 - h) + F (a0 - h) (b0 - h) - F (a0 - h) (b0 + h)) / (4 * h * h) - Q 1%nat b0) <= (M1 + M2) * (h * h) / 6.
Proof.
  intros Hh HP HQ HM1 HM2.
  generalize (central _ _ a0 h (M2 * (2 * h)) Hh (derivatives_minus _ _ _ _ 3 (HP (b0 + h)) (HP (b0 - h)))
    (fun s Hs => HM2 s Hs)). cbv beta. intros C1.
  generalize (central _ _ b0 h M1 Hh HQ HM1). intros C2.
  set (a := F (a0 + h) (b0 + h)) in *. set (b := F (a0 + h) (b0 - h)) in *.
  set (c := F (a0 - h) (b0 - h)) in *. set (d := F (a0 - h) (b0 + h)) in *.
  set (p := P 1%nat a0 (b0 + h) - P 1%nat a0 (b0 - h)) in *.
  replace ((a - b + c - d) / (4 * h * h) - Q 1%nat b0)
    with (((a - b - (d - c)) / (2 * h) - p) / (2 * h) + (p / (2 * h) - Q 1%nat b0)) by (field; lra).
  eapply Rle_trans; [apply Rabs_triang|].
  assert (Rabs (((a - b - (d - c)) / (2 * h) - p) / (2 * h)) <= M2 * (h * h) / 6).
  { unfold Rdiv at 1. rewrite Rabs_mult, (Rabs_right (/ (2 * h))) by (apply Rle_ge, Rlt_le, Rinv_0_lt_compat; lra).
    apply Rle_trans with (M2 * (2 * h) * (h * h) / 6 * / (2 * h)).
    - apply Rmult_le_compat_r; [apply Rlt_le, Rinv_0_lt_compat; lra|exact C1].
    - right. field. lra. }
  lra.
Qed.
(* P k s t is the derivative of order k of the field along axis i, s and t being the coordinates i and j; Q l t the derivatives
   of P 1 (x i) along axis j, so that Q 1 (x j) is the mixed derivative; M1 bounds the derivative of orders (1, 3) and
   M2 the one of orders (3, 1) *)
Theorem C109_mixed_error f x i j h P Q M1 M2 : 0 < h -> i <> j ->
  (forall t, derivatives (fun s => along2 f x i j s t) (fun k s => P k s t) 3) ->
  derivatives (P 1%nat (x i)) Q 3 ->
  (forall t, x j - h <= t <= x j + h -> Rabs (Q 3%nat t) <= M1) ->
  (forall s, x i - h <= s <= x i + h -> Rabs (P 3%nat s (x j + h) - P 3%nat s (x j - h)) <= M2 * (2 * h)) ->
  exists d, seval (SDer2 h i j (SField f)) x = Ok d /\ Rabs (d - Q 1%nat (x j)) <= (M1 + M2) * (h * h) / 6.
Proof.
  intros Hh Hij HP HQ HM1 HM2. eexists. split.
  - cbn [seval]. apply (diff2_ok _ f). reflexivity.
  - unfold second_difference. rewrite (proj2 (Nat.eqb_neq i j) Hij).
    assert (E : forall a b, move (move x i a) j b = set (set x i (x i + a)) j (x j + b)).
    { intros a b. apply FunctionalExtensionality.functional_extensionality; intros k. unfold move, set.
      destruct (Nat.eqb_spec k j), (Nat.eqb_spec k i); subst; try reflexivity. congruence. }
    rewrite !E. replace (x i + - h) with (x i - h) by ring. replace (x j + - h) with (x j - h) by ring.
    exact (central_mixed (along2 f x i j) (x i) (x j) h P Q M1 M2 Hh HP HQ HM1 HM2).
Qed.
(* non-vacuity: sin(x_0) cos(x_1) *)
Example C109_mixed_example x h : 0 < h ->
  exists d, seval (SDer2 h 0 1 (SField (fun y => sin (y 0%nat) * cos (y 1%nat)))) x = Ok d /\
    Rabs (d - - (cos (x 0%nat) * sin (x 1%nat))) <= h * h / 3.
Proof.
  intros Hh.
  destruct (C109_mixed_error (fun y => sin (y 0%nat) * cos (y 1%nat)) x 0 1 h
    (fun k s t => cos t * match k with O => sin s | 1%nat => cos s | 2%nat => - sin s | _ => - cos s end)
    (fun l t => cos (x 0%nat) * match l with O => cos t | 1%nat => - sin t | 2%nat => - cos t | _ => sin t end) 1 1 Hh) as (d & E & B).
  - lia.
  - intros t. split.
    + intros s. unfold along2, set. cbn. ring.
    + intros k s Hk. destruct k as [|[|[|k]]]; [| | |lia]; apply (derivable_pt_lim_scal _ (cos t)).
      * apply derivable_pt_lim_sin.
      * apply derivable_pt_lim_cos.
      * apply derivable_pt_lim_opp, derivable_pt_lim_sin.
  - split; [intros t; ring|]. intros k t Hk. destruct k as [|[|[|k]]]; [| | |lia]; apply (derivable_pt_lim_scal _ (cos (x 0%nat))).
    + apply derivable_pt_lim_cos.
    + apply derivable_pt_lim_opp, derivable_pt_lim_sin.
    + replace (sin t) with (- - sin t) by ring. apply derivable_pt_lim_opp, derivable_pt_lim_cos.
  - intros t _. rewrite Rabs_mult. rewrite <- (Rmult_1_l 1). apply Rmult_le_compat; try apply Rabs_pos; apply abs_le; [generalize (COS_bound (x 0%nat))|generalize (SIN_bound t)]; lra.
  - intros s _. rewrite <- Rmult_minus_distr_r, Rabs_mult, Rmult_comm, cos_plus, cos_minus.
    replace (cos (x 1%nat) * cos h - sin (x 1%nat) * sin h - (cos (x 1%nat) * cos h + sin (x 1%nat) * sin h)) with (- 2 * sin (x 1%nat) * sin h) by ring.
    apply Rmult_le_compat; try apply Rabs_pos; [apply abs_le; generalize (COS_bound s); lra|].
    rewrite !Rabs_mult. rewrite (Rabs_left (-2)) by lra.
    assert (Rabs (sin (x 1%nat)) <= 1) by (apply abs_le; generalize (SIN_bound (x 1%nat)); lra).
    assert (Rabs (sin h) <= h).
    { destruct (Rle_lt_dec h 1) as [H1|H1].
      - assert (h < PI) by (generalize PI2_1; lra). apply abs_le. generalize (sin_lt_x h Hh) (sin_ge_0 h ltac:(lra) ltac:(lra)). lra.
      - apply abs_le. generalize (SIN_bound h). lra. }
    generalize (Rabs_pos (sin (x 1%nat))) (Rabs_pos (sin h)). intros. nra.
  - exists d. split; [exact E|]. replace (h * h / 3) with ((1 + 1) * (h * h) / 6) by field. 
    replace (- (cos (x 0%nat) * sin (x 1%nat))) with (cos (x 0%nat) * - sin (x 1%nat)) by ring. exact B.
Qed.
Print Assumptions C109_mixed_error.
