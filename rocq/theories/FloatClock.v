(* C216: clockwise_order in double precision. *)
From Coq Require Import Reals Lra Lia List Bool ZArith.
From Flocq Require Import Core IEEE754.BinarySingleNaN.
From Verif Require Import Base SymbolsModel SymbolsProps FloatModel FloatProps FloatSearch FloatSplineModel FloatSpline FloatClockModel.
From Verif Require SimplexModel ClockProps TraitsProps.
Import ListNotations.
Open Scope R_scope.

#[local] Instance vfexp7 : Valid_exp (SpecFloat.fexp 53 1024) := @fexp_correct 53 1024 prec64.
(* the points of a grid: integer multiples, below 2^25, of a power of two *)
Definition on_grid (e : Z) (x : double) : Prop := fin x = true /\ exists n : Z, (Z.abs n < 2 ^ 25)%Z /\ B2 x = IZR n * bpow radix2 e.
Definition grid_point (e : Z) (p : dpoint) : Prop := on_grid e (fst p) /\ on_grid e (snd p).
Definition value (p : dpoint) : R * R := (B2 (fst p), B2 (snd p)).

(* ------------------------------------------------------------------ comparisons of arbitrary doubles *)
Lemma dlt_asym (x y : double) : dlt x y = true -> dlt y x = false.
Proof.
  unfold dlt, Bltb, SpecFloat.SFltb. intros E. assert (C := @Bcompare_swap 53 1024 x y). unfold Bcompare in C. rewrite C.
  destruct (SpecFloat.SFcompare (B2SF x) (B2SF y)) as [[]|]; cbn in *; congruence.
Qed.
Lemma dle_not_dlt (x : double) : dle d0 x = true -> dlt x d0 = false.
Proof.
  unfold dle, Bleb, SpecFloat.SFleb, dlt, Bltb, SpecFloat.SFltb. intros E. assert (C := @Bcompare_swap 53 1024 d0 x). unfold Bcompare in C. rewrite C.
  destruct (SpecFloat.SFcompare (B2SF d0) (B2SF x)) as [[]|]; cbn in *; congruence.
Qed.
Lemma dsub_sign (x y : double) : dlt (dsub x y) d0 = dlt d0 (dsub y x).
Proof.
  destruct (fin x) eqn:Fx, (fin y) eqn:Fy.
  - assert (Hx := @Bminus_correct 53 1024 prec64 emax64 mode_NE x y Fx Fy). assert (Hy := @Bminus_correct 53 1024 prec64 emax64 mode_NE y x Fy Fx).
    fold (dsub x y) in Hx. fold (dsub y x) in Hy. assert (E : rnd (B2 y - B2 x) = - rnd (B2 x - B2 y)) by (rewrite <- rnd_opp; f_equal; ring).
    change (BinarySingleNaN.round_mode mode_NE) with (round_mode mode_NE) in *. rewrite E, Rabs_Ropp in Hy.
    destruct (Rlt_bool_spec (Rabs (rnd (B2 x - B2 y))) (bpow radix2 1024)) as [L|L].
    + destruct Hx as (X1 & X2 & _). destruct Hy as (Y1 & Y2 & _). change (B2 (dsub x y) = rnd (B2 x - B2 y)) in X1. change (B2 (dsub y x) = - rnd (B2 x - B2 y)) in Y1. apply eq_iff_eq_true. rewrite (dlt_fin (dsub x y) d0 X2 eq_refl), (dlt_fin d0 (dsub y x) eq_refl Y2), X1, Y1. change (B2 d0) with 0. lra.
    + destruct Hx as (X1 & X2). destruct Hy as (Y1 & _). destruct (dsub x y) as [s|s| |s m e H]; try discriminate. destruct (dsub y x) as [s'|s'| |s' m' e' H']; try discriminate.
      cbn in X1, Y1. injection X1 as ->. injection Y1 as ->. rewrite X2. destruct (Bsign y); reflexivity.
  - destruct x as [sa|[|]| |[|] ma ea Ha], y as [sb|[|]| |sb mb eb Hb]; try discriminate; reflexivity.
  - destruct x as [sa|[|]| |[|] ma ea Ha], y as [sb|[|]| |[|] mb eb Hb]; try discriminate; reflexivity.
  - destruct x as [sa|[|]| |[|] ma ea Ha], y as [sb|[|]| |[|] mb eb Hb]; try discriminate; reflexivity.
Qed.
(* C216: whatever the doubles, infinities and NaN included, no two points are each before the other *)
Theorem C216_asymmetric (c a b : dpoint) : f_clockwise c a b = true -> f_clockwise c b a = false.
Proof.
  unfold f_clockwise. set (ax := dsub (fst a) (fst c)). set (ay := dsub (snd a) (snd c)). set (bx := dsub (fst b) (fst c)). set (by_ := dsub (snd b) (snd c)). cbv zeta.
  rewrite (andb_comm (deq bx d0)), (orb_comm (dle d0 by_)).
  destruct (dle d0 ax && dlt bx d0) eqn:E1.
  - intros _. apply andb_true_iff in E1 as [E1 E2]. rewrite (dle_not_dlt ax E1), andb_false_r. reflexivity.
  - destruct (dle d0 bx && dlt ax d0) eqn:E2; [discriminate|]. destruct (deq ax d0 && deq bx d0).
    + destruct (dle d0 ay || dle d0 by_); apply dlt_asym.
    + rewrite (dsub_sign (dmul ax by_) (dmul bx ay)), (dsub_sign (dmul bx ay) (dmul ax by_)). set (s := dsub (dmul ax by_) (dmul bx ay)). set (s' := dsub (dmul bx ay) (dmul ax by_)).
      assert (S1 : dlt s d0 = dlt d0 s') by apply dsub_sign. assert (S2 : dlt s' d0 = dlt d0 s) by apply dsub_sign.
      destruct (dlt d0 s') eqn:E3; [|destruct (dlt d0 s) eqn:E4; [discriminate|apply dlt_asym]].
      intros _. rewrite (dlt_asym s d0) by congruence. reflexivity.
Qed.
Corollary C216_irreflexive (c a : dpoint) : f_clockwise c a a = false.
Proof. destruct (f_clockwise c a a) eqn:E; [|reflexivity]. now rewrite (C216_asymmetric c a a E) in E. Qed.

(* ------------------------------------------------------------------ grids of doubles: every operation is exact *)
Definition rep (e n : Z) (x : double) : Prop := fin x = true /\ B2 x = IZR n * bpow radix2 e.
Lemma grid_small n e : (Z.abs n < 2 ^ 53)%Z -> (-1074 <= e <= 900)%Z -> rnd (IZR n * bpow radix2 e) = IZR n * bpow radix2 e /\ Rabs (IZR n * bpow radix2 e) <= bpow radix2 (53 + e).
Proof.
  intros Hn He. split.
  - change (IZR n * bpow radix2 e) with (F2R (Float radix2 n e)). apply round_generic; [typeclasses eauto|]. apply generic_format_FLT. exists (Float radix2 n e); cbn; [reflexivity|exact Hn|lia].
  - rewrite Rabs_mult, (Rabs_pos_eq (bpow radix2 e)) by apply bpow_ge_0. rewrite bpow_plus. apply Rmult_le_compat_r; [apply bpow_ge_0|]. rewrite <- abs_IZR. change (bpow radix2 53) with (IZR (2 ^ 53)). apply IZR_le. lia.
Qed.
Lemma rep_sub e n m x y : (-1074 <= e <= 900)%Z -> rep e n x -> rep e m y -> (Z.abs (n - m) < 2 ^ 53)%Z -> rep e (n - m) (dsub x y) /\ B2 (dsub x y) = B2 x - B2 y.
Proof.
  intros He [Fx Ex] [Fy Ey] H. destruct (grid_small (n - m) e H He) as [G1 G2]. assert (E : B2 x - B2 y = IZR (n - m) * bpow radix2 e) by (rewrite Ex, Ey, minus_IZR; ring).
  destruct (dsub_ok x y (53 + e) ltac:(lia) Fx Fy) as (F1 & F2 & _); [now rewrite E|]. rewrite E, G1, <- E in F2. split; [split; [exact F1|congruence]|exact F2].
Qed.
Lemma rep_add e n m x y : (-1074 <= e <= 900)%Z -> rep e n x -> rep e m y -> (Z.abs (n + m) < 2 ^ 53)%Z -> rep e (n + m) (dadd x y) /\ B2 (dadd x y) = B2 x + B2 y.
Proof.
  intros He [Fx Ex] [Fy Ey] H. destruct (grid_small (n + m) e H He) as [G1 G2]. assert (E : B2 x + B2 y = IZR (n + m) * bpow radix2 e) by (rewrite Ex, Ey, plus_IZR; ring).
  destruct (dadd_ok x y (53 + e) ltac:(lia) Fx Fy) as (F1 & F2); [now rewrite E|]. rewrite E, G1, <- E in F2. split; [split; [exact F1|congruence]|exact F2].
Qed.
Lemma rep_mul e n m x y : (-1074 <= e + e <= 900)%Z -> rep e n x -> rep e m y -> (Z.abs (n * m) < 2 ^ 53)%Z -> rep (e + e) (n * m) (dmul x y) /\ B2 (dmul x y) = B2 x * B2 y.
Proof.
  intros He [Fx Ex] [Fy Ey] H. destruct (grid_small (n * m) (e + e) H He) as [G1 G2]. assert (E : B2 x * B2 y = IZR (n * m) * bpow radix2 (e + e)) by (rewrite Ex, Ey, mult_IZR, bpow_plus; ring).
  destruct (dmul_ok x y (53 + (e + e)) ltac:(lia) Fx Fy) as (F1 & F2); [now rewrite E|]. rewrite E, G1, <- E in F2. split; [split; [exact F1|congruence]|exact F2].
Qed.
Lemma bits26 n m : (Z.abs n < 2 ^ 25)%Z -> (Z.abs m < 2 ^ 25)%Z -> (Z.abs (n - m) < 2 ^ 26)%Z.
Proof. change (2 ^ 25)%Z with 33554432%Z. change (2 ^ 26)%Z with 67108864%Z. lia. Qed.
Lemma bits52 n m : (Z.abs n < 2 ^ 26)%Z -> (Z.abs m < 2 ^ 26)%Z -> (Z.abs (n * m) < 2 ^ 52)%Z.
Proof. intros Hn Hm. rewrite Z.abs_mul. change (2 ^ 52)%Z with (2 ^ 26 * 2 ^ 26)%Z. apply Z.mul_lt_mono_nonneg; lia. Qed.
Lemma bits53 n m : (Z.abs n < 2 ^ 52)%Z -> (Z.abs m < 2 ^ 52)%Z -> (Z.abs (n - m) < 2 ^ 53)%Z /\ (Z.abs (n + m) < 2 ^ 53)%Z.
Proof. change (2 ^ 53)%Z with (2 ^ 52 + 2 ^ 52)%Z. lia. Qed.
Lemma less k n : (Z.abs n < 2 ^ k)%Z -> (k <= 53)%Z -> (Z.abs n < 2 ^ 53)%Z.
Proof. intros H K. apply Z.lt_le_trans with (1 := H). apply Z.pow_le_mono_r; lia. Qed.
Lemma dle_leb x : fin x = true -> dle d0 x = SimplexModel.leb_ 0 (B2 x).
Proof. intros F. apply eq_iff_eq_true. rewrite (dle_fin d0 x eq_refl F). change (B2 d0) with 0. unfold SimplexModel.leb_. destruct (Rle_dec 0 (B2 x)); intuition discriminate. Qed.
Lemma deq_eqb x : fin x = true -> deq x d0 = SimplexModel.eqb_ (B2 x) 0.
Proof. intros F. apply eq_iff_eq_true. rewrite (deq_fin x F). unfold SimplexModel.eqb_. destruct (Req_EM_T (B2 x) 0); intuition discriminate. Qed.
Lemma dlt_ltb x y : fin x = true -> fin y = true -> dlt x y = SimplexModel.ltb (B2 x) (B2 y).
Proof. intros F G. apply eq_iff_eq_true. rewrite (dlt_fin x y F G). unfold SimplexModel.ltb. destruct (Rlt_dec (B2 x) (B2 y)); intuition discriminate. Qed.
(* C216: on a grid the comparator is the one of exact arithmetic *)
Theorem C216_exact (e : Z) (c a b : dpoint) : (-500 <= e <= 400)%Z -> grid_point e c -> grid_point e a -> grid_point e b ->
  f_clockwise c a b = SimplexModel.clockwise (value c) (value a) (value b).
Proof.
  intros He [[Fc1 (c1 & Hc1 & Ec1)] [Fc2 (c2 & Hc2 & Ec2)]] [[Fa1 (a1 & Ha1 & Ea1)] [Fa2 (a2 & Ha2 & Ea2)]] [[Fb1 (b1 & Hb1 & Eb1)] [Fb2 (b2 & Hb2 & Eb2)]].
  assert (X1 := bits26 _ _ Ha1 Hc1). assert (X2 := bits26 _ _ Ha2 Hc2). assert (X3 := bits26 _ _ Hb1 Hc1). assert (X4 := bits26 _ _ Hb2 Hc2).
  assert (R1 : (-1074 <= e <= 900)%Z) by lia. assert (R2 : (-1074 <= e + e <= 900)%Z) by lia.
  destruct (rep_sub e a1 c1 (fst a) (fst c) R1 (conj Fa1 Ea1) (conj Fc1 Ec1) (less 26 _ X1 ltac:(lia))) as [P1 Q1].
  destruct (rep_sub e a2 c2 (snd a) (snd c) R1 (conj Fa2 Ea2) (conj Fc2 Ec2) (less 26 _ X2 ltac:(lia))) as [P2 Q2].
  destruct (rep_sub e b1 c1 (fst b) (fst c) R1 (conj Fb1 Eb1) (conj Fc1 Ec1) (less 26 _ X3 ltac:(lia))) as [P3 Q3].
  destruct (rep_sub e b2 c2 (snd b) (snd c) R1 (conj Fb2 Eb2) (conj Fc2 Ec2) (less 26 _ X4 ltac:(lia))) as [P4 Q4].
  unfold f_clockwise, SimplexModel.clockwise, value, f_norm2. cbn [fst snd]. cbv zeta.
  set (ax := dsub (fst a) (fst c)) in *. set (ay := dsub (snd a) (snd c)) in *. set (bx := dsub (fst b) (fst c)) in *. set (by_ := dsub (snd b) (snd c)) in *.
  rewrite <- Q1, <- Q2, <- Q3, <- Q4.
  assert (Y1 := bits52 _ _ X1 X4). assert (Y2 := bits52 _ _ X3 X2). assert (Y3 := bits52 _ _ X1 X1). assert (Y4 := bits52 _ _ X2 X2). assert (Y5 := bits52 _ _ X3 X3). assert (Y6 := bits52 _ _ X4 X4).
  destruct (rep_mul e _ _ ax by_ R2 P1 P4 (less 52 _ Y1 ltac:(lia))) as [M1 N1]. destruct (rep_mul e _ _ bx ay R2 P3 P2 (less 52 _ Y2 ltac:(lia))) as [M2 N2].
  destruct (rep_mul e _ _ ax ax R2 P1 P1 (less 52 _ Y3 ltac:(lia))) as [M3 N3]. destruct (rep_mul e _ _ ay ay R2 P2 P2 (less 52 _ Y4 ltac:(lia))) as [M4 N4].
  destruct (rep_mul e _ _ bx bx R2 P3 P3 (less 52 _ Y5 ltac:(lia))) as [M5 N5]. destruct (rep_mul e _ _ by_ by_ R2 P4 P4 (less 52 _ Y6 ltac:(lia))) as [M6 N6].
  destruct (rep_sub _ _ _ _ _ R2 M1 M2 (proj1 (bits53 _ _ Y1 Y2))) as [S1 T1]. destruct (rep_add _ _ _ _ _ R2 M3 M4 (proj2 (bits53 _ _ Y3 Y4))) as [S2 T2]. destruct (rep_add _ _ _ _ _ R2 M5 M6 (proj2 (bits53 _ _ Y5 Y6))) as [S3 T3].
  destruct P1 as [P1 _], P2 as [P2 _], P3 as [P3 _], P4 as [P4 _], S1 as [S1 _], S2 as [S2 _], S3 as [S3 _].
  rewrite !dle_leb, !deq_eqb, !dlt_ltb by (assumption || reflexivity). rewrite T1, T2, T3, N1, N2, N3, N4, N5, N6. change (B2 d0) with 0. reflexivity.
Qed.
(* C216, the part that holds: on the points of a grid the comparator is a strict weak ordering.  Missing: arbitrary doubles, see C216_refuted. *)
Theorem C216_order_partial (e : Z) (c : dpoint) : (-500 <= e <= 400)%Z -> grid_point e c -> TraitsProps.strict_weak_order (grid_point e) (f_clockwise c).
Proof.
  intros He Hc. destruct (ClockProps.C51_strict_weak_ordering (value c)) as (_ & _ & T & I & _). split; [|split].
  - intros a _. apply C216_irreflexive.
  - intros a b d Ga Gb Gd. rewrite !(C216_exact e) by assumption. apply T.
  - intros a b d Ga Gb Gd. unfold TraitsProps.incomparable. rewrite !(C216_exact e) by assumption. intros [A B] [C D]. now apply (I _ (value b)).
Qed.

(* ------------------------------------------------------------------ ordinary coordinates *)
(* the doubles nearest to (0.03, 0.01), (0.12, 0.04), (0.15, 0.05) and (0.57, 0.19): four points of the line y = x / 3 *)
Definition pa : dpoint := (dbl 1080863910568919 (-55), dbl 5764607523034235 (-59)).
Definition pb : dpoint := (dbl 1080863910568919 (-53), dbl 5764607523034235 (-57)).
Definition pd : dpoint := (dbl 5404319552844595 (-55), dbl 3602879701896397 (-56)).
Definition pz : dpoint := (dbl 5134103575202365 (-53), dbl 3422735716801577 (-54)).
Definition centre : dpoint := f_mean (dbl 4 0) [pa; pb; pd; pz].
(* around their computed mean the comparator goes round in a circle: it is no strict weak ordering *)
Theorem C216_cycle : f_clockwise centre pa pb = true /\ f_clockwise centre pb pd = true /\ f_clockwise centre pd pa = true.
Proof. vm_compute. auto. Qed.
Theorem C216_refuted : ~ (forall (n : double) (ps : list dpoint), ps <> [] -> (forall p, In p ps -> fin (fst p) = true /\ fin (snd p) = true) -> B2 n = INR (length ps) ->
  TraitsProps.strict_weak_order (fun p => In p ps) (f_clockwise (f_mean n ps))).
Proof.
  intros H. destruct (H (dbl 4 0) [pa; pb; pd; pz]) as (I & T & _).
  - discriminate.
  - intros p Hp. cbn [In] in Hp. destruct Hp as [<- |[<- |[<- |[<- |[]]]]]; vm_compute; auto.
  - destruct (B2_dbl 4 0) as [_ ->]; [reflexivity|lia|]. cbn. lra.
  - destruct C216_cycle as (A & B & C). fold centre in I, T. assert (D : f_clockwise centre pa pd = true) by (apply (T pa pb pd); cbn [In]; auto).
    assert (E := C216_asymmetric _ _ _ D). congruence.
Qed.
(* non-vacuity: the corners of a square around its centre, multiples of 1/2 *)
Definition half_pt (x y : Z) : dpoint := (dbl x (-1), dbl y (-1)).
Lemma half_grid x y : (Z.abs x < 2 ^ 25)%Z -> (Z.abs y < 2 ^ 25)%Z -> grid_point (-1) (half_pt x y).
Proof.
  intros Hx Hy. destruct (B2_dbl x (-1)) as [F1 E1]; [apply (less 25 _ Hx); lia|lia|]. destruct (B2_dbl y (-1)) as [F2 E2]; [apply (less 25 _ Hy); lia|lia|].
  split; (split; [assumption|]); [exists x|exists y]; auto.
Qed.
Example C216_example : (forall p, In p [half_pt 1 1; half_pt 0 0; half_pt 2 0; half_pt 2 2; half_pt 0 2] -> grid_point (-1) p) /\
  f_clockwise (half_pt 1 1) (half_pt 2 2) (half_pt 2 0) = true /\ f_clockwise (half_pt 1 1) (half_pt 2 0) (half_pt 0 0) = true /\ f_clockwise (half_pt 1 1) (half_pt 0 0) (half_pt 0 2) = true.
Proof.
  split; [|vm_compute; auto]. intros p Hp. cbn [In] in Hp. destruct Hp as [<- |[<- |[<- |[<- |[<- |[]]]]]]; apply half_grid; reflexivity.
Qed.
Print Assumptions C216_order_partial.
Print Assumptions C216_refuted.
