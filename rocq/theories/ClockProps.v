(* clockwise_order (C51). *)
From Verif Require Import SimplexModel SimplexProps.

(* Sorting key of a point given relative to the centre: which part of the turn it is on, starting from
   twelve o'clock, then its direction, then its distance (farther first). *)
Definition turn (x y : R) : R :=
  if Rlt_dec 0 x then 1
  else if Rlt_dec x 0 then 4
  else if Rlt_dec 0 y then 0
  else if Rlt_dec y 0 then 3 else 2.
Definition direction (x y : R) : R := if Req_EM_T x 0 then - Rabs y else - (y / x).
Definition nearness (x : R) : R := - Rabs x.
Definition lex (a b : R * R * R) : Prop :=
  fst (fst a) < fst (fst b) \/ fst (fst a) = fst (fst b) /\
    (snd (fst a) < snd (fst b) \/ snd (fst a) = snd (fst b) /\ snd a < snd b).
Definition key (c a : R * R) : R * R * R :=
  let x := fst a - fst c in let y := snd a - snd c in (turn x y, direction x y, nearness x).

Lemma leb_true : forall a b, leb_ a b = true <-> a <= b.
Proof. intros a b. unfold leb_. destruct (Rle_dec a b); split; auto; discriminate. Qed.
Lemma leb_false : forall a b, leb_ a b = false <-> b < a.
Proof. intros a b. unfold leb_. destruct (Rle_dec a b); split; intros; try discriminate; auto; lra. Qed.
Lemma eqb_true : forall a b, eqb_ a b = true <-> a = b.
Proof. intros a b. unfold eqb_. destruct (Req_EM_T a b); split; auto; discriminate. Qed.

(* same side of the vertical line: the cross product compares slopes *)
Lemma slope_lt : forall ax ay bx by_, 0 < ax * bx -> (ax * by_ - bx * ay < 0 <-> by_ / bx < ay / ax).
Proof.
  intros ax ay bx by_ H. assert (ax <> 0) by (intros ->; lra). assert (bx <> 0) by (intros ->; lra).
  assert (E : by_ / bx - ay / ax = (ax * by_ - bx * ay) * / (ax * bx)) by (field; auto).
  assert (Hi : 0 < / (ax * bx)) by (now apply Rinv_0_lt_compat).
  split; intros G.
  - assert ((ax * by_ - bx * ay) * / (ax * bx) < 0) by nra. lra.
  - assert ((ax * by_ - bx * ay) * / (ax * bx) < 0) by lra. nra.
Qed.
Lemma slope_eq : forall ax ay bx by_, 0 < ax * bx -> (ax * by_ - bx * ay = 0 <-> by_ / bx = ay / ax).
Proof.
  intros ax ay bx by_ H. assert (ax <> 0) by (intros ->; lra). assert (bx <> 0) by (intros ->; lra).
  assert (E : by_ / bx - ay / ax = (ax * by_ - bx * ay) * / (ax * bx)) by (field; auto).
  assert (Hi : 0 < / (ax * bx)) by (now apply Rinv_0_lt_compat).
  split; intros G; [rewrite G in E; lra|]. assert ((ax * by_ - bx * ay) * / (ax * bx) = 0) by lra.
  apply Rmult_integral in H2. destruct H2; auto; lra.
Qed.

Lemma far_lt : forall m s t, 0 < s -> 0 < t -> (s * s + m * s * (m * s) < t * t + m * t * (m * t) <-> s < t).
Proof.
  intros m s t Hs Ht. assert (Hm : 0 <= m * m) by nra.
  replace (s * s + m * s * (m * s)) with ((1 + m * m) * (s * s)) by ring. replace (t * t + m * t * (m * t)) with ((1 + m * m) * (t * t)) by ring.
  split; intros H.
  - apply Rmult_lt_reg_l in H; [|lra]. nra.
  - apply Rmult_lt_compat_l; [lra|]. nra.
Qed.
(* the comparator on relative coordinates *)
Definition cmp (ax ay bx by_ : R) : Prop :=
  (0 <= ax /\ bx < 0) \/
  (~ (0 <= bx /\ ax < 0) /\
   ((ax = 0 /\ bx = 0 /\ ((0 <= ay \/ 0 <= by_) /\ by_ < ay \/ ~ (0 <= ay \/ 0 <= by_) /\ ay < by_)) \/
    (~ (ax = 0 /\ bx = 0) /\
     (ax * by_ - bx * ay < 0 \/ (ax * by_ - bx * ay = 0 /\ bx * bx + by_ * by_ < ax * ax + ay * ay))))).
Lemma clockwise_cmp : forall c a b, clockwise c a b = true <->
  cmp (fst a - fst c) (snd a - snd c) (fst b - fst c) (snd b - snd c).
Proof.
  intros c a b. unfold clockwise, cmp.
  set (ax := fst a - fst c). set (ay := snd a - snd c). set (bx := fst b - fst c). set (by_ := snd b - snd c).
  assert (Hay : snd a = ay + snd c) by (unfold ay; lra). assert (Hby : snd b = by_ + snd c) by (unfold by_; lra).
  rewrite Hay, Hby. clearbody ax ay bx by_. clear Hay Hby.
  unfold leb_, ltb, eqb_.
  repeat match goal with
  | |- context [Rle_dec ?u ?v] => destruct (Rle_dec u v)
  | |- context [Rlt_dec ?u ?v] => destruct (Rlt_dec u v)
  | |- context [Req_EM_T ?u ?v] => destruct (Req_EM_T u v)
  end; cbn [andb orb]; split; intros HH; try discriminate; try reflexivity; try lra.
Qed.

Lemma cmp_key : forall ax ay bx by_, cmp ax ay bx by_ <->
  lex (turn ax ay, direction ax ay, nearness ax) (turn bx by_, direction bx by_, nearness bx).
Proof.
  intros ax ay bx by_. unfold lex. cbn [fst snd].
  destruct (Rtotal_order ax 0) as [Ha|[Ha|Ha]]; destruct (Rtotal_order bx 0) as [Hb|[Hb|Hb]].
  - (* both left *)
    unfold turn, direction, nearness. destruct (Rlt_dec 0 ax); [lra|]; destruct (Rlt_dec ax 0); [|lra].
    destruct (Rlt_dec 0 bx); [lra|]; destruct (Rlt_dec bx 0); [|lra].
    destruct (Req_EM_T ax 0); [lra|]. destruct (Req_EM_T bx 0); [lra|].
    rewrite !Rabs_left by auto. assert (Hp : 0 < ax * bx) by nra.
    assert (S1 := slope_lt ax ay bx by_ Hp). assert (S2 := slope_eq ax ay bx by_ Hp).
    assert (D : ax * by_ - bx * ay = 0 -> (bx * bx + by_ * by_ < ax * ax + ay * ay <-> ax < bx)).
    { intros G. assert (by_ = ay / ax * bx) by (field_simplify; [|lra]; apply (Rmult_eq_reg_l ax); [field_simplify; lra|lra]).
      set (m := ay / ax) in *. assert (ay = m * ax) by (unfold m; field; lra). subst by_. rewrite H0.
      clear -Ha Hb. assert (F := far_lt m (- bx) (- ax) ltac:(lra) ltac:(lra)).
      replace (bx * bx + m * bx * (m * bx)) with (- bx * - bx + m * - bx * (m * - bx)) by ring.
      replace (ax * ax + m * ax * (m * ax)) with (- ax * - ax + m * - ax * (m * - ax)) by ring. rewrite F. split; intros; lra. }
    unfold cmp. split.
    + intros [[X Y]|[_ [[X _]|[_ [X|[X Y]]]]]];
      first [lra | right; split; auto; left; apply S1 in X; lra
            | right; split; auto; right; pose proof X as X'; apply S2 in X; split; [lra|]; apply D in Y; auto; lra].
    + intros [X|[_ [X|[X Y]]]]; [lra| |]; right; (split; [lra|]); right; (split; [lra|]).
      * left. apply S1. lra.
      * right. assert (X' : ax * by_ - bx * ay = 0) by (apply S2; lra). split; auto. apply D; auto. lra.
  - unfold turn, direction, nearness, cmp. destruct (Rlt_dec 0 ax); [lra|]; destruct (Rlt_dec ax 0); [|lra].
    destruct (Rlt_dec 0 bx); [lra|]; destruct (Rlt_dec bx 0); [lra|]. destruct (Rlt_dec 0 by_); [|destruct (Rlt_dec by_ 0)]; split; intros; lra.
  - unfold turn, direction, nearness, cmp. destruct (Rlt_dec 0 ax); [lra|]; destruct (Rlt_dec ax 0); [|lra].
    destruct (Rlt_dec 0 bx); [|lra]. split; intros; lra.
  - unfold turn, direction, nearness, cmp. destruct (Rlt_dec 0 ax); [lra|]; destruct (Rlt_dec ax 0); [lra|].
    destruct (Rlt_dec 0 bx); [lra|]; destruct (Rlt_dec bx 0); [|lra]. destruct (Rlt_dec 0 ay); [|destruct (Rlt_dec ay 0)]; split; intros; lra.
  - (* both on the vertical line *)
    unfold turn, direction, nearness, cmp. subst ax bx. destruct (Rlt_dec 0 0); [lra|].
    destruct (Req_EM_T 0 0); [|lra]. rewrite Rabs_R0.
    destruct (Rlt_dec 0 ay); [|destruct (Rlt_dec ay 0)]; (destruct (Rlt_dec 0 by_); [|destruct (Rlt_dec by_ 0)]);
      rewrite ?(Rabs_right ay), ?(Rabs_left ay), ?(Rabs_right by_), ?(Rabs_left by_) by lra; split; intros; lra.
  - unfold turn, direction, nearness, cmp. subst ax. destruct (Rlt_dec 0 0); [lra|]. destruct (Rlt_dec 0 bx); [|lra].
    destruct (Rlt_dec 0 ay); [|destruct (Rlt_dec ay 0)]; split; intros; try nra.
  - unfold turn, direction, nearness, cmp. destruct (Rlt_dec 0 ax); [|lra].
    destruct (Rlt_dec 0 bx); [lra|]; destruct (Rlt_dec bx 0); [|lra]. split; intros; lra.
  - unfold turn, direction, nearness, cmp. subst bx. destruct (Rlt_dec 0 0); [lra|]. destruct (Rlt_dec 0 ax); [|lra].
    destruct (Rlt_dec 0 by_); [|destruct (Rlt_dec by_ 0)]; split; intros; try nra.
  - (* both right *)
    unfold turn, direction, nearness. destruct (Rlt_dec 0 ax); [|lra]. destruct (Rlt_dec 0 bx); [|lra].
    destruct (Req_EM_T ax 0); [lra|]. destruct (Req_EM_T bx 0); [lra|].
    rewrite !Rabs_right by lra. assert (Hp : 0 < ax * bx) by nra.
    assert (S1 := slope_lt ax ay bx by_ Hp). assert (S2 := slope_eq ax ay bx by_ Hp).
    assert (D : ax * by_ - bx * ay = 0 -> (bx * bx + by_ * by_ < ax * ax + ay * ay <-> bx < ax)).
    { intros G. assert (by_ = ay / ax * bx) by (field_simplify; [|lra]; apply (Rmult_eq_reg_l ax); [field_simplify; lra|lra]).
      set (m := ay / ax) in *. assert (ay = m * ax) by (unfold m; field; lra). subst by_. rewrite H0.
      apply far_lt; auto. }
    unfold cmp. split.
    + intros [[X Y]|[_ [[X _]|[_ [X|[X Y]]]]]];
      first [lra | right; split; auto; left; apply S1 in X; lra
            | right; split; auto; right; pose proof X as X'; apply S2 in X; split; [lra|]; apply D in Y; auto; lra].
    + intros [X|[_ [X|[X Y]]]]; [lra| |]; right; (split; [lra|]); right; (split; [lra|]).
      * left. apply S1. lra.
      * right. assert (X' : ax * by_ - bx * ay = 0) by (apply S2; lra). split; auto. apply D; auto. lra.
Qed.

(* points are ordered by turn, direction and distance, as the name says *)
Theorem C51_sorts_by_turn : forall c a b, clockwise c a b = true <-> lex (key c a) (key c b).
Proof. intros. rewrite clockwise_cmp, cmp_key. reflexivity. Qed.
Lemma key_inj : forall c a b, key c a = key c b -> a = b.
Proof.
  intros [cx cy] [ax ay] [bx by_] H. unfold key in H. cbn [fst snd] in H. injection H as H1 H2 H3.
  set (x := ax - cx) in *. set (y := ay - cy) in *. set (u := bx - cx) in *. set (v := by_ - cy) in *.
  assert (G : x = u /\ y = v).
  { unfold nearness in H3. unfold turn in H1. unfold direction in H2.
    destruct (Rlt_dec 0 x); destruct (Rlt_dec 0 u); try (destruct (Rlt_dec u 0)); try (destruct (Rlt_dec x 0));
      repeat (match type of H1 with context [Rlt_dec ?a ?b] => destruct (Rlt_dec a b) end); try lra.
    - rewrite !Rabs_right in H3 by lra. assert (E : x = u) by lra. split; auto. destruct (Req_EM_T x 0); [lra|]. destruct (Req_EM_T u 0); [lra|].
      rewrite <- E in H2. apply (Rmult_eq_reg_r (/ x)); [unfold Rdiv in H2; lra|apply Rinv_neq_0_compat; lra].
    - rewrite !Rabs_left in H3 by lra. assert (E : x = u) by lra. split; auto. destruct (Req_EM_T x 0); [lra|]. destruct (Req_EM_T u 0); [lra|].
      rewrite <- E in H2. apply (Rmult_eq_reg_r (/ x)); [unfold Rdiv in H2; lra|apply Rinv_neq_0_compat; lra].
    - assert (x = 0) by lra. assert (u = 0) by lra. split; [lra|]. destruct (Req_EM_T x 0); [|lra]. destruct (Req_EM_T u 0); [|lra].
      rewrite !Rabs_right in H2 by lra. lra.
    - assert (x = 0) by lra. assert (u = 0) by lra. split; [lra|]. destruct (Req_EM_T x 0); [|lra]. destruct (Req_EM_T u 0); [|lra].
      rewrite !Rabs_left in H2 by lra. lra. }
  destruct G as [G1 G2]. unfold x, u, y, v in *. f_equal; lra.
Qed.

(* C51: irreflexive, asymmetric, transitive, with transitive incomparability; in fact incomparable points
   coincide *)
Theorem C51_strict_weak_ordering : forall c,
  (forall a, clockwise c a a = false) /\
  (forall a b, clockwise c a b = true -> clockwise c b a = false) /\
  (forall a b d, clockwise c a b = true -> clockwise c b d = true -> clockwise c a d = true) /\
  (forall a b d, clockwise c a b = false -> clockwise c b a = false -> clockwise c b d = false -> clockwise c d b = false ->
     clockwise c a d = false /\ clockwise c d a = false) /\
  (forall a b, clockwise c a b = false -> clockwise c b a = false -> a = b).
Proof.
  intros c.
  assert (N : forall a b, clockwise c a b = false <-> ~ lex (key c a) (key c b)).
  { intros a b. rewrite <- C51_sorts_by_turn. destruct (clockwise c a b); split; congruence. }
  assert (EQ : forall a b, clockwise c a b = false -> clockwise c b a = false -> a = b).
  { intros a b H1 H2. apply N in H1, H2. apply (key_inj c). unfold lex in *.
    destruct (key c a) as [[t1 d1] n1]. destruct (key c b) as [[t2 d2] n2]. cbn [fst snd] in *.
    assert (t1 = t2) by lra. assert (d1 = d2) by lra. assert (n1 = n2) by lra. subst. reflexivity. }
  split; [|split; [|split; [|split]]].
  - intros a. apply N. unfold lex. lra.
  - intros a b H. apply C51_sorts_by_turn in H. apply N. unfold lex in *. lra.
  - intros a b d H1 H2. apply C51_sorts_by_turn in H1, H2. apply C51_sorts_by_turn. unfold lex in *. lra.
  - intros a b d H1 H2 H3 H4. assert (a = b) by auto. assert (b = d) by auto. subst. auto.
  - exact EQ.
Qed.
(* the corners of a square around its centre *)
Example clockwise_square : clockwise (0, 0) (1, 1) (1, -1) = true /\ clockwise (0, 0) (1, -1) (-1, -1) = true /\
  clockwise (0, 0) (-1, -1) (-1, 1) = true.
Proof.
  unfold clockwise, leb_, ltb, eqb_. cbn [fst snd]. repeat split;
  repeat (match goal with |- context [Rle_dec ?u ?v] => destruct (Rle_dec u v); try lra
  | |- context [Rlt_dec ?u ?v] => destruct (Rlt_dec u v); try lra | |- context [Req_EM_T ?u ?v] => destruct (Req_EM_T u v); try lra end; cbn [andb orb]); auto; lra.
Qed.
Print Assumptions C51_strict_weak_ordering.
