(* Geometry of simplices: barycentric coordinates, contains, barycenter, circumcenter, nearest (C48, C100-C102). *)
From Verif Require Import SimplexModel.
From Coq Require Import Permutation.

(* ---- specification ---- *)
Definition delta (a b : nat) : R := if Nat.eqb a b then 1 else 0.
(* weighted combination of the vertices *)
Definition combination (d : nat) (c : nat -> vec) (w : nat -> R) (r : nat) : R := rsum (S d) (fun i => w i * c i r).
(* p is the combination of the vertices with weights w summing to one *)
Definition affine_coords (d N : nat) (c : nat -> vec) (w : nat -> R) (p : vec) : Prop :=
  rsum (S d) w = 1 /\ forall r, (r < N)%nat -> combination d c w r = p r.
Definition in_simplex (d N : nat) (c : nat -> vec) (p : vec) : Prop :=
  exists w, affine_coords d N c w p /\ forall i, (i <= d)%nat -> 0 <= w i.
(* in the relative interior of the simplex *)
Definition strictly_inside (d N : nat) (c : nat -> vec) (p : vec) : Prop :=
  exists w, affine_coords d N c w p /\ forall i, (i <= d)%nat -> 0 < w i.
(* on some facet: a convex combination not using vertex k *)
Definition on_boundary (d N : nat) (c : nat -> vec) (p : vec) : Prop :=
  exists w k, affine_coords d N c w p /\ (forall i, (i <= d)%nat -> 0 <= w i) /\ (k <= d)%nat /\ w k = 0.
(* A left inverse of the Jacobian and, for a full-dimensional simplex, a right inverse *)
Definition left_inverse (d N : nat) (c : nat -> vec) (inv : nat -> nat -> R) : Prop :=
  forall a b, (a < d)%nat -> (b < d)%nat -> rsum N (fun r => inv a r * jac c r b) = delta a b.
Definition right_inverse (d N : nat) (c : nat -> vec) (inv : nat -> nat -> R) : Prop :=
  forall r s, (r < N)%nat -> (s < N)%nat -> rsum d (fun k => jac c r k * inv k s) = delta r s.
(* G is the two-sided inverse of J^T J *)
Definition gram_inverse (d N : nat) (c : nat -> vec) (G : nat -> nat -> R) : Prop :=
  (forall a b, (a < d)%nat -> (b < d)%nat -> rsum d (fun k => G a k * gram N c k b) = delta a b) /\
  (forall a b, (a < d)%nat -> (b < d)%nat -> rsum d (fun k => gram N c a k * G k b) = delta a b).

(* ---- sums ---- *)
Lemma delta_same : forall a, delta a a = 1.
Proof. intros. unfold delta. now rewrite Nat.eqb_refl. Qed.
Lemma delta_other : forall a b, a <> b -> delta a b = 0.
Proof. intros a b H. unfold delta. apply Nat.eqb_neq in H. now rewrite H. Qed.
Lemma delta_sym : forall a b, delta a b = delta b a.
Proof. intros. unfold delta. now rewrite Nat.eqb_sym. Qed.
Lemma rsum_delta_l : forall n a f, (a < n)%nat -> rsum n (fun k => delta a k * f k) = f a.
Proof.
  intros n a f H. rewrite (rsum_single n _ a H); [rewrite delta_same; lra|].
  intros i Hi Hne. rewrite delta_other by auto. lra.
Qed.
Lemma rsum_head : forall n f, rsum (S n) f = f O + rsum n (fun i => f (S i)).
Proof. induction n; intros f; [cbn; lra|]. cbn [rsum] in *. rewrite IHn. lra. Qed.

(* combination with weights summing to one, relative to vertex 0 *)
Lemma combination_jac : forall d c w r, rsum (S d) w = 1 ->
  combination d c w r = c O r + rsum d (fun k => jac c r k * w (S k)).
Proof.
  intros d c w r H. unfold combination. rewrite rsum_head. rewrite rsum_head in H.
  replace (w O) with (1 - rsum d (fun k => w (S k))) by lra. unfold jac.
  rewrite (rsum_ext d (fun k => (c (S k) r - c O r) * w (S k)) (fun k => w (S k) * c (S k) r - w (S k) * c O r)).
  2:{ intros; lra. }
  rewrite rsum_minus, rsum_scal_r. lra.
Qed.

Section Bary.
Variables (d N : nat) (c : nat -> vec) (inv : nat -> nat -> R).

Lemma bary_sum : forall p, rsum (S d) (bary d N c inv p) = 1.
Proof. intros p. rewrite rsum_head. cbn [bary]. rewrite (rsum_ext d (fun i => bary_tail N c inv p i) (bary_tail N c inv p)) by auto. lra. Qed.

Lemma bary_reproduces : right_inverse d N c inv -> forall p r, (r < N)%nat ->
  combination d c (bary d N c inv p) r = p r.
Proof.
  intros Hr p r Hrn. rewrite combination_jac by apply bary_sum. cbn [bary]. unfold bary_tail.
  rewrite (rsum_ext d _ (fun k => rsum N (fun s => jac c r k * inv k s * (p s - c O s)))).
  2:{ intros k Hk. rewrite <- rsum_scal. apply rsum_ext. intros; lra. }
  rewrite rsum_swap. rewrite (rsum_ext N _ (fun s => delta r s * (p s - c O s))).
  2:{ intros s Hs. rewrite rsum_scal_r, Hr by auto. reflexivity. }
  rewrite rsum_delta_l by auto. lra.
Qed.

Lemma bary_unique : left_inverse d N c inv -> forall p w, affine_coords d N c w p ->
  forall i, (i <= d)%nat -> bary d N c inv p i = w i.
Proof.
  intros Hl p w [Hs Hp].
  assert (Ht : forall k, (k < d)%nat -> bary_tail N c inv p k = w (S k)).
  { intros k Hk. unfold bary_tail.
    rewrite (rsum_ext N _ (fun r => rsum d (fun b => inv k r * jac c r b * w (S b)))).
    2:{ intros r Hr. rewrite <- (Hp r Hr), combination_jac by auto.
        rewrite (rsum_ext d (fun b => inv k r * jac c r b * w (S b)) (fun b => inv k r * (jac c r b * w (S b)))) by (intros; lra). rewrite rsum_scal. lra. }
    rewrite rsum_swap. rewrite (rsum_ext d _ (fun b => delta k b * w (S b))).
    2:{ intros b Hb. rewrite rsum_scal_r, Hl by auto. reflexivity. }
    rewrite rsum_delta_l; auto. }
  intros [|k] Hi; cbn [bary].
  - rewrite (rsum_ext d _ (fun k => w (S k))) by (intros; auto). rewrite rsum_head in Hs. lra.
  - apply Ht; lia.
Qed.
End Bary.

Lemma pinv_left : forall d N c G, gram_inverse d N c G -> left_inverse d N c (pinv d c G).
Proof.
  intros d N c G [H _] a b Ha Hb. unfold pinv.
  rewrite (rsum_ext N _ (fun r => rsum d (fun k => G a k * (jac c r k * jac c r b)))).
  2:{ intros r Hr. rewrite <- rsum_scal_r. apply rsum_ext. intros; lra. }
  rewrite rsum_swap. rewrite (rsum_ext d _ (fun k => G a k * gram N c k b)).
  2:{ intros k Hk. rewrite rsum_scal. reflexivity. }
  apply H; auto.
Qed.

(* The combination of the barycentric coordinates of any point of space is its orthogonal projection onto
   the affine hull of the simplex: the residual is orthogonal to every edge from vertex 0. *)
Lemma pinv_residual : forall d N c G p, gram_inverse d N c G -> forall k, (k < d)%nat ->
  rsum N (fun r => (p r - combination d c (bary d N c (pinv d c G) p) r) * jac c r k) = 0.
Proof.
  intros d N c G p [_ H] k Hk.
  rewrite (rsum_ext N _ (fun r => (p r - c O r) * jac c r k
     - rsum d (fun a => jac c r a * jac c r k * bary_tail N c (pinv d c G) p a))).
  2:{ intros r Hr. rewrite combination_jac by apply bary_sum. cbn [bary].
      rewrite (rsum_ext d (fun a => jac c r a * jac c r k * bary_tail N c (pinv d c G) p a)
                 (fun a => jac c r k * (jac c r a * bary_tail N c (pinv d c G) p a))) by (intros; lra).
      rewrite rsum_scal. lra. }
  rewrite rsum_minus, rsum_swap.
  rewrite (rsum_ext d _ (fun a => gram N c k a * bary_tail N c (pinv d c G) p a)).
  2:{ intros a Ha. rewrite rsum_scal_r. f_equal. apply rsum_ext. intros; lra. }
  assert (Hb : forall a, bary_tail N c (pinv d c G) p a = rsum d (fun b => G a b * rsum N (fun r => jac c r b * (p r - c O r)))).
  { intros a. unfold bary_tail, pinv.
    rewrite (rsum_ext N _ (fun r => rsum d (fun b => G a b * (jac c r b * (p r - c O r))))).
    2:{ intros r Hr. rewrite <- rsum_scal_r. apply rsum_ext; intros; lra. }
    rewrite rsum_swap. apply rsum_ext. intros b Hb. now rewrite rsum_scal. }
  rewrite (rsum_ext d _ (fun a => rsum d (fun b => gram N c k a * G a b * rsum N (fun r => jac c r b * (p r - c O r))))).
  2:{ intros a Ha. rewrite Hb. rewrite <- rsum_scal. apply rsum_ext; intros; lra. }
  rewrite rsum_swap. rewrite (rsum_ext d _ (fun b => delta k b * rsum N (fun r => jac c r b * (p r - c O r)))).
  2:{ intros b Hb'. rewrite rsum_scal_r, H by auto. reflexivity. }
  rewrite rsum_delta_l by auto.
  rewrite (rsum_ext N (fun r => jac c r k * (p r - c O r)) (fun r => (p r - c O r) * jac c r k)) by (intros; lra). lra.
Qed.

(* ---- C48: barycentric coordinates ---- *)
Theorem C48_full_dimensional : forall d c inv, left_inverse d d c inv -> right_inverse d d c inv -> forall p,
  affine_coords d d c (bary d d c inv p) p /\
  forall w, affine_coords d d c w p -> forall i, (i <= d)%nat -> w i = bary d d c inv p i.
Proof.
  intros d c inv Hl Hr p. split; [split; [apply bary_sum|intros; now apply bary_reproduces]|].
  intros w Hw i Hi. symmetry. eapply bary_unique; eauto.
Qed.
(* on a manifold, for points of the affine hull; the coordinates of any other point are those of its
   orthogonal projection onto the affine hull *)
Theorem C48_manifold : forall d N c G, gram_inverse d N c G -> forall p,
  (forall w, affine_coords d N c w p -> forall i, (i <= d)%nat -> w i = bary d N c (pinv d c G) p i) /\
  rsum (S d) (bary d N c (pinv d c G) p) = 1 /\
  (forall i j, (i <= d)%nat -> (j <= d)%nat ->
     rsum N (fun r => (p r - combination d c (bary d N c (pinv d c G) p) r) * (c i r - c j r)) = 0).
Proof.
  intros d N c G HG p. split; [|split].
  - intros w Hw i Hi. symmetry. eapply bary_unique; eauto using pinv_left.
  - apply bary_sum.
  - assert (H0 : forall i, (i <= d)%nat ->
       rsum N (fun r => (p r - combination d c (bary d N c (pinv d c G) p) r) * (c i r - c O r)) = 0).
    { intros [|k] Hk; [apply rsum_zero; intros; lra|]. apply (pinv_residual d N c G p HG k). lia. }
    intros i j Hi Hj. rewrite (rsum_ext N _ (fun r =>
        (p r - combination d c (bary d N c (pinv d c G) p) r) * (c i r - c O r) -
        (p r - combination d c (bary d N c (pinv d c G) p) r) * (c j r - c O r))) by (intros; lra).
    rewrite rsum_minus, !H0 by auto. lra.
Qed.

(* ---- contains ---- *)
Lemma ltb_true : forall a b, ltb a b = true <-> a < b.
Proof. intros a b. unfold ltb. destruct (Rlt_dec a b); split; auto; discriminate. Qed.
Lemma ltb_false : forall a b, ltb a b = false <-> b <= a.
Proof. intros a b. unfold ltb. destruct (Rlt_dec a b); split; intros; try discriminate; auto; lra. Qed.

Lemma count_if_le : forall f n, (count_if f n <= n)%nat.
Proof. intros f n. unfold count_if. rewrite <- (seq_length n 0) at 2. generalize (seq 0 n). induction l; cbn; [lia|]. destruct (f a); cbn; lia. Qed.
Lemma count_if_S : forall f n, count_if f (S n) = (count_if f n + if f n then 1 else 0)%nat.
Proof.
  intros f n. unfold count_if. rewrite seq_S, filter_app, app_length. cbn. destruct (f n); cbn; lia.
Qed.
Lemma count_if_full : forall f n, count_if f n = n <-> forall i, (i < n)%nat -> f i = true.
Proof.
  intros f n. induction n as [|n IH]; [cbn; split; auto; lia|]. rewrite count_if_S. pose proof (count_if_le f n).
  destruct (f n) eqn:E; split; intros H1.
  - assert (count_if f n = n) by lia. intros i Hi. destruct (Nat.eq_dec i n) as [->|]; auto. apply IH; auto; lia.
  - assert (count_if f n = n) by (apply IH; intros; apply H1; lia). lia.
  - lia.
  - specialize (H1 n ltac:(lia)). congruence.
Qed.
Lemma count_if_zero : forall f n, count_if f n = O <-> forall i, (i < n)%nat -> f i = false.
Proof.
  intros f n. induction n as [|n IH]; [cbn; split; auto; lia|]. rewrite count_if_S.
  destruct (f n) eqn:E; split; intros H1.
  - lia.
  - specialize (H1 n ltac:(lia)). congruence.
  - assert (count_if f n = O) by lia. intros i Hi. destruct (Nat.eq_dec i n) as [->|]; auto. apply IH; auto; lia.
  - assert (count_if f n = O) by (apply IH; intros; apply H1; lia). lia.
Qed.
Lemma count_if_one : forall f n, count_if f n = 1%nat <-> exists k, (k < n)%nat /\ f k = true /\ forall i, (i < n)%nat -> i <> k -> f i = false.
Proof.
  intros f n. induction n as [|n IH].
  { cbn. split; [lia|]. intros (k & Hk & _). lia. }
  rewrite count_if_S. destruct (f n) eqn:E.
  - split.
    + intros H. exists n. split; [lia|]. split; auto. intros i Hi Hne. apply (proj1 (count_if_zero f n)); lia.
    + intros (k & Hk & Hf & Ho). destruct (Nat.eq_dec k n) as [->|Hne].
      * replace (count_if f n) with O; [lia|]. symmetry. apply count_if_zero. intros i Hi. apply Ho; lia.
      * specialize (Ho n ltac:(lia) ltac:(lia)). congruence.
  - rewrite Nat.add_0_r, IH. split; intros (k & Hk & Hf & Ho).
    + exists k. split; [lia|]. split; auto. intros i Hi Hne. destruct (Nat.eq_dec i n) as [->|]; auto. apply Ho; lia.
    + exists k. assert (k <> n) by congruence. split; [lia|]. split; [exact Hf|]. intros i Hi Hne. apply Ho; lia.
Qed.

Section Contains.
Variables (d N : nat) (c : nat -> vec) (inv : nat -> nat -> R).
Hypothesis Hl : left_inverse d N c inv.

Lemma contains_outside_eps : forall eps p, 0 <= eps -> contains d N c inv eps false p = OUTSIDE -> ~ in_simplex d N c p.
Proof.
  intros eps p He H (w & Hw & Hpos). unfold contains in H.
  destruct (existsb _ _) eqn:Ex; [|cbv zeta in H; repeat destruct (Nat.eqb _ _); discriminate].
  apply existsb_exists in Ex. destruct Ex as (i & Hi & Hlt). apply in_seq in Hi. apply ltb_true in Hlt.
  rewrite (bary_unique d N c inv Hl p w Hw i) in Hlt by lia. specialize (Hpos i ltac:(lia)). lra.
Qed.
Lemma contains_not_outside : forall eps p, contains d N c inv eps false p <> OUTSIDE ->
  forall i, (i <= d)%nat -> - eps <= bary d N c inv p i.
Proof.
  intros eps p H i Hi. unfold contains in H. destruct (existsb _ _) eqn:Ex; [congruence|].
  destruct (Rle_dec (- eps) (bary d N c inv p i)) as [|Hn]; auto. exfalso.
  assert (existsb (fun i => ltb (bary d N c inv p i) (- eps)) (seq 0 (d + 1)) = true); [|congruence].
  apply existsb_exists. exists i. split; [apply in_seq; lia|]. apply ltb_true. lra.
Qed.
End Contains.

(* the classification in exact arithmetic (eps = 0) by the weights of p *)
Section Classify.
Variables (d N : nat) (c : nat -> vec) (inv : nat -> nat -> R).
Hypothesis Hl : left_inverse d N c inv.
Lemma classify : forall p w, affine_coords d N c w p -> (forall i, (i <= d)%nat -> 0 <= w i) ->
  contains d N c inv 0 false p =
    (let n := count_if (fun i => ltb 0 (w i)) (d + 1) in
     if Nat.eqb n 1 then ON_VERTEX else if Nat.eqb n d then ON_FACE else INSIDE).
Proof.
  intros p w Hw Hpos. unfold contains.
  assert (Hb := bary_unique d N c inv Hl p w Hw).
  destruct (existsb _ _) eqn:Ex.
  { exfalso. apply existsb_exists in Ex. destruct Ex as (i & Hi & Hlt). apply in_seq in Hi. apply ltb_true in Hlt.
    rewrite Hb in Hlt by lia. specialize (Hpos i ltac:(lia)). lra. }
  replace (count_if (fun i => ltb 0 (bary d N c inv p i)) (d + 1)) with (count_if (fun i => ltb 0 (w i)) (d + 1)); auto.
  unfold count_if. f_equal. apply filter_ext_in. intros i Hi. apply in_seq in Hi. rewrite Hb by lia. auto.
Qed.
Lemma count_full_inside : forall p w, affine_coords d N c w p -> (forall i, (i <= d)%nat -> 0 <= w i) ->
  count_if (fun i => ltb 0 (w i)) (d + 1) = (d + 1)%nat <-> strictly_inside d N c p.
Proof.
  intros p w Hw Hpos. rewrite count_if_full. split.
  - intros H. exists w. split; auto. intros i Hi. apply ltb_true. apply H. lia.
  - intros (w' & Hw' & Hp) i Hi. apply ltb_true.
    rewrite <- (bary_unique d N c inv Hl p w Hw i), (bary_unique d N c inv Hl p w' Hw' i) by lia. apply Hp. lia.
Qed.
Lemma count_pos : forall p w, affine_coords d N c w p -> (forall i, (i <= d)%nat -> 0 <= w i) ->
  (1 <= count_if (fun i => ltb 0 (w i)) (d + 1))%nat.
Proof.
  intros p w [Hs _] Hpos. destruct (count_if _ _) eqn:E; [|lia]. exfalso.
  assert (H := proj1 (count_if_zero _ _) E). cbn beta in H.
  rewrite (rsum_zero (S d) w) in Hs; [lra|]. intros i Hi. specialize (H i ltac:(lia)). apply ltb_false in H.
  specialize (Hpos i ltac:(lia)). lra.
Qed.
Lemma not_inside_boundary : forall p, in_simplex d N c p -> ~ strictly_inside d N c p <-> on_boundary d N c p.
Proof.
  intros p (w & Hw & Hpos). split.
  - intros Hn. destruct (Nat.eq_dec (count_if (fun i => ltb 0 (w i)) (d + 1)) (d + 1)) as [E|E].
    { exfalso. apply Hn. apply (count_full_inside p w); auto. }
    destruct (existsb (fun i => negb (ltb 0 (w i))) (seq 0 (d + 1))) eqn:Ex.
    + apply existsb_exists in Ex. destruct Ex as (k & Hk & Hz). apply in_seq in Hk. apply negb_true_iff, ltb_false in Hz.
      specialize (Hpos k ltac:(lia)) as H0. exists w, k. split; auto. split; auto. split; [lia|lra].
    + exfalso. apply E. apply count_if_full. intros i Hi. destruct (ltb 0 (w i)) eqn:El; auto.
      assert (existsb (fun i => negb (ltb 0 (w i))) (seq 0 (d + 1)) = true); [|congruence].
      apply existsb_exists. exists i. split; [apply in_seq; lia|]. now rewrite El.
  - intros (w' & k & Hw' & Hp' & Hk & Hz) (w2 & Hw2 & Hp2). specialize (Hp2 k Hk).
    rewrite <- (bary_unique d N c inv Hl p w2 Hw2 k Hk), (bary_unique d N c inv Hl p w' Hw' k Hk) in Hp2. lra.
Qed.
End Classify.

(* C48: contains.  With the tolerance set to zero the answer is exact on segments and triangles.  The
   hypothesis on inv is what Eigen's inverse gives in both cases (for a manifold, with p on its hull). *)
Theorem C48_contains_outside : forall d c inv, left_inverse d d c inv -> right_inverse d d c inv -> forall p,
  contains d d c inv 0 false p = OUTSIDE <-> ~ in_simplex d d c p.
Proof.
  intros d c inv Hl Hr p. split; [apply contains_outside_eps; auto; lra|].
  intros Hn. destruct (contains d d c inv 0 false p) eqn:E; auto; exfalso; apply Hn;
    exists (bary d d c inv p); (split; [apply C48_full_dimensional; auto|]); intros i Hi;
    assert (H := contains_not_outside d d c inv 0 p ltac:(congruence) i Hi); lra.
Qed.
(* with a tolerance: points of the simplex are never reported outside, and a point not reported outside has
   no barycentric coordinate below -eps *)
Theorem C48_contains_tolerance : forall d N c inv eps, left_inverse d N c inv -> 0 <= eps -> forall p,
  (in_simplex d N c p -> contains d N c inv eps false p <> OUTSIDE) /\
  (contains d N c inv eps false p <> OUTSIDE -> forall i, (i <= d)%nat -> - eps <= bary d N c inv p i).
Proof.
  intros d N c inv eps Hl He p. split.
  - intros Hi H. eapply contains_outside_eps; eauto.
  - apply contains_not_outside.
Qed.
Theorem C48_contains_vertex : forall d N c inv, (1 <= d)%nat -> left_inverse d N c inv -> forall p, in_simplex d N c p ->
  contains d N c inv 0 false p = ON_VERTEX <-> exists k, (k <= d)%nat /\ forall r, (r < N)%nat -> p r = c k r.
Proof.
  intros d N c inv Hd Hl p (w & Hw & Hpos). rewrite (classify d N c inv Hl p w Hw Hpos). cbv zeta.
  assert (Hk : count_if (fun i => ltb 0 (w i)) (d + 1) = 1%nat <-> exists k, (k <= d)%nat /\ forall r, (r < N)%nat -> p r = c k r).
  { rewrite count_if_one. split.
    - intros (k & Hk & Ht & Ho). exists k. split; [lia|]. intros r Hr. destruct Hw as [Hs Hc].
      assert (Hz : forall i, (i < S d)%nat -> i <> k -> w i = 0).
      { intros i Hi Hne. specialize (Ho i ltac:(lia) Hne). apply ltb_false in Ho. specialize (Hpos i ltac:(lia)). lra. }
      rewrite (rsum_single (S d) w k) in Hs by (auto; lia). rewrite <- Hc by auto. unfold combination.
      rewrite (rsum_single (S d) _ k); [rewrite Hs; lra|lia|]. intros i Hi Hne. rewrite (Hz i) by auto. lra.
    - intros (k & Hk & Hp). exists k. assert (Hw' : affine_coords d N c (delta k) p).
      { split.
        - rewrite (rsum_single (S d) _ k); [apply delta_same|lia|]. intros i Hi Hne. apply delta_other; auto.
        - intros r Hr. unfold combination. rewrite rsum_delta_l by lia. symmetry. auto. }
      assert (Hd' : forall i, (i <= d)%nat -> w i = delta k i).
      { intros i Hi. rewrite <- (bary_unique d N c inv Hl p w Hw i), (bary_unique d N c inv Hl p _ Hw' i) by lia. auto. }
      split; [lia|]. split; [apply ltb_true; rewrite Hd', delta_same by lia; lra|].
      intros i Hi Hne. apply ltb_false. rewrite Hd', delta_other by (auto; lia). lra. }
  rewrite <- Hk. destruct (Nat.eqb_spec (count_if (fun i => ltb 0 (w i)) (d + 1)) 1) as [E|E].
  - tauto.
  - split; [|tauto]. destruct (Nat.eqb _ d); discriminate.
Qed.
Theorem C48_contains_boundary_partial : forall d N c inv, (d = 1 \/ d = 2)%nat -> left_inverse d N c inv -> forall p, in_simplex d N c p ->
  (contains d N c inv 0 false p = INSIDE <-> strictly_inside d N c p) /\
  (contains d N c inv 0 false p = ON_FACE \/ contains d N c inv 0 false p = ON_VERTEX <-> on_boundary d N c p).
Proof.
  intros d N c inv Hd Hl p Hin. pose proof Hin as (w & Hw & Hpos).
  rewrite <- (not_inside_boundary d N c inv Hl p Hin).
  rewrite (classify d N c inv Hl p w Hw Hpos). cbv zeta.
  rewrite <- (count_full_inside d N c inv Hl p w Hw Hpos).
  pose proof (count_pos d N c p w Hw Hpos) as H1. pose proof (count_if_le (fun i => ltb 0 (w i)) (d + 1)) as H2.
  remember (count_if (fun i => ltb 0 (w i)) (d + 1)) as n.
  destruct (Nat.eqb_spec n 1); destruct (Nat.eqb_spec n d); (split; split; intros H; try discriminate; try lia; auto;
    try (destruct H; discriminate)).
Qed.
(* for any dimension: exactly which points of the simplex each answer covers *)
Theorem C48_contains_face : forall d N c inv, (2 <= d)%nat -> left_inverse d N c inv -> forall p w,
  affine_coords d N c w p -> (forall i, (i <= d)%nat -> 0 <= w i) ->
  contains d N c inv 0 false p = ON_FACE <->
  exists k, (k <= d)%nat /\ w k = 0 /\ forall i, (i <= d)%nat -> i <> k -> 0 < w i.
Proof.
  intros d N c inv Hd Hl p w Hw Hpos. rewrite (classify d N c inv Hl p w Hw Hpos). cbv zeta.
  assert (Hc : forall n, (count_if (fun i => ltb 0 (w i)) n + count_if (fun i => negb (ltb 0 (w i))) n = n)%nat).
  { induction n; auto. rewrite !count_if_S. destruct (ltb 0 (w n)); cbn; lia. }
  specialize (Hc (d + 1)%nat).
  assert (Hk : count_if (fun i => negb (ltb 0 (w i))) (d + 1) = 1%nat <->
               exists k, (k <= d)%nat /\ w k = 0 /\ forall i, (i <= d)%nat -> i <> k -> 0 < w i).
  { rewrite count_if_one. split; intros (k & Hk & Ht & Ho); exists k.
    - split; [lia|]. apply negb_true_iff, ltb_false in Ht. specialize (Hpos k ltac:(lia)) as H0. split; [lra|].
      intros i Hi Hne. specialize (Ho i ltac:(lia) Hne). apply negb_false_iff, ltb_true in Ho. lra.
    - split; [lia|]. split; [apply negb_true_iff, ltb_false; lra|].
      intros i Hi Hne. apply negb_false_iff, ltb_true. apply Ho; auto; lia. }
  rewrite <- Hk. remember (count_if (fun i => ltb 0 (w i)) (d + 1)) as n.
  destruct (Nat.eqb_spec n 1); destruct (Nat.eqb_spec n d); split; intros H; try discriminate; try lia; auto.
Qed.

(* ---- examples ---- *)
(* unit triangle (0,0), (1,0), (0,1) *)
Definition unit_simplex (i : nat) : vec := fun r => match i with O => 0 | S k => delta k r end.
Lemma unit_jac : forall r k, jac unit_simplex r k = delta k r.
Proof. intros. unfold jac, unit_simplex. lra. Qed.
Lemma unit_left : forall d, left_inverse d d unit_simplex delta.
Proof. intros d a b Ha Hb. rewrite (rsum_ext d _ (fun r => delta a r * delta b r)) by (intros; now rewrite unit_jac). now rewrite rsum_delta_l, delta_sym. Qed.
Lemma unit_right : forall d, right_inverse d d unit_simplex delta.
Proof.
  intros d r s Hr Hs. rewrite (rsum_ext d _ (fun k => delta r k * delta k s)).
  2:{ intros k Hk. now rewrite unit_jac, delta_sym. } rewrite rsum_delta_l; auto.
Qed.
(* the segment from (0,0,0) to (2,0,0) in space *)
Definition seg3 (i : nat) : vec := fun r => match i, r with S _, O => 2 | _, _ => 0 end.
Example seg3_gram : gram_inverse 1 3 seg3 (fun _ _ => / 4).
Proof.
  split; intros [|] [|] Ha Hb; try lia; unfold gram, jac, seg3, delta; cbn; lra.
Qed.
(* a point on an edge of a tetrahedron, hence on its boundary, is classified INSIDE *)
Theorem C48_contains_boundary_refuted : exists c inv p, left_inverse 3 3 c inv /\ right_inverse 3 3 c inv /\
  on_boundary 3 3 c p /\ contains 3 3 c inv 0 false p = INSIDE.
Proof.
  pose (w := fun i : nat => match i with O | S O => 1 / 2 | _ => 0 end).
  pose (p := fun r : nat => match r with O => 1 / 2 | _ => 0 end).
  assert (Hw : affine_coords 3 3 unit_simplex w p).
  { split; [unfold w; cbn; lra|]. intros [|[|[|]]] Hr; try lia; unfold combination, w, p, unit_simplex, delta; cbn; lra. }
  assert (Hp : forall i, (i <= 3)%nat -> 0 <= w i) by (intros [|[|]] _; unfold w; lra).
  exists unit_simplex, delta, p. split; [apply unit_left|]. split; [apply unit_right|]. split.
  - exists w, 2%nat. auto.
  - rewrite (classify 3 3 unit_simplex delta (unit_left 3) p w Hw Hp). unfold count_if, w. cbn.
    unfold ltb. repeat (destruct (Rlt_dec _ _); try lra). reflexivity.
Qed.

(* ---- C100: barycenter ---- *)
Lemma rsum_const : forall n k, rsum n (fun _ => k) = INR n * k.
Proof. induction n; intros; cbn [rsum]; [cbn; lra|]. rewrite IHn, S_INR. lra. Qed.
Theorem C100_barycenter : forall d c r, barycenter d c r = rsum (d + 1) (fun i => c i r) / INR (d + 1).
Proof.
  intros d c r. unfold barycenter, jac. rewrite rsum_scal_r, rsum_minus, rsum_const.
  replace (d + 1)%nat with (S d) by lia. rewrite rsum_head. rewrite S_INR.
  assert (0 <= INR d) by apply pos_INR. field. lra.
Qed.
Corollary C100_barycenter_inside : forall d N c, strictly_inside d N c (barycenter d c).
Proof.
  intros d N c. exists (fun _ => / INR (S d)). assert (0 < INR (S d)) by (apply lt_0_INR; lia).
  split; [split|].
  - rewrite rsum_const. field. lra.
  - intros r Hr. unfold combination. rewrite rsum_scal, C100_barycenter. replace (d + 1)%nat with (S d) by lia.
    unfold Rdiv. apply Rmult_comm.
  - intros. now apply Rinv_0_lt_compat.
Qed.

(* ---- C101: circumcenter ---- *)
Definition dist2 (N : nat) (a b : vec) : R := dot N (vsub a b) (vsub a b).
Lemma dist2_expand : forall N a b, dist2 N a b = dot N a a - 2 * dot N a b + dot N b b.
Proof.
  intros. unfold dist2, dot, vsub. rewrite <- rsum_scal, <- rsum_minus, <- rsum_plus. apply rsum_ext. intros; lra.
Qed.
(* Minv: the inverse of the matrix with rows c_{i+1} - c_0, i.e. of the transposed Jacobian *)
Theorem C101_circumcenter : forall N c Minv,
  (forall i j, (i < N)%nat -> (j < N)%nat -> rsum N (fun r => jac c r i * Minv r j) = delta i j) ->
  forall i j, (i <= N)%nat -> (j <= N)%nat ->
  dist2 N (circumcenter N c Minv) (c i) = dist2 N (circumcenter N c Minv) (c j).
Proof.
  intros N c Minv HM.
  assert (H0 : forall i, (i < N)%nat -> dist2 N (circumcenter N c Minv) (c (S i)) = dist2 N (circumcenter N c Minv) (c O)).
  { intros i Hi. rewrite !dist2_expand.
    assert (Hs : rsum N (fun r => jac c r i * circumcenter N c Minv r) = 1 / 2 * circum_rhs N c i).
    { unfold circumcenter.
      rewrite (rsum_ext N _ (fun r => rsum N (fun j => jac c r i * Minv r j * (1 / 2 * circum_rhs N c j)))).
      2:{ intros r Hr. rewrite <- rsum_scal. apply rsum_ext. intros; lra. }
      rewrite rsum_swap. rewrite (rsum_ext N _ (fun j => delta i j * (1 / 2 * circum_rhs N c j))).
      2:{ intros j Hj. rewrite rsum_scal_r, HM by auto. reflexivity. }
      now rewrite rsum_delta_l. }
    assert (Hd : rsum N (fun r => jac c r i * circumcenter N c Minv r)
                 = dot N (circumcenter N c Minv) (c (S i)) - dot N (circumcenter N c Minv) (c O)).
    { unfold dot. rewrite <- rsum_minus. apply rsum_ext. intros. unfold jac. lra. }
    unfold circum_rhs in Hs. lra. }
  intros [|i] [|j] Hi Hj; auto; rewrite ?H0 by lia; auto.
Qed.
Theorem C101_circumcenter_segment : forall N a b, dist2 N (fun r => (a r + b r) / 2) a = dist2 N (fun r => (a r + b r) / 2) b.
Proof. intros. unfold dist2, dot, vsub. apply rsum_ext. intros. field. Qed.
Theorem C101_circumcenter_surface : forall c0 c1 c2,
  dot 3 (cross (vsub c1 c0) (vsub c2 c0)) (cross (vsub c1 c0) (vsub c2 c0)) <> 0 ->
  let o := circumcenter_tri3 c0 c1 c2 in
  dist2 3 o c0 = dist2 3 o c1 /\ dist2 3 o c0 = dist2 3 o c2 /\
  (* and o lies in the plane of the triangle *)
  dot 3 (vsub o c0) (cross (vsub c1 c0) (vsub c2 c0)) = 0.
Proof.
  intros c0 c1 c2 H o.
  assert (Ho : forall i, o i = c0 i + (cross (cross (vsub c1 c0) (vsub c2 c0)) (vsub c1 c0) i * dot 3 (vsub c2 c0) (vsub c2 c0)
      + cross (vsub c2 c0) (cross (vsub c1 c0) (vsub c2 c0)) i * dot 3 (vsub c1 c0) (vsub c1 c0))
      / (2 * dot 3 (cross (vsub c1 c0) (vsub c2 c0)) (cross (vsub c1 c0) (vsub c2 c0)))) by reflexivity.
  unfold dist2, dot, vsub in *. cbn [rsum] in *. rewrite !Ho. unfold cross, vsub in *. cbn [rsum] in *.
  clear o Ho.
  set (a0 := c1 0%nat - c0 0%nat) in *. set (a1 := c1 1%nat - c0 1%nat) in *. set (a2 := c1 2%nat - c0 2%nat) in *.
  set (b0 := c2 0%nat - c0 0%nat) in *. set (b1 := c2 1%nat - c0 1%nat) in *. set (b2 := c2 2%nat - c0 2%nat) in *.
  replace (c1 0%nat) with (a0 + c0 0%nat) by (unfold a0; lra). replace (c1 1%nat) with (a1 + c0 1%nat) by (unfold a1; lra).
  replace (c1 2%nat) with (a2 + c0 2%nat) by (unfold a2; lra). replace (c2 0%nat) with (b0 + c0 0%nat) by (unfold b0; lra).
  replace (c2 1%nat) with (b1 + c0 1%nat) by (unfold b1; lra). replace (c2 2%nat) with (b2 + c0 2%nat) by (unfold b2; lra).
  clearbody a0 a1 a2 b0 b1 b2. split; [|split]; field; intro; apply H; lra.
Qed.
Example circumcenter_unit_triangle : forall r, (r < 2)%nat -> circumcenter 2 unit_simplex delta r = 1 / 2.
Proof. intros [|[|]] H; try lia; unfold circumcenter, circum_rhs, dot, unit_simplex, delta; cbn; lra. Qed.

(* ---- C102: nearest ---- *)
(* what nearest returns, whatever the sorting of ties: the point itself, or a vertex *)
Theorem C102_nearest_partial : forall point inside q0neg by_distance p order vs,
  (forall l, Permutation (by_distance l) l) -> (1 <= order)%nat -> length vs = S order ->
  (inside vs = true -> nearest point inside q0neg by_distance p order vs = Ok p) /\
  exists q, nearest point inside q0neg by_distance p order vs = Ok q /\ (q = p \/ In q vs).
Proof.
  intros point inside q0neg bd p order vs Hb Ho. revert vs. induction order as [|o IH]; [lia|]. intros vs Hlen.
  cbn [nearest]. destruct (inside vs) eqn:E; [split; eauto|]. split; [discriminate|].
  destruct o as [|o].
  - destruct vs as [|a [|b l]]; try discriminate. destruct (q0neg _); cbn; eexists; (split; [reflexivity|]); right; cbn; auto.
  - set (l' := removelast (bd vs)).
    assert (Hl : length (bd vs) = S (S (S o))) by (rewrite (Permutation_length (Hb vs)); auto).
    assert (Hne : bd vs <> []) by (intros X; rewrite X in Hl; discriminate).
    destruct (exists_last Hne) as (l2 & x & Hx).
    assert (Hl' : l' = l2) by (unfold l'; rewrite Hx, removelast_last; auto).
    destruct (IH ltac:(lia) l') as [_ (q & Hq & Hin)].
    { rewrite Hl'. rewrite Hx, app_length in Hl. cbn in Hl. lia. }
    exists q. split; [exact Hq|]. destruct Hin as [|Hin]; auto. right.
    apply (Permutation_in _ (Hb vs)). rewrite Hx. apply in_or_app. rewrite <- Hl'. auto.
Qed.
(* hence it is not the nearest point: a triangle and a point below the middle of a side.
   nearest_inside is the test of lines 160-166 on the unit triangle and on its segments. *)
Definition origin : vec := fun _ => 0.
Definition all_above (n : nat) (eps : R) (z : nat -> R) : bool := forallb (fun i => ltb (- eps) (z i)) (seq 0 n).
Definition nearest_inside (eps : R) (p : vec) (vs : list vec) : bool :=
  let c := fun i => nth i vs origin in
  match vs with
  | [_; _; _] => all_above 3 eps (bary 2 2 c delta p)
  | [a; b] => all_above 2 eps (bary 1 2 c (pinv 1 c (fun _ _ => / gram 2 c 0 0)) p)
              && ltb (hp_distance 1 2 (hp_line 2 a b) p) eps
  | _ => true
  end.
Definition sorts_by_distance (p : vec) (f : list vec -> list vec) : Prop := forall l, Permutation (f l) l /\
  forall i j, (i <= j < length l)%nat -> dist2 2 p (nth i (f l) origin) <= dist2 2 p (nth j (f l) origin).
Lemma norm_one : forall v, dot 2 v v = 1 -> norm 2 v = 1.
Proof. intros v H. unfold norm. rewrite H. apply sqrt_1. Qed.

Theorem C102_nearest_refuted : exists (p : vec), forall eps q0neg by_distance, 0 <= eps < 1 -> sorts_by_distance p by_distance ->
  exists q, nearest vec (nearest_inside eps p) q0neg by_distance p 2 [unit_simplex 0; unit_simplex 1; unit_simplex 2] = Ok q /\
  exists q', in_simplex 2 2 unit_simplex q' /\ dist2 2 p q' < dist2 2 p q.
Proof.
  set (p := (fun r => match r with O => 1 / 2 | _ => -1 end) : vec).
  exists p. intros eps q0neg bd He Hs.
  set (u0 := unit_simplex 0). set (u1 := unit_simplex 1). set (u2 := unit_simplex 2).
  assert (D0 : dist2 2 p u0 = 5 / 4) by (unfold dist2, dot, vsub, u0, unit_simplex, delta, p; cbn; lra).
  assert (D1 : dist2 2 p u1 = 5 / 4) by (unfold dist2, dot, vsub, u1, unit_simplex, delta, p; cbn; lra).
  assert (D2 : dist2 2 p u2 = 17 / 4) by (unfold dist2, dot, vsub, u2, unit_simplex, delta, p; cbn; lra).
  assert (Q : exists q', in_simplex 2 2 unit_simplex q' /\ dist2 2 p q' = 1).
  { exists (fun r => match r with O => 1 / 2 | _ => 0 end). split.
    - exists (fun i => match i with O | S O => 1 / 2 | _ => 0 end). split.
      + split; [cbn; lra|]. intros [|[|]] Hr; try lia; unfold combination, unit_simplex, delta; cbn; lra.
      + intros [|[|]] _; lra.
    - unfold dist2, dot, vsub, p; cbn. lra. }
  destruct Q as (q' & Hq' & Hd').
  assert (I3 : nearest_inside eps p [u0; u1; u2] = false).
  { unfold nearest_inside, all_above. cbn [seq forallb].
    replace (ltb (- eps) (bary 2 2 (fun i => nth i [u0; u1; u2] origin) delta p 2)) with false; [now rewrite !andb_false_r|].
    symmetry. apply ltb_false. unfold bary, bary_tail, u0, u1, u2, unit_simplex, delta, p. cbn. lra. }
  assert (Hdist : forall a b, (a = u0 /\ b = u1 \/ a = u1 /\ b = u0) -> hp_distance 1 2 (hp_line 2 a b) p = 1).
  { intros a b Hab. unfold hp_distance. apply norm_one.
    assert (Hn : norm 2 (vsub b a) = 1).
    { apply norm_one. destruct Hab as [[-> ->]|[-> ->]]; unfold dot, vsub, u0, u1, unit_simplex, delta; cbn; lra. }
    unfold hp_project, hp_line, normalized, dot, vsub, vscale. cbn [hp_basis hp_p rsum].
    fold (vsub b a). rewrite Hn.
    destruct Hab as [[-> ->]|[-> ->]]; unfold vsub, u0, u1, unit_simplex, delta, p; cbn; field. }
  assert (I2 : forall a b, (a = u0 /\ b = u1 \/ a = u1 /\ b = u0) -> nearest_inside eps p [a; b] = false).
  { intros a b Hab. unfold nearest_inside. rewrite Hdist by auto.
    replace (ltb 1 eps) with false by (symmetry; apply ltb_false; lra). apply andb_false_r. }
  destruct (Hs [u0; u1; u2]) as [HP Ho].
  assert (Hl : exists a b, bd [u0; u1; u2] = [a; b; u2] /\ (a = u0 /\ b = u1 \/ a = u1 /\ b = u0)).
  { assert (Hlen := Permutation_length HP). destruct (bd [u0; u1; u2]) as [|a [|b [|z [|]]]] eqn:E; try discriminate.
    assert (Hz : dist2 2 p u2 <= dist2 2 p z).
    { assert (Hin : In u2 [a; b; z]) by (apply (Permutation_in _ (Permutation_sym HP)); cbn; auto).
      specialize (Ho 0%nat 2%nat ltac:(cbn; lia)) as H0. specialize (Ho 1%nat 2%nat ltac:(cbn; lia)) as H1. cbn [nth] in H0, H1.
      destruct Hin as [<-|[<-|[<-|[]]]]; lra. }
    assert (Ez : z = u2).
    { assert (Hin : In z [u0; u1; u2]) by (apply (Permutation_in _ HP); cbn; auto).
      destruct Hin as [<-|[<-|[<-|[]]]]; auto; lra. }
    subst z. exists a, b. split; auto.
    assert (HP' : Permutation ([a; b] ++ [u2]) ([u0; u1] ++ [u2])) by exact HP.
    apply Permutation_app_inv_r in HP'. apply Permutation_sym, Permutation_length_2_inv in HP'.
    destruct HP' as [X|X]; injection X as -> ->; auto. }
  destruct Hl as (a & b & Hbd & Hab).
  cbn [nearest]. rewrite I3, Hbd. cbn [removelast]. rewrite I2 by auto.
  assert (Hq : exists q, (if q0neg [a; b] then nth_res [a; b] 1 else nth_res [a; b] 0) = Ok q /\ (q = u0 \/ q = u1)).
  { destruct (q0neg [a; b]); cbn; eexists; (split; [reflexivity|]); destruct Hab as [[-> ->]|[-> ->]]; auto. }
  destruct Hq as (q & Hq & Hv). exists q. split; [exact Hq|]. exists q'. split; auto. rewrite Hd'.
  destruct Hv as [-> | ->]; lra.
Qed.

Print Assumptions C48_full_dimensional.
Print Assumptions C48_manifold.
Print Assumptions C48_contains_face.
Print Assumptions C101_circumcenter.
Print Assumptions C102_nearest_partial.
