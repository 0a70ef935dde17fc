(* C159-C163: the space spanned by the B-splines: independence, affine functions, definiteness of the assembled matrices. *)
From Coq Require Import Lia Lra Psatz.
From Coquelicot Require Import Coquelicot.
From Verif Require Import SimplexProps FieldProps FemProps EvalProps QuadProps SolverProps LinAlg FemEnergy MeasureProps FemKernel SplineSolverModel SplineModel SplineProps SplineSolverProps SplineZeros.
Local Close Scope Q_scope.
Local Open Scope R_scope.

(* ------------------------------------------------------------------ specification *)
(* no knot is repeated so often that a basis function lives on a point *)
Definition supports (r : nat) (t : list R) : Prop := forall i, (i < basis_size r t)%nat -> nth i t 0 < nth (i + r + 1) t 0.
(* the average of the r knots inside the support of function i *)
Definition greville (r : nat) (t : list R) (i : nat) : R := rsum r (fun l => nth (i + 1 + l) t 0) / INR r.
(* the quadratic form of a matrix *)
Definition qform (n : nat) (A : nat -> nat -> R) (c : nat -> R) : R := rsum n (fun a => c a * rsum n (fun b => A a b * c b)).
Definition positive_definite (n : nat) (A : nat -> nat -> R) : Prop := forall c, (exists i, (i < n)%nat /\ c i <> 0) -> 0 < qform n A c.
(* the spline of coefficients c is the straight line p + q x on the domain *)
Definition straight (r : nat) (u t c : list R) : Prop := exists p q, forall x, first_knot u <= x <= last_knot u -> spline_expansion r t c [x] = Ok [p + q * x].

(* ------------------------------------------------------------------ expansions *)
Section Space.
Variables (r : nat) (u : list R).
Hypothesis Hu : knots_ok u.
Local Notation t := (padded r u).
Local Notation m := (basis_size r (padded r u)).
(* values of the K-th derivatives of the spline *)
Definition comb (c : nat -> R) (x : R) (K : nat) : R := rsum m (fun a => c a * phi r u a x K).
Lemma expansion_comb c x : length c = m -> spline_expansion r t c [x] = Ok [comb (fun i => nth i c 0) x 0].
Proof.
  intros Hc. unfold spline_expansion. rewrite Hc, Nat.eqb_refl. cbn [assert_ bind mapM].
  rewrite (sum_loop_ok _ (fun a => nth a c 0 * phi r u a x 0)); [reflexivity|]. intros i Hi. rewrite nth_res_kn by lia. cbn [bind].
  unfold phi. cbn [dcox]. rewrite spline_ok by (unfold basis_size in Hi; lia). reflexivity.
Qed.
Lemma comb_at c x K k : (forall j, (j + 1 < length t)%nat -> ind (kn t) (length t) r j x = one_at k j) -> comb c x K = rsum m (fun a => c a * dcox (kn t) (one_at k) K r a x).
Proof. intros H. unfold comb. apply rsum_ext. intros a Ha. f_equal. unfold phi. apply dcox_ext. intros j Hj. apply H. unfold basis_size in Ha. lia. Qed.
Lemma in_domain k x : (k + 1 < length t)%nat -> kn t k < x < kn t (S k) -> first_knot u <= x <= last_knot u.
Proof.
  intros Hk Hx. rewrite <- (p_first r u Hu), <- (p_last r u Hu). assert (kn t 0 <= kn t k) by (apply (p_mono r u Hu); lia).
  assert (kn t (S k) <= kn t (length t - 1)) by (apply (p_mono r u Hu); lia). lra.
Qed.
Lemma nondegenerate_k k : (k + 1 < length t)%nat -> kn t k < kn t (S k) -> (r <= k)%nat /\ (k + r + 2 <= length t)%nat.
Proof. intros Hk H. destruct (p_active_at r u Hu ((kn t k + kn t (S k)) / 2) k Hk ltac:(lra)) as (A & B & _). auto. Qed.
Lemma find_gap i j : (i <= j)%nat -> kn t i < kn t j -> exists k, (i <= k < j)%nat /\ kn t k < kn t (S k).
Proof.
  induction j as [|j IH]; intros Hij H; [replace i with 0%nat in H by lia; lra|]. destruct (Nat.eq_dec i (S j)) as [->|]; [lra|].
  destruct (Rlt_le_dec (kn t j) (kn t (S j))) as [L|G]; [exists j; split; [lia|auto]|]. destruct IH as (k & Hk & Hk'); [lia|lra|]. exists k. split; [lia|auto].
Qed.
Lemma zero_comb c : supports r t -> (forall x, first_knot u <= x <= last_knot u -> comb c x 0 = 0) -> forall i, (i < m)%nat -> c i = 0.
Proof.
  intros Hs H i Hi. pose proof (p_len r u Hu). assert (Hi' := Hi). unfold basis_size in Hi'. destruct (find_gap i (i + r + 1) ltac:(lia) (Hs i Hi)) as (k & Hk & G).
  destruct (nondegenerate_k k ltac:(lia) G) as [A B].
  apply (local_zero (kn t) (length t) k m ltac:(unfold basis_size; lia) (p_mono r u Hu) G r c); [lia|lia| |lia|lia].
  intros x Hx. destruct (p_active_at r u Hu x k ltac:(lia) Hx) as (_ & _ & I). rewrite <- (H x (in_domain k x ltac:(lia) Hx)). symmetry. exact (comb_at c x 0 k I).
Qed.
Lemma comb_greville x : (1 <= r)%nat -> first_knot u <= x <= last_knot u -> forall p q, comb (fun i => p + q * greville r t i) x 0 = p + q * x.
Proof.
  intros Hr Hx p q. destruct (p_active r u Hu x Hx) as (k & A & B & C & _ & I). rewrite (comb_at _ x 0 k I). cbn [dcox].
  rewrite (rsum_ext m _ (fun a => p * cox (kn t) (one_at k) r a x + q / INR r * (rsum r (fun l => kn t (a + 1 + l)) * cox (kn t) (one_at k) r a x))).
  2:{ intros a _. unfold greville. change (fun l => nth (a + 1 + l) t 0) with (fun l => kn t (a + 1 + l)%nat). unfold Rdiv. ring. }
  rewrite rsum_plus, !rsum_scal. rewrite (cox_partition (kn t) (length t) (p_mono r u Hu) k x C) by (unfold basis_size; lia).
  rewrite (cox_identity (kn t) (length t) k m ltac:(unfold basis_size; lia) (p_mono r u Hu) C) by (unfold basis_size; lia). field. apply not_0_INR. lia.
Qed.
End Space.

(* ------------------------------------------------------------------ C159 *)
(* the values of a spline on the domain determine its coefficients, exactly when no basis function lives on a point *)
Theorem C159_independent r u t : knots_ok u -> pad_knots r u = Ok t -> supports r t <->
  (forall c d, length c = basis_size r t -> length d = basis_size r t ->
     (forall x, first_knot u <= x <= last_knot u -> spline_expansion r t c [x] = spline_expansion r t d [x]) -> c = d).
Proof.
  intros Hu Et. rewrite (pad_ok r u Hu) in Et. injection Et as <-. split.
  - intros Hs c d Hc Hd H.
    assert (Z : forall i, (i < basis_size r (padded r u))%nat -> (fun i => nth i c 0 - nth i d 0) i = 0).
    { apply (zero_comb r u Hu (fun i => nth i c 0 - nth i d 0) Hs). intros x Hx. specialize (H x Hx). rewrite !(expansion_comb r u) in H by auto. injection H as H.
      unfold comb in *. rewrite (rsum_ext _ _ (fun a => nth a c 0 * phi r u a x 0 - nth a d 0 * phi r u a x 0)) by (intros; ring). rewrite rsum_minus. lra. }
    apply (nth_ext c d 0 0); [congruence|]. intros i Hi. specialize (Z i ltac:(lia)). cbv beta in Z. lra.
  - intros H i Hi. destruct (Rlt_le_dec (nth i (padded r u) 0) (nth (i + r + 1) (padded r u) 0)) as [|G]; [auto|exfalso].
    set (m := basis_size r (padded r u)) in *. pose proof (p_len r u Hu) as PL.
    set (tab := fun f : nat -> R => map f (seq 0 m)). assert (Ltab : forall f, length (tab f) = m) by (intros f; unfold tab; now rewrite map_length, seq_length).
    assert (Ntab : forall f a, (a < m)%nat -> nth a (tab f) 0 = f a).
    { intros f a Ha. unfold tab. rewrite (nth_indep _ 0 (f 0%nat)) by (rewrite map_length, seq_length; auto). now rewrite map_nth, seq_nth by auto. }
    assert (E : tab (fun _ => 0) = tab (fun a => if (a =? i)%nat then 1 else 0)).
    { apply H; [apply Ltab|apply Ltab|]. intros x Hx. rewrite !(expansion_comb r u) by apply Ltab.
      do 2 f_equal. destruct (p_active r u Hu x Hx) as (k & A & B & C & _ & I). rewrite !(comb_at r u _ x 0 k I). apply rsum_ext. intros a Ha. fold m in Ha. rewrite !Ntab by auto.
      destruct (Nat.eqb_spec a i) as [->|N]; [|ring].
      rewrite dcox_zero; [ring|]. intros K. change (kn (padded r u) (i + r + 1) <= kn (padded r u) i) in G. unfold m, basis_size in Hi.
      assert (kn (padded r u) i <= kn (padded r u) k) by (apply (p_mono r u Hu); lia). assert (kn (padded r u) (S k) <= kn (padded r u) (i + r + 1)) by (apply (p_mono r u Hu); lia). lra. }
    apply (f_equal (fun l => nth i l 0)) in E. cbv beta in E. rewrite !Ntab, Nat.eqb_refl in E by auto. lra.
Qed.
Theorem C159_supports r u t : knots_ok u -> strictly_increasing u -> pad_knots r u = Ok t -> supports r t.
Proof.
  intros Hu Hi Et. rewrite (pad_ok r u Hu) in Et. injection Et as <-. intros i Hm. rewrite p_size in Hm by auto. pose proof (u_len u Hu). pose proof (padded_length r u).
  change (kn (padded r u) i < kn (padded r u) (i + r + 1)). rewrite !(padded_kn r u) by lia. apply Hi. lia.
Qed.

(* ------------------------------------------------------------------ C160 *)
Theorem C160_straight r u t c p q : knots_ok u -> pad_knots r u = Ok t -> (1 <= r)%nat -> length c = basis_size r t ->
  (forall i, (i < basis_size r t)%nat -> nth i c 0 = p + q * greville r t i) ->
  forall x, first_knot u <= x <= last_knot u -> spline_expansion r t c [x] = Ok [p + q * x].
Proof.
  intros Hu Et Hr Hc H x Hx. rewrite (pad_ok r u Hu) in Et. injection Et as <-. rewrite (expansion_comb r u) by auto. do 2 f_equal.
  rewrite <- (comb_greville r u Hu x Hr Hx p q). unfold comb. apply rsum_ext. intros a Ha. now rewrite H.
Qed.
(* and they are the only ones *)
Theorem C160_only r u t c p q : knots_ok u -> pad_knots r u = Ok t -> (1 <= r)%nat -> supports r t -> length c = basis_size r t ->
  (forall x, first_knot u <= x <= last_knot u -> spline_expansion r t c [x] = Ok [p + q * x]) ->
  forall i, (i < basis_size r t)%nat -> nth i c 0 = p + q * greville r t i.
Proof.
  intros Hu Et Hr Hs Hc H i Hi. set (d := map (fun i => p + q * greville r t i) (seq 0 (basis_size r t))).
  assert (Hd : length d = basis_size r t) by (unfold d; now rewrite map_length, seq_length).
  assert (Nd : forall i, (i < basis_size r t)%nat -> nth i d 0 = p + q * greville r t i).
  { intros j Hj. unfold d. set (g := fun i => p + q * greville r t i). rewrite (nth_indep _ 0 (g 0%nat)) by (rewrite map_length, seq_length; auto). rewrite map_nth, seq_nth by auto. reflexivity. }
  rewrite (proj1 (C159_independent r u t Hu Et) Hs c d Hc Hd); [now apply Nd|]. intros x Hx. rewrite H by auto. symmetry. now apply (C160_straight r u t d p q).
Qed.

(* ------------------------------------------------------------------ quadratic forms of the assembled matrices *)
Lemma weak_bilinear op n (c : nat -> R) (p : nat -> nat -> R) x :
  rsum n (fun a => c a * rsum n (fun b => weak op (p a) (p b) x * c b)) = weak op (fun K => rsum n (fun a => c a * p a K)) (fun K => rsum n (fun a => c a * p a K)) x.
Proof.
  assert (B : forall K, rsum n (fun a => c a * rsum n (fun b => p a K * p b K * c b)) = rsum n (fun a => c a * p a K) * rsum n (fun a => c a * p a K)).
  { intros K. rewrite <- rsum_scal_r. apply rsum_ext. intros a _. rewrite Rmult_assoc. f_equal. rewrite <- rsum_scal. apply rsum_ext. intros; ring. }
  induction op as [f| |a IHa b IHb|a IHa b IHb|s a IHa|a IHa]; cbn [weak].
  - transitivity (f x * rsum n (fun a => c a * rsum n (fun b => p a 0%nat * p b 0%nat * c b))); [|rewrite B; ring].
    rewrite <- rsum_scal. apply rsum_ext. intros a _. rewrite <- !rsum_scal. apply rsum_ext. intros; ring.
  - transitivity (- 1 * rsum n (fun a => c a * rsum n (fun b => p a 2%nat * p b 2%nat * c b))); [|rewrite B; ring].
    rewrite <- rsum_scal. apply rsum_ext. intros a _. rewrite <- !rsum_scal. apply rsum_ext. intros; ring.
  - rewrite <- IHa, <- IHb, <- rsum_plus. apply rsum_ext. intros i _. rewrite <- Rmult_plus_distr_l, <- rsum_plus. f_equal. apply rsum_ext. intros; ring.
  - rewrite <- IHa, <- IHb, <- rsum_minus. apply rsum_ext. intros i _. rewrite <- Rmult_minus_distr_l, <- rsum_minus. f_equal. apply rsum_ext. intros; ring.
  - rewrite <- IHa, <- rsum_scal. apply rsum_ext. intros i _. rewrite <- !rsum_scal. apply rsum_ext. intros; ring.
  - rewrite <- IHa. transitivity (- 1 * rsum n (fun i => c i * rsum n (fun b => weak a (p i) (p b) x * c b))); [|ring].
    rewrite <- rsum_scal. apply rsum_ext. intros i _. rewrite <- !rsum_scal. apply rsum_ext. intros; ring.
Qed.
Definition gl_node (a b : R) (q : nat) : R := (b - a) / 2 * (match q with 0%nat => - (774596669241483 / 10 ^ 15) | 1%nat => 0 | _ => 774596669241483 / 10 ^ 15 end) + (b + a) / 2.
Definition gl_weight (q : nat) : R := match q with 1%nat => 888888888888888 / 10 ^ 15 | _ => 555555555555555 / 10 ^ 15 end.
Lemma integrate_3 a b f : spline_integrate a b f = rsum 3 (fun q => (b - a) / 2 * gl_weight q * f (gl_node a b q)).
Proof.
  unfold spline_integrate, quadrature, table_gl_1_3. cbn [combine q_nodes q_weights map fst snd lsum nth rsum]. unfold gl_weight, gl_node.
  match goal with |- _ * (f ?x * ?v + (f ?y * ?w + (f ?z * _ + 0))) = 0 + _ * _ * f ?x' + _ * _ * f ?y' + _ * _ * f ?z' => replace x' with x; [replace y' with y; [replace z' with z; [|]|]|] end.
  - unfold Q2R. cbn -[Rdiv]. field.
  - f_equal. f_equal. unfold Q2R. cbn. lra.
  - f_equal. f_equal. unfold Q2R. cbn. lra.
  - f_equal. f_equal. unfold Q2R. cbn. lra.
Qed.
Lemma gl_inside a b q : a < b -> a < gl_node a b q < b.
Proof. intros H. unfold gl_node. destruct q as [|[|q]]; nra. Qed.
Lemma gl_distinct a b p q : a < b -> (p < q < 3)%nat -> gl_node a b p <> gl_node a b q.
Proof. intros H Hq. unfold gl_node. destruct p as [|[|p]], q as [|[|[|q]]]; try lia; intros E; nra. Qed.
Lemma gl_pos q : 0 < gl_weight q.
Proof. unfold gl_weight. destruct q as [|[|q]]; lra. Qed.
Lemma quadratic_zero f x y z : quadratic f -> x <> y -> x <> z -> y <> z -> f x = 0 -> f y = 0 -> f z = 0 -> forall w, f w = 0.
Proof.
  intros (A & B & C & H) H1 H2 H3 X Y Z w. rewrite H in X, Y, Z.
  assert (P1 : B + C * (x + y) = 0) by (apply (Rmult_eq_reg_l (x - y)); [lra|intros E; lra]).
  assert (P2 : B + C * (x + z) = 0) by (apply (Rmult_eq_reg_l (x - z)); [lra|intros E; lra]).
  assert (P3 : C = 0) by (apply (Rmult_eq_reg_l (y - z)); [lra|intros E; lra]). rewrite H. rewrite P3 in *. assert (B = 0) by lra. subst B. lra.
Qed.
Lemma quadratic_sum n (c : nat -> R) (f : nat -> R -> R) : (forall i, (i < n)%nat -> quadratic (f i)) -> quadratic (fun x => rsum n (fun i => c i * f i x)).
Proof.
  induction n as [|n IH]; intros H; cbn [rsum]; [exists 0, 0, 0; intros; ring|]. apply quadratic_plus; [apply IH; intros; apply H; lia|].
  destruct (H n ltac:(lia)) as (A & B & C & E). exists (c n * A), (c n * B), (c n * C). intros x. rewrite E. ring.
Qed.
Section Energy.
Variables (r : nat) (u : list R).
Hypothesis Hu : knots_ok u.
Local Notation t := (padded r u).
Local Notation m := (basis_size r (padded r u)).
Definition energy (op : sop) (c : nat -> R) (x : R) : R := weak op (comb r u c x) (comb r u c x) x.
Lemma qform_whole op c : qform m (whole r u op) c = rsum (length t - 1) (fun k => piece r u (energy op c) k).
Proof.
  unfold qform, whole. rewrite (rsum_ext m _ (fun a => rsum (length t - 1) (fun k => c a * rsum m (fun b => piece r u (form r u op a b) k * c b)))).
  2:{ intros a _. rewrite rsum_scal. f_equal. rewrite rsum_swap. apply rsum_ext. intros b _. rewrite rsum_scal_r. reflexivity. }
  rewrite rsum_swap. apply rsum_ext. intros k _. unfold piece. rewrite integrate_3.
  rewrite (rsum_ext m _ (fun a => rsum 3 (fun q => (kn t (S k) - kn t k) / 2 * gl_weight q * (c a * rsum m (fun b => form r u op a b (gl_node (kn t k) (kn t (S k)) q) * c b))))).
  2:{ intros a _. rewrite (rsum_ext m _ (fun b => rsum 3 (fun q => (kn t (S k) - kn t k) / 2 * gl_weight q * (form r u op a b (gl_node (kn t k) (kn t (S k)) q) * c b)))).
      - rewrite rsum_swap, <- rsum_scal. apply rsum_ext. intros q _. rewrite rsum_scal. ring.
      - intros b _. rewrite integrate_3, <- rsum_scal_r. apply rsum_ext. intros; ring. }
  rewrite rsum_swap. apply rsum_ext. intros q _. rewrite rsum_scal. f_equal. unfold form. exact (weak_bilinear op m c (fun a K => phi r u a (gl_node (kn t k) (kn t (S k)) q) K) _).
Qed.
Lemma qform_ext n A B c : (forall i j, (i < n)%nat -> (j < n)%nat -> A i j = B i j) -> qform n A c = qform n B c.
Proof. intros H. unfold qform. apply rsum_ext. intros i Hi. f_equal. apply rsum_ext. intros j Hj. now rewrite H. Qed.
Lemma piece_sign op c k : (k + 1 < length t)%nat -> (forall x, first_knot u <= x <= last_knot u -> 0 <= energy op c x) -> 0 <= piece r u (energy op c) k.
Proof.
  intros Hk H. unfold piece. rewrite integrate_3. apply FemEnergy.rsum_nonneg. intros q _. assert (kn t k <= kn t (S k)) by (apply (p_mono r u Hu); lia). pose proof (gl_pos q).
  destruct (Req_EM_T (kn t k) (kn t (S k))) as [E|N]; [rewrite <- E; lra|].
  pose proof (H _ (in_domain r u Hu k _ Hk (gl_inside (kn t k) (kn t (S k)) q ltac:(lra)))). apply Rmult_le_pos; [|auto]. nra.
Qed.
Lemma qform_sign op c : (forall x, first_knot u <= x <= last_knot u -> 0 <= energy op c x) -> 0 <= qform m (whole r u op) c.
Proof. intros H. rewrite qform_whole. apply FemEnergy.rsum_nonneg. intros k Hk. apply piece_sign; [lia|auto]. Qed.
(* the form vanishes only when the energy vanishes at every node *)
Lemma qform_zero op c : (forall x, first_knot u <= x <= last_knot u -> 0 <= energy op c x) -> qform m (whole r u op) c = 0 ->
  forall k q, (k + 1 < length t)%nat -> kn t k < kn t (S k) -> (q < 3)%nat -> energy op c (gl_node (kn t k) (kn t (S k)) q) = 0.
Proof.
  intros H Z k q Hk Hg Hq. rewrite qform_whole in Z.
  assert (Zk : piece r u (energy op c) k = 0) by (refine (rsum_nonneg_0 _ _ _ Z k _); [intros j Hj; apply piece_sign; [lia|exact H]|lia]). unfold piece in Zk. rewrite integrate_3 in Zk.
  assert (Zq := fun Hp => rsum_nonneg_0 3 _ Hp Zk q Hq). cbv beta in Zq. pose proof (gl_pos q).
  assert (F : (kn t (S k) - kn t k) / 2 * gl_weight q * energy op c (gl_node (kn t k) (kn t (S k)) q) = 0).
  { apply Zq. intros p _. pose proof (gl_pos p). pose proof (H _ (in_domain r u Hu k _ Hk (gl_inside (kn t k) (kn t (S k)) p Hg))). apply Rmult_le_pos; [|auto]. nra. }
  apply Rmult_integral in F as [F|F]; [nra|auto].
Qed.
(* a quadratic combination that vanishes at the nodes has no coefficient on the interval *)
Lemma nodes_zero r' c k : (r' <= 2)%nat -> (r' <= k)%nat -> (k + r' + 1 < length t)%nat -> (k < m)%nat -> kn t k < kn t (S k) ->
  (forall q, (q < 3)%nat -> rsum m (fun a => c a * cox (kn t) (one_at k) r' a (gl_node (kn t k) (kn t (S k)) q)) = 0) ->
  forall i, (k <= i + r')%nat -> (i <= k)%nat -> c i = 0.
Proof.
  intros Hr Hk1 Hk2 Hm Hg H. apply (local_zero (kn t) (length t) k m Hm (p_mono r u Hu) Hg r' c Hk1 Hk2). intros x _.
  apply (quadratic_zero (fun x => rsum m (fun a => c a * cox (kn t) (one_at k) r' a x)) _ _ _ (quadratic_sum m c (fun a => cox (kn t) (one_at k) r' a) (fun a _ => cox_quadratic _ _ _ _ Hr))
    (gl_distinct (kn t k) (kn t (S k)) 0 1 Hg ltac:(lia)) (gl_distinct (kn t k) (kn t (S k)) 0 2 Hg ltac:(lia)) (gl_distinct (kn t k) (kn t (S k)) 1 2 Hg ltac:(lia))); apply H; lia.
Qed.
Lemma comb_node c K k q : (k + 1 < length t)%nat -> kn t k < kn t (S k) ->
  comb r u c (gl_node (kn t k) (kn t (S k)) q) K = rsum m (fun a => c a * dcox (kn t) (one_at k) K r a (gl_node (kn t k) (kn t (S k)) q)).
Proof. intros Hk Hg. destruct (p_active_at r u Hu _ k Hk (gl_inside _ _ q Hg)) as (_ & _ & I). exact (comb_at r u c _ K k I). Qed.
(* distinct knots: up to order twice the number of intervals *)
Lemma all_nodes d c : strictly_increasing u -> (d <= r)%nat -> (d <= 2 * (length u - 1))%nat ->
  (forall k q, (r <= k < m)%nat -> (q < 3)%nat -> rsum m (fun a => c a * cox (kn t) (one_at k) d a (gl_node (kn t k) (kn t (S k)) q)) = 0) ->
  forall k, (r <= k < m)%nat -> forall i, (k <= i + d)%nat -> (i <= k)%nat -> c i = 0.
Proof.
  intros Hs Hd H2 H k Hk. pose proof (u_len u Hu) as UL. pose proof (padded_length r u) as PL. pose proof (p_size r u) as SZ.
  assert (Gap : forall k, (r <= k < r + (length u - 1))%nat -> kn t k < kn t (S k)) by (intros j Hj; rewrite !(padded_kn r u) by lia; apply Hs; lia).
  apply (many_zeros (kn t) (length t) m r (length u - 1) r (p_mono r u Hu) ltac:(lia) ltac:(lia) ltac:(lia) Gap (fun k q => gl_node (kn t k) (kn t (S k)) q)); [| |lia|lia| |lia].
  - intros j q Hj _. apply gl_inside. auto.
  - intros j q Hj Hq. pose proof (Gap j Hj). unfold gl_node. destruct q as [|[|q]]; [lra|lra|lia].
  - intros j q Hj Hq. apply H; [lia|auto].
Qed.
(* second derivatives that vanish at the nodes: the coefficients are those of a straight line *)
Lemma flat_line c : (2 <= r <= 2 * (length u - 1) + 2)%nat -> strictly_increasing u ->
  (forall k q, (k + 1 < length t)%nat -> kn t k < kn t (S k) -> (q < 3)%nat -> comb r u c (gl_node (kn t k) (kn t (S k)) q) 2 = 0) ->
  exists p q, forall i, (i < m)%nat -> c i = p + q * greville r t i.
Proof.
  intros Hr Hs H. pose proof (u_len u Hu) as UL. pose proof (padded_length r u) as PL. pose proof (p_size r u) as SZ.
  assert (Er : exists r', r = S (S r')) by (exists (r - 2)%nat; lia). destruct Er as [r' Er].
  set (d := diffc (kn t) (S r') c). set (e := diffc (kn t) r' d).
  assert (Gap : forall k, (r <= k < m)%nat -> kn t k < kn t (S k)) by (intros k Hk; rewrite !(padded_kn r u) by lia; apply Hs; lia).
  assert (E0 : forall i, (2 <= i < m)%nat -> e i = 0).
  { intros i Hi. remember (Nat.max i r) as k eqn:Ek. apply (all_nodes r' e Hs ltac:(lia) ltac:(lia)) with (k := k); try lia. clear Ek k. intros k q Hk Hq. rewrite <- (H k q ltac:(lia) (Gap k ltac:(lia)) Hq).
    rewrite comb_node by (auto; try lia; apply Gap; lia). symmetry.
    transitivity (rsum m (fun a => c a * dcox (kn t) (one_at k) 2 (S (S r')) a (gl_node (kn t k) (kn t (S k)) q))); [apply rsum_ext; intros; now rewrite <- Er|].
    etransitivity; [exact (diff_sum (kn t) k m ltac:(lia) 1 (S r') c _ ltac:(lia))|]. exact (diff_sum (kn t) k m ltac:(lia) 0 r' _ _ ltac:(lia)). }
  assert (D0 : forall i, (1 <= i < m)%nat -> d i = d 1%nat).
  { induction i as [|i IH]; intros Hi; [lia|]. destruct (Nat.eq_dec i 0) as [->|]; [reflexivity|]. rewrite <- IH by lia. specialize (E0 (S i) ltac:(lia)). unfold e, diffc in E0.
    assert (0 < rc (kn t) (S r') (S i)). { apply (rc_pos (kn t) (length t) (Nat.max (S i) r) m ltac:(lia) (p_mono r u Hu)); try lia. apply Gap. lia. }
    pose proof (lt_0_INR (S r') ltac:(lia)). replace (S i - 1)%nat with i in E0 by lia.
    apply Rmult_integral in E0 as [E0|E0]; [apply Rmult_integral in E0 as [E0|E0]; lra|lra]. }
  exists (c 0%nat - d 1%nat * greville r t 0), (d 1%nat). pose proof (lt_0_INR r ltac:(lia)) as IR. induction i as [|i IH]; intros Hi; [lra|].
  assert (E : d (S i) = d 1%nat) by (apply D0; lia). unfold d at 1 in E. unfold diffc in E. replace (S i - 1)%nat with i in E by lia.
  assert (G : greville r t (S i) - greville r t i = (kn t (S i + r) - kn t (S i)) / INR r).
  { unfold greville. unfold Rdiv. rewrite <- Rmult_minus_distr_r. f_equal. 
    rewrite (rsum_ext r (fun l => nth (S i + 1 + l) t 0) (fun l => (fun l => nth (i + 1 + l) t 0) (l + 1)%nat)) by (intros; f_equal; lia).
    rewrite (rsum_shift r (fun l => nth (i + 1 + l) t 0)). cbn [rsum]. unfold kn. replace (i + 1 + 0)%nat with (S i) by lia. replace (i + 1 + r)%nat with (S i + r)%nat by lia. ring. }
  assert (M1 := rc_mul (kn t) r (S i) ltac:(intros EE; assert (kn t (S i) < kn t (S i + r)); [|lra];
     rewrite !(padded_kn r u) by lia; apply Hs; lia)).
  replace (greville r t (S i)) with (greville r t i + (kn t (S i + r) - kn t (S i)) / INR r) by lra. specialize (IH ltac:(lia)).
  assert (Ec : c (S i) - c i = d 1%nat * ((kn t (S i + r) - kn t (S i)) / INR r)).
  { rewrite <- E. rewrite <- Er in *. transitivity ((c (S i) - c i) * (rc (kn t) r (S i) * (kn t (S i + r) - kn t (S i)))); [rewrite M1; ring|]. field. lra. }
  lra.
Qed.
End Energy.
Lemma weak_right op n (c : nat -> R) (p : nat -> R) (q : nat -> nat -> R) x : rsum n (fun b => weak op p (q b) x * c b) = weak op p (fun K => rsum n (fun a => c a * q a K)) x.
Proof.
  induction op as [f| |a IHa b IHb|a IHa b IHb|s a IHa|a IHa]; cbn [weak].
  - rewrite <- rsum_scal. apply rsum_ext. intros; ring.
  - rewrite <- rsum_scal. transitivity (- 1 * rsum n (fun i => p 2%nat * (c i * q i 2%nat))); [|ring]. rewrite <- rsum_scal. apply rsum_ext. intros; ring.
  - rewrite <- IHa, <- IHb, <- rsum_plus. apply rsum_ext. intros; ring.
  - rewrite <- IHa, <- IHb, <- rsum_minus. apply rsum_ext. intros; ring.
  - rewrite <- IHa, <- rsum_scal. apply rsum_ext. intros; ring.
  - rewrite <- IHa. transitivity (- 1 * rsum n (fun b => weak a p (q b) x * c b)); [|ring]. rewrite <- rsum_scal. apply rsum_ext. intros; ring.
Qed.
Section Rows.
Variables (r : nat) (u : list R).
Hypothesis Hu : knots_ok u.
Local Notation t := (padded r u).
Local Notation m := (basis_size r (padded r u)).
Lemma row_whole op c a : rsum m (fun b => whole r u op a b * c b) = rsum (length t - 1) (fun k => piece r u (fun x => weak op (phi r u a x) (comb r u c x) x) k).
Proof.
  unfold whole. rewrite (rsum_ext m _ (fun b => rsum (length t - 1) (fun k => piece r u (form r u op a b) k * c b))) by (intros; now rewrite rsum_scal_r).
  rewrite rsum_swap. apply rsum_ext. intros k _. unfold piece. rewrite integrate_3.
  rewrite (rsum_ext m _ (fun b => rsum 3 (fun q => (kn t (S k) - kn t k) / 2 * gl_weight q * (form r u op a b (gl_node (kn t k) (kn t (S k)) q) * c b)))).
  - rewrite rsum_swap. apply rsum_ext. intros q _. rewrite rsum_scal. f_equal. unfold form. exact (weak_right op m c _ (fun b K => phi r u b (gl_node (kn t k) (kn t (S k)) q) K) _).
  - intros b _. rewrite integrate_3, <- rsum_scal_r. apply rsum_ext. intros; ring.
Qed.
(* energies that vanish at the nodes *)
Lemma row_zero op c a : (forall k q, (k + 1 < length t)%nat -> kn t k < kn t (S k) -> (q < 3)%nat -> weak op (phi r u a (gl_node (kn t k) (kn t (S k)) q)) (comb r u c (gl_node (kn t k) (kn t (S k)) q)) (gl_node (kn t k) (kn t (S k)) q) = 0) ->
  rsum m (fun b => whole r u op a b * c b) = 0.
Proof.
  intros H. rewrite row_whole. apply rsum_zero. intros k Hk. unfold piece. rewrite integrate_3. apply rsum_zero. intros q Hq.
  assert (kn t k <= kn t (S k)) by (apply (p_mono r u Hu); lia). destruct (Req_EM_T (kn t k) (kn t (S k))) as [E|N]; [rewrite <- E; lra|].
  rewrite (H k q ltac:(lia) ltac:(lra) Hq). ring.
Qed.
Lemma definite op A : (forall a b, (a < m)%nat -> (b < m)%nat -> A a b = whole r u op a b) ->
  (forall c x, first_knot u <= x <= last_knot u -> 0 <= energy r u op c x) ->
  (forall c, (forall k q, (k + 1 < length t)%nat -> kn t k < kn t (S k) -> (q < 3)%nat -> energy r u op c (gl_node (kn t k) (kn t (S k)) q) = 0) -> forall i, (i < m)%nat -> c i = 0) ->
  positive_definite m A /\ exists B, inverse_of m A B.
Proof.
  intros HA Hp Hz.
  assert (Z : forall c, qform m A c = 0 -> forall i, (i < m)%nat -> c i = 0) by (intros c Hc; apply Hz; apply (qform_zero r u Hu op c (Hp c)); rewrite <- Hc; symmetry; now apply qform_ext).
  split.
  - intros c (i & Hi & Hc). assert (P : 0 <= qform m A c) by (rewrite (qform_ext m A (whole r u op)) by auto; exact (qform_sign r u Hu op c (Hp c))).
    destruct (Req_EM_T (qform m A c) 0) as [E|]; [|lra]. contradiction (Hc (Z c E i Hi)).
  - apply injective_inverse. intros x Hx. apply Z. unfold qform. apply rsum_zero. intros i Hi. rewrite Hx by auto. ring.
Qed.
Lemma some_gap i : supports r t -> (i < m)%nat -> exists k, (i <= k < i + r + 1)%nat /\ (k + 1 < length t)%nat /\ (r <= k)%nat /\ (k + r + 2 <= length t)%nat /\ kn t k < kn t (S k).
Proof.
  intros Hs Hi. pose proof (p_len r u Hu). assert (Hi' := Hi). unfold basis_size in Hi'. destruct (find_gap r u i (i + r + 1) ltac:(lia) (Hs i Hi)) as (k & Hk & G).
  destruct (nondegenerate_k r u Hu k ltac:(lia) G). exists k. repeat split; auto; lia.
Qed.
End Rows.

(* ------------------------------------------------------------------ C161 *)
(* up to order 2: the assembled matrix of a positive reaction is positive definite, hence invertible *)
Theorem C161_definite_partial r u t f A : knots_ok u -> pad_knots r u = Ok t -> (r <= 2)%nat -> supports r t ->
  (forall x, first_knot u <= x <= last_knot u -> 0 < f x) -> spline_discretize r t true (SReac f) = Ok A ->
  positive_definite (basis_size r t) A /\ exists B, inverse_of (basis_size r t) A B.
Proof.
  intros Hu Et Hr Hs Hf EA. rewrite (pad_ok r u Hu) in Et. injection Et as <-. destruct (discretize_ok r u Hu (SReac f) I) as (A' & E & HA). rewrite EA in E. injection E as <-.
  apply (definite r u Hu (SReac f) A HA).
  - intros c x Hx. unfold energy. cbn [weak]. rewrite Rmult_assoc. apply Rmult_le_pos; [left; auto|apply Rle_0_sqr].
  - intros c Hz i Hi. destruct (some_gap r u Hu i Hs Hi) as (k & K1 & K2 & K3 & K4 & G).
    apply (nodes_zero r u Hu r c k Hr K3 ltac:(lia) ltac:(unfold basis_size; lia) G); [|lia|lia]. intros q Hq. specialize (Hz k q K2 G Hq). unfold energy in Hz. cbn [weak] in Hz.
    rewrite (comb_node r u Hu c 0 k q K2 G) in Hz. cbn [dcox] in Hz. pose proof (Hf _ (in_domain r u Hu k _ K2 (gl_inside _ _ q G))).
    apply Rmult_integral in Hz as [Hz|Hz]; [apply Rmult_integral in Hz as [Hz|Hz]; [lra|exact Hz]|exact Hz].
Qed.
(* distinct knots: up to twice the number of intervals *)
Theorem C161_distinct_partial r u t f A : knots_ok u -> strictly_increasing u -> (r <= 2 * (length u - 1))%nat -> pad_knots r u = Ok t ->
  (forall x, first_knot u <= x <= last_knot u -> 0 < f x) -> spline_discretize r t true (SReac f) = Ok A ->
  positive_definite (basis_size r t) A /\ exists B, inverse_of (basis_size r t) A B.
Proof.
  intros Hu Hs Hr Et Hf EA. rewrite (pad_ok r u Hu) in Et. injection Et as <-. destruct (discretize_ok r u Hu (SReac f) I) as (A' & E & HA). rewrite EA in E. injection E as <-.
  pose proof (u_len u Hu) as UL. pose proof (padded_length r u) as PL. pose proof (p_size r u) as SZ. apply (definite r u Hu (SReac f) A HA).
  - intros c x Hx. unfold energy. cbn [weak]. rewrite Rmult_assoc. apply Rmult_le_pos; [left; auto|apply Rle_0_sqr].
  - intros c Hz i Hi. apply (all_nodes r u Hu r c Hs ltac:(lia) Hr) with (k := Nat.max i r); try lia. intros k q Hk Hq.
    assert (K2 : (k + 1 < length (padded r u))%nat) by lia. assert (G : kn (padded r u) k < kn (padded r u) (S k)) by (rewrite !(padded_kn r u) by lia; apply Hs; lia).
    specialize (Hz k q K2 G Hq). unfold energy in Hz. cbn [weak] in Hz.
    rewrite (comb_node r u Hu c 0 k q K2 G) in Hz. cbn [dcox] in Hz. pose proof (Hf _ (in_domain r u Hu k _ K2 (gl_inside _ _ q G))).
    apply Rmult_integral in Hz as [Hz|Hz]; [apply Rmult_integral in Hz as [Hz|Hz]; [lra|exact Hz]|exact Hz].
Qed.
(* with more than two functions per interval: three quadrature nodes are not enough and the matrix is singular *)
Lemma node_kernel r u extra (L : nat -> nat -> R) : knots_ok u -> strictly_increasing u -> (3 * (length u - 1) + extra < basis_size r (padded r u))%nat -> forall K,
  exists c, (exists i, (i < basis_size r (padded r u))%nat /\ c i <> 0) /\
  (forall k q, (k + 1 < length (padded r u))%nat -> kn (padded r u) k < kn (padded r u) (S k) -> (q < 3)%nat -> comb r u c (gl_node (kn (padded r u) k) (kn (padded r u) (S k)) q) K = 0) /\
  (forall e, (e < extra)%nat -> rsum (basis_size r (padded r u)) (fun j => L e j * c j) = 0).
Proof.
  intros Hu Hs Hm K. set (t := padded r u) in *. set (m := basis_size r t) in *. set (n := (length u - 1)%nat) in *.
  destruct (underdetermined (3 * n + extra) (seq 0 m) (fun e j => if (e <? 3 * n)%nat then phi r u j (gl_node (kn t (r + e / 3)) (kn t (S (r + e / 3))) (e mod 3)) K else L (e - 3 * n)%nat j)) as (c & (i & Hi & Hc) & H).
  - apply seq_NoDup.
  - rewrite seq_length. exact Hm.
  - apply in_seq in Hi. exists c. split; [exists i; split; [lia|auto]|]. split.
    + intros k q Hk G Hq. destruct (nondegenerate_k r u Hu k Hk G) as [A B]. fold t in B. pose proof (padded_length r u) as PL. fold t in PL.
      specialize (H (3 * (k - r) + q)%nat ltac:(unfold n; lia)). rewrite <- rsum_lsum in H.
      destruct (Nat.ltb_spec (3 * (k - r) + q) (3 * n)) as [_|]; [|unfold n in *; lia].
      replace ((3 * (k - r) + q) / 3)%nat with (k - r)%nat in H by (apply (Nat.div_unique _ 3 _ q); lia). replace ((3 * (k - r) + q) mod 3)%nat with q in H by (apply (Nat.mod_unique _ 3 (k - r) q); lia).
      replace (r + (k - r))%nat with k in H by lia. rewrite <- H. unfold comb. apply rsum_ext. intros; ring.
    + intros e He. specialize (H (3 * n + e)%nat ltac:(lia)). rewrite <- rsum_lsum in H. destruct (Nat.ltb_spec (3 * n + e) (3 * n)) as [|_]; [lia|].
      replace (3 * n + e - 3 * n)%nat with e in H by lia. exact H.
Qed.
Theorem C161_refuted r u t f : knots_ok u -> strictly_increasing u -> (2 * (length u - 1) < r)%nat -> pad_knots r u = Ok t ->
  exists A c, spline_discretize r t true (SReac f) = Ok A /\ (exists i, (i < basis_size r t)%nat /\ c i <> 0) /\
  forall a, (a < basis_size r t)%nat -> rsum (basis_size r t) (fun b => A a b * c b) = 0.
Proof.
  intros Hu Hs Hr Et. rewrite (pad_ok r u Hu) in Et. injection Et as <-. destruct (discretize_ok r u Hu (SReac f) I) as (A & E & HA). pose proof (u_len u Hu).
  destruct (node_kernel r u 0 (fun _ _ => 0) Hu Hs ltac:(rewrite p_size; lia) 0) as (c & Hc & Hz & _). exists A, c. split; [exact E|]. split; [exact Hc|].
  intros a Ha. rewrite (rsum_ext _ _ (fun b => whole r u (SReac f) a b * c b)) by (intros; now rewrite HA). apply (row_zero r u Hu). intros k q Hk G Hq. cbn [weak]. rewrite Hz by auto. ring.
Qed.

(* ------------------------------------------------------------------ C162 *)
Theorem C162_semidefinite r u t A c : knots_ok u -> (2 <= r)%nat -> pad_knots r u = Ok t -> spline_discretize r t true SBilap = Ok A -> qform (basis_size r t) A c <= 0.
Proof.
  intros Hu Hr Et EA. rewrite (pad_ok r u Hu) in Et. injection Et as <-. destruct (discretize_ok r u Hu SBilap Hr) as (A' & E & HA). rewrite EA in E. injection E as <-.
  rewrite (qform_ext _ A (whole r u SBilap)) by auto. assert (P := qform_sign r u Hu (SNegate SBilap) c). rewrite qform_whole in P. rewrite qform_whole.
  assert (Q : rsum (length (padded r u) - 1) (piece r u (energy r u SBilap c)) = - rsum (length (padded r u) - 1) (piece r u (energy r u (SNegate SBilap) c))).
  { transitivity (- 1 * rsum (length (padded r u) - 1) (piece r u (energy r u (SNegate SBilap) c))); [|ring]. rewrite <- rsum_scal. apply rsum_ext. intros k _. unfold piece. rewrite !integrate_3, <- rsum_scal.
    apply rsum_ext. intros q _. unfold energy. cbn [weak]. ring. }
  change (rsum (length (padded r u) - 1) (piece r u (energy r u SBilap c)) <= 0). rewrite Q. cut (0 <= rsum (length (padded r u) - 1) (piece r u (energy r u (SNegate SBilap) c))); [lra|].
  apply P. intros x _. unfold energy. cbn [weak]. pose proof (Rle_0_sqr (comb r u c x 2)). unfold Rsqr in *. lra.
Qed.
(* second derivatives of straight lines *)
Lemma straight_flat r u c p q : knots_ok u -> (2 <= r)%nat -> (forall x, first_knot u <= x <= last_knot u -> comb r u c x 0 = p + q * x) ->
  forall k x, (k + 1 < length (padded r u))%nat -> kn (padded r u) k < x < kn (padded r u) (S k) -> comb r u c x 2 = 0.
Proof.
  intros Hu Hr H k x Hk Hx. set (t := padded r u) in *. set (m := basis_size r t) in *.
  assert (G : kn t k < kn t (S k)) by lra. destruct (nondegenerate_k r u Hu k Hk G) as [K1 K2]. fold t in K2. assert (Km : (k < m)%nat) by (unfold m, basis_size; lia).
  assert (Er : exists r', r = S (S r')) by (exists (r - 2)%nat; lia). destruct Er as [r' Er].
  assert (Loc : forall x (f g : R -> R), kn t k < x < kn t (S k) -> (forall y, kn t k < y < kn t (S k) -> f y = g y) -> forall l, is_derive f x l -> is_derive g x l).
  { intros z f g Hz Hfg l D. apply (is_derive_ext_loc f); [|exact D]. assert (HP : 0 < Rmin (z - kn t k) (kn t (S k) - z)) by (apply Rmin_pos; lra). exists (mkposreal _ HP). intros y Hy. apply Hfg.
    unfold ball in Hy. cbn in Hy. unfold AbsRing_ball, abs, minus, plus, opp in Hy. cbn in Hy. apply Rabs_def2 in Hy. pose proof (Rmin_l (z - kn t k) (kn t (S k) - z)). pose proof (Rmin_r (z - kn t k) (kn t (S k) - z)). lra. }
  set (d := diffc (kn t) (S r') c).
  assert (C0 : forall y, kn t k < y < kn t (S k) -> p + q * y = rsum m (fun a => c a * cox (kn t) (one_at k) r a y)).
  { intros y Hy. destruct (p_active_at r u Hu y k Hk Hy) as (_ & _ & J). rewrite <- (H y (in_domain r u Hu k y Hk Hy)). exact (comb_at r u c y 0 k J). }
  assert (C1 : forall y, kn t k < y < kn t (S k) -> q = rsum m (fun a => d a * cox (kn t) (one_at k) (S r') a y)).
  { intros y Hy. pose proof (sum_derive (kn t) (length t) k m (p_mono r u Hu) r c y ltac:(lia)) as D1.
    assert (D2 : is_derive (fun y => p + q * y) y q) by (auto_derive; [auto|ring]). pose proof (Loc y _ _ Hy C0 q D2) as D3. apply is_derive_unique in D1, D3. apply (eq_trans (eq_sym D1)) in D3. rewrite <- D3.
    transitivity (rsum m (fun a => c a * dcox (kn t) (one_at k) 1 (S (S r')) a y)); [apply rsum_ext; intros; now rewrite <- Er|]. exact (diff_sum (kn t) k m Km 0 (S r') c y ltac:(lia)). }
  pose proof (sum_derive (kn t) (length t) k m (p_mono r u Hu) (S r') d x ltac:(lia)) as D1.
  assert (D2 : is_derive (fun _ : R => q) x 0) by apply (is_derive_const (K := R_AbsRing) (V := R_NormedModule)). pose proof (Loc x _ _ Hx C1 0 D2) as D3. apply is_derive_unique in D1, D3. apply (eq_trans (eq_sym D1)) in D3.
  destruct (p_active_at r u Hu x k Hk Hx) as (_ & _ & J). rewrite (comb_at r u c x 2 k J), <- D3. fold t m. transitivity (rsum m (fun a => c a * dcox (kn t) (one_at k) 2 (S (S r')) a x)); [apply rsum_ext; intros; now rewrite <- Er|]. exact (diff_sum (kn t) k m Km 1 (S r') c x ltac:(lia)).
Qed.
(* orders 2 to twice the number of intervals plus 2: the penalty of a spline is zero exactly when it is a straight line, and then it is in the kernel *)
Theorem C162_kernel_partial r u t A c : knots_ok u -> strictly_increasing u -> (2 <= r <= 2 * (length u - 1) + 2)%nat -> pad_knots r u = Ok t -> length c = basis_size r t ->
  spline_discretize r t true SBilap = Ok A ->
  (qform (basis_size r t) A (fun i => nth i c 0) = 0 <-> straight r u t c) /\
  ((forall a, (a < basis_size r t)%nat -> rsum (basis_size r t) (fun b => A a b * nth b c 0) = 0) <-> straight r u t c).
Proof.
  intros Hu Hs Hr Et Hc EA. assert (Et' := Et). rewrite (pad_ok r u Hu) in Et. injection Et as <-. destruct (discretize_ok r u Hu SBilap (proj1 Hr)) as (A' & E & HA). rewrite EA in E. injection E as <-.
  set (v := fun i => nth i c 0).
  assert (S1 : straight r u (padded r u) c -> forall a, (a < basis_size r (padded r u))%nat -> rsum (basis_size r (padded r u)) (fun b => A a b * v b) = 0).
  { intros (p & q & H) a Ha. rewrite (rsum_ext _ _ (fun b => whole r u SBilap a b * v b)) by (intros; now rewrite HA). apply (row_zero r u Hu). intros k q' Hk G Hq. cbn [weak].
    rewrite (straight_flat r u v p q Hu (proj1 Hr)) with (k := k); [ring| |exact Hk|now apply gl_inside]. intros x Hx. specialize (H x Hx). rewrite (expansion_comb r u) in H by auto. now injection H. }
  assert (S2 : qform (basis_size r (padded r u)) A v = 0 -> straight r u (padded r u) c).
  { intros Z. rewrite (qform_ext _ A (whole r u SBilap)) in Z by auto.
    assert (Z' : qform (basis_size r (padded r u)) (whole r u (SNegate SBilap)) v = 0).
    { rewrite qform_whole in *. transitivity (- 1 * rsum (length (padded r u) - 1) (fun k => piece r u (energy r u SBilap v) k)); [|rewrite Z; ring]. rewrite <- rsum_scal. apply rsum_ext. intros k _. unfold piece. rewrite !integrate_3, <- rsum_scal.
      apply rsum_ext. intros q _. unfold energy. cbn [weak]. ring. }
    assert (Pos : forall x, first_knot u <= x <= last_knot u -> 0 <= energy r u (SNegate SBilap) v x) by (intros x _; unfold energy; cbn [weak]; pose proof (Rle_0_sqr (comb r u v x 2)); unfold Rsqr in *; lra).
    assert (N := qform_zero r u Hu (SNegate SBilap) v Pos Z'). destruct (flat_line r u Hu v Hr Hs) as (p & q & L).
    - intros k q Hk G Hq. specialize (N k q Hk G Hq). unfold energy in N. cbn [weak] in N. apply Rsqr_0_uniq. unfold Rsqr. lra.
    - exists p, q. apply (C160_straight r u (padded r u) c p q Hu Et' ltac:(lia) Hc L). }
  assert (S3 : (forall a, (a < basis_size r (padded r u))%nat -> rsum (basis_size r (padded r u)) (fun b => A a b * v b) = 0) -> qform (basis_size r (padded r u)) A v = 0).
  { intros H. unfold qform. apply rsum_zero. intros a Ha. rewrite H by auto. ring. }
  split; split; auto.
Qed.
(* too few nodes: splines that bend have no penalty *)
Theorem C162_refuted r u t : knots_ok u -> strictly_increasing u -> (2 * (length u - 1) + 2 < r)%nat -> pad_knots r u = Ok t ->
  exists A c, length c = basis_size r t /\ spline_discretize r t true SBilap = Ok A /\ ~ straight r u t c /\
  forall a, (a < basis_size r t)%nat -> rsum (basis_size r t) (fun b => A a b * nth b c 0) = 0.
Proof.
  intros Hu Hs Hr Et. assert (Et' := Et). rewrite (pad_ok r u Hu) in Et. injection Et as <-. pose proof (u_len u Hu) as UL. pose proof (padded_length r u) as PL. destruct (discretize_ok r u Hu SBilap ltac:(cbn; lia)) as (A & E & HA).
  set (m := basis_size r (padded r u)) in *. assert (Em : m = (length u + r - 1)%nat) by apply p_size.
  destruct (node_kernel r u 2 (fun e j => if (e =? 0)%nat then delta 0 j else delta (m - 1) j) Hu Hs ltac:(fold m; lia) 2) as (f & (i & Hi & Hf) & Hz & He). fold m in Hi, He.
  set (c := map f (seq 0 m)). assert (Lc : length c = m) by (unfold c; now rewrite map_length, seq_length).
  assert (Nc : forall a, (a < m)%nat -> nth a c 0 = f a) by (intros a Ha; unfold c; rewrite (nth_indep _ 0 (f 0%nat)) by (rewrite map_length, seq_length; auto); now rewrite map_nth, seq_nth by auto).
  exists A, c. split; [exact Lc|]. split; [exact E|]. split.
  - intros (p & q & H). assert (G := C160_only r u (padded r u) c p q Hu Et' ltac:(lia) (C159_supports r u _ Hu Hs Et') Lc H). fold m in G.
    assert (F0 := He 0%nat ltac:(lia)). assert (F1 := He 1%nat ltac:(lia)). cbn [Nat.eqb] in F0, F1. rewrite rsum_delta_l in F0 by lia. rewrite rsum_delta_l in F1 by lia.
    assert (IR : INR r <> 0) by (apply not_0_INR; lia).
    assert (G0 : greville r (padded r u) 0 = first_knot u).
    { unfold greville. rewrite (rsum_ext r _ (fun _ => first_knot u)). - rewrite rsum_const. field. auto.
      - intros l Hl. change (kn (padded r u) (0 + 1 + l) = first_knot u). rewrite (p_left r u) by (auto; lia). now apply p_first. }
    assert (G1 : greville r (padded r u) (m - 1) = last_knot u).
    { unfold greville. rewrite (rsum_ext r _ (fun _ => last_knot u)). - rewrite rsum_const. field. auto.
      - intros l Hl. change (kn (padded r u) (m - 1 + 1 + l) = last_knot u). rewrite (p_right r u) by (auto; lia). now apply p_last. }
    assert (Q0 := G 0%nat ltac:(lia)). assert (Q1 := G (m - 1)%nat ltac:(lia)). rewrite Nc, G0, F0 in Q0 by lia. rewrite Nc, G1, F1 in Q1 by lia.
    assert (FL : first_knot u < last_knot u) by (unfold first_knot, last_knot; apply Hs; lia).
    assert (q = 0) by (apply (Rmult_eq_reg_r (last_knot u - first_knot u)); lra). subst q. assert (p = 0) by lra. subst p. apply Hf. rewrite <- Nc, G by auto. ring.
  - intros a Ha. rewrite (rsum_ext _ _ (fun b => whole r u SBilap a b * f b)) by (intros b Hb; now rewrite HA, Nc by auto). apply (row_zero r u Hu). intros k q Hk G Hq. cbn [weak]. rewrite Hz by auto. ring.
Qed.

(* ------------------------------------------------------------------ C163 *)
(* the system of penalised smoothing: positive reaction minus a positive multiple of the bilaplacian *)
Theorem C163_smoothing_partial r u t f lam A : knots_ok u -> strictly_increasing u -> (2 <= r <= 2 * (length u - 1) + 2)%nat -> pad_knots r u = Ok t ->
  (forall x, first_knot u <= x <= last_knot u -> 0 < f x) -> 0 < lam -> spline_discretize r t true (SMinus (SReac f) (SScale lam SBilap)) = Ok A ->
  positive_definite (basis_size r t) A /\ exists B, inverse_of (basis_size r t) A B.
Proof.
  intros Hu Hs Hr Et Hf Hl EA. assert (Et' := Et). rewrite (pad_ok r u Hu) in Et. injection Et as <-. pose proof (u_len u Hu) as UL. pose proof (padded_length r u) as PL.
  destruct (discretize_ok r u Hu (SMinus (SReac f) (SScale lam SBilap)) (conj I (proj1 Hr))) as (A' & E & HA). rewrite EA in E. injection E as <-.
  assert (En : forall c x, energy r u (SMinus (SReac f) (SScale lam SBilap)) c x = f x * (comb r u c x 0 * comb r u c x 0) + lam * (comb r u c x 2 * comb r u c x 2)) by (intros; unfold energy; cbn [weak]; ring).
  assert (Sq : forall y : R, 0 <= y * y) by (intros; apply Rle_0_sqr).
  apply (definite r u Hu _ A HA).
  - intros c x Hx. rewrite En. apply Rplus_le_le_0_compat; apply Rmult_le_pos; auto; left; auto.
  - intros c Hz.
    assert (B : forall k q, (k + 1 < length (padded r u))%nat -> kn (padded r u) k < kn (padded r u) (S k) -> (q < 3)%nat ->
       comb r u c (gl_node (kn (padded r u) k) (kn (padded r u) (S k)) q) 0 = 0 /\ comb r u c (gl_node (kn (padded r u) k) (kn (padded r u) (S k)) q) 2 = 0).
    { intros k q Hk G Hq. specialize (Hz k q Hk G Hq). rewrite En in Hz. pose proof (Hf _ (in_domain r u Hu k _ Hk (gl_inside _ _ q G))) as Fp. set (s0 := comb r u c _ 0) in *. set (s2 := comb r u c _ 2) in *. set (g := f _) in *.
      pose proof (Sq s0). pose proof (Sq s2). assert (0 <= g * (s0 * s0)) by (apply Rmult_le_pos; lra). assert (0 <= lam * (s2 * s2)) by (apply Rmult_le_pos; lra).
      assert (Z0 : g * (s0 * s0) = 0) by lra. assert (Z2 : lam * (s2 * s2) = 0) by lra. split; apply Rsqr_0_uniq; unfold Rsqr.
      - apply Rmult_integral in Z0 as [Z0|Z0]; lra.
      - apply Rmult_integral in Z2 as [Z2|Z2]; lra. }
    destruct (flat_line r u Hu c Hr Hs (fun k q Hk G Hq => proj2 (B k q Hk G Hq))) as (p & q & L).
    assert (V : forall x, first_knot u <= x <= last_knot u -> comb r u c x 0 = p + q * x).
    { intros x Hx. rewrite <- (comb_greville r u Hu x ltac:(lia) Hx p q). unfold comb. apply rsum_ext. intros a Ha. now rewrite L. }
    assert (G : kn (padded r u) r < kn (padded r u) (S r)) by (rewrite !(padded_kn r u) by lia; apply Hs; lia).
    assert (N0 := proj1 (B r 0%nat ltac:(lia) G ltac:(lia))). assert (N1 := proj1 (B r 1%nat ltac:(lia) G ltac:(lia))).
    rewrite V in N0 by (apply (in_domain r u Hu r); [lia|now apply gl_inside]). rewrite V in N1 by (apply (in_domain r u Hu r); [lia|now apply gl_inside]).
    pose proof (gl_distinct _ _ 0 1 G ltac:(lia)) as D. assert (q = 0) by (apply (Rmult_eq_reg_r (gl_node (kn (padded r u) r) (kn (padded r u) (S r)) 0 - gl_node (kn (padded r u) r) (kn (padded r u) (S r)) 1)); [lra|intros EE; lra]).
    subst q. assert (p = 0) by lra. subst p. intros i Hi. rewrite L by auto. ring.
Qed.

(* too few nodes for both terms: the system is singular *)
Theorem C163_refuted r u t f lam : knots_ok u -> strictly_increasing u -> (5 * (length u - 1) < r)%nat -> pad_knots r u = Ok t ->
  exists A c, spline_discretize r t true (SMinus (SReac f) (SScale lam SBilap)) = Ok A /\ (exists i, (i < basis_size r t)%nat /\ c i <> 0) /\
  forall a, (a < basis_size r t)%nat -> rsum (basis_size r t) (fun b => A a b * c b) = 0.
Proof.
  intros Hu Hs Hr Et. rewrite (pad_ok r u Hu) in Et. injection Et as <-. pose proof (u_len u Hu). pose proof (padded_length r u) as PL.
  destruct (discretize_ok r u Hu (SMinus (SReac f) (SScale lam SBilap)) ltac:(cbn; split; [auto|lia])) as (A & E & HA). set (n := (length u - 1)%nat) in *.
  destruct (node_kernel r u (3 * n) (fun e j => phi r u j (gl_node (kn (padded r u) (r + e / 3)) (kn (padded r u) (S (r + e / 3))) (e mod 3)) 2) Hu Hs ltac:(fold n; rewrite p_size; unfold n; lia) 0) as (c & Hc & Hz & He).
  assert (Hz2 : forall k q, (k + 1 < length (padded r u))%nat -> kn (padded r u) k < kn (padded r u) (S k) -> (q < 3)%nat -> comb r u c (gl_node (kn (padded r u) k) (kn (padded r u) (S k)) q) 2 = 0).
  { intros k q Hk G Hq. destruct (nondegenerate_k r u Hu k Hk G) as [K1 K2]. specialize (He (3 * (k - r) + q)%nat ltac:(unfold n; lia)).
    replace ((3 * (k - r) + q) / 3)%nat with (k - r)%nat in He by (apply (Nat.div_unique _ 3 _ q); lia). replace ((3 * (k - r) + q) mod 3)%nat with q in He by (apply (Nat.mod_unique _ 3 (k - r) q); lia).
    replace (r + (k - r))%nat with k in He by lia. rewrite <- He. unfold comb. apply rsum_ext. intros; ring. }
  exists A, c. split; [exact E|]. split; [exact Hc|]. intros a Ha.
  rewrite (rsum_ext _ _ (fun b => whole r u (SMinus (SReac f) (SScale lam SBilap)) a b * c b)) by (intros; now rewrite HA). apply (row_zero r u Hu). intros k q Hk G Hq. cbn [weak]. rewrite Hz, Hz2 by auto. ring.
Qed.

(* non-vacuity: three knots, orders 2 and 3 *)
Definition three_knots : list R := [0; 1; 3].
Lemma three_ok : knots_ok three_knots /\ strictly_increasing three_knots.
Proof.
  split.
  - unfold knots_ok, tol, three_knots. split; [cbn; lia|]. split; [|cbn; lra]. intros i j H. cbn in H. destruct i as [|[|[|i]]], j as [|[|[|j]]]; cbn; try lia; lra.
  - intros i j H. unfold three_knots in *. cbn in H. destruct i as [|[|[|i]]], j as [|[|[|j]]]; cbn; try lia; lra.
Qed.
Example C161_example : exists t A, pad_knots 2 three_knots = Ok t /\ spline_discretize 2 t true mass = Ok A /\ positive_definite 4 A.
Proof.
  destruct three_ok as [H1 H2]. destruct (discretize_ok 2 three_knots H1 mass I) as (A & E & _). exists (padded 2 three_knots), A. split; [now apply pad_ok|]. split; [exact E|].
  apply (C161_definite_partial 2 three_knots (padded 2 three_knots) (fun _ => 1) A H1 (pad_ok 2 _ H1) ltac:(lia)); [apply (C159_supports 2 three_knots _ H1 H2 (pad_ok 2 _ H1))|intros; lra|exact E].
Qed.
Example C161_distinct_example : exists t A, pad_knots 4 three_knots = Ok t /\ spline_discretize 4 t true mass = Ok A /\ positive_definite 6 A.
Proof.
  destruct three_ok as [H1 H2]. destruct (discretize_ok 4 three_knots H1 mass I) as (A & E & _). exists (padded 4 three_knots), A. split; [now apply pad_ok|]. split; [exact E|].
  apply (C161_distinct_partial 4 three_knots (padded 4 three_knots) (fun _ => 1) A H1 H2 ltac:(cbn; lia) (pad_ok 4 _ H1)); [intros; lra|exact E].
Qed.
Lemma unit_increasing : strictly_increasing [0; 1].
Proof. intros i j H. cbn in H. destruct i as [|[|i]], j as [|[|j]]; cbn; try lia; lra. Qed.
Example C161_refuted_example : exists A c, spline_discretize 3 (padded 3 [0; 1]) true mass = Ok A /\ (exists i, (i < 4)%nat /\ c i <> 0) /\ forall a, (a < 4)%nat -> rsum 4 (fun b => A a b * c b) = 0.
Proof. exact (C161_refuted 3 [0; 1] (padded 3 [0; 1]) (fun _ => 1) unit_knots unit_increasing ltac:(cbn; lia) (pad_ok 3 _ unit_knots)). Qed.
Example C162_refuted_example : exists A c, length c = 6%nat /\ spline_discretize 5 (padded 5 [0; 1]) true SBilap = Ok A /\ ~ straight 5 [0; 1] (padded 5 [0; 1]) c /\ forall a, (a < 6)%nat -> rsum 6 (fun b => A a b * nth b c 0) = 0.
Proof. exact (C162_refuted 5 [0; 1] (padded 5 [0; 1]) unit_knots unit_increasing ltac:(cbn; lia) (pad_ok 5 _ unit_knots)). Qed.
Example C163_example : exists t A, pad_knots 3 three_knots = Ok t /\ spline_discretize 3 t true (SMinus mass (SScale 2 SBilap)) = Ok A /\ positive_definite 5 A.
Proof.
  destruct three_ok as [H1 H2]. destruct (discretize_ok 3 three_knots H1 (SMinus mass (SScale 2 SBilap)) ltac:(cbn; split; [auto|lia])) as (A & E & _). exists (padded 3 three_knots), A. split; [now apply pad_ok|]. split; [exact E|].
  apply (C163_smoothing_partial 3 three_knots (padded 3 three_knots) (fun _ => 1) 2 A H1 H2 ltac:(cbn; lia) (pad_ok 3 _ H1)); [intros; lra|lra|exact E].
Qed.
Print Assumptions C159_independent.
Print Assumptions C162_kernel_partial.
Print Assumptions C163_smoothing_partial.
