(* Measure and inverse Jacobian of a cell. *)
From Verif Require Import Base RSum SimplexModel SimplexProps LinAlg MeasureModel.
Local Open Scope R_scope.

(* ------------------------------------------------------------------ specification *)
(* the cells of the library: local dimension, embedding dimension *)
Definition cell_kind (d N : nat) : Prop := In (d, N) [(1, 1); (2, 2); (3, 3); (1, 2); (1, 3); (2, 3)]%nat.
(* the vertices are affinely independent: no vertex is a combination of the others *)
Definition nondegenerate (d N : nat) (c : nat -> vec) : Prop :=
  forall x : nat -> R, (forall r, (r < N)%nat -> rsum d (fun k => (c (S k) r - c 0%nat r) * x k) = 0) ->
    forall k, (k < d)%nat -> x k = 0.
(* the point with barycentric coordinates w *)
Definition point (d : nat) (c : nat -> vec) (w : nat -> R) : vec := fun r => rsum (S d) (fun i => w i * c i r).
(* vertex i moved to p *)
Definition moved (c : nat -> vec) (i : nat) (p : vec) : nat -> vec := fun j => if Nat.eqb j i then p else c j.
(* a linear map followed by a translation *)
Definition image (N : nat) (A : nat -> nat -> R) (t : vec) (c : nat -> vec) : nat -> vec :=
  fun i r => rsum N (fun s => A r s * c i s) + t r.

(* ------------------------------------------------------------------ linear algebra *)
Lemma injective_onto n (A : nat -> nat -> R) :
  (forall x, (forall i, (i < n)%nat -> rsum n (fun j => A i j * x j) = 0) -> forall j, (j < n)%nat -> x j = 0) ->
  forall b, exists x, forall k, (k < n)%nat -> rsum n (fun j => A k j * x j) = b k.
Proof.
  intros Hi b. destruct (underdetermined n (seq 0 (S n)) (fun i j => if Nat.eqb j n then b i else A i j)) as (x & (j & Hj & Hxj) & Hx).
  { apply seq_NoDup. } { rewrite seq_length. lia. }
  assert (E : forall i, (i < n)%nat -> rsum n (fun j => A i j * x j) + b i * x n = 0).
  { intros i Hin. assert (Hs := Hx i Hin). rewrite <- rsum_lsum in Hs. cbn [rsum] in Hs. rewrite Nat.eqb_refl in Hs. rewrite <- Hs. f_equal.
    apply rsum_ext. intros k Hk. destruct (Nat.eqb_spec k n); auto; lia. }
  assert (Hxn : x n <> 0).
  { intros Hz. apply in_seq in Hj. destruct (Nat.eq_dec j n) as [->|Hjn]; [auto|]. apply Hxj. apply Hi; [|lia].
    intros k Hk. specialize (E k Hk). rewrite Hz in E. lra. }
  exists (fun j => - x j / x n). intros k Hk. rewrite (rsum_ext n _ (fun j => (-1 / x n) * (A k j * x j))) by (intros; field; auto).
  rewrite rsum_scal. specialize (E k Hk). replace (rsum n (fun j0 => A k j0 * x j0)) with (- (b k * x n)) by lra. field. auto.
Qed.
Lemma finite_choice {A} (n : nat) (Pr : nat -> A -> Prop) (a0 : A) : (forall i, (i < n)%nat -> exists a, Pr i a) ->
  exists f, forall i, (i < n)%nat -> Pr i (f i).
Proof.
  induction n as [|n IH]; intros H; [exists (fun _ => a0); intros; lia|].
  destruct IH as [f Hf]; [auto|]. destruct (H n ltac:(lia)) as [a Ha].
  exists (fun i => if Nat.eqb i n then a else f i). intros i Hi. destruct (Nat.eqb_spec i n) as [->|]; auto. apply Hf. lia.
Qed.
Lemma injective_inverse n (A : nat -> nat -> R) :
  (forall x, (forall i, (i < n)%nat -> rsum n (fun j => A i j * x j) = 0) -> forall j, (j < n)%nat -> x j = 0) ->
  exists B, inverse_of n A B.
Proof.
  intros H. destruct (finite_choice n (fun j x => forall i, (i < n)%nat -> rsum n (fun k => A i k * x k) = delta i j) (fun _ => 0)) as [f Hf].
  { intros j _. apply (injective_onto n A H). }
  exists (fun k j => f j k). intros i j Hi Hj. exact (Hf j Hj i Hi).
Qed.
Ltac small d := destruct d as [|[|[|[|d]]]]; try (exfalso; lia).
Lemma det_mul d A B : (1 <= d <= 3)%nat -> det d (fun i j => rsum d (fun k => A i k * B k j)) = det d A * det d B.
Proof. intros H. small d; cbn; ring. Qed.
Lemma det_ext d A B : (forall i j, (i < d)%nat -> (j < d)%nat -> A i j = B i j) -> det d A = det d B.
Proof. intros H. destruct d as [|[|[|[|d]]]]; cbn; auto; rewrite !H by lia; reflexivity. Qed.
Lemma det_delta d : (1 <= d <= 3)%nat -> det d delta = 1.
Proof. intros H. small d; cbn; ring. Qed.
Lemma det_inverse d A B : (1 <= d <= 3)%nat -> inverse_of d A B -> det d A <> 0.
Proof.
  intros H HI E. assert (K := det_mul d A B H). rewrite (det_ext d _ delta HI), (det_delta d H), E in K. lra.
Qed.
Lemma inverse_ok d A : (1 <= d <= 3)%nat -> det d A <> 0 -> inverse_of d A (inverse d A).
Proof.
  intros H Hd i j Hi Hj. unfold inverse, delta. small d; small i; small j; cbn in *; field; auto.
Qed.

(* ------------------------------------------------------------------ C141 *)
Lemma rsum_sq_0 n (f : nat -> R) : rsum n (fun i => f i * f i) = 0 -> forall i, (i < n)%nat -> f i = 0.
Proof.
  induction n as [|n IH]; intros H i Hi; [lia|]. cbn [rsum] in H.
  assert (0 <= rsum n (fun i => f i * f i)) by (rewrite <- (rsum_0 n); apply rsum_le; intros; apply Rle_0_sqr).
  assert (0 <= f n * f n) by apply Rle_0_sqr.
  destruct (Nat.eq_dec i n) as [->|]; [apply Rsqr_0_uniq; unfold Rsqr; lra|]. apply IH; [lra|lia].
Qed.
Lemma gram_injective d N c : nondegenerate d N c ->
  forall x, (forall i, (i < d)%nat -> rsum d (fun j => gram N c i j * x j) = 0) -> forall j, (j < d)%nat -> x j = 0.
Proof.
  intros H x Hx. apply H. intros r Hr.
  apply (rsum_sq_0 N (fun r => rsum d (fun k => (c (S k) r - c 0%nat r) * x k))); [|auto].
  transitivity (rsum d (fun i => x i * rsum d (fun j => gram N c i j * x j))).
  - rewrite (rsum_ext N _ (fun r => rsum d (fun i => x i * rsum d (fun j => jac c r i * jac c r j * x j)))).
    + rewrite rsum_swap. apply rsum_ext. intros i _. rewrite rsum_scal, rsum_swap. f_equal. apply rsum_ext. intros j _. unfold gram. now rewrite rsum_scal_r.
    + intros s _. rewrite <- rsum_scal_r. apply rsum_ext. intros i _.
      rewrite (rsum_ext d (fun j => jac c s i * jac c s j * x j) (fun j => jac c s i * (jac c s j * x j))) by (intros; ring). rewrite rsum_scal. unfold jac. ring.
  - apply rsum_zero. intros i Hi. rewrite Hx by auto. ring.
Qed.
Lemma det_gram_square d c : (1 <= d <= 3)%nat -> det d (gram d c) = det d (jac c) * det d (jac c).
Proof. intros H. small d; unfold gram; cbn; ring. Qed.
Lemma kind_range d N : cell_kind d N -> (1 <= d <= 3)%nat /\ (d <= N <= 3)%nat.
Proof. intros H. repeat (destruct H as [H|H]; [injection H as <- <-; lia|]). destruct H. Qed.
Lemma det_gram_pos d N c : cell_kind d N -> 0 <= det d (gram N c).
Proof.
  intros H. repeat (destruct H as [H|H]; [injection H as <- <-|]); [..|destruct H].
  1, 2, 3 : rewrite det_gram_square by lia; apply Rle_0_sqr.
  - unfold gram. cbn. assert (K := Rle_0_sqr (jac c 0 0)). assert (K' := Rle_0_sqr (jac c 1 0)). unfold Rsqr in *. lra.
  - unfold gram. cbn. assert (K := Rle_0_sqr (jac c 0 0)). assert (K' := Rle_0_sqr (jac c 1 0)). assert (K'' := Rle_0_sqr (jac c 2 0)). unfold Rsqr in *. lra.
  - unfold gram. cbn.
    assert (K := Rle_0_sqr (jac c 0 0 * jac c 1 1 - jac c 1 0 * jac c 0 1)).
    assert (K' := Rle_0_sqr (jac c 0 0 * jac c 2 1 - jac c 2 0 * jac c 0 1)).
    assert (K'' := Rle_0_sqr (jac c 1 0 * jac c 2 1 - jac c 2 0 * jac c 1 1)). unfold Rsqr in *. lra.
Qed.
(* the measure is the square root of the Gram determinant over d! *)
Theorem C141_gram d N c : cell_kind d N ->
  cell_measure d N c = sqrt (det d (fun a b => rsum N (fun r => (c (S a) r - c 0%nat r) * (c (S b) r - c 0%nat r)))) / INR (fact d).
Proof.
  intros H. change (fun a b => rsum N (fun r => (c (S a) r - c 0%nat r) * (c (S b) r - c 0%nat r))) with (gram N c).
  repeat (destruct H as [H|H]; [injection H as <- <-|]); [..|destruct H].
  1, 2, 3 : rewrite det_gram_square by lia; fold (Rsqr (det 1 (jac c))) (Rsqr (det 2 (jac c))) (Rsqr (det 3 (jac c))); rewrite sqrt_Rsqr_abs; reflexivity.
  - unfold cell_measure, norm, dot, gram. cbn. field.
  - unfold cell_measure, norm, dot, gram. cbn. field.
  - unfold cell_measure. cbn [Nat.eqb]. unfold norm, dot. change (INR (fact 2)) with (1 + 1).
    match goal with |- / 2 * sqrt ?x = sqrt ?y / (1 + 1) => replace x with y; [field|] end. unfold gram, cross. cbn. ring.
Qed.
Lemma fact_pos d : 0 < INR (fact d).
Proof. apply lt_0_INR. apply lt_O_fact. Qed.
Theorem C141_positive d N c : cell_kind d N -> (0 < cell_measure d N c <-> nondegenerate d N c) /\ 0 <= cell_measure d N c.
Proof.
  intros H. destruct (kind_range d N H) as [Hd HN]. rewrite (C141_gram d N c H).
  change (fun a b => rsum N (fun r => (c (S a) r - c 0%nat r) * (c (S b) r - c 0%nat r))) with (gram N c).
  assert (Hf := fact_pos d). assert (Hg := det_gram_pos d N c H). split; [split|].
  - intros Hp x Hx. assert (Hne : det d (gram N c) <> 0).
    { intros E. rewrite E, sqrt_0 in Hp. unfold Rdiv in Hp. lra. }
    intros k Hk. assert (HI := inverse_comm _ _ _ (inverse_ok d _ Hd Hne)).
    rewrite <- (rsum_delta_l d k x Hk). rewrite (rsum_ext d _ (fun j => rsum d (fun i => inverse d (gram N c) k i * (gram N c i j * x j)))).
    + rewrite rsum_swap. apply rsum_zero. intros i Hi. rewrite rsum_scal.
      replace (rsum d (fun j => gram N c i j * x j)) with 0; [ring|]. symmetry. unfold gram.
      rewrite (rsum_ext d _ (fun j => rsum N (fun r => jac c r i * (jac c r j * x j)))) by (intros; rewrite <- rsum_scal_r; apply rsum_ext; intros; ring).
      rewrite rsum_swap. apply rsum_zero. intros r Hr. rewrite rsum_scal. unfold jac at 2. rewrite (Hx r Hr). ring.
    + intros j Hj. rewrite <- (HI k j Hk Hj), <- rsum_scal_r. apply rsum_ext. intros; ring.
  - intros Hn. destruct (injective_inverse d (gram N c) (gram_injective d N c Hn)) as (B & HB).
    assert (Hne := det_inverse d _ _ Hd HB). apply Rdiv_lt_0_compat; [|auto]. apply sqrt_lt_R0. lra.
  - apply Rmult_le_pos; [apply sqrt_pos|]. left. now apply Rinv_0_lt_compat.
Qed.
(* the inverse Jacobian undoes the Jacobian; on a full dimensional cell, on both sides *)
Theorem C141_inverse d N c : cell_kind d N -> nondegenerate d N c ->
  (forall k l, (k < d)%nat -> (l < d)%nat -> rsum N (fun r => cell_invJ d N c k r * (c (S l) r - c 0%nat r)) = if Nat.eqb k l then 1 else 0) /\
  (d = N -> forall r s, (r < N)%nat -> (s < N)%nat -> rsum d (fun k => (c (S k) r - c 0%nat r) * cell_invJ d N c k s) = if Nat.eqb r s then 1 else 0).
Proof.
  intros H Hn. destruct (kind_range d N H) as [Hd HN].
  destruct (injective_inverse d (gram N c) (gram_injective d N c Hn)) as (B & HB). assert (Hne := det_inverse d _ _ Hd HB).
  unfold cell_invJ. destruct (Nat.eqb_spec d N) as [<-|HdN].
  - rewrite det_gram_square in Hne by auto. assert (HI := inverse_ok d (jac c) Hd ltac:(intros E; rewrite E in Hne; lra)).
    split; [exact (inverse_comm _ _ _ HI)|]. intros _. exact HI.
  - split; [|intros; contradiction]. intros k l Hk Hl. assert (HI := inverse_comm _ _ _ (inverse_ok d _ Hd Hne)).
    change (if (k =? l)%nat then 1 else 0) with (delta k l). rewrite <- (HI k l Hk Hl). unfold pinv.
    rewrite (rsum_ext N _ (fun r => rsum d (fun b => inverse d (gram N c) k b * (jac c r b * jac c r l)))).
    + rewrite rsum_swap. apply rsum_ext. intros b _. rewrite rsum_scal. reflexivity.
    + intros r _. rewrite <- rsum_scal_r. apply rsum_ext. intros b _. unfold jac. ring.
Qed.

(* ------------------------------------------------------------------ C142 *)
Theorem C142_unit d : (1 <= d <= 3)%nat -> cell_measure d d unit_simplex = 1 / INR (fact d).
Proof.
  intros H. unfold cell_measure. rewrite Nat.eqb_refl. replace (det d (jac unit_simplex)) with 1; [rewrite Rabs_R1; reflexivity|].
  small d; unfold jac, unit_simplex; cbn; ring.
Qed.
Theorem C142_affine d A t c : (1 <= d <= 3)%nat -> cell_measure d d (image d A t c) = Rabs (det d A) * cell_measure d d c.
Proof.
  intros H. unfold cell_measure. rewrite Nat.eqb_refl.
  replace (det d (jac (image d A t c))) with (det d A * det d (jac c)); [rewrite Rabs_mult; unfold Rdiv; ring|].
  rewrite <- det_mul by auto. apply det_ext. intros i j Hi Hj. unfold jac, image.
  rewrite (rsum_ext d _ (fun k => A i k * c (S j) k - A i k * c 0%nat k)) by (intros; ring). rewrite rsum_minus. ring.
Qed.
(* any translation, also of a cell of a surface or of a network *)
Theorem C142_translation d N t c : cell_measure d N (fun i r => c i r + t r) = cell_measure d N c.
Proof.
  assert (E : forall r k, jac (fun i r => c i r + t r) r k = jac c r k) by (intros; unfold jac; ring).
  unfold cell_measure. destruct (Nat.eqb d N).
  - rewrite (det_ext d _ (jac c)) by auto. reflexivity.
  - assert (Es : norm N (fun r => jac (fun i r0 => c i r0 + t r0) r 0%nat) = norm N (fun r => jac c r 0%nat)).
    { unfold norm, dot. f_equal. apply rsum_ext. intros. now rewrite !E. }
    assert (Ec : norm 3 (cross (fun r => jac (fun i r0 => c i r0 + t r0) r 0%nat) (fun r => jac (fun i r0 => c i r0 + t r0) r 1%nat)) = norm 3 (cross (fun r => jac c r 0%nat) (fun r => jac c r 1%nat))).
    { unfold norm, dot. f_equal. apply rsum_ext. intros i _. unfold cross. destruct i as [|[|i]]; now rewrite !E. }
    destruct d as [|[|[|d]]]; auto. now rewrite Ec.
Qed.
(* the order of the vertices does not matter *)
Theorem C142_order d N c (s : nat -> nat) : cell_kind d N ->
  (forall i, (i <= d)%nat -> (s i <= d)%nat) -> (forall i j, (i <= d)%nat -> (j <= d)%nat -> s i = s j -> i = j) ->
  cell_measure d N (fun i => c (s i)) = cell_measure d N c.
Proof.
  intros H Hs Hi. rewrite !C141_gram by auto. f_equal. f_equal.
  assert (L : forall i, (i <= d)%nat -> (s i <= d)%nat) by auto.
  repeat (destruct H as [H|H]; [injection H as <- <-|]); [..|destruct H].
  all: pose proof (L 0%nat ltac:(lia)) as L0; pose proof (L 1%nat ltac:(lia)) as L1;
    try pose proof (L 2%nat ltac:(lia)) as L2; try pose proof (L 3%nat ltac:(lia)) as L3;
    pose proof (Hi 0%nat 1%nat ltac:(lia) ltac:(lia)) as D01;
    try (pose proof (Hi 0%nat 2%nat ltac:(lia) ltac:(lia)) as D02; pose proof (Hi 1%nat 2%nat ltac:(lia) ltac:(lia)) as D12);
    try (pose proof (Hi 0%nat 3%nat ltac:(lia) ltac:(lia)) as D03; pose proof (Hi 1%nat 3%nat ltac:(lia) ltac:(lia)) as D13; pose proof (Hi 2%nat 3%nat ltac:(lia) ltac:(lia)) as D23).
  all: cbn [det rsum]; generalize dependent (s 3%nat); generalize dependent (s 2%nat); generalize dependent (s 1%nat); generalize dependent (s 0%nat).
  all: clear; intros; repeat match goal with H : (?x <= _)%nat |- _ => is_var x; destruct x as [|[|[|[|x]]]]; try (exfalso; lia) end.
  all: try (exfalso; match goal with D : ?a = ?a -> _ |- _ => discriminate (D eq_refl) end).
  all: ring.
Qed.
(* moving a vertex to the point of barycentric coordinates w multiplies the measure by |w i| *)
Lemma moved_measure d N c w i : cell_kind d N -> rsum (S d) w = 1 -> (i <= d)%nat ->
  cell_measure d N (moved c i (point d c w)) = Rabs (w i) * cell_measure d N c.
Proof.
  intros H Hw Hi. rewrite !C141_gram by auto.
  match goal with |- sqrt ?x / _ = _ * (sqrt ?y / _) => replace x with (Rsqr (w i) * y) end.
  - rewrite sqrt_mult; [|apply Rle_0_sqr|exact (det_gram_pos d N c H)]. rewrite sqrt_Rsqr_abs. unfold Rdiv. ring.
  - assert (Hw0 : w 0%nat = 1 - rsum d (fun k => w (S k))) by (rewrite rsum_head in Hw; lra).
    unfold point, moved.
    repeat (destruct H as [H|H]; [injection H as <- <-|]); [..|destruct H].
    all: small i; unfold Rsqr; cbn [det rsum Nat.eqb]; cbn [rsum] in Hw0; rewrite Hw0; ring.
Qed.
(* cutting a cell at one of its points: the measures of the pieces add up to the measure of the cell *)
Theorem C142_subdivision d N c w : cell_kind d N -> rsum (S d) w = 1 -> (forall i, (i <= d)%nat -> 0 <= w i) ->
  rsum (S d) (fun i => cell_measure d N (moved c i (point d c w))) = cell_measure d N c.
Proof.
  intros H Hw Hp. rewrite (rsum_ext _ _ (fun i => w i * cell_measure d N c)).
  - rewrite rsum_scal_r, Hw. ring.
  - intros i Hi. rewrite moved_measure by (auto; lia). rewrite Rabs_pos_eq by (apply Hp; lia). reflexivity.
Qed.

(* non-vacuity: a triangle of the plane, a triangle in space, a tetrahedron *)
Definition tri_c (i r : nat) : R := match i, r with 1%nat, O => 2 | 2%nat, 1%nat => 3 | _, _ => 1 end.
Definition tri3_c (i r : nat) : R := match i, r with 1%nat, O => 1 | 2%nat, 1%nat => 1 | 2%nat, 2%nat => 1 | _, _ => 0 end.
Lemma nondegenerate_det d c : cell_kind d d -> det d (jac c) <> 0 -> nondegenerate d d c.
Proof.
  intros H Hd. apply (C141_positive d d c H). unfold cell_measure. rewrite Nat.eqb_refl.
  apply Rdiv_lt_0_compat; [now apply Rabs_pos_lt|apply fact_pos].
Qed.
Example C141_example : nondegenerate 2 2 tri_c /\ cell_measure 2 2 tri_c = 1 /\ cell_kind 2 3 /\ nondegenerate 2 3 tri3_c /\ nondegenerate 3 3 unit_simplex /\
  ~ nondegenerate 2 2 (fun i r => INR i).
Proof.
  split; [|split; [|split; [|split; [|split]]]].
  - apply nondegenerate_det; [cbn; auto|]. unfold jac, tri_c. cbn. intros E. lra.
  - unfold cell_measure, jac, tri_c. cbn. rewrite Rabs_pos_eq by lra. lra.
  - cbn. auto 10.
  - intros x Hx k Hk. assert (A := Hx 0%nat ltac:(lia)). assert (B := Hx 1%nat ltac:(lia)). cbn in A, B. destruct k as [|[|k]]; [lra|lra|lia].
  - apply nondegenerate_det; [cbn; auto|]. unfold jac, unit_simplex. cbn. intros E. lra.
  - intros F. assert (K := F (fun k => match k with O => 2 | _ => -1 end)). enough (2 = 0) by lra.
    apply (K ltac:(intros r _; cbn; ring) 0%nat). lia.
Qed.
Example C142_example : rsum 3 (fun _ => / 3) = 1 /\ point 2 tri_c (fun _ => / 3) 0%nat = 4 / 3.
Proof. unfold point. cbn. split; lra. Qed.
Print Assumptions C141_inverse.
Print Assumptions C142_subdivision.
