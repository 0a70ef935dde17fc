(* C213 on a family of meshes: the unit square divided into 2 m^2 triangles. *)
From Coq Require Import QArith Qreals Permutation FunctionalExtensionality.
From Verif Require Import Base RSum SimplexModel SimplexProps LinAlg FieldModel FieldProps MeasureModel MeasureProps FemModel FemProps EvalModel EvalProps
  SolverModel SolverProps FemEnergy FemKernel FemMesh FemPatch FemTime FemConv FemRate.
From Verif Require PolyModel PolyProps LagrangeProps QuadModel QuadProps TriSpec TriProofs TriProps.
Local Open Scope R_scope.

(* ------------------------------------------------------------------ the mesh *)
(* node (i, j) of the grid, in the order of the list of nodes *)
Definition at_ (m i j : nat) : nat := (i * S m + j)%nat.
Definition spot_ (m a : nat) : vec := fun r => match r with O => INR (a / S m) / INR m | _ => INR (a mod S m) / INR m end.
Definition square_nodes (m : nat) : list vec := map (spot_ m) (seq 0 (S m * S m)).
(* square (i, j) is divided by its diagonal *)
Definition triangle_ (m i j t : nat) : list nat :=
  if Nat.eqb t 0 then [at_ m i j; at_ m (S i) j; at_ m (S i) (S j)] else [at_ m i j; at_ m (S i) (S j); at_ m i (S j)].
Definition tri_of (m k : nat) : list nat := triangle_ m (k / 2 / m) ((k / 2) mod m) (k mod 2).
Definition square_cells (m : nat) : list (list nat) := map (tri_of m) (seq 0 (2 * (m * m))).
Definition border (m a : nat) : bool := Nat.eqb (a / S m) 0 || Nat.eqb (a / S m) m || Nat.eqb (a mod S m) 0 || Nat.eqb (a mod S m) m.

Section Grid.
Variables (m : nat) (Hm : (0 < m)%nat).
Lemma at_inj i j i' j' : (j <= m)%nat -> (j' <= m)%nat -> at_ m i j = at_ m i' j' -> i = i' /\ j = j'.
Proof.
  unfold at_. intros Hj Hj' E. assert (i = i') by (destruct (Nat.lt_trichotomy i i') as [L|[L|L]]; [nia|auto|nia]). subst. split; [auto|lia].
Qed.
Lemma at_div i j : (j <= m)%nat -> (at_ m i j / S m = i)%nat /\ (at_ m i j mod S m = j)%nat.
Proof.
  intros Hj. unfold at_. rewrite Nat.add_comm. rewrite Nat.div_add, Nat.mod_add by lia. rewrite Nat.div_small, Nat.mod_small by lia. lia.
Qed.
Lemma node_at a : (a < S m * S m)%nat -> exists i j, (i <= m)%nat /\ (j <= m)%nat /\ a = at_ m i j.
Proof.
  intros Ha. exists (a / S m)%nat, (a mod S m)%nat. assert (X := Nat.div_mod a (S m) ltac:(lia)). assert (Y := Nat.mod_upper_bound a (S m) ltac:(lia)).
  assert (Z : (a / S m < S m)%nat) by (apply Nat.div_lt_upper_bound; lia). unfold at_. split; [lia|]. split; [lia|]. rewrite Nat.mul_comm. exact X.
Qed.
Lemma square_length : length (square_nodes m) = (S m * S m)%nat.
Proof. unfold square_nodes. now rewrite map_length, seq_length. Qed.
Lemma at_lt i j : (i <= m)%nat -> (j <= m)%nat -> (at_ m i j < S m * S m)%nat.
Proof. unfold at_. nia. Qed.
Lemma place_at i j : (i <= m)%nat -> (j <= m)%nat -> place (square_nodes m) (at_ m i j) 0%nat = INR i / INR m /\ place (square_nodes m) (at_ m i j) 1%nat = INR j / INR m.
Proof.
  intros Hi Hj. assert (L := at_lt i j Hi Hj). unfold place, square_nodes.
  erewrite nth_indep by (rewrite map_length, seq_length; exact L). rewrite (map_nth (spot_ m) _ 0%nat), seq_nth by exact L. rewrite Nat.add_0_l.
  unfold spot_. destruct (at_div i j Hj) as [-> ->]. auto.
Qed.
Lemma border_at i j : (i <= m)%nat -> (j <= m)%nat -> border m (at_ m i j) = (Nat.eqb i 0 || Nat.eqb i m || Nat.eqb j 0 || Nat.eqb j m)%bool.
Proof. intros Hi Hj. unfold border. destruct (at_div i j Hj) as [-> ->]. reflexivity. Qed.
Lemma square_cell c : In c (square_cells m) -> exists i j t, (i < m)%nat /\ (j < m)%nat /\ (t < 2)%nat /\ c = triangle_ m i j t.
Proof.
  unfold square_cells. rewrite in_map_iff. intros (k & <- & Hk). apply in_seq in Hk. exists (k / 2 / m)%nat, ((k / 2) mod m)%nat, (k mod 2)%nat.
  split; [|split; [apply Nat.mod_upper_bound; lia|split; [apply Nat.mod_upper_bound; lia|reflexivity]]].
  apply Nat.div_lt_upper_bound; [lia|]. apply Nat.div_lt_upper_bound; lia.
Qed.
Lemma decode i j t : (i < m)%nat -> (j < m)%nat -> (t < 2)%nat ->
  let k := (2 * (i * m + j) + t)%nat in (k < 2 * (m * m))%nat /\ (k / 2 / m = i)%nat /\ ((k / 2) mod m = j)%nat /\ (k mod 2 = t)%nat.
Proof.
  intros Hi Hj Ht k. assert (E : (k / 2 = i * m + j)%nat) by (unfold k; rewrite (Nat.mul_comm 2), Nat.add_comm, Nat.div_add, Nat.div_small; lia).
  split; [unfold k; nia|]. rewrite E. split; [rewrite Nat.add_comm, Nat.div_add, Nat.div_small; lia|]. split; [rewrite Nat.add_comm, Nat.mod_add, Nat.mod_small; lia|].
  unfold k. rewrite (Nat.mul_comm 2), Nat.add_comm, Nat.mod_add, Nat.mod_small; lia.
Qed.
Lemma triangle_in i j t : (i < m)%nat -> (j < m)%nat -> (t < 2)%nat -> In (triangle_ m i j t) (square_cells m).
Proof.
  intros Hi Hj Ht. destruct (decode i j t Hi Hj Ht) as (K & E1 & E2 & E3). unfold square_cells. apply in_map_iff. exists (2 * (i * m + j) + t)%nat.
  cbv zeta in *. split; [unfold tri_of; now rewrite E1, E2, E3|]. apply in_seq. lia.
Qed.
(* the nodes of a triangle *)
Definition corner_ (i j t p q : nat) : Prop := (p = i /\ q = j) \/ (p = S i /\ q = S j) \/ (t = O /\ p = S i /\ q = j) \/ (t <> O /\ p = i /\ q = S j).
Lemma corner_in i j t v : In v (triangle_ m i j t) <-> exists p q, corner_ i j t p q /\ v = at_ m p q.
Proof.
  unfold triangle_, corner_. destruct (Nat.eqb_spec t 0) as [E|E]; cbn [In]; split.
  - intros [<-|[<-|[<-|[]]]]; [exists i, j|exists (S i), j|exists (S i), (S j)]; (split; [lia|reflexivity]).
  - intros (p & q & X & ->). destruct X as [[-> ->]|[[-> ->]|[(_ & -> & ->)|[X _]]]]; [tauto|tauto|tauto|congruence].
  - intros [<-|[<-|[<-|[]]]]; [exists i, j|exists (S i), (S j)|exists i, (S j)]; (split; [lia|reflexivity]).
  - intros (p & q & X & ->). destruct X as [[-> ->]|[[-> ->]|[(X & _)|(_ & -> & ->)]]]; [tauto|tauto|congruence|tauto].
Qed.
Lemma corner_le i j t p q : (i < m)%nat -> (j < m)%nat -> corner_ i j t p q -> (p <= m)%nat /\ (q <= m)%nat.
Proof. unfold corner_. lia. Qed.
Lemma square_good : good_mesh 2 2 (square_nodes m) (square_cells m).
Proof.
  assert (Xm : 0 < INR m) by (apply lt_0_INR; lia). split; [cbn; tauto| | |].
  - intros c Hc. destruct (square_cell c Hc) as (i & j & t & Hi & Hj & Ht & ->).
    assert (D : forall p q p' q', (q <= m)%nat -> (q' <= m)%nat -> at_ m p q = at_ m p' q' -> p = p' /\ q = q') by apply at_inj.
    unfold triangle_. destruct (Nat.eqb t 0); split; try reflexivity; repeat constructor; cbn [In]; intros X;
      repeat (destruct X as [X|X]; [apply at_inj in X; lia|]); auto.
  - intros c v Hc Hv. destruct (square_cell c Hc) as (i & j & t & Hi & Hj & Ht & ->). apply corner_in in Hv as (p & q & X & ->). rewrite square_length.
    destruct (corner_le i j t p q Hi Hj X). now apply at_lt.
  - intros c Hc. destruct (square_cell c Hc) as (i & j & t & Hi & Hj & Ht & ->). apply plane_nondegenerate.
    destruct (place_at i j ltac:(lia) ltac:(lia)) as [A0 A1]. destruct (place_at (S i) j ltac:(lia) ltac:(lia)) as [B0 B1].
    destruct (place_at (S i) (S j) ltac:(lia) ltac:(lia)) as [C0 C1]. destruct (place_at i (S j) ltac:(lia) ltac:(lia)) as [D0 D1].
    unfold place in *. unfold triangle_. destruct (Nat.eqb t 0); unfold det, jac; cbn -[INR at_ square_nodes]; rewrite ?A0, ?A1, ?B0, ?B1, ?C0, ?C1, ?D0, ?D1, ?S_INR;
      intros E; assert (Y : 0 < / INR m) by (now apply Rinv_0_lt_compat); unfold Rdiv in E; assert (Z : / INR m * / INR m = 0) by lra; apply Rmult_integral in Z; lra.
Qed.
Lemma square_conforming : TriSpec.conforming (square_cells m).
Proof.
  assert (F : forall f k, TriSpec.cell_has (square_cells m) k f -> exists i j t p q p' q', (i < m)%nat /\ (j < m)%nat /\ (t < 2)%nat /\
    k = (2 * (i * m + j) + t)%nat /\ corner_ i j t p q /\ corner_ i j t p' q' /\ f = [at_ m p q; at_ m p' q'] /\ (p <> p' \/ q <> q')).
  { intros f k (c & Hc & Sf & L & Hin). unfold square_cells in Hc. rewrite nth_error_map in Hc. destruct (nth_error (seq 0 (2 * (m * m))) k) as [k'|] eqn:E; [|discriminate].
    assert (c = tri_of m k') by (cbn [option_map] in Hc; congruence). clear Hc. subst c.
    assert (Hk : (k < 2 * (m * m))%nat) by (rewrite <- (seq_length (2 * (m * m)) 0); apply nth_error_Some; congruence).
    assert (k' = k) by (rewrite (nth_error_nth' (seq 0 (2 * (m * m))) 0%nat) in E by (rewrite seq_length; lia); rewrite seq_nth in E by lia; injection E as <-; lia). subst k'. unfold tri_of in *.
    set (i := (k / 2 / m)%nat) in *. set (j := ((k / 2) mod m)%nat) in *. set (t := (k mod 2)%nat) in *.
    assert (Hi : (i < m)%nat) by (apply Nat.div_lt_upper_bound; [lia|]; apply Nat.div_lt_upper_bound; lia).
    assert (Hj : (j < m)%nat) by (apply Nat.mod_upper_bound; lia). assert (Ht : (t < 2)%nat) by (apply Nat.mod_upper_bound; lia).
    assert (L2 : length f = 2%nat) by (unfold triangle_ in L; destruct (Nat.eqb t 0); cbn in L; lia).
    destruct f as [|a [|b [|? ?]]]; try discriminate.
    assert (Ha := Hin a (or_introl eq_refl)). assert (Hb := Hin b (or_intror (or_introl eq_refl))).
    apply corner_in in Ha as (p & q & Ca & ->). apply corner_in in Hb as (p' & q' & Cb & ->).
    exists i, j, t, p, q, p', q'. do 3 (split; [assumption|]). split; [|split; [auto|split; [auto|split; [reflexivity|]]]].
    - assert (X := Nat.div_mod k 2 ltac:(lia)). assert (Y := Nat.div_mod (k / 2) m ltac:(lia)). fold t i j in X, Y. rewrite (Nat.mul_comm m i) in Y. lia.
    - inversion Sf as [|? ? ? Ff]; subst. inversion Ff as [|? ? Lt]; subst. destruct (Nat.eq_dec p p') as [->|]; [|auto]. destruct (Nat.eq_dec q q') as [->|]; [lia|auto]. }
  assert (U : forall f k k', TriSpec.cell_has (square_cells m) k f -> TriSpec.cell_has (square_cells m) k' f -> (k mod 2 = k' mod 2)%nat -> k = k').
  { intros f k k' X Y E. destruct (F f k X) as (i & j & t & p & q & p' & q' & Hi & Hj & Ht & -> & C1 & C2 & Ef & Ne).
    destruct (F f k' Y) as (i1 & j1 & t1 & p1 & q1 & p1' & q1' & Hi1 & Hj1 & Ht1 & -> & C1' & C2' & Ef' & Ne').
    destruct (decode i j t Hi Hj Ht) as (_ & _ & _ & M1). destruct (decode i1 j1 t1 Hi1 Hj1 Ht1) as (_ & _ & _ & M2). cbv zeta in M1, M2. rewrite M1, M2 in E. subst t1.
    rewrite Ef in Ef'. injection Ef' as X1 X2. apply at_inj in X1 as [-> ->]; [|apply (corner_le i j t p q); auto|apply (corner_le i1 j1 t p1 q1); auto].
    apply at_inj in X2 as [-> ->]; [|apply (corner_le i j t p' q'); auto|apply (corner_le i1 j1 t p1' q1'); auto].
    unfold corner_ in *. assert (i = i1 /\ j = j1) as [-> ->] by lia. reflexivity. }
  intros f e1 e2 e3 H1 H2 H3. assert (M1 := Nat.mod_upper_bound e1 2 ltac:(lia)). assert (M2 := Nat.mod_upper_bound e2 2 ltac:(lia)). assert (M3 := Nat.mod_upper_bound e3 2 ltac:(lia)).
  destruct (Nat.eq_dec (e1 mod 2) (e2 mod 2)) as [E|E]; [left; now apply (U f)|]. destruct (Nat.eq_dec (e1 mod 2) (e3 mod 2)) as [E'|E']; [right; left; now apply (U f)|].
  right; right. apply (U f); auto. lia.
Qed.
Lemma at_ne i j i' j' : (j <= m)%nat -> (j' <= m)%nat -> i <> i' \/ j <> j' -> at_ m i j <> at_ m i' j'.
Proof. intros Hj Hj' Hne E. apply at_inj in E; auto. lia. Qed.
Lemma tri_across c b c' b' y z (n : vec) k : (forall v, In v c <-> v = b \/ v = y \/ v = z) -> (forall v, In v c' <-> v = b' \/ v = y \/ v = z) ->
  b <> y -> b <> z -> b' <> y -> b' <> z -> rsum 2 (fun r => n r * place (square_nodes m) y r) = k -> rsum 2 (fun r => n r * place (square_nodes m) z r) = k ->
  k < rsum 2 (fun r => n r * place (square_nodes m) b r) -> rsum 2 (fun r => n r * place (square_nodes m) b' r) < k -> across 2 (square_nodes m) c b c' b'.
Proof.
  intros Hc Hc' N1 N2 N3 N4 Ey Ez L1 L2. split.
  - intros v. unfold on_face. rewrite Hc, Hc'. intuition congruence.
  - exists n, k. split; [|auto]. intros v [Hv Hne]. apply Hc in Hv as [?|[->| ->]]; [contradiction|auto|auto].
Qed.
Lemma plane_at x y i j : (i <= m)%nat -> (j <= m)%nat -> rsum 2 (fun r => plane x y r * place (square_nodes m) (at_ m i j) r) = (x * INR i + y * INR j) * / INR m.
Proof.
  intros Hi Hj. destruct (place_at i j Hi Hj) as [E0 E1]. cbn [rsum]. change (plane x y 0%nat) with x. change (plane x y 1%nat) with y. rewrite E0, E1. unfold Rdiv. ring.
Qed.
Lemma square_faces : faces_matched 2 (square_nodes m) (square_cells m) (border m).
Proof.
  assert (Xm : 0 < / INR m) by (apply Rinv_0_lt_compat, lt_0_INR; lia).
  assert (Bd : forall i j, (i <= m)%nat -> (j <= m)%nat -> i = O \/ i = m \/ j = O \/ j = m -> border m (at_ m i j) = true).
  { intros i j Hi Hj X. rewrite border_at by auto. destruct (Nat.eqb_spec i 0), (Nat.eqb_spec i m), (Nat.eqb_spec j 0), (Nat.eqb_spec j m); try reflexivity. lia. }
  assert (Cr : forall c b c' y z i1 j1 i2 j2 b' n0 n1 p q, In c' (square_cells m) ->
    (forall v, In v c <-> v = b \/ v = y \/ v = z) -> (forall v, In v c' <-> v = b' \/ v = y \/ v = z) ->
    b = at_ m p q -> y = at_ m i1 j1 -> z = at_ m i2 j2 -> (p <= m)%nat -> (q <= m)%nat -> (i1 <= m)%nat -> (j1 <= m)%nat -> (i2 <= m)%nat -> (j2 <= m)%nat ->
    (exists p' q', b' = at_ m p' q' /\ (p' <= m)%nat /\ (q' <= m)%nat /\ (p' <> i1 \/ q' <> j1) /\ (p' <> i2 \/ q' <> j2) /\ n0 * INR p' + n1 * INR q' < n0 * INR i1 + n1 * INR j1) ->
    (p <> i1 \/ q <> j1) -> (p <> i2 \/ q <> j2) -> n0 * INR i2 + n1 * INR j2 = n0 * INR i1 + n1 * INR j1 -> n0 * INR i1 + n1 * INR j1 < n0 * INR p + n1 * INR q ->
    exists c' b', In c' (square_cells m) /\ In b' c' /\ across 2 (square_nodes m) c b c' b').
  { intros c b c' y z i1 j1 i2 j2 b' n0 n1 p q Hin Hc Hc' -> -> -> A1 A2 A3 A4 A5 A6 (p' & q' & -> & B1 & B2 & B3 & B4 & B5) D1 D2 D3 D4.
    exists c', (at_ m p' q'). split; [auto|]. split; [apply Hc'; auto|].
    apply (tri_across c _ c' _ (at_ m i1 j1) (at_ m i2 j2) (plane n0 n1) ((n0 * INR i1 + n1 * INR j1) * / INR m)); auto; try (apply at_ne; auto); try (now apply plane_at).
    - rewrite plane_at, D3 by auto. reflexivity.
    - rewrite plane_at by auto. now apply Rmult_lt_compat_r.
    - rewrite plane_at by auto. now apply Rmult_lt_compat_r. }
  intros c b Hc Hb. destruct (square_cell c Hc) as (i & j & t & Hi & Hj & Ht & ->).
  assert (L0 : forall i j v, In v (triangle_ m i j 0) <-> v = at_ m i j \/ v = at_ m (S i) j \/ v = at_ m (S i) (S j)) by (intros; unfold triangle_; cbn [Nat.eqb In]; intuition congruence).
  assert (L1 : forall i j v, In v (triangle_ m i j 1) <-> v = at_ m i j \/ v = at_ m (S i) (S j) \/ v = at_ m i (S j)) by (intros; unfold triangle_; cbn [Nat.eqb In]; intuition congruence).
  destruct t as [|[|t]]; [| |lia].
  - apply L0 in Hb as [->|[->| ->]].
    + destruct (Nat.eq_dec (S i) m) as [E|E].
      * right. intros a [Ha Hne]. apply L0 in Ha as [->|[->| ->]]; [contradiction|apply Bd; lia|apply Bd; lia].
      * left. apply (Cr _ _ (triangle_ m (S i) j 1) (at_ m (S i) j) (at_ m (S i) (S j)) (S i) j (S i) (S j) (at_ m (S (S i)) (S j)) (-1) 0 i j); try lia; try reflexivity.
        -- apply triangle_in; lia.
        -- apply L0.
        -- intros v. rewrite L1. tauto.
        -- exists (S (S i)), (S j). repeat split; try lia. rewrite !S_INR. lra.
        -- ring.
        -- rewrite !S_INR. lra.
    + left. apply (Cr _ _ (triangle_ m i j 1) (at_ m i j) (at_ m (S i) (S j)) i j (S i) (S j) (at_ m i (S j)) 1 (-1) (S i) j); try lia; try reflexivity.
      * apply triangle_in; lia.
      * intros v. rewrite L0. tauto.
      * intros v. rewrite L1. tauto.
      * exists i, (S j). repeat split; try lia. rewrite !S_INR. lra.
      * rewrite !S_INR. ring.
      * rewrite !S_INR. lra.
    + destruct j as [|j].
      * right. intros a [Ha Hne]. apply L0 in Ha as [->|[->| ->]]; [apply Bd; lia|apply Bd; lia|contradiction].
      * left. apply (Cr _ _ (triangle_ m i j 1) (at_ m i (S j)) (at_ m (S i) (S j)) i (S j) (S i) (S j) (at_ m i j) 0 1 (S i) (S (S j))); try lia; try reflexivity.
        -- apply triangle_in; lia.
        -- intros v. rewrite L0. tauto.
        -- intros v. rewrite L1. tauto.
        -- exists i, j. repeat split; try lia. rewrite !S_INR. lra.
        -- rewrite !S_INR. ring.
        -- rewrite !S_INR. lra.
  - apply L1 in Hb as [->|[->| ->]].
    + destruct (Nat.eq_dec (S j) m) as [E|E].
      * right. intros a [Ha Hne]. apply L1 in Ha as [->|[->| ->]]; [contradiction|apply Bd; lia|apply Bd; lia].
      * left. apply (Cr _ _ (triangle_ m i (S j) 0) (at_ m i (S j)) (at_ m (S i) (S j)) i (S j) (S i) (S j) (at_ m (S i) (S (S j))) 0 (-1) i j); try lia; try reflexivity.
        -- apply triangle_in; lia.
        -- intros v. rewrite L1. tauto.
        -- intros v. rewrite L0. tauto.
        -- exists (S i), (S (S j)). repeat split; try lia. rewrite !S_INR. lra.
        -- rewrite !S_INR. ring.
        -- rewrite !S_INR. lra.
    + destruct i as [|i].
      * right. intros a [Ha Hne]. apply L1 in Ha as [->|[->| ->]]; [apply Bd; lia|contradiction|apply Bd; lia].
      * left. apply (Cr _ _ (triangle_ m i j 0) (at_ m (S i) j) (at_ m (S i) (S j)) (S i) j (S i) (S j) (at_ m i j) 1 0 (S (S i)) (S j)); try lia; try reflexivity.
        -- apply triangle_in; lia.
        -- intros v. rewrite L1. tauto.
        -- intros v. rewrite L0. tauto.
        -- exists i, j. repeat split; try lia. rewrite !S_INR. lra.
        -- rewrite !S_INR. ring.
        -- rewrite !S_INR. lra.
    + left. apply (Cr _ _ (triangle_ m i j 0) (at_ m i j) (at_ m (S i) (S j)) i j (S i) (S j) (at_ m (S i) j) (-1) 1 i (S j)); try lia; try reflexivity.
      * apply triangle_in; lia.
      * intros v. rewrite L1. tauto.
      * intros v. rewrite L0. tauto.
      * exists (S i), j. repeat split; try lia. rewrite !S_INR. lra.
      * rewrite !S_INR. ring.
      * rewrite !S_INR. lra.
Qed.
Lemma square_chain a : (a < S m * S m)%nat -> chain (square_cells m) a 0%nat.
Proof.
  intros Ha. destruct (node_at a Ha) as (i & j & Hi & Hj & ->). clear Ha.
  assert (Z : forall j, (j <= m)%nat -> chain (square_cells m) (at_ m 0 j) 0%nat).
  { induction j0 as [|k IH]; intros Hk; [constructor|]. apply (chain_step _ (triangle_ m 0 k 1) _ (at_ m 0 k)).
    - apply triangle_in; lia.
    - unfold triangle_. cbn [Nat.eqb In]. tauto.
    - unfold triangle_. cbn [Nat.eqb In]. tauto.
    - apply IH. lia. }
  induction i as [|k IH]; [now apply Z|]. destruct (Nat.eq_dec j m) as [E|E].
  - destruct j as [|j]; [lia|]. apply (chain_step _ (triangle_ m k j 1) _ (at_ m k (S j))).
    + apply triangle_in; lia.
    + unfold triangle_. cbn [Nat.eqb In]. tauto.
    + unfold triangle_. cbn [Nat.eqb In]. tauto.
    + apply IH. lia.
  - apply (chain_step _ (triangle_ m k j 0) _ (at_ m k j)).
    + apply triangle_in; lia.
    + unfold triangle_. cbn [Nat.eqb In]. tauto.
    + unfold triangle_. cbn [Nat.eqb In]. tauto.
    + apply IH. lia.
Qed.
Lemma square_box a : (a < length (square_nodes m))%nat -> in_box 2 0 1 (place (square_nodes m) a).
Proof.
  intros Ha. rewrite square_length in Ha. destruct (node_at a Ha) as (i & j & Hi & Hj & ->). destruct (place_at i j Hi Hj) as [E0 E1].
  assert (B : forall k, (k <= m)%nat -> 0 <= INR k / INR m <= 1).
  { intros k Hk. assert (Xm : 0 < INR m) by (apply lt_0_INR; lia). assert (Y := le_INR _ _ Hk). assert (Z := pos_INR k). split.
    - apply Rmult_le_pos; [auto|left; now apply Rinv_0_lt_compat].
    - apply (Rmult_le_reg_r (INR m)); [auto|]. unfold Rdiv. rewrite Rmult_assoc, Rinv_l by lra. lra. }
  intros r Hr. destruct r as [|[|r]]; [rewrite E0; auto|rewrite E1; auto|lia].
Qed.
Lemma square_shape : shape_regular 2 (square_nodes m) (square_cells m) (1 / INR m) 1.
Proof.
  assert (Xm : 0 < INR m) by (apply lt_0_INR; lia). assert (Ym : 0 < / INR m) by (now apply Rinv_0_lt_compat).
  intros c Hc. destruct (square_cell c Hc) as (i & j & t & Hi & Hj & Ht & ->). exists (1 / INR m). split; [unfold Rdiv; lra|]. split.
  - intros a b Ha Hb r Hr. apply corner_in in Ha as (p & q & Ca & ->). apply corner_in in Hb as (p' & q' & Cb & ->).
    destruct (corner_le i j t p q Hi Hj Ca) as [Lp Lq]. destruct (corner_le i j t p' q' Hi Hj Cb) as [Lp' Lq'].
    destruct (place_at p q Lp Lq) as [E0 E1]. destruct (place_at p' q' Lp' Lq') as [E0' E1'].
    assert (B : forall x y k, (k <= x <= S k)%nat -> (k <= y <= S k)%nat -> Rabs (INR x / INR m - INR y / INR m) <= 1 / INR m).
    { intros x y k Hx Hy. assert (Dx : INR x = INR k \/ INR x = INR k + 1) by (assert (x = k \/ x = S k) as [->| ->] by lia; rewrite ?S_INR; auto).
      assert (Dy : INR y = INR k \/ INR y = INR k + 1) by (assert (y = k \/ y = S k) as [->| ->] by lia; rewrite ?S_INR; auto).
      unfold Rdiv. unfold Rabs. destruct (Rcase_abs _), Dx as [-> | ->], Dy as [-> | ->]; lra. }
    unfold corner_ in Ca, Cb. destruct r as [|[|r]]; [rewrite E0, E0'; apply (B p p' i); lia|rewrite E1, E1'; apply (B q q' j); lia|lia].
  - intros b n k Hb Hf Hk.
    assert (Pt : forall p q, corner_ i j t p q -> rsum 2 (fun r => n r * place (square_nodes m) (at_ m p q) r) = (n 0%nat * INR p + n 1%nat * INR q) * / INR m).
    { intros p q Cp. destruct (corner_le i j t p q Hi Hj Cp) as [Lp Lq]. destruct (place_at p q Lp Lq) as [E0 E1]. cbn [rsum]. rewrite E0, E1. unfold Rdiv. ring. }
    assert (Fa : forall p q p' q', corner_ i j t p q -> corner_ i j t p' q' -> b = at_ m p q -> p <> p' \/ q <> q' -> rsum 2 (fun r => n r * place (square_nodes m) (at_ m p' q') r) = k).
    { intros p q p' q' Cp Cp' -> Hne. apply Hf. split; [apply corner_in; exists p', q'; auto|]. apply at_ne; try lia; [apply (corner_le i j t p' q'); auto|apply (corner_le i j t p q); auto]. }
    apply corner_in in Hb as (p & q & Cp & ->). rewrite Pt in Hk by auto.
    assert (Fb : forall p' q', corner_ i j t p' q' -> p <> p' \/ q <> q' -> (n 0%nat * INR p' + n 1%nat * INR q') * / INR m = k).
    { intros p' q' Cp' Hne. rewrite <- Pt by auto. now apply (Fa p q). }
    clear Fa Hf Pt.
    assert (G : forall r, (r < 2)%nat -> n r * / INR m = 0 \/ n r * / INR m = 1 \/ n r * / INR m = -1).
    2:{ intros r Hr. specialize (G r Hr). unfold Rdiv. rewrite Rmult_1_l. rewrite <- (Rabs_right (/ INR m)) by lra. rewrite <- Rabs_mult. unfold Rabs. destruct (Rcase_abs _); lra. }
    assert (C0 : corner_ i j t i j) by (unfold corner_; lia). assert (C1 : corner_ i j t (S i) (S j)) by (unfold corner_; lia).
    destruct (Nat.eq_dec t 0) as [T|T].
    + assert (C2 : corner_ i j t (S i) j) by (unfold corner_; lia). unfold corner_ in Cp. destruct Cp as [[-> ->]|[[-> ->]|[(_ & -> & ->)|(? & _)]]]; [| | |contradiction].
      * assert (F1 := Fb _ _ C1 ltac:(lia)). assert (F2 := Fb _ _ C2 ltac:(lia)). rewrite !S_INR in *. intros [|[|r]] Hr; [|left; lra|lia]. right; right. lra.
      * assert (F1 := Fb _ _ C0 ltac:(lia)). assert (F2 := Fb _ _ C2 ltac:(lia)). rewrite !S_INR in *. intros [|[|r]] Hr; [left; lra| |lia]. right; left. lra.
      * assert (F1 := Fb _ _ C0 ltac:(lia)). assert (F2 := Fb _ _ C1 ltac:(lia)). rewrite !S_INR in *. intros [|[|r]] Hr; [right; left; lra|right; right; lra|lia].
    + assert (C2 : corner_ i j t i (S j)) by (unfold corner_; lia). unfold corner_ in Cp. destruct Cp as [[-> ->]|[[-> ->]|[(? & _)|(_ & -> & ->)]]]; [| |contradiction|].
      * assert (F1 := Fb _ _ C1 ltac:(lia)). assert (F2 := Fb _ _ C2 ltac:(lia)). rewrite !S_INR in *. intros [|[|r]] Hr; [left; lra|right; right; lra|lia].
      * assert (F1 := Fb _ _ C0 ltac:(lia)). assert (F2 := Fb _ _ C2 ltac:(lia)). rewrite !S_INR in *. intros [|[|r]] Hr; [right; left; lra|left; lra|lia].
      * assert (F1 := Fb _ _ C0 ltac:(lia)). assert (F2 := Fb _ _ C1 ltac:(lia)). rewrite !S_INR in *. intros [|[|r]] Hr; [right; right; lra|right; left; lra|lia].
Qed.
Lemma square_measure : mesh_measure 2 (square_nodes m) (square_cells m) = 1.
Proof.
  assert (Xm : 0 < INR m) by (apply lt_0_INR; lia). assert (Ym : 0 < / INR m) by (now apply Rinv_0_lt_compat).
  unfold mesh_measure. rewrite (rsum_ext _ _ (fun _ => / INR m * / INR m / 2)).
  - rewrite rsum_const. unfold square_cells. rewrite map_length, seq_length, !mult_INR. cbn [INR]. field. lra.
  - intros e He. assert (Hc := nth_In (square_cells m) [] He). destruct (square_cell _ Hc) as (i & j & t & Hi & Hj & Ht & E).
    destruct (place_at i j ltac:(lia) ltac:(lia)) as [A0 A1]. destruct (place_at (S i) j ltac:(lia) ltac:(lia)) as [B0 B1].
    destruct (place_at (S i) (S j) ltac:(lia) ltac:(lia)) as [C0 C1]. destruct (place_at i (S j) ltac:(lia) ltac:(lia)) as [D0 D1].
    assert (Dt : det 2 (jac (vertex (square_nodes m) (square_cells m) e)) = / INR m * / INR m).
    { unfold det, jac, vertex. rewrite E. unfold triangle_. unfold place in *. destruct (Nat.eqb t 0); cbn -[INR at_ square_nodes]; rewrite ?A0, ?A1, ?B0, ?B1, ?C0, ?C1, ?D0, ?D1, ?S_INR; unfold Rdiv; ring. }
    unfold cell_measure. cbn [Nat.eqb]. rewrite Dt, Rabs_right by (apply Rle_ge, Rmult_le_pos; lra). cbn. unfold Rdiv. lra.
Qed.
End Grid.

(* ------------------------------------------------------------------ a solution *)
(* u = sin x sin y solves - laplacian u + u = 3 sin x sin y *)
Definition wave (x : vec) : R := sin (x 0%nat) * sin (x 1%nat).
Definition wave1 (x : vec) : vec := fun r => match r with O => cos (x 0%nat) * sin (x 1%nat) | _ => sin (x 0%nat) * cos (x 1%nat) end.
Definition wave2 (x : vec) : mat := fun r s => match r, s with
  | O, O => - (sin (x 0%nat) * sin (x 1%nat)) | O, _ => cos (x 0%nat) * cos (x 1%nat)
  | _, O => cos (x 0%nat) * cos (x 1%nat) | _, _ => - (sin (x 0%nat) * sin (x 1%nat)) end.
Definition wave_source (x : vec) : R := 3 * (sin (x 0%nat) * sin (x 1%nat)).
Lemma dline_ p v s : derivable_pt_lim (fun z => p + z * v) s v.
Proof. apply (derivable_pt_lim_ext (fun z => p + v * z)); [intros; ring|apply dline]. Qed.
Lemma dsin p v s : derivable_pt_lim (fun z => sin (p + z * v)) s (cos (p + s * v) * v).
Proof. exact (derivable_pt_lim_comp (fun z => p + z * v) sin s v (cos (p + s * v)) (dline_ p v s) (derivable_pt_lim_sin _)). Qed.
Lemma dcos p v s : derivable_pt_lim (fun z => cos (p + z * v)) s (- sin (p + s * v) * v).
Proof. exact (derivable_pt_lim_comp (fun z => p + z * v) cos s v (- sin (p + s * v)) (dline_ p v s) (derivable_pt_lim_cos _)). Qed.
Lemma dprod f g s l1 l2 : derivable_pt_lim f s l1 -> derivable_pt_lim g s l2 -> derivable_pt_lim (fun z => f z * g z) s (l1 * g s + f s * l2).
Proof. intros A B. exact (derivable_pt_lim_mult f g s l1 l2 A B). Qed.
Lemma wave_solves : reaction_diffusion 2 1 wave wave1 wave2 wave_source.
Proof.
  split.
  - intros p v s. unfold wave, along. assert (X := dprod _ _ s _ _ (dsin (p 0%nat) (v 0%nat) s) (dsin (p 1%nat) (v 1%nat) s)). cbv beta in X.
    match type of X with derivable_pt_lim _ _ ?l => match goal with |- derivable_pt_lim _ _ ?k => replace k with l; [exact X|] end end. cbn [rsum wave1]. ring.
  - intros r Hr p v s. destruct r as [|[|r]]; [| |lia]; unfold along; cbn [wave1].
    + assert (X := dprod _ _ s _ _ (dcos (p 0%nat) (v 0%nat) s) (dsin (p 1%nat) (v 1%nat) s)). cbv beta in X.
      match type of X with derivable_pt_lim _ _ ?l => match goal with |- derivable_pt_lim _ _ ?k => replace k with l; [exact X|] end end. cbn [rsum wave2]. ring.
    + assert (X := dprod _ _ s _ _ (dsin (p 0%nat) (v 0%nat) s) (dcos (p 1%nat) (v 1%nat) s)). cbv beta in X.
      match type of X with derivable_pt_lim _ _ ?l => match goal with |- derivable_pt_lim _ _ ?k => replace k with l; [exact X|] end end. cbn [rsum wave2]. ring.
  - intros x. unfold wave, wave_source. cbn [rsum wave2]. ring.
Qed.
Lemma sin_abs x : Rabs (sin x) <= 1.
Proof. apply Rabs_le. apply SIN_bound. Qed.
Lemma cos_abs x : Rabs (cos x) <= 1.
Proof. apply Rabs_le. apply COS_bound. Qed.
Lemma prod_abs a b : Rabs a <= 1 -> Rabs b <= 1 -> Rabs (a * b) <= 1.
Proof. intros A B. rewrite Rabs_mult. assert (X := Rmult_le_compat _ _ _ _ (Rabs_pos a) (Rabs_pos b) A B). lra. Qed.
Lemma prod_lip a b a' b' delta : Rabs a <= 1 -> Rabs b' <= 1 -> Rabs (a - a') <= delta -> Rabs (b - b') <= delta -> Rabs (a * b - a' * b') <= 2 * delta.
Proof.
  intros A B D E. replace (a * b - a' * b') with (a * (b - b') + (a - a') * b') by ring. eapply Rle_trans; [apply Rabs_triang|]. rewrite !Rabs_mult.
  assert (X := Rmult_le_compat _ _ _ _ (Rabs_pos a) (Rabs_pos (b - b')) A E). assert (Y := Rmult_le_compat _ _ _ _ (Rabs_pos (a - a')) (Rabs_pos b') D B). lra.
Qed.
Lemma lip_from f f' : (forall x, derivable_pt_lim f x (f' x)) -> (forall x, Rabs (f' x) <= 1) -> forall x y, Rabs (f x - f y) <= Rabs (x - y).
Proof.
  intros Hd Hb x y.
  assert (X := integrate 0 (Rabs (x - y)) (fun s => f (y + s * (x - y)) - f y) (fun s => f' (y + s * (x - y)) * (x - y))). cbv beta in X.
  specialize (X ltac:(intros s Hs; replace (f' (y + s * (x - y)) * (x - y)) with (f' (y + s * (x - y)) * (x - y) - 0) by ring;
    apply (derivable_pt_lim_minus (fun s => f (y + s * (x - y))) (fct_cte (f y)));
    [exact (derivable_pt_lim_comp (fun z => y + z * (x - y)) f s (x - y) _ (dline_ y (x - y) s) (Hd _))|apply derivable_pt_lim_const])).
  specialize (X ltac:(replace (y + 0 * (x - y)) with y by ring; ring)).
  specialize (X ltac:(intros s Hs; rewrite Rabs_mult; cbn [INR pow]; rewrite Rmult_1_r, Rmult_1_l;
    assert (Z := Rmult_le_compat_r _ _ _ (Rabs_pos (x - y)) (Hb (y + s * (x - y)))); lra)).
  specialize (X 1 ltac:(lra)). replace (y + 1 * (x - y)) with x in X by ring. cbn [pow] in X. lra.
Qed.
Lemma sin_lip x y : Rabs (sin x - sin y) <= Rabs (x - y).
Proof. apply (lip_from sin cos derivable_pt_lim_sin cos_abs). Qed.
Lemma cos_lip x y : Rabs (cos x - cos y) <= Rabs (x - y).
Proof. apply (lip_from cos (fun z => - sin z) derivable_pt_lim_cos). intros z. rewrite Rabs_Ropp. apply sin_abs. Qed.
Lemma wave_bounded : second_bounded 2 0 1 1 wave2.
Proof.
  intros x r s _ Hr Hs. destruct r as [|[|r]]; [| |lia]; (destruct s as [|[|s]]; [| |lia]); cbn [wave2]; rewrite ?Rabs_Ropp; apply prod_abs; first [apply sin_abs|apply cos_abs].
Qed.
Lemma wave_lipschitz : second_lipschitz 2 0 1 2 wave2.
Proof.
  intros x y delta r s _ _ Hw Hr Hs.
  assert (D0 := Hw 0%nat ltac:(lia)). assert (D1 := Hw 1%nat ltac:(lia)).
  assert (S0 := Rle_trans _ _ _ (sin_lip (x 0%nat) (y 0%nat)) D0). assert (S1 := Rle_trans _ _ _ (sin_lip (x 1%nat) (y 1%nat)) D1).
  assert (C0 := Rle_trans _ _ _ (cos_lip (x 0%nat) (y 0%nat)) D0). assert (C1 := Rle_trans _ _ _ (cos_lip (x 1%nat) (y 1%nat)) D1).
  assert (SS := prod_lip _ _ _ _ _ (sin_abs (x 0%nat)) (sin_abs (y 1%nat)) S0 S1). assert (CC := prod_lip _ _ _ _ _ (cos_abs (x 0%nat)) (cos_abs (y 1%nat)) C0 C1).
  destruct r as [|[|r]]; [| |lia]; (destruct s as [|[|s]]; [| |lia]); cbn [wave2]; auto;
    match goal with |- Rabs (- ?a - - ?b) <= _ => replace (- a - - b) with (- (a - b)) by ring; rewrite Rabs_Ropp; auto end.
Qed.
Definition wave_datum (m : nat) : dmat := {| drows := S m * S m; dcols := 1; dval := fun a _ => wave (spot_ m a) |}.
Lemma place_spot m a : (a < S m * S m)%nat -> place (square_nodes m) a = spot_ m a.
Proof.
  intros L. unfold place, square_nodes. erewrite nth_indep by (rewrite map_length, seq_length; exact L). now rewrite (map_nth (spot_ m) _ 0%nat), seq_nth by exact L.
Qed.
(* the square of the energy norm of the error on the mesh of 2 m^2 triangles: at most 945 / m^2 *)
Theorem C213_square m pt slv rule lu t : (0 < m)%nat -> reference 2 1 pt slv rule -> exact lu -> complete lu ->
  let P := problem1 2 2 (square_nodes m) (square_cells m) pt slv rule in
  exists s1 s2 s3 w, apply P (border m) false lu (make_pde (reaction 1) (Callable (fun x => 3 * (sin (x 0%nat) * sin (x 1%nat)))) t) (SetBoundary (wave_datum m)) = Ok s1 /\
    init P false s1 = Ok s2 /\ solve P (border m) false lu s2 = Ok s3 /\ success s3 = true /\ solution s3 = [w] /\
    energy_norm2 P 1 (fun a => w a - wave (place (square_nodes m) a)) <= 945 / (INR m * INR m).
Proof.
  intros Hm HR Hlu Hco P. assert (Xm : 1 <= INR m) by (change 1 with (INR 1); apply le_INR; lia).
  destruct (C213_energy 2 (square_nodes m) (square_cells m) pt slv rule (square_good m Hm) HR (square_conforming m Hm) 1 wave wave1 wave2 wave_source 0 1 1 2 (1 / INR m) 1
    wave_solves wave_bounded wave_lipschitz ltac:(lra) ltac:(lra) ltac:(lra) (square_box m Hm) (square_shape m Hm) ltac:(lra) (border m) lu (wave_datum m) t Hlu Hco)
    as (s1 & s2 & s3 & w & E1 & E2 & E3 & E4 & E5 & B & _).
  - split; [change (length (square_nodes m) <= S m * S m)%nat; rewrite square_length; lia|cbn; lia].
  - unfold border. rewrite Nat.div_0_l by lia. reflexivity.
  - discriminate.
  - now apply square_faces.
  - intros a Ha _. rewrite square_length in Ha. rewrite place_spot by auto. reflexivity.
  - intros a Ha. rewrite square_length in *. exists 0%nat. split; [lia|]. split; [unfold border; rewrite Nat.div_0_l by lia; reflexivity|]. now apply square_chain.
  - exists s1, s2, s3, w. repeat (split; [assumption|]). rewrite (square_measure m Hm) in B.
    eapply Rle_trans; [exact B|]. clear B. set (k := 1 / INR m) in *. replace (945 / (INR m * INR m)) with (k * k * 945) by (unfold k; field; lra).
    assert (Hk : 0 < k <= 1). { unfold k. split; [apply Rdiv_lt_0_compat; lra|]. apply (Rmult_le_reg_r (INR m)); [lra|]. unfold Rdiv. rewrite Rmult_assoc, Rinv_l by lra. lra. }
    assert (Ep : 0 <= QuadProps.eps <= 1 / 1000).
    { unfold QuadProps.eps. assert (X : 1000 * 2 <= 10 ^ 15) by lra. assert (X0 : 0 < 10 ^ 15) by lra. revert X X0. generalize (10 ^ 15). intros z X X0. split; [apply Rmult_le_pos; [lra|left; now apply Rinv_0_lt_compat]|].
      apply (Rmult_le_reg_r z); [auto|]. unfold Rdiv at 1. rewrite Rmult_assoc, Rinv_l by lra. lra. }
    unfold rate. assert (A : 0 <= slope_rate 2 1 2 1 k <= 20) by (unfold slope_rate; cbn [INR]; lra). assert (B : 0 <= value_rate 2 1 1 2 1 k <= 12) by (unfold value_rate; cbn [INR]; lra).
    revert A B Ep. generalize (slope_rate 2 1 2 1 k) (value_rate 2 1 1 2 1 k) QuadProps.eps. intros a b ep A B Ep.
    assert (A2 : a * a <= 20 * 20) by (apply Rmult_le_compat; lra). assert (B2 : b * b <= 12 * 12) by (apply Rmult_le_compat; lra).
    assert (A0 : 0 <= a * a) by apply Rle_0_sqr. assert (B0 : 0 <= b * b) by apply Rle_0_sqr. cbn [INR].
    replace ((1 + ep) * 1 * (k * k * ((1 + 1) * (a * a) + b * b / 1))) with (k * k * ((1 + ep) * (2 * (a * a) + b * b))) by field.
    apply Rmult_le_compat_l; [apply Rle_0_sqr|]. apply Rle_trans with ((1 + 1 / 1000) * 944); [apply Rmult_le_compat; lra|lra].
Qed.
(* non-vacuity: the hypotheses of C213_energy hold for every m, and the mesh has interior nodes *)
Example C213_example : (exists pt slv rule, reference 2 1 pt slv rule) /\ exact some_lu /\ complete some_lu /\ border 2 (at_ 2 1 1) = false /\
  good_mesh 2 2 (square_nodes 2) (square_cells 2) /\ shape_regular 2 (square_nodes 2) (square_cells 2) (1 / INR 2) 1 /\ length (square_cells 2) = 8%nat.
Proof.
  split; [apply reference_exists; cbn; tauto|]. split; [apply some_lu_exact|]. split; [exact some_lu_complete|]. split; [reflexivity|].
  split; [apply square_good; lia|]. split; [apply square_shape; lia|reflexivity].
Qed.
Print Assumptions C213_energy.
Print Assumptions C213_square.
