(* Barycentric walk (C47). *)
From Verif Require Import SimplexModel SimplexProps WalkModel.

Lemma argmin_le : forall f n, (argmin f n <= n)%nat.
Proof. intros f n. induction n; cbn; auto. destruct (ltb _ _); lia. Qed.
Lemma argmin_min : forall f n i, (i <= n)%nat -> f (argmin f n) <= f i.
Proof.
  intros f n. induction n as [|n IH]; intros i Hi; cbn [argmin].
  - replace i with O by lia. lra.
  - destruct (ltb (f (S n)) (f (argmin f n))) eqn:E.
    + apply ltb_true in E. destruct (Nat.eq_dec i (S n)) as [->|]; [lra|]. specialize (IH i ltac:(lia)). lra.
    + apply ltb_false in E. destruct (Nat.eq_dec i (S n)) as [->|]; [lra|]. apply IH. lia.
Qed.

Section W.
Variables (d ncells : nat) (c : nat -> nat -> vec) (inv : nat -> nat -> nat -> R) (neigh : nat -> nat -> option nat) (eps : R) (p : vec).
Let hold := holds d c inv eps p.
Let next k := neigh k (argmin (bary d d (c k) (inv k) p) d).
Let wk := walk d c inv neigh eps p.

(* the path followed from k, as long as cells do not hold p *)
Lemma walk_step : forall fuel vis k, wk (S fuel) vis k =
  if negb (hold k) || existsb (Nat.eqb k) vis then match next k with None => UB | Some k' => wk fuel (k :: vis) k' end else Ok k.
Proof. reflexivity. Qed.

Lemma walk_result : forall fuel vis k r, wk fuel vis k = Ok r -> hold r = true.
Proof.
  induction fuel as [|fuel IH]; intros vis k r H; [discriminate|]. rewrite walk_step in H.
  destruct (negb (hold k) || existsb (Nat.eqb k) vis) eqn:E.
  - destruct (next k); [eauto|discriminate].
  - injection H as <-. apply orb_false_iff in E. destruct E as [E _]. now apply negb_false_iff in E.
Qed.
(* visited cells never hold p, so the visited test never matters *)
Lemma walk_visited : forall fuel vis vis' k, (forall x, In x vis -> hold x = false) -> (forall x, In x vis' -> hold x = false) ->
  wk fuel vis k = wk fuel vis' k.
Proof.
  induction fuel as [|fuel IH]; intros vis vis' k H H'; auto. rewrite !walk_step.
  destruct (hold k) eqn:E.
  - assert (G : forall v, (forall x, In x v -> hold x = false) -> existsb (Nat.eqb k) v = false).
    { intros v Hv. destruct (existsb (Nat.eqb k) v) eqn:X; auto. apply existsb_exists in X. destruct X as (x & Hx & Hk).
      apply Nat.eqb_eq in Hk. subst. specialize (Hv x Hx). congruence. }
    rewrite !G by auto. reflexivity.
  - cbn [negb orb]. destruct (next k) as [k'|]; auto. apply IH; intros x [<-|Hx]; auto.
Qed.
(* fuel only matters when the walk has not stopped *)
Lemma walk_more : forall fuel vis k, wk fuel vis k <> OutOfFuel -> forall more, wk (fuel + more) vis k = wk fuel vis k.
Proof.
  induction fuel as [|fuel IH]; intros vis k H more; [cbn in H; congruence|]. change (S fuel + more)%nat with (S (fuel + more)).
  rewrite !walk_step in *. destruct (negb (hold k) || existsb (Nat.eqb k) vis); auto. destruct (next k); auto.
Qed.
(* a repeated cell repeats for ever *)
Definition stuck (path : list nat) : Prop := forall k, In k path -> hold k = false /\ exists k', next k = Some k' /\ In k' path.
Lemma stuck_forever : forall path, stuck path -> forall fuel k, In k path -> wk fuel [] k = OutOfFuel.
Proof.
  intros path Hs. induction fuel as [|fuel IH]; intros k Hk; auto. rewrite walk_step. destruct (Hs k Hk) as [E (k' & Ek & Hk')].
  rewrite E, Ek. cbn [negb orb]. rewrite (walk_visited fuel [k] []).
  - auto.
  - intros x [<-|[]]; auto.
  - intros x [].
Qed.
Hypothesis Hneigh : forall k i k', (k < ncells)%nat -> (i <= d)%nat -> neigh k i = Some k' -> (k' < ncells)%nat.
Lemma next_lt : forall k k', (k < ncells)%nat -> next k = Some k' -> (k' < ncells)%nat.
Proof. intros k k' Hk H. apply (Hneigh k (argmin (bary d d (c k) (inv k) p) d) k' Hk); [apply argmin_le|exact H]. Qed.
Lemma walk_result_lt : forall fuel vis k r, (k < ncells)%nat -> wk fuel vis k = Ok r -> (r < ncells)%nat.
Proof.
  induction fuel as [|fuel IH]; intros vis k r Hk H; [discriminate|]. rewrite walk_step in H.
  destruct (negb _ || _); [|injection H as <-; auto]. destruct (next k) as [k'|] eqn:E; [|discriminate]. exact (IH (k :: vis) k' r (next_lt k k' Hk E) H).
Qed.
(* after ncells + 1 steps without stopping some cell has been met twice *)
Fixpoint chain (path : list nat) (k : nat) : Prop :=   (* path is in reverse order of visit and leads to k *)
  match path with [] => True | x :: rest => hold x = false /\ next x = Some k /\ chain rest x end.
Lemma chain_prefix_stuck : forall path k, chain path k -> In k path -> exists sub, stuck (k :: sub).
Proof.
  intros path k Hc Hin. (* path = later ++ k :: earlier, later leads from k back to k *)
  apply in_split in Hin. destruct Hin as (later & earlier & ->).
  exists later. revert Hc.
  assert (G : forall l t, chain (l ++ k :: earlier) t -> forall x, In x (k :: l) -> hold x = false /\ exists k', next x = Some k' /\ In k' (t :: k :: l)).
  { induction l as [|y l IH]; intros t Hc x Hx; cbn [chain app] in Hc.
    - destruct Hx as [<-|[]]. destruct Hc as (A & B & _). split; auto. exists t. split; auto. now left.
    - destruct Hc as (A & B & C). destruct Hx as [Hx|[Hx|Hx]].
      + destruct (IH y C x (or_introl Hx)) as [P (k' & Q & Z)]. split; auto. exists k'. split; auto. cbn in *. tauto.
      + subst x. split; auto. exists t. split; auto. now left.
      + destruct (IH y C x (or_intror Hx)) as [P (k' & Q & Z)]. split; auto. exists k'. split; auto. cbn in *. tauto. }
  intros Hc x Hx. destruct (G later k Hc x Hx) as [P (k' & Q & Z)]. split; auto. exists k'. split; auto. cbn in *. tauto.
Qed.
Lemma stuck_extend : forall path k, chain path k -> (exists sub, stuck (k :: sub)) -> forall x, In x path -> exists sub, stuck (x :: sub).
Proof.
  induction path as [|y path IH]; intros k Hc (sub & Hs) x Hx; [destruct Hx|]. cbn in Hc. destruct Hc as (A & B & C).
  assert (Hy : exists sub', stuck (y :: sub')).
  { exists (k :: sub). intros z [<-|Hz].
    - split; auto. exists k. split; auto. cbn. auto.
    - destruct (Hs z Hz) as [P (z' & Q & Z)]. split; auto. exists z'. split; auto. cbn in *. tauto. }
  destruct Hx as [<-|Hx]; auto. eapply IH; eauto.
Qed.
Lemma walk_decides : forall fuel path k, (k < ncells)%nat -> chain path k -> NoDup path -> (forall x, In x path -> (x < ncells)%nat) ->
  (ncells < fuel + length path)%nat -> wk fuel path k = OutOfFuel -> forall x, x = k \/ In x path -> exists sub, stuck (x :: sub).
Proof.
  induction fuel as [|fuel IH]; intros path k Hk Hc Hnd Hlt Hlen H x Hx.
  - exfalso. assert (length path <= ncells)%nat; [|lia]. rewrite <- (seq_length ncells 0). apply NoDup_incl_length; auto.
    intros y Hy. apply in_seq. specialize (Hlt y Hy). lia.
  - destruct (in_dec Nat.eq_dec k path) as [Hin|Hnin].
    + assert (Hs := chain_prefix_stuck path k Hc Hin). destruct Hx as [->|Hx]; auto. eapply stuck_extend; eauto.
    + rewrite walk_step in H. assert (Hex : existsb (Nat.eqb k) path = false).
      { destruct (existsb (Nat.eqb k) path) eqn:X; auto. apply existsb_exists in X. destruct X as (y & Hy & Hq).
        apply Nat.eqb_eq in Hq. subst. contradiction. }
      rewrite Hex, orb_false_r in H. destruct (hold k) eqn:Eh; [discriminate|]. cbn [negb] in H.
      destruct (next k) as [k'|] eqn:En; [|discriminate].
      apply (IH (k :: path) k'); [exact (next_lt k k' Hk En)|..]; auto.
      * cbn [chain]. auto.
      * constructor; auto.
      * intros y [<-|Hy]; auto.
      * cbn. lia.
      * destruct Hx as [->|Hx]; right; cbn; auto.
Qed.
End W.

(* C47: a returned cell contains the point (up to the tolerance of contains), from any start *)
Theorem C47_result_contains : forall d ncells c inv neigh eps p fuel start k,
  (forall k i k', (k < ncells)%nat -> (i <= d)%nat -> neigh k i = Some k' -> (k' < ncells)%nat) ->
  locate d ncells c inv neigh eps p fuel start = Ok k ->
  (k < ncells)%nat /\ contains d d (c k) (inv k) eps false p <> OUTSIDE.
Proof.
  intros d ncells c inv neigh eps p fuel start k Hn H. unfold locate in H. destruct (Nat.ltb_spec start ncells); [|discriminate].
  split; [eapply walk_result_lt; eauto|]. apply walk_result in H. unfold holds in H. intros E. rewrite E in H. discriminate.
Qed.
(* with exact arithmetic the point is in the convex hull of the cell's vertices *)
Corollary C47_result_contains_exact : forall d ncells c inv neigh p fuel start k,
  (forall k i k', (k < ncells)%nat -> (i <= d)%nat -> neigh k i = Some k' -> (k' < ncells)%nat) ->
  (forall k, (k < ncells)%nat -> left_inverse d d (c k) (inv k) /\ right_inverse d d (c k) (inv k)) ->
  locate d ncells c inv neigh 0 p fuel start = Ok k -> in_simplex d d (c k) p.
Proof.
  intros d ncells c inv neigh p fuel start k Hn Hi H. destruct (C47_result_contains _ _ _ _ _ _ _ _ _ _ Hn H) as [Hk Hc].
  destruct (Hi k Hk) as [Hl Hr]. exists (bary d d (c k) (inv k) p). split; [apply C48_full_dimensional; auto|].
  intros i Hid. assert (G := contains_not_outside d d (c k) (inv k) 0 p Hc i Hid). lra.
Qed.
(* either the walk stops within ncells + 1 steps, or it never does: no larger bound changes the outcome *)
Theorem C47_stops_or_cycles : forall d ncells c inv neigh eps p start,
  (forall k i k', (k < ncells)%nat -> (i <= d)%nat -> neigh k i = Some k' -> (k' < ncells)%nat) ->
  let out := locate d ncells c inv neigh eps p (S ncells) start in
  (out <> OutOfFuel /\ forall more, locate d ncells c inv neigh eps p (S ncells + more) start = out) \/
  (out = OutOfFuel /\ forall fuel, locate d ncells c inv neigh eps p fuel start = OutOfFuel).
Proof.
  intros d ncells c inv neigh eps p start Hn out. unfold out, locate. destruct (Nat.ltb_spec start ncells) as [Hs|Hs].
  2:{ left. split; [discriminate|auto]. }
  destruct (walk d c inv neigh eps p (S ncells) [] start) eqn:E;
    try (left; split; [discriminate|]; intros more; rewrite walk_more; rewrite E; auto; discriminate).
  right. split; auto. destruct (walk_decides d ncells c inv neigh eps p Hn (S ncells) [] start Hs) with (x := start) as (sub & Hst); auto.
  - exact I.
  - constructor.
  - intros x [].
  - cbn. lia.
  - intros fuel. apply (stuck_forever d c inv neigh eps p _ Hst). now left.
Qed.

(* ---- the walk stays in the mesh when the mesh is convex and the point is in it ---- *)
(* a convex mesh: every vertex is on the inner side of every boundary facet, i.e. has a non-negative
   barycentric coordinate for the vertex opposite to the facet *)
Definition convex_mesh (d ncells : nat) (c : nat -> nat -> vec) (neigh : nat -> nat -> option nat) : Prop :=
  forall k i, (k < ncells)%nat -> (i <= d)%nat -> neigh k i = None ->
  forall k' j, (k' < ncells)%nat -> (j <= d)%nat ->
  forall w, affine_coords d d (c k) w (c k' j) -> 0 <= w i.

(* barycentric coordinates are affine in the point *)
Lemma bary_tail_affine : forall d N c inv c' w p, affine_coords d N c' w p -> forall a,
  bary_tail N c inv p a = rsum (S d) (fun j => w j * bary_tail N c inv (c' j) a).
Proof.
  intros d N c inv c' w p [Hs Hp] a. unfold bary_tail.
  rewrite (rsum_ext (S d) _ (fun j => rsum N (fun r => inv a r * (w j * (c' j r - c O r))))).
  2:{ intros j Hj. rewrite <- rsum_scal. apply rsum_ext. intros; lra. }
  rewrite rsum_swap. apply rsum_ext. intros r Hr. rewrite rsum_scal. f_equal.
  rewrite (rsum_ext (S d) _ (fun j => w j * c' j r - w j * c O r)) by (intros; lra).
  rewrite rsum_minus, rsum_scal_r, Hs. unfold combination in Hp. rewrite Hp by auto. lra.
Qed.
Lemma bary_affine : forall d N c inv c' w p, affine_coords d N c' w p -> forall i,
  bary d N c inv p i = rsum (S d) (fun j => w j * bary d N c inv (c' j) i).
Proof.
  intros d N c inv c' w p Hw [|a]; cbn [bary]; [|apply (bary_tail_affine d N c inv c' w p Hw)].
  rewrite (rsum_ext d _ (fun a => rsum (S d) (fun j => w j * bary_tail N c inv (c' j) a))) by (intros; apply (bary_tail_affine d N c inv c' w p Hw)).
  rewrite rsum_swap. destruct Hw as [Hs _].
  rewrite (rsum_ext (S d) (fun j => w j * (1 - rsum d (bary_tail N c inv (c' j)))) (fun j => w j - w j * rsum d (bary_tail N c inv (c' j)))) by (intros; lra).
  rewrite rsum_minus, Hs. f_equal. apply rsum_ext. intros j Hj. now rewrite rsum_scal.
Qed.

Theorem C47_never_leaves_partial : forall d ncells c inv neigh eps p,
  (forall k i k', (k < ncells)%nat -> (i <= d)%nat -> neigh k i = Some k' -> (k' < ncells)%nat) ->
  (forall k, (k < ncells)%nat -> left_inverse d d (c k) (inv k) /\ right_inverse d d (c k) (inv k)) ->
  0 <= eps -> convex_mesh d ncells c neigh ->
  (exists k, (k < ncells)%nat /\ in_simplex d d (c k) p) ->
  forall fuel start, (start < ncells)%nat -> locate d ncells c inv neigh eps p fuel start <> UB.
Proof.
  intros d ncells c inv neigh eps p Hn Hi He Hcv (kp & Hkp & w & Hw & Hpos) fuel start Hs.
  unfold locate. destruct (Nat.ltb_spec start ncells); [|lia]. clear H.
  assert (G : forall fuel vis k, (k < ncells)%nat -> (forall x, In x vis -> holds d c inv eps p x = false) ->
     walk d c inv neigh eps p fuel vis k <> UB); [|apply G; auto; intros x []].
  clear fuel start Hs. induction fuel as [|fuel IH]; intros vis k Hk Hv; [discriminate|]. rewrite walk_step.
  destruct (negb (holds d c inv eps p k) || existsb (Nat.eqb k) vis) eqn:E; [|discriminate].
  assert (Hh : holds d c inv eps p k = false).
  { apply orb_true_iff in E. destruct E as [E|E]; [now apply negb_true_iff in E|].
    apply existsb_exists in E. destruct E as (x & Hx & Hq). apply Nat.eqb_eq in Hq. subst. auto. }
  destruct (neigh k (argmin (bary d d (c k) (inv k) p) d)) as [k'|] eqn:En.
  { apply IH; [exact (Hn k _ k' Hk (argmin_le _ _) En)|]. intros x [<-|Hx]; auto. }
  exfalso. (* all coordinates of p in cell k are non-negative, so it holds p *)
  set (i := argmin (bary d d (c k) (inv k) p) d) in *.
  assert (Hid : (i <= d)%nat) by apply argmin_le.
  destruct (Hi k Hk) as [Hl Hr].
  assert (Hb : 0 <= bary d d (c k) (inv k) p i).
  { rewrite (bary_affine d d (c k) (inv k) (c kp) w p Hw i). rewrite <- (rsum_0 (S d)). apply rsum_le. intros j Hj.
    apply Rmult_le_pos; [apply Hpos; lia|].
    apply (Hcv k i Hk Hid En kp j Hkp ltac:(lia)). apply C48_full_dimensional; auto. }
  unfold holds in Hh. destruct (contains d d (c k) (inv k) eps false p) eqn:Ec; try discriminate.
  apply (contains_outside_eps d d (c k) (inv k) Hl eps p He Ec).
  exists (bary d d (c k) (inv k) p). split; [apply C48_full_dimensional; auto|].
  intros j Hj. assert (Hm := argmin_min (bary d d (c k) (inv k) p) d j Hj). fold i in Hm. lra.
Qed.

(* three quadrants around the origin, not convex: the walk for a point of the third cell leaves the mesh
   from the first one *)
Definition Lc (k i : nat) : vec := fun r =>
  match k, i, r with
  | 0, 1, 0 => (1)%R | 0, 2, 1 => (1)%R            (* (0,0) (1,0) (0,1) *)
  | 1, 1, 1 => (1)%R | 1, 2, 0 => (-1)%R           (* (0,0) (0,1) (-1,0) *)
  | 2, 1, 0 => (-1)%R | 2, 2, 1 => (-1)%R          (* (0,0) (-1,0) (0,-1) *)
  | _, _, _ => (0)%R
  end%nat.
Definition Linv (k a r : nat) : R :=
  match k, a, r with
  | 0, 0, 0 => (1)%R | 0, 1, 1 => (1)%R
  | 1, 0, 1 => (1)%R | 1, 1, 0 => (-1)%R
  | 2, 0, 0 => (-1)%R | 2, 1, 1 => (-1)%R
  | _, _, _ => (0)%R
  end%nat.
Definition Lneigh (k i : nat) : option nat :=
  match k, i with 0, 1 => Some 1 | 1, 2 => Some 0 | 1, 1 => Some 2 | 2, 2 => Some 1 | _, _ => None end%nat.
Theorem C47_never_leaves_refuted : exists (p : vec) (start : nat),
  (forall k, (k < 3)%nat -> left_inverse 2 2 (Lc k) (Linv k) /\ right_inverse 2 2 (Lc k) (Linv k)) /\
  in_simplex 2 2 (Lc 2) p /\ (start < 3)%nat /\
  forall fuel, (1 <= fuel)%nat -> locate 2 3 Lc Linv Lneigh 0 p fuel start = UB.
Proof.
  exists (fun r => match r with O => - (1 / 10) | _ => - (8 / 10) end), 0%nat. split; [|split; [|split; [lia|]]].
  - intros [|[|[|]]] Hk; try lia; split; intros [|[|]] [|[|]] Ha Hb; try lia; unfold jac, Lc, Linv, delta; cbn; lra.
  - exists (fun i => match i with O => 1 / 10 | S O => 1 / 10 | _ => 8 / 10 end). split.
    + split; [cbn; lra|]. intros [|[|]] Hr; try lia; unfold combination, Lc; cbn; lra.
    + intros [|[|]] _; lra.
  - intros [|fuel] Hf; [lia|]. unfold locate. cbn [Nat.ltb Nat.leb]. rewrite walk_step.
    set (p := (fun r => match r with O => - (1 / 10) | _ => - (8 / 10) end) : vec).
    assert (B0 : bary 2 2 (Lc 0) (Linv 0) p 0 = 19 / 10) by (unfold bary, bary_tail, Lc, Linv, p; cbn; lra).
    assert (B1 : bary 2 2 (Lc 0) (Linv 0) p 1 = - (1 / 10)) by (unfold bary, bary_tail, Lc, Linv, p; cbn; lra).
    assert (B2 : bary 2 2 (Lc 0) (Linv 0) p 2 = - (8 / 10)) by (unfold bary, bary_tail, Lc, Linv, p; cbn; lra).
    assert (Hh : holds 2 Lc Linv 0 p 0 = false).
    { unfold holds, contains. cbn [Nat.add seq existsb]. rewrite B0, B1, B2.
      replace (ltb (- (1 / 10)) (- 0)) with true by (symmetry; apply ltb_true; lra). now rewrite orb_true_r. }
    rewrite Hh. cbn [negb orb]. replace (argmin (bary 2 2 (Lc 0) (Linv 0) p) 2) with 2%nat; auto.
    cbn [argmin]. rewrite B0, B1. replace (ltb (- (1 / 10)) (19 / 10)) with true by (symmetry; apply ltb_true; lra).
    rewrite B1, B2. now replace (ltb (- (8 / 10)) (- (1 / 10))) with true by (symmetry; apply ltb_true; lra).
Qed.
(* a convex mesh with a point inside, meeting the hypotheses: the first two cells of the above are not
   convex, but the unit square cut by a diagonal is *)
Definition Sc (k i : nat) : vec := fun r =>
  match k, i, r with
  | 0, 1, 0 => (1)%R | 0, 2, 1 => (1)%R            (* (0,0) (1,0) (0,1) *)
  | 1, 0, _ => (1)%R | 1, 1, 1 => (1)%R | 1, 2, 0 => (1)%R   (* (1,1) (0,1) (1,0) *)
  | _, _, _ => (0)%R
  end%nat.
Definition Sneigh (k i : nat) : option nat := match k, i with 0, 0 => Some 1 | 1, 0 => Some 0 | _, _ => None end%nat.
Example square_convex : convex_mesh 2 2 Sc Sneigh.
Proof.
  intros [|[|]] [|[|[|]]] Hk Hi Hn; try lia; try discriminate; intros [|[|]] [|[|[|]]] Hk' Hj w [Hs Hw]; try lia;
    assert (H0 := Hw 0%nat ltac:(lia)); assert (H1 := Hw 1%nat ltac:(lia)); unfold combination, Sc in *; cbn in *; lra.
Qed.

Print Assumptions C47_result_contains.
Print Assumptions C47_stops_or_cycles.
Print Assumptions C47_never_leaves_partial.
