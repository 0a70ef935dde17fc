(* C129: when the located site is the nearest one.  A condition on the mesh that a user can check. *)
From Coq Require Import Reals Lra Psatz Lia List ZArith.
From Verif Require Import Base TriSpec TriModel TriProofs TriProofs2 TriProps SimplexModel VorPlaneModel VorPlaneProps.
Import ListNotations.
Open Scope R_scope.

(* no node lies inside the circle that has an edge of a triangle as diameter (a node on the circle is allowed) *)
Definition edge_circles_empty (cells : list (list nat)) (coords : nat -> pt) (n : nat) : Prop :=
  forall c u v s, In c cells -> In u c -> In v c -> u <> v -> (s < n)%nat ->
    dist2p (midpoint (coords u) (coords v)) (coords u) <= dist2p (midpoint (coords u) (coords v)) (coords s).

(* all vectors start at one vertex of the triangle: w and z lead to the other two, o to the circumcentre, s to the site, p to the point *)
Lemma half_plane o1 o2 w1 w2 s1 s2 p1 p2 c a : 0 <= c -> 0 <= a -> 0 < w1 * w1 + w2 * w2 -> p1 = c * o1 + a * w1 / 2 -> p2 = c * o2 + a * w2 / 2 ->
  2 * (o1 * w1 + o2 * w2) = w1 * w1 + w2 * w2 -> 2 * (p1 * w1 + p2 * w2) <= w1 * w1 + w2 * w2 ->
  2 * (o1 * s1 + o2 * s2) <= s1 * s1 + s2 * s2 -> w1 * s1 + w2 * s2 <= s1 * s1 + s2 * s2 -> 2 * (p1 * s1 + p2 * s2) <= s1 * s1 + s2 * s2.
Proof.
  intros Hc Ha Hw -> -> E P O W. set (ww := w1 * w1 + w2 * w2) in *. set (ss := s1 * s1 + s2 * s2) in *.
  assert (X : c * (2 * (o1 * w1 + o2 * w2)) = c * ww) by now rewrite E. assert (S : (c + a) * ww <= 1 * ww) by (unfold ww in *; lra).
  apply Rmult_le_reg_r in S; [|exact Hw]. assert (0 <= ss) by (unfold ss; nra).
  assert (C1 : c * (2 * (o1 * s1 + o2 * s2)) <= c * ss) by now apply Rmult_le_compat_l. assert (C2 : a * (w1 * s1 + w2 * s2) <= a * ss) by now apply Rmult_le_compat_l.
  assert (C3 : (c + a) * ss <= 1 * ss) by now apply Rmult_le_compat_r. lra.
Qed.
Lemma circumcentre o1 o2 w1 w2 z1 z2 : 2 * (o1 * w1 + o2 * w2) = w1 * w1 + w2 * w2 -> 2 * (o1 * z1 + o2 * z2) = z1 * z1 + z2 * z2 -> w1 * z2 - w2 * z1 <> 0 ->
  let ww := w1 * w1 + w2 * w2 in let zz := z1 * z1 + z2 * z2 in let wz := w1 * z1 + w2 * z2 in let D := (w1 * z2 - w2 * z1) * (w1 * z2 - w2 * z1) in
  2 * D * o1 = zz * (ww - wz) * w1 + ww * (zz - wz) * z1 /\ 2 * D * o2 = zz * (ww - wz) * w2 + ww * (zz - wz) * z2.
Proof.
  intros E1 E2 K ww zz wz D. set (k := w1 * z2 - w2 * z1) in *.
  assert (O1 : 2 * k * o1 = ww * z2 - zz * w2). { unfold ww, zz. rewrite <- E1, <- E2. unfold k. ring. }
  assert (O2 : 2 * k * o2 = zz * w1 - ww * z1). { unfold ww, zz. rewrite <- E1, <- E2. unfold k. ring. }
  split.
  - transitivity (k * (2 * k * o1)); [unfold D; ring|]. rewrite O1. unfold k, wz, ww, zz. ring.
  - transitivity (k * (2 * k * o2)); [unfold D; ring|]. rewrite O2. unfold k, wz, ww, zz. ring.
Qed.
Lemma nearer_side o1 o2 w1 w2 z1 z2 s1 s2 l m : w1 * z2 - w2 * z1 <> 0 -> 0 <= l -> 0 <= m ->
  2 * (o1 * w1 + o2 * w2) = w1 * w1 + w2 * w2 -> 2 * (o1 * z1 + o2 * z2) = z1 * z1 + z2 * z2 ->
  w1 * z1 + w2 * z2 <= w1 * w1 + w2 * w2 -> w1 * z1 + w2 * z2 <= z1 * z1 + z2 * z2 ->
  (z1 * z1 + z2 * z2) * (w1 * w1 + w2 * w2 - (w1 * z1 + w2 * z2)) * m <= (w1 * w1 + w2 * w2) * (z1 * z1 + z2 * z2 - (w1 * z1 + w2 * z2)) * l ->
  2 * ((l * w1 + m * z1) * w1 + (l * w2 + m * z2) * w2) <= w1 * w1 + w2 * w2 ->
  2 * (o1 * s1 + o2 * s2) <= s1 * s1 + s2 * s2 -> w1 * s1 + w2 * s2 <= s1 * s1 + s2 * s2 ->
  2 * ((l * w1 + m * z1) * s1 + (l * w2 + m * z2) * s2) <= s1 * s1 + s2 * s2.
Proof.
  intros K Hl Hm E1 E2 N1 N2 Side P O W. destruct (circumcentre o1 o2 w1 w2 z1 z2 E1 E2 K) as [C1 C2].
  set (ww := w1 * w1 + w2 * w2) in *. set (zz := z1 * z1 + z2 * z2) in *. set (wz := w1 * z1 + w2 * z2) in *. set (D := (w1 * z2 - w2 * z1) * (w1 * z2 - w2 * z1)) in *.
  assert (HD : 0 < D) by (unfold D; nra). assert (LD : D = ww * zz - wz * wz) by (unfold D, ww, zz, wz; ring).
  assert (Pw : 0 < ww). { destruct (Req_dec w1 0) as [Z|Z]; [destruct (Req_dec w2 0) as [Z'|Z']|]; unfold ww; [subst; exfalso; apply K; ring|nra|nra]. }
  assert (Pz : 0 < zz). { destruct (Req_dec z1 0) as [Z|Z]; [destruct (Req_dec z2 0) as [Z'|Z']|]; unfold zz; [subst; exfalso; apply K; ring|nra|nra]. }
  set (A := zz * (ww - wz)) in *. set (B := ww * (zz - wz)) in *.
  assert (HA : 0 <= A) by (apply Rmult_le_pos; lra). assert (HB : 0 <= B) by (apply Rmult_le_pos; lra).
  destruct (Rle_lt_or_eq_dec 0 B HB) as [PB|ZB].
  - apply (half_plane o1 o2 w1 w2 s1 s2 _ _ (2 * D * m / B) (2 * (l - A * m / B))); try assumption.
    + apply Rmult_le_pos; [apply Rmult_le_pos; lra|]. now apply Rlt_le, Rinv_0_lt_compat.
    + assert (A * m / B <= l); [|lra]. apply Rmult_le_reg_r with B; [exact PB|]. unfold Rdiv. rewrite Rmult_assoc, Rinv_l by lra. lra.
    + replace (2 * D * m / B * o1) with (m / B * (2 * D * o1)) by (field; lra). rewrite C1. field. lra.
    + replace (2 * D * m / B * o2) with (m / B * (2 * D * o2)) by (field; lra). rewrite C2. field. lra.
  - assert (Zzw : zz = wz). { unfold B in ZB. symmetry in ZB. apply Rmult_integral in ZB as [ZB|ZB]; lra. }
    assert (PA : 0 < A). { apply Rmult_lt_0_compat; [exact Pz|]. destruct (Rle_lt_or_eq_dec wz ww N1) as [L|L]; [lra|]. exfalso. rewrite LD, <- L, Zzw in HD. lra. }
    assert (m = 0) as ->. { rewrite <- ZB in Side. nra. }
    apply (half_plane o1 o2 w1 w2 s1 s2 _ _ 0 (2 * l)); try assumption; lra.
Qed.
(* the vertex nearest to a point of the triangle is nearer than any site *)
Lemma vertex_nearest (o u w z s p : pt) : ~ collinear u w z -> inside u w z p ->
  equidistant o u w z -> dist2p o u <= dist2p o s ->
  dist2p (midpoint u w) u <= dist2p (midpoint u w) s -> dist2p (midpoint u z) u <= dist2p (midpoint u z) s ->
  dist2p (midpoint u w) u <= dist2p (midpoint u w) z -> dist2p (midpoint u z) u <= dist2p (midpoint u z) w ->
  dist2p u p <= dist2p w p -> dist2p u p <= dist2p z p -> dist2p u p <= dist2p s p.
Proof.
  destruct o as [o1 o2], u as [u1 u2], w as [w1 w2], z as [z1 z2], s as [s1 s2], p as [p1 p2]. unfold collinear, inside, equidistant, dist2p, midpoint. cbn [fst snd].
  intros K (a & l & m & Ha & Hl & Hm & S1 & -> & ->) [Q1 Q2] O G1 G2 G3 G4 M1 M2.
  assert (a = 1 - l - m) as -> by lra. clear S1.
  assert (Core : 2 * ((l * (w1 - u1) + m * (z1 - u1)) * (s1 - u1) + (l * (w2 - u2) + m * (z2 - u2)) * (s2 - u2)) <= (s1 - u1) * (s1 - u1) + (s2 - u2) * (s2 - u2)).
  { set (W1 := w1 - u1) in *. set (W2 := w2 - u2) in *. set (Z1 := z1 - u1) in *. set (Z2 := z2 - u2) in *. set (S1 := s1 - u1) in *. set (S2 := s2 - u2) in *.
    assert (K' : W1 * Z2 - W2 * Z1 <> 0) by (intros E; apply K; unfold W1, Z2, W2, Z1 in *; lra).
    assert (T : forall X Y, 0 <= X -> Y = X -> 0 <= Y) by (intros; lra).
    assert (EW : 2 * ((o1 - u1) * W1 + (o2 - u2) * W2) = W1 * W1 + W2 * W2) by (unfold W1, W2; lra).
    assert (EZ : 2 * ((o1 - u1) * Z1 + (o2 - u2) * Z2) = Z1 * Z1 + Z2 * Z2) by (unfold Z1, Z2; lra).
    assert (ES : 2 * ((o1 - u1) * S1 + (o2 - u2) * S2) <= S1 * S1 + S2 * S2) by (unfold S1, S2; lra).
    assert (GW : W1 * S1 + W2 * S2 <= S1 * S1 + S2 * S2) by (unfold W1, W2, S1, S2; lra).
    assert (GZ : Z1 * S1 + Z2 * S2 <= S1 * S1 + S2 * S2) by (unfold Z1, Z2, S1, S2; lra).
    assert (NZ : W1 * Z1 + W2 * Z2 <= Z1 * Z1 + Z2 * Z2) by (unfold W1, W2, Z1, Z2; lra).
    assert (NW : W1 * Z1 + W2 * Z2 <= W1 * W1 + W2 * W2) by (unfold W1, W2, Z1, Z2; lra).
    assert (PW : 2 * ((l * W1 + m * Z1) * W1 + (l * W2 + m * Z2) * W2) <= W1 * W1 + W2 * W2) by (unfold W1, W2, Z1, Z2; lra).
    assert (PZ : 2 * ((l * W1 + m * Z1) * Z1 + (l * W2 + m * Z2) * Z2) <= Z1 * Z1 + Z2 * Z2) by (unfold W1, W2, Z1, Z2; lra).
    destruct (Rle_or_lt ((Z1 * Z1 + Z2 * Z2) * (W1 * W1 + W2 * W2 - (W1 * Z1 + W2 * Z2)) * m) ((W1 * W1 + W2 * W2) * (Z1 * Z1 + Z2 * Z2 - (W1 * Z1 + W2 * Z2)) * l)) as [Side|Side].
    - now apply (nearer_side (o1 - u1) (o2 - u2) W1 W2 Z1 Z2 S1 S2 l m).
    - replace (l * W1 + m * Z1) with (m * Z1 + l * W1) by ring. replace (l * W2 + m * Z2) with (m * Z2 + l * W2) by ring.
      apply (nearer_side (o1 - u1) (o2 - u2) Z1 Z2 W1 W2 S1 S2 m l); try assumption; try lra. }
  lra.
Qed.

Lemma mid_sym (a b c : pt) : dist2p (midpoint b a) c = dist2p (midpoint a b) c.
Proof. unfold dist2p, midpoint. cbn [fst snd]. rewrite (Rplus_comm (fst b)), (Rplus_comm (snd b)). reflexivity. Qed.
(* C129, a sufficient condition: in a Delaunay triangulation no node of which lies inside a circle that has an edge as diameter, locate returns a node nearest to the point.
   dual is the point location of the triangulation: it returns -1 or a triangle that contains the point.  Missing: other Delaunay triangulations, see C129_locate_refuted. *)
Theorem C129_nearest_partial : forall cells coords markers dual p, good_mesh cells coords markers ->
  delaunay cells coords (length markers) -> edge_circles_empty cells coords (length markers) ->
  (forall d, dual p = Ok d -> d = (-1)%Z \/ (exists i a b c, d = Z.of_nat i /\ nth_error cells i = Some [a; b; c] /\ inside (coords a) (coords b) (coords c) p)) ->
  forall d, dual p = Ok d ->
  d = (-1)%Z /\ v2_locate cells coords dual p = Ok (-1)%Z /\ (forall j, v2_contains cells coords dual j p = Ok false) \/
  exists v, v2_locate cells coords dual p = Ok (Z.of_nat v) /\ (v < length markers)%nat /\
    (forall s, (s < length markers)%nat -> dist2p (coords v) p <= dist2p (coords s) p) /\
    forall j, v2_contains cells coords dual j p = Ok (j =? v)%nat.
Proof.
  intros cells coords markers dual p (Hs & _ & Hn & Hc & _) Hd He Hdual d E.
  assert (CT : forall v, v2_locate cells coords dual p = Ok (Z.of_nat v) -> forall j, v2_contains cells coords dual j p = Ok (j =? v)%nat).
  { intros v L j. unfold v2_contains. rewrite L. cbn [bind]. f_equal. destruct (Nat.eqb_spec j v) as [->|N]; [apply Z.eqb_refl|apply Z.eqb_neq; lia]. }
  destruct (C129_locate_partial cells coords dual p Hs Hdual d E) as [[-> L]|(i & a & b & c & v & -> & Hi & Hin & L & Hv & Hm)].
  - left. split; [reflexivity|]. split; [exact L|]. intros j. unfold v2_contains. rewrite L. cbn [bind]. f_equal. apply Z.eqb_neq. lia.
  - right. exists v. split; [exact L|]. assert (Hcell : In [a; b; c] cells) by now apply nth_error_In with i. split; [apply Hn; now exists [a; b; c]|]. split; [|now apply CT].
    intros s Hs'. destruct (Hd a b c Hcell) as (o & [Q1 Q2] & Q3). assert (K := Hc a b c Hcell). destruct (Hs _ Hcell) as [_ ND].
    assert (Nab : a <> b) by (intros ->; inversion ND; cbn in *; tauto). assert (Nac : a <> c) by (intros ->; inversion ND; cbn in *; tauto). assert (Nbc : b <> c) by (intros ->; inversion ND as [|? ? ? ND']; inversion ND'; cbn in *; tauto).
    assert (Ma : (a < length markers)%nat) by (apply Hn; exists [a; b; c]; cbn; auto). assert (Mb : (b < length markers)%nat) by (apply Hn; exists [a; b; c]; cbn; auto). assert (Mc : (c < length markers)%nat) by (apply Hn; exists [a; b; c]; cbn; auto).
    assert (H1 := Hm a ltac:(cbn; auto)). assert (H2 := Hm b ltac:(cbn; auto)). assert (H3 := Hm c ltac:(cbn; auto)).
    assert (G : forall u w t, In u [a; b; c] -> In w [a; b; c] -> u <> w -> (t < length markers)%nat -> dist2p (midpoint (coords u) (coords w)) (coords u) <= dist2p (midpoint (coords u) (coords w)) (coords t)).
    { intros u w t Hu Hw N Ht. exact (He [a; b; c] u w t Hcell Hu Hw N Ht). }
    assert (Q3s := Q3 s Hs'). destruct Hin as (x & y & w & X1 & X2 & X3 & X4 & X5 & X6). cbn [In] in Hv. destruct Hv as [<- |[<- |[<- |[]]]].
    + apply (vertex_nearest o (coords a) (coords b) (coords c)); [exact K|now exists x, y, w|now split|exact Q3s| | | | |exact H2|exact H3]; apply G; cbn; auto.
    + apply (vertex_nearest o (coords b) (coords a) (coords c)); [unfold collinear in *; lra|exists y, x, w; repeat (split; [lra|]); lra|split; congruence|rewrite <- Q1; exact Q3s| | | | |exact H1|exact H3]; apply G; cbn; auto.
    + apply (vertex_nearest o (coords c) (coords a) (coords b)); [unfold collinear in *; lra|exists w, x, y; repeat (split; [lra|]); lra|split; congruence|rewrite <- Q2; exact Q3s| | | | |exact H1|exact H2]; apply G; cbn; auto.
Qed.
(* non-vacuity: a square cut along a diagonal *)
Definition sq (v : nat) : pt := match v with O => (0, 0) | S O => (1, 0) | S (S O) => (0, 1) | _ => (1, 1) end.
Definition sq_cells : list (list nat) := [[0; 1; 2]; [1; 3; 2]]%nat.
Example C129_nearest_example : good_mesh sq_cells sq (repeat true 4) /\ delaunay sq_cells sq 4 /\ edge_circles_empty sq_cells sq 4 /\
  inside (sq 0) (sq 1) (sq 2) (1 / 3, 1 / 4).
Proof.
  split; [|split; [|split]].
  - assert (S : simplicial 3 sq_cells) by simplicial_tac. apply all_marked_good; [exact S|apply (conforming_b_ok 3 _ S); vm_compute; reflexivity| |].
    + intros v. split.
      * intros H. do 4 (destruct v as [|v]; [first [exists [0; 1; 2]%nat; split; [cbn; auto; fail|cbn; intuition fail]|exists [1; 3; 2]%nat; split; [cbn; auto; fail|cbn; intuition fail]]|]). lia.
      * intros (c & [<-|[<-|[]]] & Hv); cbn in Hv; lia.
    + intros a b c [E|[E|[]]]; injection E as <- <- <-; unfold collinear, sq; cbn [fst snd]; lra.
  - intros a b c [E|[E|[]]]; injection E as <- <- <-; exists (1 / 2, 1 / 2); unfold equidistant, dist2p, sq; cbn [fst snd]; (split; [split; lra|]); intros v Hv; do 4 (destruct v as [|v]; [cbn [fst snd]; lra|]); lia.
  - intros c u v s [<- |[<- |[]]] Hu Hv N Hs; cbn [In] in Hu, Hv; destruct Hu as [<- |[<- |[<- |[]]]]; destruct Hv as [<- |[<- |[<- |[]]]]; try congruence;
      do 4 (destruct s as [|s]; [unfold dist2p, midpoint, sq; cbn [fst snd]; lra|]); lia.
  - exists (5 / 12), (1 / 3), (1 / 4). unfold sq. cbn [fst snd]. repeat split; lra.
Qed.
Print Assumptions C129_nearest_partial.
