(* C128, C129: the Voronoi diagram built from a triangulation of the plane. *)
From Coq Require Import Lia Lra Permutation Sorted.
From Verif Require Import VorPlaneModel SimplexProps HyperProps ClockProps TriProofs TriProofs2 TriProps.

(* ---- specification ---- *)
Definition equidistant (p a b c : pt) : Prop := dist2p p a = dist2p p b /\ dist2p p a = dist2p p c.
Definition collinear (a b c : pt) : Prop := (fst b - fst a) * (snd c - snd a) = (fst c - fst a) * (snd b - snd a).
Definition midpoint (a b : pt) : pt := ((fst a + fst b) / 2, (snd a + snd b) / 2).
Definition edge_midpoint (coords : nat -> pt) (e : list nat) : pt := midpoint (coords (nth 0 e O)) (coords (nth 1 e O)).
(* an edge that belongs to one cell only *)
Definition boundary_edge (cells : list (list nat)) (e : list nat) : Prop := exists i, forall i', cell_has cells i' e <-> i' = i.
Definition is_mean (ps : list pt) (c : pt) : Prop :=
  fst c * INR (length ps) = fold_right (fun p s => fst p + s) 0 ps /\ snd c * INR (length ps) = fold_right (fun p s => snd p + s) 0 ps.
(* what the C++ standard asks of std::sort *)
Definition strict_weak (lt : nat -> nat -> bool) : Prop :=
  (forall a, lt a a = false) /\ (forall a b, lt a b = true -> lt b a = false) /\
  (forall a b c, lt a b = true -> lt b c = true -> lt a c = true) /\
  (forall a b c, lt a b = false -> lt b a = false -> lt b c = false -> lt c b = false -> lt a c = false /\ lt c a = false).
Definition sorts (f : (nat -> nat -> bool) -> list nat -> list nat) : Prop :=
  forall lt l, strict_weak lt -> Permutation (f lt l) l /\ StronglySorted (fun a b => lt b a = false) (f lt l).
Definition has (v : nat) (row : list nat) : bool := existsb (Nat.eqb v) row.

(* ---- points ---- *)
Lemma circumcenter2_ok : forall a b c, ~ collinear a b c -> equidistant (circumcenter2 a b c) a b c.
Proof.
  intros [ax ay] [bx by_] [cx cy] H. unfold collinear in H. cbn [fst snd] in H.
  unfold equidistant, dist2p, circumcenter2, pt_of, circumcenter, inverse2, jac, circum_rhs, dot, tri_coords, vec_of.
  cbn [rsum fst snd].
  split; field; lra.
Qed.
Lemma equidistant_unique : forall p q a b c, ~ collinear a b c -> equidistant p a b c -> equidistant q a b c -> p = q.
Proof.
  intros [px py] [qx qy] [ax ay] [bx by_] [cx cy] H [H1 H2] [H3 H4]. unfold collinear, dist2p in *. cbn [fst snd] in *.
  set (D := (bx - ax) * (cy - ay) - (cx - ax) * (by_ - ay)). assert (HD : D <> 0) by (unfold D; lra).
  assert (E1 : (px - qx) * (bx - ax) + (py - qy) * (by_ - ay) = 0) by lra.
  assert (E2 : (px - qx) * (cx - ax) + (py - qy) * (cy - ay) = 0) by lra.
  assert (X : (px - qx) * D = 0) by (unfold D; transitivity (((px - qx) * (bx - ax) + (py - qy) * (by_ - ay)) * (cy - ay) - ((px - qx) * (cx - ax) + (py - qy) * (cy - ay)) * (by_ - ay)); [ring|rewrite E1, E2; ring]).
  assert (Y : (py - qy) * D = 0) by (unfold D; transitivity (((px - qx) * (cx - ax) + (py - qy) * (cy - ay)) * (bx - ax) - ((px - qx) * (bx - ax) + (py - qy) * (by_ - ay)) * (cx - ax)); [ring|rewrite E1, E2; ring]).
  apply Rmult_integral in X, Y. f_equal; lra.
Qed.
(* the foot of the perpendicular from a point at the same distance from both ends of an edge *)
Lemma project2_mid : forall a b p, a <> b -> dist2p p a = dist2p p b -> project2 a b p = midpoint a b.
Proof.
  intros [ax ay] [bx by_] [px py] H E. unfold dist2p in E. cbn [fst snd] in E.
  set (d := (bx - ax) * (bx - ax) + (by_ - ay) * (by_ - ay)).
  assert (Hd : 0 < d).
  { destruct (Req_dec bx ax) as [E1|E1]; [destruct (Req_dec by_ ay) as [E2|E2]|]; [exfalso; apply H; congruence| |]; unfold d.
    - assert (0 < Rsqr (by_ - ay)) by (apply Rsqr_pos_lt; lra). assert (0 <= Rsqr (bx - ax)) by apply Rle_0_sqr. unfold Rsqr in *. lra.
    - assert (0 < Rsqr (bx - ax)) by (apply Rsqr_pos_lt; lra). assert (0 <= Rsqr (by_ - ay)) by apply Rle_0_sqr. unfold Rsqr in *. lra. }
  assert (Hn : dot 2 (vsub (vec_of (bx, by_)) (vec_of (ax, ay))) (vsub (vec_of (bx, by_)) (vec_of (ax, ay))) = d).
  { unfold dot, vsub, vec_of, d. cbn [rsum fst snd]. ring. }
  assert (Hs : norm 2 (vsub (vec_of (bx, by_)) (vec_of (ax, ay))) * norm 2 (vsub (vec_of (bx, by_)) (vec_of (ax, ay))) = d) by (rewrite norm_sqr; exact Hn).
  assert (Hs0 : norm 2 (vsub (vec_of (bx, by_)) (vec_of (ax, ay))) <> 0) by (intros Z; rewrite Z in Hs; lra).
  unfold project2, hp_project, hp_line, hp_project_onto, normalized, pt_of, midpoint. cbn [hp_p hp_basis].
  unfold vscale. set (s := norm 2 (vsub (vec_of (bx, by_)) (vec_of (ax, ay)))) in *. clearbody s.
  unfold dot, vsub, vec_of. cbn [rsum fst snd].
  assert (K : (px - ax) * (bx - ax) + (py - ay) * (by_ - ay) = d / 2) by (unfold d; lra).
  f_equal.
  - transitivity (/ s * / s * ((px - ax) * (bx - ax) + (py - ay) * (by_ - ay)) * (bx - ax) + ax); [ring|].
    rewrite K, <- Hs. field. exact Hs0.
  - transitivity (/ s * / s * ((px - ax) * (bx - ax) + (py - ay) * (by_ - ay)) * (by_ - ay) + ay); [ring|].
    rewrite K, <- Hs. field. exact Hs0.
Qed.

(* ---- the construction as a log of written rows ---- *)
Record item := Item { i_row : nat; i_pt : pt; i_mark : bool; i_owners : list nat }.
Definition ids (L : list item) (v : nat) : list nat := flat_map (fun x => repeat (i_row x) (count_occ Nat.eq_dec (i_owners x) v)) L.
Definition logged (rows : nat) (L : list item) (ns : list (option pt)) (mk : list bool) : Prop :=
  length ns = rows /\ length mk = rows /\ NoDup (map i_row L) /\ (forall x, In x L -> (i_row x < rows)%nat) /\
  (forall x, In x L -> nth_error ns (i_row x) = Some (Some (i_pt x)) /\ nth_error mk (i_row x) = Some (i_mark x)) /\
  (forall i, (i < rows)%nat -> ~ In i (map i_row L) -> nth_error ns i = Some None /\ nth_error mk i = Some false).

Lemma ids_app L1 L2 v : ids (L1 ++ L2) v = ids L1 v ++ ids L2 v.
Proof. unfold ids. apply flat_map_app. Qed.
Lemma logged_add rows L ns mk x : logged rows L ns mk -> (i_row x < rows)%nat -> ~ In (i_row x) (map i_row L) ->
  exists ns', upd_res ns (i_row x) (Some (i_pt x)) = Ok ns' /\
    (i_mark x = true -> exists mk', upd_res mk (i_row x) true = Ok mk' /\ logged rows (L ++ [x]) ns' mk') /\
    (i_mark x = false -> logged rows (L ++ [x]) ns' mk).
Proof.
  intros (H1 & H2 & H3 & H4 & H5 & H6) Hr Hn. exists (upd ns (i_row x) (Some (i_pt x))).
  split; [apply upd_res_some; lia|].
  assert (HN : NoDup (map i_row (L ++ [x]))).
  { rewrite map_app. apply Permutation_NoDup with (l := i_row x :: map i_row L); [apply Permutation_cons_append|constructor; auto]. }
  assert (HB : forall y, In y (L ++ [x]) -> (i_row y < rows)%nat).
  { intros y Hy. apply in_app_iff in Hy as [Hy|[<-|[]]]; auto. }
  assert (HO : forall y, In y L -> i_row y <> i_row x).
  { intros y Hy E. apply Hn. rewrite <- E. apply in_map. exact Hy. }
  split; intros Hm.
  - exists (upd mk (i_row x) true). split; [apply upd_res_some; lia|].
    split; [rewrite upd_length; auto|]. split; [rewrite upd_length; auto|]. split; [exact HN|]. split; [exact HB|]. split.
    + intros y Hy. apply in_app_iff in Hy as [Hy|[<-|[]]].
      * rewrite !nth_error_upd_other by (apply not_eq_sym, HO; exact Hy). apply H5. exact Hy.
      * rewrite !nth_error_upd_same by lia. rewrite Hm. auto.
    + intros i Hi Hni. rewrite map_app, in_app_iff in Hni. cbn in Hni.
      rewrite !nth_error_upd_other by (intros E; apply Hni; right; left; auto). apply H6; auto.
  - split; [rewrite upd_length; auto|]. split; [auto|]. split; [exact HN|]. split; [exact HB|]. split.
    + intros y Hy. apply in_app_iff in Hy as [Hy|[<-|[]]].
      * rewrite !nth_error_upd_other by (apply not_eq_sym, HO; exact Hy). apply H5. exact Hy.
      * rewrite !nth_error_upd_same by lia. rewrite Hm. split; [reflexivity|]. apply H6; auto.
    + intros i Hi Hni. rewrite map_app, in_app_iff in Hni. cbn in Hni. rewrite nth_error_upd_other by (intros E; apply Hni; right; left; auto). apply H6; auto.
Qed.

Lemma nodup_flat_map {A B} (f : A -> list B) l : NoDup l -> (forall x, In x l -> NoDup (f x)) ->
  (forall x y z, In x l -> In y l -> In z (f x) -> In z (f y) -> x = y) -> NoDup (flat_map f l).
Proof.
  induction 1 as [|x l Hx Hl IH]; intros H1 H2; cbn; [constructor|].
  apply NoDup_app_intro; [apply H1; left; auto| |].
  - apply IH; [intros; apply H1; right; auto|intros; eapply H2; eauto; right; auto].
  - intros z Hz Hz'. apply in_flat_map in Hz' as (y & Hy & Hzy). apply Hx.
    rewrite (H2 x y z); auto; [left; auto|right; auto].
Qed.
Lemma flat_map_split {A B} (f g : A -> list B) l :
  Permutation (flat_map (fun x => f x ++ g x) l) (flat_map f l ++ flat_map g l).
Proof.
  induction l as [|x l IH]; cbn; [constructor|]. rewrite <- !app_assoc. apply Permutation_app_head.
  rewrite IH. rewrite !app_assoc. apply Permutation_app_tail. apply Permutation_app_comm.
Qed.
Lemma flat_map_if {A B} (p : A -> bool) (f : A -> B) l :
  flat_map (fun x => if p x then [f x] else []) l = map f (filter p l).
Proof. induction l as [|x l IH]; cbn; [reflexivity|]. rewrite IH. destruct (p x); reflexivity. Qed.
Lemma filter_perm {A} (p : A -> bool) l l' : Permutation l l' -> Permutation (filter p l) (filter p l').
Proof.
  induction 1 as [|x l l' H IH|x y l|l l' l'' H1 IH1 H2 IH2]; cbn; [constructor| | |eapply perm_trans; eauto].
  - destruct (p x); [constructor|]; exact IH.
  - destruct (p x), (p y); try reflexivity. constructor.
Qed.
Lemma has_in v row : has v row = true <-> In v row.
Proof. unfold has. rewrite existsb_exists. split; [intros (x & H & E); apply Nat.eqb_eq in E; subst; auto|intros H; exists v; split; auto; apply Nat.eqb_refl]. Qed.
Lemma repeat_has {A} (x : A) row v : NoDup row -> repeat x (count_occ Nat.eq_dec row v) = if has v row then [x] else [].
Proof.
  intros H. destruct (has v row) eqn:E.
  - apply has_in in E. assert (E1 : (count_occ Nat.eq_dec row v > 0)%nat) by (apply count_occ_In; auto).
    assert (E2 := proj1 (NoDup_count_occ Nat.eq_dec row) H v). replace (count_occ Nat.eq_dec row v) with 1%nat by lia. reflexivity.
  - assert (E1 : ~ In v row) by (intros G; apply has_in in G; congruence). apply (count_occ_not_In Nat.eq_dec) in E1. rewrite E1. reflexivity.
Qed.

Definition at_ns (ns : list (option pt)) (i : nat) : pt := match nth_error ns i with Some (Some p) => p | _ => (0, 0) end.
Definition at_mk (mk : list bool) (i : nat) : bool := nth i mk false.
Definition pts (S : list (pt * bool * list nat)) (v : nat) : list (pt * bool) :=
  flat_map (fun y => repeat (fst y) (count_occ Nat.eq_dec (snd y) v)) S.
Lemma pts_app S1 S2 v : pts (S1 ++ S2) v = pts S1 v ++ pts S2 v.
Proof. apply flat_map_app. Qed.
Lemma ids_rows L v i : In i (ids L v) -> In i (map i_row L).
Proof. intros H. apply in_flat_map in H as (x & Hx & Hi). apply repeat_spec in Hi. subst. apply in_map. exact Hx. Qed.
Lemma mapM_vertex rows L w : logged rows L (v2_nodes w) (v2_mark w) -> forall l, incl l (map i_row L) -> mapM (v2_vertex w) l = Ok (map (at_ns (v2_nodes w)) l).
Proof.
  intros (_ & _ & _ & _ & H & _). induction l as [|i l IH]; intros Hl; [reflexivity|]. cbn [mapM map].
  assert (Hi : In i (map i_row L)) by (apply Hl; left; auto). apply in_map_iff in Hi as (x & <- & Hx). destruct (H x Hx) as [H1 _].
  unfold v2_vertex at 1, at_ns at 1. rewrite (proj2 (nth_res_ok _ _ _) H1), H1. cbn [bind]. rewrite IH by (intros y Hy; apply Hl; right; auto). reflexivity.
Qed.
Lemma map_rep {A B} (f : A -> B) x n : map f (repeat x n) = repeat (f x) n.
Proof. induction n; cbn; congruence. Qed.
Lemma mapM_mark rows L w : logged rows L (v2_nodes w) (v2_mark w) -> forall l, incl l (map i_row L) -> mapM (nth_res (v2_mark w)) l = Ok (map (at_mk (v2_mark w)) l).
Proof.
  intros (_ & _ & _ & _ & H & _). induction l as [|i l IH]; intros Hl; [reflexivity|]. cbn [mapM map].
  assert (Hi : In i (map i_row L)) by (apply Hl; left; auto). apply in_map_iff in Hi as (x & <- & Hx). destruct (H x Hx) as [_ H1].
  unfold at_mk at 1. rewrite (proj2 (nth_res_ok _ _ _) H1), (nth_error_nth _ _ false H1). cbn [bind]. rewrite IH by (intros y Hy; apply Hl; right; auto). reflexivity.
Qed.
Lemma at_ids rows L ns mk v : logged rows L ns mk -> map (fun i => (at_ns ns i, at_mk mk i)) (ids L v) = pts (map (fun x => (i_pt x, i_mark x, i_owners x)) L) v.
Proof.
  intros (_ & _ & _ & _ & H & _). unfold ids, pts. induction L as [|x L IH]; [reflexivity|]. cbn [flat_map map]. rewrite map_app, IH by (intros; apply H; right; auto).
  f_equal. cbn [fst snd]. rewrite map_rep. f_equal. unfold at_ns, at_mk. destruct (H x) as [-> E]; [left; auto|]. rewrite (nth_error_nth _ _ false E). reflexivity.
Qed.
Lemma combine_map {A B C} (f : A -> B) (g : A -> C) l : combine (map f l) (map g l) = map (fun i => (f i, g i)) l.
Proof. induction l; cbn; congruence. Qed.
Lemma fold_left_plus l : forall a, fold_left Rplus l a = a + fold_right Rplus 0 l.
Proof. induction l as [|x l IH]; intros a; cbn; [ring|]. rewrite IH. ring. Qed.
Lemma mean_point_ok ps : is_mean ps (mean_point ps).
Proof.
  assert (F : forall (f : pt -> R), fold_left Rplus (map f ps) 0 / INR (length ps) * INR (length ps) = fold_right (fun p s => f p + s) 0 ps).
  { intros f. rewrite fold_left_plus, Rplus_0_l. replace (fold_right Rplus 0 (map f ps)) with (fold_right (fun p s => f p + s) 0 ps) by (induction ps; cbn; congruence).
    destruct ps as [|p l]; [cbn; ring|]. field. apply not_0_INR. cbn. lia. }
  split; cbn; apply F.
Qed.
Lemma fold_right_perm (f : pt -> R) l l' : Permutation l l' -> fold_right (fun p s => f p + s) 0 l = fold_right (fun p s => f p + s) 0 l'.
Proof. induction 1; cbn; lra. Qed.
Lemma is_mean_perm ps ps' c : Permutation ps ps' -> is_mean ps c -> is_mean ps' c.
Proof. intros P [H1 H2]. split; rewrite <- (Permutation_length P); rewrite <- (fold_right_perm _ _ _ P); auto. Qed.
Lemma sorted_impl {A} (R R' : A -> A -> Prop) l : StronglySorted R l -> (forall a b, In a l -> In b l -> R a b -> R' a b) -> StronglySorted R' l.
Proof.
  induction 1 as [|x l Hl IH Hx]; intros H; constructor.
  - apply IH. intros; apply H; auto; right; auto.
  - rewrite Forall_forall in *. intros y Hy. apply H; [left; auto|right; auto|auto].
Qed.
Lemma sorted_map {A B} (f : A -> B) (R : B -> B -> Prop) l : StronglySorted (fun a b => R (f a) (f b)) l -> StronglySorted R (map f l).
Proof. induction 1 as [|x l Hl IH Hx]; cbn; constructor; auto. rewrite Forall_forall in *. intros y Hy. apply in_map_iff in Hy as (z & <- & Hz). auto. Qed.
Lemma clockwise_strict_weak c (f : nat -> pt) : strict_weak (fun i j => clockwise c (f i) (f j)).
Proof. destruct (C51_strict_weak_ordering c) as (H1 & H2 & H3 & H4 & _). unfold strict_weak. repeat split; intros; eauto; eapply H4; eauto. Qed.

Section Build.
Variables (cells : list (list nat)) (t : facets) (coords : nat -> pt) (markers : list bool).
Hypothesis Hs : simplicial 3 cells.
Hypothesis Hc : conforming cells.
Hypothesis Ht : tri2 cells = Ok t.
Hypothesis Hnode : forall c v, In c cells -> In v c -> (v < length markers)%nat.
Hypothesis Hdeg : forall a b c, In [a; b; c] cells -> ~ collinear (coords a) (coords b) (coords c).
Hypothesis Hbd : forall e v, boundary_edge cells e -> In v e -> nth_error markers v = Some true.
Let nc := length cells.
Let rows := (nc + count_occ Bool.bool_dec (f_mark t) true + count_occ Bool.bool_dec markers true)%nat.

Definition cell_row (i : nat) : list nat := nth i cells [].
Definition cc (i : nat) : pt := let r := cell_row i in circumcenter2 (coords (nth 0 r O)) (coords (nth 1 r O)) (coords (nth 2 r O)).
Definition edge_row (h : nat) : list nat := nth h (f_nodes t) [].
Definition row_ids (i : nat) : list nat := flat_map (fun o : option nat => match o with Some h => [h] | None => [] end) (nth i (c_facets t) []).
Definition bmark (h : nat) : bool := nth h (f_mark t) false.
Definition bedges (i : nat) : list nat := filter bmark (row_ids i).

Lemma row_facts i : (i < nc)%nat -> exists a b c, nth_error cells i = Some [a; b; c] /\ cell_row i = [a; b; c] /\ NoDup [a; b; c] /\
  equidistant (cc i) (coords a) (coords b) (coords c).
Proof.
  intros Hi. destruct (nth_error cells i) as [r|] eqn:E; [|apply nth_error_None in E; unfold nc in Hi; lia].
  assert (Hin : In r cells) by (eapply nth_error_In; eauto). destruct (Hs r Hin) as [Hl Hn].
  destruct r as [|a [|b [|c [|]]]]; try discriminate. exists a, b, c.
  assert (Er : cell_row i = [a; b; c]) by (unfold cell_row; apply nth_error_nth; auto).
  split; [reflexivity|]. split; [exact Er|]. split; [exact Hn|]. unfold cc. rewrite Er. cbn. apply circumcenter2_ok. apply Hdeg. exact Hin.
Qed.
Lemma mark_facts h e : nth_error (f_nodes t) h = Some e -> exists m, nth_error (f_mark t) h = Some m /\ (m = true <-> boundary_edge cells e).
Proof.
  intros H. destruct (tri2_boundary_edges cells Hs Hc) as (s & E & HB). rewrite Ht in E. injection E as <-.
  destruct (HB h e H) as (_ & _ & m & _ & Hm & _ & _ & Hx). exists m. auto.
Qed.
(* the edges of one cell *)
Lemma edge_facts i : (i < nc)%nat -> nth_error (c_facets t) i = Some (map Some (row_ids i)) /\ NoDup (row_ids i) /\
  (forall h, In h (row_ids i) -> exists a b, nth_error (f_nodes t) h = Some [a; b] /\ edge_row h = [a; b] /\ (a < b)%nat /\
     In a (cell_row i) /\ In b (cell_row i) /\ cell_has cells i [a; b] /\
     exists m, nth_error (f_mark t) h = Some m /\ bmark h = m /\ (m = true <-> boundary_edge cells [a; b])) /\
  (forall e, cell_has cells i e -> exists h, In h (row_ids i) /\ nth_error (f_nodes t) h = Some e).
Proof.
  intros Hi. destruct (row_facts i Hi) as (a & b & c & Er & Er' & Hn & _).
  destruct (tri2_edges cells Hs Hc) as (s & E & HN & _ & HE). rewrite Ht in E. injection E as <-.
  destruct (HE i _ Er) as (row & R1 & R2 & R3 & R4 & R5).
  assert (Em : row = map Some (row_ids i)).
  { unfold row_ids. rewrite (nth_error_nth _ _ [] R1). clear R1 R2 R3 R5. induction row as [|o row IH]; [reflexivity|].
    destruct (R4 o) as (h & e & -> & _); [left; auto|]. cbn. f_equal. apply IH. intros; apply R4; right; auto. }
  split; [rewrite R1, Em; reflexivity|]. split; [rewrite Em in R3; apply NoDup_map_inv in R3; exact R3|]. split.
  - intros h Hh. destruct (R4 (Some h)) as (h' & e & Eh & He & Hf). { rewrite Em. apply in_map. exact Hh. } injection Eh as <-.
    pose proof Hf as (F1 & F2 & F3). cbn in F2. destruct e as [|x [|y [|]]]; try discriminate. exists x, y.
    split; [exact He|]. split; [unfold edge_row; apply nth_error_nth; exact He|]. split.
    { inversion F1; subst. inversion H2; subst. auto. }
    rewrite Er'. split; [apply F3; left; auto|]. split; [apply F3; right; left; auto|].
    split; [exists [a; b; c]; auto|]. destruct (mark_facts h _ He) as (m & Hm & Hx). exists m. split; [exact Hm|]. split; [|exact Hx].
    unfold bmark. apply nth_error_nth. exact Hm.
  - intros e (c' & Hc' & Hf). rewrite Er in Hc'. injection Hc' as <-. destruct (R5 e Hf) as (h & Hh & He). exists h. split; [|exact He].
    rewrite Em in Hh. apply in_map_iff in Hh as (h' & Eh & Hh). injection Eh as <-. exact Hh.
Qed.
Definition all_bedges : list nat := flat_map bedges (seq 0 nc).
Lemma bedges_in i h : (i < nc)%nat -> In h (bedges i) -> exists a b, nth_error (f_nodes t) h = Some [a; b] /\ edge_row h = [a; b] /\ (a < b)%nat /\
  In a (cell_row i) /\ In b (cell_row i) /\ cell_has cells i [a; b] /\ boundary_edge cells [a; b].
Proof.
  intros Hi Hh. unfold bedges in Hh. apply filter_In in Hh as [Hh Hb]. destruct (edge_facts i Hi) as (_ & _ & HF & _).
  destruct (HF h Hh) as (a & b & H1 & H2 & H3 & H4 & H5 & H6 & m & _ & H7 & H8). exists a, b. repeat (split; [assumption|]). apply H8. congruence.
Qed.
Lemma all_bedges_nodup : NoDup all_bedges.
Proof.
  unfold all_bedges. apply nodup_flat_map; [apply seq_NoDup| |].
  - intros i Hi. apply in_seq in Hi. unfold bedges. apply NoDup_filter. apply edge_facts. lia.
  - intros i i' h Hi Hi' Hh Hh'. apply in_seq in Hi, Hi'.
    destruct (bedges_in i h ltac:(lia) Hh) as (a & b & H1 & _ & _ & _ & _ & H2 & (j & Hj)).
    destruct (bedges_in i' h ltac:(lia) Hh') as (a' & b' & H1' & _ & _ & _ & _ & H2' & _).
    rewrite H1 in H1'. injection H1' as <- <-. apply Hj in H2, H2'. congruence.
Qed.
Lemma all_bedges_in h : In h all_bedges <-> exists e, nth_error (f_nodes t) h = Some e /\ boundary_edge cells e.
Proof.
  unfold all_bedges. rewrite in_flat_map. split.
  - intros (i & Hi & Hh). apply in_seq in Hi. destruct (bedges_in i h ltac:(lia) Hh) as (a & b & H1 & _ & _ & _ & _ & _ & H2). eauto.
  - intros (e & He & (i & Hi)). pose proof (proj2 (Hi i) eq_refl) as Hci.
    assert (Hin : (i < nc)%nat) by (destruct Hci as (c' & Hc' & _); apply nth_error_Some; congruence).
    exists i. split; [apply in_seq; lia|]. destruct (edge_facts i Hin) as (_ & _ & HF & HG). destruct (HG e Hci) as (h' & Hh' & He').
    destruct (tri2_edges cells Hs Hc) as (s & E & HN & _). rewrite Ht in E. injection E as <-.
    assert (h' = h) by (eapply nodup_nth; eauto). subst h'. unfold bedges. apply filter_In. split; [exact Hh'|].
    destruct (HF h Hh') as (a & b & H1 & _ & _ & _ & _ & _ & m & _ & H7 & H8). rewrite He in H1. injection H1 as ->. rewrite H7. apply H8. exists i. exact Hi.
Qed.
Lemma all_bedges_length : length all_bedges = count_occ Bool.bool_dec (f_mark t) true.
Proof.
  rewrite <- count_filter_seq. apply Permutation_length. apply NoDup_Permutation; [apply all_bedges_nodup|apply NoDup_filter, seq_NoDup|].
  intros h. rewrite all_bedges_in, filter_In, in_seq. split.
  - intros (e & He & Hb). destruct (mark_facts h e He) as (m & Hm & Hx). assert (m = true) by (apply Hx; auto). subst m.
    split; [|apply nth_error_nth; auto]. assert (h < length (f_mark t))%nat by (apply nth_error_Some; congruence). lia.
  - intros [Hh Hm]. destruct (tri2_inv cells Hs Hc) as (s & E & HI). rewrite Ht in E. injection E as <-.
    destruct (final_nodup _ _ _ _ HI) as (_ & _ & HL).
    destruct (nth_error (f_nodes t) h) as [e|] eqn:He; [|apply nth_error_None in He; lia]. exists e. split; [reflexivity|].
    destruct (mark_facts h e He) as (m & Hm' & Hx). apply Hx. rewrite (nth_error_nth _ _ false Hm') in Hm. exact Hm.
Qed.
(* what an item says, apart from the number of its row *)
Definition said (x : item) : pt * bool * list nat := (i_pt x, i_mark x, i_owners x).
Definition cell_said (i : nat) : pt * bool * list nat := (cc i, false, cell_row i).
Definition edge_said (h : nat) : pt * bool * list nat := (edge_midpoint coords (edge_row h), true, edge_row h).

Lemma coords_distinct i a b : (i < nc)%nat -> In a (cell_row i) -> In b (cell_row i) -> a <> b -> coords a <> coords b.
Proof.
  intros Hi Ha Hb Hab E. destruct (row_facts i Hi) as (x & y & z & Er & Er' & _). rewrite Er' in *.
  apply (Hdeg x y z); [eapply nth_error_In; eauto|]. unfold collinear.
  cbn in Ha, Hb. destruct Ha as [<-|[<-|[<-|[]]]], Hb as [<-|[<-|[<-|[]]]]; try congruence; rewrite ?E; try ring; rewrite <- ?E; ring.
Qed.
Lemma edge_loop i : (i < nc)%nat -> forall hs, incl hs (row_ids i) -> forall L w k,
  logged rows L (v2_nodes w) (v2_mark w) -> (forall x, In x L -> i_row x < k)%nat ->
  nth_error (v2_nodes w) i = Some (Some (cc i)) -> (i < k)%nat -> (k + length (filter bmark hs) <= rows)%nat ->
  exists w' L', foldM (v2_edge t coords i) (map Some hs) (w, k) = Ok (w', (k + length (filter bmark hs))%nat) /\
    logged rows (L ++ L') (v2_nodes w') (v2_mark w') /\ (forall v, v2_cells w' v = v2_cells w v ++ ids L' v) /\
    map said L' = map edge_said (filter bmark hs) /\ (forall x, In x L' -> (k <= i_row x < k + length (filter bmark hs))%nat /\ i_mark x = true).
Proof.
  intros Hi. induction hs as [|h hs IH]; intros Hinc L w k HL HK Hcc Hik Hk.
  - exists w, []. cbn. rewrite app_nil_r, Nat.add_0_r. split; [reflexivity|]. split; [exact HL|].
    split; [intros; rewrite app_nil_r; reflexivity|]. split; [reflexivity|]. intros x [].
  - destruct (edge_facts i Hi) as (_ & _ & HF & _). destruct (HF h) as (a & b & H1 & H2 & H3 & H4 & H5 & H6 & m & Hm & Hbm & Hx); [apply Hinc; left; auto|].
    assert (Hinc' : incl hs (row_ids i)) by (intros y Hy; apply Hinc; right; auto).
    cbn [map foldM]. cbn [v2_edge]. rewrite (proj2 (nth_res_ok _ _ _) Hm). cbn [bind].
    cbn [filter] in *. rewrite Hbm in *. destruct m.
    + rewrite (proj2 (nth_res_ok _ _ _) H1). cbn [bind nth_res nth_error].
      unfold v2_vertex. rewrite (proj2 (nth_res_ok _ _ _) Hcc). cbn [bind].
      assert (Emid : project2 (coords a) (coords b) (cc i) = edge_midpoint coords (edge_row h)).
      { rewrite H2. unfold edge_midpoint. cbn [nth]. apply project2_mid; [apply (coords_distinct i); auto; lia|].
        destruct (row_facts i Hi) as (x & y & z & _ & Er' & _ & Q1 & Q2). rewrite Er' in *.
        assert (Q : forall v, In v [x; y; z] -> dist2p (cc i) (coords v) = dist2p (cc i) (coords x)).
        { intros v [<-|[<-|[<-|[]]]]; auto. }
        rewrite (Q a), (Q b); auto. }
      cbn [length] in Hk.
      set (x := Item k (edge_midpoint coords (edge_row h)) true [a; b]).
      destruct (logged_add rows L (v2_nodes w) (v2_mark w) x HL) as (ns' & U1 & U2 & _); [cbn; lia| |].
      { cbn. intros G. apply in_map_iff in G as (y & E & G). specialize (HK y G). lia. }
      destruct (U2 eq_refl) as (mk' & U3 & U4). cbn [x i_row i_pt] in U1, U3. rewrite Emid, U1. cbn [bind]. rewrite U3. cbn [bind].
      destruct (IH Hinc' (L ++ [x]) (Vor2 ns' mk' (push_to (v2_cells w) [a; b] k)) (S k) U4) as (w' & L' & E1 & E2 & E3 & E4 & E5).
      * intros y Hy. apply in_app_iff in Hy as [Hy|[<-|[]]]; [specialize (HK y Hy); lia|cbn; lia].
      * cbn [v2_nodes]. destruct HL as (HL1 & _). rewrite upd_res_some in U1 by lia. injection U1 as <-. rewrite nth_error_upd_other by lia. exact Hcc.
      * lia.
      * lia.
      * exists w', (x :: L'). rewrite E1. split; [do 2 f_equal; cbn [length]; lia|].
        split; [rewrite <- app_assoc in E2; exact E2|]. split.
        { intros v. rewrite E3. cbn [v2_cells]. unfold push_to, ids. cbn [flat_map x i_row i_owners]. rewrite app_assoc. reflexivity. }
        split; [cbn [map]; rewrite E4; unfold said, edge_said; cbn [x i_pt i_mark i_owners]; rewrite H2; reflexivity|].
        intros y [<-|Hy]; [cbn; split; [lia|reflexivity]|]. destruct (E5 y Hy) as [G1 G2]. split; [cbn [length]; lia|exact G2].
    + apply IH; auto.
Qed.
Lemma cell_on_boundary_ok i : (i < nc)%nat -> exists b, cell_on_boundary markers (cell_row i) = Ok b /\ (b = false -> bedges i = []).
Proof.
  intros Hi. destruct (row_facts i Hi) as (x & y & z & Er & Er' & Hn & _). rewrite Er'.
  assert (HM : forall v, In v [x; y; z] -> exists m, nth_error markers v = Some m).
  { intros v Hv. destruct (nth_error markers v) eqn:E; [eauto|]. apply nth_error_None in E.
    assert (v < length markers)%nat by (apply (Hnode [x; y; z]); [eapply nth_error_In; eauto|auto]). lia. }
  destruct (HM x) as (mx & Ex); [left; auto|]. destruct (HM y) as (my & Ey); [right; left; auto|]. destruct (HM z) as (mz & Ez); [right; right; left; auto|].
  unfold cell_on_boundary. cbn [mapM]. rewrite (proj2 (nth_res_ok _ _ _) Ex), (proj2 (nth_res_ok _ _ _) Ey), (proj2 (nth_res_ok _ _ _) Ez). cbn [bind].
  eexists. split; [reflexivity|]. intros Hb. destruct (bedges i) as [|h l] eqn:Eb; [reflexivity|]. exfalso.
  destruct (bedges_in i h Hi) as (a & b & _ & _ & Hab & Ha & Hb' & _ & Hbe); [rewrite Eb; left; auto|]. rewrite Er' in *.
  assert (Ma := Hbd _ a Hbe ltac:(left; auto)). assert (Mb := Hbd _ b Hbe ltac:(right; left; auto)).
  cbn in Ha, Hb'. destruct Ha as [<-|[<-|[<-|[]]]], Hb' as [<-|[<-|[<-|[]]]]; try lia;
    rewrite Ma in *; rewrite Mb in *; repeat match goal with H : Some true = Some _ |- _ => injection H as <- end;
    cbn in Hb; repeat match goal with H : context [Bool.bool_dec ?m true] |- _ => destruct (Bool.bool_dec m true) end; cbn in Hb; discriminate.
Qed.
Lemma seq_snoc n : seq 0 (S n) = seq 0 n ++ [n].
Proof. rewrite seq_S. reflexivity. Qed.
Lemma cells_loop n : (n <= nc)%nat -> exists w L,
  foldM (v2_cell cells t coords markers) (seq 0 n) (Vor2 (repeat None rows) (repeat false rows) (fun _ => []), nc) =
    Ok (w, (nc + length (flat_map bedges (seq 0 n)))%nat) /\
  logged rows L (v2_nodes w) (v2_mark w) /\ (forall v, v2_cells w v = ids L v) /\
  map said L = flat_map (fun i => cell_said i :: map edge_said (bedges i)) (seq 0 n) /\
  (forall i, (i < n)%nat -> nth_error (v2_nodes w) i = Some (Some (cc i))) /\
  (forall x, In x L -> (i_row x < n)%nat /\ i_mark x = false \/ (nc <= i_row x < nc + length (flat_map bedges (seq 0 n)))%nat /\ i_mark x = true).
Proof.
  induction n as [|n IH]; intros Hn.
  - exists (Vor2 (repeat None rows) (repeat false rows) (fun _ => [])), []. cbn. split; [f_equal; f_equal; lia|].
    split; [|split; [reflexivity|split; [reflexivity|split; [intros; lia|intros x []]]]].
    unfold logged. rewrite !repeat_length. split; [reflexivity|]. split; [reflexivity|]. split; [constructor|]. split; [intros x []|]. split; [intros x []|].
    intros i Hi _. split; apply nth_error_repeat; exact Hi.
  - destruct IH as (w & L & E1 & E2 & E3 & E4 & E5 & E6); [lia|].
    set (k := (nc + length (flat_map bedges (seq 0 n)))%nat) in *.
    destruct (row_facts n ltac:(lia)) as (a & b & c & Er & Er' & Hnd & _).
    set (x := Item n (cc n) false (cell_row n)).
    destruct (logged_add rows L (v2_nodes w) (v2_mark w) x E2) as (ns' & U1 & _ & U2); [cbn; unfold rows; lia| |].
    { cbn. intros G. apply in_map_iff in G as (y & Ey & G). destruct (E6 y G) as [[]|[]]; lia. }
    specialize (U2 eq_refl). cbn [x i_row i_pt] in U1.
    assert (Ens : ns' = upd (v2_nodes w) n (Some (cc n))).
    { destruct E2 as (HL1 & _). rewrite upd_res_some in U1 by (unfold rows in HL1; lia). congruence. }
    assert (Hln : length (v2_nodes w) = rows) by (apply E2).
    set (w1 := Vor2 ns' (v2_mark w) (push_to (v2_cells w) (cell_row n) n)).
    assert (Hlen : (k + length (bedges n) <= rows)%nat).
    { unfold k, rows. rewrite <- all_bedges_length. unfold all_bedges. replace nc with (n + 1 + (nc - (n + 1)))%nat at 3 by lia.
      rewrite seq_app, flat_map_app, app_length. replace (n + 1)%nat with (S n) by lia. rewrite seq_snoc, flat_map_app, app_length. cbn [flat_map]. rewrite app_nil_r. lia. }
    assert (Hcc : forall i, (i < S n)%nat -> nth_error ns' i = Some (Some (cc i))).
    { intros i Hi. rewrite Ens. destruct (Nat.eq_dec i n) as [->|]; [apply nth_error_upd_same; unfold rows in Hln; lia|].
      rewrite nth_error_upd_other by lia. apply E5. lia. }
    assert (HK : forall y, In y (L ++ [x]) -> (i_row y < k)%nat).
    { intros y Hy. apply in_app_iff in Hy as [Hy|[<-|[]]]; [destruct (E6 y Hy) as [[]|[]]; unfold k in *; lia|cbn; unfold k; lia]. }
    assert (HW : exists w' L', (bd <- cell_on_boundary markers (cell_row n) ;;
                 (if (bd : bool) then es <- nth_res (c_facets t) n ;; foldM (v2_edge t coords n) es (w1, k) else Ok (w1, k))) = Ok (w', (k + length (bedges n))%nat) /\
        logged rows ((L ++ [x]) ++ L') (v2_nodes w') (v2_mark w') /\ (forall v, v2_cells w' v = v2_cells w1 v ++ ids L' v) /\
        map said L' = map edge_said (bedges n) /\ (forall x, In x L' -> (k <= i_row x < k + length (bedges n))%nat /\ i_mark x = true) /\
        (forall i, (i < S n)%nat -> nth_error (v2_nodes w') i = Some (Some (cc i)))).
    { destruct (cell_on_boundary_ok n ltac:(lia)) as (bd & Eb & Hb). rewrite Eb. cbn [bind]. destruct bd.
      - destruct (edge_facts n ltac:(lia)) as (F1 & _). rewrite (proj2 (nth_res_ok _ _ _) F1). cbn [bind].
        destruct (edge_loop n ltac:(lia) (row_ids n) (incl_refl _) (L ++ [x]) w1 k U2 HK) as (w' & L' & G1 & G2 & G3 & G4 & G5).
        + cbn [w1 v2_nodes]. apply Hcc. lia.
        + unfold k. lia.
        + exact Hlen.
        + exists w', L'. fold (bedges n) in *. split; [exact G1|]. split; [exact G2|]. split; [exact G3|]. split; [exact G4|]. split; [exact G5|].
          intros i Hi. assert (Hin : exists y, In y (L ++ [x]) /\ i_row y = i /\ i_pt y = cc i).
          { destruct U2 as (V1 & V2 & V3 & V4 & V5 & V6). destruct (in_dec Nat.eq_dec i (map i_row (L ++ [x]))) as [D|D].
            - apply in_map_iff in D as (y & Ey & Hy). exists y. split; [exact Hy|]. split; [exact Ey|]. destruct (V5 y Hy) as [V _]. rewrite Ey, Hcc in V by exact Hi. congruence.
            - exfalso. destruct (V6 i) as [V _]; [unfold rows; lia|exact D|]. rewrite Hcc in V by exact Hi. discriminate. }
          destruct Hin as (y & Hy & Ey & Py). destruct G2 as (_ & _ & _ & _ & V5 & _). destruct (V5 y) as [V _]; [apply in_app_iff; auto|]. rewrite <- Ey, V, Py. rewrite Ey. reflexivity.
      - rewrite (Hb eq_refl). cbn [length]. exists w1, []. rewrite Nat.add_0_r, app_nil_r. split; [reflexivity|]. split; [exact U2|].
        split; [intros; cbn; rewrite app_nil_r; reflexivity|]. split; [reflexivity|]. split; [intros y []|]. exact Hcc. }
    destruct HW as (w' & L' & G1 & G2 & G3 & G4 & G5 & G6).
    assert (EL : flat_map bedges (seq 0 (S n)) = flat_map bedges (seq 0 n) ++ bedges n).
    { rewrite seq_snoc, flat_map_app. cbn [flat_map]. rewrite app_nil_r. reflexivity. }
    exists w', ((L ++ [x]) ++ L'). rewrite EL, app_length, Nat.add_assoc. fold k.
    split; [|split; [exact G2|split; [|split; [|split; [exact G6|]]]]].
    + rewrite seq_snoc, foldM_app, E1. cbn [bind foldM]. unfold v2_cell at 1.
      rewrite (proj2 (nth_res_ok _ _ _) Er). cbn [bind nth_res nth_error].
      assert (Ecc : circumcenter2 (coords a) (coords b) (coords c) = cc n) by (unfold cc; rewrite Er'; reflexivity).
      rewrite Ecc, U1. cbn [bind]. rewrite <- Er'. fold w1. rewrite G1. reflexivity.
    + intros v. rewrite G3. cbn [w1 v2_cells]. unfold push_to. rewrite E3, !ids_app. f_equal. f_equal. unfold ids. cbn. rewrite app_nil_r. reflexivity.
    + rewrite !map_app, E4, G4. rewrite (seq_snoc n), flat_map_app. cbn [flat_map map]. rewrite app_nil_r, <- app_assoc. reflexivity.
    + intros y Hy. apply in_app_iff in Hy as [Hy|Hy]; [apply in_app_iff in Hy as [Hy|[<-|[]]]|].
      * destruct (E6 y Hy) as [[]|[]]; [left|right]; split; auto; unfold k in *; lia.
      * left. cbn. split; [lia|reflexivity].
      * destruct (G5 y Hy) as [V1 V2]. right. split; [unfold k in *; lia|exact V2].
Qed.
Variable std_sort : (nat -> nat -> bool) -> list nat -> list nat.
Hypothesis Hsort : sorts std_sort.
Definition site_said (v : nat) : pt * bool * list nat := (coords v, true, [v]).
Definition marked (v : nat) : bool := nth v markers false.
Definition cells_said : list (pt * bool * list nat) := flat_map (fun i => cell_said i :: map edge_said (bedges i)) (seq 0 nc).
Definition in_order (L : list item) (ns : list (option pt)) (l : list nat) (v : nat) : Prop :=
  Permutation l (ids L v) /\ exists c, is_mean (map fst (pts (map said L) v)) c /\ StronglySorted (fun i j => clockwise c (at_ns ns j) (at_ns ns i) = false) l.
Lemma sites_loop done : NoDup done -> (forall v, In v done -> (v < length markers)%nat) -> exists w L,
  (s <- foldM (v2_cell cells t coords markers) (seq 0 nc) (Vor2 (repeat None rows) (repeat false rows) (fun _ => []), nc) ;;
   foldM (v2_site coords markers std_sort) done s) = Ok (w, (nc + length all_bedges + length (filter marked done))%nat) /\
  logged rows L (v2_nodes w) (v2_mark w) /\ map said L = cells_said ++ map site_said (filter marked done) /\
  (forall x, In x L -> i_row x < nc + length all_bedges + length (filter marked done))%nat /\
  (forall i, (i < nc)%nat -> nth_error (v2_nodes w) i = Some (Some (cc i))) /\
  (forall x, In x L -> i_mark x = negb (i_row x <? nc)%nat) /\
  (forall v, ~ In v done -> v2_cells w v = ids L v) /\
  (forall v, In v done -> in_order L (v2_nodes w) (v2_cells w v) v).
Proof.
  induction done as [|key done IH] using rev_ind; intros Hnd Hlt.
  - destruct (cells_loop nc (le_n _)) as (w & L & E1 & E2 & E3 & E4 & E5 & E6). exists w, L. rewrite E1. cbn [bind foldM filter length map]. fold all_bedges in *.
    rewrite Nat.add_0_r, app_nil_r. split; [reflexivity|]. split; [exact E2|]. split; [exact E4|].
    split; [intros x Hx; destruct (E6 x Hx) as [[]|[]]; lia|]. split; [exact E5|]. split.
    { intros x Hx. destruct (E6 x Hx) as [[A B]|[A B]]; rewrite B; symmetry; [apply Nat.ltb_lt in A; rewrite A; reflexivity|].
      destruct (i_row x <? nc)%nat eqn:E; [apply Nat.ltb_lt in E; lia|reflexivity]. }
    split; [intros; apply E3|intros v []].
  - assert (Hnd' : NoDup done /\ ~ In key done).
    { apply NoDup_app_inv in Hnd as (A & _ & B). split; [exact A|]. intros G. apply (B key G). left. auto. }
    destruct Hnd' as [Hnd' Hkey].
    destruct IH as (w & L & E1 & E2 & E3 & E4 & E5 & E6 & E7 & E8); [exact Hnd'|intros; apply Hlt, in_app_iff; auto|].
    set (k := (nc + length all_bedges + length (filter marked done))%nat) in *.
    destruct (nth_error markers key) as [m|] eqn:Em; [|apply nth_error_None in Em; specialize (Hlt key); rewrite in_app_iff in Hlt; cbn in Hlt; lia].
    assert (Emk : marked key = m) by (unfold marked; apply nth_error_nth; exact Em).
    assert (Hcount : (length (filter marked (done ++ [key])) <= count_occ Bool.bool_dec markers true)%nat).
    { rewrite <- count_filter_seq. apply NoDup_incl_length; [apply NoDup_filter; exact Hnd|]. intros v Hv. apply filter_In in Hv as [Hv Mv].
      apply filter_In. split; [apply in_seq; specialize (Hlt v Hv); lia|exact Mv]. }
    rewrite filter_app, app_length in *. cbn [filter] in *. rewrite Emk in *.
    (* the optional row of the site *)
    assert (HS : exists w1 L1 k1, (if (m : bool) then
           ns <- upd_res (v2_nodes w) k (Some (coords key)) ;;
           mk <- upd_res (v2_mark w) k true ;;
           Ok (Vor2 ns mk (push_to (v2_cells w) [key] k), S k)
         else Ok (w, k)) = Ok (w1, k1) /\ k1 = (nc + length all_bedges + (length (filter marked done) + length (if m then [key] else [])))%nat /\
        logged rows L1 (v2_nodes w1) (v2_mark w1) /\ map said L1 = map said L ++ map site_said (if m then [key] else []) /\
        (forall x, In x L1 -> i_row x < k1)%nat /\ (forall i, In i (map i_row L) -> nth_error (v2_nodes w1) i = nth_error (v2_nodes w) i) /\
        (forall i, (i < nc)%nat -> nth_error (v2_nodes w1) i = Some (Some (cc i))) /\
        (forall x, In x L1 -> i_mark x = negb (i_row x <? nc)%nat) /\
        (forall v, v <> key -> v2_cells w1 v = v2_cells w v) /\ v2_cells w1 key = ids L1 key /\ (forall v, v <> key -> ids L1 v = ids L v) /\
        (forall v, v <> key -> pts (map said L1) v = pts (map said L) v)).
    { destruct m; cbn [length] in *.
      - set (x := Item k (coords key) true [key]).
        destruct (logged_add rows L (v2_nodes w) (v2_mark w) x E2) as (ns' & U1 & U2 & _).
        { cbn. unfold k, rows. rewrite all_bedges_length. lia. }
        { cbn. intros G. apply in_map_iff in G as (y & Ey & G). specialize (E4 y G). lia. }
        destruct (U2 eq_refl) as (mk' & U3 & U4). cbn [x i_row i_pt] in U1, U3. rewrite U1. cbn [bind]. rewrite U3. cbn [bind].
        exists (Vor2 ns' mk' (push_to (v2_cells w) [key] k)), (L ++ [x]), (S k). cbn [v2_nodes v2_mark v2_cells].
        assert (Hln : length (v2_nodes w) = rows) by apply E2.
        assert (Ens : ns' = upd (v2_nodes w) k (Some (coords key))).
        { rewrite upd_res_some in U1 by (unfold k, rows in *; rewrite all_bedges_length in *; lia). congruence. }
        split; [reflexivity|]. split; [unfold k; lia|]. split; [exact U4|]. split; [rewrite map_app; reflexivity|].
        split. { intros y Hy. apply in_app_iff in Hy as [Hy|[<-|[]]]; [specialize (E4 y Hy); lia|cbn; lia]. }
        assert (Hold : forall i, In i (map i_row L) -> nth_error ns' i = nth_error (v2_nodes w) i).
        { intros i Hi. rewrite Ens. apply nth_error_upd_other. apply in_map_iff in Hi as (y & <- & Hy). specialize (E4 y Hy). lia. }
        split; [exact Hold|]. split. { intros i Hi. rewrite Ens, nth_error_upd_other by (unfold k; lia). apply E5. exact Hi. }
        split. { intros y Hy. apply in_app_iff in Hy as [Hy|[<-|[]]]; [apply E6; exact Hy|]. cbn [x i_mark i_row]. symmetry. destruct (k <? nc)%nat eqn:E; [apply Nat.ltb_lt in E; unfold k in E; lia|reflexivity]. }
        assert (Hc0 : forall v, v <> key -> count_occ Nat.eq_dec [key] v = 0%nat).
        { intros v Hv. cbn. destruct (Nat.eq_dec key v); [congruence|reflexivity]. }
        split. { intros v Hv. unfold push_to. rewrite (Hc0 v Hv). cbn. apply app_nil_r. }
        split. { unfold push_to. rewrite (E7 key Hkey), ids_app. f_equal. unfold ids. cbn [flat_map]. rewrite app_nil_r. reflexivity. }
        split. { intros v Hv. rewrite ids_app. unfold ids at 2. cbn [flat_map x i_row i_owners]. rewrite (Hc0 v Hv). cbn. apply app_nil_r. }
        intros v Hv. rewrite map_app, pts_app. unfold pts at 2. cbn [flat_map map said x i_row i_owners fst snd]. rewrite (Hc0 v Hv). cbn. apply app_nil_r.
      - exists w, L, k. cbn [map length]. rewrite app_nil_r. split; [reflexivity|]. split; [unfold k; lia|]. repeat (split; [solve [auto]|]). auto. }
    destruct HS as (w1 & L1 & k1 & S1 & Sk & S2 & S3 & S4 & S5 & S6 & S7 & S8 & S9 & S10 & S11).
    set (c := mean_point (map (at_ns (v2_nodes w1)) (ids L1 key))).
    set (l := std_sort (fun i j => clockwise c (at_ns (v2_nodes w1) i) (at_ns (v2_nodes w1) j)) (v2_cells w1 key)).
    assert (HL : Permutation l (ids L1 key) /\ StronglySorted (fun i j => clockwise c (at_ns (v2_nodes w1) j) (at_ns (v2_nodes w1) i) = false) l).
    { destruct (Hsort (fun i j => clockwise c (at_ns (v2_nodes w1) i) (at_ns (v2_nodes w1) j)) (v2_cells w1 key) (clockwise_strict_weak c (at_ns (v2_nodes w1)))) as [P1 P2].
      split; [rewrite S9 in P1 at 2; exact P1|exact P2]. }
    exists (Vor2 (v2_nodes w1) (v2_mark w1) (fun v => if Nat.eqb v key then l else v2_cells w1 v)), L1.
    cbn [v2_nodes v2_mark v2_cells]. rewrite <- Sk.
    split; [|split; [exact S2|split; [|split; [exact S4|split; [exact S6|split; [exact S7|split]]]]]].
    + destruct (foldM (v2_cell cells t coords markers) (seq 0 nc) (Vor2 (repeat None rows) (repeat false rows) (fun _ => []), nc)) as [s0| | |]; try discriminate E1.
      cbn [bind] in *. rewrite foldM_app, E1. cbn [bind foldM]. unfold v2_site at 1. rewrite (proj2 (nth_res_ok _ _ _) Em). cbn [bind].
      rewrite S1. cbn [bind fst snd]. rewrite S9.
      rewrite (mapM_vertex rows L1 w1 S2 (ids L1 key)) by (intros y Hy; eapply ids_rows; eauto). cbn [bind].
      unfold l. rewrite S9. reflexivity.
    + rewrite S3, E3, <- app_assoc, map_app. reflexivity.
    + intros v Hv. rewrite in_app_iff in Hv. cbn in Hv. destruct (Nat.eqb_spec v key) as [->|Hne]; [exfalso; apply Hv; auto|].
      rewrite (S8 v Hne), (S10 v Hne). apply E7. intros G. apply Hv. auto.
    + intros v Hv. apply in_app_iff in Hv. unfold in_order. destruct (Nat.eqb_spec v key) as [->|Hne].
      * split; [apply HL|]. exists c. split; [|apply HL]. rewrite <- (at_ids rows L1 _ _ key S2 : _ = pts (map said L1) key), map_map. apply mean_point_ok.
      * destruct Hv as [Hv|[Hv|[]]]; [|congruence]. destruct (E8 v Hv) as [P (c' & M & Q)]. rewrite (S8 v Hne), (S10 v Hne), (S11 v Hne). split; [exact P|].
        exists c'. split; [exact M|]. eapply sorted_impl; [exact Q|]. intros a b Ha Hb. cbn.
        assert (HA : forall i, In i (v2_cells w v) -> at_ns (v2_nodes w1) i = at_ns (v2_nodes w) i).
        { intros i Hi. unfold at_ns. rewrite S5; [reflexivity|]. eapply ids_rows. eapply Permutation_in; eauto. }
        rewrite (HA a Ha), (HA b Hb). auto.
Qed.
End Build.

(* a triangulation without degenerate triangles, isolated nodes or unmarked boundary *)
Definition good_mesh (cells : list (list nat)) (coords : nat -> pt) (markers : list bool) : Prop :=
  simplicial 3 cells /\ conforming cells /\ (forall v, (v < length markers)%nat <-> exists c, In c cells /\ In v c) /\
  (forall a b c, In [a; b; c] cells -> ~ collinear (coords a) (coords b) (coords c)) /\
  (forall e v, boundary_edge cells e -> In v e -> nth_error markers v = Some true).

(* C128: the vertices of the cell of a node are the circumcentres of the triangles around it, the midpoints of
   the boundary edges it belongs to and, on the boundary, the node itself, listed clockwise about their mean;
   vertex i is the circumcentre of triangle i, the other vertices are marked as boundary vertices *)
Theorem C128_vertices : forall cells t coords markers std_sort order,
  good_mesh cells coords markers -> tri2 cells = Ok t -> sorts std_sort -> Permutation order (seq 0 (length markers)) ->
  exists w centre, v2_ctor cells t coords markers std_sort order = Ok w /\
    (forall i a b c, nth_error cells i = Some [a; b; c] ->
       v2_vertex w i = Ok (centre i) /\ equidistant (centre i) (coords a) (coords b) (coords c)) /\
    (forall i, (i < length (v2_nodes w))%nat -> (exists x, v2_vertex w i = Ok x) /\
       nth_error (v2_mark w) i = Some (length cells <=? i)%nat) /\
    forall v, (v < length markers)%nat -> exists ps ms be c,
      mapM (v2_vertex w) (v2_cells w v) = Ok ps /\ mapM (nth_res (v2_mark w)) (v2_cells w v) = Ok ms /\
      NoDup be /\ (forall e, In e be <-> In v e /\ boundary_edge cells e) /\
      Permutation (combine ps ms)
        (map (fun i => (centre i, false)) (filter (fun i => has v (nth i cells [])) (seq 0 (length cells))) ++
         map (fun e => (edge_midpoint coords e, true)) be ++ (if nth v markers false then [(coords v, true)] else [])) /\
      is_mean ps c /\ StronglySorted (fun p q => clockwise c q p = false) ps.
Proof.
  intros cells t coords markers std_sort order (Hs & Hc & Hnode & Hdeg & Hbd) Ht Hsort Hord.
  assert (Hnode' : forall c v, In c cells -> In v c -> (v < length markers)%nat) by (intros c v H1 H2; apply Hnode; eauto).
  set (nc := length cells). set (AB := all_bedges cells t).
  destruct (sites_loop cells t coords markers Hs Hc Ht Hnode' Hdeg Hbd std_sort Hsort order) as (w & L & E1 & E2 & E3 & E4 & E5 & E6 & E7 & E8).
  { eapply Permutation_NoDup; [symmetry; exact Hord|apply seq_NoDup]. }
  { intros v Hv. eapply Permutation_in in Hv; [|exact Hord]. apply in_seq in Hv. lia. }
  exists w, (cc cells coords). split.
  { unfold v2_ctor. destruct (foldM (v2_cell cells t coords markers) _ _) as [s0| | |]; try discriminate E1. cbn [bind] in *. rewrite E1. reflexivity. }
  split.
  { intros i a b c Hi. assert (Hlt : (i < length cells)%nat) by (apply nth_error_Some; congruence). split.
    - unfold v2_vertex. rewrite (proj2 (nth_res_ok _ _ _) (E5 i Hlt)). reflexivity.
    - destruct (row_facts cells t coords markers Hs Hnode' Hdeg Hbd i Hlt) as (a' & b' & c' & R1 & _ & _ & R2). rewrite Hi in R1. injection R1 as <- <- <-. exact R2. }
  pose proof E2 as (F1 & F2 & F3 & F4 & F5 & F6).
  assert (Hall : forall i, (i < length (v2_nodes w))%nat -> In i (map i_row L)).
  { intros i Hi. apply (NoDup_length_incl F3 (l' := seq 0 (length (v2_nodes w)))).
    - rewrite seq_length, map_length, F1. rewrite <- (map_length said L), E3, app_length, map_length.
      assert (G1 : length (cells_said cells t coords) = (nc + length AB)%nat).
      { assert (G0 : forall l, length (flat_map (fun i => cell_said cells coords i :: map (edge_said t coords) (bedges t i)) l) = (length l + length (flat_map (bedges t) l))%nat).
        { induction l as [|a l IH]; [reflexivity|]. cbn [flat_map length]. rewrite !app_length, IH. cbn [length]. rewrite map_length. lia. }
        unfold cells_said, AB, all_bedges. rewrite G0, seq_length. reflexivity. }
      rewrite G1. unfold AB. rewrite (all_bedges_length cells t coords markers Hs Hc Ht Hnode' Hdeg Hbd).
      assert (G2 : length (filter (marked markers) order) = count_occ Bool.bool_dec markers true).
      { rewrite <- count_filter_seq. apply Permutation_length. apply filter_perm. exact Hord. }
      rewrite G2. unfold nc. lia.
    - intros j Hj. apply in_map_iff in Hj as (x & <- & Hx). apply in_seq. specialize (F4 x Hx). lia.
    - apply in_seq. lia. }
  split.
  { intros i Hi. specialize (Hall i Hi). apply in_map_iff in Hall as (x & <- & Hx). destruct (F5 x Hx) as [K1 K2]. split.
    - exists (i_pt x). unfold v2_vertex. rewrite (proj2 (nth_res_ok _ _ _) K1). reflexivity.
    - rewrite K2, (E6 x Hx). f_equal. rewrite Nat.leb_antisym. reflexivity. }
  intros v Hv.
  assert (Hin : In v order) by (eapply Permutation_in; [symmetry; exact Hord|apply in_seq; lia]).
  destruct (E8 v Hin) as [P (c & M & Q)].
  set (be := map (edge_row t) (filter (fun h => has v (edge_row t h)) AB)).
  exists (map (at_ns (v2_nodes w)) (v2_cells w v)), (map (at_mk (v2_mark w)) (v2_cells w v)), be, c.
  assert (Pps : Permutation (combine (map (at_ns (v2_nodes w)) (v2_cells w v)) (map (at_mk (v2_mark w)) (v2_cells w v))) (pts (map said L) v)).
  { rewrite combine_map, <- (at_ids _ L _ _ v E2 : _ = pts (map said L) v). apply Permutation_map. exact P. }
  assert (Hab : forall h, In h AB -> exists a b, nth_error (f_nodes t) h = Some [a; b] /\ edge_row t h = [a; b] /\ (a < b)%nat /\ boundary_edge cells [a; b]).
  { intros h Hh. unfold AB, all_bedges in Hh. apply in_flat_map in Hh as (i & Hi & Hh). apply in_seq in Hi.
    destruct (bedges_in cells t coords markers Hs Hc Ht Hnode' Hdeg Hbd i h ltac:(lia) Hh) as (a & b & K1 & K2 & K3 & _ & _ & _ & K4). exists a, b. auto. }
  assert (Hrows : incl (v2_cells w v) (map i_row L)) by (intros i Hi; eapply ids_rows; eapply Permutation_in; [exact P|exact Hi]).
  split; [|split; [apply (mapM_mark _ L w E2); exact Hrows|split; [|split; [|split; [|split]]]]].
  - apply (mapM_vertex _ L w E2). exact Hrows.
  - unfold be. destruct (tri2_edges cells Hs Hc) as (s & E & HN & _). rewrite Ht in E. injection E as <-.
    assert (NA : NoDup AB) by (apply (all_bedges_nodup cells t coords markers Hs Hc Ht Hnode' Hdeg Hbd)).
    apply (NoDup_filter (fun h => has v (edge_row t h))) in NA.
    assert (Hsub : forall h, In h (filter (fun h => has v (edge_row t h)) AB) -> nth_error (f_nodes t) h = Some (edge_row t h)).
    { intros h Hh. apply filter_In in Hh as [Hh _]. destruct (Hab h Hh) as (a & b & K1 & K2 & _). congruence. }
    induction (filter (fun h => has v (edge_row t h)) AB) as [|h l IH]; [constructor|]. cbn. inversion NA; subst. constructor; [|apply IH; auto; intros; apply Hsub; right; auto].
    intros G. apply in_map_iff in G as (h' & Eh & Hh'). assert (h' = h).
    { eapply nodup_nth; [exact HN|apply Hsub; right; exact Hh'|]. rewrite Eh. apply Hsub. left. auto. } subst. contradiction.
  - intros e. unfold be. rewrite in_map_iff. split.
    + intros (h & <- & Hh). apply filter_In in Hh as [Hh Hv']. apply has_in in Hv'. split; [exact Hv'|]. destruct (Hab h Hh) as (a & b & _ & K2 & _ & K4). rewrite K2. exact K4.
    + intros [Hve Hbe]. assert (Hex : exists h, nth_error (f_nodes t) h = Some e).
      { destruct (tri2_edges cells Hs Hc) as (s & E & _ & HN & _). rewrite Ht in E. injection E as <-. destruct Hbe as (i & Hi).
        assert (In e (f_nodes t)) by (apply HN; exists i; apply Hi; reflexivity). apply In_nth_error. auto. }
      destruct Hex as (h & Hh). assert (Er : edge_row t h = e) by (unfold edge_row; apply nth_error_nth; auto). exists h. split; [exact Er|].
      apply filter_In. split; [|apply has_in; rewrite Er; exact Hve]. apply (all_bedges_in cells t coords markers Hs Hc Ht Hnode' Hdeg Hbd). eauto.
  - rewrite Pps, E3, pts_app. rewrite app_assoc. apply Permutation_app.
    + unfold cells_said. fold nc. unfold be, AB, all_bedges. fold nc.
      assert (Hfl : forall l, (forall i, In i l -> (i < nc)%nat) ->
        Permutation (pts (flat_map (fun i => cell_said cells coords i :: map (edge_said t coords) (bedges t i)) l) v)
          (map (fun i => (cc cells coords i, false)) (filter (fun i => has v (nth i cells [])) l) ++ map (fun e => (edge_midpoint coords e, true)) (map (edge_row t) (filter (fun h => has v (edge_row t h)) (flat_map (bedges t) l))))).
      { induction l as [|i l IH]; intros Hl; [constructor|]. cbn [flat_map].
        assert (Hi : (i < nc)%nat) by (apply Hl; left; auto).
        change ((cell_said cells coords i :: map (edge_said t coords) (bedges t i)) ++ flat_map (fun i => cell_said cells coords i :: map (edge_said t coords) (bedges t i)) l)
          with ([cell_said cells coords i] ++ (map (edge_said t coords) (bedges t i) ++ flat_map (fun i => cell_said cells coords i :: map (edge_said t coords) (bedges t i)) l)).
        rewrite !pts_app, (IH ltac:(intros; apply Hl; right; auto)).
        assert (G1 : pts [cell_said cells coords i] v = if has v (nth i cells []) then [(cc cells coords i, false)] else []).
        { unfold pts, cell_said. cbn [flat_map fst snd]. rewrite app_nil_r. apply repeat_has. destruct (row_facts cells t coords markers Hs Hnode' Hdeg Hbd i Hi) as (x & y & z & _ & R & N & _). change (NoDup (cell_row cells i)). rewrite R. exact N. }
        assert (G2 : pts (map (edge_said t coords) (bedges t i)) v = map (fun e => (edge_midpoint coords e, true)) (map (edge_row t) (filter (fun h => has v (edge_row t h)) (bedges t i)))).
        { assert (HB : forall h, In h (bedges t i) -> NoDup (edge_row t h)).
          { intros h Hh. destruct (bedges_in cells t coords markers Hs Hc Ht Hnode' Hdeg Hbd i h Hi Hh) as (a & b & _ & K2 & K3 & _). rewrite K2. constructor; [intros [->|[]]; lia|]. constructor; [intros []|constructor]. }
          induction (bedges t i) as [|h hs IH']; [reflexivity|]. cbn [map filter]. unfold pts in *. cbn [flat_map]. rewrite IH' by (intros; apply HB; right; auto).
          unfold edge_said. cbn [fst snd]. rewrite (repeat_has _ (edge_row t h) v) by (apply HB; left; auto). destruct (has v (edge_row t h)); reflexivity. }
        rewrite G1, G2, filter_app, !map_app. cbn [filter]. destruct (has v (nth i cells [])); cbn [map app].
        - constructor. rewrite !app_assoc. apply Permutation_app_tail. apply Permutation_app_comm.
        - rewrite !app_assoc. apply Permutation_app_tail. apply Permutation_app_comm. }
      apply Hfl. intros i Hi. apply in_seq in Hi. lia.
    + assert (NO : NoDup order) by (eapply Permutation_NoDup; [symmetry; exact Hord|apply seq_NoDup]).
      assert (Hst : forall l, NoDup l -> pts (map (site_said coords) (filter (marked markers) l)) v = if has v l then (if nth v markers false then [(coords v, true)] else []) else []).
      { induction 1 as [|u l Hu Hl IH]; [reflexivity|]. cbn [filter].
        assert (G : has v (u :: l) = ((v =? u)%nat || has v l)) by reflexivity. rewrite G. unfold marked at 1.
        destruct (Nat.eqb_spec v u) as [->|Hne].
        - assert (Hnl : has u l = false) by (destruct (has u l) eqn:E; [apply has_in in E; contradiction|reflexivity]). rewrite Hnl in IH.
          cbn [orb]. destruct (nth u markers false); [|exact IH]. cbn [map]. unfold pts in *. cbn [flat_map]. rewrite IH, app_nil_r.
          unfold site_said. cbn [fst snd count_occ]. destruct (Nat.eq_dec u u); [reflexivity|congruence].
        - cbn [orb]. destruct (nth u markers false); [|exact IH]. cbn [map]. unfold pts in *. cbn [flat_map]. rewrite IH.
          unfold site_said. cbn [fst snd count_occ]. destruct (Nat.eq_dec u v); [congruence|reflexivity]. }
      rewrite (Hst order NO). assert (Hh : has v order = true) by (apply has_in; exact Hin). rewrite Hh. reflexivity.
  - apply (Permutation_map fst) in Pps. rewrite combine_map, map_map in Pps. cbn [fst] in Pps. eapply is_mean_perm; [symmetry; exact Pps|exact M].
  - apply sorted_map. exact Q.
Qed.

(* a sorting function *)
Fixpoint ins (lt : nat -> nat -> bool) (x : nat) (l : list nat) : list nat :=
  match l with [] => [x] | y :: l' => if lt y x then y :: ins lt x l' else x :: l end.
Definition isort (lt : nat -> nat -> bool) (l : list nat) : list nat := fold_right (ins lt) [] l.
Lemma ins_perm lt x l : Permutation (ins lt x l) (x :: l).
Proof. induction l as [|y l IH]; cbn; [constructor; constructor|]. destruct (lt y x); [rewrite IH; constructor|reflexivity]. Qed.
Lemma isort_sorts : sorts isort.
Proof.
  intros lt l (H1 & H2 & H3 & H4). unfold isort. induction l as [|x l [IH1 IH2]]; cbn; [split; constructor|].
  split; [rewrite ins_perm; constructor; exact IH1|]. clear IH1.
  assert (T : forall a b c, lt b a = false -> lt c b = false -> lt c a = false).
  { intros a b c A B. destruct (lt c a) eqn:C; [|reflexivity]. destruct (lt a b) eqn:D; [rewrite (H3 c a b C D) in B; discriminate|].
    destruct (lt b c) eqn:E; [rewrite (H3 b c a E C) in A; discriminate|]. destruct (H4 a b c D A E B) as [_ F]. congruence. }
  induction (fold_right (ins lt) [] l) as [|y m IH]; cbn; [constructor; constructor|]. inversion IH2; subst.
  destruct (lt y x) eqn:E.
  - constructor; [apply IH; auto|]. rewrite Forall_forall in *. intros z Hz. apply (Permutation_in z (ins_perm lt x m)) in Hz as [<-|Hz]; [apply H2; exact E|auto].
  - constructor; [exact IH2|]. constructor; [exact E|]. rewrite Forall_forall in *. intros z Hz. apply (T x y z E). auto.
Qed.

(* one triangle, with an obtuse angle *)
Definition obtuse (v : nat) : pt := match v with O => (-4, 0) | S O => (4, 0) | _ => (0, 2) end.
(* a kite made of two triangles *)
Definition kite (v : nat) : pt := match v with O => (-4, 0) | S O => (4, 0) | S (S O) => (0, 8) | _ => (0, -3) end.
Definition kite_cells : list (list nat) := [[0; 1; 2]; [0; 3; 1]]%nat.
Definition one_cell : list (list nat) := [[0; 1; 2]]%nat.
Lemma all_marked_good cells coords n : simplicial 3 cells -> conforming cells -> (forall v, (v < n)%nat <-> exists c, In c cells /\ In v c) ->
  (forall a b c, In [a; b; c] cells -> ~ collinear (coords a) (coords b) (coords c)) -> good_mesh cells coords (repeat true n).
Proof.
  intros H1 H2 H3 H4. split; [exact H1|]. split; [exact H2|]. rewrite repeat_length. split; [exact H3|]. split; [exact H4|].
  intros e v (i & Hi) Hv. apply nth_error_repeat. apply H3. destruct (proj2 (Hi i) eq_refl) as (c & Hc & Hf). exists c. split; [eapply nth_error_In; eauto|]. apply Hf. exact Hv.
Qed.
Lemma kite_good : good_mesh kite_cells kite (repeat true 4).
Proof.
  assert (S : simplicial 3 kite_cells) by simplicial_tac.
  apply all_marked_good; [exact S|apply (conforming_b_ok 3 _ S); vm_compute; reflexivity| |].
  - intros v. split.
    + intros H. do 4 (destruct v as [|v]; [first [exists [0; 1; 2]%nat; split; [cbn; auto; fail|cbn; intuition fail]|exists [0; 3; 1]%nat; split; [cbn; auto; fail|cbn; intuition fail]]|]). lia.
    + intros (c & [<-|[<-|[]]] & Hv); cbn in Hv; lia.
  - intros a b c [E|[E|[]]]; injection E as <- <- <-; unfold collinear, kite; cbn [fst snd]; lra.
Qed.
Lemma one_good : good_mesh one_cell obtuse (repeat true 3).
Proof.
  assert (S : simplicial 3 one_cell) by simplicial_tac.
  apply all_marked_good; [exact S|apply (conforming_b_ok 3 _ S); vm_compute; reflexivity| |].
  - intros v. split.
    + intros H. exists [0; 1; 2]%nat. split; [cbn; auto|]. cbn. lia.
    + intros (c & [<-|[]] & Hv); cbn in Hv; lia.
  - intros a b c [E|[]]; injection E as <- <- <-; unfold collinear, obtuse; cbn [fst snd]; lra.
Qed.
Lemma keys_of_in D cells i e : simplicial D cells -> (cell_has cells i e <-> In (i, e) (keys_of D cells)).
Proof.
  intros Hs. unfold keys_of. rewrite in_flat_map. split.
  - intros H. apply (facet_key cells D Hs) in H as (Hi & j & Hj & ->). exists i. split; [apply in_seq; lia|]. apply in_map_iff. exists j. split; [reflexivity|apply in_seq; lia].
  - intros (i' & Hi' & H). apply in_map_iff in H as (j & E & Hj). injection E as <- <-. apply in_seq in Hi', Hj. apply key_facet; auto; lia.
Qed.
Lemma kite_keys i e : cell_has kite_cells i e <-> In (i, e) [(0, [0; 1]); (0, [0; 2]); (0, [1; 2]); (1, [0; 3]); (1, [0; 1]); (1, [1; 3])]%nat.
Proof. rewrite (keys_of_in 3) by apply kite_good. reflexivity. Qed.
Lemma one_keys i e : cell_has one_cell i e <-> In (i, e) [(0, [0; 1]); (0, [0; 2]); (0, [1; 2])]%nat.
Proof. rewrite (keys_of_in 3) by apply one_good. reflexivity. Qed.
Example C128_example : exists t, tri2 kite_cells = Ok t /\ good_mesh kite_cells kite (repeat true 4) /\ sorts isort /\
  boundary_edge kite_cells [0; 2]%nat /\ ~ boundary_edge kite_cells [0; 1]%nat.
Proof.
  eexists. split; [vm_compute; reflexivity|]. split; [apply kite_good|]. split; [apply isort_sorts|]. split.
  - exists O. intros i. rewrite kite_keys. cbn. split; [intros H; repeat (destruct H as [H|H]; [congruence|]); destruct H|intros ->; auto].
  - intros (i & Hi). assert (A : 0%nat = i) by (apply Hi, kite_keys; cbn; auto). assert (B : 1%nat = i) by (apply Hi, kite_keys; cbn; auto 10). congruence.
Qed.

(* a cell whose node is inside the domain is not on the boundary *)
Theorem C128_interior : forall cells t coords markers std_sort order v w,
  good_mesh cells coords markers -> tri2 cells = Ok t -> sorts std_sort -> Permutation order (seq 0 (length markers)) ->
  v2_ctor cells t coords markers std_sort order = Ok w ->
  nth_error markers v = Some false -> v2_on_boundary w v = Ok false.
Proof.
  intros cells t coords markers std_sort order v w Hg Ht Hsort Hord Hw Hv.
  destruct (C128_vertices cells t coords markers std_sort order Hg Ht Hsort Hord) as (w' & centre & E & _ & _ & HC). rewrite Hw in E. injection E as <-.
  assert (Hlt : (v < length markers)%nat) by (apply nth_error_Some; congruence).
  destruct (HC v Hlt) as (ps & ms & be & c & Ep & Em & _ & Hbe & P & _).
  destruct Hg as (Hs & Hc & Hn & Hd & Hb).
  assert (be = []). { destruct be as [|e be]; [reflexivity|]. destruct (proj1 (Hbe e) (or_introl eq_refl)) as [A B]. rewrite (Hb e v B A) in Hv. discriminate. } subst be.
  rewrite (nth_error_nth _ _ false Hv) in P. cbn [map app] in P. rewrite app_nil_r in P.
  assert (Hms : forall m, In m ms -> m = false).
  { assert (Hl : length ps = length ms).
    { apply mapM_ok in Ep, Em. apply Forall2_length in Ep, Em. congruence. }
    intros m Hm. apply In_nth_error in Hm as (j & Hj). destruct (nth_error ps j) as [q|] eqn:Hq; [|apply nth_error_None in Hq; assert (j < length ms)%nat by (apply nth_error_Some; congruence); lia].
    assert (G : In (q, m) (combine ps ms)).
    { clear - Hj Hq. revert ps ms Hj Hq. induction j as [|j IH]; intros [|a ps] [|b ms] Hj Hq; try discriminate; cbn in *; [left; congruence|right; eauto]. }
    eapply Permutation_in in G; [|exact P]. apply in_map_iff in G as (i & Ei & _). congruence. }
  unfold v2_on_boundary. destruct (v2_cells w v) as [|i l] eqn:El.
  - exfalso. injection Ep as <-. injection Em as <-. apply Permutation_nil in P. apply Hn in Hlt as (cl & Hcl & Hvc). apply In_nth_error in Hcl as (i & Hi).
    assert (G : In i (filter (fun i => has v (nth i cells [])) (seq 0 (length cells)))).
    { apply filter_In. split; [apply in_seq; assert (i < length cells)%nat by (apply nth_error_Some; congruence); lia|]. apply has_in. rewrite (nth_error_nth _ _ [] Hi). exact Hvc. }
    apply (in_map (fun i => (centre i, false))) in G. rewrite P in G. destruct G.
  - rewrite Em. cbn [bind]. f_equal. destruct (existsb _ _) eqn:X; [|reflexivity]. apply existsb_exists in X as (j & _ & X). apply andb_true_iff in X as [X _].
    destruct (nth_in_or_default j ms false) as [G|G]; [apply Hms in G; congruence|congruence].
Qed.

(* ---- measure ---- *)
Definition cross2 (c p q : pt) : R := (fst p - fst c) * (snd q - snd c) - (snd p - snd c) * (fst q - fst c).
Definition triangle_area (a b c : pt) : R := 1 / 2 * Rabs (cross2 a b c).
Definition next_of (ps : list pt) (j : nat) : pt := nth ((j + 1) mod length ps) ps (0, 0).

Lemma rsum_shift n (g : nat -> R) : rsum n (fun j => g ((j + 1) mod n)) = rsum n g.
Proof.
  destruct n as [|n]; [reflexivity|]. rewrite (rsum_head n g). cbn [rsum]. replace (n + 1)%nat with (S n) by lia. rewrite Nat.mod_same by lia.
  rewrite Rplus_comm. f_equal. apply rsum_ext. intros i Hi. rewrite Nat.mod_small by lia. f_equal. lia.
Qed.
(* C130: for a polygon that goes clockwise around c, measure() is the sum of the areas of the triangles that
   join its edges to c *)
Theorem C130_measure_partial : forall w v ps c,
  v2_cells w v <> [] -> mapM (v2_vertex w) (v2_cells w v) = Ok ps ->
  (forall j, (j < length ps)%nat -> cross2 c (nth j ps (0, 0)) (next_of ps j) <= 0) ->
  v2_measure w v = Ok (rsum (length ps) (fun j => triangle_area c (nth j ps (0, 0)) (next_of ps j))).
Proof.
  intros w v ps c Hne Hps Hcw. unfold v2_measure. destruct (v2_cells w v) as [|i l]; [congruence|]. rewrite Hps. cbn [bind]. f_equal.
  set (n := length ps) in *.
  assert (E : shoelace ps = rsum n (fun j => cross2 c (nth j ps (0, 0)) (next_of ps j))).
  { unfold shoelace, cross2, next_of. fold n. set (x := fun j => nth j ps (0, 0)).
    set (g := fun j => snd c * fst (x j) - fst c * snd (x j)).
    set (f := fun j => fst (x j) * snd (x ((j + 1) mod n)) - snd (x j) * fst (x ((j + 1) mod n))).
    transitivity (rsum n (fun j => f j + (g ((j + 1) mod n) - g j))).
    - rewrite (rsum_plus n f), (rsum_minus n (fun j => g ((j + 1) mod n)) g), rsum_shift. unfold f, x. lra.
    - apply rsum_ext. intros j _. unfold f, g, x. ring. }
  rewrite E. unfold triangle_area.
  assert (F : rsum n (fun j => cross2 c (nth j ps (0, 0)) (next_of ps j)) <= 0).
  { clear - Hcw. clearbody n. induction n as [|n IH]; cbn [rsum]; [lra|]. specialize (Hcw n ltac:(lia)) as Hn. assert (A : rsum n (fun j => cross2 c (nth j ps (0, 0)) (next_of ps j)) <= 0) by (apply IH; intros; apply Hcw; lia). lra. }
  rewrite Rabs_left1 by exact F. rewrite rsum_scal. f_equal. rewrite <- (Rmult_1_l (rsum n _)) at 1.
  transitivity (rsum n (fun j => (-1) * cross2 c (nth j ps (0, 0)) (next_of ps j))); [rewrite rsum_scal; ring|].
  apply rsum_ext. intros j Hj. rewrite Rabs_left1 by (apply Hcw; exact Hj). ring.
Qed.

(* four triangles around an inner node *)
Definition wheel_cells : list (list nat) := [[0; 1; 4]; [1; 2; 4]; [2; 3; 4]; [4; 3; 0]]%nat.
Definition wheel (v : nat) : pt := match v with O => (-1, -1) | S O => (1, -1) | S (S O) => (1, 1) | S (S (S O)) => (-1, 1) | _ => (0, 1/4) end.
Example C128_interior_example : good_mesh wheel_cells wheel [true; true; true; true; false] /\ exists t, tri2 wheel_cells = Ok t.
Proof.
  assert (S : simplicial 3 wheel_cells) by simplicial_tac.
  split; [|eexists; vm_compute; reflexivity]. split; [exact S|]. split; [apply (conforming_b_ok 3 _ S); vm_compute; reflexivity|]. split; [|split].
  - intros v. split.
    + cbn [length]. intros H. do 5 (destruct v as [|v]; [first [exists [0; 1; 4]%nat; split; [cbn; auto; fail|cbn; intuition fail]|exists [2; 3; 4]%nat; split; [cbn; auto; fail|cbn; intuition fail]]|]). lia.
    + cbn [length]. intros (c & Hc & Hv). cbn in Hc. repeat (destruct Hc as [<-|Hc]; [cbn in Hv; lia|]). destruct Hc.
  - intros a b c Hc. cbn in Hc. repeat (destruct Hc as [E|Hc]; [injection E as <- <- <-; unfold collinear, wheel; cbn [fst snd]; lra|]). destruct Hc.
  - intros e v (i & Hi) Hv. assert (K : forall i e, cell_has wheel_cells i e <-> In (i, e) (keys_of 3 wheel_cells)) by (intros; apply keys_of_in; exact S).
    assert (H := proj1 (K i e) (proj2 (Hi i) eq_refl)). vm_compute in H.
    assert (N : forall j, In (j, e) (keys_of 3 wheel_cells) -> j = i) by (intros j Hj; apply Hi, K; exact Hj).
    repeat (destruct H as [H|H]; [injection H as <- <-; cbn in Hv;
      first [ destruct Hv as [<-|[<-|[]]]; reflexivity
            | exfalso; pose proof (N 0%nat) as N0; pose proof (N 1%nat) as N1; pose proof (N 2%nat) as N2; pose proof (N 3%nat) as N3; vm_compute in N0, N1, N2, N3;
              first [discriminate (N0 ltac:(auto 20))|discriminate (N1 ltac:(auto 20))|discriminate (N2 ltac:(auto 20))|discriminate (N3 ltac:(auto 20))] ]|]). destruct H.
Qed.

(* every circumcircle is empty *)
Definition delaunay (cells : list (list nat)) (coords : nat -> pt) (n : nat) : Prop :=
  forall a b c, In [a; b; c] cells -> exists o, equidistant o (coords a) (coords b) (coords c) /\
    forall v, (v < n)%nat -> dist2p o (coords a) <= dist2p o (coords v).

(* lists of points sorted clockwise about the same point are equal when they have the same elements *)
Lemma cw_unique c : forall l l', Permutation l l' -> StronglySorted (fun p q => clockwise c q p = false) l ->
  StronglySorted (fun p q => clockwise c q p = false) l' -> l = l'.
Proof.
  destruct (C51_strict_weak_ordering c) as (_ & _ & _ & _ & H5).
  induction l as [|x l IH]; intros l' P S1 S2; [apply Permutation_nil in P; congruence|].
  destruct l' as [|y l']; [apply Permutation_sym, Permutation_nil in P; congruence|].
  assert (x = y).
  { inversion S1; subst. inversion S2; subst. rewrite Forall_forall in *.
    destruct (Permutation_in x P (or_introl eq_refl)) as [E|Hx]; [congruence|].
    destruct (Permutation_in y (Permutation_sym P) (or_introl eq_refl)) as [E|Hy]; [congruence|]. apply H5; auto. }
  subst y. f_equal. apply IH; [eapply Permutation_cons_inv; exact P|inversion S1; auto|inversion S2; auto].
Qed.
Ltac cw_tac := unfold clockwise, leb_, ltb, eqb_; cbn [fst snd];
  repeat (match goal with |- context [Rle_dec ?u ?v] => destruct (Rle_dec u v); try lra
  | |- context [Rlt_dec ?u ?v] => destruct (Rlt_dec u v); try lra | |- context [Req_EM_T ?u ?v] => destruct (Req_EM_T u v); try lra end; cbn [andb orb]); auto; try lra.
Lemma one_boundary e : boundary_edge one_cell e <-> In e [[0; 1]; [0; 2]; [1; 2]]%nat.
Proof.
  split.
  - intros (i & Hi). assert (H := proj1 (one_keys i e) (proj2 (Hi i) eq_refl)). cbn in H. cbn. repeat (destruct H as [H|H]; [injection H as <- <-; auto|]). destruct H.
  - intros H. exists O. intros i. rewrite one_keys. cbn in H. cbn. repeat (destruct H as [<-|H]; [split; [intros G; repeat (destruct G as [G|G]; [congruence|]); destruct G|intros ->; auto]|]). destruct H.
Qed.
Lemma combine_fst {A B} (l : list A) (l' : list B) : length l = length l' -> map fst (combine l l') = l.
Proof. revert l'. induction l as [|x l IH]; intros [|y l'] H; try discriminate; cbn; [reflexivity|]. rewrite IH by (cbn in H; lia). reflexivity. Qed.

(* C130 fails even for a Delaunay mesh: with an obtuse triangle the circumcentre lies outside the domain, and the
   measures of the three cells add up to 26 although the triangle has area 8 *)
Theorem C130_area_refuted : exists t, tri2 one_cell = Ok t /\ good_mesh one_cell obtuse (repeat true 3) /\ delaunay one_cell obtuse 3 /\
  triangle_area (obtuse 0) (obtuse 1) (obtuse 2) = 8 /\
  forall std_sort order, sorts std_sort -> Permutation order (seq 0 3) ->
    exists w m0 m1 m2, v2_ctor one_cell t obtuse (repeat true 3) std_sort order = Ok w /\
      v2_measure w 0 = Ok m0 /\ v2_measure w 1 = Ok m1 /\ v2_measure w 2 = Ok m2 /\ m0 + m1 + m2 = 26.
Proof.
  destruct (tri2 one_cell) as [t| | |] eqn:Et; try (vm_compute in Et; discriminate Et). exists t. split; [reflexivity|]. split; [apply one_good|].
  assert (Hcc : equidistant (0, -3) (obtuse 0) (obtuse 1) (obtuse 2)) by (unfold equidistant, dist2p, obtuse; cbn [fst snd]; split; lra).
  split. { intros a b c [E|[]]. injection E as <- <- <-. exists (0, -3). split; [exact Hcc|]. intros v Hv.
    do 3 (destruct v as [|v]; [unfold dist2p, obtuse; cbn [fst snd]; lra|]). lia. }
  split. { unfold triangle_area, cross2, obtuse. cbn [fst snd]. rewrite Rabs_right; lra. }
  intros std_sort order Hsort Hord.
  destruct (C128_vertices one_cell t obtuse (repeat true 3) std_sort order one_good Et Hsort ltac:(rewrite repeat_length; exact Hord)) as (w & centre & Ew & H1 & _ & HC).
  rewrite repeat_length in HC.
  assert (E0 : centre O = (0, -3)).
  { destruct (H1 O 0%nat 1%nat 2%nat eq_refl) as [_ Q]. eapply equidistant_unique; [|exact Q|exact Hcc]. unfold collinear, obtuse. cbn [fst snd]. lra. }
  assert (HP : forall v be0 l c0, (v < 3)%nat -> NoDup be0 -> (forall e, In e be0 <-> In v e /\ In e [[0; 1]; [0; 2]; [1; 2]]%nat) ->
    Permutation l ((0, -3) :: map (edge_midpoint obtuse) be0 ++ [obtuse v]) -> (forall c, is_mean l c -> c = c0) ->
    StronglySorted (fun p q => clockwise c0 q p = false) l -> v2_measure w v = Ok (1 / 2 * Rabs (shoelace l))).
  { intros v be0 l c0 Hv Hnd Hbe0 Pl Hc0 Hsl. destruct (HC v Hv) as (ps & ms & be & c & Ep & Em & Nb & Hbe & P & M & Q).
    assert (Pb : Permutation be be0).
    { apply NoDup_Permutation; auto. intros e. rewrite Hbe, Hbe0, one_boundary. reflexivity. }
    assert (Hl : length ps = length ms). { apply mapM_ok in Ep, Em. apply Forall2_length in Ep, Em. congruence. }
    apply (Permutation_map fst) in P. rewrite combine_fst in P by exact Hl.
    assert (Hm : nth v (repeat true 3) false = true) by (do 3 (destruct v as [|v]; [reflexivity|]); lia). rewrite Hm in P.
    assert (Hf : filter (fun i => has v (nth i one_cell [])) (seq 0 (length one_cell)) = [0%nat]) by (do 3 (destruct v as [|v]; [reflexivity|]); lia). rewrite Hf in P.
    cbn [map app] in P. rewrite !map_app, map_map in P. cbn [map fst] in P. rewrite E0 in P.
    assert (Pl' : Permutation ps l).
    { rewrite P, Pl. constructor. apply Permutation_app_tail. apply Permutation_map. exact Pb. }
    assert (c = c0) by (apply Hc0; eapply is_mean_perm; eauto). subst c0.
    assert (ps = l) by (eapply cw_unique; eauto). subst l.
    unfold v2_measure. destruct (v2_cells w v) as [|i il] eqn:El; [|rewrite Ep; reflexivity].
    injection Ep as <-. apply Permutation_nil in P. discriminate. }
  exists w, 8, 8, 10. split; [exact Ew|].
  assert (HM : forall a b c d (e : pt), is_mean [a; b; c; d] e -> e = ((fst a + fst b + fst c + fst d) / 4, (snd a + snd b + snd c + snd d) / 4)).
  { intros a b c d [ex ey] [A B]. cbn [length INR fold_right fst snd] in A, B. f_equal; lra. }
  split; [|split; [|split; [|lra]]].
  - rewrite (HP 0%nat [[0; 1]; [0; 2]]%nat [(0, 0); (0, -3); (-4, 0); (-2, 1)] (-3 / 2, -1 / 2)).
    + f_equal. unfold shoelace. cbn [length rsum nth Nat.add Nat.modulo Nat.divmod fst snd Nat.sub]. rewrite Rabs_left; lra.
    + lia.
    + repeat constructor; cbn; intuition discriminate.
    + intros e. cbn. split; [intros [<-|[<-|[]]]; cbn; auto|intros [A [<-|[<-|[<-|[]]]]]; auto; cbn in A; lia].
    + cbn. unfold edge_midpoint, midpoint. cbn [nth obtuse fst snd].
      replace ((-4 + 4) / 2) with 0 by lra. replace ((0 + 0) / 2) with 0 by lra. replace ((-4 + 0) / 2) with (-2) by lra. replace ((0 + 2) / 2) with 1 by lra.
      rewrite perm_swap. constructor. constructor. constructor.
    + intros c Hc. apply HM in Hc. rewrite Hc. cbn [fst snd]. f_equal; lra.
    + repeat constructor; cw_tac.
  - rewrite (HP 1%nat [[0; 1]; [1; 2]]%nat [(2, 1); (4, 0); (0, -3); (0, 0)] (3 / 2, -1 / 2)).
    + f_equal. unfold shoelace. cbn [length rsum nth Nat.add Nat.modulo Nat.divmod fst snd Nat.sub]. rewrite Rabs_left; lra.
    + lia.
    + repeat constructor; cbn; intuition discriminate.
    + intros e. cbn. split; [intros [<-|[<-|[]]]; cbn; auto|intros [A [<-|[<-|[<-|[]]]]]; auto; cbn in A; lia].
    + cbn. unfold edge_midpoint, midpoint. cbn [nth obtuse fst snd].
      replace ((-4 + 4) / 2) with 0 by lra. replace ((0 + 0) / 2) with 0 by lra. replace ((4 + 0) / 2) with 2 by lra. replace ((0 + 2) / 2) with 1 by lra.
      change [(2, 1); (4, 0); (0, -3); (0, 0)] with ([(2, 1); (4, 0)] ++ [(0, -3); (0, 0)]). rewrite Permutation_app_comm. reflexivity.
    + intros c Hc. apply HM in Hc. rewrite Hc. cbn [fst snd]. f_equal; lra.
    + repeat constructor; cw_tac.
  - rewrite (HP 2%nat [[0; 2]; [1; 2]]%nat [(0, 2); (2, 1); (0, -3); (-2, 1)] (0, 1 / 4)).
    + f_equal. unfold shoelace. cbn [length rsum nth Nat.add Nat.modulo Nat.divmod fst snd Nat.sub]. rewrite Rabs_left; lra.
    + lia.
    + repeat constructor; cbn; intuition discriminate.
    + intros e. cbn. split; [intros [<-|[<-|[]]]; cbn; auto|intros [A [<-|[<-|[<-|[]]]]]; auto; cbn in A; lia].
    + cbn. unfold edge_midpoint, midpoint. cbn [nth obtuse fst snd].
      replace ((-4 + 0) / 2) with (-2) by lra. replace ((4 + 0) / 2) with 2 by lra. replace ((0 + 2) / 2) with 1 by lra.
      change [(0, 2); (2, 1); (0, -3); (-2, 1)] with ([(0, 2); (2, 1)] ++ [(0, -3); (-2, 1)]). rewrite Permutation_app_comm. cbn. do 2 constructor. apply perm_swap.
    + intros c Hc. apply HM in Hc. rewrite Hc. cbn [fst snd]. f_equal; lra.
    + repeat constructor; cw_tac.
Qed.

(* ---- locate ---- *)
Definition inside (a b c p : pt) : Prop := exists u v w, 0 <= u /\ 0 <= v /\ 0 <= w /\ u + v + w = 1 /\
  fst p = u * fst a + v * fst b + w * fst c /\ snd p = u * snd a + v * snd b + w * snd c.
Lemma argmin_ok coords p : forall l best, In (argmin coords p best l) (best :: l) /\
  forall v, In v (best :: l) -> dist2p (coords (argmin coords p best l)) p <= dist2p (coords v) p.
Proof.
  induction l as [|x l IH]; intros best; cbn [argmin].
  - split; [left; auto|]. intros v [<-|[]]. lra.
  - destruct (ltb (dist2p (coords x) p) (dist2p (coords best) p)) eqn:E.
    + apply ltb_true in E. destruct (IH x) as [A B]. split; [right; exact A|]. intros v [<-|Hv]; [|apply B; exact Hv]. specialize (B x (or_introl eq_refl)). lra.
    + apply ltb_false in E. destruct (IH best) as [A B]. split; [destruct A as [A|A]; [left; auto|right; right; auto]|].
      intros v [<-|[<-|Hv]]; [apply B; left; auto| |apply B; right; auto]. specialize (B best (or_introl eq_refl)). lra.
Qed.
(* C129: locate returns a vertex of the triangle that contains the point, no farther from it than the other two
   vertices; -1 when no triangle contains the point *)
Theorem C129_locate_partial : forall cells coords dual p, simplicial 3 cells ->
  (forall d, dual p = Ok d -> d = (-1)%Z \/ (exists i a b c, d = Z.of_nat i /\ nth_error cells i = Some [a; b; c] /\ inside (coords a) (coords b) (coords c) p)) ->
  forall d, dual p = Ok d ->
  d = (-1)%Z /\ v2_locate cells coords dual p = Ok (-1)%Z \/
  exists i a b c v, d = Z.of_nat i /\ nth_error cells i = Some [a; b; c] /\ inside (coords a) (coords b) (coords c) p /\
    v2_locate cells coords dual p = Ok (Z.of_nat v) /\ In v [a; b; c] /\
    forall u, In u [a; b; c] -> dist2p (coords v) p <= dist2p (coords u) p.
Proof.
  intros cells coords dual p Hs Hd d E. destruct (Hd d E) as [->|(i & a & b & c & -> & Hi & Hin)].
  - left. split; [reflexivity|]. unfold v2_locate. rewrite E. reflexivity.
  - right. destruct (argmin_ok coords p [b; c] a) as [A B]. exists i, a, b, c, (argmin coords p a [b; c]).
    repeat (split; [first [reflexivity|assumption]|]). split; [|split; [exact A|exact B]].
    unfold v2_locate. rewrite E. cbn [bind]. destruct (Z.eqb_spec (Z.of_nat i) (-1)); [lia|]. rewrite Nat2Z.id, (proj2 (nth_res_ok _ _ _) Hi). reflexivity.
Qed.
(* contains: a located point is in exactly one cell, an unlocated one in none *)
Theorem C129_contains_partial : forall cells coords dual p, simplicial 3 cells ->
  (forall d, dual p = Ok d -> d = (-1)%Z \/ (exists i a b c, d = Z.of_nat i /\ nth_error cells i = Some [a; b; c] /\ inside (coords a) (coords b) (coords c) p)) ->
  forall d, dual p = Ok d ->
  (d = (-1)%Z -> forall j, v2_contains cells coords dual j p = Ok false) /\
  (d <> (-1)%Z -> exists i a b c v, d = Z.of_nat i /\ nth_error cells i = Some [a; b; c] /\ In v [a; b; c] /\
     (forall u, In u [a; b; c] -> dist2p (coords v) p <= dist2p (coords u) p) /\
     forall j, v2_contains cells coords dual j p = Ok (j =? v)%nat).
Proof.
  intros cells coords dual p Hs Hd d E. destruct (C129_locate_partial cells coords dual p Hs Hd d E) as [[-> L]|(i & a & b & c & v & -> & Hi & _ & L & Hv & Hm)].
  - split; [|now intros []]. intros _ j. unfold v2_contains. rewrite L. cbn [bind]. f_equal. apply Z.eqb_neq. lia.
  - split; [lia|]. intros _. exists i, a, b, c, v. repeat (split; [first [reflexivity|assumption]|]). intros j. unfold v2_contains. rewrite L. cbn [bind]. f_equal.
    destruct (Nat.eqb_spec j v) as [->|N]; [apply Z.eqb_refl|apply Z.eqb_neq; lia].
Qed.
(* C129 fails for Delaunay meshes: the point lies in the first triangle only, whose vertices are all farther from
   it than the fourth site *)
Theorem C129_locate_refuted : good_mesh kite_cells kite (repeat true 4) /\ delaunay kite_cells kite 4 /\
  inside (kite 0) (kite 1) (kite 2) (0, 1 / 10) /\ ~ inside (kite 0) (kite 3) (kite 1) (0, 1 / 10) /\
  forall dual, dual (0, 1 / 10) = Ok 0%Z -> exists v, v2_locate kite_cells kite dual (0, 1 / 10) = Ok (Z.of_nat v) /\
    dist2p (kite 3) (0, 1 / 10) < dist2p (kite v) (0, 1 / 10).
Proof.
  split; [apply kite_good|]. split.
  { intros a b c [E|[E|[]]]; injection E as <- <- <-.
    - exists (0, 3). unfold equidistant, dist2p, kite. cbn [fst snd]. split; [split; lra|]. intros v Hv. do 4 (destruct v as [|v]; [cbn [fst snd]; lra|]). lia.
    - exists (0, 7 / 6). unfold equidistant, dist2p, kite. cbn [fst snd]. split; [split; lra|]. intros v Hv. do 4 (destruct v as [|v]; [cbn [fst snd]; lra|]). lia. }
  split. { exists (79 / 160), (79 / 160), (1 / 80). unfold kite. cbn [fst snd]. repeat split; lra. }
  split. { intros (u & v & w & A & B & C & D & E & F). unfold kite in *. cbn [fst snd] in *. lra. }
  intros dual E. destruct (argmin_ok kite (0, 1 / 10) [1; 2]%nat 0%nat) as [A _]. exists (argmin kite (0, 1 / 10) 0 [1; 2]%nat). split.
  - unfold v2_locate. rewrite E. reflexivity.
  - destruct A as [<-|[<-|[<-|[]]]]; unfold dist2p, kite; cbn [fst snd]; lra.
Qed.
Print Assumptions C128_vertices.
Print Assumptions C128_interior.
Print Assumptions C130_measure_partial.
Print Assumptions C130_area_refuted.
Print Assumptions C129_locate_partial.
Print Assumptions C129_locate_refuted.
Example C130_measure_example : let w := Vor2 (map Some [(0, 2); (2, 1); (0, -3); (-2, 1)]) [] (fun _ => [0; 1; 2; 3]%nat) in
  exists ps, mapM (v2_vertex w) (v2_cells w 0) = Ok ps /\ forall j, (j < length ps)%nat -> cross2 (0, 1 / 4) (nth j ps (0, 0)) (next_of ps j) <= 0.
Proof.
  cbn. eexists. split; [reflexivity|]. intros j Hj. cbn in Hj. unfold cross2, next_of.
  do 4 (destruct j as [|j]; [cbn [nth length Nat.add Nat.modulo Nat.divmod fst snd Nat.sub]; lra|]). lia.
Qed.
