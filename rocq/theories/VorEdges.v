(* The edges of a planar Voronoi diagram: VoronoiCell::edges, VoronoiCell::edge and Voronoi::edges of voronoi.h:88-111 and 133-151, on the
   diagrams of VorPlaneModel. *)
From Verif Require Import VorPlaneModel.
From Coq Require Import Permutation.
Open Scope nat_scope.

(* [(j + k) % n_edges_] of the vertex ids of a cell, for k = 0, 1: voronoi.h:92 and 139 *)
Definition wrapped (l : list nat) (j k : nat) : Res nat := nth_res l ((j + k) mod length l).
(* VoronoiCell::edges, voronoi.h:88-95; cells_.at throws for an id without a cell (87) *)
Definition v2_cell_edges (w : vor2) (id : nat) : Res (list (nat * nat)) :=
  match v2_cells w id with
  | [] => Throw
  | l => mapM (fun j => a <- wrapped l j 0 ;; b <- wrapped l j 1 ;; Ok (a, b)) (seq 0 (length l))
  end.
(* VoronoiCell::edge, voronoi.h:106-111: the assertion stops indexes past the end only; in C++ a negative i gives a negative remainder, which the
   vector does not check, unless it is a multiple of the size *)
Definition v2_cell_edge (w : vor2) (id : nat) (i : Z) : Res (pt * pt) :=
  match v2_cells w id with
  | [] => Throw
  | l =>
      _ <- assert_ (i <? Z.of_nat (length l))%Z ;;
      let at_ := fun k => let r := Z.rem (i + k) (Z.of_nat (length l)) in if (r <? 0)%Z then UB else (u <- nth_res l (Z.to_nat r) ;; v2_vertex w u) in
      a <- at_ 0%Z ;; b <- at_ 1%Z ;; Ok (a, b)
  end.

Section Edges.
(* the order in which the unordered_set visited is traversed (146), as a rearrangement of the pairs in order of insertion *)
Variable set_order : list (nat * nat) -> list (nat * nat).

(* voronoi.h:139-141: std::sort of the two ids, then insertion unless already there *)
Definition sorted_pair (e : nat * nat) : nat * nat := if snd e <? fst e then (snd e, fst e) else e.
Definition pair_eqb (e e' : nat * nat) : bool := (fst e =? fst e') && (snd e =? snd e').
Definition visit (vs : list (nat * nat)) (e : nat * nat) : list (nat * nat) :=
  let e' := sorted_pair e in if existsb (pair_eqb e') vs then vs else vs ++ [e'].
(* voronoi.h:136-143: one entry of cells_ *)
Definition visit_cell (w : vor2) (vs : list (nat * nat)) (key : nat) : Res (list (nat * nat)) :=
  let l := v2_cells w key in
  foldM (fun vs j => a <- wrapped l j 0 ;; b <- wrapped l j 1 ;; Ok (visit vs (a, b))) (seq 0 (length l)) vs.
(* Voronoi::edges, voronoi.h:133-151; order: the order in which cells_ is traversed *)
Definition v2_edges (w : vor2) (order : list nat) : Res (list (nat * nat)) :=
  vs <- foldM (visit_cell w) order [] ;; Ok (set_order vs).
End Edges.

(* --- specification --- *)

(* a follows b in the cyclic list l *)
Definition follows (l : list nat) (a b : nat) : Prop :=
  exists j, nth_error l j = Some a /\ nth_error l (if S j =? length l then 0 else S j) = Some b.
(* a and b are the ends of an edge of some cell *)
Definition joined (w : vor2) (a b : nat) : Prop := exists id, follows (v2_cells w id) a b \/ follows (v2_cells w id) b a.
Definition same_edge (e e' : nat * nat) : Prop := e = e' \/ e = (snd e', fst e').

(* --- proofs --- *)

Lemma wrapped_next (l : list nat) j : j < length l -> (j + 1) mod length l = if S j =? length l then 0 else S j.
Proof.
  intros H. replace (j + 1) with (S j) by lia. destruct (S j =? length l) eqn:E.
  - apply Nat.eqb_eq in E. rewrite E. apply Nat.mod_same. lia.
  - apply Nat.eqb_neq in E. apply Nat.mod_small. lia.
Qed.
Lemma wrapped_ok (l : list nat) j : j < length l -> exists a b, wrapped l j 0 = Ok a /\ wrapped l j 1 = Ok b /\
  nth_error l j = Some a /\ nth_error l (if S j =? length l then 0 else S j) = Some b.
Proof.
  intros H. destruct (nth_error l j) as [a|] eqn:Ea; [|apply nth_error_None in Ea; lia].
  destruct (nth_error l (if S j =? length l then 0 else S j)) as [b|] eqn:Eb.
  - exists a, b. repeat split; auto; unfold wrapped.
    + rewrite Nat.add_0_r, Nat.mod_small by lia. now apply nth_res_ok.
    + rewrite wrapped_next by auto. now apply nth_res_ok.
  - apply nth_error_None in Eb. destruct (S j =? length l) eqn:E; [lia|]. apply Nat.eqb_neq in E. lia.
Qed.

(* C169 *)
Theorem C169_cell : forall w id es, v2_cell_edges w id = Ok es ->
  length es = length (v2_cells w id) /\
  (forall j a b, nth_error es j = Some (a, b) <->
     nth_error (v2_cells w id) j = Some a /\ nth_error (v2_cells w id) (if S j =? length (v2_cells w id) then 0 else S j) = Some b) /\
  map fst es = v2_cells w id /\ Permutation (map snd es) (v2_cells w id).
Proof.
  intros w id es H. unfold v2_cell_edges in H. destruct (v2_cells w id) as [|u l'] eqn:El; [discriminate|].
  set (l := u :: l') in *. apply mapM_ok in H.
  assert (Hn : forall j a b, nth_error es j = Some (a, b) <-> nth_error l j = Some a /\ nth_error l (if S j =? length l then 0 else S j) = Some b).
  { intros j a b. destruct (lt_dec j (length l)) as [Hj|Hj].
    - destruct (wrapped_ok l j Hj) as (x & y & W0 & W1 & N0 & N1).
      assert (E : nth_error es j = Some (x, y)).
      { assert (Hjs : nth_error (seq 0 (length l)) j = Some j) by (rewrite nth_error_seq; destruct (j <? length l) eqn:E; [reflexivity|apply Nat.ltb_ge in E; lia]).
        destruct (nth_error es j) as [e|] eqn:Ee.
        - assert (Hf : forall k s e0, nth_error (seq 0 (length l)) k = Some s -> nth_error es k = Some e0 ->
             (a <- wrapped l s 0 ;; b <- wrapped l s 1 ;; Ok (a, b)) = Ok e0).
          { clear -H. revert H. generalize (seq 0 (length l)). intros sq H. induction H; intros [|k] s e0 Hs He; cbn in Hs, He; try discriminate; [|eauto]. injection Hs as <-. injection He as <-. assumption. }
          specialize (Hf j j e Hjs Ee). rewrite W0, W1 in Hf. cbn in Hf. congruence.
        - apply nth_error_None in Ee. apply Forall2_length in H. rewrite seq_length in H. lia. }
      rewrite E, N0, N1. split; [intros X; injection X as -> ->; auto|intros [X Y]; congruence].
    - assert (E : nth_error es j = None) by (apply nth_error_None; apply Forall2_length in H; rewrite seq_length in H; lia).
      assert (E' : nth_error l j = None) by (apply nth_error_None; lia). rewrite E, E'. split; [discriminate|intros [X _]; discriminate]. }
  assert (Hlen : length es = length l) by (apply Forall2_length in H; rewrite seq_length in H; auto).
  split; [auto|]. split; [exact Hn|].
  assert (Hfst : map fst es = l).
  { apply nth_error_ext. intros j. rewrite nth_error_map'. destruct (nth_error es j) as [[a b]|] eqn:E; cbn.
    - apply Hn in E. now destruct E as [-> _].
    - symmetry. apply nth_error_None. apply nth_error_None in E. lia. }
  split; [auto|].
  assert (Hsnd : map snd es = l' ++ [u]).
  { apply nth_error_ext. intros j. rewrite nth_error_map'. destruct (nth_error es j) as [[a b]|] eqn:E; cbn.
    - pose proof (proj1 (Hn j a b) E) as [E1 E2]. assert (Hj : j < length l) by (apply nth_error_Some; congruence).
      destruct (S j =? length l) eqn:Es.
      + apply Nat.eqb_eq in Es. cbn in Es. injection Es as Es. rewrite nth_error_app2 by lia. replace (j - length l') with 0 by lia. cbn. cbn in E2. auto.
      + apply Nat.eqb_neq in Es. cbn in Es, Hj. rewrite nth_error_app1 by lia. cbn in E2. auto.
    - symmetry. apply nth_error_None. apply nth_error_None in E. rewrite app_length. cbn in *. lia. }
  rewrite Hsnd. unfold l. symmetry. apply Permutation_cons_append.
Qed.

Lemma pair_eqb_eq e e' : pair_eqb e e' = true <-> e = e'.
Proof.
  destruct e as [a b], e' as [c d]. unfold pair_eqb. cbn. rewrite andb_true_iff, !Nat.eqb_eq. split; [intros [-> ->]; auto|intros X; injection X; auto].
Qed.
Lemma sorted_pair_ok e : fst (sorted_pair e) <= snd (sorted_pair e) /\ same_edge (sorted_pair e) e.
Proof.
  destruct e as [a b]. unfold sorted_pair, same_edge. cbn [fst snd]. destruct (b <? a) eqn:E; [apply Nat.ltb_lt in E|apply Nat.ltb_ge in E]; cbn [fst snd]; split; auto; lia.
Qed.
Lemma sorted_pair_same e e' : same_edge e e' -> fst e <= snd e -> e = sorted_pair e'.
Proof.
  destruct e as [a b], e' as [c d]. unfold same_edge, sorted_pair. cbn [fst snd]. intros [H|H] Hle; injection H as -> ->; destruct (d <? c) eqn:E;
    [apply Nat.ltb_lt in E|apply Nat.ltb_ge in E|apply Nat.ltb_lt in E|apply Nat.ltb_ge in E]; auto; try lia.
  assert (c = d) by lia. now subst.
Qed.
Lemma visit_ok vs e : NoDup vs -> NoDup (visit vs e) /\ forall x, In x (visit vs e) <-> In x vs \/ x = sorted_pair e.
Proof.
  intros N. unfold visit. destruct (existsb (pair_eqb (sorted_pair e)) vs) eqn:E.
  - apply existsb_exists in E as (y & Hy & Ey). apply pair_eqb_eq in Ey. subst y. split; auto. intros x. split; [auto|intros [H| ->]; auto].
  - assert (Hn : ~ In (sorted_pair e) vs).
    { intros H. assert (X : existsb (pair_eqb (sorted_pair e)) vs = true) by (apply existsb_exists; exists (sorted_pair e); split; auto; now apply pair_eqb_eq). congruence. }
    split.
    + apply NoDup_app_intro; auto; [repeat constructor; auto|]. intros x Hx [<-|[]]. auto.
    + intros x. rewrite in_app_iff. cbn. intuition.
Qed.
Lemma visit_cell_ok w key vs : NoDup vs -> exists vs', visit_cell w vs key = Ok vs' /\ NoDup vs' /\
  forall x, In x vs' <-> In x vs \/ exists a b, follows (v2_cells w key) a b /\ x = sorted_pair (a, b).
Proof.
  intros N. unfold visit_cell. set (l := v2_cells w key).
  assert (H : forall n, n <= length l -> exists vs', foldM (fun vs j => a <- wrapped l j 0 ;; b <- wrapped l j 1 ;; Ok (visit vs (a, b))) (seq 0 n) vs = Ok vs' /\ NoDup vs' /\
    forall x, In x vs' <-> In x vs \/ exists a b j, j < n /\ nth_error l j = Some a /\ nth_error l (if S j =? length l then 0 else S j) = Some b /\ x = sorted_pair (a, b)).
  { induction n as [|n IH]; intros Hn.
    - exists vs. split; [reflexivity|]. split; auto. intros x. split; [auto|]. intros [H|(a & b & j & Hj & _)]; [auto|lia].
    - destruct IH as (v1 & E1 & N1 & I1); [lia|]. rewrite seq_S, foldM_app, E1. cbn [bind foldM].
      destruct (wrapped_ok l n) as (a & b & W0 & W1 & A0 & A1); [lia|]. rewrite Nat.add_0_l, W0, W1. cbn [bind].
      destruct (visit_ok v1 (a, b) N1) as [N2 I2]. eexists. split; [reflexivity|]. split; auto.
      intros x. rewrite I2, I1. split.
      + intros [[H|(c & d & j & Hj & Hc & Hd & ->)]| ->]; [auto| |].
        * right. exists c, d, j. repeat split; auto; lia.
        * right. exists a, b, n. repeat split; auto.
      + intros [H|(c & d & j & Hj & Hc & Hd & ->)]; [auto|]. destruct (Nat.eq_dec j n) as [->|Hne].
        * right. congruence.
        * left. right. exists c, d, j. repeat split; auto; lia. }
  destruct (H (length l) (le_n _)) as (vs' & E & N' & I). exists vs'. split; [exact E|]. split; auto.
  intros x. rewrite I. split.
  - intros [Hx|(a & b & j & Hj & Ha & Hb & ->)]; [auto|]. right. exists a, b. split; auto. exists j. auto.
  - intros [Hx|(a & b & (j & Ha & Hb) & ->)]; [auto|]. right. exists a, b, j. repeat split; auto. apply nth_error_Some. congruence.
Qed.

Theorem C169_edges : forall set_order w order,
  (forall vs, Permutation (set_order vs) vs) ->
  (forall id, v2_cells w id <> [] -> In id order) ->
  exists es, v2_edges set_order w order = Ok es /\
    NoDup es /\
    (forall a b, In (a, b) es -> a <= b /\ joined w a b) /\
    (forall a b, joined w a b -> exists! e, In e es /\ same_edge e (a, b)).
Proof.
  intros so w order Hso Hord.
  assert (H : forall ks vs, NoDup vs -> exists vs', foldM (visit_cell w) ks vs = Ok vs' /\ NoDup vs' /\
     forall x, In x vs' <-> In x vs \/ exists id a b, In id ks /\ follows (v2_cells w id) a b /\ x = sorted_pair (a, b)).
  { induction ks as [|k ks IH]; intros vs N.
    - exists vs. split; [reflexivity|]. split; auto. intros x. split; [auto|]. intros [H|(id & a & b & [] & _)]; auto.
    - destruct (visit_cell_ok w k vs N) as (v1 & E1 & N1 & I1). destruct (IH v1 N1) as (v2 & E2 & N2 & I2).
      exists v2. cbn [foldM]. rewrite E1. cbn [bind]. split; [exact E2|]. split; auto. intros x. rewrite I2, I1. split.
      + intros [[Hx|(a & b & Hf & ->)]|(id & a & b & Hi & Hf & ->)]; [auto| |].
        * right. exists k, a, b. cbn. auto.
        * right. exists id, a, b. cbn. auto.
      + intros [Hx|(id & a & b & [<-|Hi] & Hf & ->)]; [auto| |].
        * left. right. eauto.
        * right. exists id, a, b. auto. }
  destruct (H order [] (NoDup_nil _)) as (vs & E & N & I). unfold v2_edges. rewrite E. cbn [bind].
  exists (so vs). split; [reflexivity|]. split; [apply (Permutation_NoDup (Permutation_sym (Hso vs))); auto|].
  assert (Hin : forall x, In x (so vs) <-> exists id a b, follows (v2_cells w id) a b /\ x = sorted_pair (a, b)).
  { intros x. split.
    - intros Hx. apply (Permutation_in _ (Hso vs)) in Hx. apply I in Hx as [[]|(id & a & b & _ & Hf & ->)]. eauto.
    - intros (id & a & b & Hf & ->). apply (Permutation_in _ (Permutation_sym (Hso vs))). apply I. right. exists id, a, b. repeat split; auto.
      apply Hord. intros El. destruct Hf as (j & Hj & _). rewrite El in Hj. destruct j; discriminate. }
  split.
  - intros a b Hx. apply Hin in Hx as (id & c & d & Hf & Ex). destruct (sorted_pair_ok (c, d)) as [Hle Hs]. rewrite <- Ex in Hle, Hs. cbn in Hle. split; [exact Hle|].
    exists id. destruct Hs as [Hs|Hs]; cbn in Hs; injection Hs as -> ->; auto.
  - intros a b (id & Hf).
    assert (Hmem : In (sorted_pair (a, b)) (so vs)).
    { apply Hin. destruct Hf as [Hf|Hf]; [exists id, a, b; auto|]. exists id, b, a. split; auto. apply sorted_pair_same.
      - destruct (sorted_pair_ok (a, b)) as [_ [->| ->]]; [right|left]; reflexivity.
      - apply sorted_pair_ok. }
    exists (sorted_pair (a, b)). split.
    + split; auto. apply sorted_pair_ok.
    + intros e [He Hs]. symmetry. apply sorted_pair_same; auto. apply Hin in He as (i' & c & d & _ & ->). apply sorted_pair_ok.
Qed.

(* a cell is on the boundary exactly when one of its edges joins two boundary vertices *)
Theorem C169_boundary : forall w id b, v2_on_boundary w id = Ok b ->
  (b = true <-> exists a c, follows (v2_cells w id) a c /\ nth_error (v2_mark w) a = Some true /\ nth_error (v2_mark w) c = Some true).
Proof.
  intros w id b H. unfold v2_on_boundary in H. destruct (v2_cells w id) as [|u l'] eqn:El; [discriminate|]. set (l := u :: l') in *.
  apply bind_ok in H as (ms & Hms & H).
  assert (Eb : b = existsb (fun j => nth j ms false && nth ((j + 1) mod length l) ms false) (seq 0 (length l))) by congruence. rewrite Eb. clear H Eb. apply mapM_ok in Hms.
  assert (Hm : forall j a, nth_error l j = Some a -> nth_error (v2_mark w) a = Some (nth j ms false)).
  { clear -Hms. induction Hms; intros [|j] a Ha; cbn in *; try discriminate; [injection Ha as <-; now apply nth_res_ok|auto]. }
  rewrite existsb_exists. split.
  - intros (j & Hj & Hb). apply in_seq in Hj. apply andb_true_iff in Hb as [H1 H2].
    destruct (wrapped_ok l j) as (a & c & _ & _ & Ha & Hc); [lia|]. exists a, c. split; [exists j; auto|]. split.
    + rewrite (Hm _ _ Ha). now f_equal.
    + rewrite wrapped_next in H2 by lia. transitivity (Some (nth (if S j =? length l then 0 else S j) ms false)); [exact (Hm _ _ Hc)|]. now f_equal.
  - intros (a & c & (j & Ha & Hc) & M1 & M2). assert (Hj : j < length l) by (apply nth_error_Some; congruence).
    exists j. split; [apply in_seq; lia|]. rewrite wrapped_next by auto. assert (X1 : nth j ms false = true) by (pose proof (Hm _ _ Ha); congruence).
    assert (X2 : nth (if S j =? length l then 0 else S j) ms false = true) by (pose proof (Hm _ _ Hc); congruence).
    now rewrite X1, X2.
Qed.

(* edge(i) is the segment of row i of edges(), and the assertion stops an index past the end *)
Theorem C169_edge : forall w id (i : nat) es, v2_cell_edges w id = Ok es ->
  (forall a b p q, nth_error es i = Some (a, b) -> v2_vertex w a = Ok p -> v2_vertex w b = Ok q -> v2_cell_edge w id (Z.of_nat i) = Ok (p, q)) /\
  (length es <= i -> v2_cell_edge w id (Z.of_nat i) = Throw).
Proof.
  intros w id i es H. destruct (C169_cell w id es H) as (Hlen & Hn & _). unfold v2_cell_edge. unfold v2_cell_edges in H.
  destruct (v2_cells w id) as [|u l'] eqn:El; [discriminate|]. set (l := u :: l') in *. split.
  - intros a b p q Hi Ha Hb. pose proof (proj1 (Hn _ _ _) Hi) as [H1 H2]. assert (Hi' : i < length l) by (apply nth_error_Some; congruence).
    unfold assert_. replace (Z.of_nat i <? Z.of_nat (length l))%Z with true by (symmetry; apply Z.ltb_lt; lia). cbn [bind].
    assert (R : forall k, Z.rem (Z.of_nat i + Z.of_nat k) (Z.of_nat (length l)) = Z.of_nat ((i + k) mod length l)).
    { intros k. rewrite Z.rem_mod_nonneg by (cbn; lia). rewrite <- Nat2Z.inj_add, <- Nat2Z.inj_mod. reflexivity. }
    pose proof (R 0) as R0. pose proof (R 1) as R1. cbn [Z.of_nat] in R0. change (Z.of_nat 1) with 1%Z in R1. rewrite R0, R1.
    replace (Z.of_nat ((i + 0) mod length l) <? 0)%Z with false by (symmetry; apply Z.ltb_ge; lia).
    replace (Z.of_nat ((i + 1) mod length l) <? 0)%Z with false by (symmetry; apply Z.ltb_ge; lia).
    rewrite !Nat2Z.id, Nat.add_0_r, Nat.mod_small, wrapped_next by auto. rewrite (proj2 (nth_res_ok _ _ _) H1), (proj2 (nth_res_ok _ _ _) H2).
    cbn [bind]. rewrite Ha. cbn [bind]. rewrite Hb. reflexivity.
  - intros Hi. unfold assert_. replace (Z.of_nat i <? Z.of_nat (length l))%Z with false; [reflexivity|]. symmetry. apply Z.ltb_ge. lia.
Qed.

(* two cells of a diagram: vertices 0 - 1 - 2 - 3 and 2 - 1 - 4, which share the edge between 1 and 2 *)
Definition two_cells : vor2 :=
  Vor2 (map (fun i => Some (INR i, INR i * INR i)%R) (seq 0 5)) [true; false; false; true; true]
    (fun v => match v with 0 => [0; 1; 2; 3] | 1 => [2; 1; 4] | _ => [] end).
Example C169_example :
  v2_cell_edges two_cells 0 = Ok [(0, 1); (1, 2); (2, 3); (3, 0)] /\
  v2_edges (fun vs => vs) two_cells [0; 1] = Ok [(0, 1); (1, 2); (2, 3); (0, 3); (1, 4); (2, 4)] /\
  v2_on_boundary two_cells 0 = Ok true /\ v2_on_boundary two_cells 1 = Ok false /\
  v2_cell_edge two_cells 0 5 = Throw /\ v2_cell_edge two_cells 0 (-1) = UB.
Proof. repeat split; reflexivity. Qed.

Print Assumptions C169_cell.
Print Assumptions C169_edges.
Print Assumptions C169_boundary.
Print Assumptions C169_edge.
