(* C165: the sizes of the tables of a triangulation (triangulation.h) are consistent. *)
From Coq Require Import Permutation Lia List Arith.
From Verif Require Import Base TriModel TriSpec TriProofs TriProofs2 TriProps.
Import ListNotations.

(* how many facets are marked as lying on the boundary *)
Definition n_marked (marks : list bool) : nat := count_occ Bool.bool_dec marks true.

Lemma nodup_flat {A B} (f : nat -> list A) (g : nat -> A -> B) : forall n,
  (forall i, i < n -> NoDup (f i)) -> (forall i j x y, g i x = g j y -> i = j /\ x = y) ->
  NoDup (flat_map (fun i => map (g i) (f i)) (seq 0 n)).
Proof.
  intros n Hf Hg. assert (H: forall s k, s + k <= n -> NoDup (flat_map (fun i => map (g i) (f i)) (seq s k)));
    [|apply (H 0 n); lia].
  intros s k; revert s; induction k as [|k IH]; intros s Hs; [constructor|]. cbn. apply NoDup_app_intro.
  - apply FinFun.Injective_map_NoDup; [intros x y E; now apply Hg in E|apply Hf; lia].
  - apply IH. lia.
  - intros x Hx Hy. apply in_map_iff in Hx. destruct Hx as (a & <- & _). apply in_flat_map in Hy. destruct Hy as (j & Hj & Hy).
    apply in_map_iff in Hy. destruct Hy as (b & E & _). apply Hg in E. destruct E as [-> _]. apply in_seq in Hj. lia.
Qed.
Lemma length_flat {A B} (f : A -> list B) k : forall l, (forall x, In x l -> length (f x) = k) -> length (flat_map f l) = k * length l.
Proof. induction l as [|x l IH]; intros H; cbn; [lia|]. rewrite app_length, IH, H; [nia|now left|intros y Hy; apply H; now right]. Qed.

Section Count.
Variables (npf : nat) (cells : list (list nat)) (nodes : list (list nat)) (rows : list (list (option nat)))
  (fcells : list (nat * option nat)) (marks : list bool).
Hypothesis Hnd : NoDup nodes.
Hypothesis Hrows : forall i c, nth_error cells i = Some c -> exists row, nth_error rows i = Some row /\
      length row = npf /\ NoDup row /\
      (forall o, In o row -> exists h e, o = Some h /\ nth_error nodes h = Some e /\ facet_of e c) /\
      (forall e, facet_of e c -> exists h, In (Some h) row /\ nth_error nodes h = Some e).
Hypothesis Hcells : forall h e, nth_error nodes h = Some e ->
    exists a o m, nth_error fcells h = Some (a, o) /\ nth_error marks h = Some m /\
      (forall i, cell_has cells i e <-> i = a \/ o = Some i) /\ (forall b, o = Some b -> a <> b) /\
      (m = true <-> exists i, forall i', cell_has cells i' e <-> i' = i).
Hypothesis Hmarks : length marks = length nodes.

Let row i := nth i rows [].
Let side h := match nth_error fcells h with Some (a, None) => [a] | Some (a, Some b) => [a; b] | None => [] end.
Let by_cell := flat_map (fun i => map (fun o => (i, o)) (row i)) (seq 0 (length cells)).
Let by_facet := flat_map (fun h => map (fun i => (i, Some h)) (side h)) (seq 0 (length nodes)).

Lemma by_cell_length : length by_cell = npf * length cells.
Proof.
  unfold by_cell. rewrite (length_flat _ npf), seq_length; [reflexivity|]. intros i Hi. rewrite map_length. apply in_seq in Hi.
  destruct (nth_error cells i) as [c|] eqn:E; [|apply nth_error_None in E; lia].
  destruct (Hrows i c E) as (r & R1 & R2 & _). unfold row. now rewrite (nth_error_nth _ _ _ R1).
Qed.
Lemma by_cell_in i h : In (i, Some h) by_cell <-> exists e, nth_error nodes h = Some e /\ cell_has cells i e.
Proof.
  unfold by_cell. rewrite in_flat_map. split.
  - intros (i' & Hi & Hx). apply in_map_iff in Hx. destruct Hx as (o & E & Ho). injection E as -> ->. apply in_seq in Hi.
    destruct (nth_error cells i) as [c|] eqn:E; [|apply nth_error_None in E; lia].
    destruct (Hrows i c E) as (r & R1 & _ & _ & R3 & _). unfold row in Ho. rewrite (nth_error_nth _ _ _ R1) in Ho.
    destruct (R3 _ Ho) as (h' & e & Eh & H1 & H2). injection Eh as <-. exists e. split; [assumption|]. exists c. auto.
  - intros (e & H1 & c & E & H2). exists i. split; [apply in_seq; assert (i < length cells) by (apply nth_error_Some; congruence); lia|].
    destruct (Hrows i c E) as (r & R1 & _ & _ & _ & R4). unfold row. rewrite (nth_error_nth _ _ _ R1).
    destruct (R4 e H2) as (h' & Hin & Hh). assert (h = h').
    { apply (proj1 (NoDup_nth_error nodes) Hnd); [apply nth_error_Some; congruence|congruence]. }
    subst h'. apply in_map_iff. exists (Some h). auto.
Qed.
Lemma by_cell_some i o : In (i, o) by_cell -> exists h, o = Some h.
Proof.
  unfold by_cell. rewrite in_flat_map. intros (i' & Hi & Hx). apply in_map_iff in Hx. destruct Hx as (o' & E & Ho). injection E as -> ->. apply in_seq in Hi.
  destruct (nth_error cells i) as [c|] eqn:E; [|apply nth_error_None in E; lia].
  destruct (Hrows i c E) as (r & R1 & _ & _ & R3 & _). unfold row in Ho. rewrite (nth_error_nth _ _ _ R1) in Ho.
  destruct (R3 _ Ho) as (h' & e & Eh & _). eauto.
Qed.
Lemma by_cell_nodup : NoDup by_cell.
Proof.
  unfold by_cell. apply (nodup_flat row (fun i o => (i, o))).
  - intros i Hi. destruct (nth_error cells i) as [c|] eqn:E; [|apply nth_error_None in E; lia].
    destruct (Hrows i c E) as (r & R1 & _ & R2 & _). unfold row. now rewrite (nth_error_nth _ _ _ R1).
  - intros i j x y E. injection E. auto.
Qed.
Lemma by_facet_in i h : In (i, Some h) by_facet <-> exists e, nth_error nodes h = Some e /\ cell_has cells i e.
Proof.
  unfold by_facet. rewrite in_flat_map. split.
  - intros (h' & Hh & Hx). apply in_map_iff in Hx. destruct Hx as (i' & E & Hi). injection E as -> ->. apply in_seq in Hh.
    destruct (nth_error nodes h) as [e|] eqn:E; [|apply nth_error_None in E; lia]. exists e. split; [reflexivity|].
    destruct (Hcells h e E) as (a & o & m & C1 & _ & C2 & _). unfold side in Hi. rewrite C1 in Hi. apply C2.
    destruct o as [b|]; cbn in Hi; intuition congruence.
  - intros (e & E & Hc). exists h. split; [apply in_seq; assert (h < length nodes) by (apply nth_error_Some; congruence); lia|].
    apply in_map_iff. exists i. split; [reflexivity|].
    destruct (Hcells h e E) as (a & o & m & C1 & _ & C2 & _). unfold side. rewrite C1. apply C2 in Hc.
    destruct o as [b|]; cbn; intuition congruence.
Qed.
Lemma by_facet_some i o : In (i, o) by_facet -> exists h, o = Some h.
Proof. unfold by_facet. rewrite in_flat_map. intros (h & _ & Hx). apply in_map_iff in Hx. destruct Hx as (i' & E & _). injection E as _ <-. eauto. Qed.
Lemma by_facet_nodup : NoDup by_facet.
Proof.
  unfold by_facet. apply (nodup_flat side (fun h i => (i, Some h))).
  - intros h Hh. destruct (nth_error nodes h) as [e|] eqn:E; [|apply nth_error_None in E; lia].
    destruct (Hcells h e E) as (a & o & m & C1 & _ & _ & C3 & _). unfold side. rewrite C1.
    destruct o as [b|]; repeat constructor; cbn; intuition. subst. exact (C3 a eq_refl eq_refl).
  - intros i j x y E. injection E. auto.
Qed.
Lemma side_length h : h < length nodes -> length (side h) + (if nth h marks false then 1 else 0) = 2.
Proof.
  intros Hh. destruct (nth_error nodes h) as [e|] eqn:E; [|apply nth_error_None in E; lia].
  destruct (Hcells h e E) as (a & o & m & C1 & C2 & C3 & C4 & C5). unfold side. rewrite C1, (nth_error_nth _ _ _ C2).
  destruct o as [b|]; destruct m; cbn; try lia; exfalso.
  - destruct (proj1 C5 eq_refl) as (i & Hi). apply (C4 b eq_refl). transitivity i; [|symmetry]; apply Hi, C3; auto.
  - assert (false = true); [|discriminate]. apply C5. exists a. intros i'. rewrite C3. intuition discriminate.
Qed.
Lemma by_facet_length : length by_facet + n_marked marks = 2 * length nodes.
Proof.
  unfold by_facet, n_marked.
  assert (H: forall k, k <= length nodes -> length (flat_map (fun h => map (fun i => (i, Some h)) (side h)) (seq 0 k)) +
    count_occ Bool.bool_dec (firstn k marks) true = 2 * k).
  { induction k as [|k IH]; intros Hk; [reflexivity|]. rewrite seq_S, flat_map_app, app_length. cbn [flat_map Nat.add]. rewrite app_nil_r, map_length.
    assert (Em: firstn (S k) marks = firstn k marks ++ [nth k marks false]).
    { rewrite <- (firstn_skipn k marks) at 1. rewrite firstn_app, firstn_firstn, Nat.min_r by lia. f_equal.
      rewrite firstn_length, Nat.min_l by lia. replace (S k - k) with 1 by lia.
      destruct (skipn k marks) as [|b tl] eqn:Es.
      - exfalso. pose proof (skipn_length k marks). rewrite Es in H. cbn in H. lia.
      - cbn. f_equal. rewrite <- (firstn_skipn k marks), app_nth2; rewrite firstn_length, Nat.min_l by lia; [|lia].
        now rewrite Es, Nat.sub_diag. }
    rewrite Em, count_occ_app. pose proof (side_length k ltac:(lia)) as Hs. specialize (IH ltac:(lia)).
    cbn [count_occ]. destruct (nth k marks false); cbn; [|]; lia. }
  specialize (H (length nodes) (le_n _)). rewrite <- Hmarks in H at 2. rewrite firstn_all in H. exact H.
Qed.
Lemma double_count : npf * length cells + n_marked marks = 2 * length nodes.
Proof.
  rewrite <- by_cell_length, <- by_facet_length. f_equal. apply Permutation_length. apply NoDup_Permutation;
    [apply by_cell_nodup|apply by_facet_nodup|]. intros [i o]. split; intros H.
  - destruct (by_cell_some _ _ H) as (h & ->). now apply by_facet_in, by_cell_in.
  - destruct (by_facet_some _ _ H) as (h & ->). now apply by_cell_in, by_facet_in.
Qed.
End Count.

(* ---- C165 --------------------------------------------------------------------------------------- *)
(* every triangle has three edges, every edge lies in one triangle if it is marked as a boundary edge
   and in two otherwise *)
Theorem C165_triangles cells : simplicial 3 cells -> conforming cells ->
  exists s, tri2 cells = Ok s /\ length (f_mark s) = length (f_nodes s) /\
    3 * length cells + n_marked (f_mark s) = 2 * length (f_nodes s).
Proof.
  intros H1 H2. destruct (tri2_edges cells H1 H2) as (s & E & A & _ & B). destruct (tri2_boundary_edges cells H1 H2) as (s' & E' & C).
  rewrite E in E'. injection E' as <-. destruct (tri2_inv cells H1 H2) as (s' & E' & HI). rewrite E in E'. injection E' as <-.
  pose proof (proj2 (proj2 (final_nodup _ _ _ _ HI))) as L. exists s. split; [assumption|]. split; [assumption|].
  apply (double_count 3 cells (f_nodes s) (c_facets s) (f_cells s) (f_mark s)); assumption.
Qed.
Print Assumptions C165_triangles.
(* the same for the four faces of a tetrahedron *)
Theorem C165_tetrahedra cells markers : simplicial 4 cells -> conforming cells ->
  (forall c v, In c cells -> In v c -> v < length markers) ->
  exists s es, tri3 cells markers = Ok (s, es) /\ length (f_mark s) = length (f_nodes s) /\
    4 * length cells + n_marked (f_mark s) = 2 * length (f_nodes s).
Proof.
  intros H1 H2 H3. destruct (tri3_faces cells markers H1 H2 H3) as (s & es & E & A & _ & B & _ & _ & _ & C).
  destruct (tri3_inv cells markers H1 H2 H3) as ([s' es'] & E' & HI & _). rewrite E in E'. injection E' as <- <-. cbn [fst] in HI.
  pose proof (proj2 (proj2 (final_nodup _ _ _ _ HI))) as L. exists s, es. split; [assumption|]. split; [assumption|].
  apply (double_count 4 cells (f_nodes s) (c_facets s) (f_cells s) (f_mark s)); assumption.
Qed.
Print Assumptions C165_tetrahedra.

(* a surface without boundary has one and a half times as many edges as triangles, and in general the
   number of boundary edges has the parity of the number of triangles *)
Corollary C165_closed cells : simplicial 3 cells -> conforming cells ->
  exists s, tri2 cells = Ok s /\ Nat.odd (n_marked (f_mark s)) = Nat.odd (length cells) /\
    ((forall h e, nth_error (f_nodes s) h = Some e -> exists i j, i <> j /\ cell_has cells i e /\ cell_has cells j e) ->
      3 * length cells = 2 * length (f_nodes s)).
Proof.
  intros H1 H2. destruct (C165_triangles cells H1 H2) as (s & E & L & C). exists s. split; [assumption|]. split.
  - assert (P: Nat.odd (3 * length cells + n_marked (f_mark s)) = Nat.odd (2 * length (f_nodes s))) by now rewrite C.
    rewrite Nat.odd_add, !Nat.odd_mul in P. cbn in P. destruct (Nat.odd (n_marked (f_mark s))), (Nat.odd (length cells)); cbn in P; auto; discriminate.
  - intros Hc. destruct (tri2_boundary_edges cells H1 H2) as (s' & E' & B). rewrite E in E'. injection E' as <-.
    assert (Z: n_marked (f_mark s) = 0); [|lia]. unfold n_marked. apply count_occ_not_In. intros Hin.
    apply In_nth_error in Hin. destruct Hin as (h & Hh).
    destruct (nth_error (f_nodes s) h) as [e|] eqn:En;
      [|apply nth_error_None in En; assert (h < length (f_mark s)) by (apply nth_error_Some; congruence); lia].
    destruct (B h e En) as (a & o & m & _ & Em & _ & _ & Hm). rewrite Hh in Em. injection Em as <-.
    destruct (proj1 Hm eq_refl) as (k & Hk). destruct (Hc h e En) as (i & j & Hij & Hi & Hj). apply Hij. transitivity k; [|symmetry]; now apply Hk.
Qed.
Print Assumptions C165_closed.

(* the boundary of a tetrahedron, as a surface mesh, satisfies the hypotheses and is closed *)
Definition shell : list (list nat) := [[0; 1; 2]; [0; 1; 3]; [0; 2; 3]; [1; 2; 3]].
Example C165_example : simplicial 3 shell /\ conforming shell /\
  (exists s, tri2 shell = Ok s /\ length (f_nodes s) = 6 /\ n_marked (f_mark s) = 0) /\
  simplicial 3 mesh2 /\ conforming mesh2 /\ simplicial 4 mesh3 /\ conforming mesh3.
Proof.
  split; [simplicial_tac|]. split; [apply (conforming_b_ok 3); [simplicial_tac|vm_compute; reflexivity]|].
  split; [eexists; split; [vm_compute; reflexivity|split; reflexivity]|].
  split; [simplicial_tac|]. split; [apply (conforming_b_ok 3); [simplicial_tac|vm_compute; reflexivity]|].
  split; [simplicial_tac|]. apply (conforming_b_ok 4); [simplicial_tac|vm_compute; reflexivity].
Qed.
