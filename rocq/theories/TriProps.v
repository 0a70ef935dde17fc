(* C40-C45, C96-C98: tables and iterators of 2D and 3D triangulations. *)
From Coq Require Import Lia Permutation Sorted.
From Verif Require Import TriProofs TriProofs2.

Definition fp2 := [[0; 1]; [0; 2]; [1; 2]].
Definition fp3 := [[0; 1; 2]; [0; 1; 3]; [0; 2; 3]; [1; 2; 3]].
Lemma make3 cells : simplicial 3 cells -> forall i j, i < length cells -> j < 3 ->
  make_facet cells fp2 i j = Ok (fkey cells 3 (i, j)).
Proof.
  intros Hcells i j Hi Hj. unfold make_facet, fkey. cbn [fst snd].
  destruct (nth_error cells i) as [c|] eqn:E; [|apply nth_error_None in E; lia].
  assert (Hl : length c = 3) by (apply Hcells; eapply nth_error_In; eauto).
  rewrite (nth_error_nth _ _ [] E). apply nth_res_ok in E.
  destruct c as [|x0 [|x1 [|x2 [|]]]]; try discriminate.
  do 3 (destruct j as [|j]; [unfold fp2, get2; cbn -[nth_res sort_ids]; rewrite ?E; cbn -[sort_ids];
                             rewrite ?E; cbn -[sort_ids]; rewrite ?E; reflexivity|]). lia.
Qed.

Lemma tri2_inv cells : simplicial 3 cells -> conforming cells ->
  exists s, tri2 cells = Ok s /\ Inv cells 3 (loop_pairs cells fp2) s.
Proof.
  intros H1 H2. unfold tri2. rewrite edge_pattern_val. cbn [bind].
  exact (facets_ok cells 3 fp2 H1 H2 eq_refl (make3 cells H1)).
Qed.

Lemma adjacent_sym D cells i p i' : simplicial D cells -> adjacent_opposite cells i p i' ->
  exists p', p' < D /\ adjacent_opposite cells i' p' i.
Proof.
  intros Hs (Hne & c & v & e & Hc & Hv & Hf & Hnv & Hh). pose proof Hh as Hh'.
  apply (facet_key cells D Hs) in Hh as (Hi' & j & Hj & ->).
  destruct (key_facts cells D Hs i' j Hi' Hj) as (c' & x & Hc' & Hx & _ & _ & _ & _ & Hnx & _).
  exists (D - 1 - j). split; [lia|]. split; [auto|]. exists c', x, (fkey cells D (i', j)).
  split; [assumption|]. split; [assumption|].
  destruct Hh' as (c2 & Hc2 & Hf2). rewrite Hc' in Hc2. injection Hc2 as <-.
  split; [assumption|]. split; [assumption|]. exists c. auto.
Qed.

(* a decidable form of the hypotheses, for the examples *)
Definition keys_of (D : nat) (cells : list (list nat)) : list (nat * list nat) :=
  flat_map (fun i => map (fun j => (i, fkey cells D (i, j))) (seq 0 D)) (seq 0 (length cells)).
Definition conforming_b (D : nat) (cells : list (list nat)) : bool :=
  forallb (fun x => forallb (fun y => forallb (fun z =>
     negb (id_list_eqb (snd x) (snd y) && id_list_eqb (snd x) (snd z)) ||
     (fst x =? fst y) || (fst x =? fst z) || (fst y =? fst z))
     (keys_of D cells)) (keys_of D cells)) (keys_of D cells).
Lemma conforming_b_ok D cells : simplicial D cells -> conforming_b D cells = true -> conforming cells.
Proof.
  intros Hs Hb e i1 i2 i3 H1 H2 H3.
  assert (HK : forall i, cell_has cells i e -> In (i, e) (keys_of D cells)).
  { intros i H. apply (facet_key cells D Hs) in H as (Hi & j & Hj & ->). unfold keys_of. apply in_flat_map.
    exists i. split; [apply in_seq; lia|]. apply in_map_iff. exists j. split; [reflexivity|apply in_seq; lia]. }
  unfold conforming_b in Hb. rewrite forallb_forall in Hb. specialize (Hb _ (HK _ H1)).
  rewrite forallb_forall in Hb. specialize (Hb _ (HK _ H2)).
  rewrite forallb_forall in Hb. specialize (Hb _ (HK _ H3)). cbn [fst snd] in Hb.
  rewrite id_list_eqb_refl in Hb. cbn [negb andb orb] in Hb.
  apply orb_true_iff in Hb as [Hb|Hb]; [apply orb_true_iff in Hb as [Hb|Hb]|]; apply Nat.eqb_eq in Hb; auto.
Qed.
Ltac simplicial_tac := intros c Hc; simpl in Hc;
  repeat (destruct Hc as [<-|Hc]; [split; [reflexivity|repeat (constructor; [simpl; intuition discriminate|]); constructor]|]);
  destruct Hc.

(* four triangles around node 4, plus one on the outside; vertex orders mixed *)
Definition mesh2 : list (list nat) := [[0; 1; 4]; [4; 2; 1]; [3; 4; 2]; [0; 4; 3]; [5; 3; 2]].
Example mesh2_simplicial : simplicial 3 mesh2. Proof. simplicial_tac. Qed.
Example mesh2_conforming : conforming mesh2.
Proof. apply (conforming_b_ok 3 _ mesh2_simplicial). vm_compute. reflexivity. Qed.
(* three tetrahedra around the edge 0-1 *)
Definition mesh3 : list (list nat) := [[0; 1; 2; 3]; [4; 0; 3; 1]; [1; 4; 0; 2]].
Example mesh3_simplicial : simplicial 4 mesh3. Proof. simplicial_tac. Qed.
Example mesh3_conforming : conforming mesh3.
Proof. apply (conforming_b_ok 4 _ mesh3_simplicial). vm_compute. reflexivity. Qed.

(* ---- C40 ---- *)
Theorem tri2_adjacency cells : simplicial 3 cells -> conforming cells ->
  exists s, tri2 cells = Ok s /\ length (f_neigh s) = length cells /\
    forall i p, i < length cells -> p < 3 -> exists o, entry (f_neigh s) i p o /\
      forall i', o = Some i' <-> adjacent_opposite cells i p i'.
Proof.
  intros H1 H2. destruct (tri2_inv cells H1 H2) as (s & E & HI). exists s. split; [assumption|].
  pose proof (final_neigh_shape _ _ _ _ HI) as Hsh. split; [apply Hsh|].
  intros i p Hi Hp. destruct (shaped_entry _ _ _ i p Hsh Hi Hp) as (o & Ho). exists o. split; [assumption|].
  intros i'. rewrite <- (final_neighbors cells 3 fp2 H1 eq_refl (make3 cells H1) s HI i p i' Hi Hp).
  split; [intros ->; assumption|]. intros H. eapply entry_fun; eassumption.
Qed.
Theorem tri2_adjacency_symmetric cells s i p i' : simplicial 3 cells -> conforming cells -> tri2 cells = Ok s ->
  entry (f_neigh s) i p (Some i') -> exists p', p' < 3 /\ entry (f_neigh s) i' p' (Some i).
Proof.
  intros H1 H2 E Hn. destruct (tri2_inv cells H1 H2) as (s' & E' & HI). rewrite E in E'. injection E' as <-.
  pose proof (final_neigh_shape _ _ _ _ HI) as Hsh.
  destruct (entry_lt _ _ _ _ _ _ Hsh Hn) as [Hi Hp].
  apply (final_neighbors cells 3 fp2 H1 eq_refl (make3 cells H1) s HI i p i' Hi Hp) in Hn.
  destruct (adjacent_sym 3 cells i p i' H1 Hn) as (p' & Hp' & Ha). exists p'. split; [assumption|].
  apply (final_neighbors cells 3 fp2 H1 eq_refl (make3 cells H1) s HI); [|assumption|assumption].
  destruct Ha as (_ & c & _ & _ & Hc & _). apply nth_error_Some. congruence.
Qed.
Example tri2_adjacency_example : exists s, tri2 mesh2 = Ok s /\
  f_neigh s = [[Some 1; Some 3; None]; [None; Some 0; Some 2]; [Some 1; Some 4; Some 3]; [Some 2; None; Some 0]; [Some 2; None; None]].
Proof. eexists. split; vm_compute; reflexivity. Qed.

(* ---- C41 ---- *)
Theorem tri2_edges cells : simplicial 3 cells -> conforming cells ->
  exists s, tri2 cells = Ok s /\ NoDup (f_nodes s) /\
    (forall e, In e (f_nodes s) <-> exists i, cell_has cells i e) /\
    forall i c, nth_error cells i = Some c -> exists row, nth_error (c_facets s) i = Some row /\
      length row = 3 /\ NoDup row /\
      (forall o, In o row -> exists h e, o = Some h /\ nth_error (f_nodes s) h = Some e /\ facet_of e c) /\
      (forall e, facet_of e c -> exists h, In (Some h) row /\ nth_error (f_nodes s) h = Some e).
Proof.
  intros H1 H2. destruct (tri2_inv cells H1 H2) as (s & E & HI). exists s. split; [assumption|].
  split; [apply (final_nodup _ _ _ _ HI)|].
  split; [intros e; apply (final_nodes cells 3 fp2 H1 eq_refl s HI)|].
  intros i c Hc.
  destruct (final_cell_facets cells 3 fp2 H1 eq_refl (make3 cells H1) s HI i c Hc) as (row & R1 & R2 & R3 & R4 & R5 & _).
  exists row. auto.
Qed.
Example tri2_edges_example : exists s, tri2 mesh2 = Ok s /\
  f_nodes s = [[0; 1]; [0; 4]; [1; 4]; [2; 4]; [1; 2]; [3; 4]; [2; 3]; [0; 3]; [3; 5]; [2; 5]] /\
  c_facets s = [[Some 0; Some 1; Some 2]; [Some 3; Some 2; Some 4]; [Some 5; Some 6; Some 3]; [Some 1; Some 7; Some 5]; [Some 8; Some 9; Some 6]].
Proof. eexists. split; [vm_compute; reflexivity|]. split; vm_compute; reflexivity. Qed.

(* ---- C42 ---- *)
Theorem tri2_boundary_edges cells : simplicial 3 cells -> conforming cells ->
  exists s, tri2 cells = Ok s /\ forall h e, nth_error (f_nodes s) h = Some e ->
    exists a o m, nth_error (f_cells s) h = Some (a, o) /\ nth_error (f_mark s) h = Some m /\
      (forall i, cell_has cells i e <-> i = a \/ o = Some i) /\ (forall b, o = Some b -> a <> b) /\
      (m = true <-> exists i, forall i', cell_has cells i' e <-> i' = i).
Proof.
  intros H1 H2. destruct (tri2_inv cells H1 H2) as (s & E & HI). exists s. split; [assumption|].
  intros h e Hh.
  destruct (final_boundary cells 3 fp2 H1 eq_refl (make3 cells H1) s HI h e Hh) as (a & o & Hc & Hm & Hd & Hx).
  exists a, o, (match o with None => true | Some _ => false end).
  split; [assumption|]. split; [assumption|]. split; [assumption|]. split; [assumption|]. split.
  - destruct o as [b|]; [discriminate|]. intros _. exists a. intros i'. rewrite Hx. intuition discriminate.
  - intros (i & Hi). destruct o as [b|]; [|reflexivity]. exfalso. apply (Hd b eq_refl).
    transitivity i; [|symmetry]; apply Hi, Hx; auto.
Qed.
Example tri2_boundary_example : exists s, tri2 mesh2 = Ok s /\
  f_mark s = [true; false; false; false; true; false; false; true; true; true] /\
  nth_error (f_cells s) 6 = Some (2, Some 4) /\ nth_error (f_cells s) 7 = Some (3, None).
Proof. eexists. split; [vm_compute; reflexivity|]. split; [|split]; vm_compute; reflexivity. Qed.

(* ---- C43 ---- *)
Theorem tri3_faces cells markers : simplicial 4 cells -> conforming cells ->
  (forall c v, In c cells -> In v c -> v < length markers) ->
  exists s es, tri3 cells markers = Ok (s, es) /\ NoDup (f_nodes s) /\
    (forall f, In f (f_nodes s) <-> exists i, cell_has cells i f) /\
    (forall i c, nth_error cells i = Some c -> exists row, nth_error (c_facets s) i = Some row /\
      length row = 4 /\ NoDup row /\
      (forall o, In o row -> exists h f, o = Some h /\ nth_error (f_nodes s) h = Some f /\ facet_of f c) /\
      (forall f, facet_of f c -> exists h, In (Some h) row /\ nth_error (f_nodes s) h = Some f)) /\
    length (f_neigh s) = length cells /\
    (forall i p, i < length cells -> p < 4 -> exists o, entry (f_neigh s) i p o /\
      forall i', o = Some i' <-> adjacent_opposite cells i p i') /\
    (forall i p i', entry (f_neigh s) i p (Some i') -> exists p', p' < 4 /\ entry (f_neigh s) i' p' (Some i)) /\
    (forall h f, nth_error (f_nodes s) h = Some f ->
      exists a o m, nth_error (f_cells s) h = Some (a, o) /\ nth_error (f_mark s) h = Some m /\
        (forall i, cell_has cells i f <-> i = a \/ o = Some i) /\ (forall b, o = Some b -> a <> b) /\
        (m = true <-> exists i, forall i', cell_has cells i' f <-> i' = i)).
Proof.
  intros H1 H2 H3. destruct (tri3_inv cells markers H1 H2 H3) as ([s es] & E & HI & _). cbn [fst] in HI.
  fold fp3 in HI. pose proof (make4 cells markers H1 H3) as M. fold fp3 in M.
  exists s, es. split; [assumption|].
  split; [apply (final_nodup _ _ _ _ HI)|].
  split; [intros e; apply (final_nodes cells 4 fp3 H1 eq_refl s HI)|].
  split.
  { intros i c Hc. destruct (final_cell_facets cells 4 fp3 H1 eq_refl M s HI i c Hc) as (row & R1 & R2 & R3 & R4 & R5 & _).
    exists row. auto. }
  pose proof (final_neigh_shape _ _ _ _ HI) as Hsh. split; [apply Hsh|].
  split.
  { intros i p Hi Hp. destruct (shaped_entry _ _ _ i p Hsh Hi Hp) as (o & Ho). exists o. split; [assumption|].
    intros i'. rewrite <- (final_neighbors cells 4 fp3 H1 eq_refl M s HI i p i' Hi Hp).
    split; [intros ->; assumption|]. intros H. eapply entry_fun; eassumption. }
  split.
  { intros i p i' Hn. destruct (entry_lt _ _ _ _ _ _ Hsh Hn) as [Hi Hp].
    apply (final_neighbors cells 4 fp3 H1 eq_refl M s HI i p i' Hi Hp) in Hn.
    destruct (adjacent_sym 4 cells i p i' H1 Hn) as (p' & Hp' & Ha). exists p'. split; [assumption|].
    apply (final_neighbors cells 4 fp3 H1 eq_refl M s HI); [|assumption|assumption].
    destruct Ha as (_ & c & _ & _ & Hc & _). apply nth_error_Some. congruence. }
  intros h e Hh.
  destruct (final_boundary cells 4 fp3 H1 eq_refl M s HI h e Hh) as (a & o & Hc & Hm & Hd & Hx).
  exists a, o, (match o with None => true | Some _ => false end).
  split; [assumption|]. split; [assumption|]. split; [assumption|]. split; [assumption|]. split.
  - destruct o as [b|]; [discriminate|]. intros _. exists a. intros i'. rewrite Hx. intuition discriminate.
  - intros (i & Hi). destruct o as [b|]; [|reflexivity]. exfalso. apply (Hd b eq_refl).
    transitivity i; [|symmetry]; apply Hi, Hx; auto.
Qed.
Example tri3_faces_example : exists s es, tri3 mesh3 [true; true; true; true; true] = Ok (s, es) /\
  f_nodes s = [[0; 1; 2]; [0; 1; 3]; [0; 2; 3]; [1; 2; 3]; [0; 3; 4]; [0; 1; 4]; [1; 3; 4]; [1; 2; 4]; [0; 2; 4]] /\
  f_mark s = [false; false; true; true; true; false; true; true; true] /\
  f_neigh s = [[None; None; Some 1; Some 2]; [Some 0; None; Some 2; None]; [None; Some 0; None; Some 1]].
Proof. do 2 eexists. split; [vm_compute; reflexivity|]. split; [|split]; vm_compute; reflexivity. Qed.

(* ---- C44: the loop stops on the nodes whose marker is NOT set ---- *)
Definition marked_nodes (markers : list bool) : list nat :=
  filter (fun i => nth i markers false) (seq 0 (length markers)).
Theorem boundary_nodes_visits_the_interior markers :
  visit_boundary_nodes markers (length markers) = Ok (filter (fun i => negb (nth i markers false)) (seq 0 (length markers))).
Proof.
  unfold visit_boundary_nodes. rewrite visit2_ok by lia. f_equal. apply filter_ext. intros i.
  unfold kept. now destruct (nth i markers false).
Qed.
(* it agrees with the claim only on a mesh without nodes *)
Theorem boundary_nodes_iteration_partial markers :
  visit_boundary_nodes markers (length markers) = Ok (marked_nodes markers) <-> markers = [].
Proof.
  split; [|intros ->; reflexivity]. rewrite boundary_nodes_visits_the_interior. intros [= E].
  destruct markers as [|b m]; [reflexivity|]. exfalso.
  assert (H : In 0 (filter (fun i => negb (nth i (b :: m) false)) (seq 0 (length (b :: m)))) <-> In 0 (marked_nodes (b :: m)))
    by (now rewrite E).
  unfold marked_nodes in H. rewrite !filter_In in H. cbn [nth] in H.
  assert (In 0 (seq 0 (length (b :: m)))) by (simpl; auto). destruct b; simpl in H; intuition discriminate.
Qed.
Theorem boundary_nodes_iteration_refuted : exists markers,
  visit_boundary_nodes markers (length markers) <> Ok (marked_nodes markers).
Proof. exists [true; true; false; true]. vm_compute. discriminate. Qed.

(* ---- C98: iteration over the edges of a 2D triangulation ---- *)
Theorem edges2_iteration filter_ : visit_edges2 filter_ (length filter_) =
  Ok (filter (fun i => nth i filter_ false) (seq 0 (length filter_))).
Proof. unfold visit_edges2. rewrite visit2_ok by lia. reflexivity. Qed.
Theorem boundary_edges2_iteration cells s vs : simplicial 3 cells -> conforming cells -> tri2 cells = Ok s ->
  visit_edges2 (f_mark s) (length (f_nodes s)) = Ok vs ->
  StronglySorted lt vs /\
  forall h, In h vs <-> exists e, nth_error (f_nodes s) h = Some e /\ exists i, forall i', cell_has cells i' e <-> i' = i.
Proof.
  intros H1 H2 E Hv. destruct (tri2_boundary_edges cells H1 H2) as (s' & E' & HB). rewrite E in E'. injection E' as <-.
  destruct (tri2_inv cells H1 H2) as (s' & E' & HI). rewrite E in E'. injection E' as <-.
  destruct (final_nodup _ _ _ _ HI) as (_ & _ & Hl).
  rewrite <- Hl, edges2_iteration in Hv. injection Hv as <-. split.
  - assert (G : forall g a n, StronglySorted lt (filter g (seq a n)) /\ forall x, In x (filter g (seq a n)) -> a <= x).
    { intros g a n. revert a. induction n as [|n IH]; intros a; cbn [seq filter]; [split; [constructor|intros _ []]|].
      destruct (IH (S a)) as [I1 I2]. destruct (g a).
      - split; [constructor; [assumption|]; rewrite Forall_forall; intros x Hx; apply I2 in Hx; lia|].
        intros x [<-|Hx]; [lia|apply I2 in Hx; lia].
      - split; [assumption|]. intros x Hx. apply I2 in Hx; lia. }
    apply G.
  - intros h. rewrite filter_In, in_seq. split.
    + intros [[_ Hh] Hm]. simpl in Hh. rewrite Hl in Hh.
      destruct (nth_error (f_nodes s) h) as [e|] eqn:Ee; [|apply nth_error_None in Ee; lia].
      exists e. split; [reflexivity|]. destruct (HB h e Ee) as (a & o & m & _ & Em & _ & _ & Hx).
      apply Hx. rewrite (nth_error_nth _ _ _ Em) in Hm. exact Hm.
    + intros (e & Ee & Hx). destruct (HB h e Ee) as (a & o & m & _ & Em & _ & _ & Hy).
      apply Hy in Hx. subst m. split; [|now apply nth_error_nth].
      split; [lia|]. simpl. apply nth_error_Some. congruence.
Qed.
Example boundary_edges2_iteration_example : exists s, tri2 mesh2 = Ok s /\
  visit_edges2 (f_mark s) (length (f_nodes s)) = Ok [0; 4; 7; 8; 9].
Proof. eexists. split; vm_compute; reflexivity. Qed.

(* ---- C45: the last item is missed when it is selected ---- *)
Definition selected (f : list bool) : list nat := filter (fun i => nth i f false) (seq 0 (length f)).
Theorem iteration3_misses_last f : visit3 f (length f) = Ok (filter (fun i => nth i f false) (seq 0 (length f - 1))).
Proof. now rewrite visit3_ok. Qed.
Lemma selected_split f b : selected (f ++ [b]) = filter (fun i => nth i (f ++ [b]) false) (seq 0 (length f)) ++ (if b then [length f] else []).
Proof.
  unfold selected. rewrite app_length. cbn [length]. rewrite Nat.add_1_r, seq_S, filter_app. f_equal.
  cbn [filter]. rewrite app_nth2, Nat.sub_diag by lia. cbn [nth plus]. now destruct b.
Qed.
Theorem iteration3_partial f : visit3 f (length f) = Ok (selected f) <-> last f false = false.
Proof.
  rewrite iteration3_misses_last. destruct f as [|x f _] using rev_ind.
  - split; reflexivity.
  - rewrite last_last, selected_split, app_length. cbn [length]. replace (length f + 1 - 1) with (length f) by lia.
    destruct x.
    + split; [|discriminate]. intros [= H]. apply (f_equal (@length nat)) in H. rewrite app_length in H. simpl in H. lia.
    + rewrite app_nil_r. split; reflexivity.
Qed.
Theorem iteration3_refuted : exists f, visit3 f (length f) <> Ok (selected f).
Proof. exists [true; false; true]. vm_compute. discriminate. Qed.
(* all edges of a mesh: the default filter selects everything *)
Theorem edges3_iteration_refuted n : visit3 (repeat true (S n)) (S n) = Ok (seq 0 n).
Proof.
  rewrite visit3_ok by (rewrite repeat_length; lia). f_equal. replace (S n - 1) with n by lia.
  assert (G : forall g l, (forall x : nat, In x l -> g x = true) -> filter g l = l).
  { intros g l. induction l as [|x l IH]; intros H; [reflexivity|]. simpl. rewrite (H x) by now left. f_equal. apply IH.
    intros y Hy. apply H. now right. }
  apply G. intros x Hx. apply in_seq in Hx. apply (repeat_spec (S n) true). apply nth_In. rewrite repeat_length. lia.
Qed.
Example iteration3_example : visit3 [false; true; true; false] 4 = Ok [1; 2]. Proof. reflexivity. Qed.

(* ---- C96: the edge tables of a tetrahedral mesh ---- *)
Theorem tri3_edges cells markers : simplicial 4 cells -> conforming cells ->
  (forall c v, In c cells -> In v c -> v < length markers) ->
  exists s es, tri3 cells markers = Ok (s, es) /\ NoDup (e_nodes es) /\
    (forall e, In e (e_nodes es) <-> exists i, cell_has_edge cells i e) /\
    (forall id e, nth_error (e_nodes es) id = Some e -> exists cs, nth_error (e_cells es) id = Some cs /\
       NoDup cs /\ forall i, In i cs <-> cell_has_edge cells i e) /\
    length (fe es) = length (f_nodes s) /\
    (forall h f, nth_error (f_nodes s) h = Some f -> exists ids, nth_error (fe es) h = Some ids /\ length ids = 3 /\
       NoDup ids /\ (forall id, In id ids -> id < length (e_nodes es)) /\
       forall e, edge_in_cell e f <-> exists id, In id ids /\ nth_error (e_nodes es) id = Some e).
Proof.
  intros H1 H2 H3. destruct (tri3_inv cells markers H1 H2 H3) as ([s es] & E & HI & HE & HF1 & HF2). cbn [fst snd] in *.
  exists s, es. split; [assumption|]. split; [apply (ei_nd _ _ _ HE)|]. split; [|split; [|split]].
  - intros e. rewrite (ei_in _ _ _ HE). split; intros (i & Hi); exists i; now apply (pairs_edges_all cells markers H1 H3).
  - intros id e He. destruct (ei_cells _ _ _ HE _ _ He) as (cs & Hcs & Hn & Hin). exists cs.
    split; [assumption|]. split; [assumption|]. intros i. rewrite Hin. apply (pairs_edges_all cells markers H1 H3).
  - assumption.
  - intros h f Hf. destruct (HF2 h f Hf) as (ids & Hids & Hm). exists ids. split; [assumption|].
    assert (Hin : In f (f_nodes s)) by (eapply nth_error_In; eauto).
    apply (inv_in _ _ _ _ HI) in Hin as (q & Hq & <-). apply (loop_pairs_in cells 4 fp3 eq_refl) in Hq.
    destruct (key4_shape cells markers H1 H3 q Hq) as (a & b & c & Ek & Hab & Hbc & _).
    rewrite Ek in *. split; [|split; [|split]].
    + apply (f_equal (@length _)) in Hm. rewrite !map_length in Hm. exact Hm.
    + apply (NoDup_map_inv (fun e => nth_error (e_nodes es) e)). rewrite Hm. cbn [face_edges map].
      constructor; [|constructor; [|constructor; [|constructor]]]; simpl.
      * intros [[= ]|[[= ]|[]]]; lia.
      * intros [[= ]|[]]; lia.
      * auto.
    + intros id Hid. apply (in_map (fun e => nth_error (e_nodes es) e)) in Hid. rewrite Hm in Hid.
      apply in_map_iff in Hid as (e & He & _). apply nth_error_Some. congruence.
    + intros e. rewrite <- (face_edges_in a b c e Hab Hbc). split.
      * intros He. apply (in_map Some) in He. rewrite <- Hm in He. apply in_map_iff in He as (id & Hid & Hi). eauto.
      * intros (id & Hid & Hi). apply (in_map (fun e => nth_error (e_nodes es) e)) in Hid. rewrite Hm, Hi in Hid.
        apply in_map_iff in Hid as (e' & [= ->] & He'). assumption.
Qed.
Example tri3_edges_example : exists s es, tri3 mesh3 [true; true; true; true; true] = Ok (s, es) /\
  e_nodes es = [[0; 1]; [0; 2]; [1; 2]; [0; 3]; [1; 3]; [2; 3]; [0; 4]; [3; 4]; [1; 4]; [2; 4]] /\
  e_cells es = [[2; 1; 0]; [2; 0]; [2; 0]; [1; 0]; [1; 0]; [0]; [2; 1]; [1]; [2; 1]; [2]].
Proof. do 2 eexists. split; [vm_compute; reflexivity|]. split; vm_compute; reflexivity. Qed.

(* C99: an edge is on the boundary when it lies on a face of one cell only *)
Definition boundary_face (cells : list (list nat)) (f : list nat) : Prop :=
  exists i, forall i', cell_has cells i' f <-> i' = i.
Definition boundary_edge (cells : list (list nat)) (e : list nat) : Prop :=
  exists f, boundary_face cells f /\ edge_in_cell e f.
(* the marker is the conjunction of the node markers; so no boundary edge is missed when the nodes of the
   boundary faces are marked.  The converse fails. *)
Theorem tri3_edge_marker_partial cells markers : simplicial 4 cells -> conforming cells ->
  (forall c v, In c cells -> In v c -> v < length markers) ->
  exists s es, tri3 cells markers = Ok (s, es) /\ length (e_mark es) = length (e_nodes es) /\
    (forall id a b, nth_error (e_nodes es) id = Some [a; b] -> exists m, nth_error (e_mark es) id = Some m /\
       (m = true <-> nth_error markers a = Some true /\ nth_error markers b = Some true)) /\
    ((forall f v, boundary_face cells f -> In v f -> nth_error markers v = Some true) ->
     forall id e, nth_error (e_nodes es) id = Some e -> boundary_edge cells e -> nth_error (e_mark es) id = Some true).
Proof.
  intros H1 H2 H3. destruct (tri3_inv cells markers H1 H2 H3) as ([s es] & E & HI & HE & _). cbn [fst snd] in *.
  exists s, es. split; [assumption|]. split; [apply (ei_lm _ _ _ HE)|].
  assert (G : forall id a b, nth_error (e_nodes es) id = Some [a; b] -> exists m, nth_error (e_mark es) id = Some m /\
       (m = true <-> nth_error markers a = Some true /\ nth_error markers b = Some true)).
  { intros id a b Hid. destruct (ei_mark _ _ _ HE _ _ _ Hid) as (ma & mb & Ha & Hb & Hm). exists (ma && mb).
    split; [assumption|]. rewrite andb_true_iff. split; [intros [-> ->]; auto|intros [Ea Eb]; split; congruence]. }
  split; [exact G|]. intros Hbf id e Hid (f & Hf & a & b & -> & Hab & Ha & Hb).
  destruct (G id a b Hid) as (m & Hm & Hx). rewrite Hm. f_equal. apply Hx. split; apply (Hbf f); assumption.
Qed.
Theorem tri3_edge_marker_refuted : exists cells markers s es id e,
  simplicial 4 cells /\ conforming cells /\ tri3 cells markers = Ok (s, es) /\
  (forall f v, boundary_face cells f -> In v f -> nth_error markers v = Some true) /\
  nth_error (e_nodes es) id = Some e /\ nth_error (e_mark es) id = Some true /\ ~ boundary_edge cells e.
Proof.
  exists mesh3, [true; true; true; true; true]. do 2 eexists. exists 0, [0; 1].
  split; [apply mesh3_simplicial|]. split; [apply mesh3_conforming|]. split; [vm_compute; reflexivity|].
  split.
  - intros f v (i & Hi) Hv. assert (H : cell_has mesh3 i f) by now apply Hi. destruct H as (c & Hc & _ & _ & Hinc).
    apply Hinc in Hv. apply nth_error_In in Hc. simpl in Hc.
    destruct Hc as [<-|[<-|[<-|[]]]]; simpl in Hv; repeat (destruct Hv as [<-|Hv]; [reflexivity|]); destruct Hv.
  - split; [reflexivity|]. split; [reflexivity|].
    intros (f & (i & Hi) & a & b & E & Hab & Ha & Hb). injection E as <- <-.
    assert (H : cell_has mesh3 i f) by now apply Hi.
    pose proof (facet_key mesh3 4 mesh3_simplicial i f H) as (Hlt & j & Hj & ->).
    assert (Hother : forall i', i' < 3 -> i' <> i -> forall j', j' < 4 -> fkey mesh3 4 (i, j) <> fkey mesh3 4 (i', j')).
    { intros i' Hi' Hne j' Hj' Ef. apply Hne, Hi. rewrite Ef. now apply (key_facet mesh3 4 mesh3_simplicial). }
    simpl in Hlt.
    do 3 (destruct i as [|i]; [do 4 (destruct j as [|j];
       [try (revert Ha Hb; vm_compute; intuition discriminate);
        try (now apply (Hother 0 ltac:(lia) ltac:(lia) 0 ltac:(lia)));
        try (now apply (Hother 0 ltac:(lia) ltac:(lia) 1 ltac:(lia)));
        try (now apply (Hother 1 ltac:(lia) ltac:(lia) 1 ltac:(lia)));
        try (now apply (Hother 1 ltac:(lia) ltac:(lia) 0 ltac:(lia)));
        try (now apply (Hother 1 ltac:(lia) ltac:(lia) 2 ltac:(lia)));
        try (now apply (Hother 1 ltac:(lia) ltac:(lia) 3 ltac:(lia)));
        try (now apply (Hother 2 ltac:(lia) ltac:(lia) 0 ltac:(lia)));
        try (now apply (Hother 2 ltac:(lia) ltac:(lia) 1 ltac:(lia)));
        try (now apply (Hother 2 ltac:(lia) ltac:(lia) 2 ltac:(lia)));
        try (now apply (Hother 2 ltac:(lia) ltac:(lia) 3 ltac:(lia)))|]); lia|]).
    lia.
Qed.

(* ---- C97: surface() ---- *)
Definition boundary_faces_list (faces : list (list nat)) (fmark : list bool) : list (list nat) :=
  map fst (filter (fun x => snd x) (combine faces fmark)).
(* id lists agree up to the renumbering orig of the nodes *)
Definition same_face (orig : list nat) (row : option (list nat)) (f : list nat) : Prop :=
  exists ids, row = Some ids /\ map (nth_error orig) ids = map Some f.

Lemma selected_map faces fmark : length fmark = length faces ->
  map (nth_error faces) (selected fmark) = map Some (boundary_faces_list faces fmark).
Proof.
  unfold selected, boundary_faces_list. revert fmark.
  induction faces as [|f faces IH]; intros [|b m] Hl; try discriminate; [reflexivity|].
  injection Hl as Hl. cbn [length seq filter combine].
  assert (E : map (nth_error (f :: faces)) (filter (fun i => nth i (b :: m) false) (seq 1 (length m))) =
              map (nth_error faces) (filter (fun i => nth i m false) (seq 0 (length m)))).
  { rewrite <- seq_shift. generalize (seq 0 (length m)) as l. induction l as [|x l IHl]; [reflexivity|].
    cbn [map filter]. change (nth (S x) (b :: m) false) with (nth x m false).
    destruct (nth x m false); cbn [map]; rewrite IHl; reflexivity. }
  change (nth 0 (b :: m) false) with b. cbn [snd]. destruct b; cbn [map fst]; rewrite E, (IH m Hl); reflexivity.
Qed.
Lemma selected_length f : length (selected f) = count_occ Bool.bool_dec f true.
Proof. apply count_filter_seq. Qed.

Section SurfaceProps.
Variables (markers : list bool) (faces : list (list nat)) (fmark : list bool).
Hypothesis Hlen : length fmark = length faces.
Hypothesis Hmk : forall f v, In f (boundary_faces_list faces fmark) -> In v f -> nth_error markers v = Some true.

Lemma surface_run vs : visit3 fmark (length faces) = Ok vs -> (forall h, In h vs -> In h (selected fmark)) ->
  length vs <= length (selected fmark) ->
  exists orig rows fs, surface markers faces fmark = Ok (orig, rows ++ repeat None (length (selected fmark) - length vs)) /\
    NoDup orig /\ (forall v, In v orig -> nth_error markers v = Some true) /\
    map (nth_error faces) vs = map Some fs /\ Forall2 (same_face orig) rows fs.
Proof.
  intros Hv Hin Hl.
  assert (Hf : forall f, In f vs -> exists face, nth_error faces f = Some face /\ forall v, In v face -> nth_error markers v = Some true).
  { intros h Hh. apply Hin in Hh. apply (in_map (nth_error faces)) in Hh. rewrite (selected_map faces fmark Hlen) in Hh.
    apply in_map_iff in Hh as (face & Ef & Hface). exists face. split; [auto|]. intros v. now apply Hmk. }
  destruct (surf_face_ok markers faces vs 0 [] [] [] (length (selected fmark))) as (l & rows & fs & E & Ho & Hfs & HF);
    try assumption.
  - split; [constructor|intros _ []].
  - constructor.
  - reflexivity.
  - exists l, rows, fs. unfold surface. rewrite Hv. cbn [bind]. rewrite <- (selected_length fmark).
    cbn [app] in E. rewrite E. cbn [bind fst snd app].
    split; [reflexivity|]. destruct Ho as [Ho1 Ho2]. split; [assumption|]. split; [assumption|]. split; [assumption|].
    exact HF.
Qed.
(* complete when the last face of the table is an interior one *)
Theorem surface_partial : last fmark false = false ->
  exists orig rows, surface markers faces fmark = Ok (orig, rows) /\ NoDup orig /\
    (forall v, In v orig -> nth_error markers v = Some true) /\
    Forall2 (same_face orig) rows (boundary_faces_list faces fmark).
Proof.
  intros Hlast. apply iteration3_partial in Hlast. rewrite Hlen in Hlast.
  destruct (surface_run _ Hlast) as (orig & rows & fs & E & H1 & H2 & H3 & H4); [auto|lia|].
  rewrite Nat.sub_diag in E. cbn [repeat] in E. rewrite app_nil_r in E.
  exists orig, rows. split; [assumption|]. split; [assumption|]. split; [assumption|].
  rewrite (selected_map faces fmark Hlen) in H3.
  assert (fs = boundary_faces_list faces fmark) as ->; [|assumption].
  revert H3. generalize (boundary_faces_list faces fmark) as l. clear.
  induction fs as [|f fs IH]; intros [|g l] H; try discriminate; [reflexivity|].
  injection H as -> H. f_equal. symmetry. symmetry in H. apply eq_sym. now apply IH.
Qed.
(* otherwise the last row of the cell table of the surface is never written *)
Theorem surface_refuted : last fmark false = true ->
  exists orig rows, surface markers faces fmark = Ok (orig, rows ++ [None]) /\
    S (length rows) = length (boundary_faces_list faces fmark).
Proof.
  intros Hlast. pose proof (iteration3_misses_last fmark) as Hv. rewrite Hlen in Hv at 1.
  destruct (exists_last (l := fmark)) as (m & b & Efm); [intros E; rewrite E in Hlast; discriminate|].
  rewrite Efm, last_last in Hlast. subst b.
  assert (Es := selected_split m true). cbn match in Es. rewrite <- Efm in Es.
  assert (Hl : length fmark - 1 = length m) by (rewrite Efm, app_length; simpl; lia). rewrite Hl in Hv.
  destruct (surface_run _ Hv) as (orig & rows & fs & E & H1 & H2 & H3 & H4).
  - intros h Hh. rewrite Es. apply in_or_app. now left.
  - rewrite Es, app_length. lia.
  - rewrite Es, app_length in E. cbn [length] in E.
    match type of E with context [repeat None ?k] => replace k with 1 in E by lia end. cbn [repeat] in E.
    exists orig, rows. split; [assumption|].
    apply (f_equal (@length _)) in H3. rewrite !map_length in H3.
    pose proof (f_equal (@length _) (selected_map faces fmark Hlen)) as H5. rewrite !map_length, Es, app_length in H5.
    cbn [length] in H5. apply Forall2_length in H4. lia.
Qed.
End SurfaceProps.
(* the surface of one tetrahedron has three faces instead of four *)
Example surface_tetrahedron : exists s es, tri3 [[0; 1; 2; 3]] [true; true; true; true] = Ok (s, es) /\
  surface [true; true; true; true] (f_nodes s) (f_mark s) =
    Ok ([0; 1; 2; 3], [Some [0; 1; 2]; Some [0; 1; 3]; Some [0; 2; 3]; None]).
Proof. do 2 eexists. split; vm_compute; reflexivity. Qed.
Example surface_partial_example : surface [true; true; false; true; true] [[0; 1; 3]; [1; 2; 3]; [1; 3; 4]; [0; 1; 2]] [true; false; true; false] =
  Ok ([0; 1; 3; 4], [Some [0; 1; 2]; Some [1; 2; 3]]).
Proof. vm_compute; reflexivity. Qed.

Print Assumptions tri2_adjacency.
Print Assumptions tri2_boundary_edges.
Print Assumptions tri3_faces.
Print Assumptions tri3_edges.
Print Assumptions tri3_edge_marker_refuted.
Print Assumptions surface_refuted.
