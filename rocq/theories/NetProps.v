(* C46: incidence and adjacency of a linear network. *)
From Coq Require Import Lia Permutation Sorted.
From Verif Require Import NetModel.

(* ---- specification ---- *)
Definition touches (cells : list ncell) (i v : nat) : Prop :=
  exists c, nth_error cells i = Some c /\ (fst c = v \/ snd c = v).
Definition no_loops (cells : list ncell) : Prop := forall c, In c cells -> fst c <> snd c.
Definition share_node (cells : list ncell) (i j : nat) : Prop := exists v, touches cells i v /\ touches cells j v.

(* ---- incidence ---- *)
(* the vector of node v, or none *)
Definition vec (v : nat) (m : nmap) : list nat := match at_node v m with Ok l => l | _ => [] end.

Lemma vec_push v w i m : vec v (push_cell w i m) = if v =? w then vec v m ++ [i] else vec v m.
Proof.
  unfold vec. induction m as [|[u l] m IH]; cbn [push_cell at_node].
  - destruct (v =? w); reflexivity.
  - destruct (Nat.eqb_spec w u) as [->|Hne]; cbn [at_node].
    + destruct (Nat.eqb_spec v u); reflexivity.
    + destruct (Nat.eqb_spec v u) as [->|Hne'].
      * destruct (Nat.eqb_spec u w) as [->|]; [contradiction|reflexivity].
      * exact IH.
Qed.
Lemma at_push v w i m : (exists l, at_node v (push_cell w i m) = Ok l) <-> v = w \/ exists l, at_node v m = Ok l.
Proof.
  induction m as [|[u l] m IH]; cbn [push_cell at_node].
  - destruct (Nat.eqb_spec v w) as [->|Hne].
    + split; [now left|]. intros _. eauto.
    + split; [intros [l H]; discriminate|]. intros [H|[l H]]; [contradiction|discriminate].
  - destruct (Nat.eqb_spec w u) as [->|Hne]; cbn [at_node].
    + destruct (Nat.eqb_spec v u) as [->|Hne'].
      * split; [now left|]. intros _. eauto.
      * split; [now right|]. intros [H|H]; [contradiction|assumption].
    + destruct (Nat.eqb_spec v u) as [->|Hne'].
      * split; intros _; [right|]; eauto.
      * exact IH.
Qed.
Lemma keys_push w i m : NoDup (map fst m) -> NoDup (map fst (push_cell w i m)) /\
  forall x, In x (map fst (push_cell w i m)) -> x = w \/ In x (map fst m).
Proof.
  induction m as [|[u l] m IH]; cbn [push_cell map fst]; intros Hn.
  - split; [constructor; [intros []|constructor]|]. intros x [->|[]]; auto.
  - inversion Hn; subst. destruct (Nat.eqb_spec w u) as [->|Hne]; cbn [map fst].
    + split; [assumption|]. intros x Hx; auto.
    + destruct (IH ltac:(assumption)) as [I1 I2]. split.
      * constructor; [|assumption]. intros Hx. apply I2 in Hx as [->|]; contradiction.
      * intros x [->|Hx]; [right; now left|]. apply I2 in Hx as [->|]; [auto|right; now right].
Qed.

(* every vector lists the incident cells met so far, in increasing order *)
Lemma node_to_cells_inv cells : forall k m done, no_loops cells -> k = length done ->
  NoDup (map fst m) ->
  (forall v, StronglySorted lt (vec v m) /\ forall i, In i (vec v m) <-> touches done i v) ->
  (forall v, (exists l, at_node v m = Ok l) <-> exists i, touches done i v) ->
  let m' := node_to_cells_from k cells m in
  NoDup (map fst m') /\
  (forall v, StronglySorted lt (vec v m') /\ forall i, In i (vec v m') <-> touches (done ++ cells) i v) /\
  (forall v, (exists l, at_node v m' = Ok l) <-> exists i, touches (done ++ cells) i v).
Proof.
  induction cells as [|[a b] cells IH]; intros k m done Hnl Hk Hn HV HA; cbn [node_to_cells_from].
  - rewrite app_nil_r. auto.
  - set (m1 := push_cell b k (push_cell a k m)).
    assert (Hab : a <> b) by (apply (Hnl (a, b)); now left).
    assert (Ht : forall i v, touches (done ++ [(a, b)]) i v <-> touches done i v \/ (i = k /\ (a = v \/ b = v))).
    { intros i v. unfold touches. split.
      - intros (c & Hc & Hv). destruct (Nat.lt_ge_cases i (length done)) as [Hl|Hl].
        + rewrite nth_error_app1 in Hc by assumption. left; eauto.
        + rewrite nth_error_app2 in Hc by assumption. destruct (i - length done) as [|d] eqn:E; [|destruct d; discriminate].
          injection Hc as <-. right. split; [lia|exact Hv].
      - intros [(c & Hc & Hv)|[-> Hv]].
        + exists c. split; [|assumption]. rewrite nth_error_app1; [assumption|]. apply nth_error_Some. congruence.
        + exists (a, b). split; [|exact Hv]. subst k. rewrite nth_error_app2, Nat.sub_diag by lia. reflexivity. }
    assert (Hlt : forall i v, touches done i v -> i < k).
    { intros i v (c & Hc & _). subst k. apply nth_error_Some. congruence. }
    specialize (IH (S k) m1 (done ++ [(a, b)])).
    rewrite <- app_assoc in IH. apply IH.
    + intros c Hc. apply Hnl. now right.
    + rewrite app_length. simpl. lia.
    + apply keys_push, keys_push, Hn.
    + intros v. destruct (HV v) as [S1 S2].
      assert (Happ : StronglySorted lt (vec v m ++ [k])).
      { assert (Hall : forall i, In i (vec v m) -> i < k) by (intros i Hi; apply (Hlt i v), S2, Hi).
        clear -S1 Hall. induction S1 as [|x l Hs IHs Hx]; [repeat constructor|].
        simpl. constructor; [apply IHs; intros i Hi; apply Hall; now right|].
        apply Forall_app. split; [assumption|]. constructor; [apply Hall; now left|constructor]. }
      unfold m1. rewrite !vec_push.
      destruct (Nat.eqb_spec v b) as [->|Hvb]; [destruct (Nat.eqb_spec b a) as [->|_]; [contradiction|]|
        destruct (Nat.eqb_spec v a) as [->|Hva]].
      * split; [assumption|]. intros i. rewrite in_app_iff, S2, Ht. simpl. intuition.
      * split; [assumption|]. intros i. rewrite in_app_iff, S2, Ht. simpl. intuition.
      * split; [assumption|]. intros i. rewrite S2, Ht. intuition congruence.
    + intros v. unfold m1. rewrite !at_push. rewrite HA. split.
      * intros [->|[->|(i & Hi)]].
        -- exists k. apply Ht. right. auto.
        -- exists k. apply Ht. right. auto.
        -- exists i. apply Ht. now left.
      * intros (i & Hi). apply Ht in Hi as [Hi|[_ [->| ->]]]; eauto.
Qed.
Lemma node_to_cells_ok cells : no_loops cells ->
  NoDup (map fst (node_to_cells cells)) /\
  (forall v, StronglySorted lt (vec v (node_to_cells cells)) /\
     forall i, In i (vec v (node_to_cells cells)) <-> touches cells i v) /\
  (forall v, (exists l, at_node v (node_to_cells cells) = Ok l) <-> exists i, touches cells i v).
Proof.
  intros Hn. apply (node_to_cells_inv cells 0 [] [] Hn); try reflexivity.
  - constructor.
  - intros v. split; [constructor|]. intros i. split; [intros []|]. intros (c & Hc & _). destruct i; discriminate.
  - intros v. split; [intros (l & H); discriminate|]. intros (i & c & Hc & _). destruct i; discriminate.
Qed.

(* node_patch lists exactly the cells of a node, each once; it throws for a node of no cell *)
Theorem network_node_patch cells v : no_loops cells ->
  match at_node v (node_to_cells cells) with
  | Ok l => l <> [] /\ NoDup l /\ forall i, In i l <-> touches cells i v
  | _ => forall i, ~ touches cells i v
  end.
Proof.
  intros Hn. destruct (node_to_cells_ok cells Hn) as (_ & HV & HA).
  destruct (HV v) as [S1 S2]. unfold vec in S1, S2.
  specialize (HA v). destruct (at_node v (node_to_cells cells)) as [l| | |] eqn:E.
  - destruct (proj1 HA) as (i & Hi); [eauto|]. split; [|split; [|assumption]].
    + intros ->. apply S2 in Hi. destruct Hi.
    + clear -S1. induction S1 as [|x l Hs IH Hx]; constructor; auto. rewrite Forall_forall in Hx. intros H. specialize (Hx _ H). lia.
  - intros i Hi. destruct (proj2 HA) as (l & El); [eauto|discriminate].
  - intros i Hi. destruct (proj2 HA) as (l & El); [eauto|discriminate].
  - intros i Hi. destruct (proj2 HA) as (l & El); [eauto|discriminate].
Qed.

(* ---- the adjacency matrix ---- *)
Lemma pair_triplets_in l r c : StronglySorted lt l -> (In (r, c) (pair_triplets l) <-> In r l /\ In c l /\ c < r).
Proof.
  induction 1 as [|x l Hs IH Hx]; cbn [pair_triplets].
  - split; [intros []|intros ([] & _)].
  - rewrite in_app_iff, IH, in_map_iff. rewrite Forall_forall in Hx. split.
    + intros [(y & [= <- <-] & Hy)|(H1 & H2 & H3)]; simpl; auto.
    + simpl. intros ([->|H1] & [->|H2] & H3); [lia|specialize (Hx _ H2); lia|left; eauto|right; auto].
Qed.
Lemma at_node_in v l m : NoDup (map fst m) -> (In (v, l) m <-> at_node v m = Ok l).
Proof.
  induction m as [|[u k] m IH]; cbn [map fst at_node]; intros Hn; [split; [intros []|discriminate]|].
  inversion Hn; subst. destruct (Nat.eqb_spec v u) as [->|Hne].
  - split; [|intros [= ->]; now left]. intros [[= ->]|H]; [reflexivity|].
    exfalso. apply (in_map fst) in H. contradiction.
  - rewrite <- IH by assumption. split; [intros [[= -> ->]|H]; [contradiction|assumption]|intros H; now right].
Qed.
Lemma lower_pos cells entries r c : no_loops cells -> Permutation entries (node_to_cells cells) ->
  (0 < lower_entry entries r c <-> c < r /\ share_node cells r c).
Proof.
  intros Hn Hp. destruct (node_to_cells_ok cells Hn) as (Hnd & HV & HA).
  unfold lower_entry.
  set (dec := fun x y : nat * nat => _).
  assert (Hc : 0 < count_occ dec (triplets entries) (r, c) <-> In (r, c) (triplets entries)).
  { split; intros H; [apply (count_occ_In dec); lia|apply (count_occ_In dec) in H; lia]. }
  rewrite Hc. unfold triplets. rewrite in_flat_map. split.
  - intros ([v l] & Hin & Hr). cbn [snd] in Hr. eapply Permutation_in in Hin; [|exact Hp].
    apply (at_node_in v l _ Hnd) in Hin. destruct (HV v) as [S1 S2]. unfold vec in S1, S2. rewrite Hin in S1, S2.
    apply (pair_triplets_in _ _ _ S1) in Hr as (H1 & H2 & H3). split; [assumption|].
    exists v. split; now apply S2.
  - intros (Hlt & v & H1 & H2). destruct (proj2 (HA v)) as (l & Hl); [eauto|].
    exists (v, l). cbn [snd]. split.
    + eapply Permutation_in; [symmetry; exact Hp|]. now apply (at_node_in v l _ Hnd).
    + destruct (HV v) as [S1 S2]. unfold vec in S1, S2. rewrite Hl in S1, S2.
      apply (pair_triplets_in _ _ _ S1). split; [now apply S2|]. split; [now apply S2|assumption].
Qed.
(* whatever the iteration order of the map, neighbors() is symmetric and non-zero exactly at the pairs of
   distinct cells with a common node *)
Theorem network_adjacency cells entries : no_loops cells -> Permutation entries (node_to_cells cells) ->
  (forall i j, neighbors_entry entries i j = neighbors_entry entries j i) /\
  (forall i j, neighbors_entry entries i j <> 0 <-> i <> j /\ share_node cells i j).
Proof.
  intros Hn Hp. split.
  - intros i j. unfold neighbors_entry. destruct (Nat.leb_spec j i), (Nat.leb_spec i j); try reflexivity; try lia.
    now replace j with i by lia.
  - intros i j. unfold neighbors_entry.
    pose proof (lower_pos cells entries i j Hn Hp) as L1. pose proof (lower_pos cells entries j i Hn Hp) as L2.
    assert (Hs : share_node cells i j <-> share_node cells j i).
    { unfold share_node. split; intros (v & H1 & H2); exists v; auto. }
    destruct (Nat.leb_spec j i) as [H|H].
    + split.
      * intros H0. destruct L1 as [L1 _]. destruct L1 as [H1 H2]; [lia|]. split; [lia|assumption].
      * intros [H1 H2]. assert (0 < lower_entry entries i j) by (apply L1; split; [lia|assumption]). lia.
    + split.
      * intros H0. destruct L2 as [L2 _]. destruct L2 as [H1 H2]; [lia|]. split; [lia|now apply Hs].
      * intros [H1 H2]. assert (0 < lower_entry entries j i) by (apply L2; split; [lia|now apply Hs]). lia.
Qed.
(* the result does not depend on the iteration order *)
Theorem network_adjacency_order_free cells e1 e2 i j : no_loops cells ->
  Permutation e1 (node_to_cells cells) -> Permutation e2 (node_to_cells cells) ->
  neighbors_entry e1 i j = neighbors_entry e2 i j.
Proof.
  intros _ H1 H2. assert (Hp : Permutation e1 e2) by (rewrite H1; now symmetry).
  unfold neighbors_entry, lower_entry.
  assert (Ht : Permutation (triplets e1) (triplets e2)) by (unfold triplets; now apply Permutation_flat_map).
  destruct (j <=? i); apply Permutation_count_occ; exact Ht.
Qed.

(* ---- neighbors() of a cell reads past the end of its second vector, always ---- *)
Lemma mapM_nth_ub (v : list nat) : forall l, (exists i, In i l /\ length v <= i) -> mapM (fun i => nth_res v i) l = UB.
Proof.
  induction l as [|x l IH]; intros (i & Hi & Hl); [destruct Hi|]. cbn [mapM].
  destruct (nth_error v x) as [y|] eqn:E.
  - apply nth_res_ok in E as E'. rewrite E'. cbn [bind]. rewrite IH; [reflexivity|].
    destruct Hi as [->|Hi]; [apply nth_error_None in Hl; congruence|eauto].
  - unfold nth_res. rewrite E. reflexivity.
Qed.
Theorem network_cell_neighbors_refuted cells id : no_loops cells -> id < length cells ->
  cell_neighbors cells id = UB.
Proof.
  intros Hn Hid. destruct (nth_error cells id) as [c|] eqn:E; [|apply nth_error_None in E; lia].
  unfold cell_neighbors. apply nth_res_ok in E as E'. rewrite E'. cbn [bind].
  pose proof (network_node_patch cells (fst c) Hn) as H1. pose proof (network_node_patch cells (snd c) Hn) as H2.
  assert (T1 : touches cells id (fst c)) by (exists c; auto). assert (T2 : touches cells id (snd c)) by (exists c; auto).
  destruct (at_node (fst c) (node_to_cells cells)) as [v1| | |] eqn:E1; try (exfalso; now apply (H1 id)).
  destruct (at_node (snd c) (node_to_cells cells)) as [v2| | |] eqn:E2; try (exfalso; now apply (H2 id)).
  cbn [bind]. destruct H1 as (H1 & _), H2 as (H2 & _).
  destruct v1 as [|x1 v1]; [contradiction|]. destruct v2 as [|x2 v2]; [contradiction|].
  assert (R1 : exists r1, read_from (x1 :: v1) 0 (length (x1 :: v1)) = Ok r1).
  { unfold read_from. rewrite Nat.sub_0_r. generalize (x1 :: v1) as v. intros v.
    assert (G : forall l, (forall i, In i l -> i < length v) -> exists r, mapM (fun i => nth_res v i) l = Ok r).
    { induction l as [|i l IH]; intros Hl; [exists []; reflexivity|]. cbn [mapM].
      destruct (nth_error v i) as [y|] eqn:Ey; [|apply nth_error_None in Ey; specialize (Hl i (or_introl eq_refl)); lia].
      apply nth_res_ok in Ey. rewrite Ey. cbn [bind].
      destruct IH as (r & Er); [intros k Hk; apply Hl; now right|]. rewrite Er. cbn [bind]. eauto. }
    apply G. intros i Hi. apply in_seq in Hi. lia. }
  destruct R1 as (r1 & ->). cbn [bind].
  assert (read_from (x2 :: v2) (length (x1 :: v1)) (length (x1 :: v1) + length (x2 :: v2)) = UB) as ->; [|reflexivity].
  apply mapM_nth_ub. exists (length (x1 :: v1) + length v2). split; [apply in_seq; simpl; lia|simpl; lia].
Qed.

(* C46 as far as it holds *)
Theorem network_partial cells entries : no_loops cells -> Permutation entries (node_to_cells cells) ->
  (forall v l, at_node v (node_to_cells cells) = Ok l -> NoDup l /\ forall i, In i l <-> touches cells i v) /\
  (forall i j, neighbors_entry entries i j = neighbors_entry entries j i) /\
  (forall i j, neighbors_entry entries i j <> 0 <-> i <> j /\ share_node cells i j).
Proof.
  intros Hn Hp. split; [|now apply network_adjacency].
  intros v l E. pose proof (network_node_patch cells v Hn) as H. rewrite E in H. tauto.
Qed.
Definition net : list ncell := [(0, 1); (1, 2); (3, 1); (2, 4); (5, 6)].
Example net_no_loops : no_loops net.
Proof. intros c Hc. simpl in Hc. repeat (destruct Hc as [<-|Hc]; [discriminate|]). destruct Hc. Qed.
Example net_example : at_node 1 (node_to_cells net) = Ok [0; 1; 2] /\
  neighbors_entry (rev (node_to_cells net)) 0 2 = 1 /\ neighbors_entry (node_to_cells net) 0 3 = 0 /\
  cell_neighbors net 0 = UB.
Proof. repeat split; vm_compute; reflexivity. Qed.
(* a cell joining a node to itself (excluded above) becomes its own neighbour *)
Example net_loop : neighbors_entry (node_to_cells [(0, 0)]) 0 0 = 1. Proof. reflexivity. Qed.
Print Assumptions network_partial.
Print Assumptions network_cell_neighbors_refuted.
