(* C166: node_patch(id) of a mesh of triangles or tetrahedra, on top of the model of TreeSearch. *)
From Coq Require Import Permutation Lia QArith Lqa List.
From Verif Require Import Base TreeModel TreeSpec KdModel KdSpec KdProofs KdProps.
Import ListNotations.
Open Scope nat_scope.

(* a mesh: coordinates of its nodes (at least one) and, for each cell, the ids of its vertices (at least one) *)
Record qmesh := QMesh { coords : nat -> point; n_nodes : nat; verts : nat -> nat * list nat; n_cells : nat }.
Definition vertices (m : qmesh) (i : nat) : list nat := fst (verts m i) :: snd (verts m i).
(* the ids are those of nodes *)
Definition valid_mesh (m : qmesh) : Prop := 0 < n_nodes m /\ 0 < n_cells m /\ forall i v, i < n_cells m -> In v (vertices m i) -> v < n_nodes m.
(* p is in the closed cell i of a mesh in R^N *)
Definition in_cell (N : nat) (m : qmesh) (i : nat) (p : point) : Prop :=
  in_hull N (coords m (fst (verts m i))) (map (coords m) (snd (verts m i))) p.
(* no node lies on a cell of which it is not a vertex *)
Definition no_hanging_nodes (N : nat) (m : qmesh) : Prop :=
  forall i v, i < n_cells m -> v < n_nodes m -> in_cell N m i (coords m v) -> In v (vertices m i).
(* range() of the mesh, triangulation.h:54-55 *)
Definition mesh_range (m : qmesh) : point * point := bounding_box (coords m 0) (map (coords m) (seq 1 (n_nodes m - 1))).
(* bounding_box() of cell i *)
Definition cell_box (m : qmesh) (i : nat) : point * point := bounding_box (coords m (fst (verts m i))) (map (coords m) (snd (verts m i))).
(* triangulation.h:257-260, 479-482 node_patch: the policy is built if necessary and all_locate(node(id)) is
   returned.  [order] is the order in which the unordered_set of candidates is visited. *)
Definition node_patch (N : nat) (m : qmesh) (contains : nat -> point -> bool) nth_element (order : list nat -> list nat)
    (h : heap nat) (fuel : nat) (id : nat) : Res (list nat) :=
  let lo := fst (mesh_range m) in let hi := snd (mesh_range m) in
  r <- ts_build N (n_cells m) lo hi (cell_box m) nth_element h ;;
  ids <- ts_query N lo hi (cell_box m) (fst r) (snd r) fuel (coords m id) ;;
  Ok (all_locate contains (order ids) (coords m id)).

Lemma qsum_cons : forall a l, qsum (a :: l) = (a + qsum l)%Q. Proof. reflexivity. Qed.
Lemma qsum_nil : qsum [] = 0%Q. Proof. reflexivity. Qed.
Lemma qsum_zero : forall vs d, (qsum (map (fun wv : Q * point => fst wv * snd wv d)%Q (combine (repeat 0%Q (length vs)) vs)) == 0)%Q.
Proof. induction vs as [|v vs IH]; intros d; [reflexivity|]. cbn [length repeat combine map]. rewrite qsum_cons, IH. cbn [fst snd]. ring. Qed.
Lemma qsum_repeat0 : forall n, (qsum (repeat 0%Q n) == 0)%Q.
Proof. induction n; [reflexivity|]. cbn [repeat]. rewrite qsum_cons, IHn. ring. Qed.
Lemma vertex_in_hull : forall N v0 vs v, In v (v0 :: vs) -> in_hull N v0 vs v.
Proof.
  intros N v0 vs v [<-|H].
  - exists 1%Q, (repeat 0%Q (length vs)). split; [apply repeat_length|]. split; [discriminate|].
    split; [apply Forall_forall; intros x Hx; apply repeat_spec in Hx; subst; apply Qle_refl|].
    split; [rewrite qsum_repeat0; reflexivity|]. intros d _. rewrite qsum_zero. ring.
  - apply in_split in H. destruct H as (l1 & l2 & ->).
    exists 0%Q, (repeat 0%Q (length l1) ++ 1%Q :: repeat 0%Q (length l2)).
    split; [rewrite !app_length; cbn; now rewrite !repeat_length|]. split; [apply Qle_refl|]. split; [|split].
    + apply Forall_app. split; [|constructor; [discriminate|]]; apply Forall_forall; intros x Hx; apply repeat_spec in Hx; subst; apply Qle_refl.
    + assert (E: forall l1 l2, (qsum (l1 ++ l2) == qsum l1 + qsum l2)%Q).
      { clear. induction l1 as [|a l1 IH]; intros l2; cbn [app]; rewrite ?qsum_cons, ?qsum_nil; [ring|]. rewrite IH. ring. }
      rewrite E, qsum_cons, !qsum_repeat0. ring.
    + intros d _. assert (E: forall l1 l2 (w1 w2 : list Q), length w1 = length l1 ->
        (qsum (map (fun wv : Q * point => fst wv * snd wv d)%Q (combine (w1 ++ w2) (l1 ++ l2))) ==
         qsum (map (fun wv : Q * point => fst wv * snd wv d)%Q (combine w1 l1)) + qsum (map (fun wv : Q * point => fst wv * snd wv d)%Q (combine w2 l2)))%Q).
      { clear. induction l1 as [|a l1 IH]; intros l2 [|w w1] w2 L; try discriminate; cbn [app combine map]; rewrite ?qsum_cons, ?qsum_nil; [ring|]. injection L as L. rewrite (IH l2 w1 w2 L). ring. }
      rewrite E by apply repeat_length. cbn [combine map fst snd]. rewrite qsum_cons, !qsum_zero. cbn [fst snd]. ring.
Qed.

(* whatever contains() says outside the closed cells, and std::nth_element does, the result lists cells
   once each, and every cell that has the node among its vertices *)
Theorem C166_vertices : forall N m contains ne order h fuel id,
  valid_mesh m -> 0 < N -> n_cells m <= fuel -> rearranges ne -> sane h -> id < n_nodes m ->
  (forall l, Permutation (order l) l) ->
  (forall d, d < N -> (fst (mesh_range m) d < snd (mesh_range m) d)%Q) ->
  (forall i q, i < n_cells m -> in_cell N m i q -> contains i q = true) ->
  exists l, node_patch N m contains ne order h fuel id = Ok l /\ NoDup l /\
    (forall i, In i l -> i < n_cells m /\ contains i (coords m id) = true) /\
    forall i, i < n_cells m -> In id (vertices m i) -> In i l.
Proof.
  intros N m contains ne order h fuel id (V1 & V2 & V3) HN Hf Hne Hs Hid Ho Hflat Hc.
  destruct (tree_search_locate N (n_cells m) (coords m 0) (map (coords m) (seq 1 (n_nodes m - 1)))
    (fun i => coords m (fst (verts m i))) (fun i => map (coords m) (snd (verts m i))) contains ne h fuel (coords m id)
    HN V2 Hf Hne Hs Hflat) as (h' & o & ids & A & B & D).
  - intros i v Hi Hv. assert (E: exists k, In k (vertices m i) /\ v = coords m k).
    { destruct Hv as [<-|Hv]; [exists (fst (verts m i)); split; [now left|reflexivity]|].
      apply in_map_iff in Hv. destruct Hv as (k & <- & Hk). exists k. split; [now right|reflexivity]. }
    destruct E as (k & Hk & ->). specialize (V3 i k Hi Hk). destruct k as [|k]; [now left|right].
    apply in_map_iff. exists (S k). split; [reflexivity|apply in_seq; lia].
  - exact Hc.
  - destruct (D (order ids) (Ho ids)) as (D1 & D2 & D3 & _). exists (all_locate contains (order ids) (coords m id)).
    split; [unfold node_patch; cbv zeta; unfold mesh_range, cell_box; rewrite A; cbn [bind fst snd]; rewrite B; reflexivity|].
    split; [assumption|]. split; [assumption|]. intros i Hi Hv. apply D3; auto. apply vertex_in_hull.
    destruct Hv as [<-|Hv]; [now left|right]. now apply in_map.
Qed.
Print Assumptions C166_vertices.
(* on a mesh without hanging nodes, with an exact contains(), they are all: node_patch(id) is the set of
   cells that have id among their vertices *)
Theorem C166_patch : forall N m contains ne order h fuel id,
  valid_mesh m -> 0 < N -> n_cells m <= fuel -> rearranges ne -> sane h -> id < n_nodes m ->
  (forall l, Permutation (order l) l) ->
  (forall d, d < N -> (fst (mesh_range m) d < snd (mesh_range m) d)%Q) ->
  (forall i q, i < n_cells m -> contains i q = true <-> in_cell N m i q) -> no_hanging_nodes N m ->
  exists l, node_patch N m contains ne order h fuel id = Ok l /\ NoDup l /\
    forall i, In i l <-> i < n_cells m /\ In id (vertices m i).
Proof.
  intros N m contains ne order h fuel id V HN Hf Hne Hs Hid Ho Hflat Hc Hg.
  destruct (C166_vertices N m contains ne order h fuel id V HN Hf Hne Hs Hid Ho Hflat) as (l & A & B & C & D);
    [intros i q Hi; now apply Hc|].
  exists l. split; [assumption|]. split; [assumption|]. intros i. split; [|intros [Hi Hv]; auto].
  intros Hi. destruct (C i Hi) as [Hi1 Hi2]. split; [assumption|]. apply (Hg i id); auto. now apply Hc.
Qed.
Print Assumptions C166_patch.

(* the unit square cut in two *)
Definition square2 : qmesh := QMesh four 4 (fun i => if i =? 0 then (0, [1; 2]) else (3, [1; 2])) 2.
Definition in_square2 (i : nat) (p : point) : bool :=
  let x := p 0 in let y := p 1 in
  if i =? 0 then qle 0%Q x && qle 0%Q y && qle (x + y)%Q 1%Q else qle x 1%Q && qle y 1%Q && qle 1%Q (x + y)%Q.
Lemma in_square2_ok : forall i q, in_square2 i q = true <-> in_cell 2 square2 i q.
Proof.
  intros i q. unfold in_square2, in_cell, square2, in_hull. cbn [verts coords fst snd].
  destruct (i =? 0); rewrite !andb_true_iff, !qle_iff; cbn [fst snd map length]; split.
  - intros [[H1 H2] H3]. exists (1 - q 0%nat - q 1%nat)%Q, [q 0%nat; q 1%nat]. split; [reflexivity|]. split; [lra|].
    split; [repeat constructor; assumption|]. split; [rewrite !qsum_cons, qsum_nil; ring|].
    intros [|[|d]] Hd; [| |lia]; cbn [combine map fst snd]; rewrite !qsum_cons, qsum_nil; unfold four, pt2; cbn [nth fst snd Nat.eqb]; ring.
  - intros (w0 & [|w1 [|w2 [|]]] & L & H0 & Hw & Hs & Hp); try discriminate.
    pose proof (Hp 0 ltac:(lia)) as P0. pose proof (Hp 1 ltac:(lia)) as P1.
    cbn [combine map fst snd] in P0, P1. rewrite !qsum_cons, qsum_nil in P0, P1, Hs. unfold four, pt2 in P0, P1. cbn [nth fst snd Nat.eqb] in P0, P1.
    inversion Hw as [|? ? Hw1 Hw']; subst. inversion Hw' as [|? ? Hw2 _]; subst. repeat split; lra.
  - intros [[H1 H2] H3]. exists (q 0%nat + q 1%nat - 1)%Q, [(1 - q 1%nat)%Q; (1 - q 0%nat)%Q]. split; [reflexivity|]. split; [lra|].
    split; [repeat constructor; lra|]. split; [rewrite !qsum_cons, qsum_nil; ring|].
    intros [|[|d]] Hd; [| |lia]; cbn [combine map fst snd]; rewrite !qsum_cons, qsum_nil; unfold four, pt2; cbn [nth fst snd Nat.eqb]; ring.
  - intros (w0 & [|w1 [|w2 [|]]] & L & H0 & Hw & Hs & Hp); try discriminate.
    pose proof (Hp 0 ltac:(lia)) as P0. pose proof (Hp 1 ltac:(lia)) as P1.
    cbn [combine map fst snd] in P0, P1. rewrite !qsum_cons, qsum_nil in P0, P1, Hs. unfold four, pt2 in P0, P1. cbn [nth fst snd Nat.eqb] in P0, P1.
    inversion Hw as [|? ? Hw1 Hw']; subst. inversion Hw' as [|? ? Hw2 _]; subst. repeat split; lra.
Qed.
Example C166_example : valid_mesh square2 /\ no_hanging_nodes 2 square2 /\
  (forall d, d < 2 -> (fst (mesh_range square2) d < snd (mesh_range square2) d)%Q) /\
  exists l, node_patch 2 square2 in_square2 (sort_range (ts_data 2 (fst (mesh_range square2)) (snd (mesh_range square2)) (cell_box square2)))
    (fun l => l) empty_heap 2 1 = Ok l /\ NoDup l /\ forall i, In i l <-> i < 2 /\ In 1 (vertices square2 i).
Proof.
  assert (V: valid_mesh square2).
  { split; [cbn; lia|]. split; [cbn; lia|]. intros [|[|i]] v Hi Hv; cbn in Hi, Hv |- *; lia. }
  assert (G: no_hanging_nodes 2 square2).
  { intros i v Hi Hv H. apply in_square2_ok in H. cbn in Hi, Hv.
    destruct i as [|[|i]]; [| |lia]; destruct v as [|[|[|[|v]]]]; try lia; try (vm_compute in H; discriminate); cbn; auto. }
  assert (F: forall d, d < 2 -> (fst (mesh_range square2) d < snd (mesh_range square2) d)%Q).
  { intros [|[|d]] Hd; [vm_compute; reflexivity|vm_compute; reflexivity|lia]. }
  split; [assumption|]. split; [assumption|]. split; [assumption|].
  apply C166_patch; auto; try (cbn; lia); try apply sort_range_valid.
  - intros a _. reflexivity.
  - intros i q _. apply in_square2_ok.
Qed.
