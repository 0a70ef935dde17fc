(* Properties C34-C37: KDTree and TreeSearch. *)
From Coq Require Import Permutation Lqa.
From Verif Require Import Base TreeModel KdModel TreeSpec TreeProofs KdSpec KdProofs.

(* a valid std::nth_element: sort the range *)
Fixpoint ins (data : nat -> point) (dim x : nat) (l : list nat) : list nat :=
  match l with [] => [x] | y :: l' => if qle (data x dim) (data y dim) then x :: l else y :: ins data dim x l' end.
Definition isort data dim (l : list nat) : list nat := fold_right (ins data dim) [] l.
Definition sort_range (data : nat -> point) (b m e dim : nat) (ids : list nat) : list nat :=
  firstn b ids ++ isort data dim (slice ids b e) ++ skipn e ids.
Lemma ins_perm : forall data dim x l, Permutation (ins data dim x l) (x :: l).
Proof.
  intros data dim x; induction l as [|y l IH]; simpl; auto. destruct (qle (data x dim) (data y dim)); auto.
  rewrite IH. apply perm_swap.
Qed.
Lemma isort_perm : forall data dim l, Permutation (isort data dim l) l.
Proof. intros data dim; induction l as [|x l IH]; simpl; auto. rewrite ins_perm, IH. auto. Qed.
Fixpoint ascending (data : nat -> point) (dim : nat) (l : list nat) : Prop :=
  match l with [] => True | x :: l' => Forall (fun y => (data x dim <= data y dim)%Q) l' /\ ascending data dim l' end.
Lemma ins_asc : forall data dim x l, ascending data dim l -> ascending data dim (ins data dim x l).
Proof.
  intros data dim x; induction l as [|y l IH]; simpl; intros H; auto.
  destruct (qle (data x dim) (data y dim)) eqn:E; simpl.
  - apply qle_iff in E. destruct H as [H1 H2]. split; auto. constructor; auto.
    eapply Forall_impl; [|exact H1]. simpl; intros; lra.
  - apply qle_false in E. destruct H as [H1 H2]. split; auto.
    eapply Permutation_Forall; [symmetry; apply ins_perm|]. constructor; auto. lra.
Qed.
Lemma isort_asc : forall data dim l, ascending data dim (isort data dim l).
Proof. intros data dim; induction l; simpl; auto. apply ins_asc; auto. Qed.
Lemma ascending_nth : forall data dim l, ascending data dim l -> forall i j x y, i <= j ->
  nth_error l i = Some x -> nth_error l j = Some y -> (data x dim <= data y dim)%Q.
Proof.
  intros data dim; induction l as [|z l IH]; intros H i j x y Hij Hi Hj; [destruct i; discriminate|].
  destruct H as [H1 H2]. destruct i as [|i]; destruct j as [|j]; simpl in *.
  - inversion Hi; inversion Hj; subst. inversion Hj; subst. lra.
  - inversion Hi; subst. rewrite Forall_forall in H1. apply H1. eapply nth_error_In; eauto.
  - lia.
  - apply (IH H2 i j); auto. lia.
Qed.
Theorem sort_range_valid : forall data, rearranges (sort_range data) /\ partitions data (sort_range data).
Proof.
  intros data. split.
  - intros b m e dim ids H1 H2. unfold sort_range.
    assert (L: length (isort data dim (slice ids b e)) = e - b).
    { rewrite (Permutation_length (isort_perm _ _ _)). unfold slice. rewrite firstn_length, skipn_length. lia. }
    assert (L0: length (firstn b ids) = b) by (rewrite firstn_length; lia).
    split; [|split].
    + rewrite isort_perm. rewrite <- slice_three; auto. lia.
    + rewrite firstn_app, L0, Nat.sub_diag. simpl. rewrite app_nil_r. apply firstn_all2. lia.
    + rewrite skipn_app, L0, skipn_all2 by lia. simpl. rewrite skipn_app, L, skipn_all2 by lia. rewrite Nat.sub_diag. reflexivity.
  - intros b m e dim ids x H1 H2. unfold sort_range.
    assert (L: length (isort data dim (slice ids b e)) = e - b).
    { rewrite (Permutation_length (isort_perm _ _ _)). unfold slice. rewrite firstn_length, skipn_length. lia. }
    assert (L0: length (firstn b ids) = b) by (rewrite firstn_length; lia).
    assert (G: forall i, b <= i < e -> nth_error (firstn b ids ++ isort data dim (slice ids b e) ++ skipn e ids) i =
                nth_error (isort data dim (slice ids b e)) (i - b)).
    { intros i Hi. rewrite nth_error_app2 by lia. rewrite L0. apply nth_error_app1. lia. }
    rewrite (G m) by lia. intros Hx. split; intros i y Hi Hy; rewrite G in Hy by lia.
    + apply (ascending_nth data dim _ (isort_asc data dim (slice ids b e)) (i - b) (m - b)); auto; lia.
    + apply (ascending_nth data dim _ (isort_asc data dim (slice ids b e)) (m - b) (i - b)); auto; lia.
Qed.

(* ---- C34 ---------------------------------------------------------------------------------- *)
(* at every node at depth d the left subtree is smaller, the right one not smaller, along d mod K *)
Fixpoint kd_ordered (K : nat) (data : nat -> point) (d : nat) (t : mtree nat) : Prop :=
  match t with
  | MLeaf => True
  | MNode _ x l r =>
      Forall (fun y => (data y (d mod K) < data x (d mod K))%Q) (preorder l) /\
      Forall (fun y => (data x (d mod K) <= data y (d mod K))%Q) (preorder r) /\
      kd_ordered K data (S d) l /\ kd_ordered K data (S d) r
  end.
Lemma kd_ordered_iff : forall K data t d, kd_ordered K data d t <-> ordered_tree (kd_less K data) d t.
Proof.
  intros K data; induction t as [|a x l IHl r IHr]; intros d; simpl; [tauto|]. rewrite IHl, IHr.
  assert (A: Forall (fun y => (data y (d mod K) < data x (d mod K))%Q) (preorder l) <-> Forall (fun x0 => kd_less K data x0 d x = true) (preorder l)).
  { rewrite !Forall_forall. unfold kd_less. split; intros H y Hy; apply qlt_iff, H; auto. }
  assert (B: Forall (fun y => (data x (d mod K) <= data y (d mod K))%Q) (preorder r) <-> Forall (fun x0 => kd_less K data x0 d x = false) (preorder r)).
  { rewrite !Forall_forall. unfold kd_less. split; intros H y Hy; apply qlt_false, H; auto. }
  tauto.
Qed.
Theorem kd_build_spec : forall K data ne n h, rearranges ne -> 0 < n -> sane h ->
  exists h' o t, kd_build K data ne n h = Ok (h', o) /\ owns h' o t /\ parents_ok h' None t /\
    Permutation (preorder t) (seq 0 n) /\ kd_ordered K data 0 t.
Proof.
  intros K data ne n h Hne Hn Hs. destruct (kd_build_ok K data ne n h Hne Hn Hs) as (h' & o & t & A & B & C & D & E & F).
  exists h', o, t. rewrite kd_ordered_iff. auto 10.
Qed.
Print Assumptions kd_build_spec.

(* an empty data matrix makes the constructor read ids[0] of an empty vector *)
Theorem kd_build_empty_ub : forall K data ne h, (forall b m e dim, ne b m e dim [] = []) ->
  kd_build K data ne 0 h = UB.
Proof. intros K data ne h H. unfold kd_build. cbn [build_loop seq psb pse psdim]. rewrite H. reflexivity. Qed.
Print Assumptions kd_build_empty_ub.

(* ---- C35 ---------------------------------------------------------------------------------- *)
Theorem kd_range_search : forall K data ne n h ll ur fuel, 0 < K -> rearranges ne -> 0 < n -> sane h -> n <= fuel ->
  exists h' o res, kd_build K data ne n h = Ok (h', o) /\ range_search K data h' o fuel ll ur = Ok res /\ NoDup res /\
    forall i, In i res <-> i < n /\ in_box K ll ur (data i).
Proof.
  intros K data ne n h ll ur fuel HK Hne Hn Hs Hf.
  destruct (kd_build_ok K data ne n h Hne Hn Hs) as (h' & o & t & A & B & [R [N [ND H]]] & D & E & F).
  assert (Hsz: msize t = n). { rewrite <- preorder_length, (Permutation_length F). apply seq_length. }
  destruct (range_loop_ok K data h' ll ur HK fuel [(0, t)] []) as (res & R1 & R2 & R3).
  - constructor; [|constructor]. split; [|auto]. cbn [snd]. intros Ht. rewrite Ht in Hsz. simpl in Hsz. lia.
  - unfold entries_size. simpl. lia.
  - constructor.
  - exists h', o, res. split; auto. unfold range_search. rewrite R. split; [exact R1|]. split; auto.
    intros i. specialize (R3 i). rewrite R3. unfold hit. split.
    + intros [[]|[e [[<-|[]] [Hi Hb]]]]. split; auto. simpl in Hi. eapply Permutation_in in Hi; [|exact F]. apply in_seq in Hi. lia.
    + intros [Hi Hb]. right. exists (0, t). split; [left; auto|]. split; auto. simpl.
      eapply Permutation_in; [symmetry; exact F|]. apply in_seq. lia.
Qed.
Print Assumptions kd_range_search.
(* a default constructed tree is searched through a null root *)
Theorem kd_range_search_default_ub : forall K data (h : heap nat) ll ur fuel, 0 < fuel -> range_search K data h empty_tree fuel ll ur = UB.
Proof. intros K data h ll ur [|fuel] H; [lia|reflexivity]. Qed.

(* ---- C36 ---------------------------------------------------------------------------------- *)
(* The search visits exactly the points on the descent from the root towards p.  It is undefined when
   that descent meets a node whose only child is on the other side, and otherwise returns the closest
   of those points: the other side of a splitting plane is never entered. *)
Theorem kd_nn_search_partial : forall K data ne n h p, rearranges ne -> 0 < n -> sane h ->
  exists h' o t, kd_build K data ne n h = Ok (h', o) /\ owns h' o t /\ Permutation (preorder t) (seq 0 n) /\ kd_ordered K data 0 t /\
    forall wfuel fuel, n < wfuel -> 2 ^ S n <= fuel ->
    match descent K data p 0 t with
    | None => nn_search K data h' o wfuel fuel p = UB
    | Some path => exists i, nn_search K data h' o wfuel fuel p = Ok (Some i) /\ In i path /\ i < n /\
        forall j, In j path -> (sqdist K (data i) p <= sqdist K (data j) p)%Q
    end.
Proof.
  intros K data ne n h p Hne Hn Hs.
  destruct (kd_build_ok K data ne n h Hne Hn Hs) as (h' & o & t & A & B & O & D & E & F).
  exists h', o, t. split; auto. split; auto. split; auto. split; [now apply kd_ordered_iff|].
  destruct O as [R [N [ND H]]].
  assert (Hsz: msize t = n). { rewrite <- preorder_length, (Permutation_length F). apply seq_length. }
  pose proof (height_size t) as Hht.
  intros wf fuel Hwf Hf. unfold nn_search. unfold is_empty. rewrite N, Hsz.
  replace (n =? 0) with false by (symmetry; apply Nat.eqb_neq; lia).
  assert (W: walk K data h' p wf (root o) [] = walk_down K data h' p wf (raddr t) []).
  { rewrite R. destruct t; [simpl in Hsz; lia|reflexivity]. }
  rewrite W, (walk_down_ok K data h' p t 0 wf []) by (auto; lia).
  destruct (descent K data p 0 t) as [path|] eqn:Ed; [|reflexivity].
  assert (Hd: exists l, descent K data p 0 t = Some l) by eauto.
  assert (Lsp: forall u d, length (spine K data p d u) <= height u).
  { induction u as [|a x l IHl r IHr]; intros d; simpl; auto.
    assert (length (spine K data p (S d) (if qlt (p (d mod K)) (data x (d mod K)) then l else r)) <= Nat.max (height l) (height r)).
    { destruct (qlt (p (d mod K)) (data x (d mod K))); [specialize (IHl (S d))|specialize (IHr (S d))]; lia. }
    destruct l; [destruct r|]; simpl in *; lia. }
  cbn [bind]. rewrite app_nil_r, <- map_rev.
  destruct (unwind_ok K data h' p 0 t wf H Hd ltac:(lia) fuel (rev (spine K data p 0 t)) None) as (e & He & U & M).
  - intros z Hz. apply in_rev; auto.
  - pose proof (weight_spine K data p t 0 Hd) as Wt.
    assert (Er: weight K data p (rev (spine K data p 0 t)) = weight K data p (spine K data p 0 t)).
    { unfold weight. rewrite map_rev. generalize (map (wt K data p) (spine K data p 0 t)) as l.
      induction l as [|y l IHl]; auto. cbn [rev]. rewrite list_sum_app, IHl. simpl. lia. }
    rewrite Er. eapply Nat.lt_le_trans; [exact Wt|]. eapply Nat.le_trans; [|exact Hf].
    apply Nat.pow_le_mono_r; [lia|]. specialize (Lsp t 0). lia.
  - exact I.
  - left. intros Hx. assert (He: spine K data p 0 t = []) by (rewrite <- (rev_involutive (spine K data p 0 t)), Hx; auto).
    destruct t; [simpl in Hsz; lia|]. simpl in He. destruct t1; [destruct t2|]; discriminate.
  - intros e He. left. apply -> in_rev; auto.
  - rewrite U. cbn [bind]. exists (rootval e).
    assert (Hr: deref h' (Some (rootaddr e)) = deref h' (Some (rootaddr e))) by auto.
    destruct (spine_tail K data h' p t 0 e He H Hd) as (Hh & Hnl & _).
    destruct e as [d u]. cbn [fst snd] in *. destruct u as [|a x l r]; [congruence|].
    cbn [holds] in Hh. destruct Hh as [[par Ec] _]. change (rootaddr (d, MNode a x l r)) with a. rewrite (deref_ok _ _ _ Ec). cbn [bind ndata].
    change (rootval (d, MNode a x l r)) with x in *.
    assert (Hin: In x path). { rewrite <- (spine_descent K data p t 0 path Ed). change x with (rootval (d, MNode a x l r)). apply in_map; auto. }
    split; [reflexivity|]. split; [exact Hin|]. split.
    + assert (In x (preorder t)).
      { clear - He. revert He. generalize 0. induction t as [|b y l1 IHl r1 IHr]; intros k Hi; [destruct Hi|].
        assert (G: In (d, MNode a x l r) ((k, MNode b y l1 r1) :: spine K data p (S k) (if qlt (p (k mod K)) (data y (k mod K)) then l1 else r1)) -> In x (preorder (MNode b y l1 r1))).
        { intros [Hx|Hx]; [inversion Hx; subst; left; auto|]. simpl. right. apply in_or_app.
          destruct (qlt (p (k mod K)) (data y (k mod K))); [left; eapply IHl; eauto|right; eapply IHr; eauto]. }
        cbn [spine] in Hi. destruct l1; [destruct r1|]; auto. destruct Hi as [Hi|[]]. inversion Hi; subst; left; auto. }
      eapply Permutation_in in H0; [|exact F]. apply in_seq in H0. lia.
    + intros j Hj. rewrite <- (spine_descent K data p t 0 path Ed) in Hj. apply in_map_iff in Hj.
      destruct Hj as [e' [<- He']]. apply (M e' He').
Qed.
Print Assumptions kd_nn_search_partial.

Definition pt2 (l : list (Q * Q)) (i d : nat) : Q :=
  let q := nth i l (0, 0)%Q in if d =? 0 then fst q else snd q.
Definition three : nat -> point := pt2 [(-1 # 1, 0); (0, 100); (1, 50)]%Q.
Definition two : nat -> point := pt2 [(0, 0); (1, 0)]%Q.
Definition q_half : point := fun d => if d =? 0 then (1 # 2)%Q else 0%Q.
Definition q_two : point := fun d => if d =? 0 then 2%Q else 0%Q.
Definition nn_of K data n p : Res (option nat) :=
  match kd_build K data (sort_range data) n empty_heap with
  | Ok (h, o) => nn_search K data h o 20 100 p
  | _ => Throw
  end.
(* {(-1,0), (0,100), (1,50)} searched from (1/2, 0): index 2 is returned although index 0 is closer;
   {(0,0), (1,0)} searched from (2,0) dereferences null; sort_range is a valid nth_element *)
Theorem kd_nn_search_refuted :
  (nn_of 2 three 3 q_half = Ok (Some 2) /\ (sqdist 2 (three 0) q_half < sqdist 2 (three 2) q_half)%Q) /\
  nn_of 2 two 2 q_two = UB.
Proof. split; [split|]; vm_compute; reflexivity. Qed.
Print Assumptions kd_nn_search_refuted.

(* a four point instance of the hypotheses above *)
Definition four : nat -> point := pt2 [(0, 0); (1, 0); (0, 1); (1, 1)]%Q.
Example kd_example : rearranges (sort_range four) /\
  match kd_build 2 four (sort_range four) 4 empty_heap with
  | Ok (h, o) => range_search 2 four h o 10 (fun _ => 0%Q) q_half = Ok [0]
  | _ => False
  end.
Proof. split; [apply sort_range_valid|vm_compute; reflexivity]. Qed.

(* ---- C37 ---------------------------------------------------------------------------------- *)
Lemma fold_min_le : forall l x, (fold_min x l <= x)%Q /\ Forall (fun y => (fold_min x l <= y)%Q) l.
Proof.
  induction l as [|y l IH]; intros x; simpl; [split; [lra|constructor]|].
  destruct (IH (if qlt y x then y else x)) as [A B]. destruct (qlt y x) eqn:E.
  - apply qlt_iff in E. split; [lra|]. constructor; auto.
  - apply qlt_false in E. split; [lra|]. constructor; auto. lra.
Qed.
Lemma fold_max_ge : forall l x, (x <= fold_max x l)%Q /\ Forall (fun y => (y <= fold_max x l)%Q) l.
Proof.
  induction l as [|y l IH]; intros x; simpl; [split; [lra|constructor]|].
  destruct (IH (if qlt x y then y else x)) as [A B]. destruct (qlt x y) eqn:E.
  - apply qlt_iff in E. split; [lra|]. constructor; auto.
  - apply qlt_false in E. split; [lra|]. constructor; auto. lra.
Qed.
Lemma fold_min_in : forall l x, In (fold_min x l) (x :: l).
Proof.
  induction l as [|y l IH]; intros x; simpl; auto. destruct (IH (if qlt y x then y else x)) as [A|A]; auto.
  destruct (qlt y x); simpl in *; auto.
Qed.
Lemma fold_max_in : forall l x, In (fold_max x l) (x :: l).
Proof.
  induction l as [|y l IH]; intros x; simpl; auto. destruct (IH (if qlt x y then y else x)) as [A|A]; auto.
  destruct (qlt x y); simpl in *; auto.
Qed.
(* the bounding box of a cell contains the cell and is the smallest such box *)
Lemma weighted_bounds : forall (lo hi : Q) ws vs, Forall (fun w => (0 <= w)%Q) ws -> Forall (fun v => (lo <= v <= hi)%Q) vs -> length ws = length vs ->
  (lo * qsum ws <= qsum (map (fun wv : Q * Q => fst wv * snd wv)%Q (combine ws vs)) <= hi * qsum ws)%Q.
Proof.
  intros lo hi; induction ws as [|w ws IH]; intros [|v vs] Hw Hv L; simpl in *; try discriminate; [lra|].
  inversion Hw; inversion Hv; subst. destruct (IH vs) as [A B]; auto.
  assert (0 <= w * (v - lo))%Q by (apply Qmult_le_0_compat; lra).
  assert (0 <= w * (hi - v))%Q by (apply Qmult_le_0_compat; lra).
  split; lra.
Qed.
Theorem bounding_box_hull : forall N v0 vs p, in_hull N v0 vs p ->
  in_box N (fst (bounding_box v0 vs)) (snd (bounding_box v0 vs)) p.
Proof.
  intros N v0 vs p (w0 & ws & L & H0 & Hw & S1 & Hp) d Hd. unfold bounding_box. cbn [fst snd].
  destruct (fold_min_le (map (fun v : point => v d) vs) (v0 d)) as [A1 A2].
  destruct (fold_max_ge (map (fun v : point => v d) vs) (v0 d)) as [B1 B2].
  set (lo := fold_min (v0 d) (map (fun v : point => v d) vs)) in *.
  set (hi := fold_max (v0 d) (map (fun v : point => v d) vs)) in *.
  specialize (Hp d Hd).
  destruct (weighted_bounds lo hi ws (map (fun v : point => v d) vs) Hw) as [C1 C2].
  { rewrite Forall_forall in *. intros y Hy. split; auto. }
  { rewrite map_length; auto. }
  assert (E: map (fun wv : Q * Q => fst wv * snd wv)%Q (combine ws (map (fun v : point => v d) vs)) = map (fun wv : Q * point => fst wv * snd wv d)%Q (combine ws vs)).
  { clear. revert vs; induction ws as [|w ws IH]; intros [|v vs]; simpl; auto. f_equal; auto. }
  rewrite E in *. set (sm := qsum (map (fun wv : Q * point => fst wv * snd wv d)%Q (combine ws vs))) in *. change (p d == w0 * v0 d + sm)%Q in Hp.
  assert (0 <= w0 * (v0 d - lo))%Q by (apply Qmult_le_0_compat; lra).
  assert (0 <= w0 * (hi - v0 d))%Q by (apply Qmult_le_0_compat; lra).
  assert (W: (qsum ws == 1 - w0)%Q) by lra. rewrite W in C1, C2.
  split; lra.
Qed.
Print Assumptions bounding_box_hull.
Theorem bounding_box_tight : forall v0 vs d, exists a b, In a (v0 :: vs) /\ In b (v0 :: vs) /\
  fst (bounding_box v0 vs) d = a d /\ snd (bounding_box v0 vs) d = b d.
Proof.
  intros v0 vs d. unfold bounding_box. cbn [fst snd].
  assert (G: forall x, In x (v0 d :: map (fun v : point => v d) vs) -> exists a, In a (v0 :: vs) /\ x = a d).
  { intros x [<-|Hx]; [exists v0; split; [left|]; auto|]. apply in_map_iff in Hx. destruct Hx as [v [<- Hv]]. exists v; split; [right|]; auto. }
  destruct (G _ (fold_min_in (map (fun v : point => v d) vs) (v0 d))) as [a [Ha Ea]].
  destruct (G _ (fold_max_in (map (fun v : point => v d) vs) (v0 d))) as [b [Hb Eb]].
  exists a, b; auto.
Qed.

Lemma scale_le : forall (lo hi : point) (x y : point) d, (lo d < hi d)%Q -> (scale lo hi x d <= scale lo hi y d)%Q <-> (x d <= y d)%Q.
Proof.
  intros lo hi x y d H. unfold scale. assert (Hc: (0 < 1 / (hi d - lo d))%Q) by (apply Qlt_shift_div_l; lra).
  rewrite Qmult_le_r by auto. split; lra.
Qed.
Lemma scale_lo : forall (lo hi : point) d, (scale lo hi lo d == 0)%Q.
Proof. intros. unfold scale. ring. Qed.
Lemma scale_hi : forall (lo hi : point) d, (lo d < hi d)%Q -> (scale lo hi hi d == 1)%Q.
Proof. intros lo hi d H. unfold scale. field. lra. Qed.

(* mesh: nodes (the first one apart), for each cell i < n its vertices, all of them nodes; box i is its
   bounding box, lo/hi the range of the mesh, which must not be flat along any axis *)
Theorem tree_search_locate : forall N n (node0 : point) (nodes : list point) (cv0 : nat -> point) (cvs : nat -> list point)
    (contains : nat -> point -> bool) ne h fuel p,
  let lo := fst (bounding_box node0 nodes) in let hi := snd (bounding_box node0 nodes) in
  let box := fun i => bounding_box (cv0 i) (cvs i) in
  0 < N -> 0 < n -> n <= fuel -> rearranges ne -> sane h ->
  (forall d, d < N -> (lo d < hi d)%Q) ->
  (forall i v, i < n -> In v (cv0 i :: cvs i) -> In v (node0 :: nodes)) ->
  (* cells do not report as OUTSIDE the points of their closed region *)
  (forall i q, i < n -> in_hull N (cv0 i) (cvs i) q -> contains i q = true) ->
  exists h' o ids, ts_build N n lo hi box ne h = Ok (h', o) /\ ts_query N lo hi box h' o fuel p = Ok ids /\
    (* for any iteration order of the unordered_set *)
    forall ids', Permutation ids' ids ->
      (NoDup (all_locate contains ids' p)) /\
      (forall i, In i (all_locate contains ids' p) -> i < n /\ contains i p = true) /\
      (forall i, i < n -> in_hull N (cv0 i) (cvs i) p -> In i (all_locate contains ids' p)) /\
      match ts_locate contains ids' p with
      | Some i => i < n /\ contains i p = true
      | None => forall i, i < n -> ~ in_hull N (cv0 i) (cvs i) p
      end.
Proof.
  intros N n node0 nodes cv0 cvs contains ne h fuel p lo hi box HN Hn Hf Hne Hs Hflat Hv Hc.
  destruct (kd_range_search (2 * N) (ts_data N lo hi box) ne n h (query_ll N lo hi p) (query_ur N lo hi p) fuel) as (h' & o & ids & A & B & C & D); auto; [lia|].
  exists h', o, ids. split; [exact A|]. split; [exact B|]. intros ids' P.
  assert (D': forall i, In i ids' <-> i < n /\ in_box (2 * N) (query_ll N lo hi p) (query_ur N lo hi p) (ts_data N lo hi box i)).
  { intros i. rewrite <- D. split; apply Permutation_in; auto. symmetry; auto. }
  assert (Hin: forall i, i < n -> in_hull N (cv0 i) (cvs i) p -> In i ids').
  { intros i Hi Hh. apply D'. split; auto. apply bounding_box_hull in Hh. fold (box i) in Hh.
    assert (Hbox: forall d, d < N -> (lo d <= fst (box i) d)%Q /\ (snd (box i) d <= hi d)%Q).
    { intros d Hd. destruct (bounding_box_tight (cv0 i) (cvs i) d) as (a & b & Ha & Hb & Ea & Eb). fold (box i) in Ea, Eb.
      rewrite Ea, Eb. apply (Hv i) in Ha; auto. apply (Hv i) in Hb; auto. unfold lo, hi, bounding_box. cbn [fst snd].
      destruct (fold_min_le (map (fun v : point => v d) nodes) (node0 d)) as [A1 A2].
      destruct (fold_max_ge (map (fun v : point => v d) nodes) (node0 d)) as [B1 B2]. rewrite Forall_forall in A2, B2. split.
      - destruct Ha as [<-|Ha]; auto. apply A2. apply (in_map (fun v : point => v d)); auto.
      - destruct Hb as [<-|Hb]; auto. apply B2. apply (in_map (fun v : point => v d)); auto. }
    intros d Hd. unfold query_ll, query_ur, ts_data. destruct (d <? N) eqn:Ed.
    - apply Nat.ltb_lt in Ed. split; [rewrite <- (scale_lo lo hi d)|]; apply scale_le; auto; [apply Hbox; auto|apply Hh; auto].
    - apply Nat.ltb_ge in Ed. assert (Hd2: d - N < N) by lia.
      split; [|rewrite <- (scale_hi lo hi (d - N)) by auto]; apply scale_le; auto; [apply Hh; auto|apply Hbox; auto]. }
  split; [|split; [|split]].
  - apply NoDup_filter. eapply Permutation_NoDup; [symmetry; exact P|auto].
  - intros i Hi. apply filter_In in Hi. destruct Hi as [Hi Hx]. apply D' in Hi. tauto.
  - intros i Hi Hh. apply filter_In. split; auto.
  - unfold ts_locate. destruct (List.find (fun id => contains id p) ids') as [i|] eqn:Ef.
    + apply find_some in Ef. destruct Ef as [Hi Hx]. apply D' in Hi. tauto.
    + intros i Hi Hh. pose proof (find_none _ _ Ef i (Hin i Hi Hh)) as Hx. simpl in Hx. rewrite Hc in Hx by auto. discriminate.
Qed.
Print Assumptions tree_search_locate.
(* when contains is exact, locate finds a cell iff there is one and all_locate finds exactly the cells *)
Corollary tree_search_exact : forall N n (node0 : point) (nodes : list point) (cv0 : nat -> point) (cvs : nat -> list point)
    (contains : nat -> point -> bool) ne h fuel p,
  let lo := fst (bounding_box node0 nodes) in let hi := snd (bounding_box node0 nodes) in
  let box := fun i => bounding_box (cv0 i) (cvs i) in
  0 < N -> 0 < n -> n <= fuel -> rearranges ne -> sane h ->
  (forall d, d < N -> (lo d < hi d)%Q) ->
  (forall i v, i < n -> In v (cv0 i :: cvs i) -> In v (node0 :: nodes)) ->
  (forall i q, i < n -> contains i q = true <-> in_hull N (cv0 i) (cvs i) q) ->
  exists h' o ids, ts_build N n lo hi box ne h = Ok (h', o) /\ ts_query N lo hi box h' o fuel p = Ok ids /\
    forall ids', Permutation ids' ids ->
      (forall i, In i (all_locate contains ids' p) <-> i < n /\ in_hull N (cv0 i) (cvs i) p) /\
      match ts_locate contains ids' p with
      | Some i => i < n /\ in_hull N (cv0 i) (cvs i) p
      | None => forall i, i < n -> ~ in_hull N (cv0 i) (cvs i) p
      end.
Proof.
  intros N n node0 nodes cv0 cvs contains ne h fuel p lo hi box HN Hn Hf Hne Hs Hflat Hv Hc.
  destruct (tree_search_locate N n node0 nodes cv0 cvs contains ne h fuel p HN Hn Hf Hne Hs Hflat Hv) as (h' & o & ids & A & B & C).
  { intros i q Hi Hq. apply Hc; auto. }
  exists h', o, ids. split; [exact A|]. split; [exact B|]. intros ids' P. destruct (C ids' P) as (C0 & C1 & C2 & C3). split.
  - intros i. split.
    + intros Hi. destruct (C1 i Hi). split; auto. apply Hc; auto.
    + intros [Hi Hh]. auto.
  - destruct (ts_locate contains ids' p) as [i|]; auto. destruct C3. split; auto. apply Hc; auto.
Qed.
Print Assumptions tree_search_exact.

(* non-vacuity: two triangles of the unit square *)
Definition sq_cv0 (i : nat) : point := four (if i =? 0 then 0 else 3).
Definition sq_cvs (i : nat) : list point := [four 1; four 2].
Example square_mesh :
  (forall d, d < 2 -> (fst (bounding_box (four 0) [four 1; four 2; four 3]) d < snd (bounding_box (four 0) [four 1; four 2; four 3]) d)%Q) /\
  (forall i v, i < 2 -> In v (sq_cv0 i :: sq_cvs i) -> In v [four 0; four 1; four 2; four 3]) /\
  in_hull 2 (sq_cv0 0) (sq_cvs 0) (fun _ => (1 # 3)%Q).
Proof.
  split; [|split].
  - intros [|[|d]] Hd; [vm_compute; reflexivity|vm_compute; reflexivity|lia].
  - intros [|[|i]] v Hi; simpl; intuition.
  - exists (1 # 3)%Q, [1 # 3; 1 # 3]%Q. split; [reflexivity|]. split; [vm_compute; discriminate|].
    split; [repeat constructor; vm_compute; discriminate|]. split; [vm_compute; reflexivity|].
    intros [|[|d]] Hd; [vm_compute; reflexivity|vm_compute; reflexivity|lia].
Qed.
