(* Properties C17-C22: binary trees. *)
From Coq Require Import Permutation.
From Verif Require Import Base TreeModel TreeSpec TreeProofs TreeProofs2.

(* ---- C17: traversals -------------------------------------------------------------------- *)
Theorem dfs_preorder : forall T (h : heap T) o t fuel, owns h o t -> msize t <= fuel ->
  exists l, dfs h fuel (root o) = Ok l /\ l = addrs t /\ NoDup l /\ read_all h l = Ok (preorder t).
Proof.
  intros T h o t fuel [R [N [ND H]]] Hf. exists (addrs t). rewrite R.
  assert (Hh: held h t) by (exists 0; auto).
  split; [apply dfs_ok; auto|]. split; [auto|]. split; [auto|]. apply read_all_ok; auto.
Qed.
Print Assumptions dfs_preorder.

Lemma level_mem : forall T (t : mtree T) a, In a (addrs t) <-> exists k, k < height t /\ In a (level k t).
Proof.
  intros T; induction t as [|b x l IHl r IHr]; intros a; simpl; [split; [tauto|intros [k [Hk _]]; lia]|].
  rewrite in_app_iff, IHl, IHr. split.
  - intros [->|[[k [Hk Hi]]|[k [Hk Hi]]]].
    + exists 0; split; [lia|simpl; auto].
    + exists (S k); split; [lia|apply in_or_app; auto].
    + exists (S k); split; [lia|apply in_or_app; auto].
  - intros [[|k] [Hk Hi]].
    + destruct Hi as [->|[]]; auto.
    + right. apply in_app_or in Hi. 
      assert (Hh: forall (u : mtree T) j, In a (level j u) -> j < height u).
      { induction u; intros j Hj; simpl in *; [tauto|]. destruct j; [lia|]. apply in_app_or in Hj.
        destruct Hj as [Hj|Hj]; [apply IHu1 in Hj|apply IHu2 in Hj]; lia. }
      destruct Hi as [Hi|Hi]; [left|right]; exists k; split; auto; apply Hh; auto.
Qed.
Lemma level_order_perm : forall T (t : mtree T), NoDup (addrs t) -> Permutation (level_order t) (addrs t).
Proof.
  intros T t ND. symmetry. apply NoDup_Permutation_bis; auto.
  - (* lengths *)
    unfold level_order.
    assert (G: forall H (fs : list (mtree T)), Forall (fun u => height u <= H) fs -> length (lo H fs) = fsize fs).
    { induction H as [|H IH]; intros fs HF.
      - pose proof (tall0 fs HF). clear - HF. unfold lo; simpl. induction fs as [|[|a x l r] fs IHf]; inversion HF; subst; simpl in *; auto; lia.
      - rewrite lo_S, app_length, IH; [|apply tall_kids; auto]. clear. induction fs as [|[|a x l r] fs IHf]; auto.
        cbn [flat_map kids]. rewrite fsize_app. cbn [fsize msize]. cbn [froots flat_map raddr opt_list]. rewrite app_length.
        fold (froots fs). simpl in *. lia. }
    specialize (G (height t) [t]). unfold lo in G. cbn [flat_map fsize] in G.
    rewrite (flat_map_ext _ (fun k => level k t)) in G by (intros; apply app_nil_r).
    rewrite G; [|constructor; auto]. rewrite addrs_length; lia.
  - intros a Ha. apply level_mem in Ha. destruct Ha as [k [Hk Hi]]. unfold level_order. apply in_flat_map.
    exists k. split; [apply in_seq; lia|auto].
Qed.

Theorem bfs_level_order : forall T (h : heap T) o t fuel, owns h o t -> msize t <= fuel ->
  exists l, bfs h fuel (root o) = Ok l /\ l = level_order t /\ Permutation l (addrs t) /\ NoDup l.
Proof.
  intros T h o t fuel [R [N [ND H]]] Hf. exists (level_order t). rewrite R.
  assert (Hh: held h t) by (exists 0; auto).
  split; [apply bfs_ok; auto|]. split; [auto|]. pose proof (level_order_perm T t ND).
  split; [auto|]. eapply Permutation_NoDup; [symmetry; eauto|auto].
Qed.
Print Assumptions bfs_level_order.

(* ---- C18: leaf iteration ---------------------------------------------------------------- *)
(* holds whenever the root has a child; for a single node tree the iteration is empty *)
Theorem leaf_iteration_partial : forall T (h : heap T) o t fuel, owns h o t -> msize t <= fuel -> msize t <> 1 ->
  leaves h fuel (root o) = Ok (mleaves t).
Proof.
  intros T h o t fuel [R [N [ND H]]] Hf H1. rewrite R. destruct t as [|a x l r]; [reflexivity|].
  cbn [raddr]. erewrite leaves_ok; [|exists 0; eauto|auto].
  f_equal. destruct l; [destruct r; [simpl in H1; lia|reflexivity]|reflexivity].
Qed.
Print Assumptions leaf_iteration_partial.

Theorem leaf_iteration_refuted : exists (h : heap nat) o t, owns h o t /\ mleaves t = [0] /\
  forall fuel, 1 <= fuel -> leaves h fuel (root o) = Ok [].
Proof.
  exists (fst (tree_of empty_heap 7)), (snd (tree_of empty_heap 7)), (MNode 0 7 MLeaf MLeaf).
  split; [|split; [reflexivity|]].
  - split; [reflexivity|]. split; [reflexivity|]. split; [repeat constructor; auto|]. split; [eexists; reflexivity|simpl; auto].
  - intros [|fuel] H; [lia|]. reflexivity.
Qed.
Print Assumptions leaf_iteration_refuted.

(* every one-node tree, in any heap, has no leaves according to the iterator *)
Theorem leaf_iteration_single : forall T (h : heap T) o t fuel, owns h o t -> msize t = 1 -> 1 <= fuel ->
  leaves h fuel (root o) = Ok [].
Proof.
  intros T h o t fuel [R [N [ND H]]] H1 Hf. rewrite R. destruct t as [|a x l r]; [discriminate|].
  cbn [raddr]. erewrite leaves_ok; [|exists 0; eauto|lia].
  destruct l; [destruct r; [reflexivity|simpl in H1; lia]|simpl in H1; lia].
Qed.
Print Assumptions leaf_iteration_single.

(* ---- C19: push -------------------------------------------------------------------------- *)
Lemma owns_empty : forall T (h : heap T), owns h empty_tree MLeaf.
Proof. intros; repeat split; simpl; auto; constructor. Qed.

Theorem push_from_empty : forall T (less : T -> nat -> T -> bool) (h : heap T) (l : list T) fuel, sane h -> l <> [] -> length l <= fuel ->
  exists h' o a t, push_list less h fuel empty_tree l = Ok (h', o, a) /\ owns h' o t /\ parents_ok h' None t /\
    Permutation (preorder t) l /\ n_nodes o = length l /\ ordered_tree less 0 t.
Proof.
  intros T less h l fuel S Hn Hf.
  destruct (push_list_ok less l h fuel empty_tree MLeaf Hn S (owns_empty _ _) I) as [h' [o [a [t [A [B [C [D [E [F [G H]]]]]]]]]]]; [simpl; lia|].
  exists h', o, a, t. simpl in E. rewrite app_nil_r in E. split; [auto|]. split; [auto|]. split; [auto|]. split; [auto|].
  split; [|apply F; simpl; auto]. destruct B as [_ [-> _]]. rewrite <- preorder_length. apply Permutation_length; auto.
Qed.
Print Assumptions push_from_empty.
(* with the depth-blind comparator of BST<T> (303-305) the result is a binary search tree *)
Theorem push_from_empty_bst : forall T (less : T -> T -> bool) (h : heap T) (l : list T) fuel, sane h -> l <> [] -> length l <= fuel ->
  exists h' o a t, push_list (fun x _ y => less x y) h fuel empty_tree l = Ok (h', o, a) /\ owns h' o t /\ parents_ok h' None t /\
    Permutation (preorder t) l /\ n_nodes o = length l /\ search_tree less t.
Proof.
  intros T less h l fuel S Hn Hf.
  destruct (push_from_empty T (fun x _ y => less x y) h l fuel S Hn Hf) as (h' & o & a & t & A & B & C & D & E & F).
  exists h', o, a, t. rewrite (search_ordered less t 0). auto 10.
Qed.
Print Assumptions push_from_empty_bst.

Theorem push_one : forall T (less : T -> nat -> T -> bool) (h : heap T) o t x fuel, sane h -> owns h o t -> parents_ok h None t -> msize t <= fuel ->
  exists h' o' a t', push less h fuel o x = Ok (h', o', a) /\ owns h' o' t' /\ parents_ok h' None t' /\ sane h' /\
    Permutation (preorder t') (x :: preorder t) /\ Permutation (addrs t') (a :: addrs t) /\ n_nodes o' = S (n_nodes o) /\
    (ordered_tree less 0 t -> ordered_tree less 0 t') /\
    (exists n, cells h' a = Some n /\ ndata n = x /\ nleft n = None /\ nright n = None) /\
    (forall b, b <> a -> ~ In b (addrs t) -> cells h' b = cells h b).
Proof.
  intros T less h o t x fuel S O Hp Hf. destruct (push_ok less h fuel o t x S O Hp Hf) as [h' [o' [A [B [C [D [N F]]]]]]].
  exists h', o', (next h), (minsert less 0 (next h) x t). split; [auto|]. split; [auto|]. split; [auto|]. split; [auto|].
  split; [apply minsert_preorder|]. split; [apply minsert_addrs|]. split.
  { destruct B as [_ [-> _]]. rewrite minsert_size. destruct O as [_ [-> _]]; auto. }
  split; [apply minsert_search|]. split; [|auto].
  assert (G: forall t d, holds h' d (minsert less d (next h) x t) -> exists n, cells h' (next h) = Some n /\ ndata n = x /\ nleft n = None /\ nright n = None).
  { induction t0 as [|b y l IHl r IHr]; intros d Hd; simpl in Hd.
    - destruct Hd as [[par E] _]. eexists; split; [exact E|auto].
    - destruct (less x d y); simpl in Hd; destruct Hd as [_ [H1 H2]]; eauto. }
  destruct B as [_ [_ [_ B]]]. eapply G; exact B.
Qed.
Print Assumptions push_one.

(* pushing an empty initializer list is undefined behaviour *)
Theorem push_empty_list_ub : forall T (less : T -> nat -> T -> bool) (h : heap T) o fuel, push_list less h fuel o [] = UB.
Proof. reflexivity. Qed.

(* in-order traversal of a search tree built with a strict order is sorted *)
Theorem search_tree_sorted : forall T (less : T -> T -> bool) (t : mtree T),
  (forall x y, less x y = true -> less y x = false) ->
  (forall x y z, less x y = true -> less y z = true -> less x z = true) ->
  search_tree less t -> forall i j x y, i < j -> nth_error (inorder t) i = Some x -> nth_error (inorder t) j = Some y -> less y x = false.
Proof.
  intros T less t Hasym Htrans S.
  assert (P: forall u : mtree T, Permutation (inorder u) (preorder u)).
  { induction u; simpl; auto. rewrite IHu1, IHu2. symmetry; apply Permutation_middle. }
  revert S; induction t as [|a v l IHl r IHr]; intros S i j x y Hij Hi Hj.
  - destruct i; discriminate.
  - simpl in S. destruct S as [SL [SR [S1 S2]]]. cbn [inorder] in Hi, Hj.
    assert (FL: forall z, In z (inorder l) -> less z v = true).
    { intros z Hz. rewrite Forall_forall in SL; apply SL. eapply Permutation_in; [apply P|auto]. }
    assert (FR: forall z, In z (inorder r) -> less z v = false).
    { intros z Hz. rewrite Forall_forall in SR; apply SR. eapply Permutation_in; [apply P|auto]. }
    destruct (Nat.lt_ge_cases j (length (inorder l))) as [Jl|Jl].
    + rewrite nth_error_app1 in Hi, Hj by lia. exact (IHl S1 i j x y Hij Hi Hj).
    + rewrite nth_error_app2 in Hj by lia.
      destruct (j - length (inorder l)) as [|j'] eqn:Ej; cbn in Hj.
      * inversion Hj; subst y. rewrite nth_error_app1 in Hi by lia.
        apply nth_error_In in Hi. apply Hasym; auto.
      * destruct (Nat.lt_ge_cases i (length (inorder l))) as [Il|Il].
        -- rewrite nth_error_app1 in Hi by lia. apply nth_error_In in Hi. apply nth_error_In in Hj.
           destruct (less y x) eqn:E; auto. rewrite <- (FR y Hj). symmetry. eapply Htrans; eauto.
        -- rewrite nth_error_app2 in Hi by lia. destruct (i - length (inorder l)) as [|i'] eqn:Ei; cbn in Hi.
           ++ inversion Hi; subst x. apply FR. eapply nth_error_In; eauto.
           ++ eapply (IHr S2 i' j'); eauto. lia.
Qed.
Print Assumptions search_tree_sorted.

(* ---- C20: BST find ---------------------------------------------------------------------- *)
(* a key stored at a node with a child is found; whatever is found is the key *)
Theorem bst_find_partial : forall T (less eqb : T -> T -> bool) (h : heap T) o t x fuel,
  (forall x y, eqb x y = true <-> x = y) -> owns h o t -> search_tree less t -> stored_inner x t -> msize t <= fuel ->
  exists a n, find less eqb h fuel x (root o) = Ok (Some a) /\ In a (addrs t) /\ cells h a = Some n /\ ndata n = x.
Proof. intros T less eqb h o t x fuel He O S I Hf. exact (find_ok less eqb h He o t fuel x O S I Hf). Qed.
Print Assumptions bst_find_partial.

Theorem bst_find_sound : forall T (less eqb : T -> T -> bool) (h : heap T) o t x fuel a,
  (forall x y, eqb x y = true <-> x = y) -> owns h o t -> find less eqb h fuel x (root o) = Ok (Some a) ->
  In a (addrs t) /\ exists n, cells h a = Some n /\ ndata n = x.
Proof.
  intros T less eqb h o t x fuel a He [R [N [ND H]]] F. rewrite R in F.
  eapply find_sound; eauto. exists 0; auto.
Qed.
Print Assumptions bst_find_sound.

(* a key held only by leaves is never found *)
Theorem bst_find_leaf_never : forall T (less eqb : T -> T -> bool) (h : heap T) o t x fuel a,
  (forall x y, eqb x y = true <-> x = y) -> owns h o t -> ~ stored_inner x t -> find less eqb h fuel x (root o) <> Ok (Some a).
Proof.
  intros T less eqb h o t x fuel a He [R [N [ND H]]] I. rewrite R. apply find_miss; auto. exists 0; auto.
Qed.
Print Assumptions bst_find_leaf_never.

Definition res_get {A} (d : A) (r : Res A) : A := match r with Ok a => a | _ => d end.
Definition built (l : list nat) : heap nat * tree :=
  match push_list (fun x _ y => Nat.ltb x y) empty_heap 10 empty_tree l with Ok (h, o, _) => (h, o) | _ => (empty_heap, empty_tree) end.

(* {2,1}: the stored key 1 is reported absent; {2,1}: looking up 3 dereferences null; empty tree too *)
Theorem bst_find_refuted :
  (find Nat.ltb Nat.eqb (fst (built [2; 1])) 10 1 (root (snd (built [2; 1]))) = Ok None) /\
  (find Nat.ltb Nat.eqb (fst (built [2; 1])) 10 3 (root (snd (built [2; 1]))) = UB) /\
  (find Nat.ltb Nat.eqb empty_heap 10 3 (root empty_tree) = UB).
Proof. repeat split; vm_compute; reflexivity. Qed.
Print Assumptions bst_find_refuted.

(* non-vacuity: a six node tree satisfies the hypotheses of the theorems above *)
Definition t6 : mtree nat := MNode 0 4 (MNode 1 2 (MNode 3 1 MLeaf MLeaf) (MNode 4 3 MLeaf MLeaf)) (MNode 2 6 (MNode 5 5 MLeaf MLeaf) MLeaf).
Example built_owns : owns (fst (built [4; 2; 6; 1; 3; 5])) (snd (built [4; 2; 6; 1; 3; 5])) t6 /\
  search_tree Nat.ltb t6 /\ stored_inner 6 t6 /\ sane (fst (built [4;2;6;1;3;5])) /\ parents_ok (fst (built [4;2;6;1;3;5])) None t6.
Proof.
  split; [|split; [|split; [|split]]].
  - split; [reflexivity|]. split; [reflexivity|]. split.
    + cbn. repeat (constructor; [simpl; intuition discriminate|]). constructor.
    + cbn [holds t6]. repeat split; (exists None; vm_compute; reflexivity) || (exists (Some 0); vm_compute; reflexivity)
        || (exists (Some 1); vm_compute; reflexivity) || (exists (Some 2); vm_compute; reflexivity).
  - cbn [search_tree t6 preorder app]. repeat split; repeat constructor.
  - cbn [stored_inner t6]. auto.
  - intros a Ha. vm_compute in Ha. do 6 (destruct a as [|a]; [exfalso; lia|]). vm_compute. reflexivity.
  - cbn [parents_ok t6]. repeat split; eexists; split; vm_compute; reflexivity.
Qed.

(* ---- C21: copying ----------------------------------------------------------------------- *)
Theorem copy_deep_partial : forall T (h : heap T) fuel this tt other to, sane h -> owns h this tt -> owns h other to ->
  to <> MLeaf -> (forall a, In a (addrs tt) -> In a (addrs to) -> False) -> msize tt + msize to <= fuel ->
  exists h' this' tt', clone h fuel this other = Ok (h', this') /\
    owns h' this' tt' /\ parents_ok h' None tt' /\ shape_of tt' = shape_of to /\ owns h' other to /\ sane h' /\
    (forall a, In a (addrs tt') -> next h <= a) /\
    (forall a, In a (addrs tt) -> cells h' a = None) /\
    (forall a, a < next h -> ~ In a (addrs tt) -> cells h' a = cells h a).
Proof. intros T h fuel this tt other to. exact (clone_ok h fuel this tt other to). Qed.
Print Assumptions copy_deep_partial.

(* pushing into (or clearing) one tree leaves every disjoint tree as it was *)
Theorem push_frame : forall T (less : T -> nat -> T -> bool) (h : heap T) o t o2 t2 l fuel, sane h -> owns h o t -> parents_ok h None t ->
  owns h o2 t2 -> (forall a, In a (addrs t) -> In a (addrs t2) -> False) -> l <> [] -> msize t + length l <= fuel ->
  exists h' o' a, push_list less h fuel o l = Ok (h', o', a) /\ owns h' o2 t2.
Proof.
  intros T less h o t o2 t2 l fuel S O Hp [R2 [N2 [ND2 H2]]] Dis Hn Hf.
  destruct (push_list_ok less l h fuel o t Hn S O Hp Hf) as [h' [o' [a [t' [A [B [C [D [E [F [G H]]]]]]]]]]].
  exists h', o', a. split; [auto|]. split; [auto|]. split; [auto|]. split; [auto|].
  eapply holds_frame; [|exact H2]. intros b Hb. apply H; [exact (sane_lt _ _ _ _ S H2 Hb)|]. intros Hx; eapply Dis; eauto.
Qed.
Print Assumptions push_frame.
Theorem clear_frame : forall T (h : heap T) o t o2 t2 fuel, owns h o t ->
  owns h o2 t2 -> (forall a, In a (addrs t) -> In a (addrs t2) -> False) -> msize t <= fuel ->
  exists h', clear h fuel o = Ok (h', empty_tree) /\ owns h' o2 t2 /\ (forall a, In a (addrs t) -> cells h' a = None).
Proof.
  intros T h o t o2 t2 fuel O [R2 [N2 [ND2 H2]]] Dis Hf.
  destruct (clear_ok h fuel o t O Hf) as [h' [A [B [C D]]]]. exists h'. split; [auto|]. split; [|auto].
  split; [auto|]. split; [auto|]. split; [auto|]. eapply holds_frame; [|exact H2]. intros b Hb. apply D. intros Hx; eapply Dis; eauto.
Qed.
Print Assumptions clear_frame.

Theorem move_transfers : forall T (h : heap T) fuel this tt other a x l r, sane h -> owns h this tt -> owns h other (MNode a x l r) ->
  (forall b, In b (addrs tt) -> In b (addrs (MNode a x l r)) -> False) -> msize tt <= fuel ->
  exists h' this' tt', move h fuel this other = Ok (h', this', empty_tree) /\
    owns h' this' tt' /\ shape_of tt' = shape_of (MNode a x l r) /\ sane h' /\
    (forall b, In b (addrs tt) -> cells h' b = None) /\ cells h' a = None.
Proof.
  intros T h fuel this tt other a x l r S O1 O2 D Hf.
  destruct (move_ok h fuel this tt other a x l r S O1 O2 D Hf) as [h' [this' [A [B [C [E [F G]]]]]]].
  exists h', this', (MNode (next h) x l r). split; [auto|]. split; [auto|]. split; [reflexivity|]. auto.
Qed.
Print Assumptions move_transfers.

(* self-assignment of any non-empty tree dereferences null; copying an empty tree throws;
   a self-move empties the tree; after a move the children still point to the deleted old root *)
Theorem copy_self_refuted : forall T (h : heap T) fuel o t, owns h o t -> t <> MLeaf -> msize t <= fuel -> self_clone h fuel o = UB.
Proof. intros T h fuel o t. exact (self_clone_ub h fuel o t). Qed.
Print Assumptions copy_self_refuted.
Theorem copy_empty_refuted : forall T (h : heap T) fuel this other, owns h other MLeaf -> clone h fuel this other = Throw.
Proof. intros T h fuel this other [R [N _]]. unfold clone, is_empty. rewrite N. reflexivity. Qed.
Print Assumptions copy_empty_refuted.
Theorem self_move_refuted : forall T (h : heap T) fuel o t, owns h o t -> msize t <= fuel -> exists h', self_move h fuel o = Ok (h', empty_tree).
Proof.
  intros T h fuel o t O Hf. destruct (clear_ok h fuel o t O Hf) as [h' [A _]]. exists h'. unfold self_move. rewrite A. reflexivity.
Qed.
Print Assumptions self_move_refuted.
Theorem move_parent_refuted : exists h' o' a n, move (fst (built [2; 1])) 10 empty_tree (snd (built [2; 1])) = Ok (h', o', empty_tree) /\
  cells h' a = Some n /\ ndata n = 1 /\ nparent n = Some 0 /\ cells h' 0 = None.
Proof. eexists _, _, 1, _. split; [vm_compute; reflexivity|]. repeat split; vm_compute; reflexivity. Qed.
Print Assumptions move_parent_refuted.

(* ---- C22: erase ------------------------------------------------------------------------- *)
(* erasing at the root frees exactly the nodes of the tree and leaves an empty tree *)
Theorem erase_root_partial : forall T (h : heap T) fuel o t, owns h o t -> msize t <= fuel ->
  exists h', erase h fuel o (root o) = Ok (h', empty_tree) /\
    (forall b, In b (addrs t) -> cells h' b = None) /\ (forall b, ~ In b (addrs t) -> cells h' b = cells h b) /\ owns h' empty_tree MLeaf.
Proof.
  intros T h fuel o t [R [N [ND H]]] Hf. rewrite R.
  destruct (erase_ok h fuel o t ltac:(exists 0; auto) ND Hf) as [h' [A [B [C D]]]].
  exists h'. split; [auto|]. split; [auto|]. split; [auto|]. apply owns_empty.
Qed.
Print Assumptions erase_root_partial.

(* erasing a proper subtree drops the whole tree: every remaining node stays allocated but unreachable *)
Theorem erase_subtree_refuted : exists (h : heap nat) o t p h', owns h o t /\ In p (addrs t) /\ root o <> Some p /\
  erase h 10 o (Some p) = Ok (h', empty_tree) /\ (exists b n, In b (addrs t) /\ cells h' b = Some n /\ ndata n = 2).
Proof.
  exists (fst (built [2; 1; 3])), (snd (built [2; 1; 3])), (MNode 0 2 (MNode 1 1 MLeaf MLeaf) (MNode 2 3 MLeaf MLeaf)), 1.
  eexists. split; [|split; [|split; [|split]]].
  - split; [reflexivity|]. split; [reflexivity|]. split; [cbn; repeat (constructor; [simpl; intuition discriminate|]); constructor|].
    cbn [holds]. repeat split; (exists None; vm_compute; reflexivity) || (exists (Some 0); vm_compute; reflexivity).
  - simpl; auto.
  - discriminate.
  - vm_compute. reflexivity.
  - exists 0. eexists. split; [simpl; auto|]. split; [vm_compute; reflexivity|]. reflexivity.
Qed.
Print Assumptions erase_subtree_refuted.
