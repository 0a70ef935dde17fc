(* C176-C178: filtered iterators of a mesh walked both ways, the default filter of the 3-D iterators, and the facets of a
   simplex. *)
From Coq Require Import Reals Lra ZArith Lia Permutation.
From Verif Require Import Base CombModel CombProps TriModel TriProofs TriProofs2 TriProps CellModel CellProps IterModel RSum SimplexModel SimplexProps.
Local Open Scope nat_scope.

(* ---- specification ---- *)
(* the ids kept by a filter, in increasing order *)
Definition selected (g : nat -> bool) (n : nat) : list nat := filter g (seq 0 n).
(* a path over the positions of a list of len items: -1 is before the first one, len is the end *)
Inductive path (len : Z) : Z -> list step -> Z -> Prop :=
| path_nil p : path len p [] p
| path_forward p ms q : (p + 1 <= len)%Z -> path len (p + 1)%Z ms q -> path len p (Forward :: ms) q
| path_backward p ms q : (-1 <= p - 1)%Z -> path len (p - 1)%Z ms q -> path len p (Backward :: ms) q.
(* the iterator refers to the item at position p of the list; at the end it compares equal to the end iterator, whose index is n *)
Definition refers (items : list nat) (n : nat) (s : fiter) (p : Z) : Prop :=
  (forall v, (0 <= p)%Z -> nth_error items (Z.to_nat p) = Some v -> fderef s = Ok (Z.of_nat v)) /\
  (fst s = Z.of_nat n <-> p = Z.of_nat (length items)).

(* ---- ranks ---- *)
Section Walk.
Variables (keep : bool -> bool) (f : list bool) (n : nat).
Notation g := (kept keep f).
Definition rank (i : nat) : nat := length (filter g (seq 0 i)).
Lemma rank_S i : rank (S i) = rank i + (if g i then 1 else 0).
Proof. unfold rank. rewrite seq_S, filter_app, app_length. cbn [filter plus]. destruct (g i); reflexivity. Qed.
Lemma rank_skip i : forall k, i <= k -> (forall j, i <= j < k -> g j = false) -> rank k = rank i.
Proof.
  induction k as [|k IH]; intros Hk Hz. { replace i with 0 by lia. reflexivity. }
  destruct (Nat.eq_dec i (S k)) as [->|]; [reflexivity|]. rewrite rank_S, Hz by lia. rewrite IH; [lia|lia|].
  intros j Hj. apply Hz. lia.
Qed.
Lemma rank_mono i k : i <= k -> rank i <= rank k.
Proof. induction 1 as [|k Hk IH]; [lia|]. rewrite rank_S. lia. Qed.
Lemma rank_item i : i < n -> g i = true -> nth_error (selected g n) (rank i) = Some i.
Proof.
  intros Hi Hg. unfold selected. replace n with (i + (S (n - S i))) by lia. rewrite seq_app, filter_app.
  rewrite nth_error_app2 by (unfold rank; lia). unfold rank. rewrite Nat.sub_diag. cbn [seq filter plus]. rewrite Hg. reflexivity.
Qed.
Lemma rank_total : rank n = length (selected g n). Proof. reflexivity. Qed.
Hypothesis Hn : n <= length f.

Lemma skip_back_spec : forall fuel i, (-1 <= i < Z.of_nat n)%Z -> (i + 1 < Z.of_nat fuel)%Z ->
  exists i', skip_back fuel keep f i = Ok i' /\ (-1 <= i' <= i)%Z /\
    (forall j, (i' < Z.of_nat j <= i)%Z -> g j = false) /\ ((0 <= i')%Z -> g (Z.to_nat i') = true).
Proof.
  induction fuel as [|fuel IH]; intros i Hi Hf; [lia|]. cbn [skip_back].
  destruct (0 <=? i)%Z eqn:E.
  - destruct (nth_error f (Z.to_nat i)) as [b|] eqn:Eb; [|apply nth_error_None in Eb; lia].
    apply nth_res_ok in Eb as E'. rewrite E'. cbn [bind].
    assert (Hk : g (Z.to_nat i) = keep b) by (unfold kept; erewrite nth_error_nth by eassumption; reflexivity).
    destruct (keep b) eqn:Ekb.
    + exists i. split; [reflexivity|]. split; [lia|]. split; [lia|]. intros _. exact Hk.
    + destruct (IH (i - 1)%Z ltac:(lia) ltac:(lia)) as (i' & E1 & H1 & H2 & H3).
      exists i'. split; [assumption|]. split; [lia|]. split; [|assumption].
      intros j Hj. destruct (Z.eq_dec (Z.of_nat j) i) as [Ej|]; [|apply H2; lia].
      replace j with (Z.to_nat i) by lia. exact Hk.
  - exists i. split; [reflexivity|]. split; [lia|]. split; lia.
Qed.
Lemma skip_up_spec i : (0 <= i <= Z.of_nat n)%Z -> exists i', skip_up keep f n i = Ok (Z.of_nat i') /\ Z.to_nat i <= i' <= n /\
  (forall j, Z.to_nat i <= j < i' -> g j = false) /\ (i' < n -> g i' = true).
Proof.
  intros Hi. unfold skip_up. destruct (i <? 0)%Z eqn:E; [lia|].
  destruct (skip_to_spec keep f n Hn (S n) (Z.to_nat i) ltac:(lia) ltac:(lia)) as (i' & E1 & H1 & H2 & H3 & H4).
  rewrite E1. cbn [bind]. exists i'. auto.
Qed.

(* what holds of an iterator standing at position p *)
Definition standing (s : fiter) (p : Z) : Prop :=
  (p = -1 /\ fst s = -1)%Z \/
  exists i, fst s = Z.of_nat i /\ i <= n /\ p = Z.of_nat (rank i) /\ (i < n -> g i = true /\ snd s = Some (Z.of_nat i)).
Lemma rank_lt i : i < n -> g i = true -> rank i < rank n.
Proof. intros Hi Hg. assert (rank (S i) <= rank n) by (apply rank_mono; lia). rewrite rank_S, Hg in H. lia. Qed.
Lemma standing_refers s p : standing s p -> refers (selected g n) n s p.
Proof.
  intros [[-> H]|(i & Hi & Hle & -> & Hk)]; split.
  - lia.
  - rewrite H. lia.
  - intros v _ Hv. rewrite Nat2Z.id in Hv. assert (Hr : rank i < rank n) by (rewrite rank_total; apply nth_error_Some; congruence).
    destruct (Nat.eq_dec i n) as [->|]; [lia|]. destruct (Hk ltac:(lia)) as [Hg Hs].
    rewrite rank_item in Hv by (assumption || lia). injection Hv as <-. unfold fderef. rewrite Hs. reflexivity.
  - rewrite Hi. split; intros H.
    + replace i with n by lia. rewrite rank_total. reflexivity.
    + destruct (Nat.eq_dec i n) as [->|]; [reflexivity|]. destruct (Hk ltac:(lia)) as [Hg _].
      pose proof (rank_lt i ltac:(lia) Hg) as Hr. rewrite rank_total in Hr. lia.
Qed.
(* one step, for any way of moving that skips to the neighbouring kept index and then stores it *)
Definition good_incr (incr : fiter -> Res fiter) : Prop := forall s i', skip_up keep f n (fst s + 1)%Z = Ok (Z.of_nat i') ->
  i' <= n -> exists s', incr s = Ok s' /\ fst s' = Z.of_nat i' /\ (i' < n -> snd s' = Some (Z.of_nat i')).
Definition good_decr (decr : fiter -> Res fiter) : Prop := forall s i', skip_back (S n) keep f (fst s - 1)%Z = Ok i' ->
  (-1 <= i' < Z.of_nat n)%Z -> exists s', decr s = Ok s' /\ fst s' = i' /\ ((0 <= i')%Z -> snd s' = Some i').
Lemma step_up incr s p : good_incr incr -> standing s p -> (p + 1 <= Z.of_nat (rank n))%Z ->
  exists s', incr s = Ok s' /\ standing s' (p + 1)%Z.
Proof.
  intros Hg Hs Hp.
  assert (H : exists k, fst s = (Z.of_nat k - 1)%Z /\ k <= n /\ (p + 1)%Z = Z.of_nat (rank k)).
  { destruct Hs as [[-> H]|(i & Hi & Hle & -> & Hk)].
    - exists 0. split; [lia|]. split; [lia|reflexivity].
    - destruct (Nat.eq_dec i n) as [->|]; [lia|]. destruct (Hk ltac:(lia)) as [Hgi _].
      exists (S i). split; [lia|]. split; [lia|]. rewrite rank_S, Hgi. lia. }
  destruct H as (k & Hf & Hk & Er).
  destruct (skip_up_spec (fst s + 1)%Z ltac:(lia)) as (i' & E & H1 & H2 & H3).
  destruct (Hg s i' E ltac:(lia)) as (s' & Es & F1 & F2). exists s'. split; [assumption|]. right. exists i'.
  split; [assumption|]. split; [lia|]. split; [|auto].
  rewrite Er. f_equal. symmetry. apply rank_skip; [lia|]. intros j Hj. apply H2. lia.
Qed.
Lemma step_down decr s p : good_decr decr -> standing s p -> (-1 <= p - 1)%Z -> exists s', decr s = Ok s' /\ standing s' (p - 1)%Z.
Proof.
  intros Hg Hs Hp. destruct Hs as [[-> H]|(i & Hi & Hle & -> & Hk)]; [lia|].
  destruct (skip_back_spec (S n) (fst s - 1)%Z ltac:(lia) ltac:(lia)) as (i' & E & H1 & H2 & H3).
  destruct (Hg s i' E ltac:(lia)) as (s' & Es & F1 & F2). exists s'. split; [assumption|].
  destruct (Z.eq_dec i' (-1)) as [->|Hne].
  - left. split; [|assumption]. rewrite (rank_skip 0 i) by (try lia; intros j Hj; apply H2; lia). unfold rank. cbn. lia.
  - right. exists (Z.to_nat i'). assert (G : g (Z.to_nat i') = true) by (apply H3; lia).
    split; [lia|]. split; [lia|]. split.
    + rewrite (rank_skip (S (Z.to_nat i')) i) by (try lia; intros j Hj; apply H2; lia). rewrite rank_S, G. lia.
    + intros _. split; [assumption|]. rewrite F2 by lia. f_equal. lia.
Qed.
Lemma walk_standing incr decr s p ms q : good_incr incr -> good_decr decr -> standing s p ->
  path (Z.of_nat (rank n)) p ms q -> exists s', foldM (fmove incr decr) ms s = Ok s' /\ standing s' q.
Proof.
  intros Hu Hd Hs Hw. revert s Hs. induction Hw as [p|p ms q Hp Hw IH|p ms q Hp Hw IH]; intros s Hs.
  - exists s. split; [reflexivity|assumption].
  - destruct (step_up incr s p Hu Hs Hp) as (s1 & E1 & S1). cbn [foldM fmove]. rewrite E1. cbn [bind]. exact (IH s1 S1).
  - destruct (step_down decr s p Hd Hs Hp) as (s1 & E1 & S1). cbn [foldM fmove]. rewrite E1. cbn [bind]. exact (IH s1 S1).
Qed.
End Walk.

Lemma edge_good_incr f n : good_incr (fun b => b) f n (edge_incr f n).
Proof.
  intros s i' E Hi. unfold edge_incr. rewrite E. cbn [bind]. destruct (Z.of_nat i' =? Z.of_nat n)%Z eqn:En.
  - eexists. split; [reflexivity|]. cbn [fst snd]. split; [reflexivity|lia].
  - unfold edge_view. replace ((0 <=? Z.of_nat i') && (Z.of_nat i' <? Z.of_nat n))%Z with true by lia. cbn [bind].
    eexists. split; [reflexivity|]. split; reflexivity.
Qed.
Lemma edge_good_decr f n : good_decr (fun b => b) f n (edge_decr f n).
Proof.
  intros s i' E Hi. unfold edge_decr. rewrite E. cbn [bind]. destruct (i' =? -1)%Z eqn:En.
  - eexists. split; [reflexivity|]. cbn [fst snd]. split; [reflexivity|lia].
  - unfold edge_view. replace ((0 <=? i') && (i' <? Z.of_nat n))%Z with true by lia. cbn [bind].
    eexists. split; [reflexivity|]. split; reflexivity.
Qed.
Lemma edge_begin f n : n <= length f -> exists s, edge_make f n 0%Z = Ok s /\ standing (fun b => b) f n s 0%Z.
Proof.
  intros Hn. destruct (skip_up_spec (fun b => b) f n Hn 0%Z ltac:(lia)) as (i' & E & H1 & H2 & H3). unfold edge_make. rewrite E. cbn [bind].
  assert (R : rank (fun b => b) f i' = 0) by (rewrite (rank_skip (fun b => b) f 0 i') by (try lia; intros j Hj; apply H2; lia); reflexivity).
  destruct (Z.of_nat i' =? Z.of_nat n)%Z eqn:En.
  - eexists. split; [reflexivity|]. right. exists i'. cbn [fst snd]. repeat split; try lia.
  - unfold edge_view. replace ((0 <=? Z.of_nat i') && (Z.of_nat i' <? Z.of_nat n))%Z with true by lia. cbn [bind].
    eexists. split; [reflexivity|]. right. exists i'. cbn [fst snd]. repeat split; try lia. apply H3; lia.
Qed.
Lemma edge_end f n : n <= length f -> exists s, edge_make f n (Z.of_nat n) = Ok s /\
  standing (fun b => b) f n s (Z.of_nat (rank (fun b => b) f n)).
Proof.
  intros Hn. destruct (skip_up_spec (fun b => b) f n Hn (Z.of_nat n) ltac:(lia)) as (i' & E & H1 & H2 & H3). unfold edge_make. rewrite E. cbn [bind].
  replace (Z.of_nat i' =? Z.of_nat n)%Z with true by lia.
  eexists. split; [reflexivity|]. right. exists i'. cbn [fst snd]. replace i' with n by lia. repeat split; lia.
Qed.

(* C176: starting from begin or from end and moving by ++ and -- in any way that stays between one place before the first kept
   edge and the end, the iterator refers to the kept edge at its position, and it is equal to the end iterator exactly when it is
   at the end. *)
Theorem C176_edges : forall filter n start ms p, length filter = n ->
  let items := selected (fun i => nth i filter false) n in
  (start = 0%Z \/ start = Z.of_nat (length items)) ->
  path (Z.of_nat (length items)) start ms p ->
  exists s, (s0 <- edge_make filter n (if (start =? 0)%Z then 0%Z else Z.of_nat n) ;;
             foldM (fmove (edge_incr filter n) (edge_decr filter n)) ms s0) = Ok s /\ refers items n s p.
Proof.
  intros f n start ms p Hl items Hs Hp. assert (Hn : n <= length f) by lia.
  assert (H0 : exists s0, edge_make f n (if (start =? 0)%Z then 0%Z else Z.of_nat n) = Ok s0 /\ standing (fun b => b) f n s0 start).
  { destruct (start =? 0)%Z eqn:E.
    - replace start with 0%Z by lia. exact (edge_begin f n Hn).
    - destruct Hs as [->|Hs]; [lia|]. rewrite Hs. exact (edge_end f n Hn). }
  destruct H0 as (s0 & E0 & S0). rewrite E0. cbn [bind].
  destruct (walk_standing (fun b => b) f n Hn _ _ s0 start ms p (edge_good_incr f n) (edge_good_decr f n) S0 Hp) as (s & E & Hst).
  exists s. split; [assumption|]. exact (standing_refers (fun b => b) f n Hn s p Hst).
Qed.
Example C176_edges_example : path 3 0 [Forward; Forward; Forward; Backward; Backward; Backward; Backward; Forward; Forward] 1 /\
  selected (fun i => nth i [false; true; true; false; true] false) 5 = [1; 2; 4] /\
  (s0 <- edge_make [false; true; true; false; true] 5 0%Z ;;
   foldM (fmove (edge_incr [false; true; true; false; true] 5) (edge_decr [false; true; true; false; true] 5))
     [Forward; Forward; Forward; Backward; Backward; Backward; Backward; Forward; Forward] s0) = Ok (2%Z, Some 2%Z).
Proof. split; [|split; reflexivity]. repeat (constructor; [lia|cbn]). constructor. Qed.

(* the boundary node iterator walks the same way, over the nodes that are NOT marked *)
Lemma node_good_incr f n : good_incr node_keep f n (node_incr f n).
Proof. intros s i' E Hi. unfold node_incr. rewrite E. cbn [bind]. eexists. split; [reflexivity|]. split; reflexivity. Qed.
Lemma node_good_decr f n : good_decr node_keep f n (node_decr f n).
Proof. intros s i' E Hi. unfold node_decr. rewrite E. cbn [bind]. eexists. split; [reflexivity|]. split; reflexivity. Qed.
Lemma filter_ext_seq (g h : nat -> bool) n : (forall i, i < n -> g i = h i) -> filter g (seq 0 n) = filter h (seq 0 n).
Proof. intros H. apply filter_ext_in. intros i Hi. apply in_seq in Hi. apply H. lia. Qed.
Theorem C176_nodes_partial : forall markers n start ms p, length markers = n ->
  let items := selected (fun i => negb (nth i markers false)) n in
  (start = 0%Z \/ start = Z.of_nat (length items)) ->
  path (Z.of_nat (length items)) start ms p ->
  exists s, (s0 <- node_make markers n (if (start =? 0)%Z then 0%Z else Z.of_nat n) ;;
             foldM (fmove (node_incr markers n) (node_decr markers n)) ms s0) = Ok s /\ refers items n s p.
Proof.
  intros f n start ms p Hl items Hs Hp. assert (Hn : n <= length f) by lia.
  assert (Ei : items = selected (kept node_keep f) n).
  { apply filter_ext_seq. intros i _. unfold kept, node_keep. destruct (nth i f false); reflexivity. }
  rewrite Ei in *. clear Ei.
  assert (H0 : exists s0, node_make f n (if (start =? 0)%Z then 0%Z else Z.of_nat n) = Ok s0 /\ standing node_keep f n s0 start).
  { unfold node_make. destruct (start =? 0)%Z eqn:E.
    - replace start with 0%Z by lia.
      destruct (skip_up_spec node_keep f n Hn 0%Z ltac:(lia)) as (i' & E1 & H1 & H2 & H3). rewrite E1. cbn [bind].
      eexists. split; [reflexivity|]. right. exists i'. cbn [fst snd].
      assert (R : rank node_keep f i' = 0) by (rewrite (rank_skip node_keep f 0 i') by (try lia; intros j Hj; apply H2; lia); reflexivity).
      repeat split; try lia. apply H3; lia.
    - destruct Hs as [->|Hs]; [lia|]. rewrite Hs.
      destruct (skip_up_spec node_keep f n Hn (Z.of_nat n) ltac:(lia)) as (i' & E1 & H1 & H2 & H3). rewrite E1. cbn [bind].
      eexists. split; [reflexivity|]. right. exists i'. cbn [fst snd]. replace i' with n by lia. repeat split; lia. }
  destruct H0 as (s0 & E0 & S0). rewrite E0. cbn [bind].
  destruct (walk_standing node_keep f n Hn _ _ s0 start ms p (node_good_incr f n) (node_good_decr f n) S0 Hp) as (s & E & Hst).
  exists s. split; [assumption|]. exact (standing_refers node_keep f n Hn s p Hst).
Qed.

(* in 3-D, -- after ++ does not come back to the item before, and -- from the end reads past the filter *)
Theorem C176_3d_refuted : exists filter n, length filter = n /\
  let items := selected (fun i => nth i filter false) n in
  path (Z.of_nat (length items)) 0 [Forward; Backward] 0 /\
  (exists s, (s0 <- iter3_make filter n 0%Z ;; foldM (fmove (iter3_next filter n) (iter3_decr filter n)) [Forward; Backward] s0) = Ok s /\
     ~ refers items n s 0) /\
  (s0 <- iter3_make filter n (Z.of_nat n) ;; iter3_decr filter n s0) = UB.
Proof.
  exists [true; true; true; true], 4. split; [reflexivity|]. split; [repeat (constructor; [cbn; lia|cbn]); constructor|]. split; [|reflexivity].
  eexists. split; [reflexivity|]. intros [H _]. specialize (H 0 ltac:(lia) eq_refl). discriminate.
Qed.

(* ---- C177: an iterator over all the faces, built without a filter ---- *)
Definition face_iteration_defined (n_edges n_faces : nat) : Prop := forall k, k <= n_faces ->
  exists s, (s0 <- iter3_make (default_filter n_edges) n_faces 0%Z ;;
             foldM (fmove (iter3_next (default_filter n_edges) n_faces) (iter3_decr (default_filter n_edges) n_faces)) (repeat Forward k) s0) = Ok s.
Lemma iter3_next_ok f n i v : n <= length f -> i <= n -> exists i' v', iter3_next f n (Z.of_nat i, v) = Ok (Z.of_nat i', v') /\ i' <= n.
Proof.
  intros Hn Hi. unfold iter3_next. cbn [fst snd].
  destruct (skip_up_spec (fun b => b) f n Hn (Z.of_nat i) ltac:(lia)) as (i' & E & H1 & H2 & H3). rewrite E. cbn [bind].
  destruct (Z.of_nat i' =? Z.of_nat n)%Z eqn:En.
  - exists i', v. split; [reflexivity|lia].
  - unfold edge_view. replace ((0 <=? Z.of_nat i') && (Z.of_nat i' <? Z.of_nat n))%Z with true by lia. cbn [bind].
    exists (S i'), (Some (Z.of_nat i')). split; [do 2 f_equal; lia|lia].
Qed.
Theorem C177_faces_partial : forall n_edges n_faces, n_faces <= 64 * ((n_edges + 63) / 64) -> face_iteration_defined n_edges n_faces.
Proof.
  intros ne nf H k Hk. set (f := default_filter ne). assert (Hl : nf <= length f) by (unfold f, default_filter; rewrite repeat_length; exact H).
  destruct (iter3_next_ok f nf 0 None Hl ltac:(lia)) as (i & v & E & Hi). unfold iter3_make. change 0%Z with (Z.of_nat 0). rewrite E. cbn [bind].
  clear E Hk. revert i v Hi. induction k as [|k IH]; intros i v Hi; [eexists; reflexivity|]. cbn [repeat foldM fmove].
  destruct (iter3_next_ok f nf i v Hl Hi) as (i' & v' & E & Hi'). rewrite E. cbn [bind]. exact (IH i' v' Hi').
Qed.
(* the double pyramid over a polygon of m sides, cut into tetrahedra around its centre: node 0 is the centre, 1 and 2 the apexes *)
Definition bipyramid (m : nat) : list (list nat) :=
  flat_map (fun i => let a := 3 + i in let b := 3 + (S i) mod m in [[0; 1; a; b]; [0; 2; a; b]]) (seq 0 m).
Definition bipyramid_markers (m : nat) : list bool := false :: repeat true (m + 2).
Theorem C177_faces_refuted : exists cells s es, simplicial 4 cells /\ conforming cells /\
  tri3 cells (bipyramid_markers 15) = Ok (s, es) /\ ~ face_iteration_defined (length (e_nodes es)) (length (f_nodes s)).
Proof.
  assert (Hs : simplicial 4 (bipyramid 15)).
  { simplicial_tac. }
  assert (Hc : conforming (bipyramid 15)) by (apply (conforming_b_ok 4 _ Hs); vm_compute; reflexivity).
  destruct (tri3 (bipyramid 15) (bipyramid_markers 15)) as [[s es]| | |] eqn:E; try (vm_compute in E; discriminate).
  exists (bipyramid 15), s, es. split; [assumption|]. split; [assumption|]. split; [assumption|].
  assert (L : length (e_nodes es) = 62 /\ length (f_nodes s) = 75) by (vm_compute in E; injection E as <- <-; split; reflexivity).
  destruct L as [-> ->]. intros H. destruct (H 64 ltac:(lia)) as [x Hx]. vm_compute in Hx. discriminate.
Qed.

(* ---- C178: the facets of a simplex ---- *)
(* the vertices without the one at index k *)
Definition without {A} (k : nat) (l : list A) : list A := firstn k l ++ skipn (S k) l.
Lemma prev_perm_trues b : prev_perm (repeat true b) = None.
Proof. induction b as [|b IH]; [reflexivity|]. cbn [repeat prev_perm]. rewrite IH. destruct b; reflexivity. Qed.
Lemma mask_step_ok a b : mask_step (repeat true (S a) ++ false :: repeat true b) = repeat true a ++ false :: repeat true (S b).
Proof.
  assert (E : prev_perm (repeat true (S a) ++ false :: repeat true b) = Some (repeat true a ++ false :: repeat true (S b))).
  { induction a as [|a IH].
    - cbn [repeat app prev_perm]. rewrite prev_perm_trues. do 2 f_equal.
      cbn [set_last_false negb andb]. replace (forallb (fun c : bool => c) (repeat true b)) with true.
      2:{ symmetry. apply forallb_forall. intros x Hx. apply repeat_spec in Hx. exact Hx. }
      change (true :: repeat true b) with (repeat true (S b)). apply rev_repeat'.
    - change (repeat true (S (S a)) ++ false :: repeat true b) with (true :: (repeat true (S a) ++ false :: repeat true b)).
      cbn [prev_perm]. rewrite IH. reflexivity. }
  unfold mask_step. rewrite E. reflexivity.
Qed.
Lemma mask_at_ok d i : i <= d -> mask_at d i = repeat true (d - i) ++ false :: repeat true i.
Proof.
  induction i as [|i IH]; intros Hi; cbn [mask_at]; [rewrite Nat.sub_0_r; reflexivity|].
  rewrite IH by lia. replace (d - i) with (S (d - S i)) by lia. apply mask_step_ok.
Qed.
Lemma masked_trues {A} (l : list A) k : length l = k -> masked_columns l (repeat true k) = l.
Proof. intros <-. induction l as [|x l IH]; [reflexivity|]. cbn [length repeat masked_columns]. rewrite IH. reflexivity. Qed.
Lemma masked_without {A} (l : list A) : forall a b, length l = a + S b ->
  masked_columns l (repeat true a ++ false :: repeat true b) = without a l.
Proof.
  induction l as [|x l IH]; intros a b Hl; [cbn in Hl; lia|]. destruct a as [|a]; cbn [repeat app masked_columns].
  - unfold without. cbn [firstn skipn app]. apply masked_trues. cbn in Hl. lia.
  - rewrite IH by (cbn in Hl; lia). reflexivity.
Qed.
Lemma boundary_cell_ok {A} (coords : list A) d i : length coords = S d -> i <= d -> boundary_cell coords i = Ok (without (d - i) coords).
Proof.
  intros Hl Hi. unfold boundary_cell. replace (length coords - 1) with d by lia. rewrite mask_at_ok by assumption.
  rewrite masked_without by lia.
  replace (length (without (d - i) coords) =? d) with true; [reflexivity|].
  symmetry. apply Nat.eqb_eq. unfold without. rewrite app_length, firstn_length, skipn_length. lia.
Qed.
(* C178: looping over the boundary of a simplex of order d gives its d + 1 facets: the i-th one has the vertices of the simplex, in
   their order, without vertex d - i. *)
Theorem C178_facets : forall A (coords : list A) d, length coords = S d ->
  boundary_visit coords = Ok (map (fun i => without (d - i) coords) (seq 0 (S d))).
Proof.
  intros A coords d Hl. unfold boundary_visit, boundary_items. rewrite Hl.
  assert (E : mapM (boundary_cell coords) (seq 0 (S d)) = Ok (map (fun i => without (d - i) coords) (seq 0 (S d)))).
  { apply mapM_ok. assert (G : forall i, In i (seq 0 (S d)) -> i <= d) by (intros i Hi; apply in_seq in Hi; lia).
    revert G. generalize (seq 0 (S d)) as l. induction l as [|i l IH]; intros G; constructor.
    - apply boundary_cell_ok; [assumption|]. apply G. now left.
    - apply IH. intros j Hj. apply G. now right. }
  rewrite E. cbn [bind]. apply iterator_visits. rewrite map_length, seq_length. lia.
Qed.
(* every vertex is on all the facets but one *)
Corollary C178_vertex : forall A (coords : list A) d facets k v, length coords = S d -> NoDup coords ->
  boundary_visit coords = Ok facets -> nth_error coords k = Some v ->
  length facets = S d /\ forall i f, nth_error facets i = Some f -> In v f <-> i <> d - k.
Proof.
  intros A coords d facets k v Hl Hnd E Hk. rewrite (C178_facets A coords d Hl) in E.
  assert (Ef : facets = map (fun i => without (d - i) coords) (seq 0 (S d))) by congruence. rewrite Ef. clear E Ef.
  split; [rewrite map_length, seq_length; reflexivity|]. intros i f Hf.
  assert (Hi : i < S d) by (rewrite <- (seq_length (S d) 0), <- (map_length (fun i => without (d - i) coords)); apply nth_error_Some; congruence).
  rewrite nth_error_map', nth_error_seq in Hf.
  destruct (Nat.ltb_spec i (S d)); [|lia]. cbn in Hf. injection Hf as <-.
  assert (Hkd : k < S d) by (rewrite <- Hl; apply nth_error_Some; congruence).
  pose proof (proj1 (NoDup_nth_error coords) Hnd) as Hinj.
  unfold without. rewrite in_app_iff. split.
  - intros [H1|H1] ->; apply In_nth_error in H1 as [j Hj].
    + assert (j < d - (d - k)) by (assert (j < length (firstn (d - (d - k)) coords)) by (apply nth_error_Some; congruence); rewrite firstn_length in *; lia).
      rewrite nth_error_firstn in Hj. destruct (Nat.ltb_spec j (d - (d - k))); [|lia].
      assert (j = k); [|lia]. apply Hinj; [lia|congruence].
    + rewrite nth_error_skipn' in Hj. assert (S (d - (d - k)) + j = k); [|lia]. symmetry. apply Hinj; [lia|congruence].
  - intros Hne. destruct (Nat.lt_ge_cases k (d - i)) as [Hlt|Hge].
    + left. apply (nth_error_In _ k). rewrite nth_error_firstn. destruct (Nat.ltb_spec k (d - i)); [assumption|lia].
    + right. apply (nth_error_In _ (k - S (d - i))). rewrite nth_error_skipn'. replace (S (d - i) + (k - S (d - i))) with k by lia. assumption.
Qed.
(* the points of the facets visited are the points on the boundary of the simplex *)
Section Geometry.
Import SimplexModel SimplexProps.
Local Open Scope R_scope.
Definition vertex_of (coords : list vec) (i : nat) : vec := nth i coords (fun _ => 0).
Lemma nth_without {A} (l : list A) k i (x : A) : nth i (without k l) x = nth (if (i <? k)%nat then i else S i) l x.
Proof.
  unfold without. destruct (Nat.ltb_spec i k) as [Hlt|Hge].
  - destruct (Nat.lt_ge_cases i (length l)) as [Hl|Hl].
    + rewrite app_nth1 by (rewrite firstn_length; lia). rewrite <- (firstn_skipn k l) at 2.
      rewrite app_nth1 by (rewrite firstn_length; lia). reflexivity.
    + rewrite firstn_all2, skipn_all2, app_nil_r by lia. reflexivity.
  - destruct (Nat.lt_ge_cases k (length l)) as [Hl|Hl].
    + rewrite app_nth2 by (rewrite firstn_length; lia). rewrite firstn_length, Nat.min_l by lia.
      rewrite <- (firstn_skipn (S k) l) at 2. rewrite app_nth2 by (rewrite firstn_length; lia).
      rewrite firstn_length, Nat.min_l by lia. reflexivity.
    + rewrite firstn_all2, skipn_all2, app_nil_r by lia. rewrite !nth_overflow by lia. reflexivity.
Qed.
Lemma rsum_without k : forall d (f : nat -> R), (k <= d)%nat -> rsum (S d) f = f k + rsum d (fun i => f (if (i <? k)%nat then i else S i)).
Proof.
  intros d f Hk. replace (S d) with (k + S (d - k))%nat by lia. rewrite RSum.rsum_app, rsum_head.
  replace d with (k + (d - k))%nat at 2 by lia. rewrite RSum.rsum_app.
  replace (k + 0)%nat with k by lia.
  rewrite (RSum.rsum_ext k (fun i => f (if (i <? k)%nat then i else S i)) f) by (intros i Hi; destruct (Nat.ltb_spec i k); [reflexivity|lia]).
  rewrite (RSum.rsum_ext (d - k) (fun i => f (if (k + i <? k)%nat then (k + i)%nat else S (k + i))) (fun i => f (k + S i)%nat)).
  2:{ intros i Hi. destruct (Nat.ltb_spec (k + i) k); [lia|]. f_equal. lia. }
  ring.
Qed.
Theorem C178_boundary : forall N (coords : list vec) d facets p, length coords = S d -> (1 <= d)%nat -> boundary_visit coords = Ok facets ->
  on_boundary d N (vertex_of coords) p <-> exists f, In f facets /\ in_simplex (d - 1) N (vertex_of f) p.
Proof.
  intros N coords d facets p Hl Hd E. rewrite (C178_facets vec coords d Hl) in E.
  assert (Ef : facets = map (fun i => without (d - i) coords) (seq 0 (S d))) by congruence. rewrite Ef. clear E Ef facets.
  split.
  - intros (w & k & [Hs Hc] & Hw & Hk & Hk0). exists (without k coords). split.
    { apply in_map_iff. exists (d - k)%nat. split; [f_equal; lia|apply in_seq; lia]. }
    exists (fun i => w (if (i <? k)%nat then i else S i)). split; [split|].
    + rewrite (rsum_without k d w Hk), Hk0 in Hs. replace (S (d - 1)) with d by lia. lra.
    + intros r Hr. rewrite <- (Hc r Hr). unfold combination. rewrite (rsum_without k d _ Hk), Hk0. replace (S (d - 1)) with d by lia.
      rewrite Rmult_0_l, Rplus_0_l. apply RSum.rsum_ext. intros i Hi. unfold vertex_of. rewrite nth_without. reflexivity.
    + intros i Hi. apply Hw. destruct (i <? k)%nat; lia.
  - intros (f & Hf & w & [Hs Hc] & Hw). apply in_map_iff in Hf as (i & <- & Hi). apply in_seq in Hi.
    set (k := (d - i)%nat) in *. assert (Hk : (k <= d)%nat) by lia.
    exists (fun j => if (j <? k)%nat then w j else if (j =? k)%nat then 0 else w (j - 1)%nat), k.
    assert (G : forall j, (fun j => if (j <? k)%nat then w j else if (j =? k)%nat then 0 else w (j - 1)%nat) (if (j <? k)%nat then j else S j) = w j).
    { intros j. cbn beta. destruct (Nat.ltb_spec j k) as [H|H].
      - destruct (Nat.ltb_spec j k); [reflexivity|lia].
      - destruct (Nat.ltb_spec (S j) k); [lia|]. destruct (Nat.eqb_spec (S j) k); [lia|]. f_equal. lia. }
    assert (Z : (if (k <? k)%nat then w k else if (k =? k)%nat then 0 else w (k - 1)%nat) = 0).
    { destruct (Nat.ltb_spec k k); [lia|]. rewrite Nat.eqb_refl. reflexivity. }
    replace (S (d - 1)) with d in Hs by lia.
    split; [split|split; [|split; [assumption|exact Z]]].
    + rewrite (rsum_without k d _ Hk). cbn beta. rewrite Z, Rplus_0_l, <- Hs. apply RSum.rsum_ext. intros j _. apply G.
    + intros r Hr. rewrite <- (Hc r Hr). unfold combination. rewrite (rsum_without k d _ Hk). cbn beta.
      rewrite Z, Rmult_0_l, Rplus_0_l. replace (S (d - 1)) with d by lia. apply RSum.rsum_ext. intros j _.
      rewrite G. unfold vertex_of. rewrite nth_without. reflexivity.
    + intros j Hj. destruct (Nat.ltb_spec j k); [apply Hw; lia|]. destruct (Nat.eqb_spec j k); [lra|]. apply Hw. lia.
Qed.
End Geometry.
Example C178_example : boundary_visit [10; 11; 12; 13] = Ok [[10; 11; 12]; [10; 11; 13]; [10; 12; 13]; [11; 12; 13]].
Proof. reflexivity. Qed.

Print Assumptions C176_edges.
Print Assumptions C176_nodes_partial.
Print Assumptions C176_3d_refuted.
Print Assumptions C177_faces_partial.
Print Assumptions C177_faces_refuted.
Print Assumptions C178_facets.
Print Assumptions C178_vertex.
Print Assumptions C178_boundary.
