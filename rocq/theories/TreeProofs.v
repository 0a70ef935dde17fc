(* Traversals, insertion and erasure of binary trees. *)
From Coq Require Import Permutation.
From Verif Require Import Base TreeModel TreeSpec.

Section P.
Context {T : Type}.
Implicit Types t l r : mtree T.
Implicit Types h : heap T.

Definition froots (fs : list (mtree T)) : list addr := flat_map (fun t => opt_list (raddr t)) fs.
Definition held h t := exists d, holds h d t.
Fixpoint fsize (fs : list (mtree T)) : nat :=
  match fs with [] => 0 | t :: fs' => msize t + fsize fs' end.

Lemma fsize_app : forall a b, fsize (a ++ b) = fsize a + fsize b.
Proof. induction a; intros; simpl; [lia|rewrite IHa; lia]. Qed.
Lemma froots_app : forall a b, froots (a ++ b) = froots a ++ froots b.
Proof. intros; apply flat_map_app. Qed.
Lemma addrs_length : forall t, length (addrs t) = msize t.
Proof. induction t; simpl; [auto|rewrite app_length; lia]. Qed.
Lemma preorder_length : forall t, length (preorder t) = msize t.
Proof. induction t; simpl; [auto|rewrite app_length; lia]. Qed.

Lemma held_node : forall h a x l r, held h (MNode a x l r) ->
  (exists n, cells h a = Some n /\ ndata n = x /\ nleft n = raddr l /\ nright n = raddr r) /\
  held h l /\ held h r.
Proof.
  intros h a x l r [d [[par E] [Hl Hr]]]. split; [|split].
  - eexists; split; [exact E|auto].
  - exists (S d); auto.
  - exists (S d); auto.
Qed.

Lemma deref_ok : forall h a n, cells h a = Some n -> deref h (Some a) = Ok n.
Proof. intros h a n E; simpl; rewrite E; auto. Qed.


Lemma dfs_loop_ok : forall h m fs fuel, 2 * fsize fs + length fs <= m -> fsize fs <= fuel ->
  Forall (held h) fs ->
  dfs_loop h fuel (hd_error (froots fs)) (froots fs) = Ok (flat_map addrs fs).
Proof.
  intros h. induction m as [m IH] using lt_wf_ind; intros fs fuel Hm Hf HF.
  destruct fs as [|[|a x l r] fs'].
  - destruct fuel; reflexivity.
  - simpl. apply (IH (m-1)); simpl in *; try lia. inversion HF; auto.
  - inversion HF as [|? ? H1 H2]; subst.
    destruct (held_node _ _ _ _ _ H1) as [[n [E [Ed [El Er]]]] [Hl Hr]].
    cbn [fsize msize length] in *.
    destruct fuel as [|fuel]; [lia|].
    cbn [froots flat_map raddr opt_list hd_error app dfs_loop].
    unfold dfs_next. rewrite (deref_ok _ _ _ E). cbn [bind tl]. rewrite El, Er.
    fold (froots fs').
    assert (Hx: dfs_loop h fuel (hd_error (froots (l :: r :: fs'))) (froots (l :: r :: fs'))
                = Ok (flat_map addrs (l :: r :: fs'))).
    { apply (IH (m-1)); [lia| | |]; cbn [fsize length]; try lia. auto. }
    change (froots (l :: r :: fs')) with (opt_list (raddr l) ++ opt_list (raddr r) ++ froots fs') in Hx.
    cbn [flat_map] in Hx |- *. cbn [addrs app].
    rewrite <- app_assoc.
    destruct (opt_list (raddr l) ++ opt_list (raddr r) ++ froots fs') as [|b q] eqn:Eq;
      cbn [bind fst snd hd_error] in *; rewrite Hx; reflexivity.
Qed.

Lemma froots_single : forall t, froots [t] = opt_list (raddr t).
Proof. intros; unfold froots; simpl; apply app_nil_r. Qed.
Lemma hd_opt_list : forall p, hd_error (opt_list p) = p.
Proof. destruct p; auto. Qed.

Lemma dfs_ok : forall h t fuel, held h t -> msize t <= fuel -> dfs h fuel (raddr t) = Ok (addrs t).
Proof.
  intros h t fuel H Hf.
  pose proof (dfs_loop_ok h _ [t] fuel (le_n _)) as D.
  rewrite froots_single, hd_opt_list in D. unfold dfs. rewrite D.
  - simpl; now rewrite app_nil_r.
  - simpl; lia.
  - auto.
Qed.

Lemma read_all_ok : forall h t, held h t -> read_all h (addrs t) = Ok (preorder t).
Proof.
  intros h; induction t as [|a x l IHl r IHr]; intros H; [reflexivity|].
  destruct (held_node _ _ _ _ _ H) as [[n [E [Ed [El Er]]]] [Hl Hr]].
  unfold read_all in *. cbn [addrs mapM]. rewrite (deref_ok _ _ _ E). cbn [bind].
  assert (Happ: forall A B (f : A -> Res B) u v ru rv, mapM f u = Ok ru -> mapM f v = Ok rv -> mapM f (u ++ v) = Ok (ru ++ rv)).
  { intros A B f; induction u; intros v ru rv Hu Hv; simpl in *; [inversion Hu; auto|].
    destruct (f a0); simpl in *; try discriminate.
    destruct (mapM f u) eqn:Eu; simpl in *; try discriminate. inversion Hu; subst.
    erewrite IHu; eauto. simpl; reflexivity. }
  erewrite Happ; [|apply IHl; auto|apply IHr; auto]. cbn [bind preorder]. congruence.
Qed.

(* breadth first *)
Definition kids t : list (mtree T) := match t with MLeaf => [] | MNode _ _ l r => [l; r] end.
Definition lo (H : nat) (fs : list (mtree T)) : list addr :=
  flat_map (fun k => flat_map (level k) fs) (seq 0 H).

Lemma flat_map_level0 : forall fs : list (mtree T), flat_map (level 0) fs = froots fs.
Proof. induction fs as [|[|a x l r] fs IH]; simpl; auto. f_equal; exact IH. Qed.
Lemma flat_map_levelS : forall k fs, flat_map (@level T (S k)) fs = flat_map (level k) (flat_map kids fs).
Proof.
  intros k; induction fs as [|[|a x l r] fs IH]; [reflexivity|exact IH|].
  cbn [flat_map kids app]. rewrite IH. change (level (S k) (MNode a x l r)) with (level k l ++ level k r).
  rewrite <- app_assoc. reflexivity.
Qed.
Lemma lo_S : forall H fs, lo (S H) fs = froots fs ++ lo H (flat_map kids fs).
Proof.
  intros H fs; unfold lo. cbn [seq flat_map]. rewrite flat_map_level0. f_equal.
  rewrite <- seq_shift, flat_map_concat_map, map_map, <- flat_map_concat_map.
  apply flat_map_ext. intros k; apply flat_map_levelS.
Qed.
Definition tall H (fs : list (mtree T)) := Forall (fun t => height t <= H) fs.
Lemma tall_kids : forall H fs, tall (S H) fs -> tall H (flat_map kids fs).
Proof.
  intros H fs HF. unfold tall in *. rewrite Forall_forall in *. intros t Ht.
  apply in_flat_map in Ht. destruct Ht as [s [Hs Hk]]. specialize (HF _ Hs).
  destruct s as [|a x l r]; simpl in *; [tauto|].
  destruct Hk as [<-|[<-|[]]]; lia.
Qed.
Lemma tall0 : forall fs, tall 0 fs -> froots fs = [].
Proof.
  induction fs as [|[|a x l r] fs IH]; intros HF; auto; inversion HF; subst; simpl in *; auto; lia.
Qed.

Lemma bfs_loop_ok : forall h m fs1 fs2 H fuel,
  2 * fsize (fs1 ++ fs2) + length (fs1 ++ fs2) <= m -> fsize (fs1 ++ fs2) <= fuel ->
  Forall (held h) (fs1 ++ fs2) -> tall H (fs2 ++ flat_map kids fs1) ->
  bfs_loop h fuel (hd_error (froots (fs1 ++ fs2))) (froots (fs1 ++ fs2))
   = Ok (froots fs1 ++ lo H (fs2 ++ flat_map kids fs1)).
Proof.
  intros h. induction m as [m IH] using lt_wf_ind.
  assert (Step: forall t fs1 fs2 H fuel,
    2 * fsize ((t :: fs1) ++ fs2) + length ((t :: fs1) ++ fs2) <= m -> fsize ((t :: fs1) ++ fs2) <= fuel ->
    Forall (held h) ((t :: fs1) ++ fs2) -> tall H (fs2 ++ flat_map kids (t :: fs1)) ->
    bfs_loop h fuel (hd_error (froots ((t :: fs1) ++ fs2))) (froots ((t :: fs1) ++ fs2))
    = Ok (froots (t :: fs1) ++ lo H (fs2 ++ flat_map kids (t :: fs1)))).
  { intros t fs1 fs2 H fuel Hm Hf HF HT. destruct t as [|a x l r].
    - simpl in *. apply (IH (m-1)); try lia; auto. inversion HF; auto.
    - inversion HF as [|? ? H1 H2]; subst.
      destruct (held_node _ _ _ _ _ H1) as [[n [E [Ed [El Er]]]] [Hl Hr]].
      cbn [app fsize msize length] in *.
      destruct fuel as [|fuel]; [lia|].
      cbn [froots flat_map raddr opt_list hd_error app bfs_loop kids] in *.
      unfold bfs_next. rewrite (deref_ok _ _ _ E). cbn [bind tl]. rewrite El, Er.
      fold (froots (fs1 ++ fs2)).
      assert (Eq: froots (fs1 ++ fs2) ++ opt_list (raddr l) ++ opt_list (raddr r) = froots (fs1 ++ (fs2 ++ [l; r]))).
      { rewrite (app_assoc fs1). rewrite (froots_app (fs1 ++ fs2)). f_equal. unfold froots; simpl. now rewrite app_nil_r. }
      rewrite Eq.
      assert (Hx: bfs_loop h fuel (hd_error (froots (fs1 ++ (fs2 ++ [l; r])))) (froots (fs1 ++ (fs2 ++ [l; r])))
        = Ok (froots fs1 ++ lo H ((fs2 ++ [l; r]) ++ flat_map kids fs1))).
      { apply (IH (m-1)); try lia.
        - rewrite !fsize_app, !app_length in *; simpl in *; lia.
        - rewrite !fsize_app in *; simpl in *; lia.
        - rewrite app_assoc; apply Forall_app; split; auto.
        - rewrite <- app_assoc; exact HT. }
      rewrite <- app_assoc in Hx. cbn [app] in Hx.
      destruct (froots (fs1 ++ (fs2 ++ [l; r]))) as [|b q] eqn:Eb;
        cbn [bind fst snd hd_error] in *; rewrite Hx; reflexivity. }
  intros fs1 fs2 H fuel Hm Hf HF HT.
  destruct fs1 as [|t fs1]; [|apply Step; auto].
  cbn [app flat_map] in *. change (froots []) with (@nil addr). cbn [app]. rewrite app_nil_r in *.
  destruct H as [|H].
  - rewrite (tall0 _ HT). destruct fuel; reflexivity.
  - rewrite lo_S. destruct fs2 as [|t fs2].
    + simpl. unfold lo. destruct fuel; simpl; f_equal; induction (seq 0 H); auto.
    + specialize (Step t fs2 [] H fuel). rewrite app_nil_r in Step.
      rewrite Step; auto. apply tall_kids in HT; exact HT.
Qed.

Lemma bfs_ok : forall h t fuel, held h t -> msize t <= fuel -> bfs h fuel (raddr t) = Ok (level_order t).
Proof.
  intros h t fuel Hh Hf.
  pose proof (bfs_loop_ok h _ [] [t] (height t) fuel (le_n _)) as D.
  cbn [app flat_map] in D. rewrite froots_single, hd_opt_list in D. unfold bfs. rewrite D.
  - unfold level_order, lo. cbn [froots flat_map app]. f_equal. apply flat_map_ext. intros k; cbn [flat_map]; apply app_nil_r.
  - simpl; lia.
  - auto.
  - constructor; auto. 
Qed.

(* leaves *)
Definition is_mleaf t := match t with MNode _ _ MLeaf MLeaf => true | _ => false end.

(* from a stack holding (inner) node t on top of fs, leaf_next reaches the next leaf *)
Lemma leaf_next_ok : forall h m a x l r fs fuel,
  2 * fsize (MNode a x l r :: fs) + length (MNode a x l r :: fs) <= m ->
  fsize (MNode a x l r :: fs) <= fuel ->
  Forall (held h) (MNode a x l r :: fs) ->
  match flat_map mleaves (l :: r :: fs) with
  | [] => leaf_next h fuel a (froots (MNode a x l r :: fs)) = Ok (None, [])
  | b :: rest => exists y fs', leaf_next h fuel a (froots (MNode a x l r :: fs)) = Ok (Some b, froots (MNode b y MLeaf MLeaf :: fs'))
       /\ flat_map mleaves fs' = rest /\ Forall (held h) (MNode b y MLeaf MLeaf :: fs')
       /\ fsize (MNode b y MLeaf MLeaf :: fs') < fsize (MNode a x l r :: fs)
  end.
Proof.
  intros h. induction m as [m IH] using lt_wf_ind; intros a x l r fs fuel Hm Hf HF.
  inversion HF as [|? ? H1 H2]; subst.
  destruct (held_node _ _ _ _ _ H1) as [[n [E [Ed [El Er]]]] [Hl Hr]].
  cbn [fsize msize length] in *. destruct fuel as [|fuel]; [lia|].
  cbn [froots flat_map raddr opt_list app leaf_next]. fold (froots fs).
  unfold dfs_next. rewrite (deref_ok _ _ _ E). cbn [bind tl]. rewrite El, Er.
  (* drop leading empty trees from l :: r :: fs *)
  assert (G: forall gs, froots gs = opt_list (raddr l) ++ opt_list (raddr r) ++ froots fs ->
     flat_map mleaves gs = flat_map mleaves (l :: r :: fs) -> Forall (held h) gs -> 
     2 * fsize gs + length gs < m -> fsize gs <= fuel -> fsize gs < S (msize l + msize r) + fsize fs ->
     match flat_map mleaves (l :: r :: fs) with
     | [] => (st <- match opt_list (raddr l) ++ opt_list (raddr r) ++ froots fs with
                   | [] => Ok (None, []) | a0 :: _ => Ok (Some a0, opt_list (raddr l) ++ opt_list (raddr r) ++ froots fs) end ;;
              match fst st with
              | Some b => nb <- deref h (Some b) ;; match nleft nb with Some _ => leaf_next h fuel b (snd st)
                   | None => match nright nb with Some _ => leaf_next h fuel b (snd st) | None => Ok (Some b, snd st) end end
              | None => Ok (None, []) end) = Ok (None, [])
     | b :: rest => exists y fs', (st <- match opt_list (raddr l) ++ opt_list (raddr r) ++ froots fs with
                   | [] => Ok (None, []) | a0 :: _ => Ok (Some a0, opt_list (raddr l) ++ opt_list (raddr r) ++ froots fs) end ;;
              match fst st with
              | Some b => nb <- deref h (Some b) ;; match nleft nb with Some _ => leaf_next h fuel b (snd st)
                   | None => match nright nb with Some _ => leaf_next h fuel b (snd st) | None => Ok (Some b, snd st) end end
              | None => Ok (None, []) end) = Ok (Some b, froots (MNode b y MLeaf MLeaf :: fs')) /\
        flat_map mleaves fs' = rest /\ Forall (held h) (MNode b y MLeaf MLeaf :: fs') /\
        fsize (MNode b y MLeaf MLeaf :: fs') < S (msize l + msize r) + fsize fs
     end).
  { induction gs as [|[|b y bl br] gs IHg]; intros Eg El' Hg Hmg Hfg Hsg.
    - rewrite <- Eg, <- El'. simpl. reflexivity.
    - apply IHg; simpl in *; auto; try lia. inversion Hg; auto.
    - rewrite <- Eg, <- El'.
      inversion Hg as [|? ? G1 G2]; subst.
      destruct (held_node _ _ _ _ _ G1) as [[nb [Eb [Edb [Elb Erb]]]] [Hlb Hrb]].
      cbn [froots flat_map raddr opt_list app bind fst snd]. fold (froots gs).
      rewrite (deref_ok _ _ _ Eb). cbn [bind]. rewrite Elb, Erb.
      destruct (is_mleaf (MNode b y bl br)) eqn:Elf.
      + destruct bl as [|]; [|discriminate]. destruct br as [|]; [|discriminate].
        cbn [raddr mleaves app]. exists y, gs. split; [reflexivity|split; [reflexivity|split; [exact Hg|]]].
        simpl in *; lia.
      + assert (Hn: mleaves (MNode b y bl br) = mleaves bl ++ mleaves br).
        { destruct bl; [destruct br; [discriminate|reflexivity]|reflexivity]. }
        rewrite Hn, <- app_assoc.
        assert (Hk: forall X Y : Res (option addr * list addr), match raddr bl with Some _ => X | None => match raddr br with Some _ => X | None => Y end end = X).
        { intros X Y; destruct bl; [destruct br; [discriminate|reflexivity]|reflexivity]. }
        rewrite Hk.
        specialize (IH (m-1) ltac:(lia) b y bl br gs fuel ltac:(cbn [fsize msize length] in *; lia) ltac:(cbn [fsize msize] in *; lia) Hg).
        cbn [flat_map froots raddr opt_list app] in IH. fold (froots gs) in IH.
        destruct (mleaves bl ++ mleaves br ++ flat_map mleaves gs); [exact IH|].
        destruct IH as [z [fs' [A [B [C D]]]]]. exists z, fs'. split; [exact A|split; [exact B|split; [exact C|]]].
        cbn [fsize msize] in *; lia. }
  apply (G (l :: r :: fs)); auto; cbn [fsize length]; lia.
Qed.

Lemma leaf_loop_ok : forall h fuel a x fs, fsize (MNode a x MLeaf MLeaf :: fs) <= fuel ->
  Forall (held h) (MNode a x MLeaf MLeaf :: fs) ->
  leaf_loop h fuel (Some a) (froots (MNode a x MLeaf MLeaf :: fs)) = Ok (a :: flat_map mleaves fs).
Proof.
  intros h; induction fuel as [|fuel IH]; intros a x fs Hf HF; [simpl in Hf; lia|].
  cbn [leaf_loop].
  pose proof (leaf_next_ok h _ a x MLeaf MLeaf fs (S fuel) (le_n _) Hf HF) as L.
  cbn [flat_map mleaves app] in L.
  destruct (flat_map mleaves fs) as [|b rest] eqn:E.
  - rewrite L. cbn [bind fst snd leaf_loop]. destruct fuel; reflexivity.
  - destruct L as [y [fs' [A [B [C D]]]]]. rewrite A. cbn [bind fst snd].
    rewrite (IH b y fs'); auto; [simpl; congruence|]. cbn [fsize msize] in *; lia.
Qed.

Lemma leaves_ok : forall h a x l r fuel, held h (MNode a x l r) -> msize (MNode a x l r) <= fuel ->
  leaves h fuel (Some a) = Ok (mleaves l ++ mleaves r).
Proof.
  intros h a x l r fuel H Hf. unfold leaves.
  pose proof (leaf_next_ok h _ a x l r [] fuel (le_n _)) as L.
  specialize (L ltac:(simpl in *; lia) ltac:(auto)).
  change (froots [MNode a x l r]) with [a] in L.
  cbn [flat_map] in L. rewrite app_nil_r in L.
  destruct (mleaves l ++ mleaves r) as [|b rest] eqn:E.
  - rewrite L. cbn. destruct fuel; reflexivity.
  - destruct L as [y [fs' [A [B [C D]]]]]. rewrite A. cbn [bind fst snd].
    rewrite leaf_loop_ok; auto; [congruence|]. cbn [fsize msize] in *; lia.
Qed.

(* frames *)
Lemma holds_frame : forall h h' t d, (forall a, In a (addrs t) -> cells h' a = cells h a) ->
  holds h d t -> holds h' d t.
Proof.
  intros h h'; induction t as [|a x l IHl r IHr]; intros d HF H; simpl in *; auto.
  destruct H as [[par E] [Hl Hr]]. split; [|split].
  - exists par. rewrite HF; auto.
  - apply IHl; auto. intros; apply HF; right; apply in_or_app; auto.
  - apply IHr; auto. intros; apply HF; right; apply in_or_app; auto.
Qed.
Lemma parents_frame : forall h h' t p, (forall a, In a (addrs t) -> cells h' a = cells h a) ->
  parents_ok h p t -> parents_ok h' p t.
Proof.
  intros h h'; induction t as [|a x l IHl r IHr]; intros d HF H; simpl in *; auto.
  destruct H as [[par [E E']] [Hl Hr]]. split; [|split].
  - exists par. rewrite HF; auto.
  - apply IHl; auto. intros; apply HF; right; apply in_or_app; auto.
  - apply IHr; auto. intros; apply HF; right; apply in_or_app; auto.
Qed.
Lemma holds_alloc : forall h t d a, holds h d t -> In a (addrs t) -> exists n, cells h a = Some n.
Proof.
  intros h; induction t as [|b x l IHl r IHr]; intros d a H Ha; simpl in *; [tauto|].
  destruct H as [[par E] [Hl Hr]]. destruct Ha as [<-|Ha]; [eauto|].
  apply in_app_or in Ha; destruct Ha; eauto.
Qed.
Lemma sane_lt : forall h t d a, sane h -> holds h d t -> In a (addrs t) -> a < next h.
Proof.
  intros h t d a S H Ha. destruct (holds_alloc _ _ _ _ H Ha) as [n E].
  destruct (Nat.lt_ge_cases a (next h)); auto. rewrite S in E; [discriminate|auto].
Qed.

(* insertion *)
Fixpoint minsert (less : T -> nat -> T -> bool) (d : nat) (a : addr) (x : T) t : mtree T :=
  match t with
  | MLeaf => MNode a x MLeaf MLeaf
  | MNode b y l r => if less x d y then MNode b y (minsert less (S d) a x l) r else MNode b y l (minsert less (S d) a x r)
  end.

Lemma minsert_addrs : forall less a x t d, Permutation (addrs (minsert less d a x t)) (a :: addrs t).
Proof.
  intros less a x; induction t as [|b y l IHl r IHr]; intros d; simpl; auto.
  destruct (less x d y); simpl.
  - rewrite perm_swap. apply perm_skip. rewrite IHl. reflexivity.
  - rewrite perm_swap. apply perm_skip. rewrite IHr. symmetry; apply Permutation_middle.
Qed.
Lemma minsert_preorder : forall less a x t d, Permutation (preorder (minsert less d a x t)) (x :: preorder t).
Proof.
  intros less a x; induction t as [|b y l IHl r IHr]; intros d; simpl; auto.
  destruct (less x d y); simpl.
  - rewrite perm_swap. apply perm_skip. rewrite IHl. reflexivity.
  - rewrite perm_swap. apply perm_skip. rewrite IHr. symmetry; apply Permutation_middle.
Qed.
Lemma minsert_size : forall less a x t d, msize (minsert less d a x t) = S (msize t).
Proof. intros less a x; induction t as [|b y l IHl r IHr]; intros d; simpl; auto. destruct (less x d y); simpl; [rewrite IHl|rewrite IHr]; lia. Qed.
Lemma minsert_search : forall less a x t d, ordered_tree less d t -> ordered_tree less d (minsert less d a x t).
Proof.
  intros less a x; induction t as [|b y l IHl r IHr]; simpl; intros d H; auto.
  destruct H as [A [B [C D]]].
  destruct (less x d y) eqn:E; simpl.
  - split; [|auto]. eapply Permutation_Forall; [symmetry; apply minsert_preorder|]. auto.
  - split; [auto|]. split; [|auto]. eapply Permutation_Forall; [symmetry; apply minsert_preorder|]. auto.
Qed.
Lemma minsert_raddr : forall less d a x b y l r, raddr (minsert less d a x (MNode b y l r)) = Some b.
Proof. intros; simpl; destruct (less x d y); auto. Qed.

Lemma push_loop_ok : forall less x t h fuel d par a y l r, t = MNode a y l r -> sane h ->
  NoDup (addrs t) -> holds h d t -> parents_ok h par t -> height t <= fuel ->
  exists h', push_loop less h fuel x a (S d) = Ok (h', next h) /\
    next h' = S (next h) /\
    holds h' d (minsert less d (next h) x t) /\ parents_ok h' par (minsert less d (next h) x t) /\
    (forall b, b <> next h -> ~ In b (addrs t) -> cells h' b = cells h b) /\
    sane h'.
Proof.
  intros less x; induction t as [|b z l' IHl r' IHr]; intros h fuel d par a y l r Et S ND H Hp Hf; [discriminate|].
  inversion Et; subst b z l' r'; clear Et.
  cbn [holds] in H; destruct H as [[q E] [Hl Hr]].
  destruct fuel as [|fuel]; [simpl in Hf; lia|].
  cbn [push_loop]. rewrite (deref_ok _ _ _ E). cbn [bind ndata nleft nright nparent ndepth].
  assert (Ha: a < next h). { destruct (Nat.lt_ge_cases a (next h)); auto. rewrite S in E; [discriminate|auto]. }
  cbn [addrs] in ND. inversion ND as [|? ? Nin ND']; subst.
  destruct (NoDup_app_inv _ _ _ ND') as [NDl [NDr Dlr]].
  assert (Hal: forall c, In c (addrs l) -> c < next h /\ c <> a).
  { intros c Hc; split; [exact (sane_lt _ _ _ _ S Hl Hc)|]. intros ->; apply Nin, in_or_app; auto. }
  assert (Har: forall c, In c (addrs r) -> c < next h /\ c <> a).
  { intros c Hc; split; [exact (sane_lt _ _ _ _ S Hr Hc)|]. intros ->; apply Nin, in_or_app; auto. }
  cbn [parents_ok] in Hp. destruct Hp as [[n0 [En0 Epar]] [Hpl Hpr]].
  rewrite E in En0. inversion En0; subst n0; clear En0. cbn [nparent] in Epar. subst q.
  cbn [minsert height] in *.
  destruct (less x d y) eqn:Els.
  - destruct l as [|la ly ll lr].
    + cbn [raddr alloc]. eexists. split; [reflexivity|].
      assert (C1: forall c, c <> a -> c <> next h -> cells (store (mkheap (fun b : nat => if b =? next h then Some (mknode x (Some a) None None (Datatypes.S d)) else cells h b) (Datatypes.S (next h))) a (mknode y par (Some (next h)) (raddr r) d)) c = cells h c).
      { intros c H1 H2. cbn. destruct (c =? a) eqn:?; destruct (c =? next h) eqn:?; auto; lia. }
      split; [reflexivity|]. split; [|split; [|split]].
      * cbn [minsert holds]. split; [|split; [split; [|auto]|]].
        -- exists par. cbn. now rewrite Nat.eqb_refl.
        -- exists (Some a). cbn. destruct (next h =? a) eqn:?; [lia|]. now rewrite Nat.eqb_refl.
        -- eapply holds_frame; [|exact Hr]. intros c Hc. destruct (Har c Hc). apply C1; lia.
      * cbn [minsert parents_ok]. split; [|split; [split; [|auto]|]].
        -- eexists. cbn. rewrite Nat.eqb_refl. split; reflexivity.
        -- eexists. cbn. destruct (next h =? a) eqn:?; [lia|]. rewrite Nat.eqb_refl. split; reflexivity.
        -- eapply parents_frame; [|exact Hpr]. intros c Hc. destruct (Har c Hc). apply C1; lia.
      * intros c H1 H2. apply C1; auto. intros ->. apply H2; simpl; auto.
      * intros c Hc. cbn in Hc. rewrite C1; [apply S; lia|lia|lia].
    + cbn [raddr].
      destruct (IHl h fuel (Datatypes.S d) (Some a) la ly ll lr eq_refl S NDl Hl Hpl ltac:(lia)) as [h' [A [B [C [D [F G]]]]]].
      exists h'. split; [exact A|]. split; [exact B|]. split; [|split; [|split]].
      * cbn [holds]. split; [|split].
        -- exists par. rewrite F; [|lia|intros Hi; apply (proj2 (Hal a Hi)); auto].
           rewrite E. f_equal. f_equal. symmetry; apply minsert_raddr.
        -- exact C.
        -- eapply holds_frame; [|exact Hr]. intros c Hc. apply F; [destruct (Har c Hc); lia|]. intros Hi; eapply Dlr; eauto.
      * cbn [parents_ok]. split; [|split].
        -- eexists. rewrite F; [|lia|intros Hi; apply (proj2 (Hal a Hi)); auto]. split; [exact E|reflexivity].
        -- exact D.
        -- eapply parents_frame; [|exact Hpr]. intros c Hc. apply F; [destruct (Har c Hc); lia|]. intros Hi; eapply Dlr; eauto.
      * intros c H1 H2. apply F; auto. intros Hi; apply H2. cbn [addrs]. right; apply in_or_app; auto.
      * exact G.
  - destruct r as [|la ly ll lr].
    + cbn [raddr alloc]. eexists. split; [reflexivity|].
      assert (C1: forall c, c <> a -> c <> next h -> cells (store (mkheap (fun b : nat => if b =? next h then Some (mknode x (Some a) None None (Datatypes.S d)) else cells h b) (Datatypes.S (next h))) a (mknode y par (raddr l) (Some (next h)) d)) c = cells h c).
      { intros c H1 H2. cbn. destruct (c =? a) eqn:?; destruct (c =? next h) eqn:?; auto; lia. }
      split; [reflexivity|]. split; [|split; [|split]].
      * cbn [minsert holds]. split; [|split; [|split; [|auto]]].
        -- exists par. cbn. now rewrite Nat.eqb_refl.
        -- eapply holds_frame; [|exact Hl]. intros c Hc. destruct (Hal c Hc). apply C1; lia.
        -- exists (Some a). cbn. destruct (next h =? a) eqn:?; [lia|]. now rewrite Nat.eqb_refl.
      * cbn [minsert parents_ok]. split; [|split; [|split; [|auto]]].
        -- eexists. cbn. rewrite Nat.eqb_refl. split; reflexivity.
        -- eapply parents_frame; [|exact Hpl]. intros c Hc. destruct (Hal c Hc). apply C1; lia.
        -- eexists. cbn. destruct (next h =? a) eqn:?; [lia|]. rewrite Nat.eqb_refl. split; reflexivity.
      * intros c H1 H2. apply C1; auto. intros ->. apply H2; simpl; auto.
      * intros c Hc. cbn in Hc. rewrite C1; [apply S; lia|lia|lia].
    + cbn [raddr].
      destruct (IHr h fuel (Datatypes.S d) (Some a) la ly ll lr eq_refl S NDr Hr Hpr ltac:(lia)) as [h' [A [B [C [D [F G]]]]]].
      exists h'. split; [exact A|]. split; [exact B|]. split; [|split; [|split]].
      * cbn [holds]. split; [|split].
        -- exists par. rewrite F; [|lia|intros Hi; apply (proj2 (Har a Hi)); auto].
           rewrite E. f_equal. f_equal. symmetry; apply minsert_raddr.
        -- eapply holds_frame; [|exact Hl]. intros c Hc. apply F; [destruct (Hal c Hc); lia|]. intros Hi; eapply Dlr; eauto.
        -- exact C.
      * cbn [parents_ok]. split; [|split].
        -- eexists. rewrite F; [|lia|intros Hi; apply (proj2 (Har a Hi)); auto]. split; [exact E|reflexivity].
        -- eapply parents_frame; [|exact Hpl]. intros c Hc. apply F; [destruct (Hal c Hc); lia|]. intros Hi; eapply Dlr; eauto.
        -- exact D.
      * intros c H1 H2. apply F; auto. intros Hi; apply H2. cbn [addrs]. right; apply in_or_app; auto.
      * exact G.
Qed.

Lemma height_size : forall t, height t <= msize t.
Proof. induction t; simpl; lia. Qed.

Lemma push_ok : forall less h fuel o t x, sane h -> owns h o t -> parents_ok h None t -> msize t <= fuel ->
  exists h' o' , push less h fuel o x = Ok (h', o', next h) /\
    owns h' o' (minsert less 0 (next h) x t) /\ parents_ok h' None (minsert less 0 (next h) x t) /\
    sane h' /\ next h' = S (next h) /\
    (forall b, b <> next h -> ~ In b (addrs t) -> cells h' b = cells h b).
Proof.
  intros less h fuel o t x Hs [R [N [ND H]]] Hp Hf.
  destruct t as [|a y l r]; unfold push; rewrite R; cbn [raddr].
  - cbn [alloc]. eexists _, _. split; [reflexivity|]. split; [|split; [|split; [|split]]].
    + split; [reflexivity|]. cbn [n_nodes msize addrs holds minsert raddr app]. rewrite N. split; [reflexivity|].
      split; [constructor; auto; constructor|]. split; [|auto]. exists None. cbn. now rewrite Nat.eqb_refl.
    + simpl. split; [|auto]. eexists. rewrite Nat.eqb_refl. split; reflexivity.
    + intros c Hc; cbn in *. destruct (c =? next h) eqn:?; [lia|]. apply Hs; lia.
    + reflexivity.
    + intros b Hb _. cbn. destruct (b =? next h) eqn:?; [lia|auto].
  - destruct (push_loop_ok less x _ h fuel 0 None a y l r eq_refl Hs ND H Hp) as [h' [A [B [C [D [F G]]]]]].
    { pose proof (height_size (MNode a y l r)); lia. }
    rewrite A. cbn [bind fst snd]. eexists _, _. split; [reflexivity|]. split; [|auto].
    split; [rewrite minsert_raddr; reflexivity|]. split; [rewrite minsert_size; cbn [n_nodes]; lia|]. split; [|exact C].
    eapply Permutation_NoDup; [symmetry; apply minsert_addrs|]. constructor; auto.
    intros Hi. pose proof (sane_lt _ _ _ _ Hs H Hi). lia.
Qed.

Lemma push_list_ok : forall less (l : list T) h fuel o t, l <> [] -> sane h -> owns h o t -> parents_ok h None t ->
  msize t + length l <= fuel ->
  exists h' o' a t', push_list less h fuel o l = Ok (h', o', a) /\ owns h' o' t' /\ parents_ok h' None t' /\ sane h' /\
    Permutation (preorder t') (l ++ preorder t) /\ (ordered_tree less 0 t -> ordered_tree less 0 t') /\ next h <= next h' /\
    (forall b, b < next h -> ~ In b (addrs t) -> cells h' b = cells h b).
Proof.
  intros less; induction l as [|x l IH]; intros h fuel o t Hn S O Hp Hf; [congruence|].
  destruct (push_ok less h fuel o t x S O Hp) as [h' [o' [A [B [C [D [N F]]]]]]]; [simpl in Hf; lia|].
  destruct l as [|y l].
  - cbn [push_list]. exists h', o', (next h), (minsert less 0 (next h) x t). split; [exact A|]. split; [exact B|].
    split; [exact C|]. split; [exact D|]. split; [apply minsert_preorder|].
    split; [apply minsert_search|]. split; [lia|]. intros b Hb Hi; apply F; auto; lia.
  - cbn [push_list]. rewrite A. cbn [bind fst snd].
    destruct (IH h' fuel o' (minsert less 0 (next h) x t)) as [h2 [o2 [a2 [t2 [A2 [B2 [C2 [D2 [E2 [F2 [G2 H2]]]]]]]]]]]; auto.
    { discriminate. }
    { rewrite minsert_size. simpl in *; lia. }
    exists h2, o2, a2, t2. split; [exact A2|]. split; [exact B2|]. split; [exact C2|]. split; [exact D2|].
    split.
    { rewrite E2. rewrite minsert_preorder. symmetry. apply (Permutation_middle (y :: l)). }
    split; [intros; apply F2, minsert_search; auto|]. split; [lia|].
    intros b Hb Hi. rewrite H2; [apply F; auto; lia|lia|].
    intros Hi2. eapply Permutation_in in Hi2; [|apply minsert_addrs]. destruct Hi2; [lia|auto].
Qed.

Lemma search_ordered : forall less (t : mtree T) d, search_tree less t <-> ordered_tree (fun x _ y => less x y) d t.
Proof.
  intros less; induction t as [|b y l IHl r IHr]; intros d; simpl; [tauto|]. rewrite (IHl (S d)), (IHr (S d)). tauto.
Qed.

(* erasure *)
Lemma erase_loop_ok : forall m fs h fuel, 2 * fsize fs + length fs <= m -> fsize fs <= fuel ->
  Forall (held h) fs -> NoDup (flat_map addrs fs) ->
  exists h', erase_loop h fuel (hd_error (froots fs)) (froots fs) = Ok h' /\
    next h' = next h /\
    (forall b, In b (flat_map addrs fs) -> cells h' b = None) /\
    (forall b, ~ In b (flat_map addrs fs) -> cells h' b = cells h b).
Proof.
  induction m as [m IH] using lt_wf_ind; intros fs h fuel Hm Hf HF ND.
  destruct fs as [|[|a x l r] fs'].
  - exists h. split; [destruct fuel; reflexivity|]. split; [auto|]. split; [simpl; tauto|auto].
  - simpl. apply (IH (m-1)); simpl in *; try lia; auto. inversion HF; auto.
  - inversion HF as [|? ? H1 H2]; subst.
    destruct (held_node _ _ _ _ _ H1) as [[n [E [Ed [El Er]]]] [Hl Hr]].
    cbn [fsize msize length] in *.
    destruct fuel as [|fuel]; [lia|].
    cbn [froots flat_map raddr opt_list hd_error app erase_loop].
    unfold dfs_next. rewrite (deref_ok _ _ _ E). cbn [bind tl]. rewrite El, Er.
    fold (froots fs').
    set (h1 := mkheap (fun b => if b =? a then None else cells h b) (next h)).
    cbn [flat_map addrs app] in ND. inversion ND as [|? ? Nin ND']; subst.
    rewrite <- app_assoc in *.
    assert (Hfr: forall t, In t (l :: r :: fs') -> held h t -> held h1 t).
    { intros t Ht [d Hd]. exists d. eapply holds_frame; [|exact Hd]. intros c Hc. cbn.
      destruct (c =? a) eqn:Eca; [|auto]. exfalso; apply Nin. apply Nat.eqb_eq in Eca; subst c.
      change (addrs l ++ addrs r ++ flat_map addrs fs') with (flat_map addrs (l :: r :: fs')).
      apply in_flat_map; exists t; auto. }
    assert (Hx: exists h', erase_loop h1 fuel (hd_error (froots (l :: r :: fs'))) (froots (l :: r :: fs')) = Ok h' /\
       next h' = next h1 /\ (forall b, In b (flat_map addrs (l :: r :: fs')) -> cells h' b = None) /\
       (forall b, ~ In b (flat_map addrs (l :: r :: fs')) -> cells h' b = cells h1 b)).
    { apply (IH (m-1)); [lia| | | |]; cbn [fsize length]; try lia.
      - rewrite Forall_forall in *. intros t Ht. apply Hfr; auto.
        destruct Ht as [<-|[<-|Ht]]; auto.
      - exact ND'. }
    destruct Hx as [h' [A [B [C D]]]]. exists h'.
    split; [|split; [|split]].
    + change (froots (l :: r :: fs')) with (opt_list (raddr l) ++ opt_list (raddr r) ++ froots fs') in A.
      destruct (opt_list (raddr l) ++ opt_list (raddr r) ++ froots fs') as [|b q] eqn:Eq;
      cbn [bind fst snd hd_error] in *; unfold free; rewrite E; cbn [bind]; exact A.
    + rewrite B; reflexivity.
    + intros b Hb. cbn [flat_map addrs app] in *. rewrite <- app_assoc in Hb. destruct Hb as [<-|Hb]; [|apply C; auto].
      rewrite D; [|exact Nin]. cbn. now rewrite Nat.eqb_refl.
    + intros b Hb. cbn [flat_map addrs app In] in *. rewrite <- app_assoc in Hb. rewrite D; [|tauto].
      cbn. destruct (b =? a) eqn:?; [|auto]. exfalso; apply Hb; left; lia.
Qed.

Lemma erase_ok : forall h fuel o t, held h t -> NoDup (addrs t) -> msize t <= fuel ->
  exists h', erase h fuel o (raddr t) = Ok (h', empty_tree) /\ next h' = next h /\
    (forall b, In b (addrs t) -> cells h' b = None) /\
    (forall b, ~ In b (addrs t) -> cells h' b = cells h b).
Proof.
  intros h fuel o t H ND Hf.
  destruct (erase_loop_ok _ [t] h fuel (le_n _)) as [h' [A [B [C D]]]].
  - simpl; lia.
  - auto.
  - simpl; now rewrite app_nil_r.
  - exists h'. rewrite froots_single, hd_opt_list in A. unfold erase. rewrite A. cbn [flat_map] in *.
    rewrite app_nil_r in *. auto.
Qed.

Lemma clear_ok : forall h fuel o t, owns h o t -> msize t <= fuel ->
  exists h', clear h fuel o = Ok (h', empty_tree) /\ next h' = next h /\
    (forall b, In b (addrs t) -> cells h' b = None) /\
    (forall b, ~ In b (addrs t) -> cells h' b = cells h b).
Proof.
  intros h fuel o t [R [N [ND H]]] Hf. unfold clear, is_empty. rewrite N.
  destruct t as [|a x l r].
  - cbn. destruct o; simpl in *; subst. exists h. split; [reflexivity|]. split; [auto|]. split; [tauto|auto].
  - cbn [msize Nat.eqb]. rewrite R. apply erase_ok; auto. exists 0; auto.
Qed.

Lemma sane_cells : forall h h', sane h -> next h <= next h' -> (forall b, cells h' b = None \/ cells h' b = cells h b) -> sane h'.
Proof. intros h h' S N H a Ha. destruct (H a) as [E|E]; auto. rewrite E; apply S; lia. Qed.

End P.
