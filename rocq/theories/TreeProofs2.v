(* Copy, move, search and child insertion of binary trees. *)
From Coq Require Import Permutation.
From Verif Require Import Base TreeModel TreeSpec TreeProofs.

Section P.
Context {T : Type}.
Implicit Types t l r : mtree T.
Implicit Types h : heap T.

(* a pending copy: original subtree, address of its (childless) copy, parent of the copy, depth *)
Record item := mkitem { it_t : mtree T; it_c : addr; it_p : option addr; it_d : nat }.

Definition item_ok h (i : item) : Prop :=
  match it_t i with
  | MLeaf => False
  | MNode a x l r => holds h (it_d i) (it_t i) /\
      cells h (it_c i) = Some (mknode x (it_p i) None None (it_d i))
  end.
Definition copied h (i : item) (t' : mtree T) : Prop :=
  raddr t' = Some (it_c i) /\ shape_of t' = shape_of (it_t i) /\ holds h (it_d i) t' /\ parents_ok h (it_p i) t'.

Definition new_items h (s : mtree T) (c : addr) (d : nat) : list item :=
  match s with MLeaf => [] | _ => [mkitem s (next h) (Some c) (S d)] end.
Definition set_child (left : bool) (n : node T) (p : option addr) : node T :=
  if left then mknode (ndata n) (nparent n) p (nright n) (ndepth n)
  else mknode (ndata n) (nparent n) (nleft n) p (ndepth n).

Definition sum_sizes (pq : list item) := fsize (map it_t pq).
Lemma attach_ok : forall h (o : tree) (side : bool) s d c n q, sane h -> holds h (S d) s ->
  cells h c = Some n -> ndepth n = d -> (if side then nleft n else nright n) = None ->
  ~ In c (addrs s) ->
  exists h1, match raddr s with
     | None => Ok (h, o, q)
     | Some b => m <- deref h (Some b) ;; r <- push_child h o (Some c) side (ndata m) ;;
                 Ok (fst (fst r), snd (fst r), q ++ [snd r])
     end = Ok (h1, mktree (root o) (n_nodes o + length (new_items h s c d)), q ++ map it_c (new_items h s c d)) /\
  sane h1 /\ next h1 = next h + length (new_items h s c d) /\
  (forall b, b <> c -> b < next h -> cells h1 b = cells h b) /\
  cells h1 c = Some (set_child side n (hd_error (map it_c (new_items h s c d)))) /\
  (forall i, In i (new_items h s c d) -> item_ok h1 i).
Proof.
  intros h o side s d c n q Hs H Ec Ed Es Nin.
  assert (Hc: c < next h). { destruct (Nat.lt_ge_cases c (next h)); auto. rewrite Hs in Ec; [discriminate|auto]. }
  destruct s as [|a x l r].
  - exists h. cbn [raddr new_items map length app hd_error]. rewrite app_nil_r, !Nat.add_0_r. destruct o as [ro nn].
    split; [reflexivity|]. split; [auto|]. split; [reflexivity|]. split; [auto|]. split; [|simpl; tauto].
    rewrite Ec. destruct n; destruct side; simpl in *; subst; auto.
  - cbn [raddr]. cbn [holds] in H. destruct H as [[pa Ea] [Hl Hr]].
    rewrite (deref_ok _ _ _ Ea). cbn [bind ndata]. unfold push_child. rewrite (deref_ok _ _ _ Ec). cbn [bind].
    rewrite Es. cbn [alloc]. cbn [bind fst snd new_items map length it_c hd_error].
    eexists. split.
    { repeat f_equal. lia. }
    set (h1 := store _ c _).
    assert (C1: forall b, b <> c -> b <> next h -> cells h1 b = cells h b).
    { intros b H1 H2. unfold h1; cbn. destruct (b =? c) eqn:?; destruct (b =? next h) eqn:?; auto; lia. }
    split; [|split; [|split; [|split]]].
    + intros b Hb. cbn in Hb. rewrite C1; [apply Hs; lia|lia|lia].
    + unfold h1; cbn; lia.
    + intros b H1 H2. apply C1; lia.
    + unfold h1; cbn. rewrite Nat.eqb_refl. unfold set_child. destruct side; auto.
    + intros i [<-|[]]. unfold item_ok. cbn [it_t it_c it_p it_d]. split.
      * eapply holds_frame with (h := h).
        -- intros b Hb. apply C1; [intros ->; auto|].
           assert (b < next h); [|lia]. eapply sane_lt with (t := MNode a x l r) (d := S d); eauto. cbn [holds]; eauto.
        -- cbn [holds]; eauto.
      * unfold h1; cbn. destruct (next h =? c) eqn:?; [lia|]. rewrite Nat.eqb_refl. subst d. reflexivity.
Qed.

Definition heads (pq : list item) := map it_c pq.
Definition origs (pq : list item) := flat_map (fun i => addrs (it_t i)) pq.

Lemma froots_items : forall h pq, Forall (item_ok h) pq -> length (froots (map it_t pq)) = length pq.
Proof.
  intros h; induction pq as [|i pq IH]; intros F; auto. inversion F; subst. simpl. unfold item_ok in H1.
  destruct (it_t i); [tauto|]. simpl. f_equal. apply IH; auto.
Qed.

Lemma item_frame : forall h h1 i, item_ok h i ->
  (forall b, In b (addrs (it_t i)) -> cells h1 b = cells h b) -> cells h1 (it_c i) = cells h (it_c i) -> item_ok h1 i.
Proof.
  unfold item_ok; intros h h1 i H F E. destruct (it_t i) eqn:Et; [tauto|]. destruct H as [H1 H2]. split.
  - eapply holds_frame; eauto.
  - congruence.
Qed.

Lemma item_sane : forall h i, sane h -> item_ok h i -> it_c i < next h /\ (forall b, In b (addrs (it_t i)) -> b < next h).
Proof.
  unfold item_ok; intros h i Hs H. destruct (it_t i) eqn:Et; [tauto|]. destruct H as [H1 H2]. split.
  - destruct (Nat.lt_ge_cases (it_c i) (next h)); auto. rewrite Hs in H2; [discriminate|auto].
  - intros b Hb; eapply sane_lt; eauto.
Qed.

Lemma clone_loop_ok : forall m pq h o cur fuel, 2 * sum_sizes pq + length pq <= m -> sum_sizes pq <= fuel -> sane h ->
  Forall (item_ok h) pq -> NoDup (heads pq) -> (forall c, In c (heads pq) -> In c (origs pq) -> False) ->
  (forall i q, pq = i :: q -> cur = it_c i) ->
  exists h' ts, clone_loop h fuel o (hd_error (froots (map it_t pq))) (froots (map it_t pq)) cur (heads pq)
      = Ok (h', mktree (root o) (n_nodes o + sum_sizes pq - length pq)) /\
    sane h' /\ next h <= next h' /\
    Forall2 (copied h') pq ts /\ NoDup (flat_map addrs ts) /\
    (forall b, In b (flat_map addrs ts) -> In b (heads pq) \/ next h <= b) /\
    (forall b, b < next h -> ~ In b (heads pq) -> cells h' b = cells h b).
Proof.
  induction m as [m IH] using lt_wf_ind; intros pq h o cur fuel Hm Hf Hs HF ND Dis Hcur.
  destruct pq as [|i pq].
  - exists h, []. destruct o as [ro nn]. split.
    { simpl. destruct fuel; simpl; do 2 f_equal; unfold sum_sizes; simpl; f_equal; lia. }
    split; [auto|]. split; [lia|]. split; [constructor|]. split; [constructor|]. split; [simpl; tauto|auto].
  - specialize (Hcur _ _ eq_refl). subst cur.
    inversion HF as [|? ? Hi HF']; subst.
    pose proof (item_sane _ _ Hs Hi) as [Hic Hit].
    destruct i as [t c p d]. unfold item_ok in Hi. cbn [it_t it_c it_p it_d] in *.
    destruct t as [|a x l r]; [tauto|]. destruct Hi as [Hh Ec].
    cbn [holds] in Hh. destruct Hh as [[pa Ea] [Hl Hr]].
    unfold sum_sizes in Hm, Hf. cbn [map fsize msize it_t length] in Hm, Hf. fold (sum_sizes pq) in Hm, Hf.
    destruct fuel as [|fuel]; [lia|].
    cbn [map it_t froots flat_map raddr opt_list app hd_error clone_loop heads it_c tl].
    fold (froots (map it_t pq)). fold (heads pq).
    rewrite (deref_ok _ _ _ Ea). cbn [bind nleft nright].
    cbn [heads map it_c] in ND. inversion ND as [|? ? Nc ND']; subst. fold (heads pq) in Nc, ND'.
    assert (Hnl: ~ In c (addrs l)).
    { intros Hx. apply (Dis c); [simpl; auto|]. simpl. right. apply in_or_app; left. apply in_or_app; auto. }
    assert (Hnr: ~ In c (addrs r)).
    { intros Hx. apply (Dis c); [simpl; auto|]. simpl. right. apply in_or_app; left. apply in_or_app; auto. }
    destruct (attach_ok h o true l d c _ (heads pq) Hs Hl Ec eq_refl eq_refl Hnl)
      as [h1 [A1 [S1 [N1 [F1 [C1 I1]]]]]].
    match goal with |- context [bind ?e _] => set (E1 := e) end.
    assert (HE1: E1 = Ok (h1, mktree (root o) (n_nodes o + length (new_items h l c d)), heads pq ++ heads (new_items h l c d))).
    { etransitivity; [|exact A1]. unfold E1. destruct (raddr l); reflexivity. }
    rewrite HE1. clear E1 HE1 A1. cbn [bind].
    assert (Hr1: holds h1 (S d) r).
    { eapply holds_frame; [|exact Hr]. intros b Hb. apply F1; [intros ->; auto|]. eapply sane_lt; eauto. }
    destruct (attach_ok h1 (mktree (root o) (n_nodes o + length (new_items h l c d))) false r d c _
       (heads pq ++ heads (new_items h l c d)) S1 Hr1 C1 eq_refl eq_refl Hnr)
      as [h2 [A2 [S2 [N2 [F2 [C2 I2]]]]]].
    match goal with |- context [bind ?e _] => set (E2 := e) end.
    assert (HE2: E2 = Ok (h2, mktree (root o) (n_nodes o + length (new_items h l c d) + length (new_items h1 r c d)),
       (heads pq ++ heads (new_items h l c d)) ++ heads (new_items h1 r c d))).
    { etransitivity; [|exact A2]. unfold E2. destruct (raddr r); reflexivity. }
    rewrite HE2. clear E2 HE2 A2. cbn [bind root n_nodes].
    set (nl := new_items h l c d) in *. set (nr := new_items h1 r c d) in *.
    assert (FF: forall b, b <> c -> b < next h -> cells h2 b = cells h b).
    { intros b H1 H2. rewrite F2; auto. lia. }
    assert (Hac: a <> c). { intros ->. apply (Dis c); simpl; auto. }
    assert (Ea2: cells h2 a = cells h a). { apply FF; auto. apply Hit; simpl; auto. }
    unfold bfs_next. rewrite Ea in Ea2. rewrite (deref_ok _ _ _ Ea2). cbn [bind tl nleft nright].
    set (pq2 := pq ++ nl ++ nr).
    assert (Hl2: map it_t nl = match l with MLeaf => [] | _ => [l] end) by (unfold nl; destruct l; reflexivity).
    assert (Hr2: map it_t nr = match r with MLeaf => [] | _ => [r] end) by (unfold nr; destruct r; reflexivity).
    assert (Eroots: froots (map it_t pq) ++ opt_list (raddr l) ++ opt_list (raddr r) = froots (map it_t pq2)).
    { unfold pq2. rewrite !map_app, !froots_app, Hl2, Hr2. destruct l; destruct r; reflexivity. }
    rewrite Eroots.
    assert (Eheads: (heads pq ++ heads nl) ++ heads nr = heads pq2).
    { unfold pq2, heads. rewrite !map_app, app_assoc. reflexivity. }
    rewrite Eheads.
    assert (Hsz: sum_sizes pq2 = sum_sizes pq + msize l + msize r).
    { unfold pq2, sum_sizes. rewrite !map_app, !fsize_app, Hl2, Hr2. destruct l; destruct r; simpl; lia. }
    assert (Hln: length nl = match l with MLeaf => 0 | _ => 1 end) by (unfold nl; destruct l; reflexivity).
    assert (Hrn: length nr = match r with MLeaf => 0 | _ => 1 end) by (unfold nr; destruct r; reflexivity).
    assert (Hnlc: heads nl = match l with MLeaf => [] | _ => [next h] end) by (unfold nl; destruct l; reflexivity).
    assert (Hnrc: heads nr = match r with MLeaf => [] | _ => [next h1] end) by (unfold nr; destruct r; reflexivity).
    assert (Hnew: forall b, In b (heads nl ++ heads nr) -> next h <= b).
    { intros b Hb. rewrite Hnlc, Hnrc in Hb. clear - Hb N1. destruct l; destruct r; simpl in Hb; intuition lia. }
    assert (Hold: forall b, In b (heads pq) -> b < next h).
    { intros b Hb. unfold heads in Hb. apply in_map_iff in Hb. destruct Hb as [j [<- Hj]].
      rewrite Forall_forall in HF'. apply (proj1 (item_sane _ _ Hs (HF' _ Hj))). }
    assert (Hoo: forall b, In b (origs pq) -> b < next h).
    { intros b Hb. unfold origs in Hb. apply in_flat_map in Hb. destruct Hb as [j [Hj Hb]].
      rewrite Forall_forall in HF'. apply (proj2 (item_sane _ _ Hs (HF' _ Hj)) _ Hb). }
    assert (HF2: Forall (item_ok h2) pq2).
    { unfold pq2. rewrite !Forall_app. split; [|split].
      - rewrite Forall_forall in *. intros j Hj. eapply item_frame; [apply HF'; auto| |].
        + intros b Hb. apply FF.
          * intros ->. apply (Dis c); [simpl; auto|]. simpl. right. apply in_or_app; right. unfold origs; apply in_flat_map; eauto.
          * apply Hoo. apply in_flat_map; eauto.
        + apply FF.
          * intros E. apply Nc. rewrite <- E. apply in_map; auto.
          * apply Hold. apply in_map; auto.
      - rewrite Forall_forall. intros j Hj. eapply item_frame; [apply I1; auto| |].
        + unfold nl in Hj. destruct l; [destruct Hj|]. destruct Hj as [<-|[]]. cbn [it_t].
          intros b Hb. apply F2; [intros ->; auto|]. rewrite N1. pose proof (sane_lt _ _ _ _ Hs Hl Hb). lia.
        + unfold nl in Hj. destruct l; [destruct Hj|]. destruct Hj as [<-|[]]. cbn [it_c].
          apply F2; lia.
      - rewrite Forall_forall. exact I2. }
    assert (ND2: NoDup (heads pq2)).
    { rewrite <- Eheads. rewrite <- app_assoc. apply NoDup_app_intro; auto.
      - rewrite Hnlc, Hnrc. destruct l; destruct r; simpl; repeat constructor; simpl; auto.
        intros [E|[]]. rewrite N1, Hln in E. lia.
      - intros b H1 H2. apply Hold in H1. apply Hnew in H2. lia. }
    assert (Hor2: forall b, In b (origs pq2) -> In b (origs pq) \/ In b (addrs l) \/ In b (addrs r)).
    { intros b Hb. unfold pq2, origs in Hb. rewrite !flat_map_app in Hb. apply in_app_or in Hb. destruct Hb as [Hb|Hb]; [left; auto|].
      apply in_app_or in Hb. destruct Hb as [Hb|Hb].
      - right; left. unfold nl in Hb. destruct l; [destruct Hb|]. simpl in Hb. rewrite app_nil_r in Hb. exact Hb.
      - right; right. unfold nr in Hb. destruct r; [destruct Hb|]. simpl in Hb. rewrite app_nil_r in Hb. exact Hb. }
    assert (Dis2: forall b, In b (heads pq2) -> In b (origs pq2) -> False).
    { intros b Hb Ho. apply Hor2 in Ho.
      assert (Hin: In b (origs (mkitem (MNode a x l r) c p d :: pq))).
      { simpl. right. apply in_or_app. destruct Ho as [Ho|[Ho|Ho]]; [right; auto|left; apply in_or_app; auto|left; apply in_or_app; auto]. }
      assert (Hlt: b < next h).
      { destruct Ho as [Ho|[Ho|Ho]]; [apply Hoo; auto|apply (sane_lt _ _ _ _ Hs Hl Ho)|apply (sane_lt _ _ _ _ Hs Hr Ho)]. }
      rewrite <- Eheads, <- app_assoc in Hb. apply in_app_or in Hb. destruct Hb as [Hb|Hb].
      - apply (Dis b); auto. simpl; auto.
      - apply Hnew in Hb. lia. }
    assert (Hle: length pq2 = length pq + length nl + length nr).
    { unfold pq2; rewrite !app_length; lia. }
    set (cur' := match heads pq2 with [] => c | b :: _ => b end).
    destruct (IH (m-1) ltac:(lia) pq2 h2 (mktree (root o) (n_nodes o + length nl + length nr)) cur' fuel) as [h' [ts [A [SS [NN [F2c [NDc [Hin Hfr]]]]]]]]; auto.
    { rewrite Hsz, Hle, Hln, Hrn. destruct l; destruct r; simpl in *; lia. }
    { lia. }
    { intros i q Eq. unfold cur'. rewrite Eq. reflexivity. }
    cbn [root n_nodes] in A.
    (* split the copies *)
    unfold pq2 in F2c. apply Forall2_app_inv_l in F2c. destruct F2c as [ts1 [ts23 [G1 [G23 ->]]]].
    apply Forall2_app_inv_l in G23. destruct G23 as [ts2 [ts3 [G2 [G3 ->]]]].
    assert (Hcc: cells h' c = cells h2 c).
    { apply Hfr; [lia|]. rewrite <- Eheads, <- app_assoc. intros Hb. apply in_app_or in Hb. destruct Hb as [Hb|Hb]; [auto|].
      apply Hnew in Hb. lia. }
    assert (GL: exists l', flat_map addrs ts2 = addrs l' /\ shape_of l' = shape_of l /\ holds h' (S d) l' /\ parents_ok h' (Some c) l' /\ raddr l' = hd_error (map it_c nl)).
    { unfold nl, new_items in G2 |- *. destruct l as [|la lx ll lr].
      - inversion G2; subst. exists MLeaf. simpl. auto.
      - inversion G2 as [|? l' ? ? Hc1 Hc2]; subst. inversion Hc2; subst. exists l'.
        destruct Hc1 as [R1 [R2 [R3 R4]]]. cbn [it_c it_t it_p it_d] in *.
        split; [simpl; apply app_nil_r|]. auto. }
    assert (GR: exists l', flat_map addrs ts3 = addrs l' /\ shape_of l' = shape_of r /\ holds h' (S d) l' /\ parents_ok h' (Some c) l' /\ raddr l' = hd_error (map it_c nr)).
    { unfold nr, new_items in G3 |- *. destruct r as [|la lx ll lr].
      - inversion G3; subst. exists MLeaf. simpl. auto.
      - inversion G3 as [|? l' ? ? Hc1 Hc2]; subst. inversion Hc2; subst. exists l'.
        destruct Hc1 as [R1 [R2 [R3 R4]]]. cbn [it_c it_t it_p it_d] in *.
        split; [simpl; apply app_nil_r|]. auto. }
    destruct GL as [l' [La [Lb [Lc [Ld Le]]]]]. destruct GR as [r' [Ra [Rb [Rc [Rd Re]]]]].
    rewrite !flat_map_app, La, Ra in NDc, Hin.
    exists h', (MNode c x l' r' :: ts1).
    split; [|split; [|split; [|split; [|split; [|split]]]]].
    + assert (Hn: n_nodes o + length nl + length nr + sum_sizes pq2 - length pq2
        = n_nodes o + sum_sizes (mkitem (MNode a x l r) c p d :: pq) - length (mkitem (MNode a x l r) c p d :: pq)).
      { rewrite Hle, Hsz. unfold sum_sizes; cbn [map it_t fsize msize length]. fold (sum_sizes pq). 
        assert (length pq <= sum_sizes pq).
        { clear - HF'. unfold sum_sizes. induction pq as [|j pq IHp]; [simpl; lia|]. inversion HF'; subst. specialize (IHp H2). unfold item_ok in H1.
          destruct j as [jt ? ? ?]; cbn [it_t] in *. destruct jt; [tauto|]. cbn [map it_t fsize msize length]. lia. }
        destruct l; destruct r; simpl in *; lia. }
      rewrite <- Hn, <- A. unfold cur'.
      destruct (froots (map it_t pq2)) as [|b q]; reflexivity.
    + exact SS.
    + lia.
    + constructor; [|exact G1].
      unfold copied. cbn [it_c it_t it_p it_d raddr shape_of holds parents_ok].
      split; [reflexivity|]. split; [congruence|]. rewrite Hcc, C2. split.
      * split; [|auto]. exists p. unfold set_child; cbn [ndata nparent nleft nright ndepth]. rewrite Le, Re. reflexivity.
      * split; [|auto]. eexists; split; [reflexivity|reflexivity].
    + cbn [flat_map addrs app].
      assert (Hperm: Permutation ((addrs l' ++ addrs r') ++ flat_map addrs ts1) (flat_map addrs ts1 ++ addrs l' ++ addrs r')) by apply Permutation_app_comm.
      constructor.
      * intros Hx. eapply Permutation_in in Hx; [|exact Hperm]. apply Hin in Hx.
        destruct Hx as [Hx|Hx]; [|lia]. rewrite <- Eheads, <- app_assoc in Hx. apply in_app_or in Hx. destruct Hx as [Hx|Hx]; [auto|].
        apply Hnew in Hx. lia.
      * eapply Permutation_NoDup; [symmetry; exact Hperm|exact NDc].
    + intros b Hb. cbn [flat_map addrs app] in Hb. destruct Hb as [<-|Hb]; [left; simpl; auto|].
      assert (Hb2: In b (flat_map addrs ts1 ++ addrs l' ++ addrs r')).
      { apply in_app_or in Hb. apply in_or_app. tauto. }
      apply Hin in Hb2. destruct Hb2 as [Hx|Hx]; [|right; lia].
      rewrite <- Eheads, <- app_assoc in Hx. apply in_app_or in Hx. destruct Hx as [Hx|Hx]; [left; simpl; auto|].
      right. apply Hnew in Hx. lia.
    + intros b Hb Hn. cbn [heads map it_c In] in Hn. rewrite Hfr; [apply FF; auto; lia|lia|].
      rewrite <- Eheads, <- app_assoc. intros Hx. apply in_app_or in Hx. destruct Hx as [Hx|Hx]; [apply Hn; auto|].
      apply Hnew in Hx. lia.
Qed.

Lemma clone_ok : forall h fuel this tt other to, sane h -> owns h this tt -> owns h other to -> to <> MLeaf ->
  (forall a, In a (addrs tt) -> In a (addrs to) -> False) -> msize tt + msize to <= fuel ->
  exists h' this' tt', clone h fuel this other = Ok (h', this') /\
    owns h' this' tt' /\ parents_ok h' None tt' /\ shape_of tt' = shape_of to /\ owns h' other to /\ sane h' /\
    (forall a, In a (addrs tt') -> next h <= a) /\
    (forall a, In a (addrs tt) -> cells h' a = None) /\
    (forall a, a < next h -> ~ In a (addrs tt) -> cells h' a = cells h a).
Proof.
  intros h fuel this tt other to Hs Ht Ho Hne Dis Hf.
  destruct to as [|a x l r]; [congruence|].
  pose proof Ho as [Ro [No [NDo Hh]]].
  unfold clone, is_empty. rewrite No. cbn [msize Nat.eqb negb assert_ bind].
  destruct (clear_ok h fuel this tt Ht) as [h1 [A1 [N1 [C1 F1]]]]; [lia|].
  rewrite A1. cbn [bind].
  assert (Hh1: holds h1 0 (MNode a x l r)).
  { eapply holds_frame; [|exact Hh]. intros b Hb. apply F1. intros Hb2; eapply Dis; eauto. }
  assert (S1: sane h1).
  { intros b Hb. destruct (in_dec Nat.eq_dec b (addrs tt)); [auto|]. rewrite F1; auto. apply Hs; lia. }
  rewrite Ro. cbn [raddr].
  destruct Hh1 as [[pa Ea] [Hl Hr]]. rewrite (deref_ok _ _ _ Ea). cbn [bind ndata alloc n_nodes empty_tree opt_list].
  set (h2 := mkheap _ _).
  assert (F2: forall b, b <> next h1 -> cells h2 b = cells h1 b).
  { intros b Hb. unfold h2; cbn. destruct (b =? next h1) eqn:?; auto; lia. }
  assert (Hh2: holds h2 0 (MNode a x l r)).
  { eapply holds_frame with (h := h1); [|cbn [holds]; eauto].
    intros b Hb. apply F2.
    assert (b < next h1); [|lia]. eapply sane_lt with (t := MNode a x l r) (d := 0); eauto. cbn [holds]; eauto. }
  destruct (clone_loop_ok _ [mkitem (MNode a x l r) (next h1) None 0] h2 (mktree (Some (next h1)) 1) (next h1) fuel (le_n _))
    as [h' [ts [A [SS [NN [F2c [NDc [Hin Hfr]]]]]]]].
  - unfold sum_sizes; cbn [map it_t fsize]; lia.
  - intros b Hb. cbn in Hb. rewrite F2; [|lia]. apply S1; lia.
  - constructor; auto. unfold item_ok; cbn [it_t it_c it_p it_d]. split; auto. unfold h2; cbn. now rewrite Nat.eqb_refl.
  - simpl. repeat constructor; auto.
  - intros c [<-|[]] Hc. unfold origs in Hc. cbn [flat_map it_t it_c] in Hc. rewrite app_nil_r in Hc.
    assert (next h1 < next h1); [|lia]. eapply sane_lt with (t := MNode a x l r) (d := 0); eauto. cbn [holds]; eauto.
  - intros i q E; inversion E; subst; reflexivity.
  - inversion F2c as [|? t' ? ts' Hc1 Hc2]; subst. inversion Hc2; subst.
    destruct Hc1 as [R1 [R2 [R3 R4]]]. cbn [it_c it_t it_p it_d] in *.
    cbn [flat_map] in NDc, Hin. rewrite app_nil_r in NDc, Hin.
    cbn [map it_t froots flat_map raddr opt_list app hd_error heads it_c] in A, Hfr.
    assert (Hlow: forall b, b < next h -> ~ In b (addrs tt) -> cells h' b = cells h b).
    { intros b Hb Hn. rewrite Hfr; [|unfold h2; cbn; lia|intros [E|[]]; lia]. rewrite F2; [|lia]. apply F1; auto. }
    exists h', (mktree (Some (next h1)) (1 + sum_sizes [mkitem (MNode a x l r) (next h1) None 0] - 1)), t'.
    split; [exact A|]. split.
    { split; [cbn [root]; auto|]. split; [|split; [exact NDc|exact R3]].
      cbn [n_nodes]. unfold sum_sizes; cbn [map it_t fsize].
      assert (HH: forall u v : mtree T, shape_of u = shape_of v -> msize u = msize v).
      { induction u; destruct v; simpl; intros E; try discriminate; auto. inversion E; subst. rewrite (IHu1 v1), (IHu2 v2); auto. }
      rewrite (HH _ _ R2). lia. }
    split; [exact R4|]. split; [exact R2|]. split.
    { split; [auto|]. split; [auto|]. split; [auto|]. eapply holds_frame; [|exact Hh].
      intros b Hb. apply Hlow; [eapply sane_lt; [exact Hs|exact Hh|exact Hb]|intros Hx; eapply Dis; eauto]. }
    split; [exact SS|]. split; [|split; [|exact Hlow]].
    + intros b Hb. apply Hin in Hb. cbn [heads map it_c In] in Hb. unfold h2 in Hb; cbn in Hb. lia.
    + intros b Hb. assert (b < next h). { destruct Ht as [? [? [? Hht]]]. exact (sane_lt _ _ _ _ Hs Hht Hb). }
      rewrite Hfr; [|unfold h2; cbn; lia|intros [E|[]]; lia]. rewrite F2; [|lia]. apply C1; auto.
Qed.

Lemma self_clone_ub : forall h fuel o t, owns h o t -> t <> MLeaf -> msize t <= fuel -> self_clone h fuel o = UB.
Proof.
  intros h fuel o t Ho Hn Hf. pose proof Ho as [R [N _]]. unfold self_clone, is_empty. rewrite N.
  destruct t; [congruence|]. cbn [msize Nat.eqb negb assert_ bind].
  destruct (clear_ok h fuel o _ Ho Hf) as [h' [A _]]. rewrite A. reflexivity.
Qed.

Lemma move_ok : forall h fuel this tt other a x l r, sane h -> owns h this tt -> owns h other (MNode a x l r) ->
  (forall b, In b (addrs tt) -> In b (addrs (MNode a x l r)) -> False) -> msize tt <= fuel ->
  exists h' this', move h fuel this other = Ok (h', this', empty_tree) /\
    owns h' this' (MNode (next h) x l r) /\ sane h' /\
    (forall b, In b (addrs tt) -> cells h' b = None) /\ cells h' a = None /\
    (forall b, b < next h -> b <> a -> ~ In b (addrs tt) -> cells h' b = cells h b).
Proof.
  intros h fuel this tt other a x l r Hs Ht Ho Dis Hf.
  pose proof Ho as [Ro [No [NDo Hh]]]. unfold move.
  destruct (clear_ok h fuel this tt Ht Hf) as [h1 [A1 [N1 [C1 F1]]]]. rewrite A1. cbn [bind].
  unfold is_empty. rewrite No. cbn [msize Nat.eqb]. rewrite Ro. cbn [raddr].
  assert (Hh1: holds h1 0 (MNode a x l r)).
  { eapply holds_frame; [|exact Hh]. intros b Hb. apply F1. intros Hb2; eapply Dis; eauto. }
  assert (S1: sane h1).
  { intros b Hb. destruct (in_dec Nat.eq_dec b (addrs tt)); [auto|]. rewrite F1; auto. apply Hs; lia. }
  pose proof Hh1 as Hh1'. cbn [holds] in Hh1'. destruct Hh1' as [[pa Ea] [Hl Hr]].
  assert (Hlt: forall b, In b (addrs (MNode a x l r)) -> b < next h1) by (intros b Hb; exact (sane_lt _ _ _ _ S1 Hh1 Hb)).
  rewrite (deref_ok _ _ _ Ea). cbn [bind ndata nleft nright alloc]. unfold free.
  assert (Ha: a < next h1) by (apply Hlt; simpl; auto).
  cbn [cells]. destruct (a =? next h1) eqn:E1; [lia|]. rewrite Ea. cbn [bind next].
  eexists _, _. split; [reflexivity|]. rewrite <- N1.
  set (h3 := mkheap _ _).
  assert (F3: forall b, b <> a -> b <> next h1 -> cells h3 b = cells h1 b).
  { intros b H1 H2. unfold h3; cbn. destruct (b =? a) eqn:?; destruct (b =? next h1) eqn:?; auto; lia. }
  cbn [addrs] in NDo. inversion NDo as [|? ? Nin ND']; subst.
  split; [|split; [|split; [|split]]].
  - split; [reflexivity|]. split; [reflexivity|]. split.
    + cbn [addrs]. constructor; auto. intros Hx. assert (next h1 < next h1); [|lia]. apply Hlt. right; auto.
    + cbn [holds]. split; [|split].
      * exists None. unfold h3; cbn. destruct (next h1 =? a) eqn:?; [lia|]. now rewrite Nat.eqb_refl.
      * eapply holds_frame; [|exact Hl]. intros b Hb. apply F3.
        -- intros ->; apply Nin, in_or_app; auto.
        -- assert (b < next h1); [|lia]. apply Hlt. right; apply in_or_app; auto.
      * eapply holds_frame; [|exact Hr]. intros b Hb. apply F3.
        -- intros ->; apply Nin, in_or_app; auto.
        -- assert (b < next h1); [|lia]. apply Hlt. right; apply in_or_app; auto.
  - intros b Hb. cbn in Hb. rewrite F3; [apply S1; lia|lia|lia].
  - intros b Hb. assert (b < next h). { destruct Ht as [? [? [? Hht]]]. exact (sane_lt _ _ _ _ Hs Hht Hb). }
    rewrite F3; [auto|intros ->; eapply Dis; simpl; eauto|lia].
  - unfold h3; cbn. now rewrite Nat.eqb_refl.
  - intros b H1 H2 H3. rewrite F3; auto. lia.
Qed.

(* find *)
Lemma find_sound : forall less eqb h, (forall x y, eqb x y = true <-> x = y) ->
  forall t fuel x a, held h t -> find less eqb h fuel x (raddr t) = Ok (Some a) ->
  In a (addrs t) /\ exists n, cells h a = Some n /\ ndata n = x.
Proof.
  intros less eqb h He; induction t as [|b y l IHl r IHr]; intros fuel x a H F.
  - destruct fuel; discriminate.
  - destruct (held_node _ _ _ _ _ H) as [[n [E [Ed [El Er]]]] [Hl Hr]].
    destruct fuel as [|fuel]; [discriminate|]. cbn [find raddr] in F. rewrite (deref_ok _ _ _ E) in F. cbn [bind] in F.
    assert (G: (if eqb (ndata n) x then Ok (Some b) else find less eqb h fuel x (if less x (ndata n) then nleft n else nright n)) = Ok (Some a)).
    { destruct (nleft n); [exact F|]. destruct (nright n); [exact F|discriminate]. }
    clear F. destruct (eqb (ndata n) x) eqn:Eq.
    + inversion G; subst b. apply He in Eq. split; [simpl; auto|eauto].
    + rewrite El, Er in G. destruct (less x (ndata n)).
      * destruct (IHl _ _ _ Hl G). split; auto. simpl; right; apply in_or_app; auto.
      * destruct (IHr _ _ _ Hr G). split; auto. simpl; right; apply in_or_app; auto.
Qed.

Lemma stored_inner_in : forall x t, stored_inner x t -> In x (preorder t).
Proof.
  intros x; induction t as [|a y l IHl r IHr]; intros H; [destruct H|].
  assert (G: y = x \/ stored_inner x l \/ stored_inner x r).
  { destruct l; [destruct r; [destruct H|exact H]|exact H]. }
  simpl. destruct G as [G|[G|G]]; auto; right; apply in_or_app; auto.
Qed.

Lemma find_inner : forall less eqb h, (forall x y, eqb x y = true <-> x = y) ->
  forall t fuel x, held h t -> search_tree less t -> stored_inner x t -> height t <= fuel ->
  exists a, find less eqb h fuel x (raddr t) = Ok (Some a).
Proof.
  intros less eqb h He; induction t as [|b y l IHl r IHr]; intros fuel x H S I Hf; [destruct I|].
  destruct (held_node _ _ _ _ _ H) as [[n [E [Ed [El Er]]]] [Hl Hr]].
  destruct fuel as [|fuel]; [simpl in Hf; lia|]. cbn [find raddr]. rewrite (deref_ok _ _ _ E). cbn [bind].
  rewrite El, Er, Ed.
  assert (G: y = x \/ stored_inner x l \/ stored_inner x r).
  { destruct l; [destruct r; [destruct I|exact I]|exact I]. }
  assert (Hbr: forall X Y : Res (option addr), match raddr l with Some _ => X | None => match raddr r with Some _ => X | None => Y end end = X).
  { intros; destruct l; [destruct r; [destruct I|reflexivity]|reflexivity]. }
  rewrite Hbr. simpl in S. destruct S as [SL [SR [S1 S2]]]. cbn [height] in Hf.
  destruct (eqb y x) eqn:Eq; [eauto|].
  destruct G as [->|[G|G]].
  - assert (eqb x x = true) by (apply He; auto). congruence.
  - rewrite Forall_forall in SL. rewrite (SL x (stored_inner_in _ _ G)). apply IHl; auto; lia.
  - rewrite Forall_forall in SR. rewrite (SR x (stored_inner_in _ _ G)). apply IHr; auto; lia.
Qed.

Lemma find_ok : forall less eqb h, (forall x y, eqb x y = true <-> x = y) ->
  forall o t fuel x, owns h o t -> search_tree less t -> stored_inner x t -> msize t <= fuel ->
  exists a n, find less eqb h fuel x (root o) = Ok (Some a) /\ In a (addrs t) /\ cells h a = Some n /\ ndata n = x.
Proof.
  intros less eqb h He o t fuel x [R [N [ND H]]] S I Hf.
  destruct (find_inner less eqb h He t fuel x) as [a A]; auto.
  - exists 0; auto.
  - pose proof (height_size t); lia.
  - assert (Hh: held h t) by (exists 0; auto).
    destruct (find_sound less eqb h He t fuel x a Hh A) as [I1 [n [E1 E2]]].
    exists a, n. rewrite R. auto.
Qed.

(* a datum stored only at leaves is never found *)
Lemma find_miss : forall less eqb h, (forall x y, eqb x y = true <-> x = y) ->
  forall t fuel x, held h t -> ~ stored_inner x t ->
  forall a, find less eqb h fuel x (raddr t) <> Ok (Some a).
Proof.
  intros less eqb h He; induction t as [|b y l IHl r IHr]; intros fuel x H I a F.
  - destruct fuel; discriminate.
  - destruct (held_node _ _ _ _ _ H) as [[n [E [Ed [El Er]]]] [Hl Hr]].
    destruct fuel as [|fuel]; [discriminate|]. cbn [find raddr] in F. rewrite (deref_ok _ _ _ E) in F. cbn [bind] in F.
    rewrite El, Er, Ed in F.
    destruct l as [|]; [destruct r as [|]; [discriminate|]|]; cbn [raddr] in F;
      (destruct (eqb y x) eqn:Eq; [apply He in Eq; apply I; simpl; auto|]);
      destruct (less x y); 
      try (eapply IHl; [eauto| |exact F]; intros G; apply I; cbn [stored_inner]; auto; fail);
      try (eapply IHr; [eauto| |exact F]; intros G; apply I; cbn [stored_inner]; auto; fail).
Qed.

End P.
