(* Edges of a 3D triangulation, iterators, surface mesh. *)
From Coq Require Import Lia Permutation Sorted.
From Verif Require Export TriProofs.

(* ---- the edge tables of a tetrahedral mesh ---- *)
Section Edges.
Variable markers : list bool.

(* Q: the (cell, edge) pairs met so far *)
Record EInv (Q : list (nat * list nat)) (es : edges3) : Prop := mkEInv {
  ei_next : e_next es = length (e_nodes es);
  ei_lc : length (e_cells es) = length (e_nodes es);
  ei_lm : length (e_mark es) = length (e_nodes es);
  ei_nd : NoDup (e_nodes es);
  ei_in : forall k, In k (e_nodes es) <-> exists i, In (i, k) Q;
  ei_map : forall k e, lookup k (e_map es) = Some e <-> nth_error (e_nodes es) e = Some k;
  ei_cells : forall e k, nth_error (e_nodes es) e = Some k -> exists cs, nth_error (e_cells es) e = Some cs /\
     NoDup cs /\ forall i, In i cs <-> In (i, k) Q;
  ei_mark : forall e a b, nth_error (e_nodes es) e = Some [a; b] -> exists ma mb,
     nth_error markers a = Some ma /\ nth_error markers b = Some mb /\ nth_error (e_mark es) e = Some (ma && mb)
}.

Lemma EInv_init : EInv [] (Edges3 0 [] [] [] [] []).
Proof.
  constructor; cbn [e_next e_nodes e_map e_cells e_mark fe]; try reflexivity.
  - constructor.
  - intros k. split; [intros []|intros (i & [])].
  - intros k e. split; [discriminate|]. destruct e; discriminate.
  - intros [|e] k; discriminate.
  - intros [|e] a b; discriminate.
Qed.
Lemma set_add_in x s y : In y (set_add x s) <-> y = x \/ In y s.
Proof.
  unfold set_add. destruct (existsb (Nat.eqb x) s) eqn:E.
  - apply existsb_exists in E as (z & Hz & Ez). apply Nat.eqb_eq in Ez as <-. intuition (subst; auto).
  - simpl. intuition.
Qed.
Lemma set_add_nodup x s : NoDup s -> NoDup (set_add x s).
Proof.
  intros Hn. unfold set_add. destruct (existsb (Nat.eqb x) s) eqn:E; [assumption|].
  constructor; [|assumption]. intros Hx. assert (existsb (Nat.eqb x) s = true); [|congruence].
  apply existsb_exists. exists x. split; [assumption|apply Nat.eqb_refl].
Qed.

(* inserting cell i into the set of a known edge *)
Lemma EInv_known Q es i e k ec : EInv Q es -> nth_error (e_nodes es) e = Some k ->
  forall cs, nth_error (e_cells es) e = Some cs -> ec = upd (e_cells es) e (set_add i cs) ->
  EInv (Q ++ [(i, k)]) (Edges3 (e_next es) (e_nodes es) (e_map es) ec (e_mark es) (fe es)).
Proof.
  intros HE Hk cs Hcs ->.
  assert (Hl : e < length (e_cells es)) by (apply nth_error_Some; congruence).
  constructor; cbn [e_next e_nodes e_map e_cells e_mark fe].
  - apply (ei_next _ _ HE).
  - rewrite upd_length. apply (ei_lc _ _ HE).
  - apply (ei_lm _ _ HE).
  - apply (ei_nd _ _ HE).
  - intros k'. rewrite (ei_in _ _ HE). split.
    + intros (a & Ha). exists a. apply in_or_app. now left.
    + intros (a & Ha). apply in_app_or in Ha as [Ha|[[= <- <-]|[]]]; [eauto|].
      apply (ei_in _ _ HE). eapply nth_error_In; eauto.
  - apply (ei_map _ _ HE).
  - intros e' k' He'. destruct (Nat.eq_dec e' e) as [->|Hne].
    + rewrite nth_error_upd_same by assumption. eexists; split; [reflexivity|].
      rewrite Hk in He'. injection He' as <-.
      destruct (ei_cells _ _ HE _ _ Hk) as (cs' & Hcs' & Hn & Hin). rewrite Hcs in Hcs'. injection Hcs' as <-.
      split; [now apply set_add_nodup|]. intros a. rewrite set_add_in, Hin, in_app_iff. simpl.
      split; [intros [->|]; auto|intros [|[[= ->]|[]]]; auto].
    + rewrite nth_error_upd_other by auto.
      destruct (ei_cells _ _ HE _ _ He') as (cs' & Hcs' & Hn & Hin). exists cs'.
      split; [assumption|]. split; [assumption|]. intros a. rewrite Hin, in_app_iff. simpl.
      split; [auto|]. intros [|[[= <- <-]|[]]]; [auto|]. exfalso. apply Hne.
      eapply nodup_nth; [apply (ei_nd _ _ HE)|eassumption|eassumption].
  - apply (ei_mark _ _ HE).
Qed.

Lemma pair_sort a b : a < b -> sort_ids [a; b] = [a; b].
Proof. intros H. simpl. destruct (a <=? b) eqn:E; [reflexivity|]. apply Nat.leb_gt in E. lia. Qed.

Lemma edge_step_ok Q es ids i face pat a b : EInv Q es ->
  mapM (fun h => nth_res face h) pat = Ok [a; b] -> a < b -> a < length markers -> b < length markers ->
  exists es' e, edge_step markers face i (es, ids) pat = Ok (es', ids ++ [e]) /\
    EInv (Q ++ [(i, [a; b])]) es' /\ nth_error (e_nodes es') e = Some [a; b] /\ fe es' = fe es /\
    (exists l, e_nodes es' = e_nodes es ++ l).
Proof.
  intros HE Hp Hab Ha Hb. unfold edge_step. rewrite Hp. cbn [bind]. rewrite pair_sort by assumption.
  destruct (lookup [a; b] (e_map es)) as [e|] eqn:El.
  - apply (ei_map _ _ HE) in El as He.
    destruct (ei_cells _ _ HE _ _ He) as (cs & Hcs & _).
    assert (e < length (e_cells es)) by (apply nth_error_Some; congruence).
    unfold bind_cell. destruct (Nat.eqb_spec e (length (e_cells es))); [lia|].
    apply nth_res_ok in Hcs as Hcs'. rewrite Hcs'. cbn [bind]. rewrite upd_res_some by assumption. cbn [bind].
    do 2 eexists. split; [reflexivity|]. split; [eapply EInv_known; eauto|].
    split; [exact He|]. split; [reflexivity|]. exists []. now rewrite app_nil_r.
  - assert (Hfresh : ~ In [a; b] (e_nodes es)).
    { intros H. apply In_nth_error in H as (e & He). apply (ei_map _ _ HE) in He. congruence. }
    unfold bind_cell. rewrite (ei_next _ _ HE), (ei_lc _ _ HE), Nat.eqb_refl. cbn [bind].
    cbn [nth_res nth_error].
    destruct (nth_error markers a) as [ma|] eqn:Ema; [|apply nth_error_None in Ema; lia].
    destruct (nth_error markers b) as [mb|] eqn:Emb; [|apply nth_error_None in Emb; lia].
    apply nth_res_ok in Ema as Ra. apply nth_res_ok in Emb as Rb.
    change (nth_res [a; b] 0) with (Ok a). change (nth_res [a; b] 1) with (Ok b). cbn [bind].
    rewrite Ra, Rb. cbn [bind].
    do 2 eexists. split; [reflexivity|]. cbn [e_next e_nodes e_map e_cells e_mark fe].
    split; [|split; [apply nth_error_snoc_last|split; [reflexivity|eexists; reflexivity]]].
    constructor; cbn [e_next e_nodes e_map e_cells e_mark fe].
    + rewrite app_length. simpl. lia.
    + rewrite !app_length, (ei_lc _ _ HE). reflexivity.
    + rewrite !app_length, (ei_lm _ _ HE). reflexivity.
    + apply NoDup_app_intro; [apply (ei_nd _ _ HE)|constructor; [intros []|constructor]|].
      intros x Hx [<-|[]]. contradiction.
    + intros k. rewrite in_app_iff, (ei_in _ _ HE). split.
      * intros [(x & Hx)|[<-|[]]]; [exists x|exists i]; apply in_or_app; simpl; auto.
      * intros (x & Hx). apply in_app_or in Hx as [Hx|[[= <- <-]|[]]]; [left; eauto|right; simpl; auto].
    + intros k e. rewrite lookup_cons. destruct (id_list_eqb k [a; b]) eqn:Ek.
      * apply id_list_eqb_spec in Ek as ->. split.
        -- intros [= <-]. apply nth_error_snoc_last.
        -- intros He. apply nth_error_snoc in He as [[He _]|[-> _]]; [|reflexivity].
           exfalso. apply Hfresh. eapply nth_error_In; eauto.
      * rewrite (ei_map _ _ HE). split; [apply nth_error_snoc_old|].
        intros He. apply nth_error_snoc in He as [[He _]|[_ ->]]; [assumption|].
        rewrite id_list_eqb_refl in Ek. discriminate.
    + intros e k He. apply nth_error_snoc in He as [[He Hl]|[-> ->]].
      * destruct (ei_cells _ _ HE _ _ He) as (cs & Hcs & Hn & Hin). exists cs.
        split; [now apply nth_error_snoc_old|]. split; [assumption|].
        intros x. rewrite Hin, in_app_iff. simpl. split; [auto|]. intros [|[[= <- <-]|[]]]; [auto|].
        exfalso. apply Hfresh. eapply nth_error_In; eauto.
      * exists [i]. split; [rewrite <- (ei_lc _ _ HE); apply nth_error_snoc_last|].
        split; [constructor; [intros []|constructor]|]. intros x. rewrite in_app_iff. simpl. split.
        -- intros [<-|[]]. auto.
        -- intros [Hx|[[= ->]|[]]]; [|auto]. exfalso. apply Hfresh, (ei_in _ _ HE). eauto.
    + intros e a' b' He. apply nth_error_snoc in He as [[He Hl]|[-> E]].
      * destruct (ei_mark _ _ HE _ _ _ He) as (ma' & mb' & H1 & H2 & H3). exists ma', mb'.
        split; [assumption|]. split; [assumption|]. now apply nth_error_snoc_old.
      * injection E as -> ->. exists ma, mb. split; [assumption|]. split; [assumption|].
        rewrite <- (ei_lm _ _ HE). apply nth_error_snoc_last.
Qed.
Lemma EInv_fe Q es l : EInv Q es -> EInv Q (Edges3 (e_next es) (e_nodes es) (e_map es) (e_cells es) (e_mark es) l).
Proof. intros []; constructor; assumption. Qed.
Lemma EInv_ext Q Q' es : (forall x, In x Q <-> In x Q') -> EInv Q es -> EInv Q' es.
Proof.
  intros H []; constructor; auto.
  - intros k. rewrite ei_in0. split; intros (i & Hi); exists i; apply H; exact Hi.
  - intros e k He. destruct (ei_cells0 _ _ He) as (cs & Hcs & Hn & Hin). exists cs.
    split; [assumption|]. split; [assumption|]. intros i. rewrite Hin. apply H.
Qed.

(* the edges of a face [a; b; c] with a < b < c *)
Definition face_edges (f : list nat) : list (list nat) :=
  match f with [a; b; c] => [[a; b]; [a; c]; [b; c]] | _ => [] end.

Lemma edge_pattern_val : combinations 2 3 = Ok [[0; 1]; [0; 2]; [1; 2]].
Proof. vm_compute. reflexivity. Qed.
Lemma face_pattern_val : combinations 3 4 = Ok [[0; 1; 2]; [0; 1; 3]; [0; 2; 3]; [1; 2; 3]].
Proof. vm_compute. reflexivity. Qed.

Lemma new_face_edges Q es i a b c : EInv Q es -> a < b -> b < c -> c < length markers ->
  exists es' e1 e2 e3,
    foldM (edge_step markers [a; b; c] i) [[0; 1]; [0; 2]; [1; 2]] (es, []) = Ok (es', [e1; e2; e3]) /\
    EInv (Q ++ map (pair i) (face_edges [a; b; c])) es' /\
    nth_error (e_nodes es') e1 = Some [a; b] /\ nth_error (e_nodes es') e2 = Some [a; c] /\
    nth_error (e_nodes es') e3 = Some [b; c] /\ fe es' = fe es /\ (exists l, e_nodes es' = e_nodes es ++ l).
Proof.
  intros HE Hab Hbc Hc.
  destruct (edge_step_ok Q es [] i [a; b; c] [0; 1] a b HE eq_refl Hab ltac:(lia) ltac:(lia))
    as (s1 & e1 & E1 & H1 & N1 & F1 & L1 & X1).
  destruct (edge_step_ok _ s1 [e1] i [a; b; c] [0; 2] a c H1 eq_refl ltac:(lia) ltac:(lia) ltac:(lia))
    as (s2 & e2 & E2 & H2 & N2 & F2 & L2 & X2).
  destruct (edge_step_ok _ s2 [e1; e2] i [a; b; c] [1; 2] b c H2 eq_refl ltac:(lia) ltac:(lia) ltac:(lia))
    as (s3 & e3 & E3 & H3 & N3 & F3 & L3 & X3).
  exists s3, e1, e2, e3. cbn [foldM]. rewrite E1. cbn [bind app]. rewrite E2. cbn [bind app]. rewrite E3. cbn [bind].
  split; [reflexivity|].
  split; [rewrite <- !app_assoc in H3; exact H3|].
  assert (Old : forall s s' l e k, e_nodes s' = e_nodes s ++ l -> nth_error (e_nodes s) e = Some k -> nth_error (e_nodes s') e = Some k).
  { intros s s' l e k -> Hk. rewrite nth_error_app1; [assumption|]. apply nth_error_Some. congruence. }
  split; [eapply Old; [exact X3|]; eapply Old; [exact X2|exact N1]|].
  split; [eapply Old; [exact X3|exact N2]|]. split; [exact N3|].
  split; [congruence|]. exists (L1 ++ L2 ++ L3). rewrite X3, X2, X1, !app_assoc. reflexivity.
Qed.

Lemma seen_face_edges i ids : forall Q es ks, EInv Q es -> map (fun e => nth_error (e_nodes es) e) ids = map Some ks ->
  exists ec, foldM (fun ec e => bind_cell_at ec e i) ids (e_cells es) = Ok ec /\
    EInv (Q ++ map (pair i) ks) (Edges3 (e_next es) (e_nodes es) (e_map es) ec (e_mark es) (fe es)).
Proof.
  induction ids as [|e ids IH]; intros Q es ks HE Hk; destruct ks as [|k ks]; try discriminate.
  - exists (e_cells es). split; [reflexivity|]. cbn [map]. rewrite app_nil_r. now destruct es.
  - injection Hk as He Hk. destruct (ei_cells _ _ HE _ _ He) as (cs & Hcs & _).
    cbn [foldM]. unfold bind_cell_at at 1. rewrite Hcs.
    rewrite upd_res_some by (apply nth_error_Some; congruence). cbn [bind].
    pose proof (EInv_known Q es i e k _ HE He cs Hcs eq_refl) as HE'.
    destruct (IH _ _ ks HE' Hk) as (ec & Eec & HE2). exists ec. split; [exact Eec|].
    cbn [map]. rewrite <- app_assoc in HE2. exact HE2.
Qed.
End Edges.

Lemma face_edges_in a b c k : a < b -> b < c -> (In k (face_edges [a; b; c]) <-> edge_in_cell k [a; b; c]).
Proof.
  intros Hab Hbc. unfold edge_in_cell. cbn [face_edges]. split.
  - intros [<-|[<-|[<-|[]]]]; do 2 eexists; (split; [reflexivity|]); simpl; split; auto; lia.
  - intros (x & y & -> & Hxy & Hx & Hy). simpl in *.
    destruct Hx as [<-|[<-|[<-|[]]]], Hy as [<-|[<-|[<-|[]]]]; try lia; auto.
Qed.

Section Tet.
Variables (cells : list (list nat)) (markers : list bool).
Hypothesis Hcells : simplicial 4 cells.
Hypothesis Hconf : conforming cells.
Hypothesis Hnodes : forall c v, In c cells -> In v c -> v < length markers.
Let fp := [[0; 1; 2]; [0; 1; 3]; [0; 2; 3]; [1; 2; 3]].
Let ep := [[0; 1]; [0; 2]; [1; 2]].
Let key := fkey cells 4.

Lemma make4 i j : i < length cells -> j < 4 -> make_facet cells fp i j = Ok (key (i, j)).
Proof.
  intros Hi Hj. unfold make_facet, key, fkey. cbn [fst snd].
  destruct (nth_error cells i) as [c|] eqn:E; [|apply nth_error_None in E; lia].
  assert (Hl : length c = 4) by (apply Hcells; eapply nth_error_In; eauto).
  rewrite (nth_error_nth _ _ [] E). apply nth_res_ok in E.
  destruct c as [|x0 [|x1 [|x2 [|x3 [|]]]]]; try discriminate.
  do 4 (destruct j as [|j]; [unfold fp, get2; cbn -[nth_res sort_ids]; rewrite ?E; cbn -[sort_ids]; rewrite ?E; cbn -[sort_ids]; rewrite ?E; reflexivity|]). lia.
Qed.

Lemma key4_shape q : valid cells 4 q -> exists a b c, key q = [a; b; c] /\ a < b /\ b < c /\ c < length markers.
Proof.
  intros [Hi Hj]. destruct q as [i j]; cbn [fst snd] in *.
  destruct (key_facts cells 4 Hcells i j Hi Hj) as (c & x & Hc & _ & _ & _ & Hs & Hl & _ & Hin).
  change (fkey cells 4 (i, j)) with (key (i, j)) in *.
  destruct (key (i, j)) as [|a [|b [|d [|]]]]; try discriminate.
  exists a, b, d. split; [reflexivity|].
  apply StronglySorted_inv in Hs as [Hs Ha]. apply StronglySorted_inv in Hs as [Hs Hb].
  rewrite Forall_forall in *. split; [apply Ha; simpl; auto|]. split; [apply Hb; simpl; auto|].
  apply (Hnodes c); [eapply nth_error_In; eauto|]. apply Hin. simpl; auto.
Qed.

(* joint invariant *)
Definition pairs_edges (P : list (nat * nat)) : list (nat * list nat) :=
  flat_map (fun q => map (pair (fst q)) (face_edges (key q))) P.
Definition FE (nodes : list (list nat)) (es : edges3) : Prop :=
  length (fe es) = length nodes /\
  forall h f, nth_error nodes h = Some f -> exists ids, nth_error (fe es) h = Some ids /\
    map (fun e => nth_error (e_nodes es) e) ids = map Some (face_edges f).
Definition TInv (P : list (nat * nat)) (s : facets * edges3) : Prop :=
  Inv cells 4 P (fst s) /\ EInv markers (pairs_edges P) (snd s) /\ FE (f_nodes (fst s)) (snd s).

Lemma tri3_inv : exists s,
  tri3 cells markers = Ok s /\ TInv (loop_pairs cells fp) s.
Proof.
  unfold tri3. rewrite face_pattern_val, edge_pattern_val. cbn [bind]. fold fp ep.
  apply (facet_loop cells 4 fp eq_refl (tet_step cells fp ep markers) TInv).
  - split; [apply (Inv_init cells 4 fp eq_refl)|]. split; [apply EInv_init|].
    split; [reflexivity|]. intros [|h] f; discriminate.
  - intros P [fs es] q HP Hq Hn (HI & HE & HF & HFE). cbn [fst snd] in *.
    destruct (Inv_step cells 4 fp Hcells Hconf eq_refl make4 P fs q HP Hq Hn HI) as (fs' & isnew & h & Es & HI' & Hh & Hnew).
    destruct (key4_shape q Hq) as (a & b & c & Ek & Hab & Hbc & Hc).
    unfold tet_step. cbn [fst snd]. rewrite Es. cbn [bind].
    change (fkey cells 4 q) with (key q) in *.
    assert (HPE : pairs_edges (P ++ [q]) = pairs_edges P ++ map (pair (fst q)) (face_edges (key q))).
    { unfold pairs_edges. rewrite flat_map_app. cbn [flat_map]. now rewrite app_nil_r. }
    destruct isnew.
    + destruct Hnew as [-> Hn']. apply nth_res_ok in Hh as Hh'. rewrite Hh'. cbn [bind]. rewrite Ek.
      destruct (new_face_edges markers (pairs_edges P) es (fst q) a b c HE Hab Hbc Hc)
        as (es' & e1 & e2 & e3 & Ef & HE' & N1 & N2 & N3 & Hfe & L & HL).
      fold ep in Ef. rewrite Ef. cbn [bind]. eexists. split; [reflexivity|].
      split; [exact HI'|]. cbn [fst snd]. split.
      * rewrite HPE, Ek. apply EInv_fe. exact HE'.
      * unfold FE. cbn [fe e_nodes]. rewrite Hn', Hfe. rewrite !app_length, HF. split; [reflexivity|].
        intros h f Hf. apply nth_error_snoc in Hf as [[Hf Hl]|[-> ->]].
        -- destruct (HFE _ _ Hf) as (ids & Hids & Hm). exists ids. split; [now apply nth_error_snoc_old|].
           rewrite <- Hm. apply map_ext_in. intros e He. rewrite HL.
           assert (nth_error (e_nodes es) e <> None).
           { intros Hnone. apply (in_map (fun e => nth_error (e_nodes es) e)) in He. rewrite Hm, Hnone in He.
             apply in_map_iff in He as (? & ? & _). discriminate. }
           rewrite nth_error_app1; [reflexivity|]. now apply nth_error_Some.
        -- exists [e1; e2; e3]. split; [rewrite <- HF; apply nth_error_snoc_last|].
           rewrite Ek. cbn [map face_edges]. now rewrite N1, N2, N3.
    + rewrite Hnew in Hh. destruct (HFE _ _ Hh) as (ids & Hids & Hm).
      apply nth_res_ok in Hids as Hids'. rewrite Hids'. cbn [bind].
      destruct (seen_face_edges markers (fst q) ids (pairs_edges P) es (face_edges (key q)) HE Hm) as (ec & Eec & HE').
      rewrite Eec. cbn [bind]. eexists. split; [reflexivity|].
      split; [exact HI'|]. cbn [fst snd]. split; [now rewrite HPE|].
      unfold FE. cbn [fe e_nodes]. rewrite Hnew. auto.
Qed.

(* the (cell, edge) pairs of the whole mesh *)
Lemma pairs_edges_all i k : In (i, k) (pairs_edges (loop_pairs cells fp)) <-> cell_has_edge cells i k.
Proof.
  unfold pairs_edges. rewrite in_flat_map. split.
  - intros (q & Hq & Hk). apply (loop_pairs_in cells 4 fp eq_refl) in Hq.
    apply in_map_iff in Hk as (k' & [= <- <-] & Hk).
    destruct (key4_shape q Hq) as (a & b & c & Ek & Hab & Hbc & Hc). rewrite Ek in Hk.
    apply face_edges_in in Hk as (x & y & -> & Hxy & Hx & Hy); [|assumption|assumption].
    destruct Hq as [Hi Hj]. destruct q as [i j]; cbn [fst snd] in *.
    destruct (key_facts cells 4 Hcells i j Hi Hj) as (cl & v & Hcl & _ & _ & _ & _ & _ & _ & Hin).
    change (fkey cells 4 (i, j)) with (key (i, j)) in Hin. rewrite Ek in Hin.
    exists cl. split; [assumption|]. exists x, y. split; [reflexivity|]. split; [assumption|].
    split; apply Hin; right; assumption.
  - intros (cl & Hcl & x & y & -> & Hxy & Hx & Hy).
    assert (Hi : i < length cells) by (apply nth_error_Some; congruence).
    destruct (Hcells cl) as [Hl Hnd]; [eapply nth_error_In; eauto|].
    (* a third vertex to drop *)
    assert (Hz : exists p v, p < 4 /\ nth_error cl p = Some v /\ v <> x /\ v <> y).
    { destruct cl as [|c0 [|c1 [|c2 [|c3 [|]]]]]; try discriminate.
      inversion Hnd as [|? ? N0 Hnd1]; subst. inversion Hnd1 as [|? ? N1 Hnd2]; subst.
      inversion Hnd2 as [|? ? N2 Hnd3]; subst. simpl in N0, N1, N2.
      assert (c0 <> c1) by intuition. assert (c0 <> c2) by intuition. assert (c1 <> c2) by intuition.
      assert (Hc : (c0 <> x /\ c0 <> y) \/ (c1 <> x /\ c1 <> y) \/ (c2 <> x /\ c2 <> y)) by lia.
      destruct Hc as [Hc|[Hc|Hc]]; [exists 0, c0|exists 1, c1|exists 2, c2];
        (split; [lia|]); (split; [reflexivity|exact Hc]). }
    destruct Hz as (p & v & Hp & Hv & Hvx & Hvy).
    exists (i, 3 - p). split; [apply (loop_pairs_in cells 4 fp eq_refl); split; cbn [fst snd]; [assumption|lia]|].
    cbn [fst]. apply in_map_iff. exists [x; y]. split; [reflexivity|].
    assert (Hq : valid cells 4 (i, 3 - p)) by (split; cbn [fst snd]; [assumption|lia]).
    destruct (key4_shape _ Hq) as (a & b & c & Ek & Hab & Hbc & Hc).
    destruct (key_facts cells 4 Hcells i (3 - p) Hi ltac:(lia)) as (cl' & v' & Hcl' & Hv' & _ & _ & _ & _ & _ & Hin).
    change (fkey cells 4 (i, 3 - p)) with (key (i, 3 - p)) in Hin. rewrite Ek in Hin |- *.
    rewrite Hcl in Hcl'. injection Hcl' as <-. replace (4 - 1 - (3 - p)) with p in Hv' by lia.
    rewrite Hv in Hv'. injection Hv' as <-.
    apply face_edges_in; [assumption|assumption|]. exists x, y. split; [reflexivity|]. split; [assumption|].
    split; [apply Hin in Hx as [|]|apply Hin in Hy as [|]]; try assumption; congruence.
Qed.
End Tet.

(* ---- iterators ---- *)
Definition kept (keep : bool -> bool) (f : list bool) (i : nat) : bool := keep (nth i f false).

Lemma skip_to_spec keep f n : n <= length f -> forall fuel i, i <= n -> n - i < fuel ->
  exists i', skip_to fuel keep f n i = Ok i' /\ i <= i' /\ i' <= n /\
    (forall j, i <= j < i' -> kept keep f j = false) /\ (i' < n -> kept keep f i' = true).
Proof.
  intros Hn. induction fuel as [|fuel IH]; intros i Hi Hf; [lia|]. cbn [skip_to].
  destruct (Nat.ltb_spec i n) as [Hlt|Hge].
  - destruct (nth_error f i) as [b|] eqn:E; [|apply nth_error_None in E; lia].
    apply nth_res_ok in E as E'. rewrite E'. cbn [bind].
    assert (Hk : kept keep f i = keep b) by (unfold kept; erewrite nth_error_nth by eassumption; reflexivity).
    destruct (keep b) eqn:Ekb.
    + exists i. repeat split; try lia. intros _. exact Hk.
    + destruct (IH (S i) ltac:(lia) ltac:(lia)) as (i' & Ei & H1 & H2 & H3 & H4).
      exists i'. split; [assumption|]. split; [lia|]. split; [assumption|]. split; [|assumption].
      intros j Hj. destruct (Nat.eq_dec j i) as [->|]; [exact Hk|apply H3; lia].
  - exists i. repeat split; lia.
Qed.

Lemma filter_seq_skip (g : nat -> bool) i i' m : (forall j, i <= j < i' -> g j = false) -> i <= i' <= m ->
  filter g (seq i (m - i)) = filter g (seq i' (m - i')).
Proof.
  intros Hg Hm. replace (m - i) with ((i' - i) + (m - i')) by lia.
  rewrite seq_app, filter_app. replace (i + (i' - i)) with i' by lia.
  assert (filter g (seq i (i' - i)) = []) as ->; [|reflexivity].
  assert (G : forall l, (forall j, In j l -> g j = false) -> filter g l = []).
  { induction l as [|x l IH]; intros H; [reflexivity|]. simpl. rewrite H by now left. apply IH.
    intros j Hj. apply H. now right. }
  apply G. intros j Hj. apply in_seq in Hj. apply Hg. lia.
Qed.

Lemma visit2_ok keep f n : n <= length f -> visit2 keep f n = Ok (filter (kept keep f) (seq 0 n)).
Proof.
  intros Hn. unfold visit2.
  assert (G : forall fuel i, i <= n -> n - i < fuel -> (i < n -> kept keep f i = true) ->
            visit2_from fuel keep f n i = Ok (filter (kept keep f) (seq i (n - i)))).
  { induction fuel as [|fuel IH]; intros i Hi Hf Hk; [lia|]. cbn [visit2_from].
    destruct (Nat.eqb_spec i n) as [->|Hne].
    - rewrite Nat.sub_diag. reflexivity.
    - destruct (skip_to_spec keep f n Hn (S n) (S i) ltac:(lia) ltac:(lia)) as (i' & E & H1 & H2 & H3 & H4).
      rewrite E. cbn [bind]. rewrite (IH i' H2 ltac:(lia) H4). cbn [bind].
      replace (n - i) with (S (n - S i)) by lia. cbn [seq filter]. rewrite Hk by lia.
      do 2 f_equal. symmetry. apply filter_seq_skip; [assumption|lia]. }
  destruct (skip_to_spec keep f n Hn (S n) 0 ltac:(lia) ltac:(lia)) as (i' & E & H1 & H2 & H3 & H4).
  rewrite E. cbn [bind]. rewrite G by (try lia; assumption).
  f_equal. rewrite <- (filter_seq_skip _ 0 i' n); [now rewrite Nat.sub_0_r|assumption|lia].
Qed.

Lemma next3_spec f n i v : n <= length f -> i <= n -> exists i' v', next3 f n (i, v) = Ok (i', v') /\
  (i' = n /\ v' = v /\ (forall j, i <= j < n -> nth j f false = false) \/
   exists j, i <= j < n /\ i' = S j /\ v' = Some j /\ nth j f false = true /\
     (forall j', i <= j' < j -> nth j' f false = false)).
Proof.
  intros Hn Hi. unfold next3. cbn [fst snd].
  destruct (skip_to_spec (fun b => b) f n Hn (S n) i Hi ltac:(lia)) as (i' & E & H1 & H2 & H3 & H4).
  rewrite E. cbn [bind]. destruct (Nat.eqb_spec i' n) as [->|Hne].
  - exists n, v. split; [reflexivity|]. left. auto.
  - exists (S i'), (Some i'). split; [reflexivity|]. right. exists i'. split; [lia|]. split; [reflexivity|].
    split; [reflexivity|]. split; [apply H4; lia|assumption].
Qed.
Lemma visit3_ok f n : n <= length f -> visit3 f n = Ok (filter (fun i => nth i f false) (seq 0 (n - 1))).
Proof.
  intros Hn. unfold visit3.
  set (g := fun i => nth i f false).
  assert (He : next3 f n (n, None) = Ok (n, None)).
  { destruct (next3_spec f n n None Hn ltac:(lia)) as (i' & v' & E & [(-> & -> & _)|(j & Hj & _)]); [exact E|lia]. }
  assert (G : forall fuel v, S v <= n -> g v = true -> n - v < fuel ->
            visit3_from fuel f n n (S v, Some v) = Ok (filter g (seq v (n - 1 - v)))).
  { induction fuel as [|fuel IH]; intros v Hv Hg Hf; [lia|]. cbn [visit3_from fst snd].
    destruct (Nat.eqb_spec (S v) n) as [E|Hne].
    - replace (n - 1 - v) with 0 by lia. reflexivity.
    - destruct (next3_spec f n (S v) (Some v) Hn ltac:(lia)) as (i' & v' & E & [(-> & -> & Hz)|(j & Hj & -> & -> & Hgj & Hz)]);
        rewrite E; cbn [bind].
      + destruct fuel as [|fuel]; [lia|]. cbn [visit3_from fst]. rewrite Nat.eqb_refl. cbn [bind].
        replace (n - 1 - v) with (S (n - 1 - S v)) by lia. cbn [seq filter]. rewrite Hg.
        rewrite (filter_seq_skip g (S v) (n - 1) (n - 1)); [rewrite Nat.sub_diag; reflexivity| |lia].
        intros j Hj. apply Hz. lia.
      + rewrite (IH j) by (try lia; assumption). cbn [bind].
        replace (n - 1 - v) with (S (n - 1 - S v)) by lia. cbn [seq filter]. rewrite Hg.
        do 2 f_equal. symmetry. apply filter_seq_skip; [exact Hz|lia]. }
  destruct (next3_spec f n 0 None Hn ltac:(lia)) as (i' & v' & E & [(-> & -> & Hz)|(j & Hj & -> & -> & Hgj & Hz)]);
    rewrite E; cbn [bind]; rewrite He; cbn [bind fst].
  - cbn [visit3_from fst]. rewrite Nat.eqb_refl. f_equal.
    replace (n - 1) with (n - 1 - 0) by lia. rewrite (filter_seq_skip g 0 (n - 1) (n - 1)); [now rewrite Nat.sub_diag| |lia].
    intros j Hj. apply Hz. lia.
  - rewrite (G (S n) j) by (try lia; assumption). f_equal.
    rewrite <- (filter_seq_skip g 0 j (n - 1)); [now rewrite Nat.sub_0_r|exact Hz|lia].
Qed.

(* ---- the surface mesh ---- *)
Lemma count_filter_seq m : length (filter (fun i => nth i m false) (seq 0 (length m))) = count_occ Bool.bool_dec m true.
Proof.
  induction m as [|b m IH]; [reflexivity|]. cbn [length seq filter].
  assert (E : length (filter (fun i => nth i (b :: m) false) (seq 1 (length m))) =
              length (filter (fun i => nth i m false) (seq 0 (length m)))).
  { rewrite <- seq_shift. generalize (seq 0 (length m)) as l. induction l as [|x l IHl]; [reflexivity|].
    cbn [map filter]. change (nth (S x) (b :: m) false) with (nth x m false).
    destruct (nth x m false); cbn [length]; rewrite IHl; reflexivity. }
  change (nth 0 (b :: m) false) with b. destruct b; cbn [length count_occ]; rewrite E, IH; reflexivity.
Qed.
Lemma marked_bound m l : NoDup l -> (forall v, In v l -> nth_error m v = Some true) ->
  length l <= count_occ Bool.bool_dec m true.
Proof.
  intros Hn Hl. rewrite <- count_filter_seq. apply NoDup_incl_length; [assumption|].
  intros v Hv. apply Hl in Hv. apply filter_In. split.
  - apply in_seq. split; [lia|]. simpl. apply nth_error_Some. congruence.
  - now apply nth_error_nth.
Qed.
Lemma position_some v l j : position v l = Some j -> nth_error l j = Some v.
Proof.
  revert j. induction l as [|x l IH]; intros j; cbn [position]; [discriminate|].
  destruct (Nat.eqb_spec v x) as [->|Hne].
  - intros [= <-]. reflexivity.
  - destruct (position v l) as [j'|]; cbn [option_map]; [|discriminate]. intros [= <-]. now apply IH.
Qed.
Lemma position_none v l : position v l = None -> ~ In v l.
Proof.
  induction l as [|x l IH]; cbn [position]; [auto|].
  destruct (Nat.eqb_spec v x) as [->|Hne]; [discriminate|].
  destruct (position v l); [discriminate|]. intros _ [->|H]; [contradiction|]. now apply IH.
Qed.

Section Surface.
Variables (markers : list bool).
Let nbn := count_occ Bool.bool_dec markers true.
Definition good_orig (orig : list nat) : Prop := NoDup orig /\ forall v, In v orig -> nth_error markers v = Some true.
Definition renamed (orig : list nat) (ids face : list nat) : Prop := map (nth_error orig) ids = map Some face.

Lemma renamed_ext orig l ids face : renamed orig ids face -> renamed (orig ++ l) ids face.
Proof.
  unfold renamed. revert face. induction ids as [|i ids IH]; intros [|v face] H; try discriminate; [reflexivity|].
  injection H as Hv H. cbn [map]. rewrite (IH face H). f_equal.
  rewrite nth_error_app1; [assumption|]. apply nth_error_Some. congruence.
Qed.

Lemma surf_node_ok face : forall orig row done, good_orig orig -> renamed orig row done ->
  (forall v, In v face -> nth_error markers v = Some true) ->
  exists l row', foldM (surf_node nbn) face (orig, row) = Ok (orig ++ l, row') /\
    good_orig (orig ++ l) /\ renamed (orig ++ l) row' (done ++ face) /\
    (forall v, In v l -> In v face).
Proof.
  induction face as [|v face IH]; intros orig row done Ho Hr Hm.
  - exists [], row. rewrite !app_nil_r. split; [reflexivity|]. split; [assumption|]. split; [assumption|]. intros _ [].
  - cbn [foldM]. unfold surf_node at 1. destruct (position v orig) as [j|] eqn:Ep.
    + apply position_some in Ep. cbn [bind].
      destruct (IH orig (row ++ [j]) (done ++ [v]) Ho) as (l & row' & E & Ho' & Hr' & Hl).
      * unfold renamed in *. rewrite !map_app, Hr. cbn [map]. now rewrite Ep.
      * intros w Hw. apply Hm. now right.
      * exists l, row'. rewrite <- app_assoc in Hr'. split; [exact E|]. split; [assumption|]. split; [assumption|].
        intros w Hw. right. auto.
    + apply position_none in Ep.
      assert (Ho1 : good_orig (orig ++ [v])).
      { destruct Ho as [Hn Hk]. split.
        - apply NoDup_app_intro; [assumption|constructor; [intros []|constructor]|]. intros x Hx [<-|[]]. contradiction.
        - intros w Hw. apply in_app_or in Hw as [Hw|[<-|[]]]; [auto|]. apply Hm. now left. }
      assert (Hlt : length orig < nbn).
      { pose proof (marked_bound markers (orig ++ [v]) (proj1 Ho1) (proj2 Ho1)) as H. rewrite app_length in H. simpl in H.
        unfold nbn. lia. }
      apply Nat.ltb_lt in Hlt as ->. cbn [bind].
      destruct (IH (orig ++ [v]) (row ++ [length orig]) (done ++ [v]) Ho1) as (l & row' & E & Ho' & Hr' & Hl).
      * apply (renamed_ext _ [v]) in Hr. unfold renamed in *. rewrite !map_app, Hr. cbn [map].
        now rewrite nth_error_snoc_last.
      * intros w Hw. apply Hm. now right.
      * exists (v :: l), row'. rewrite <- !app_assoc in *. cbn [app] in *. split; [exact E|]. split; [assumption|].
        split; [assumption|]. intros w [<-|Hw]; [now left|right; auto].
Qed.

Lemma upd_at_end {A} (l : list A) x y r : upd (l ++ x :: r) (length l) y = l ++ y :: r.
Proof. induction l as [|z l IH]; [reflexivity|]. simpl. f_equal. exact IH. Qed.

Lemma surf_face_ok faces vs : forall i orig rows done m, good_orig orig ->
  Forall2 (fun row f => exists ids, row = Some ids /\ renamed orig ids f) rows done -> length rows = i ->
  length vs <= m ->
  (forall f, In f vs -> exists face, nth_error faces f = Some face /\ forall v, In v face -> nth_error markers v = Some true) ->
  exists l rows' fs, foldM (surf_face nbn faces) vs (i, orig, rows ++ repeat None m) =
      Ok (i + length vs, orig ++ l, rows' ++ repeat None (m - length vs)) /\ good_orig (orig ++ l) /\
    map (nth_error faces) vs = map Some fs /\
    Forall2 (fun row f => exists ids, row = Some ids /\ renamed (orig ++ l) ids f) rows' (done ++ fs).
Proof.
  induction vs as [|f vs IH]; intros i orig rows done m Ho Hrows Hi Hm Hf.
  - exists [], rows, []. rewrite !app_nil_r, Nat.sub_0_r, Nat.add_0_r. split; [reflexivity|]. split; [assumption|]. split; [reflexivity|assumption].
  - destruct (Hf f (or_introl eq_refl)) as (face & Hface & Hmk).
    cbn [foldM]. unfold surf_face at 1. apply nth_res_ok in Hface as E. rewrite E. cbn [bind].
    destruct (surf_node_ok face orig [] [] Ho eq_refl Hmk) as (l & row & En & Ho' & Hr & _).
    rewrite En. cbn [bind fst snd]. cbn [length] in Hm. destruct m as [|m]; [lia|]. cbn [repeat].
    rewrite upd_res_some by (rewrite app_length; cbn [length]; lia). cbn [bind].
    rewrite <- Hi, upd_at_end.
    destruct (IH (S (length rows)) (orig ++ l) (rows ++ [Some row]) (done ++ [face]) m) as (l' & rows' & fs & E' & Ho2 & Hfs & HF).
    + assumption.
    + apply Forall2_app.
      * clear -Hrows. induction Hrows as [|r g rs gs (ids & -> & Hids) _ IHr]; constructor; [|assumption].
        exists ids. split; [reflexivity|]. now apply renamed_ext.
      * constructor; [|constructor]. exists row. auto.
    + rewrite app_length. simpl. lia.
    + lia.
    + intros g Hg. apply Hf. now right.
    + exists (l ++ l'), rows', (face :: fs). rewrite <- !app_assoc in *. cbn [app] in *.
      split.
      { cbn [length]. replace (length rows + S (length vs)) with (S (length rows) + length vs) by lia.
        replace (S m - S (length vs)) with (m - length vs) by lia. exact E'. }
      split; [assumption|]. split; [cbn [map]; rewrite Hfs, Hface; reflexivity|].
      exact HF.
Qed.
End Surface.
