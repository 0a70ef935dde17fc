(* C67, C113: numbering and coordinates of the degrees of freedom. *)
From Coq Require Import Lia Permutation Sorted Reals Lra.
From Coq Require Import QArith.
From Verif Require Import TriSpec TriProofs TriProofs2 TriProps LagrangeProps DofModel.
Local Open Scope nat_scope.

(* ------------------------------------------------------------------ specification *)
(* endpoints of local edge j of a triangle, as positions in the cell: the order of the mid-edge nodes of the
   second order reference triangle *)
Definition edge_ends (j : nat) : nat * nat := match j with 0 => (0, 1) | 1 => (0, 2) | _ => (1, 2) end.
(* local edge j of cell i joins vertices a and b *)
Definition joins (cells : list (list nat)) (i j a b : nat) : Prop :=
  j < 3 /\ entry cells i (fst (edge_ends j)) a /\ entry cells i (snd (edge_ends j)) b.
Definition same_ends (a b a' b' : nat) : Prop := (a = a' /\ b = b') \/ (a = b' /\ b = a').
(* cell i has an edge joining a and b *)
Definition has_edge (cells : list (list nat)) (i a b : nat) : Prop :=
  exists j a' b', joins cells i j a' b' /\ same_ends a b a' b'.

(* ------------------------------------------------------------------ proofs *)
Lemma sort_pair a b a' b' : sort_ids [a; b] = sort_ids [a'; b'] <-> same_ends a b a' b'.
Proof.
  unfold same_ends, sort_ids. cbn. destruct (Nat.leb_spec a b), (Nat.leb_spec a' b'); cbn; split; intros E.
  all: try (injection E; intros; subst; auto).
  all: destruct E as [[-> ->]|[-> ->]]; auto; try lia; repeat (f_equal; try lia).
Qed.
Section Numbering.
Variable cells : list (list nat).
Hypothesis Hs : simplicial 3 cells.
Hypothesis Hc : conforming cells.
Let key := fkey cells 3.
Lemma joins_key i j a b : joins cells i j a b -> i < length cells /\ key (i, j) = sort_ids [a; b].
Proof.
  intros (Hj & (c & Ec & Ea) & (c' & Ec' & Eb)). rewrite Ec in Ec'. injection Ec' as <-.
  assert (Hi : i < length cells) by (apply nth_error_Some; congruence). split; [auto|].
  assert (Hl : length c = 3) by (apply Hs; eapply nth_error_In; eauto).
  unfold key, fkey. cbn [fst snd]. rewrite (nth_error_nth _ _ [] Ec).
  destruct c as [|x0 [|x1 [|x2 [|]]]]; try discriminate.
  destruct j as [|[|[|j]]]; try lia; cbn in Ea, Eb; injection Ea as <-; injection Eb as <-; reflexivity.
Qed.
Lemma joins_ex i j : i < length cells -> j < 3 -> exists a b, joins cells i j a b.
Proof.
  intros Hi Hj. destruct (nth_error cells i) as [c|] eqn:Ec; [|apply nth_error_None in Ec; lia].
  assert (Hl : length c = 3) by (apply Hs; eapply nth_error_In; eauto).
  destruct c as [|x0 [|x1 [|x2 [|]]]]; try discriminate.
  destruct j as [|[|[|j]]]; try lia; eexists; eexists; (split; [lia|split; exists [x0; x1; x2]; cbn; split; [assumption|reflexivity| assumption|reflexivity]]).
Qed.
Lemma has_edge_cell i a b : has_edge cells i a b <-> cell_has cells i (sort_ids [a; b]).
Proof.
  split.
  - intros (j & a' & b' & Hj & He). destruct (joins_key _ _ _ _ Hj) as [Hi Hk]. apply sort_pair in He. rewrite He, <- Hk.
    apply key_facet; auto. apply Hj.
  - intros H. apply (facet_key cells 3 Hs) in H as (Hi & j & Hj & Ek). destruct (joins_ex i j Hi Hj) as (a' & b' & Hab).
    exists j, a', b'. split; [auto|]. apply sort_pair. rewrite Ek. apply joins_key; auto.
Qed.
Lemma find_local_ok id j : id < length cells -> j < 3 -> find_local cells fp2 id (key (id, j)) (seq 0 3) = Ok j.
Proof.
  intros Hi Hj. assert (G : forall k, k < 3 -> id_list_eqb (key (id, j)) (key (id, k)) = true -> j = k).
  { intros k Hk E. apply id_list_eqb_spec in E. now apply (key_inj cells 3 Hs id). }
  cbn [seq find_local]. rewrite !(make3 cells Hs) by lia. cbn [bind]. fold key.
  destruct (id_list_eqb (key (id, j)) (key (id, 0))) eqn:E0; [rewrite (G 0); auto|].
  destruct (id_list_eqb (key (id, j)) (key (id, 1))) eqn:E1; [rewrite (G 1); auto|].
  destruct (id_list_eqb (key (id, j)) (key (id, 2))) eqn:E2; [rewrite (G 2); auto|].
  exfalso. destruct j as [|[|[|j]]]; try lia; rewrite id_list_eqb_refl in *; discriminate.
Qed.
Variable s : facets.
Hypothesis HI : Inv cells 3 (loop_pairs cells fp2) s.
Let E := length (f_nodes s).
(* the edge of (i, j) *)
Lemma edge_of i j : i < length cells -> j < 3 -> exists h, h < E /\ nth_error (f_nodes s) h = Some (key (i, j)).
Proof.
  intros Hi Hj. assert (H : In (key (i, j)) (f_nodes s)).
  { apply (final_nodes cells 3 fp2 Hs eq_refl s HI). exists i. now apply key_facet. }
  apply In_nth_error in H as (h & Hh). exists h. split; [|auto]. apply nth_error_Some. congruence.
Qed.
Variables (n_nodes : nat).
Let t0 := map (fun c => map (@Some nat) c ++ repeat None 3) cells.
(* after the first h edges *)
Record NInv (h : nat) (u : numbering) : Prop := mkN {
  n_next : next u = n_nodes + h;
  n_shape : shaped (table u) (length cells) 6;
  n_vert : forall i j v, entry cells i j v -> entry (table u) i j (Some v);
  n_edge : forall i j h', i < length cells -> j < 3 -> nth_error (f_nodes s) h' = Some (key (i, j)) ->
     entry (table u) i (3 + j) (if h' <? h then Some (n_nodes + h') else None);
  n_bset : forall v, In v (bset u) <-> exists h', h' < h /\ v = n_nodes + h' /\ nth_error (f_mark s) h' = Some true }.
Lemma NInv_init : NInv 0 (Numbering t0 n_nodes []).
Proof.
  assert (G : forall i c, nth_error cells i = Some c -> nth_error t0 i = Some (map Some c ++ repeat None 3) /\ length c = 3).
  { intros i c Hi. split; [unfold t0; now rewrite nth_error_map, Hi|]. apply Hs. eapply nth_error_In; eauto. }
  constructor; cbn [next table bset].
  - lia.
  - split; [unfold t0; now rewrite map_length|]. intros r Hr. unfold t0 in Hr. apply in_map_iff in Hr as (c & <- & Hin).
    rewrite app_length, map_length, repeat_length. destruct (Hs c Hin). lia.
  - intros i j v (c & Ec & Ev). destruct (G _ _ Ec) as [E1 L]. eexists. split; [exact E1|].
    rewrite nth_error_app1 by (rewrite map_length; apply nth_error_Some; congruence). now rewrite nth_error_map, Ev.
  - intros i j h' Hi Hj _. cbn [Nat.ltb Nat.leb]. destruct (nth_error cells i) as [c|] eqn:Ec; [|apply nth_error_None in Ec; lia].
    destruct (G _ _ Ec) as [E1 L]. eexists. split; [exact E1|]. rewrite nth_error_app2 by (rewrite map_length; lia).
    rewrite map_length, L. replace (3 + j - 3) with j by lia. destruct j as [|[|[|j]]]; try lia; reflexivity.
  - intros v. split; [intros []|]. intros (h' & H & _). lia.
Qed.
(* one cell of edge h *)
Lemma put_in_cell_ok h e m (L : list nat) u id j : nth_error (f_nodes s) h = Some e -> id < length cells -> j < 3 -> e = key (id, j) ->
  next u = n_nodes + h -> shaped (table u) (length cells) 6 ->
  exists u', put_in_cell cells fp2 e m u (Some id) = Ok u' /\ next u' = next u /\ shaped (table u') (length cells) 6 /\
    bset u' = (if m : bool then next u :: bset u else bset u) /\
    forall a b w, entry (table u') a b w <-> (if (a =? id) && (b =? 3 + j) then w = Some (n_nodes + h) else entry (table u) a b w).
Proof.
  intros Hh Hi Hj He Hn Hsh. unfold put_in_cell. rewrite He. replace (length fp2) with 3 by reflexivity. rewrite find_local_ok by auto. cbn [bind].
  destruct (set2_some (table u) (length cells) 6 id (3 + j) (Some (next u)) Hsh Hi) as (t & E1 & E2 & E3); [lia|].
  rewrite E1. cbn [bind]. eexists. split; [reflexivity|]. cbn [next table bset]. split; [auto|]. split; [auto|]. split; [auto|].
  intros a b w. rewrite E3, Hn. reflexivity.
Qed.
Lemma NInv_step h u : NInv h u -> h < E -> exists u', put_edge cells fp2 s u h = Ok u' /\ NInv (S h) u'.
Proof.
  intros [Hn Hsh Hv He Hb] HhE. destruct (nth_error (f_nodes s) h) as [e|] eqn:Eh; [|apply nth_error_None in Eh; unfold E in *; lia].
  destruct (final_boundary cells 3 fp2 Hs eq_refl (make3 cells Hs) s HI h e Eh) as (a & o & Hcl & Hm & Hd & Hx).
  set (m := match o with None => true | Some _ => false end) in *.
  unfold put_edge. apply nth_res_ok in Eh as R1. apply nth_res_ok in Hcl as R2. apply nth_res_ok in Hm as R3.
  rewrite R1, R2, R3. cbn [bind fst snd foldM].
  (* every cell containing e *)
  assert (Hj : forall i, cell_has cells i e -> exists j, i < length cells /\ j < 3 /\ e = key (i, j)).
  { intros i H. apply (facet_key cells 3 Hs) in H as (Hi & j & Hj & Ek). eauto. }
  destruct (Hj a) as (ja & Ha & Hja & Eka); [apply Hx; auto|].
  destruct (put_in_cell_ok h e m [] u a ja Eh Ha Hja Eka Hn Hsh) as (u1 & E1 & N1 & S1 & B1 & T1). rewrite E1. cbn [bind].
  assert (G : exists u2, put_in_cell cells fp2 e m u1 o = Ok u2 /\ next u2 = next u /\ shaped (table u2) (length cells) 6 /\
    (forall v, In v (bset u2) <-> In v (bset u) \/ (m = true /\ v = n_nodes + h)) /\
    (forall i b w, entry (table u2) i b w <->
       (if existsb (fun j => (i <? length cells) && (b =? 3 + j) && id_list_eqb e (key (i, j))) (seq 0 3) then w = Some (n_nodes + h) else entry (table u) i b w))).
  { assert (Hkey : forall i j, i < length cells -> j < 3 -> e = key (i, j) -> forall b,
      existsb (fun j => (i <? length cells) && (b =? 3 + j) && id_list_eqb e (key (i, j))) (seq 0 3) = (b =? 3 + j)).
    { intros i j Hi Hj' Ek b. apply eq_true_iff_eq. rewrite existsb_exists, Nat.eqb_eq. split.
      - intros (k & Hk & Hb'). apply in_seq in Hk. apply andb_true_iff in Hb' as [Hb' H3]. apply andb_true_iff in Hb' as [_ H2].
        apply Nat.eqb_eq in H2. apply id_list_eqb_spec in H3. rewrite Ek in H3. apply (key_inj cells 3 Hs i) in H3; [lia|auto|auto|lia].
      - intros ->. exists j. split; [apply in_seq; lia|]. rewrite Nat.eqb_refl, <- Ek, id_list_eqb_refl.
        apply Nat.ltb_lt in Hi. now rewrite Hi. }
    assert (Hno : forall i, ~ cell_has cells i e -> forall b,
      existsb (fun j => (i <? length cells) && (b =? 3 + j) && id_list_eqb e (key (i, j))) (seq 0 3) = false).
    { intros i Hni b. apply not_true_is_false. rewrite existsb_exists. intros (k & Hk & Hb'). apply in_seq in Hk.
      apply andb_true_iff in Hb' as [Hb' H3]. apply andb_true_iff in Hb' as [H1 H2]. apply Nat.ltb_lt in H1. apply id_list_eqb_spec in H3.
      apply Hni. rewrite H3. apply key_facet; auto; lia. }
    destruct o as [b0|].
    - destruct (Hj b0) as (jb & Hb0 & Hjb & Ekb); [apply Hx; auto|].
      destruct (put_in_cell_ok h e m [] u1 b0 jb Eh Hb0 Hjb Ekb ltac:(congruence) S1) as (u2 & E2 & N2 & S2 & B2 & T2).
      exists u2. split; [auto|]. split; [congruence|]. split; [auto|]. split.
      + intros v. rewrite B2, B1. unfold m. cbn. intuition discriminate.
      + intros i b w. rewrite T2. destruct (Nat.eqb_spec i b0) as [->|Nb]; cbn [andb].
        * rewrite (Hkey b0 jb) by auto. destruct (b =? 3 + jb); [reflexivity|]. rewrite T1.
          destruct (Nat.eqb_spec b0 a) as [->|]; [exfalso; apply (Hd a); auto|]. reflexivity.
        * rewrite T1. destruct (Nat.eqb_spec i a) as [->|Na]; cbn [andb].
          -- rewrite (Hkey a ja) by auto. reflexivity.
          -- rewrite Hno; [reflexivity|]. rewrite Hx. intuition congruence.
    - exists u1. split; [reflexivity|]. split; [auto|]. split; [auto|]. split.
      + intros v. rewrite B1. unfold m. cbn. rewrite Hn. intuition.
      + intros i b w. rewrite T1. destruct (Nat.eqb_spec i a) as [->|Na]; cbn [andb].
        * rewrite (Hkey a ja) by auto. reflexivity.
        * rewrite Hno; [reflexivity|]. rewrite Hx. intuition congruence. }
  destruct G as (u2 & E2 & N2 & S2 & B2 & T2). rewrite E2. cbn [bind]. eexists. split; [reflexivity|].
  constructor; cbn [next table bset].
  - lia.
  - auto.
  - intros i j v Hij. apply T2. assert (j < 3). { destruct Hij as (c & Ec & Ev). destruct (Hs c) as [L _]; [eapply nth_error_In; eauto|]. rewrite <- L. apply nth_error_Some. congruence. }
    match goal with |- if ?c then _ else _ => replace c with false end; [auto|]. symmetry. apply not_true_is_false. rewrite existsb_exists.
    intros (k & Hk & H1). apply andb_true_iff in H1 as [H1 _]. apply andb_true_iff in H1 as [_ H1]. apply Nat.eqb_eq in H1. lia.
  - intros i j h' Hi Hj' Hh'. apply T2. specialize (He i j h' Hi Hj' Hh').
    match goal with |- if ?c then _ else _ => destruct c eqn:Ec end.
    + apply existsb_exists in Ec as (k & Hk & H1). apply andb_true_iff in H1 as [H1 H3]. apply andb_true_iff in H1 as [_ H1]. apply Nat.eqb_eq in H1.
      assert (k = j) by lia. subst k. apply id_list_eqb_spec in H3. rewrite <- H3 in Hh'.
      assert (h' = h) by (eapply nodup_nth; [apply (final_nodup _ _ _ _ HI)|eauto|eauto]). subst h'.
      replace (h <? S h) with true by (symmetry; apply Nat.ltb_lt; lia). reflexivity.
    + assert (Hne : h' <> h).
      { intros ->. rewrite Eh in Hh'. injection Hh' as Hh'. apply not_true_iff_false in Ec. apply Ec. apply existsb_exists. exists j.
        split; [apply in_seq; lia|]. rewrite Nat.eqb_refl, Hh', id_list_eqb_refl. apply Nat.ltb_lt in Hi. now rewrite Hi. }
      replace (h' <? S h) with (h' <? h); [auto|]. apply eq_true_iff_eq. rewrite !Nat.ltb_lt. lia.
  - intros v. rewrite B2, Hb. split.
    + intros [(h' & A & B & C)|[A B]]; [exists h'; split; [lia|auto]|]. exists h. split; [lia|]. split; [auto|]. rewrite Hm. now f_equal.
    + intros (h' & A & B & C). destruct (Nat.eq_dec h' h) as [->|]; [right|left].
      * split; [congruence|auto].
      * exists h'. split; [lia|auto].
Qed.
Lemma numbering_ok : exists u, foldM (put_edge cells fp2 s) (seq 0 E) (Numbering t0 n_nodes []) = Ok u /\ NInv E u.
Proof.
  assert (G : forall k, k <= E -> exists u, foldM (put_edge cells fp2 s) (seq 0 k) (Numbering t0 n_nodes []) = Ok u /\ NInv k u).
  { induction k as [|k IH]; intros Hk; [exists (Numbering t0 n_nodes []); split; [reflexivity|apply NInv_init]|].
    destruct IH as (u & Eu & Iu); [lia|]. rewrite seq_S, foldM_app, Eu. cbn [bind foldM Nat.add].
    destruct (NInv_step k u Iu) as (u' & Eu' & Iu'); [lia|]. rewrite Eu'. exists u'. split; [reflexivity|auto]. }
  apply G. lia.
Qed.
End Numbering.

Lemma upd_res_some {A} (l : list A) i x : i < length l -> upd_res l i x = Ok (upd l i x).
Proof. intros H. unfold upd_res. apply Nat.ltb_lt in H. now rewrite H. Qed.
Lemma set_bits l : forall b, (forall v, In v l -> v < length b) ->
  exists b', foldM (fun b v => upd_res b v true) l b = Ok b' /\ length b' = length b /\
    forall v, nth_error b' v = if in_dec Nat.eq_dec v l then Some true else nth_error b v.
Proof.
  induction l as [|x l IH]; intros b Hl; [exists b; auto|]. cbn [foldM]. rewrite upd_res_some by (apply Hl; now left). cbn [bind].
  destruct (IH (upd b x true)) as (b' & E & L & H). { intros v Hv. rewrite upd_length. apply Hl. now right. }
  exists b'. split; [auto|]. rewrite upd_length in L. split; [auto|]. intros v. rewrite H.
  destruct (in_dec Nat.eq_dec v l) as [Y|N], (in_dec Nat.eq_dec v (x :: l)) as [Y'|N']; auto; cbn in *.
  - tauto.
  - destruct Y' as [->|]; [|contradiction]. apply nth_error_upd_same. apply Hl. now left.
  - apply nth_error_upd_other. tauto.
Qed.

(* ------------------------------------------------------------------ C67 *)
Theorem C67_dofs cells n_nodes markers :
  simplicial 3 cells -> conforming cells -> (forall i j v, entry cells i j v -> v < n_nodes) -> length markers = n_nodes ->
  exists t size b, enumerate_dofs2 cells n_nodes markers = Ok (t, size, b) /\
    (* one row of six dofs per cell *)
    length t = length cells /\ (forall r, In r t -> length r = 6) /\
    (* vertex dofs are the node ids *)
    (forall i j v, entry cells i j v -> entry t i j (Some v)) /\
    (* edge dofs are numbered n_nodes .. size - 1, without gaps *)
    (forall i j, i < length cells -> j < 3 -> exists v, entry t i (3 + j) (Some v) /\ n_nodes <= v < size) /\
    (forall v, n_nodes <= v < size -> exists i j, j < 3 /\ entry t i (3 + j) (Some v)) /\
    (* two edges have the same dof exactly when they have the same endpoints *)
    (forall i j a b' i' j' a' b'' v v', joins cells i j a b' -> joins cells i' j' a' b'' ->
       entry t i (3 + j) (Some v) -> entry t i' (3 + j') (Some v') -> (v = v' <-> same_ends a b' a' b'')) /\
    (* the boundary dofs are the boundary nodes and the edges of a single cell *)
    n_nodes <= size /\ length b = size /\
    (forall v, v < n_nodes -> nth_error b v = nth_error markers v) /\
    (forall i j a b' v, joins cells i j a b' -> entry t i (3 + j) (Some v) ->
       (nth_error b v = Some true <-> forall i', has_edge cells i' a b' -> i' = i)).
Proof.
  intros Hs Hc Hnodes Hmk. destruct (tri2_inv cells Hs Hc) as (s & Es & HI).
  destruct (numbering_ok cells Hs s HI n_nodes) as (u & Eu & [Un Ush Uv Ue Ub]).
  set (E := length (f_nodes s)) in *.
  assert (Hb0 : forall v, In v (bset u) -> v < length (firstn n_nodes markers ++ repeat false (next u - n_nodes))).
  { intros v Hv. rewrite app_length, firstn_length, repeat_length. apply Ub in Hv as (h & Hh & -> & _). lia. }
  destruct (set_bits (bset u) _ Hb0) as (b & Eb & Lb & Hb).
  exists (table u), (next u), b. unfold enumerate_dofs2. rewrite Es. cbn [bind]. rewrite edge_pattern_val. cbn [bind]. fold E.
  assert (Ev : visit_edges2 (repeat true E) E = Ok (seq 0 E)).
  { assert (V := edges2_iteration (repeat true E)). rewrite repeat_length in V. rewrite V. f_equal.
    assert (G : forall k m, k + m <= E -> filter (fun i => nth i (repeat true E) false) (seq k m) = seq k m).
    { intros k m. revert k. induction m as [|m IH]; intros k Hk; cbn; auto.
      assert (Hn : nth k (repeat true E) false = true). { apply nth_error_nth. rewrite nth_error_repeat by lia. reflexivity. }
      rewrite Hn, IH by lia. reflexivity. }
    apply G. lia. }
  rewrite Ev. cbn [bind]. change [[0; 1]; [0; 2]; [1; 2]] with fp2. rewrite Eu. cbn [bind]. rewrite Eb. cbn [bind]. split; [reflexivity|].
  (* the dof of (i, j) *)
  assert (Hdof : forall i j, i < length cells -> j < 3 -> exists h, h < E /\ nth_error (f_nodes s) h = Some (fkey cells 3 (i, j)) /\ entry (table u) i (3 + j) (Some (n_nodes + h))).
  { intros i j Hi Hj. destruct (edge_of cells Hs s HI i j Hi Hj) as (h & Hh & Hk). exists h. split; [auto|]. split; [auto|].
    assert (G := Ue i j h Hi Hj Hk). apply Nat.ltb_lt in Hh. fold E in Hh. rewrite Hh in G. auto. }
  destruct Ush as [Ush1 Ush2].
  split; [auto|]. split; [auto|]. split; [auto|]. split; [|split; [|split; [|split; [lia|split; [|split]]]]].
  - intros i j Hi Hj. destruct (Hdof i j Hi Hj) as (h & Hh & _ & He). exists (n_nodes + h). split; [auto|]. lia.
  - intros v Hv. destruct (nth_error (f_nodes s) (v - n_nodes)) as [e|] eqn:Ee; [|apply nth_error_None in Ee; unfold E in *; lia].
    assert (Hin : In e (f_nodes s)) by (eapply nth_error_In; eauto). apply (final_nodes cells 3 fp2 Hs eq_refl s HI) in Hin as (i & Hi).
    apply (facet_key cells 3 Hs) in Hi as (Hi & j & Hj & Ek). exists i, j. split; [auto|].
    assert (G := Ue i j (v - n_nodes) Hi Hj ltac:(congruence)). replace (v - n_nodes <? E) with true in G by (symmetry; apply Nat.ltb_lt; lia).
    replace (n_nodes + (v - n_nodes)) with v in G by lia. auto.
  - intros i j a b' i' j' a' b'' v v' J J' He He'. destruct (joins_key cells Hs _ _ _ _ J) as [Hi K]. destruct (joins_key cells Hs _ _ _ _ J') as [Hi' K'].
    destruct (Hdof i j Hi ltac:(apply J)) as (h & Hh & Hk & Hd). destruct (Hdof i' j' Hi' ltac:(apply J')) as (h' & Hh' & Hk' & Hd').
    assert (Ev1 := entry_fun _ _ _ _ _ He Hd). assert (Ev2 := entry_fun _ _ _ _ _ He' Hd'). injection Ev1 as ->. injection Ev2 as ->.
    rewrite <- sort_pair, <- K, <- K'. split.
    + intros Heq. assert (h = h') by lia. subst. congruence.
    + intros Heq. f_equal. eapply nodup_nth; [apply (final_nodup _ _ _ _ HI)|exact Hk|congruence].
  - rewrite Lb, app_length, firstn_length, repeat_length. lia.
  - intros v Hv. rewrite Hb. destruct (in_dec Nat.eq_dec v (bset u)) as [Y|N]; [apply Ub in Y as (h & _ & -> & _); lia|].
    rewrite nth_error_app1 by (rewrite firstn_length; lia). rewrite firstn_all2 by lia. reflexivity.
  - intros i j a b' v J He. destruct (joins_key cells Hs _ _ _ _ J) as [Hi K].
    destruct (Hdof i j Hi ltac:(apply J)) as (h & Hh & Hk & Hd). assert (Ev1 := entry_fun _ _ _ _ _ He Hd). injection Ev1 as ->.
    destruct (final_boundary cells 3 fp2 Hs eq_refl (make3 cells Hs) s HI h _ Hk) as (c & o & Hcl & Hm & Hd' & Hx).
    assert (Hio : i = c \/ o = Some i) by (apply Hx, key_facet; auto; apply J).
    rewrite Hb. destruct (in_dec Nat.eq_dec (n_nodes + h) (bset u)) as [Y|N].
    + split; [|auto]. intros _ i' H'. apply Ub in Y as (h' & _ & Eh & Hm'). assert (h' = h) by lia. subst h'. rewrite Hm in Hm'.
      destruct o as [o|]; [discriminate|]. apply (has_edge_cell cells Hs) in H'. rewrite <- K in H'. apply Hx in H'. destruct H' as [->|], Hio; congruence.
    + split.
      * intros F. exfalso. assert (F' : nth_error (firstn n_nodes markers ++ repeat false (next u - n_nodes)) (n_nodes + h) = Some false).
        { rewrite nth_error_app2 by (rewrite firstn_length; lia). rewrite firstn_length. rewrite nth_error_repeat by lia. reflexivity. }
        congruence.
      * intros F. exfalso. apply N. apply Ub. exists h. split; [auto|]. split; [auto|]. rewrite Hm. destruct o as [o|]; [|reflexivity]. exfalso.
        apply (Hd' o eq_refl). transitivity i.
        -- apply F, has_edge_cell; auto. rewrite <- K. apply Hx. auto.
        -- symmetry. apply F, has_edge_cell; auto. rewrite <- K. apply Hx. auto.
Qed.

(* first order: the dofs are the nodes *)
Theorem C67_first_order cells n_nodes markers : enumerate_dofs1 cells n_nodes markers = (cells, n_nodes, markers).
Proof. reflexivity. Qed.

(* the node 3 + j of the second order reference triangle is the midpoint of its vertices edge_ends j *)
Theorem C67_local_position : forall j, j < 3 -> exists p a b,
  nth_error (ref_nodes 2 2) (3 + j) = Some p /\ nth_error (ref_nodes 2 2) (fst (edge_ends j)) = Some a /\
  nth_error (ref_nodes 2 2) (snd (edge_ends j)) = Some b /\
  forall r, r < 2 -> (nth r p 0 == (nth r a 0 + nth r b 0) / 2)%Q.
Proof.
  intros j Hj. destruct j as [|[|[|j]]]; try lia; cbn [ref_nodes]; do 3 eexists; (split; [reflexivity|]; split; [reflexivity|]; split; [reflexivity|]).
  all: intros r Hr; destruct r as [|[|r]]; try lia; vm_compute; reflexivity.
Qed.

Example C67_example : exists t size b, enumerate_dofs2 mesh2 6 [true; true; true; true; false; true] = Ok (t, size, b) /\
  size = 16 /\ nth_error t 0 = Some [Some 0; Some 1; Some 4; Some 6; Some 7; Some 8] /\
  (forall i j v, entry mesh2 i j v -> v < 6).
Proof.
  eexists. eexists. eexists. split; [vm_compute; reflexivity|]. split; [reflexivity|]. split; [reflexivity|].
  intros i j v (c & Ec & Ev). apply nth_error_In in Ec. apply nth_error_In in Ev. cbn in Ec.
  repeat (destruct Ec as [<-|Ec]; [cbn in Ev; lia|]). destruct Ec.
Qed.

(* ------------------------------------------------------------------ C113 *)
Section Coords.
Variables (cells : list (list nat)) (nodes : list vec) (t : list (list (option nat))) (size : nat).
Hypothesis Hs : simplicial 3 cells.
Hypothesis Hv : forall i j v, entry cells i j v -> v < length nodes.
Hypothesis Ht : forall i j, i < length cells -> j < 3 -> exists v, entry t i (3 + j) (Some v) /\ length nodes <= v < size.
Definition mid (i j : nat) (p : vec) : Prop := forall a b pa pb, joins cells i j a b ->
  nth_error nodes a = Some pa -> nth_error nodes b = Some pb -> forall r, p r = ((pa r + pb r) / 2)%R.
Let c0 := map (@Some vec) nodes ++ repeat None (size - length nodes).
Definition CInv (done : list (nat * nat)) (u : list (option vec) * list nat) : Prop :=
  length (fst u) = length c0 /\
  (forall v, ~ In v (snd u) -> nth_error (fst u) v = nth_error c0 v) /\
  (forall v, In v (snd u) -> length nodes <= v /\ exists i j p, j < 3 /\ entry t i (3 + j) (Some v) /\ i < length cells /\ nth_error (fst u) v = Some (Some p) /\ mid i j p) /\
  (forall i j v, In (i, 3 + j) done -> entry t i (3 + j) (Some v) -> In v (snd u)).
Lemma coords_step_ok done u i j : CInv done u -> i < length cells -> j < 3 ->
  exists u', coords_step nodes cells t u (i, 3 + j) = Ok u' /\ CInv (done ++ [(i, 3 + j)]) u'.
Proof.
  intros (L & N & V & D) Hi Hj. destruct u as [coords visited]. cbn [fst snd] in *.
  destruct (Ht i j Hi Hj) as (d & Hd & Hr). unfold coords_step.
  destruct Hd as (row & Er & Ed). unfold get2 at 1. apply nth_res_ok in Er as Er'. apply nth_res_ok in Ed as Ed'. rewrite Er'. cbn [bind]. rewrite Ed'. cbn [bind].
  assert (Hd : entry t i (3 + j) (Some d)) by (exists row; auto).
  assert (Hdone : forall i' j' v, In (i', 3 + j') (done ++ [(i, 3 + j)]) -> entry t i' (3 + j') (Some v) -> In (i', 3 + j') done \/ v = d).
  { intros i' j' v Hin He. apply in_app_or in Hin as [Hin|[Heq|[]]]; [auto|]. assert (i' = i) by congruence. assert (j' = j) by (injection Heq; lia). subst.
    right. assert (G := entry_fun _ _ _ _ _ He Hd). congruence. }
  destruct (existsb (Nat.eqb d) visited) eqn:Ex.
  - apply existsb_exists in Ex as (d' & Hin & Eq). apply Nat.eqb_eq in Eq. subst d'.
    exists (coords, visited). split; [reflexivity|]. split; [auto|]. split; [auto|]. split; [auto|]. cbn [fst snd].
    intros i' j' v H1 H2. destruct (Hdone _ _ _ H1 H2) as [H3| ->]; eauto.
  - assert (Hn : ~ In d visited). { intros Hin. apply not_true_iff_false in Ex. apply Ex. apply existsb_exists. exists d. split; [auto|apply Nat.eqb_refl]. }
    destruct (nth_error cells i) as [c|] eqn:Ec; [|apply nth_error_None in Ec; lia].
    assert (Hl : length c = 3) by (apply Hs; eapply nth_error_In; eauto).
    destruct c as [|x0 [|x1 [|x2 [|]]]]; try discriminate.
    assert (Hx : forall k x, nth_error [x0; x1; x2] k = Some x -> get2 cells i k = Ok x /\ exists v, nth_error nodes x = Some v).
    { intros k x Ek. split. { unfold get2. apply nth_res_ok in Ec as ->. cbn [bind]. now apply nth_res_ok. }
      assert (H : x < length nodes). { apply (Hv i k). exists [x0; x1; x2]. auto. }
      destruct (nth_error nodes x) eqn:En; [eauto|]. apply nth_error_None in En. lia. }
    destruct (Hx 0 x0 eq_refl) as (G0 & v0 & N0). destruct (Hx 1 x1 eq_refl) as (G1 & v1 & N1). destruct (Hx 2 x2 eq_refl) as (G2 & v2 & N2).
    rewrite G0, G1, G2. cbn [bind]. apply nth_res_ok in N0 as R0. apply nth_res_ok in N1 as R1. apply nth_res_ok in N2 as R2. rewrite R0, R1, R2. cbn [bind].
    assert (Hlc : length c0 = size). { unfold c0. rewrite app_length, map_length, repeat_length. lia. }
    rewrite upd_res_some by lia. cbn [bind]. eexists. split; [reflexivity|]. unfold CInv. cbn [fst snd].
    split; [now rewrite upd_length|]. split; [|split].
    + intros v Hnv. rewrite nth_error_upd_other by (intros ->; apply Hnv; now left). apply N. intros Hin. apply Hnv. now right.
    + intros v [<-|Hin].
      * split; [lia|]. exists i, j, (map_point v0 v1 v2 (ref_tail (3 + j))). split; [auto|]. split; [auto|]. split; [auto|]. split; [apply nth_error_upd_same; lia|].
        intros a b pa pb (_ & (ca & Eca & Ea) & (cb & Ecb & Eb)) Hpa Hpb r. rewrite Ec in Eca, Ecb. injection Eca as <-. injection Ecb as <-.
        unfold map_point. destruct j as [|[|[|j]]]; try lia; cbn in Ea, Eb; injection Ea as <-; injection Eb as <-; cbn;
          repeat match goal with A : nth_error nodes ?x = Some _, B : nth_error nodes ?x = Some _ |- _ => rewrite A in B; injection B as <- end; lra.
      * destruct (V v Hin) as (Hge & i' & j' & p & A & B & B' & C & M). split; [auto|]. exists i', j', p. split; [auto|]. split; [auto|]. split; [auto|]. split; [|auto].
        rewrite nth_error_upd_other; [auto|]. intros ->. contradiction.
    + intros i' j' v H1 H2. destruct (Hdone _ _ _ H1 H2) as [H3| ->]; [right; eauto|now left].
Qed.
Lemma coords_loop l : forall done u, CInv done u -> (forall i k, In (i, k) l -> i < length cells /\ exists j, j < 3 /\ k = 3 + j) ->
  exists u', foldM (coords_step nodes cells t) l u = Ok u' /\ CInv (done ++ l) u'.
Proof.
  induction l as [|[i k] l IH]; intros done u HC Hl; [exists u; rewrite app_nil_r; split; [reflexivity|auto]|].
  destruct (Hl i k) as (Hi & j & Hj & ->); [now left|]. cbn [foldM].
  destruct (coords_step_ok done u i j HC Hi Hj) as (u1 & E1 & C1). rewrite E1. cbn [bind].
  destruct (IH (done ++ [(i, 3 + j)]) u1 C1) as (u2 & E2 & C2); [intros; apply Hl; now right|]. exists u2. split; [auto|]. now rewrite <- app_assoc in C2.
Qed.
End Coords.

Theorem C113_dofs_coords cells nodes markers :
  simplicial 3 cells -> conforming cells -> (forall i j v, entry cells i j v -> v < length nodes) -> length markers = length nodes ->
  exists t size b coords, enumerate_dofs2 cells (length nodes) markers = Ok (t, size, b) /\
    dofs_coords2 nodes cells t size = Ok coords /\ length coords = size /\
    (* every dof gets a position *)
    (forall v, v < size -> exists p, nth_error coords v = Some (Some p)) /\
    (* a vertex dof is at the vertex *)
    (forall v p, nth_error nodes v = Some p -> nth_error coords v = Some (Some p)) /\
    (* an edge dof is at the midpoint of its edge *)
    (forall i j a b' pa pb v, joins cells i j a b' -> entry t i (3 + j) (Some v) ->
       nth_error nodes a = Some pa -> nth_error nodes b' = Some pb ->
       exists p, nth_error coords v = Some (Some p) /\ forall r, p r = ((pa r + pb r) / 2)%R).
Proof.
  intros Hs Hc Hn Hm. destruct (C67_dofs cells (length nodes) markers Hs Hc Hn Hm) as (t & size & b & E & Lt & Lr & Tv & Te & Ts & Tj & Hsz & Lb & _).
  pose (l := flat_map (fun e => map (fun j => (e, j)) (seq 3 3)) (seq 0 (length cells))).
  assert (Hl : forall i k, In (i, k) l <-> i < length cells /\ exists j, j < 3 /\ k = 3 + j).
  { intros i k. unfold l. rewrite in_flat_map. split.
    - intros (e & He & Hk). apply in_seq in He. apply in_map_iff in Hk as (j & Heq & Hj). injection Heq as -> ->. apply in_seq in Hj. split; [lia|]. exists (k - 3). lia.
    - intros (Hi & j & Hj & ->). exists i. split; [apply in_seq; lia|]. apply in_map_iff. exists (3 + j). split; [auto|apply in_seq; lia]. }
  destruct (coords_loop cells nodes t size Hs Hn Te l [] (map Some nodes ++ repeat None (size - length nodes), [])) as (u & Eu & L & N & V & D).
  { split; [reflexivity|]. split; [reflexivity|]. split; [intros v []|intros i j v []]. }
  { intros i k. apply Hl. }
  cbn [fst snd app] in *.
  assert (Hedge : forall i j a b' pa pb v, joins cells i j a b' -> entry t i (3 + j) (Some v) ->
       nth_error nodes a = Some pa -> nth_error nodes b' = Some pb ->
       exists p, nth_error (fst u) v = Some (Some p) /\ forall r, p r = ((pa r + pb r) / 2)%R).
  { intros i j a b' pa pb v J He Ha Hb. destruct (V v) as (_ & i' & j' & p & Hj' & He' & Hi' & Hp & M).
    { apply (D i j); [|auto]. apply Hl. destruct (joins_key cells Hs _ _ _ _ J) as [Hi _]. split; [auto|]. exists j. split; [apply J|auto]. }
    exists p. split; [auto|]. intros r. destruct (joins_ex cells Hs i' j' Hi' Hj') as (a' & b'' & J').
    destruct (proj1 (Tj _ _ _ _ _ _ _ _ _ _ J J' He He') eq_refl) as [[<- <-]|[<- <-]].
    - apply (M _ _ _ _ J' Ha Hb).
    - rewrite (M _ _ _ _ J' Hb Ha). lra. }
  exists t, size, b, (fst u). split; [auto|]. unfold dofs_coords2. fold l. rewrite Eu. cbn [bind]. split; [reflexivity|].
  assert (Hlen : length (fst u) = size). { rewrite L, app_length, map_length, repeat_length. lia. }
  assert (Hvert : forall v p, nth_error nodes v = Some p -> nth_error (fst u) v = Some (Some p)).
  { intros v p Hv. assert (v < length nodes) by (apply nth_error_Some; congruence). rewrite N.
    - rewrite nth_error_app1 by (rewrite map_length; lia). now rewrite nth_error_map, Hv.
    - intros Hin. apply V in Hin as [Hge _]. lia. }
  split; [auto|]. split; [|split; auto].
  intros v Hv. destruct (Nat.lt_ge_cases v (length nodes)) as [Hlt|Hge].
  - destruct (nth_error nodes v) as [p|] eqn:En; [|apply nth_error_None in En; lia]. eauto.
  - destruct (Ts v) as (i & j & Hj & He); [lia|].
    assert (Hi : i < length cells). { rewrite <- Lt. destruct He as (r & Er & _). apply nth_error_Some. congruence. }
    destruct (V v) as (_ & _ & _ & p & _ & _ & _ & Hp & _); [|eauto]. apply (D i j); [apply Hl; eauto|auto].
Qed.
(* two triangles of a square: the common edge joins nodes 1 and 2 *)
Definition square_nodes : list vec :=
  map (fun p : R * R => fun r => match r with 0 => fst p | _ => snd p end) [(0, 0); (1, 0); (0, 1); (1, 1)]%R.
Definition square_cells : list (list nat) := [[0; 1; 2]; [2; 3; 1]].
Example C113_example : simplicial 3 square_cells /\ conforming square_cells /\
  (forall i j v, entry square_cells i j v -> v < length square_nodes) /\
  joins square_cells 0 2 1 2 /\ joins square_cells 1 1 2 1.
Proof.
  assert (S : simplicial 3 square_cells) by simplicial_tac. split; [exact S|]. split; [|split; [|split]].
  - apply (conforming_b_ok 3 _ S). vm_compute. reflexivity.
  - intros i j v (c & Ec & Ev). apply nth_error_In in Ec. apply nth_error_In in Ev. cbn in Ec.
    repeat (destruct Ec as [<-|Ec]; [cbn in Ev |- *; lia|]). destruct Ec.
  - split; [lia|]. split; eexists; split; reflexivity.
  - split; [lia|]. split; eexists; split; reflexivity.
Qed.
Print Assumptions C67_dofs.
Print Assumptions C67_local_position.
Print Assumptions C113_dofs_coords.
