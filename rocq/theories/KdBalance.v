(* C164: how deep the tree built by KDTree (kd_tree.h:43-76) is. *)
From Coq Require Import Permutation Lia List Arith.
From Verif Require Import Base TreeModel KdModel KdSpec KdProofs KdProps TreeSpec TreeProofs.
Import ListNotations.
Open Scope nat_scope.

(* no two of the n points have the same coordinate number d *)
Definition distinct_coordinates (n : nat) (data : nat -> point) (d : nat) : Prop :=
  forall i j, i < n -> j < n -> (data i d == data j d)%Q -> i = j.

(* ---- a tree whose unfinished branches are the sets still on the stack ------------------------- *)
Inductive ctree := CLeaf | CHole (ks : list nat) | CNode (a : addr) (x : nat) (l r : ctree).
Fixpoint erase_ (c : ctree) : mtree nat :=
  match c with CLeaf | CHole _ => MLeaf | CNode a x l r => MNode a x (erase_ l) (erase_ r) end.
Fixpoint holes (c : ctree) : list (list nat) :=
  match c with CLeaf => [] | CHole ks => [ks] | CNode _ _ l r => holes r ++ holes l end.
Fixpoint keys (c : ctree) : list nat :=
  match c with CLeaf => [] | CHole ks => ks | CNode _ x l r => x :: keys l ++ keys r end.
Fixpoint fill (a : addr) (x : nat) (c1 c2 : ctree) (c : ctree) : ctree :=
  match c with
  | CLeaf => CLeaf
  | CHole _ => CNode a x c1 c2
  | CNode b y l r => match holes r with [] => CNode b y (fill a x c1 c2 l) r | _ => CNode b y l (fill a x c1 c2 r) end
  end.
Fixpoint balanced (c : ctree) : Prop :=
  match c with
  | CLeaf | CHole _ => True
  | CNode _ _ l r => length (keys r) <= length (keys l) <= S (length (keys r)) /\ balanced l /\ balanced r
  end.
Definition mk (ks : list nat) : ctree := match ks with [] => CLeaf | _ => CHole ks end.

Lemma full_height : forall c, holes c = [] -> balanced c -> msize (erase_ c) = length (keys c) /\
  (erase_ c = MLeaf \/ 2 ^ (height (erase_ c) - 1) <= msize (erase_ c)).
Proof.
  induction c as [|ks|a x l IHl r IHr]; cbn; intros Hh Hb; [auto|discriminate|].
  apply app_eq_nil in Hh. destruct Hh as [Hr Hl]. destruct Hb as (A & B & C).
  destruct (IHl Hl B) as [L1 L2]. destruct (IHr Hr C) as [R1 R2]. rewrite app_length. split; [lia|right].
  rewrite Nat.sub_0_r, L1, R1.
  assert (HL: 2 ^ height (erase_ l) <= S (length (keys l) + length (keys r))).
  { destruct L2 as [->|L2]; [cbn; lia|]. rewrite L1 in L2. destruct (height (erase_ l)) as [|k] eqn:E; [cbn; lia|].
    cbn [Nat.sub] in L2. rewrite Nat.sub_0_r in L2. rewrite Nat.pow_succ_r'. lia. }
  assert (HR: 2 ^ height (erase_ r) <= S (length (keys l) + length (keys r))).
  { destruct R2 as [->|L2']; [cbn; lia|]. rewrite R1 in L2'. destruct (height (erase_ r)) as [|k] eqn:E; [cbn; lia|].
    cbn [Nat.sub] in L2'. rewrite Nat.sub_0_r in L2'. rewrite Nat.pow_succ_r'. lia. }
  destruct (Nat.max_dec (height (erase_ l)) (height (erase_ r))) as [->| ->]; assumption.
Qed.

Lemma full_preorder : forall c, holes c = [] -> preorder (erase_ c) = keys c.
Proof.
  induction c as [|ks|a x l IHl r IHr]; cbn; intros Hh; [auto|discriminate|].
  apply app_eq_nil in Hh. destruct Hh. now rewrite IHl, IHr.
Qed.
Section Balance.
Variable data : nat -> point.
Let less := kd_less 1 data.
Definition below (i j : nat) : Prop := (data i 0%nat < data j 0%nat)%Q.
Fixpoint sorted_c (c : ctree) : Prop :=
  match c with
  | CLeaf | CHole _ => True
  | CNode _ x l r => Forall (fun y => below y x) (keys l) /\ Forall (fun y => below x y) (keys r) /\
      sorted_c l /\ sorted_c r
  end.

Lemma mk_keys ks : keys (mk ks) = ks. Proof. destruct ks; reflexivity. Qed.
Lemma mk_erase ks : erase_ (mk ks) = MLeaf. Proof. destruct ks; reflexivity. Qed.
Lemma mk_sorted ks : sorted_c (mk ks). Proof. destruct ks; exact I. Qed.
Lemma mk_balanced ks : balanced (mk ks). Proof. destruct ks; exact I. Qed.
Lemma hole_keys : forall c ks k, In ks (holes c) -> In k ks -> In k (keys c).
Proof.
  induction c as [|ks'|a x l IHl r IHr]; cbn; intros ks k H1 H2; [contradiction|destruct H1 as [<-|[]]; auto|].
  right. apply in_app_iff in H1. apply in_app_iff. destruct H1; [right; eapply IHr|left; eapply IHl]; eauto.
Qed.
Lemma fill_keys : forall a x l r c ks rest, holes c = ks :: rest -> Permutation ks (x :: l ++ r) ->
  Permutation (keys (fill a x (mk l) (mk r) c)) (keys c).
Proof.
  intros a x l r; induction c as [|ks'|b y cl IHl cr IHr]; intros ks rest Hh Hp; cbn in Hh; [discriminate| |].
  - injection Hh as -> <-. cbn. rewrite !mk_keys. now symmetry.
  - cbn. destruct (holes cr) as [|k0 hs] eqn:Er; cbn.
    + cbn in Hh. constructor. apply Permutation_app_tail. eauto.
    + cbn in Hh. injection Hh as -> _. constructor. apply Permutation_app_head. eauto.
Qed.
Lemma fill_holes : forall a x l r c ks rest, holes c = ks :: rest ->
  holes (fill a x (mk l) (mk r) c) = holes (mk r) ++ holes (mk l) ++ rest.
Proof.
  intros a x l r; induction c as [|ks'|b y cl IHl cr IHr]; intros ks rest Hh; cbn in Hh; [discriminate| |].
  - injection Hh as -> <-. cbn. now rewrite app_nil_r.
  - cbn. destruct (holes cr) as [|k0 hs] eqn:Er; cbn [holes].
    + rewrite Er. cbn in *. eauto.
    + cbn in Hh. injection Hh as -> <-. rewrite (IHr _ _ eq_refl). now rewrite <- !app_assoc.
Qed.
Lemma fill_sorted : forall a x l r c ks rest, holes c = ks :: rest -> Permutation ks (x :: l ++ r) ->
  Forall (fun y => below y x) l -> Forall (fun y => below x y) r ->
  sorted_c c -> sorted_c (fill a x (mk l) (mk r) c).
Proof.
  intros a x l r; induction c as [|ks'|b y cl IHl cr IHr]; intros ks rest Hh Hp Hl Hr Hs; cbn in Hh; [discriminate| |].
  - injection Hh as -> <-. cbn. rewrite !mk_keys. repeat split; auto using mk_sorted.
  - cbn in Hs. destruct Hs as (A & B & C & D). cbn. destruct (holes cr) as [|k0 hs] eqn:Er.
    + cbn in Hh. cbn. repeat split; eauto. eapply Permutation_Forall; [symmetry; eapply fill_keys; eauto|auto].
    + cbn in Hh. injection Hh as -> _. cbn. repeat split; eauto. eapply Permutation_Forall; [symmetry; eapply fill_keys; eauto|auto].
Qed.
Lemma fill_balanced : forall a x l r c ks rest, holes c = ks :: rest -> Permutation ks (x :: l ++ r) ->
  length r <= length l <= S (length r) -> balanced c -> balanced (fill a x (mk l) (mk r) c).
Proof.
  intros a x l r; induction c as [|ks'|b y cl IHl cr IHr]; intros ks rest Hh Hp Hb Hs; cbn in Hh; [discriminate| |].
  - cbn. rewrite !mk_keys. repeat split; auto using mk_balanced; lia.
  - cbn in Hs. destruct Hs as (A & C & D). cbn. destruct (holes cr) as [|k0 hs] eqn:Er.
    + cbn in Hh. cbn. rewrite (Permutation_length (fill_keys a x l r cl _ _ Hh Hp)). repeat split; eauto; lia.
    + cbn in Hh. injection Hh as -> _. cbn. rewrite (Permutation_length (fill_keys a x l r cr _ _ Er Hp)). repeat split; eauto; lia.
Qed.
Lemma fill_insert : forall a x c1 c2 c ks rest d, holes c = ks :: rest -> In x ks -> sorted_c c ->
  erase_ c1 = MLeaf -> erase_ c2 = MLeaf -> erase_ (fill a x c1 c2 c) = minsert less d a x (erase_ c).
Proof.
  intros a x c1 c2; induction c as [|ks'|b y cl IHl cr IHr]; intros ks rest d Hh Hx Hs E1 E2; cbn in Hh; [discriminate| |].
  - cbn. now rewrite E1, E2.
  - cbn in Hs. destruct Hs as (A & B & C & D). cbn [fill erase_ minsert]. destruct (holes cr) as [|k0 hs] eqn:Er.
    + cbn in Hh. assert (L: less x d y = true).
      { unfold less, kd_less. rewrite Nat.mod_1_r. apply qlt_iff. rewrite Forall_forall in A. apply A. eapply hole_keys; [|exact Hx]. rewrite Hh. now left. }
      rewrite L. cbn [erase_]. f_equal. eapply IHl; eauto.
    + cbn in Hh. injection Hh as -> _. assert (L: less x d y = false).
      { unfold less, kd_less. rewrite Nat.mod_1_r. apply qlt_false. rewrite Forall_forall in B. apply Qlt_le_weak, B. eapply hole_keys; [|exact Hx]. rewrite Er. now left. }
      rewrite L. cbn [erase_]. f_equal. eapply IHr; eauto.
Qed.
Lemma slices_holes : forall ids stack hs, Forall2 (fun h ps => h = slice ids (psb ps) (pse ps)) hs stack ->
  concat hs = slices ids stack.
Proof. intros ids stack hs H. induction H; cbn; [reflexivity|]. unfold slices in *. cbn. now rewrite <- IHForall2, H. Qed.
Lemma forall2_prefix : forall stack ids ids' hi hs, stack_ok hi stack -> firstn hi ids' = firstn hi ids ->
  Forall2 (fun h ps => h = slice ids (psb ps) (pse ps)) hs stack -> Forall2 (fun h ps => h = slice ids' (psb ps) (pse ps)) hs stack.
Proof.
  induction stack as [|ps st IH]; intros ids ids' hi hs Hst Hf H; inversion H; subst; constructor.
  - cbn in Hst. destruct Hst as (A & B & C). rewrite <- (slice_prefix ids (psb ps) (pse ps) hi), <- (slice_prefix ids' (psb ps) (pse ps) hi) by lia.
    now rewrite Hf.
  - cbn in Hst. destruct Hst as (A & B & C). eapply (IH ids ids' (psb ps)); eauto.
    assert (E: firstn (psb ps) (firstn hi ids') = firstn (psb ps) (firstn hi ids)) by now rewrite Hf.
    rewrite !firstn_firstn in E. now rewrite !Nat.min_l in E by lia.
Qed.
Lemma mk_holes ids b e sd : Forall2 (fun h ps => h = slice ids (psb ps) (pse ps)) (holes (mk (slice ids b e)))
  (if 0 <? length (slice ids b e) then [PSet b e sd] else []).
Proof. destruct (slice ids b e) eqn:E; cbn; [constructor|]. constructor; [cbn; now rewrite ?E|constructor]. Qed.
Lemma slice_len ids b e : e <= length ids -> length (slice ids b e) = e - b.
Proof. intros H. unfold slice. rewrite firstn_length, skipn_length. lia. Qed.
Lemma slice_in ids b e y : In y (slice ids b e) -> exists i, b <= i < e /\ nth_error ids i = Some y.
Proof.
  intros H. apply In_nth_error in H. destruct H as [k Hk]. unfold slice in Hk.
  assert (k < e - b). { assert (k < length (firstn (e - b) (skipn b ids))) by (apply nth_error_Some; congruence). rewrite firstn_length in H. lia. }
  exists (b + k). split; [lia|]. rewrite nth_error_firstn, (proj2 (Nat.ltb_lt _ _) H), nth_error_skipn' in Hk. assumption.
Qed.

Lemma build_balanced : forall ne, rearranges ne -> partitions data ne -> forall n, distinct_coordinates n data 0 ->
  forall fuel h o c ids dim stack,
  sane h -> owns h o (erase_ c) -> parents_ok h None (erase_ c) -> sorted_c c -> balanced c ->
  length ids = n -> Permutation ids (seq 0 n) -> stack_ok n stack -> Permutation (keys c) (seq 0 n) ->
  Forall2 (fun hh ps => hh = slice ids (psb ps) (pse ps)) (holes c) stack ->
  (forall ps, In ps stack -> psdim ps = 0) -> msize (erase_ c) + stack_size stack = n ->
  forall h' o', build_loop 1 data ne fuel h o ids dim stack = Ok (h', o') ->
  exists c', owns h' o' (erase_ c') /\ holes c' = [] /\ balanced c' /\ Permutation (keys c') (seq 0 n).
Proof.
  intros ne Hne Hpa n Hdis; induction fuel as [|fuel IH]; intros h o c ids dim stack Hs Ho Hp Hsort Hbal Hlen Hids Hst Hkeys Hh Hdim Hsz h' o' E.
  - destruct stack as [|ps stack]; cbn in E; [|discriminate]. injection E as <- <-. inversion Hh. exists c.
    split; [assumption|]. split; [auto|]. split; assumption.
  - destruct stack as [|ps stack]; cbn [build_loop] in E.
    { injection E as <- <-. inversion Hh. exists c.
      split; [assumption|]. split; [auto|]. split; assumption. }
    destruct Hst as (A & B & C). cbn [stack_size] in Hsz.
    set (m := psb ps + (pse ps - psb ps) / 2) in *.
    assert (Hm2: 2 * ((pse ps - psb ps) / 2) <= pse ps - psb ps < 2 * ((pse ps - psb ps) / 2) + 2).
    { pose proof (Nat.div_mod (pse ps - psb ps) 2 ltac:(lia)). pose proof (Nat.mod_upper_bound (pse ps - psb ps) 2 ltac:(lia)). lia. }
    assert (Hm: psb ps <= m < pse ps) by (unfold m; lia).
    destruct (Hne (psb ps) m (pse ps) (psdim ps) ids Hm ltac:(lia)) as (P & F & G).
    pose proof (rearranges_slice ne Hne (psb ps) m (pse ps) (psdim ps) ids Hm ltac:(lia)) as PS.
    pose proof (fun x => Hpa (psb ps) m (pse ps) (psdim ps) ids x Hm ltac:(lia)) as PA.
    rewrite (Hdim ps (or_introl eq_refl)) in *.
    set (ids' := ne (psb ps) m (pse ps) 0 ids) in *.
    assert (L': length ids' = n) by (rewrite (Permutation_length P); auto).
    destruct (nth_error ids' m) as [x|] eqn:Ex; [|apply nth_error_None in Ex; lia].
    unfold nth_res in E at 1. rewrite Ex in E. cbn [bind] in E.
    destruct (push_ok (kd_less 1 data) h (length ids) o (erase_ c) x Hs Ho Hp ltac:(lia)) as (h1 & o1 & P1 & O1 & PA1 & S1 & N1 & _).
    rewrite P1 in E. cbn [bind fst snd] in E.
    inversion Hh as [|ks ps' rest st' Hk Hrest E1 E2]; subst ps' st'. symmetry in E1.
    set (lk := slice ids' (psb ps) m). set (rk := slice ids' (m + 1) (pse ps)).
    assert (Hperm: Permutation ks (x :: lk ++ rk)).
    { rewrite Hk, <- PS. rewrite (slice_split ids' (psb ps) m (pse ps)), (slice_split ids' m (m + 1) (pse ps)) by lia.
      replace (slice ids' m (m + 1)) with [x] by (symmetry; replace (m + 1) with (S m) by lia; now apply slice_single).
      cbn. symmetry. apply Permutation_middle. }
    assert (Ids': Permutation ids' (seq 0 n)) by (now rewrite P).
    assert (ND: NoDup ids') by (apply (Permutation_NoDup (Permutation_sym Ids')), seq_NoDup).
    assert (Bn: forall i y, nth_error ids' i = Some y -> y < n).
    { intros i y Hy. apply nth_error_In in Hy. apply (Permutation_in _ Ids') in Hy. apply in_seq in Hy. lia. }
    assert (Strict: forall i y, nth_error ids' i = Some y -> i <> m -> ~ (data y 0%nat == data x 0%nat)%Q).
    { intros i y Hy Hi Heq. apply Hi. assert (y = x) by (apply Hdis; eauto). subst y.
      apply (proj1 (NoDup_nth_error ids') ND); [apply nth_error_Some; congruence|congruence]. }
    destruct (PA x eq_refl) as [PL PR].
    assert (Hl: Forall (fun y => below y x) lk).
    { apply Forall_forall. intros y Hy. apply slice_in in Hy. destruct Hy as (i & Hi & Hy).
      specialize (PL i y ltac:(lia) Hy). apply Qle_lteq in PL. destruct PL as [PL|PL]; [exact PL|]. exfalso. apply (Strict i y Hy); [lia|exact PL]. }
    assert (Hr: Forall (fun y => below x y) rk).
    { apply Forall_forall. intros y Hy. apply slice_in in Hy. destruct Hy as (i & Hi & Hy).
      specialize (PR i y ltac:(lia) Hy). apply Qle_lteq in PR. destruct PR as [PR|PR]; [exact PR|]. exfalso. apply (Strict i y Hy); [lia|]. symmetry. exact PR. }
    assert (Ll: length lk = m - psb ps) by (apply slice_len; lia).
    assert (Lr: length rk = pse ps - (m + 1)) by (apply slice_len; lia).
    set (c' := fill (next h) x (mk lk) (mk rk) c).
    assert (Ec: erase_ c' = minsert (kd_less 1 data) 0 (next h) x (erase_ c)).
    { apply (fill_insert (next h) x (mk lk) (mk rk) c ks rest 0); auto using mk_erase.
      apply (Permutation_in _ (Permutation_sym Hperm)). now left. }
    set (sd := (dim + 1) mod 1) in *. assert (Esd: sd = 0) by apply Nat.mod_1_r.
    set (st1 := if 0 <? m - psb ps then PSet (psb ps) m sd :: stack else stack) in *.
    set (st2 := if 0 <? pse ps - (m + 1) then PSet (m + 1) (pse ps) sd :: st1 else st1) in *.
    assert (K1: stack_ok m st1 /\ stack_size st1 = (m - psb ps) + stack_size stack).
    { unfold st1. destruct (0 <? m - psb ps) eqn:E0; [apply Nat.ltb_lt in E0|apply Nat.ltb_ge in E0].
      - split; [cbn; repeat split; auto; lia|reflexivity].
      - split; [apply (stack_ok_mono stack (psb ps)); auto; lia|lia]. }
    assert (K2: stack_ok n st2 /\ stack_size st2 = (pse ps - (m + 1)) + stack_size st1).
    { destruct K1 as [K1 _]. unfold st2. destruct (0 <? pse ps - (m + 1)) eqn:E0; [apply Nat.ltb_lt in E0|apply Nat.ltb_ge in E0].
      - split; [|reflexivity]. cbn [stack_ok psb pse]. repeat split; try lia. apply (stack_ok_mono st1 m); auto; lia.
      - split; [apply (stack_ok_mono st1 m); auto; lia|lia]. }
    destruct K1 as [_ K1]. destruct K2 as [K2 K3].
    apply (IH h1 o1 c' ids' sd st2) in E; auto.
    + now rewrite Ec.
    + now rewrite Ec.
    + apply (fill_sorted (next h) x lk rk c ks rest); auto.
    + apply (fill_balanced (next h) x lk rk c ks rest); auto. lia.
    + unfold c'. rewrite (fill_keys (next h) x lk rk c ks rest E1 Hperm). assumption.
    + unfold c'. rewrite (fill_holes (next h) x lk rk c ks rest E1). unfold st2, st1. rewrite <- Ll, <- Lr.
      pose proof (mk_holes ids' (psb ps) m sd) as M1. pose proof (mk_holes ids' (m + 1) (pse ps) sd) as M2. fold lk in M1. fold rk in M2.
      pose proof (forall2_prefix stack ids ids' (psb ps) rest C F Hrest) as M3.
      pose proof (Forall2_app M2 (Forall2_app M1 M3)) as M.
      destruct (0 <? length rk); destruct (0 <? length lk); exact M.
    + intros q Hq. unfold st2, st1 in Hq. rewrite Esd in Hq.
      destruct (0 <? pse ps - (m + 1)); destruct (0 <? m - psb ps); cbn in Hq;
        repeat (destruct Hq as [<-|Hq]; [reflexivity|]); apply Hdim; now right.
    + rewrite Ec, minsert_size. lia.
Qed.
End Balance.

(* ---- C164 --------------------------------------------------------------------------------------- *)
(* with one coordinate, and no two points equal, the tree has the least possible depth: the longest
   path from the root has at most 1 + log2 n nodes *)
Theorem C164_balanced_partial : forall data ne n h, rearranges ne -> partitions data ne -> 0 < n -> sane h ->
  distinct_coordinates n data 0 ->
  exists h' o t, kd_build 1 data ne n h = Ok (h', o) /\ owns h' o t /\ Permutation (preorder t) (seq 0 n) /\
    height t <= S (Nat.log2 n).
Proof.
  intros data ne n h Hne Hpa Hn Hs Hd.
  destruct (kd_build_ok 1 data ne n h Hne Hn Hs) as (h' & o & t & A & _ & B & _ & _ & F).
  pose proof A as A'. unfold kd_build in A.
  destruct (build_balanced data ne Hne Hpa n Hd (S n) h empty_tree (CHole (seq 0 n)) (seq 0 n) 0 [PSet 0 n 0]) with (h' := h') (o' := o)
    as (c & C1 & C2 & C3 & C4); auto.
  - repeat split; cbn; auto; constructor.
  - cbn. auto.
  - cbn. auto.
  - cbn. auto.
  - apply seq_length.
  - cbn. lia.
  - cbn. constructor; [|constructor]. cbn [psb pse]. transitivity (slice (seq 0 n) 0 (length (seq 0 n))); [symmetry; apply slice_whole|now rewrite seq_length].
  - intros ps [<-|[]]. reflexivity.
  - cbn. lia.
  - exists h', o, (erase_ c). split; [assumption|]. split; [assumption|].
    split; [now rewrite full_preorder|]. apply Permutation_length in C4. rewrite seq_length in C4.
    destruct (full_height c C2 C3) as [S1 [S2|S2]].
    + rewrite S2. cbn. lia.
    + rewrite S1, C4 in S2. apply Nat.log2_le_mono in S2. rewrite Nat.log2_pow2 in S2 by lia. lia.
Qed.
Print Assumptions C164_balanced_partial.

(* in general the depth is not logarithmic.  Points that agree in every coordinate all go to the right
   of one another: whatever std::nth_element does, the tree is a list *)
Lemma flat_chain : forall K data, (forall i j d, (data i d == data j d)%Q) -> forall t d, kd_ordered K data d t ->
  height t = msize t.
Proof.
  intros K data Heq. induction t as [|a x l IHl r IHr]; intros d H; cbn; [auto|]. cbn in H. destruct H as (A & _ & C & D).
  assert (E: l = MLeaf).
  { destruct l as [|b y l1 l2]; [reflexivity|]. cbn in A. inversion A as [|y' ys Hy _ E1]. exfalso.
    rewrite (Heq y x (d mod K)) in Hy. exact (Qlt_irrefl _ Hy). }
  subst l. cbn. now rewrite (IHr _ D).
Qed.
Theorem C164_equal_points_refuted : forall K data ne n h, rearranges ne -> 0 < n -> sane h ->
  (forall i j d, (data i d == data j d)%Q) ->
  exists h' o t, kd_build K data ne n h = Ok (h', o) /\ owns h' o t /\ height t = n.
Proof.
  intros K data ne n h Hne Hn Hs Heq. destruct (kd_build_spec K data ne n h Hne Hn Hs) as (h' & o & t & A & B & _ & P & Q).
  exists h', o, t. split; [assumption|]. split; [assumption|].
  rewrite (flat_chain K data Heq t 0 Q), <- preorder_length, (Permutation_length P). apply seq_length.
Qed.
Print Assumptions C164_equal_points_refuted.

Example C164_equal_example : rearranges (sort_range (fun _ _ => 0%Q)) /\
  exists h' o t, kd_build 2 (fun _ _ => 0%Q) (sort_range (fun _ _ => 0%Q)) 100 empty_heap = Ok (h', o) /\ owns h' o t /\ height t = 100.
Proof.
  split; [apply sort_range_valid|]. apply C164_equal_points_refuted; [apply sort_range_valid|lia|intros a _; reflexivity|].
  intros i j d. reflexivity.
Qed.

(* nor is it when all coordinates are distinct: the direction along which a set is split alternates
   from one split to the next in the order of the stack, not with the depth of the set in the tree, so
   the median is not taken along the direction in which the tree separates the set *)
Definition dozen : nat -> point :=
  pt2 [(7, 8); (11, 11); (0, 4); (8, 1); (5, 2); (6, 3); (3, 5); (10, 10); (4, 9); (1, 6); (9, 0); (2, 7)]%Q.
Fixpoint read_tree (fuel : nat) (h : heap nat) (a : option addr) : mtree nat :=
  match fuel, a with
  | S f, Some i => match cells h i with Some nd => MNode i (ndata nd) (read_tree f h (nleft nd)) (read_tree f h (nright nd)) | None => MLeaf end
  | _, _ => MLeaf
  end.
Lemma read_tree_ok : forall h t d fuel, holds h d t -> height t <= fuel -> read_tree fuel h (raddr t) = t.
Proof.
  intros h; induction t as [|a x l IHl r IHr]; intros d fuel H Hf; [destruct fuel; reflexivity|].
  destruct fuel as [|fuel]; [cbn in Hf; lia|]. cbn in H, Hf. destruct H as ((par & E) & A & B).
  cbn. rewrite E. cbn. rewrite (IHl (S d)), (IHr (S d)) by (auto; lia). reflexivity.
Qed.
Lemma height_size {T} : forall t : mtree T, height t <= msize t.
Proof. induction t; cbn; lia. Qed.
Theorem C164_balanced_refuted :
  distinct_coordinates 12 dozen 0 /\ distinct_coordinates 12 dozen 1 /\
  rearranges (sort_range dozen) /\ partitions dozen (sort_range dozen) /\
  exists h' o t, kd_build 2 dozen (sort_range dozen) 12 empty_heap = Ok (h', o) /\ owns h' o t /\ height t = 5 /\ S (Nat.log2 12) = 4.
Proof.
  assert (D: forall d, d < 2 -> distinct_coordinates 12 dozen d).
  { intros d Hd i j Hi Hj E.
    assert (B: forallb (fun d => forallb (fun i => forallb (fun j => (i =? j) || negb (Qeq_bool (dozen i d) (dozen j d))) (seq 0 12)) (seq 0 12)) (seq 0 2) = true)
      by (vm_compute; reflexivity).
    rewrite forallb_forall in B. specialize (B d ltac:(apply in_seq; lia)). rewrite forallb_forall in B. specialize (B i ltac:(apply in_seq; lia)).
    rewrite forallb_forall in B. specialize (B j ltac:(apply in_seq; lia)). apply Qeq_bool_iff in E. rewrite E in B.
    destruct (Nat.eqb_spec i j); [assumption|discriminate]. }
  split; [apply D; lia|]. split; [apply D; lia|]. split; [apply sort_range_valid|]. split; [apply sort_range_valid|].
  destruct (kd_build_spec 2 dozen (sort_range dozen) 12 empty_heap) as (h & o & t & A & B & _ & P & _);
    [apply sort_range_valid|lia|intros a _; reflexivity|].
  exists h, o, t. split; [assumption|]. split; [assumption|]. split; [|reflexivity].
  assert (E: t = read_tree 12 h (root o)).
  { destruct B as (R & _ & _ & H). rewrite R. symmetry. apply (read_tree_ok h t 0); [assumption|].
    etransitivity; [apply height_size|]. rewrite <- preorder_length, (Permutation_length P), seq_length. lia. }
  rewrite E.
  assert (C: match kd_build 2 dozen (sort_range dozen) 12 empty_heap with Ok (h, o) => height (read_tree 12 h (root o)) | _ => 0 end = 5)
    by (vm_compute; reflexivity).
  rewrite A in C. exact C.
Qed.
Print Assumptions C164_balanced_refuted.

(* the hypotheses of the positive half hold for points on a line *)
Definition line_points : nat -> point := pt2 [(5, 0); (3, 0); (8, 0); (1, 0); (9, 0); (2, 0); (7, 0)]%Q.
Example C164_example : exists h' o t, kd_build 1 line_points (sort_range line_points) 7 empty_heap = Ok (h', o) /\ owns h' o t /\
  Permutation (preorder t) (seq 0 7) /\ height t <= 3.
Proof.
  apply (C164_balanced_partial line_points (sort_range line_points) 7); try apply sort_range_valid; [lia|intros a _; reflexivity|].
  intros i j Hi Hj E.
  assert (B: forallb (fun i => forallb (fun j => (i =? j) || negb (Qeq_bool (line_points i 0) (line_points j 0))) (seq 0 7)) (seq 0 7) = true)
    by (vm_compute; reflexivity).
  rewrite forallb_forall in B. specialize (B i ltac:(apply in_seq; lia)).
  rewrite forallb_forall in B. specialize (B j ltac:(apply in_seq; lia)). apply Qeq_bool_iff in E. rewrite E in B.
  destruct (Nat.eqb_spec i j); [assumption|discriminate].
Qed.
