(* The facet tables built by the triangulation constructors: the loop invariant. *)
From Coq Require Import Lia Permutation Sorted.
From Verif Require Export TriModel TriSpec.

(* ---- sorting ---- *)
Lemma insert_sorted_in x l y : In y (insert_sorted x l) <-> y = x \/ In y l.
Proof.
  induction l as [|z l IH]; cbn [insert_sorted].
  - simpl; intuition.
  - destruct (x <=? z); simpl in *; intuition.
Qed.
Lemma insert_sorted_perm x l : Permutation (x :: l) (insert_sorted x l).
Proof.
  induction l as [|z l IH]; cbn [insert_sorted]; [reflexivity|].
  destruct (x <=? z); [reflexivity|]. rewrite perm_swap. now apply perm_skip.
Qed.
Lemma sort_ids_perm l : Permutation l (sort_ids l).
Proof.
  induction l as [|z l IH]; [reflexivity|]. simpl.
  etransitivity; [apply perm_skip, IH|apply insert_sorted_perm].
Qed.
Lemma sort_ids_in l x : In x (sort_ids l) <-> In x l.
Proof. split; apply Permutation_in; [symmetry|]; apply sort_ids_perm. Qed.
Lemma insert_sorted_le x l : StronglySorted le l -> StronglySorted le (insert_sorted x l).
Proof.
  induction l as [|z l IH]; intros Hs; cbn [insert_sorted].
  - repeat constructor.
  - apply StronglySorted_inv in Hs as [Hs Hz]. destruct (Nat.leb_spec x z).
    + constructor; [now constructor|]. constructor; [lia|].
      eapply Forall_impl; [|exact Hz]. simpl; lia.
    + constructor; [now apply IH|]. rewrite Forall_forall in *. intros y Hy.
      apply insert_sorted_in in Hy as [->|Hy]; [lia|auto].
Qed.
Lemma sort_ids_le l : StronglySorted le (sort_ids l).
Proof. induction l; simpl; [constructor|now apply insert_sorted_le]. Qed.
Lemma sorted_le_nodup_lt l : StronglySorted le l -> NoDup l -> StronglySorted lt l.
Proof.
  induction 1 as [|x l Hs IH Hx]; intros Hn; [constructor|]. inversion Hn; subst.
  constructor; [auto|]. rewrite Forall_forall in *. intros y Hy.
  specialize (Hx _ Hy). assert (x <> y) by (intros ->; contradiction). lia.
Qed.
Lemma sorted_lt_nodup l : StronglySorted lt l -> NoDup l.
Proof.
  induction 1 as [|x l Hs IH Hx]; constructor; auto.
  rewrite Forall_forall in Hx. intros Hin. specialize (Hx _ Hin). lia.
Qed.
Lemma sort_ids_lt l : NoDup l -> StronglySorted lt (sort_ids l).
Proof.
  intros Hn. apply sorted_le_nodup_lt; [apply sort_ids_le|].
  eapply Permutation_NoDup; [apply sort_ids_perm|exact Hn].
Qed.
Lemma sorted_lt_ext l1 l2 : StronglySorted lt l1 -> StronglySorted lt l2 ->
  (forall x, In x l1 <-> In x l2) -> l1 = l2.
Proof.
  intros H1; revert l2. induction H1 as [|x l Hs IH Hx]; intros l2 H2 He.
  - destruct l2 as [|y l2]; [reflexivity|]. exfalso. apply (He y). now left.
  - destruct H2 as [|y l2 Hs2 Hy].
    + exfalso. apply (He x). now left.
    + rewrite Forall_forall in *.
      assert (x = y) as ->.
      { destruct (proj1 (He x) (or_introl eq_refl)) as [E|Hin]; [auto|].
        destruct (proj2 (He y) (or_introl eq_refl)) as [E|Hin']; [auto|].
        specialize (Hx _ Hin'). specialize (Hy _ Hin). lia. }
      f_equal. apply IH; [assumption|]. intros z. split; intros Hz.
      * destruct (proj1 (He z) (or_intror Hz)) as [E|]; [|assumption].
        subst z. specialize (Hx _ Hz). lia.
      * destruct (proj2 (He z) (or_intror Hz)) as [E|]; [|assumption].
        subst z. specialize (Hy _ Hz). lia.
Qed.

(* ---- association lists ---- *)
Lemma id_list_eqb_spec a b : id_list_eqb a b = true <-> a = b.
Proof. unfold id_list_eqb. destruct (list_eq_dec Nat.eq_dec a b); intuition discriminate. Qed.
Lemma id_list_eqb_refl a : id_list_eqb a a = true.
Proof. now apply id_list_eqb_spec. Qed.
Lemma lookup_cons {V} k k' (v : V) m :
  lookup k ((k', v) :: m) = if id_list_eqb k k' then Some v else lookup k m.
Proof. reflexivity. Qed.
Lemma lookup_in {V} k (m : keymap V) v : lookup k m = Some v -> In (k, v) m.
Proof.
  induction m as [|[k' v'] m IH]; simpl; [discriminate|].
  destruct (id_list_eqb k k') eqn:E.
  - apply id_list_eqb_spec in E as ->. intros [= ->]. now left.
  - intros H. right; auto.
Qed.
Lemma lookup_none {V} k (m : keymap V) : ~ In k (map fst m) -> lookup k m = None.
Proof.
  intros Hn. destruct (lookup k m) as [v|] eqn:E; [|reflexivity].
  exfalso. apply Hn. apply lookup_in in E. apply (in_map fst) in E. exact E.
Qed.
Lemma erase_key_in {V} k (m : keymap V) x : In x (erase_key k m) -> In x m.
Proof.
  induction m as [|[k' v'] m IH]; simpl; [auto|].
  destruct (id_list_eqb k k'); simpl; intuition.
Qed.
Lemma erase_key_nodup {V} k (m : keymap V) : NoDup (map fst m) -> NoDup (map fst (erase_key k m)).
Proof.
  induction m as [|[k' v'] m IH]; simpl; [auto|]. intros H; inversion H; subst.
  destruct (id_list_eqb k k'); [assumption|]. simpl. constructor; [|auto].
  intros Hin. apply H2. apply in_map_iff in Hin as (x & <- & Hx). apply in_map. eapply erase_key_in; eauto.
Qed.
Lemma lookup_erase {V} k k' (m : keymap V) : NoDup (map fst m) ->
  lookup k (erase_key k' m) = if id_list_eqb k k' then None else lookup k m.
Proof.
  induction m as [|[k0 v0] m IH]; intros Hn; simpl.
  - now destruct (id_list_eqb k k').
  - inversion Hn; subst. destruct (id_list_eqb k' k0) eqn:E.
    + apply id_list_eqb_spec in E as ->. destruct (id_list_eqb k k0) eqn:E'; [|reflexivity].
      apply id_list_eqb_spec in E' as ->. now apply lookup_none.
    + simpl. destruct (id_list_eqb k k0) eqn:E'.
      * apply id_list_eqb_spec in E' as ->. destruct (id_list_eqb k0 k') eqn:E''; [|reflexivity].
        apply id_list_eqb_spec in E'' as ->. now rewrite id_list_eqb_refl in E.
      * now apply IH.
Qed.

(* ---- tables ---- *)
Lemma get2_ok {A} (m : list (list A)) i j v : get2 m i j = Ok v <-> entry m i j v.
Proof.
  unfold get2, entry. split.
  - intros H. apply bind_ok in H as (r & Hr & Hv). apply nth_res_ok in Hr, Hv. eauto.
  - intros (r & Hr & Hv). apply nth_res_ok in Hr, Hv. rewrite Hr. exact Hv.
Qed.
Lemma entry_fun {A} (m : list (list A)) i j v v' : entry m i j v -> entry m i j v' -> v = v'.
Proof. intros (r & Hr & Hv) (r' & Hr' & Hv'). congruence. Qed.

Definition shaped {A} (m : list (list A)) (n d : nat) : Prop :=
  length m = n /\ forall r, In r m -> length r = d.
Lemma shaped_entry {A} (m : list (list A)) n d i j : shaped m n d -> i < n -> j < d -> exists v, entry m i j v.
Proof.
  intros [Hn Hd] Hi Hj. destruct (nth_error m i) as [r|] eqn:E.
  - destruct (nth_error r j) as [v|] eqn:E'.
    + exists v, r. auto.
    + apply nth_error_None in E'. rewrite (Hd r) in E' by (eapply nth_error_In; eauto). lia.
  - apply nth_error_None in E. lia.
Qed.
Lemma entry_lt {A} (m : list (list A)) n d i j v : shaped m n d -> entry m i j v -> i < n /\ j < d.
Proof.
  intros [Hn Hd] (r & Hr & Hv). rewrite <- Hn, <- (Hd r) by (eapply nth_error_In; eauto).
  split; apply nth_error_Some; congruence.
Qed.
Lemma upd_res_some {A} (l : list A) i v : i < length l -> upd_res l i v = Ok (upd l i v).
Proof.
  intros H. unfold upd_res. destruct (i <? length l) eqn:E; [reflexivity|]. apply Nat.ltb_ge in E. lia.
Qed.
Lemma set2_some {A} (m : list (list A)) n d i j v : shaped m n d -> i < n -> j < d ->
  exists m', set2 m i j v = Ok m' /\ shaped m' n d /\
    forall a b w, entry m' a b w <-> (if (a =? i) && (b =? j) then w = v else entry m a b w).
Proof.
  intros Hs Hi Hj. destruct (shaped_entry m n d i j Hs Hi Hj) as (w0 & r & Hr & Hw).
  assert (Hlr : length r = d) by (apply Hs; eapply nth_error_In; eauto).
  destruct Hs as [Hn Hd].
  exists (upd m i (upd r j v)). unfold set2.
  apply nth_res_ok in Hr as Hr'. rewrite Hr'. cbn [bind].
  rewrite upd_res_some by lia. cbn [bind]. rewrite upd_res_some by lia.
  split; [reflexivity|]. split; [split|].
  - now rewrite upd_length.
  - intros r' Hin. apply In_nth_error in Hin as (a & Ha).
    destruct (Nat.eq_dec a i) as [->|Hne].
    + rewrite nth_error_upd_same in Ha by lia. injection Ha as <-. now rewrite upd_length.
    + rewrite nth_error_upd_other in Ha by auto. apply Hd. eapply nth_error_In; eauto.
  - intros a b w. unfold entry. destruct (Nat.eqb_spec a i) as [->|Hne]; cbn [andb].
    + rewrite nth_error_upd_same by lia. destruct (Nat.eqb_spec b j) as [->|Hne'].
      * split.
        -- intros (r' & [= <-] & Hv). rewrite nth_error_upd_same in Hv by lia. congruence.
        -- intros ->. eexists; split; [reflexivity|]. rewrite nth_error_upd_same by lia. reflexivity.
      * split.
        -- intros (r' & [= <-] & Hv). rewrite nth_error_upd_other in Hv by auto. eauto.
        -- intros (r' & Hr2 & Hv). rewrite Hr in Hr2. injection Hr2 as <-.
           eexists; split; [reflexivity|]. now rewrite nth_error_upd_other by auto.
    + rewrite nth_error_upd_other by auto. reflexivity.
Qed.
Lemma shaped_repeat {A} (x : A) n d : shaped (repeat (repeat x d) n) n d.
Proof.
  split; [apply repeat_length|]. intros r Hr. apply repeat_spec in Hr as ->. apply repeat_length.
Qed.
Lemma entry_repeat {A} (x : A) n d i j v : entry (repeat (repeat x d) n) i j v -> v = x.
Proof.
  intros (r & Hr & Hv). apply nth_error_In, repeat_spec in Hr. subst r.
  now apply nth_error_In, repeat_spec in Hv.
Qed.

(* ---- the facet of c opposite to position p ---- *)
Definition drop_at {A} (p : nat) (c : list A) : list A := firstn p c ++ skipn (S p) c.
Lemma split_at {A} (p : nat) (c : list A) x : nth_error c p = Some x -> c = firstn p c ++ x :: skipn (S p) c.
Proof.
  revert p. induction c as [|y c IH]; intros [|p] H; try discriminate.
  - injection H as ->. reflexivity.
  - simpl. f_equal. apply IH, H.
Qed.
Lemma drop_at_perm {A} (p : nat) (c : list A) x : nth_error c p = Some x -> Permutation c (x :: drop_at p c).
Proof.
  intros H. rewrite (split_at p c x H) at 1. unfold drop_at. symmetry. apply Permutation_middle.
Qed.
Lemma first_not_in_app e l1 x l2 j : (forall y, In y l1 -> In y e) -> ~ In x e ->
  first_not_in e (l1 ++ x :: l2) j = j + length l1.
Proof.
  revert j. induction l1 as [|y l1 IH]; intros j H1 H2; simpl.
  - destruct (existsb (Nat.eqb x) e) eqn:E; [|lia]. apply existsb_exists in E as (z & Hz & Ez).
    apply Nat.eqb_eq in Ez as ->. contradiction.
  - assert (existsb (Nat.eqb y) e = true) as ->.
    { apply existsb_exists. exists y. split; [apply H1; now left|apply Nat.eqb_refl]. }
    rewrite IH; [lia| |assumption]. intros z Hz. apply H1. now right.
Qed.

Lemma nth_error_snoc {A} (l : list A) x h y : nth_error (l ++ [x]) h = Some y ->
  nth_error l h = Some y /\ h < length l \/ h = length l /\ y = x.
Proof.
  intros H. destruct (Nat.lt_ge_cases h (length l)) as [Hl|Hl].
  - rewrite nth_error_app1 in H by assumption. auto.
  - rewrite nth_error_app2 in H by assumption. right.
    destruct (h - length l) as [|d] eqn:E; [|destruct d; discriminate].
    injection H as ->. split; [lia|reflexivity].
Qed.
Lemma nth_error_snoc_last {A} (l : list A) x : nth_error (l ++ [x]) (length l) = Some x.
Proof. rewrite nth_error_app2, Nat.sub_diag by lia. reflexivity. Qed.
Lemma nth_error_snoc_old {A} (l : list A) x h y : nth_error l h = Some y -> nth_error (l ++ [x]) h = Some y.
Proof. intros H. rewrite nth_error_app1; [assumption|]. apply nth_error_Some. congruence. Qed.
Lemma nodup_nth {A} (l : list A) h h' x : NoDup l -> nth_error l h = Some x -> nth_error l h' = Some x -> h = h'.
Proof.
  intros Hn H H'. eapply NoDup_nth_error; [exact Hn|apply nth_error_Some; congruence|congruence].
Qed.

Section Inv.
Variables (cells : list (list nat)) (D : nat) (pattern : list (list nat)).
Hypothesis Hcells : simplicial D cells.
Let n := length cells.
(* the key of facet j of cell i *)
Definition fkey (q : nat * nat) : list nat := sort_ids (drop_at (D - 1 - snd q) (nth (fst q) cells [])).

Definition valid (q : nat * nat) : Prop := fst q < n /\ snd q < D.
Let key := fkey.

Lemma cell_facts i : i < n -> exists c, nth_error cells i = Some c /\ nth i cells [] = c /\ length c = D /\ NoDup c.
Proof.
  intros Hi. destruct (nth_error cells i) as [c|] eqn:E.
  - exists c. split; [reflexivity|]. split; [now apply nth_error_nth|]. apply Hcells. eapply nth_error_In; eauto.
  - apply nth_error_None in E. subst n; lia.
Qed.
Lemma key_facts i j : i < n -> j < D -> exists c x, nth_error cells i = Some c /\
  nth_error c (D - 1 - j) = Some x /\ NoDup c /\ length c = D /\
  StronglySorted lt (key (i, j)) /\ S (length (key (i, j))) = D /\ ~ In x (key (i, j)) /\
  (forall y, In y c <-> y = x \/ In y (key (i, j))).
Proof.
  intros Hi Hj. destruct (cell_facts i Hi) as (c & Hc & Hn & Hl & Hnd).
  destruct (nth_error c (D - 1 - j)) as [x|] eqn:Ex; [|apply nth_error_None in Ex; lia].
  exists c, x. pose proof (drop_at_perm _ _ _ Ex) as Hp.
  assert (Hnd' : NoDup (x :: drop_at (D - 1 - j) c)) by (eapply Permutation_NoDup; eauto).
  inversion Hnd' as [|? ? Hx Hd]; subst.
  unfold key, fkey. cbn [fst snd]. 
  do 4 (split; [assumption|]).
  split; [now apply sort_ids_lt|].
  split.
  { rewrite <- (Permutation_length (sort_ids_perm _)).
    apply Permutation_length in Hp. simpl in Hp. lia. }
  split; [now rewrite sort_ids_in|].
  intros y. rewrite sort_ids_in. split.
  - intros Hy. eapply Permutation_in in Hy; [|exact Hp]. destruct Hy; auto.
  - intros Hy. eapply Permutation_in; [symmetry; exact Hp|]. destruct Hy; [left|right]; auto.
Qed.
Lemma opposite_key i j c : i < n -> j < D -> nth_error cells i = Some c ->
  first_not_in (key (i, j)) c 0 = D - 1 - j.
Proof.
  intros Hi Hj Hc. destruct (key_facts i j Hi Hj) as (c' & x & Hc' & Hx & _ & Hl & _ & _ & Hnx & Hin).
  rewrite Hc in Hc'. injection Hc' as <-.
  rewrite (split_at _ _ _ Hx) at 1. rewrite first_not_in_app; [|intros y Hy|assumption].
  - rewrite firstn_length. lia.
  - destruct (cell_facts i Hi) as (c2 & Hc2 & Hn2 & _ & _). rewrite Hc in Hc2. injection Hc2 as <-.
    unfold key, fkey. cbn [fst snd]. rewrite Hn2, sort_ids_in. unfold drop_at. apply in_or_app. now left.
Qed.
Lemma key_inj i j j' : i < n -> j < D -> j' < D -> key (i, j) = key (i, j') -> j = j'.
Proof.
  intros Hi Hj Hj' He. destruct (cell_facts i Hi) as (c & Hc & _).
  pose proof (opposite_key i j c Hi Hj Hc). pose proof (opposite_key i j' c Hi Hj' Hc).
  rewrite He in *. lia.
Qed.
Lemma key_facet i j : i < n -> j < D -> cell_has cells i (key (i, j)).
Proof.
  intros Hi Hj. destruct (key_facts i j Hi Hj) as (c & x & Hc & _ & _ & Hl & Hs & Hlk & _ & Hin).
  exists c. split; [assumption|]. split; [assumption|]. split; [lia|].
  intros y Hy. apply Hin. now right.
Qed.
Lemma facet_key i e : cell_has cells i e -> i < n /\ exists j, j < D /\ e = key (i, j).
Proof.
  intros (c & Hc & Hs & Hl & Hinc).
  assert (Hi : i < n) by (apply nth_error_Some; congruence).
  split; [assumption|].
  destruct (cell_facts i Hi) as (c' & Hc' & Hn & Hlc & Hnd). rewrite Hc in Hc'. injection Hc' as <-.
  (* some vertex is missing from e *)
  assert (Hex : exists x, In x c /\ ~ In x e).
  { destruct (Exists_dec (fun x => ~ In x e) c) as [H|H].
    - intros x. destruct (in_dec Nat.eq_dec x e); [right|left]; auto.
    - now apply Exists_exists in H.
    - exfalso. assert (incl c e).
      { intros x Hx. destruct (in_dec Nat.eq_dec x e); [assumption|].
        exfalso. apply H, Exists_exists. eauto. }
      pose proof (NoDup_incl_length Hnd H0). lia. }
  destruct Hex as (x & Hx & Hxe). apply In_nth_error in Hx as (p & Hp).
  assert (p < D) by (rewrite <- Hlc; apply nth_error_Some; congruence).
  exists (D - 1 - p). split; [lia|].
  destruct (key_facts i (D - 1 - p) Hi ltac:(lia)) as (c' & x' & Hc' & Hx' & _ & _ & Hs' & Hl' & Hnx & Hin).
  rewrite Hc in Hc'. injection Hc' as <-. replace (D - 1 - (D - 1 - p)) with p in Hx' by lia.
  rewrite Hp in Hx'. injection Hx' as <-.
  apply sorted_lt_ext; [assumption|assumption|].
  assert (Hincl : incl e (key (i, D - 1 - p))).
  { intros y Hy. pose proof (Hinc _ Hy) as Hyc. apply Hin in Hyc as [->|]; [contradiction|assumption]. }
  intros y. split; [apply Hincl|].
  apply (NoDup_length_incl (sorted_lt_nodup _ Hs)); [lia|exact Hincl].
Qed.
Hypothesis Hconf : conforming cells.
Lemma three_keys q1 q2 q3 : valid q1 -> valid q2 -> valid q3 -> key q1 = key q2 -> key q1 = key q3 ->
  q1 = q2 \/ q1 = q3 \/ q2 = q3.
Proof.
  destruct q1 as [i1 j1], q2 as [i2 j2], q3 as [i3 j3]. unfold valid; cbn [fst snd].
  intros [? ?] [? ?] [? ?] E2 E3.
  pose proof (key_facet i1 j1 ltac:(assumption) ltac:(assumption)) as F1.
  pose proof (key_facet i2 j2 ltac:(assumption) ltac:(assumption)) as F2.
  pose proof (key_facet i3 j3 ltac:(assumption) ltac:(assumption)) as F3.
  rewrite <- E2 in F2. rewrite <- E3 in F3.
  destruct (Hconf _ _ _ _ F1 F2 F3) as [E|[E|E]]; subst.
  - left. f_equal. now apply (key_inj i2).
  - right; left. f_equal. now apply (key_inj i3).
  - right; right. f_equal. apply (key_inj i3); auto; congruence.
Qed.

(* ---- the invariant ---- *)
Record Inv (P : list (nat * nat)) (s : facets) : Prop := mkInv {
  inv_next : f_next s = length (f_nodes s);
  inv_lc : length (f_cells s) = length (f_nodes s);
  inv_lm : length (f_mark s) = length (f_nodes s);
  inv_nd : NoDup (f_nodes s);
  inv_in : forall k, In k (f_nodes s) <-> exists q, In q P /\ key q = k;
  inv_one : forall h k a, nth_error (f_nodes s) h = Some k -> nth_error (f_cells s) h = Some (a, None) ->
     nth_error (f_mark s) h = Some true /\
     exists ja, forall q, (In q P /\ key q = k) <-> q = (a, ja);
  inv_two : forall h k a b, nth_error (f_nodes s) h = Some k -> nth_error (f_cells s) h = Some (a, Some b) ->
     nth_error (f_mark s) h = Some false /\ a <> b /\
     exists ja jb, forall q, (In q P /\ key q = k) <-> q = (a, ja) \/ q = (b, jb);
  inv_mapnd : NoDup (map fst (f_map s));
  inv_map : forall k h a, lookup k (f_map s) = Some (h, a) <->
     nth_error (f_nodes s) h = Some k /\ nth_error (f_cells s) h = Some (a, None);
  inv_cshape : shaped (c_facets s) n D;
  inv_centry : forall i j, In (i, j) P ->
     exists h, entry (c_facets s) i j (Some h) /\ nth_error (f_nodes s) h = Some (key (i, j));
  inv_nshape : shaped (f_neigh s) n D;
  inv_nentry : forall i j, i < n -> j < D -> forall i',
     entry (f_neigh s) i (D - 1 - j) (Some i') <->
     (In (i, j) P /\ i <> i' /\ exists j', In (i', j') P /\ key (i', j') = key (i, j))
}.

Hypothesis Hpat : length pattern = D.
Lemma Inv_init : Inv [] (facets_init cells D pattern).
Proof.
  unfold facets_init. rewrite Hpat. constructor; cbn [f_next f_nodes f_cells f_mark f_map c_facets f_neigh];
    try reflexivity.
  - constructor.
  - intros k. split; [intros []|intros (q & [] & _)].
  - intros [|h] k a H; discriminate.
  - intros [|h] k a b H; discriminate.
  - constructor.
  - intros k h a. split; [discriminate|]. intros [H _]. destruct h; discriminate.
  - apply shaped_repeat.
  - intros i j [].
  - apply shaped_repeat.
  - intros i j Hi Hj i'. split.
    + intros H. apply entry_repeat in H. discriminate.
    + intros ([] & _).
Qed.

Lemma loop_pairs_in q : In q (loop_pairs cells pattern) <-> valid q.
Proof.
  unfold loop_pairs, valid. rewrite in_flat_map. rewrite Hpat. split.
  - intros (i & Hi & Hq). apply in_map_iff in Hq as (j & <- & Hj). apply in_seq in Hi, Hj. cbn. subst n. lia.
  - intros [Hi Hj]. exists (fst q). split; [apply in_seq; subst n; lia|].
    apply in_map_iff. exists (snd q). split; [now destruct q|apply in_seq; lia].
Qed.
Lemma loop_pairs_nodup : NoDup (loop_pairs cells pattern).
Proof.
  unfold loop_pairs. generalize (seq_NoDup (length cells) 0). generalize (seq 0 (length cells)) as l.
  induction l as [|i l IH]; intros Hn; simpl; [constructor|]. inversion Hn; subst.
  apply NoDup_app_intro; [|auto|].
  - apply FinFun.Injective_map_NoDup; [intros a b [=]; assumption|apply seq_NoDup].
  - intros x Hx Hx'. apply in_map_iff in Hx as (j & <- & _).
    apply in_flat_map in Hx' as (i' & Hi' & Hx'). apply in_map_iff in Hx' as (j' & [= -> ->] & _). contradiction.
Qed.

(* every prefix of the loop *)
Lemma facet_loop {S : Type} (step : S -> nat * nat -> Res S) (J : list (nat * nat) -> S -> Prop) s0 :
  J [] s0 ->
  (forall P s q, (forall x, In x P -> valid x) -> valid q -> ~ In q P -> J P s ->
     exists s', step s q = Ok s' /\ J (P ++ [q]) s') ->
  exists s, foldM step (loop_pairs cells pattern) s0 = Ok s /\ J (loop_pairs cells pattern) s.
Proof.
  intros H0 Hstep.
  assert (G : forall rest P s, loop_pairs cells pattern = P ++ rest -> J P s ->
            exists s', foldM step rest s = Ok s' /\ J (loop_pairs cells pattern) s').
  { induction rest as [|q rest IH]; intros P s E HJ.
    - rewrite app_nil_r in E. rewrite E. exists s. split; [reflexivity|assumption].
    - assert (Hv : forall x, In x (loop_pairs cells pattern) -> valid x) by (intros; now apply loop_pairs_in).
      destruct (Hstep P s q) as (s' & Es & HJ').
      + intros x Hx. apply Hv. rewrite E. apply in_or_app; now left.
      + apply Hv. rewrite E. apply in_or_app; right; now left.
      + pose proof loop_pairs_nodup as Hn. rewrite E in Hn. apply NoDup_remove_2 in Hn.
        intros Hx. apply Hn, in_or_app. now left.
      + assumption.
      + cbn [foldM]. rewrite Es. cbn [bind]. apply (IH (P ++ [q])); [|assumption].
        rewrite E, <- app_assoc. reflexivity. }
  apply (G _ []); [reflexivity|assumption].
Qed.

Hypothesis Hmake : forall i j, i < n -> j < D -> make_facet cells pattern i j = Ok (fkey (i, j)).
Lemma Inv_step P s q : (forall x, In x P -> valid x) -> valid q -> ~ In q P -> Inv P s ->
  exists s' b h, facet_step cells pattern s q = Ok (s', b, h) /\ Inv (P ++ [q]) s' /\
    nth_error (f_nodes s') h = Some (key q) /\
    (if (b : bool) then h = length (f_nodes s) /\ f_nodes s' = f_nodes s ++ [key q]
     else f_nodes s' = f_nodes s).
Proof.
  intros HP Hq HnP HI. destruct q as [i0 j0]. pose proof Hq as [Hi Hj]. cbn [fst snd] in Hi, Hj.
  set (q := (i0, j0)) in *. set (k := key q) in *.
  unfold facet_step. unfold q at 1. rewrite (Hmake i0 j0 Hi Hj). cbn [bind].
  change (fkey (i0, j0)) with k.
  assert (HPq : forall x, In x (P ++ [q]) <-> In x P \/ x = q).
  { intros x. rewrite in_app_iff. simpl. intuition. }
  destruct (lookup k (f_map s)) as [[h a]|] eqn:El.
  - (* the facet is known *)
    apply (inv_map _ _ HI) in El as Hh. destruct Hh as [Hh Hc].
    destruct (inv_one _ _ HI _ _ _ Hh Hc) as (Hm & ja & Hone).
    assert (Ha : In (a, ja) P /\ key (a, ja) = k) by (now apply Hone).
    destruct Ha as [HaP Hak].
    pose proof (HP _ HaP) as [Han Hja]. cbn [fst snd] in Han, Hja.
    assert (Hai : a <> i0).
    { intros ->. assert (ja = j0) by (apply (key_inj i0); auto). subst ja. contradiction. }
    destruct (cell_facts a Han) as (ca & Hca & _). destruct (cell_facts i0 Hi) as (ci & Hci & _).
    assert (Hop1 : node_opposite cells s h a = Ok (D - 1 - ja)).
    { unfold node_opposite. apply nth_res_ok in Hh as ->. apply nth_res_ok in Hca as E. rewrite E. cbn [bind].
      rewrite <- Hak. now rewrite (opposite_key a ja ca). }
    assert (Hop2 : node_opposite cells s h i0 = Ok (D - 1 - j0)).
    { unfold node_opposite. apply nth_res_ok in Hh as ->. apply nth_res_ok in Hci as E. rewrite E. cbn [bind].
      unfold k, q. now rewrite (opposite_key i0 j0 ci). }
    rewrite Hop1. cbn [bind].
    destruct (set2_some (f_neigh s) n D a (D - 1 - ja) (Some i0) (inv_nshape _ _ HI) Han ltac:(lia)) as (n1 & En1 & Hs1 & He1).
    rewrite En1. cbn [bind]. rewrite Hop2. cbn [bind].
    destruct (set2_some n1 n D i0 (D - 1 - j0) (Some a) Hs1 Hi ltac:(lia)) as (n2 & En2 & Hs2 & He2).
    rewrite En2. cbn [bind].
    destruct (set2_some (c_facets s) n D i0 j0 (Some h) (inv_cshape _ _ HI) Hi Hj) as (cf & Ecf & Hscf & Hecf).
    rewrite Ecf. cbn [bind].
    assert (Hhl : h < length (f_nodes s)) by (apply nth_error_Some; congruence).
    rewrite upd_res_some by (rewrite (inv_lm _ _ HI); assumption). cbn [bind].
    apply nth_res_ok in Hc as Hc'. rewrite Hc'. cbn [bind fst].
    rewrite upd_res_some by (rewrite (inv_lc _ _ HI); assumption). cbn [bind].
    do 3 eexists. split; [reflexivity|].
    split; [|split; [exact Hh|reflexivity]].
    constructor; cbn [f_next f_nodes f_cells f_mark f_map c_facets f_neigh].
    + apply (inv_next _ _ HI).
    + rewrite upd_length. apply (inv_lc _ _ HI).
    + rewrite upd_length. apply (inv_lm _ _ HI).
    + apply (inv_nd _ _ HI).
    + intros k'. rewrite (inv_in _ _ HI). split.
      * intros (x & Hx & Ex). exists x. rewrite HPq. auto.
      * intros (x & Hx & Ex). apply HPq in Hx as [Hx| ->]; [eauto|].
        exists (a, ja). subst k'. auto.
    + intros h' k' a' Hh' Hc2.
      assert (Hhh : h' <> h).
      { intros ->. rewrite nth_error_upd_same in Hc2 by (rewrite (inv_lc _ _ HI); assumption). discriminate. }
      rewrite nth_error_upd_other in Hc2 by auto. rewrite nth_error_upd_other by auto.
      destruct (inv_one _ _ HI _ _ _ Hh' Hc2) as (Hm' & j' & Ho'). split; [assumption|].
      exists j'. intros x. rewrite <- Ho', HPq. split; [|intuition].
      intros [[Hx| ->] Ex]; [auto|]. exfalso. apply Hhh. fold k in Ex. subst k'.
      eapply nodup_nth; [apply (inv_nd _ _ HI)|eassumption|eassumption].
    + intros h' k' a' b' Hh' Hc2. destruct (Nat.eq_dec h' h) as [->|Hhh].
      * rewrite nth_error_upd_same in Hc2 by (rewrite (inv_lc _ _ HI); assumption).
        rewrite nth_error_upd_same by (rewrite (inv_lm _ _ HI); assumption).
        injection Hc2 as <- <-. rewrite Hh in Hh'. injection Hh' as <-.
        split; [reflexivity|]. split; [assumption|]. exists ja, j0. intros x. fold q. rewrite HPq. split.
        -- intros [[Hx| ->] Ex]; [left; apply Hone; auto|right; reflexivity].
        -- intros [->| ->]; [split; auto|split; [auto|reflexivity]].
      * rewrite nth_error_upd_other in Hc2 by auto. rewrite nth_error_upd_other by auto.
        destruct (inv_two _ _ HI _ _ _ _ Hh' Hc2) as (Hm' & Hab & j1 & j2 & Ho'). split; [assumption|].
        split; [assumption|].
        exists j1, j2. intros x. rewrite <- Ho', HPq. split; [|intuition].
        intros [[Hx| ->] Ex]; [auto|]. exfalso. apply Hhh. fold k in Ex. subst k'.
        eapply nodup_nth; [apply (inv_nd _ _ HI)|eassumption|eassumption].
    + apply erase_key_nodup, (inv_mapnd _ _ HI).
    + intros k' h' a'. rewrite lookup_erase by apply (inv_mapnd _ _ HI).
      destruct (id_list_eqb k' k) eqn:Ek.
      * apply id_list_eqb_spec in Ek as ->. split; [discriminate|]. intros [Hh' Hc2]. exfalso.
        assert (h' = h) as -> by (eapply nodup_nth; [apply (inv_nd _ _ HI)|eassumption|eassumption]).
        rewrite nth_error_upd_same in Hc2 by (rewrite (inv_lc _ _ HI); assumption). discriminate.
      * rewrite (inv_map _ _ HI).
        assert (Hne : nth_error (f_nodes s) h' = Some k' -> h' <> h).
        { intros Hn ->. rewrite Hh in Hn. injection Hn as <-. rewrite id_list_eqb_refl in Ek. discriminate. }
        split; intros [Hh' Hc2]; (split; [assumption|]).
        -- rewrite nth_error_upd_other by (specialize (Hne Hh'); auto). assumption.
        -- rewrite nth_error_upd_other in Hc2 by (specialize (Hne Hh'); auto). assumption.
    + assumption.
    + intros i j Hij. apply HPq in Hij as [Hij|Hij].
      * destruct (inv_centry _ _ HI _ _ Hij) as (h' & He' & Hn'). exists h'. split; [|assumption].
        apply Hecf. destruct ((i =? i0) && (j =? j0)) eqn:Eb; [|assumption].
        apply andb_true_iff in Eb as [E1 E2]. apply Nat.eqb_eq in E1, E2. subst. contradiction.
      * injection Hij as -> ->. exists h. split; [|assumption]. apply Hecf.
        now rewrite !Nat.eqb_refl.
    + assumption.
    + intros i j Hi' Hj' i'. rewrite He2.
      destruct ((i =? i0) && (D - 1 - j =? D - 1 - j0)) eqn:Eb.
      * apply andb_true_iff in Eb as [E1 E2]. apply Nat.eqb_eq in E1, E2.
        assert (i = i0) as -> by assumption. assert (j = j0) as -> by lia. fold q k. split.
        -- intros [= ->]. split; [apply HPq; now right|]. split; [auto|]. exists ja. split; [apply HPq; now left|assumption].
        -- intros (_ & Hne & j' & Hj2 & Ek). apply HPq in Hj2 as [Hj2|Hj2].
           ++ assert ((i', j') = (a, ja)) by (apply Hone; auto). congruence.
           ++ injection Hj2 as -> ->. contradiction.
      * rewrite He1. destruct ((i =? a) && (D - 1 - j =? D - 1 - ja)) eqn:Eb'.
        -- apply andb_true_iff in Eb' as [E1 E2]. apply Nat.eqb_eq in E1, E2.
           assert (i = a) as -> by assumption. assert (j = ja) as -> by lia. rewrite Hak. split.
           ++ intros [= ->]. split; [apply HPq; now left|]. split; [auto|]. exists j0. split; [apply HPq; now right|reflexivity].
           ++ intros (_ & Hne & j' & Hj2 & Ek). apply HPq in Hj2 as [Hj2|Hj2].
              ** assert ((i', j') = (a, ja)) by (apply Hone; auto). congruence.
              ** injection Hj2 as -> ->. reflexivity.
        -- rewrite (inv_nentry _ _ HI) by assumption. split.
           ++ intros (H1 & H2 & j' & H3 & H4). split; [apply HPq; now left|]. split; [assumption|].
              exists j'. split; [apply HPq; now left|assumption].
           ++ intros (H1 & H2 & j' & H3 & H4). apply HPq in H1 as [H1|H1].
              ** apply HPq in H3 as [H3|H3]; [eauto 7|]. exfalso.
                 rewrite H3 in H4. fold k in H4. assert ((i, j) = (a, ja)) as Hx by (apply Hone; auto).
                 injection Hx as -> ->. rewrite !Nat.eqb_refl in Eb'. discriminate.
              ** injection H1 as -> ->. rewrite !Nat.eqb_refl in Eb. discriminate.
  - (* a new facet *)
    assert (Hfresh : ~ In k (f_nodes s)).
    { intros Hin. apply In_nth_error in Hin as (h & Hh).
      destruct (nth_error (f_cells s) h) as [[a [b|]]|] eqn:Ec.
      - destruct (inv_two _ _ HI _ _ _ _ Hh Ec) as (_ & Hab & ja & jb & Ht).
        assert (Ha : In (a, ja) P /\ key (a, ja) = k) by (apply Ht; auto).
        assert (Hb : In (b, jb) P /\ key (b, jb) = k) by (apply Ht; auto).
        destruct Ha as [HaP Hak], Hb as [HbP Hbk].
        destruct (three_keys q (a, ja) (b, jb) Hq (HP _ HaP) (HP _ HbP)) as [E|[E|E]];
          [unfold k in *; congruence|unfold k in *; congruence| | |].
        + rewrite E in HnP. contradiction.
        + rewrite E in HnP. contradiction.
        + congruence.
      - assert (lookup k (f_map s) = Some (h, a)) by (apply (inv_map _ _ HI); auto). congruence.
      - apply nth_error_None in Ec. rewrite (inv_lc _ _ HI) in Ec.
        assert (h < length (f_nodes s)) by (apply nth_error_Some; congruence). lia. }
    assert (Hnone : forall x, In x P -> key x <> k).
    { intros x Hx E. apply Hfresh, (inv_in _ _ HI). eauto. }
    destruct (set2_some (c_facets s) n D i0 j0 (Some (f_next s)) (inv_cshape _ _ HI) Hi Hj) as (cf & Ecf & Hscf & Hecf).
    rewrite Ecf. cbn [bind]. do 3 eexists. split; [reflexivity|].
    cbn [f_next f_nodes f_cells f_mark f_map c_facets f_neigh].
    split; [|split; [rewrite (inv_next _ _ HI); apply nth_error_snoc_last|split; [apply (inv_next _ _ HI)|reflexivity]]].
    constructor; cbn [f_next f_nodes f_cells f_mark f_map c_facets f_neigh].
    + rewrite app_length, (inv_next _ _ HI). simpl. lia.
    + rewrite !app_length, (inv_lc _ _ HI). reflexivity.
    + rewrite !app_length, (inv_lm _ _ HI). reflexivity.
    + apply NoDup_app_intro; [apply (inv_nd _ _ HI)|constructor; [intros []|constructor]|].
      intros x Hx [<-|[]]. contradiction.
    + intros k'. rewrite in_app_iff, (inv_in _ _ HI). split.
      * intros [(x & Hx & Ex)|[<-|[]]].
        -- exists x. rewrite HPq. auto.
        -- exists q. rewrite HPq. auto.
      * intros (x & Hx & Ex). apply HPq in Hx as [Hx| ->]; [left; eauto|right; left; exact Ex].
    + intros h' k' a' Hh' Hc'. apply nth_error_snoc in Hh' as [[Hh' Hl]|[-> ->]].
      * apply nth_error_snoc in Hc' as [[Hc' _]|[E _]]; [|rewrite (inv_lc _ _ HI) in E; lia].
        destruct (inv_one _ _ HI _ _ _ Hh' Hc') as (Hm & ja & Ho).
        split; [now apply nth_error_snoc_old|]. exists ja. intros x. rewrite <- Ho, HPq. split; [|intuition].
        intros [[Hx| ->] Ex]; [auto|]. exfalso. apply Hfresh. fold k in Ex. subst k'. eapply nth_error_In; eauto.
      * rewrite <- (inv_lc _ _ HI) in Hc'. rewrite nth_error_snoc_last in Hc'. injection Hc' as <-.
        split; [rewrite <- (inv_lm _ _ HI); apply nth_error_snoc_last|].
        exists j0. intros x. fold q. rewrite HPq. split; [|intros ->; split; auto].
        intros [[Hx| ->] Ex]; [|reflexivity]. exfalso. exact (Hnone _ Hx Ex).
    + intros h' k' a' b' Hh' Hc'. apply nth_error_snoc in Hh' as [[Hh' Hl]|[-> ->]].
      * apply nth_error_snoc in Hc' as [[Hc' _]|[E _]]; [|rewrite (inv_lc _ _ HI) in E; lia].
        destruct (inv_two _ _ HI _ _ _ _ Hh' Hc') as (Hm & Hab & ja & jb & Ho).
        split; [now apply nth_error_snoc_old|]. split; [assumption|].
        exists ja, jb. intros x. rewrite <- Ho, HPq. split; [|intuition].
        intros [[Hx| ->] Ex]; [auto|]. exfalso. apply Hfresh. fold k in Ex. subst k'. eapply nth_error_In; eauto.
      * rewrite <- (inv_lc _ _ HI) in Hc'. rewrite nth_error_snoc_last in Hc'. discriminate.
    + cbn [map fst]. constructor; [|apply (inv_mapnd _ _ HI)].
      intros Hin. apply in_map_iff in Hin as ([k' [h a]] & E & Hin). cbn [fst] in E. subst k'.
      destruct (lookup k (f_map s)) eqn:E2; [discriminate|].
      clear -E2 Hin. revert E2. induction (f_map s) as [|[k1 v1] m IH]; [destruct Hin|].
      rewrite lookup_cons. destruct (id_list_eqb k k1) eqn:E; [discriminate|].
      destruct Hin as [[= -> ->]|Hin]; [rewrite id_list_eqb_refl in E; discriminate|auto].
    + intros k' h' a'. rewrite lookup_cons. destruct (id_list_eqb k' k) eqn:Ek.
      * apply id_list_eqb_spec in Ek as ->. split.
        -- intros [= <- <-]. rewrite (inv_next _ _ HI). split; [apply nth_error_snoc_last|].
           rewrite <- (inv_lc _ _ HI). apply nth_error_snoc_last.
        -- intros [Hh' Hc']. apply nth_error_snoc in Hh' as [[Hh' Hl]|[-> _]].
           ++ exfalso. apply Hfresh. eapply nth_error_In; eauto.
           ++ rewrite <- (inv_lc _ _ HI), nth_error_snoc_last in Hc'. injection Hc' as <-.
              now rewrite (inv_next _ _ HI).
      * rewrite (inv_map _ _ HI). split.
        -- intros [Hh' Hc']. split; now apply nth_error_snoc_old.
        -- intros [Hh' Hc']. apply nth_error_snoc in Hh' as [[Hh' Hl]|[_ ->]].
           ++ split; [assumption|]. apply nth_error_snoc in Hc' as [[Hc' _]|[E _]]; [assumption|].
              rewrite (inv_lc _ _ HI) in E. lia.
           ++ rewrite id_list_eqb_refl in Ek. discriminate.
    + assumption.
    + intros i j Hij. apply HPq in Hij as [Hij|Hij].
      * destruct (inv_centry _ _ HI _ _ Hij) as (h' & He' & Hn'). exists h'. split; [|now apply nth_error_snoc_old].
        apply Hecf. destruct ((i =? i0) && (j =? j0)) eqn:Eb; [|assumption].
        apply andb_true_iff in Eb as [E1 E2]. apply Nat.eqb_eq in E1, E2. subst. contradiction.
      * injection Hij as -> ->. exists (f_next s). split; [apply Hecf; now rewrite !Nat.eqb_refl|].
        rewrite (inv_next _ _ HI). apply nth_error_snoc_last.
    + apply (inv_nshape _ _ HI).
    + intros i j Hi' Hj' i'. rewrite (inv_nentry _ _ HI) by assumption. split.
      * intros (H1 & H2 & j' & H3 & H4). split; [apply HPq; now left|]. split; [assumption|].
        exists j'. split; [apply HPq; now left|assumption].
      * intros (H1 & H2 & j' & H3 & H4). apply HPq in H1 as [H1|H1]; apply HPq in H3 as [H3|H3].
        -- eauto 7.
        -- exfalso. rewrite H3 in H4. fold k in H4. exact (Hnone _ H1 (eq_sym H4)).
        -- exfalso. rewrite H1 in H4. fold k in H4. exact (Hnone _ H3 H4).
        -- exfalso. congruence.
Qed.

Lemma facets_ok : exists s,
  foldM (fun s ij => r <- facet_step cells pattern s ij ;; Ok (fst (fst r)))
        (loop_pairs cells pattern) (facets_init cells D pattern) = Ok s /\ Inv (loop_pairs cells pattern) s.
Proof.
  apply (facet_loop (fun s ij => r <- facet_step cells pattern s ij ;; Ok (fst (fst r))) Inv).
  - apply Inv_init.
  - intros P s q HP Hq Hn HI. destruct (Inv_step P s q HP Hq Hn HI) as (s' & b & h & E & HI' & _).
    exists s'. rewrite E. split; [reflexivity|assumption].
Qed.

(* ---- what the invariant says at the end ---- *)
Section Final.
Variable s : facets.
Hypothesis HI : Inv (loop_pairs cells pattern) s.

Lemma final_nodes e : In e (f_nodes s) <-> exists i, cell_has cells i e.
Proof.
  rewrite (inv_in _ _ HI). split.
  - intros ([i j] & Hq & <-). apply loop_pairs_in in Hq as [Hi Hj]. exists i. now apply key_facet.
  - intros (i & H). apply facet_key in H as (Hi & j & Hj & ->). exists (i, j).
    split; [|reflexivity]. now apply loop_pairs_in.
Qed.
Lemma final_cell_facets i c : nth_error cells i = Some c ->
  exists row, nth_error (c_facets s) i = Some row /\ length row = D /\
    (forall o, In o row -> exists h e, o = Some h /\ nth_error (f_nodes s) h = Some e /\ facet_of e c) /\
    (forall e, facet_of e c -> exists h, In (Some h) row /\ nth_error (f_nodes s) h = Some e) /\
    NoDup row /\
    (forall j, j < D -> exists h e v, nth_error row j = Some (Some h) /\ nth_error (f_nodes s) h = Some e /\
        nth_error c (D - 1 - j) = Some v /\ facet_of e c /\ ~ In v e).
Proof.
  intros Hc. assert (Hi : i < n) by (apply nth_error_Some; congruence).
  destruct (inv_cshape _ _ HI) as [Hl Hr].
  destruct (nth_error (c_facets s) i) as [row|] eqn:Erow; [|apply nth_error_None in Erow; lia].
  exists row. split; [reflexivity|]. assert (Hlr : length row = D) by (apply Hr; eapply nth_error_In; eauto).
  split; [assumption|].
  assert (HE : forall j, j < D -> exists h, nth_error row j = Some (Some h) /\ nth_error (f_nodes s) h = Some (key (i, j))).
  { intros j Hj. destruct (inv_centry _ _ HI i j) as (h & (row' & Hrow' & He) & Hn).
    - now apply loop_pairs_in.
    - rewrite Erow in Hrow'. injection Hrow' as <-. eauto. }
  split; [|split; [|split]].
  - intros o Ho. apply In_nth_error in Ho as (j & Hj).
    assert (j < D) by (rewrite <- Hlr; apply nth_error_Some; congruence).
    destruct (HE j ltac:(assumption)) as (h & Hh & Hn). exists h, (key (i, j)).
    split; [congruence|]. split; [assumption|].
    destruct (key_facet i j Hi ltac:(assumption)) as (c' & Hc' & Hf). congruence.
  - intros e He. destruct (facet_key i e) as (_ & j & Hj & ->); [exists c; auto|].
    destruct (HE j Hj) as (h & Hh & Hn). exists h. split; [eapply nth_error_In; eauto|assumption].
  - apply NoDup_nth_error. intros j j' Hj Hjj.
    assert (Hj' : j' < length row) by (apply nth_error_Some; rewrite <- Hjj; now apply nth_error_Some).
    destruct (HE j ltac:(lia)) as (h & Hh & Hn). destruct (HE j' ltac:(lia)) as (h' & Hh' & Hn').
    apply (key_inj i); [assumption|lia|lia|]. congruence.
  - intros j Hj. destruct (HE j Hj) as (h & Hh & Hn).
    destruct (key_facts i j Hi Hj) as (c' & x & Hc' & Hx & _ & Hlc & Hs & Hlk & Hnx & Hin).
    rewrite Hc in Hc'. injection Hc' as <-.
    exists h, (key (i, j)), x. split; [assumption|]. split; [assumption|]. split; [assumption|].
    split; [|assumption].
    destruct (key_facet i j Hi Hj) as (c' & Hc' & Hf). congruence.
Qed.
Lemma final_neighbors i p i' : i < n -> p < D ->
  (entry (f_neigh s) i p (Some i') <-> adjacent_opposite cells i p i').
Proof.
  intros Hi Hp. pose proof (inv_nentry _ _ HI i (D - 1 - p) Hi ltac:(lia) i') as H.
  replace (D - 1 - (D - 1 - p)) with p in H by lia. rewrite H. clear H.
  destruct (key_facts i (D - 1 - p) Hi ltac:(lia)) as (c & x & Hc & Hx & Hnd & Hlc & Hs & Hlk & Hnx & Hin).
  replace (D - 1 - (D - 1 - p)) with p in Hx by lia.
  split.
  - intros (_ & Hne & j' & Hj' & Ek). apply loop_pairs_in in Hj' as [Hi' Hj']. cbn [fst snd] in *.
    split; [auto|]. exists c, x, (key (i, D - 1 - p)).
    split; [assumption|]. split; [assumption|].
    destruct (key_facet i (D - 1 - p) Hi ltac:(lia)) as (c' & Hc' & Hf). rewrite Hc in Hc'. injection Hc' as <-.
    split; [assumption|]. split; [assumption|]. rewrite <- Ek. now apply key_facet.
  - intros (Hne & c' & v & e & Hc' & Hv & Hf & Hnv & Hh). rewrite Hc in Hc'. injection Hc' as <-.
    rewrite Hx in Hv. injection Hv as <-.
    split; [apply loop_pairs_in; split; cbn; [assumption|lia]|]. split; [auto|].
    assert (He : e = key (i, D - 1 - p)).
    { destruct (facet_key i e) as (_ & j & Hj & ->); [exists c; auto|].
      destruct (key_facts i j Hi Hj) as (c' & x' & Hc' & Hx' & _ & _ & _ & _ & _ & Hin').
      rewrite Hc in Hc'. injection Hc' as <-.
      assert (x = x'). { assert (Hxc : In x c) by (eapply nth_error_In; eauto). apply Hin' in Hxc as [|]; [assumption|contradiction]. }
      subst x'. do 2 f_equal.
      assert (p = D - 1 - j); [|lia].
      eapply nodup_nth; eassumption. }
    apply facet_key in Hh as (Hi' & j' & Hj' & Ek). exists j'.
    split; [apply loop_pairs_in; split; cbn; assumption|congruence].
Qed.
Lemma final_neigh_shape : shaped (f_neigh s) n D.
Proof. apply (inv_nshape _ _ HI). Qed.
Lemma final_boundary h e : nth_error (f_nodes s) h = Some e ->
  exists a o, nth_error (f_cells s) h = Some (a, o) /\
    nth_error (f_mark s) h = Some (match o with None => true | Some _ => false end) /\
    (forall b, o = Some b -> a <> b) /\
    (forall i, cell_has cells i e <-> i = a \/ o = Some i).
Proof.
  intros Hh. assert (Hl : h < length (f_nodes s)) by (apply nth_error_Some; congruence).
  assert (HX : forall i, cell_has cells i e <-> exists j, In (i, j) (loop_pairs cells pattern) /\ key (i, j) = e).
  { intros i. split.
    - intros H. apply facet_key in H as (Hi & j & Hj & ->). exists j. split; [now apply loop_pairs_in|reflexivity].
    - intros (j & Hj & <-). apply loop_pairs_in in Hj as [Hi Hj]. now apply key_facet. }
  destruct (nth_error (f_cells s) h) as [[a o]|] eqn:Ec; [|apply nth_error_None in Ec; rewrite (inv_lc _ _ HI) in Ec; lia].
  exists a, o. split; [reflexivity|]. destruct o as [b|].
  - destruct (inv_two _ _ HI _ _ _ _ Hh Ec) as (Hm & Hab & ja & jb & Ht). split; [assumption|].
    split; [intros b' [= <-]; assumption|]. intros i. rewrite HX. split.
    + intros (j & Hj). apply Ht in Hj as [[= -> ->]|[= -> ->]]; auto.
    + intros [->|[= ->]]; [exists ja|exists jb]; apply Ht; auto.
  - destruct (inv_one _ _ HI _ _ _ Hh Ec) as (Hm & ja & Ht). split; [assumption|].
    split; [discriminate|]. intros i. rewrite HX. split.
    + intros (j & Hj). apply Ht in Hj as [= -> ->]; auto.
    + intros [->|[=]]. exists ja; apply Ht; auto.
Qed.
Lemma final_nodup : NoDup (f_nodes s) /\ length (f_cells s) = length (f_nodes s) /\ length (f_mark s) = length (f_nodes s).
Proof. split; [apply (inv_nd _ _ HI)|split; [apply (inv_lc _ _ HI)|apply (inv_lm _ _ HI)]]. Qed.
End Final.
End Inv.
