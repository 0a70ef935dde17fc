(* Proofs about KdModel. *)
From Coq Require Import Permutation Lqa.
From Verif Require Import Base TreeModel KdModel TreeSpec TreeProofs KdSpec.

Lemma qlt_iff : forall x y, qlt x y = true <-> (x < y)%Q.
Proof.
  intros x y. unfold qlt. rewrite negb_true_iff. split; intros H.
  - apply Qnot_le_lt. intros L. apply Qle_bool_iff in L. congruence.
  - destruct (Qle_bool y x) eqn:E; auto. apply Qle_bool_iff in E. lra.
Qed.
Lemma qlt_false : forall x y, qlt x y = false <-> (y <= x)%Q.
Proof. intros x y. unfold qlt. rewrite negb_false_iff. apply Qle_bool_iff. Qed.
Lemma qle_iff : forall x y, qle x y = true <-> (x <= y)%Q.
Proof. intros. apply Qle_bool_iff. Qed.
Lemma qle_false : forall x y, qle x y = false <-> (y < x)%Q.
Proof.
  intros x y. unfold qle. split; intros H.
  - apply Qnot_le_lt. intros L. apply Qle_bool_iff in L. congruence.
  - destruct (Qle_bool x y) eqn:E; auto. apply Qle_bool_iff in E. lra.
Qed.
Lemma qlt_compat : forall x x' y y', (x == x')%Q -> (y == y')%Q -> qlt x y = qlt x' y'.
Proof.
  intros x x' y y' Hx Hy. destruct (qlt x' y') eqn:E.
  - apply qlt_iff in E. apply qlt_iff. lra.
  - apply qlt_false in E. apply qlt_false. lra.
Qed.

Lemma skipn_skipn {A} : forall x y (l : list A), skipn x (skipn y l) = skipn (y + x) l.
Proof.
  intros x y; induction y as [|y IH]; intros l; auto. destruct l as [|a l]; simpl; [apply skipn_nil|apply IH].
Qed.
(* ---- construction ------------------------------------------------------------------------- *)
Definition slice (ids : list nat) (b e : nat) : list nat := firstn (e - b) (skipn b ids).
Lemma slice_split : forall ids b m e, b <= m -> m <= e -> slice ids b e = slice ids b m ++ slice ids m e.
Proof.
  intros ids b m e H1 H2. unfold slice.
  replace (skipn m ids) with (skipn (m - b) (skipn b ids)) by (rewrite skipn_skipn; f_equal; lia).
  replace (firstn (e - b) (skipn b ids)) with (firstn ((m - b) + (e - m)) (skipn b ids)) by (f_equal; lia).
  generalize (skipn b ids) as l. generalize (e - m) as q. generalize (m - b) as k.
  induction k as [|k IH]; intros q l; simpl; auto. destruct l as [|x l]; simpl; [now rewrite firstn_nil|]. f_equal; apply IH.
Qed.
Lemma slice_single : forall ids i x, nth_error ids i = Some x -> slice ids i (S i) = [x].
Proof.
  intros ids i x H. unfold slice. replace (S i - i) with 1 by lia.
  revert i H; induction ids as [|y ids IH]; intros [|i] H; try discriminate.
  - injection H as <-; reflexivity.
  - apply IH; auto.
Qed.
Lemma slice_prefix : forall ids b e k, e <= k -> slice (firstn k ids) b e = slice ids b e.
Proof.
  intros ids b e k H. unfold slice. rewrite skipn_firstn_comm, firstn_firstn. f_equal. lia.
Qed.
Lemma slice_whole : forall ids, slice ids 0 (length ids) = ids.
Proof. intros. unfold slice. rewrite Nat.sub_0_r. simpl. apply firstn_all. Qed.
Lemma slice_three : forall ids b e, b <= e -> ids = firstn b ids ++ slice ids b e ++ skipn e ids.
Proof.
  intros ids b e H. rewrite <- (firstn_skipn b ids) at 1. f_equal. unfold slice.
  rewrite <- (firstn_skipn (e - b) (skipn b ids)) at 1. f_equal. rewrite skipn_skipn. f_equal. lia.
Qed.
Lemma rearranges_slice : forall ne, rearranges ne -> forall b m e dim ids, b <= m < e -> e <= length ids ->
  Permutation (slice (ne b m e dim ids) b e) (slice ids b e).
Proof.
  intros ne Hn b m e dim ids H1 H2. destruct (Hn b m e dim ids H1 H2) as [P [F S]].
  pose proof (slice_three (ne b m e dim ids) b e ltac:(lia)) as E1. pose proof (slice_three ids b e ltac:(lia)) as E2.
  rewrite F, S in E1. rewrite E1 in P at 1. rewrite E2 in P at 4.
  apply Permutation_app_inv_l in P. apply Permutation_app_inv_r in P. exact P.
Qed.

Fixpoint stack_ok (hi : nat) (st : list point_set) : Prop :=
  match st with
  | [] => True
  | ps :: st' => psb ps < pse ps /\ pse ps <= hi /\ stack_ok (psb ps) st'
  end.
Definition slices (ids : list nat) (st : list point_set) : list nat := flat_map (fun ps => slice ids (psb ps) (pse ps)) st.
Fixpoint stack_size (st : list point_set) : nat :=
  match st with [] => 0 | ps :: st' => (pse ps - psb ps) + stack_size st' end.
Lemma stack_ok_mono : forall st h1 h2, h1 <= h2 -> stack_ok h1 st -> stack_ok h2 st.
Proof. destruct st; simpl; auto. intros h1 h2 H [A [B C]]. repeat split; auto; lia. Qed.
Lemma slices_prefix : forall st ids ids' hi, stack_ok hi st -> firstn hi ids' = firstn hi ids -> slices ids' st = slices ids st.
Proof.
  induction st as [|ps st IH]; intros ids ids' hi H F; simpl; auto. destruct H as [A [B C]].
  unfold slices in *. simpl. f_equal.
  - rewrite <- (slice_prefix ids' (psb ps) (pse ps) hi), <- (slice_prefix ids (psb ps) (pse ps) hi), F by lia. reflexivity.
  - apply (IH ids ids' (psb ps)); auto.
    replace (psb ps) with (Nat.min (psb ps) hi) by lia. rewrite <- !firstn_firstn, F. reflexivity.
Qed.
Lemma slices_length : forall st ids hi, stack_ok hi st -> hi <= length ids -> length (slices ids st) = stack_size st.
Proof.
  induction st as [|ps st IH]; intros ids hi H L; auto. destruct H as [A [B C]].
  unfold slices in *; simpl. rewrite app_length, (IH ids (psb ps)); auto; [|lia].
  f_equal. unfold slice. rewrite firstn_length, skipn_length. lia.
Qed.

Section Build.
Variables (K : nat) (data : nat -> point).
Lemma build_loop_ok : forall ne, rearranges ne -> forall n fuel h o t ids dim stack,
  sane h -> owns h o t -> parents_ok h None t -> ordered_tree (kd_less K data) 0 t ->
  length ids = n -> stack_ok n stack -> Permutation (preorder t ++ slices ids stack) (seq 0 n) -> stack_size stack < fuel ->
  exists h' o' t', build_loop K data ne fuel h o ids dim stack = Ok (h', o') /\ sane h' /\ owns h' o' t' /\
    parents_ok h' None t' /\ ordered_tree (kd_less K data) 0 t' /\ Permutation (preorder t') (seq 0 n).
Proof.
  intros ne Hne n; induction fuel as [|fuel IH]; intros h o t ids dim stack Hs Ho Hp Hord Hlen Hst Hperm Hf; [lia|].
  destruct stack as [|ps stack].
  - cbn [build_loop]. exists h, o, t. unfold slices in Hperm. simpl in Hperm. rewrite app_nil_r in Hperm. auto 10.
  - cbn [build_loop]. destruct Hst as [A [B C]]. cbn [stack_size] in Hf.
    set (m := psb ps + (pse ps - psb ps) / 2).
    assert (Hm: psb ps <= m < pse ps).
    { unfold m. pose proof (Nat.div_lt (pse ps - psb ps) 2 ltac:(lia) ltac:(lia)). lia. }
    destruct (Hne (psb ps) m (pse ps) (psdim ps) ids Hm ltac:(lia)) as [P [F G]].
    pose proof (rearranges_slice ne Hne (psb ps) m (pse ps) (psdim ps) ids Hm ltac:(lia)) as PS.
    set (ids' := ne (psb ps) m (pse ps) (psdim ps) ids) in *.
    assert (L': length ids' = n) by (rewrite (Permutation_length P); auto).
    destruct (nth_error ids' m) as [x|] eqn:Ex; [|apply nth_error_None in Ex; lia].
    unfold nth_res. rewrite Ex. cbn [bind].
    assert (Hsz: msize t <= length ids).
    { rewrite <- preorder_length. apply Permutation_length in Hperm. rewrite app_length, seq_length in Hperm. lia. }
    destruct (push_ok (kd_less K data) h (length ids) o t x Hs Ho Hp Hsz) as (h1 & o1 & P1 & O1 & PA1 & S1 & N1 & _).
    rewrite P1. cbn [bind fst snd].
    set (sd := (dim + 1) mod K).
    set (st1 := if 0 <? m - psb ps then PSet (psb ps) m sd :: stack else stack).
    set (st2 := if 0 <? pse ps - (m + 1) then PSet (m + 1) (pse ps) sd :: st1 else st1).
    assert (K1: stack_ok m st1 /\ slices ids' st1 = slice ids' (psb ps) m ++ slices ids stack /\
                stack_size st1 = (m - psb ps) + stack_size stack).
    { pose proof (slices_prefix stack ids ids' (psb ps) C F) as E.
      unfold st1. destruct (0 <? m - psb ps) eqn:E0.
      - apply Nat.ltb_lt in E0. split; [|split].
        + simpl. repeat split; auto; lia.
        + unfold slices in *; simpl. now rewrite E.
        + reflexivity.
      - apply Nat.ltb_ge in E0. assert (m = psb ps) by lia. split; [|split].
        + apply (stack_ok_mono stack (psb ps)); auto; lia.
        + rewrite E. replace (slice ids' (psb ps) m) with (@nil nat); auto. unfold slice. now replace (m - psb ps) with 0 by lia.
        + lia. }
    destruct K1 as [K1 [K2 K3]].
    assert (K4: stack_ok n st2 /\ slices ids' st2 = slice ids' (m + 1) (pse ps) ++ slices ids' st1 /\
                stack_size st2 = (pse ps - (m + 1)) + stack_size st1).
    { unfold st2. destruct (0 <? pse ps - (m + 1)) eqn:E0.
      - apply Nat.ltb_lt in E0. split; [|split]; auto.
        cbn [stack_ok psb pse]. repeat split; try lia. apply (stack_ok_mono st1 m); auto; lia.
      - apply Nat.ltb_ge in E0. split; [|split].
        + apply (stack_ok_mono st1 m); auto; lia.
        + replace (slice ids' (m + 1) (pse ps)) with (@nil nat); auto. unfold slice. now replace (pse ps - (m + 1)) with 0 by lia.
        + lia. }
    destruct K4 as [K4 [K5 K6]].
    apply (IH h1 o1 (minsert (kd_less K data) 0 (next h) x t) ids' sd st2); auto.
    + apply minsert_search; auto.
    + rewrite minsert_preorder, K5, K2. rewrite <- Hperm. unfold slices at 2. simpl. fold (slices ids stack).
      rewrite <- PS. rewrite (slice_split ids' (psb ps) m (pse ps)), (slice_split ids' m (m + 1) (pse ps)) by lia.
      replace (m + 1) with (S m) by lia. rewrite (slice_single ids' m x Ex).
      change (x :: preorder t ++ slice ids' (S m) (pse ps) ++ slice ids' (psb ps) m ++ slices ids stack)
        with ((x :: preorder t) ++ slice ids' (S m) (pse ps) ++ slice ids' (psb ps) m ++ slices ids stack).
      rewrite !app_assoc. apply Permutation_app_tail. rewrite <- !app_assoc. simpl.
      rewrite Permutation_middle. apply Permutation_app_head.
      rewrite Permutation_app_comm. simpl. rewrite Permutation_middle. reflexivity.
    + lia.
Qed.
End Build.

Lemma kd_build_ok : forall K data ne n h, rearranges ne -> 0 < n -> sane h ->
  exists h' o t, kd_build K data ne n h = Ok (h', o) /\ sane h' /\ owns h' o t /\ parents_ok h' None t /\
    ordered_tree (kd_less K data) 0 t /\ Permutation (preorder t) (seq 0 n).
Proof.
  intros K data ne n h Hne Hn Hs. unfold kd_build.
  apply (build_loop_ok K data ne Hne n (S n) h empty_tree MLeaf (seq 0 n) 0 [PSet 0 n 0]); auto.
  - repeat split; simpl; auto; constructor.
  - simpl; auto.
  - simpl; auto.
  - apply seq_length.
  - simpl; lia.
  - unfold slices; simpl. rewrite app_nil_r. rewrite <- (seq_length n 0) at 2. rewrite slice_whole. reflexivity.
  - simpl; lia.
Qed.

(* ---- range search ------------------------------------------------------------------------- *)
Lemma contained_from_iff : forall k d ll ur p, contained_from k d ll ur p = true <->
  forall i, d <= i < d + k -> (ll i <= p i)%Q /\ (p i <= ur i)%Q.
Proof.
  induction k as [|k IH]; intros d ll ur p; simpl.
  - split; [intros _ i Hi; lia|auto].
  - destruct (qlt (ur d) (p d) || qlt (p d) (ll d)) eqn:E.
    + split; [discriminate|]. intros H. specialize (H d ltac:(lia)). apply orb_true_iff in E. rewrite !qlt_iff in E. lra.
    + apply orb_false_iff in E. rewrite !qlt_false in E. rewrite IH. split.
      * intros H i Hi. destruct (Nat.eq_dec i d) as [->|]; [lra|]. apply H; lia.
      * intros H i Hi. apply H; lia.
Qed.
Lemma contained_iff : forall K ll ur p, contained K ll ur p = true <-> in_box K ll ur p.
Proof.
  intros. unfold contained, in_box. rewrite contained_from_iff. split; intros H d Hd; apply H; lia.
Qed.
Lemma set_insert_in : forall x s i, In i (set_insert x s) <-> i = x \/ In i s.
Proof.
  intros x s i. unfold set_insert. destruct (existsb (Nat.eqb x) s) eqn:E; simpl; [|intuition].
  apply existsb_exists in E. destruct E as [y [Hy Ey]]. apply Nat.eqb_eq in Ey; subst y.
  split; auto. intros [->|]; auto.
Qed.
Lemma set_insert_nodup : forall x s, NoDup s -> NoDup (set_insert x s).
Proof.
  intros x s H. unfold set_insert. destruct (existsb (Nat.eqb x) s) eqn:E; auto. constructor; auto.
  intros Hi. assert (existsb (Nat.eqb x) s = true); [|congruence]. apply existsb_exists. exists x; split; auto. apply Nat.eqb_refl.
Qed.

Section Range.
Variables (K : nat) (data : nat -> point) (h : heap nat) (ll ur : point).
Hypothesis HK : 0 < K.
Definition entry_ok (e : nat * mtree nat) : Prop :=
  snd e <> MLeaf /\ holds h (fst e) (snd e) /\ ordered_tree (kd_less K data) (fst e) (snd e).
Definition entries_size (es : list (nat * mtree nat)) : nat := list_sum (map (fun e => msize (snd e)) es).
Definition hit (es : list (nat * mtree nat)) (i : nat) : Prop :=
  exists e, In e es /\ In i (preorder (snd e)) /\ in_box K ll ur (data i).

Lemma range_loop_ok : forall fuel es res, Forall entry_ok es -> entries_size es <= fuel -> NoDup res ->
  exists res', range_loop K data h ll ur fuel (map (fun e => raddr (snd e)) es) res = Ok res' /\ NoDup res' /\
    forall i, In i res' <-> In i res \/ hit es i.
Proof.
  induction fuel as [|fuel IH]; intros es res HF Hsz ND.
  - destruct es as [|[d t] es].
    + exists res. simpl. split; [auto|]. split; [auto|]. intros i; split; auto. intros [|[e [[] _]]]; auto.
    + exfalso. inversion HF as [|? ? [Hn _] _]; subst. simpl in Hn. unfold entries_size in Hsz. simpl in Hsz.
      destruct t; [congruence|]. simpl in Hsz; lia.
  - destruct es as [|[d t] es].
    + exists res. simpl. split; [auto|]. split; [auto|]. intros i; split; auto. intros [|[e [[] _]]]; auto.
    + inversion HF as [|? ? [Hn [Hh Ho]] HF']; subst. cbn [fst snd] in *.
      destruct t as [|a x l r]; [congruence|].
      cbn [map snd raddr range_loop]. cbn [holds] in Hh. destruct Hh as [[par E] [Hl Hr]].
      rewrite (deref_ok _ _ _ E). cbn [bind ndata ndepth nleft nright].
      cbn [ordered_tree] in Ho. destruct Ho as [OL [OR [Ol Or]]].
      set (D := d mod K) in *. assert (HD: D < K) by (apply Nat.mod_upper_bound; lia).
      set (es1 := (if qle (ll D) (data x D) then match l with MLeaf => [] | _ => [(S d, l)] end else []) ++ es).
      set (es2 := (if qle (data x D) (ur D) then match r with MLeaf => [] | _ => [(S d, r)] end else []) ++ es1).
      assert (E1: match raddr l with Some b => if qle (ll D) (data x D) then Some b :: map (fun e => raddr (snd e)) es else map (fun e => raddr (snd e)) es
                   | None => map (fun e => raddr (snd e)) es end = map (fun e => raddr (snd e)) es1).
      { unfold es1. destruct l; simpl; destruct (qle (ll D) (data x D)); auto. }
      rewrite E1.
      assert (E2: match raddr r with Some b => if qle (data x D) (ur D) then Some b :: map (fun e => raddr (snd e)) es1 else map (fun e => raddr (snd e)) es1
                   | None => map (fun e => raddr (snd e)) es1 end = map (fun e => raddr (snd e)) es2).
      { unfold es2. destruct r; simpl; destruct (qle (data x D) (ur D)); auto. }
      rewrite E2.
      set (res1 := if contained K ll ur (data x) then set_insert x res else res).
      destruct (IH es2 res1) as (res' & A & B & C).
      { unfold es2, es1. apply Forall_app; split; [|apply Forall_app; split; auto].
        - destruct (qle (data x D) (ur D)); [|constructor]. destruct r; constructor; [|constructor]. split; [discriminate|]. split; auto.
        - destruct (qle (ll D) (data x D)); [|constructor]. destruct l; constructor; [|constructor]. split; [discriminate|]. split; auto. }
      { unfold es2, es1, entries_size in *. rewrite !map_app, !list_sum_app. cbn [map snd] in Hsz.
        change (list_sum (msize (MNode a x l r) :: map (fun e => msize (snd e)) es))
          with (msize (MNode a x l r) + list_sum (map (fun e => msize (snd e)) es)) in Hsz. cbn [msize] in Hsz.
        assert (Hr': list_sum (map (fun e : nat * mtree nat => msize (snd e)) (if qle (data x D) (ur D) then match r with MLeaf => [] | MNode _ _ _ _ => [(S d, r)] end else [])) <= msize r).
        { destruct (qle (data x D) (ur D)); [|simpl; lia]. destruct r; simpl; lia. }
        assert (Hl': list_sum (map (fun e : nat * mtree nat => msize (snd e)) (if qle (ll D) (data x D) then match l with MLeaf => [] | MNode _ _ _ _ => [(S d, l)] end else [])) <= msize l).
        { destruct (qle (ll D) (data x D)); [|simpl; lia]. destruct l; simpl; lia. }
        lia. }
      { unfold res1. destruct (contained K ll ur (data x)); auto. apply set_insert_nodup; auto. }
      exists res'. split; [exact A|]. split; [exact B|]. intros i. rewrite C.
      assert (R1: In i res1 <-> In i res \/ (i = x /\ in_box K ll ur (data x))).
      { unfold res1. destruct (contained K ll ur (data x)) eqn:Ec.
        - rewrite set_insert_in. apply contained_iff in Ec. tauto.
        - assert (~ in_box K ll ur (data x)) by (rewrite <- contained_iff, Ec; discriminate). tauto. }
      assert (HL: (exists e, In e (if qle (ll D) (data x D) then match l with MLeaf => [] | _ => [(S d, l)] end else []) /\ In i (preorder (snd e)) /\ in_box K ll ur (data i))
                  <-> In i (preorder l) /\ in_box K ll ur (data i)).
      { destruct (qle (ll D) (data x D)) eqn:Eq.
        - destruct l; simpl; [split; [intros [e [[] _]]|intros [[] _]]|].
          split; [intros [e [[<-|[]] Hx]]; exact Hx|intros Hx; eexists; split; [left; reflexivity|exact Hx]].
        - split; [intros [e [[] _]]|]. intros [Hi Hb]. exfalso. rewrite Forall_forall in OL. specialize (OL i Hi).
          unfold kd_less in OL. fold D in OL. apply qlt_iff in OL. apply qle_false in Eq. destruct (Hb D HD). lra. }
      assert (HR: (exists e, In e (if qle (data x D) (ur D) then match r with MLeaf => [] | _ => [(S d, r)] end else []) /\ In i (preorder (snd e)) /\ in_box K ll ur (data i))
                  <-> In i (preorder r) /\ in_box K ll ur (data i)).
      { destruct (qle (data x D) (ur D)) eqn:Eq.
        - destruct r; simpl; [split; [intros [e [[] _]]|intros [[] _]]|].
          split; [intros [e [[<-|[]] Hx]]; exact Hx|intros Hx; eexists; split; [left; reflexivity|exact Hx]].
        - split; [intros [e [[] _]]|]. intros [Hi Hb]. exfalso. rewrite Forall_forall in OR. specialize (OR i Hi).
          unfold kd_less in OR. fold D in OR. apply qlt_false in OR. apply qle_false in Eq. destruct (Hb D HD). lra. }
      assert (HA: hit es2 i <-> (In i (preorder r) /\ in_box K ll ur (data i)) \/ (In i (preorder l) /\ in_box K ll ur (data i)) \/ hit es i).
      { rewrite <- HL, <- HR. unfold hit, es2, es1. split.
        - intros [e [Hi Hx]]. apply in_app_or in Hi. destruct Hi as [Hi|Hi]; [left; eauto|]. apply in_app_or in Hi. destruct Hi; [right; left; eauto|right; right; eauto].
        - intros [[e [Hi Hx]]|[[e [Hi Hx]]|[e [Hi Hx]]]]; exists e; split; auto; apply in_or_app; auto; right; apply in_or_app; auto. }
      rewrite R1, HA. unfold hit. split.
      * intros [[Hi|[-> Hb]]|[[Hi Hb]|[[Hi Hb]|[e [Hi Hx]]]]]; auto; right.
        -- exists (d, MNode a x l r). simpl. auto.
        -- exists (d, MNode a x l r). simpl. rewrite in_app_iff. auto.
        -- exists (d, MNode a x l r). simpl. rewrite in_app_iff. auto.
        -- exists e. simpl. auto.
      * intros [Hi|[e [[<-|Hi] [Hp Hb]]]]; auto.
        -- simpl in Hp. rewrite in_app_iff in Hp. destruct Hp as [<-|[Hp|Hp]]; auto.
        -- right; right; right. exists e; auto.
Qed.
End Range.

(* ---- nearest neighbour -------------------------------------------------------------------- *)
Section NN.
Variables (K : nat) (data : nat -> point) (h : heap nat) (p : point).

Fixpoint spine (d : nat) (t : mtree nat) : list (nat * mtree nat) :=
  match t with
  | MLeaf => []
  | MNode _ x MLeaf MLeaf => [(d, t)]
  | MNode _ x l r => (d, t) :: spine (S d) (if qlt (p (d mod K)) (data x (d mod K)) then l else r)
  end.
Definition rootval (e : nat * mtree nat) : nat := match snd e with MNode _ x _ _ => x | MLeaf => 0 end.
Definition rootaddr (e : nat * mtree nat) : addr := match snd e with MNode a _ _ _ => a | MLeaf => 0 end.

Lemma spine_descent : forall t d l, descent K data p d t = Some l -> map rootval (spine d t) = l.
Proof.
  induction t as [|a x l IHl r IHr]; intros d q H; [discriminate|].
  cbn [descent spine] in *.
  destruct l as [|la lx ll lr]; [destruct r as [|ra rx rl rr]|].
  - inversion H; reflexivity.
  - destruct (qlt (p (d mod K)) (data x (d mod K))); [discriminate|].
    destruct (descent K data p (S d) (MNode ra rx rl rr)) as [q'|] eqn:E; [|discriminate].
    injection H as H. cbn [map]. rewrite (IHr _ _ E). exact H.
  - destruct (qlt (p (d mod K)) (data x (d mod K))).
    + destruct (descent K data p (S d) (MNode la lx ll lr)) as [q'|] eqn:E; [|discriminate].
      injection H as H. cbn [map]. rewrite (IHl _ _ E). exact H.
    + destruct (descent K data p (S d) r) as [q'|] eqn:E; [|discriminate].
      injection H as H. cbn [map]. rewrite (IHr _ _ E). exact H.
Qed.

Lemma walk_down_ok : forall t d fuel st, holds h d t -> height t < fuel ->
  walk_down K data h p fuel (raddr t) st =
  match descent K data p d t with Some _ => Ok (rev (map rootaddr (spine d t)) ++ st) | None => UB end.
Proof.
  induction t as [|a x l IHl r IHr]; intros d fuel st Hh Hf; (destruct fuel as [|fuel]; [simpl in Hf; lia|]).
  - reflexivity.
  - cbn [holds] in Hh. destruct Hh as [[par E] [Hl Hr]]. cbn [height] in Hf.
    cbn [raddr walk_down]. rewrite (deref_ok _ _ _ E). cbn [bind ndata ndepth nleft nright].
    assert (G: forall e, rev (map rootaddr ((d, e) :: spine (S d) (if qlt (p (d mod K)) (data x (d mod K)) then l else r))) ++ st
                       = rev (map rootaddr (spine (S d) (if qlt (p (d mod K)) (data x (d mod K)) then l else r))) ++ rootaddr (d, e) :: st).
    { intros e. cbn [map rev]. rewrite <- app_assoc. reflexivity. }
    destruct l as [|la lx ll lr]; [destruct r as [|ra rx rl rr]|].
    + reflexivity.
    + cbn [raddr descent spine]. rewrite G. clear G.
      destruct (qlt (p (d mod K)) (data x (d mod K))).
      * cbn [option_map descent]. change (@None addr) with (@raddr nat MLeaf). rewrite (IHl (S d)); auto. simpl. lia.
      * change (Some ra) with (raddr (MNode ra rx rl rr)). rewrite (IHr (S d)); auto; [|lia].
        destruct (descent K data p (S d) (MNode ra rx rl rr)); reflexivity.
    + cbn [raddr descent spine]. rewrite G. clear G.
      change (Some la) with (raddr (MNode la lx ll lr)).
      destruct (qlt (p (d mod K)) (data x (d mod K))).
      * rewrite (IHl (S d)); auto; [|lia]. destruct (descent K data p (S d) (MNode la lx ll lr)); reflexivity.
      * rewrite (IHr (S d)); auto; [|lia]. destruct (descent K data p (S d) r); reflexivity.
Qed.

(* every suffix of a spine is the spine of its head *)
Lemma spine_tail : forall t d e, In e (spine d t) -> holds h d t -> (exists l, descent K data p d t = Some l) ->
  holds h (fst e) (snd e) /\ snd e <> MLeaf /\ height (snd e) <= height t /\
  (exists l, descent K data p (fst e) (snd e) = Some l) /\ incl (spine (fst e) (snd e)) (spine d t).
Proof.
  induction t as [|a x l IHl r IHr]; intros d e Hi Hh [q Hd]; [destruct Hi|].
  assert (Self: e = (d, MNode a x l r) -> holds h (fst e) (snd e) /\ snd e <> MLeaf /\ height (snd e) <= height (MNode a x l r) /\
     (exists l, descent K data p (fst e) (snd e) = Some l) /\ incl (spine (fst e) (snd e)) (spine d (MNode a x l r))).
  { intros ->. cbn [fst snd]. split; auto. split; [discriminate|]. split; auto. split; [eauto|]. apply incl_refl. }
  assert (Sub: forall c, (c = l \/ c = r) -> (forall e, In e (spine (S d) c) -> holds h (S d) c -> (exists l, descent K data p (S d) c = Some l) ->
             holds h (fst e) (snd e) /\ snd e <> MLeaf /\ height (snd e) <= height c /\ (exists l, descent K data p (fst e) (snd e) = Some l) /\ incl (spine (fst e) (snd e)) (spine (S d) c)) ->
     spine d (MNode a x l r) = (d, MNode a x l r) :: spine (S d) c -> (exists l, descent K data p (S d) c = Some l) ->
     holds h (fst e) (snd e) /\ snd e <> MLeaf /\ height (snd e) <= height (MNode a x l r) /\
     (exists l, descent K data p (fst e) (snd e) = Some l) /\ incl (spine (fst e) (snd e)) (spine d (MNode a x l r))).
  { intros c Hc IHc Es Hdc. rewrite Es in Hi. destruct Hi as [Hi|Hi]; [apply Self; auto|].
    assert (Hhc: holds h (S d) c). { cbn [holds] in Hh. destruct Hh as [_ [H1 H2]]. destruct Hc; subst; auto. }
    destruct (IHc e Hi Hhc Hdc) as (A & B & C & D & F). split; auto. split; auto. split; [cbn [height]; destruct Hc; subst; lia|].
    split; auto. rewrite Es. intros z Hz. right. apply F; auto. }
  cbn [spine descent] in *.
  destruct l as [|la lx ll lr]; [destruct r as [|ra rx rl rr]|].
  - destruct Hi as [Hi|[]]. apply Self; auto.
  - destruct (qlt (p (d mod K)) (data x (d mod K))); [discriminate|].
    apply (Sub (MNode ra rx rl rr)); auto. 
    destruct (descent K data p (S d) (MNode ra rx rl rr)); [eauto|discriminate].
  - destruct (qlt (p (d mod K)) (data x (d mod K))).
    + apply (Sub (MNode la lx ll lr)); auto. destruct (descent K data p (S d) (MNode la lx ll lr)); [eauto|discriminate].
    + apply (Sub r); auto. destruct (descent K data p (S d) r); [eauto|discriminate].
Qed.

Definition wt (e : nat * mtree nat) : nat := 2 ^ length (spine (fst e) (snd e)).
Definition weight (es : list (nat * mtree nat)) : nat := list_sum (map wt es).

Lemma weight_spine : forall t d, (exists l, descent K data p d t = Some l) -> weight (spine d t) < 2 ^ (S (length (spine d t))).
Proof.
  induction t as [|a x l IHl r IHr]; intros d [q Hd]; [discriminate|].
  assert (Sub: forall c, spine d (MNode a x l r) = (d, MNode a x l r) :: spine (S d) c ->
     weight (spine (S d) c) < 2 ^ (S (length (spine (S d) c))) -> weight (spine d (MNode a x l r)) < 2 ^ S (length (spine d (MNode a x l r)))).
  { intros c Es Hc. unfold weight in *. rewrite Es. cbn [map].
    change (list_sum (wt (d, MNode a x l r) :: map wt (spine (S d) c))) with (wt (d, MNode a x l r) + list_sum (map wt (spine (S d) c))).
    unfold wt at 1. cbn [fst snd]. rewrite Es. cbn [length]. cbn [Nat.pow] in *. lia. }
  cbn [spine descent] in *.
  destruct l as [|la lx ll lr]; [destruct r as [|ra rx rl rr]|].
  - unfold weight, wt. simpl. lia.
  - destruct (qlt (p (d mod K)) (data x (d mod K))); [discriminate|].
    apply (Sub (MNode ra rx rl rr)); auto. apply IHr.
    destruct (descent K data p (S d) (MNode ra rx rl rr)); [eauto|discriminate].
  - destruct (qlt (p (d mod K)) (data x (d mod K))).
    + apply (Sub (MNode la lx ll lr)); auto. apply IHl. destruct (descent K data p (S d) (MNode la lx ll lr)); [eauto|discriminate].
    + apply (Sub r); auto. apply IHr. destruct (descent K data p (S d) r); [eauto|discriminate].
Qed.

(* what popping an entry of the spine pushes back: the spine below it *)
Lemma walk_near : forall a x l r d wf st, holds h d (MNode a x l r) -> height (MNode a x l r) < wf ->
  (exists q, descent K data p d (MNode a x l r) = Some q) ->
  exists es, walk K data h p wf (if qlt 0 (data x (d mod K) - p (d mod K)) then raddr l else raddr r) st
     = Ok (rev (map rootaddr es) ++ st) /\ spine d (MNode a x l r) = (d, MNode a x l r) :: es /\ weight es < wt (d, MNode a x l r).
Proof.
  intros a x l r d wf st Hh Hf [q Hd].
  assert (Eq: qlt 0 (data x (d mod K) - p (d mod K)) = qlt (p (d mod K)) (data x (d mod K))).
  { destruct (qlt (p (d mod K)) (data x (d mod K))) eqn:E.
    - apply qlt_iff in E. apply qlt_iff. lra.
    - apply qlt_false in E. apply qlt_false. lra. }
  rewrite Eq.
  assert (Sub: forall c b, (c = l \/ c = r) -> raddr c = Some b -> spine d (MNode a x l r) = (d, MNode a x l r) :: spine (S d) c ->
     (exists q, descent K data p (S d) c = Some q) ->
     exists es, walk K data h p wf (Some b) st = Ok (rev (map rootaddr es) ++ st) /\ spine d (MNode a x l r) = (d, MNode a x l r) :: es /\ weight es < wt (d, MNode a x l r)).
  { intros c b Hc Eb Es Hdc. exists (spine (S d) c). split; [|split; [auto|]].
    - cbn [walk]. rewrite <- Eb. cbn [holds] in Hh. destruct Hh as [_ [H1 H2]].
      rewrite (walk_down_ok c (S d)); [|destruct Hc; subst; auto|cbn [height] in Hf; destruct Hc; subst; lia].
      destruct Hdc as [q' ->]. reflexivity.
    - unfold wt. cbn [fst snd]. rewrite Es. cbn [length]. apply weight_spine; auto. }
  cbn [descent] in Hd. cbn [spine] in *.
  destruct l as [|la lx ll lr]; [destruct r as [|ra rx rl rr]|].
  - exists []. cbn [raddr walk]. destruct (qlt (p (d mod K)) (data x (d mod K))); (split; [reflexivity|]; split; [reflexivity|]); unfold weight, wt; simpl; lia.
  - destruct (qlt (p (d mod K)) (data x (d mod K))); [discriminate|].
    apply (Sub (MNode ra rx rl rr)); auto. destruct (descent K data p (S d) (MNode ra rx rl rr)); [eauto|discriminate].
  - destruct (qlt (p (d mod K)) (data x (d mod K))).
    + apply (Sub (MNode la lx ll lr)); auto. destruct (descent K data p (S d) (MNode la lx ll lr)); [eauto|discriminate].
    + destruct r as [|ra rx rl rr]; [cbn in Hd; discriminate|].
      apply (Sub (MNode ra rx rl rr)); auto. destruct (descent K data p (S d) (MNode ra rx rl rr)); [eauto|discriminate].
Qed.

Lemma sqdist_nonneg : forall x y, (0 <= sqdist K x y)%Q.
Proof.
  intros x y. unfold sqdist. induction (seq 0 K) as [|d l IH]; simpl; [lra|].
  assert (0 <= (x d - y d) * (x d - y d))%Q.
  { destruct (Qlt_le_dec (x d - y d) 0).
    - setoid_replace ((x d - y d) * (x d - y d))%Q with ((-(x d - y d)) * (-(x d - y d)))%Q by ring. apply Qmult_le_0_compat; lra.
    - apply Qmult_le_0_compat; lra. }
  lra.
Qed.

(* best so far: an entry of S whose distance is recorded *)
Definition best_ok (S : list (nat * mtree nat)) (best : option (addr * Q)) : Prop :=
  match best with
  | None => True
  | Some (a, q) => exists e, In e S /\ rootaddr e = a /\ (sqdist K (data (rootval e)) p == q)%Q
  end.
Definition beats (best : option (addr * Q)) (i : nat) : Prop :=
  match best with None => False | Some (_, q) => (q <= sqdist K (data i) p)%Q end.

Lemma unwind_ok : forall d0 t0 wf, holds h d0 t0 -> (exists l, descent K data p d0 t0 = Some l) -> height t0 < wf ->
  forall fuel es best, incl es (spine d0 t0) -> weight es < fuel -> best_ok (spine d0 t0) best ->
  (es <> [] \/ best <> None) ->
  (forall e, In e (spine d0 t0) -> In e es \/ beats best (rootval e)) ->
  exists e, In e (spine d0 t0) /\ unwind K data h p wf fuel (map rootaddr es) best = Ok (Some (rootaddr e)) /\
    forall e', In e' (spine d0 t0) -> (sqdist K (data (rootval e)) p <= sqdist K (data (rootval e')) p)%Q.
Proof.
  intros d0 t0 wf Hh0 Hd0 Hwf.
  induction fuel as [|fuel IH]; intros es best Hinc Hw Hb Hne Hall; [lia|].
  destruct es as [|e es].
  - destruct best as [[a q]|]; [|destruct Hne; congruence]. destruct Hb as (e & He & Ea & Eq).
    exists e. split; auto. split; [simpl; now rewrite Ea|].
    intros e' He'. destruct (Hall e' He') as [[]|Hbt]. simpl in Hbt. lra.
  - assert (He: In e (spine d0 t0)) by (apply Hinc; left; auto).
    destruct (spine_tail t0 d0 e He Hh0 Hd0) as (Hh & Hnl & Hht & Hd & Hsub).
    destruct e as [d t]. cbn [fst snd] in *. destruct t as [|a x l r]; [congruence|].
    cbn [map]. change (rootaddr (d, MNode a x l r)) with a. cbn [unwind].
    pose proof Hh as Hh1. cbn [holds] in Hh. destruct Hh as [[par E] _]. rewrite (deref_ok _ _ _ E). cbn [bind ndata ndepth nleft nright].
    set (dist := sqdist K (data x) p) in *.
    set (best' := if dist_lt dist best then Some (a, dist) else best).
    assert (Hb': best_ok (spine d0 t0) best').
    { unfold best'. destruct (dist_lt dist best); auto. exists (d, MNode a x l r). split; auto. split; auto. reflexivity. }
    assert (Hx: forall i, beats best i \/ i = x -> beats best' i).
    { intros i. unfold best'. destruct best as [[b q]|]; cbn [dist_lt].
      - destruct (qlt dist q) eqn:El.
        + apply qlt_iff in El. intros [Hi| ->]; simpl in *; [lra|]. fold dist. lra.
        + apply qlt_false in El. intros [Hi| ->]; simpl in *; auto.
      - intros [[]| ->]. simpl. fold dist. lra. }
    destruct (dist_lt dist best && Qeq_bool dist 0) eqn:E0.
    + apply andb_true_iff in E0. destruct E0 as [_ E0]. apply Qeq_bool_iff in E0.
      exists (d, MNode a x l r). split; auto. split; [reflexivity|].
      intros e' _. change (rootval (d, MNode a x l r)) with x. fold dist. rewrite E0. apply sqdist_nonneg.
    + destruct (walk_near a x l r d wf (map rootaddr es) Hh1 ltac:(lia) Hd) as (es1 & W1 & W2 & W3).
      assert (Hw': weight ((d, MNode a x l r) :: es) = wt (d, MNode a x l r) + weight es) by reflexivity.
      assert (Go: forall es2, incl es2 (spine d0 t0) -> incl es es2 -> weight es2 < fuel ->
        exists e, In e (spine d0 t0) /\ unwind K data h p wf fuel (map rootaddr es2) best' = Ok (Some (rootaddr e)) /\
        forall e', In e' (spine d0 t0) -> (sqdist K (data (rootval e)) p <= sqdist K (data (rootval e')) p)%Q).
      { intros es2 Hi2 Hi3 Hw2. apply (IH es2 best'); auto.
        - right. unfold best'. destruct best; cbn [dist_lt]; [|discriminate]. destruct p0. destruct (qlt dist q); discriminate.
        - intros e' He'. destruct (Hall e' He') as [[<-|Hi]|Hbt].
          + right. apply Hx. right. reflexivity.
          + left; auto.
          + right; apply Hx; auto. }
      destruct (dist_lt _ best').
      * rewrite W1. cbn [bind]. rewrite <- map_rev, <- map_app. apply Go.
        -- apply incl_app; [|intros z Hz; apply Hinc; right; auto].
           intros z Hz. apply Hsub. rewrite W2. right. apply in_rev; auto.
        -- apply incl_appr, incl_refl.
        -- unfold weight in *. rewrite map_app, list_sum_app, map_rev.
           assert (Er: forall l, list_sum (rev l) = list_sum l).
           { induction l0 as [|y l0 IHl0]; auto. cbn [rev]. rewrite list_sum_app, IHl0. simpl. lia. }
           rewrite Er. lia.
      * cbn [bind]. apply Go; [intros z Hz; apply Hinc; right; auto|apply incl_refl|].
        assert (0 < wt (d, MNode a x l r)) by (unfold wt; apply Nat.neq_0_lt_0, Nat.pow_nonzero; lia). lia.
Qed.
End NN.
