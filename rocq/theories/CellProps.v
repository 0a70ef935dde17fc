(* C131-C133: the views of one cell, its boundary flag, and index based iteration. *)
From Coq Require Import Sorting.Permutation Sorted ZArith.
From Verif Require Import TriSpec TriProofs TriProofs2 TriProps.
From Verif Require Export CellModel.

(* ---- C133: index based iteration ---- *)
(* an iterator stands at position p of the sequence: reading it, when p is inside, gives the p-th item *)
Definition stands {A} (items : list A) (s : iter A) (p : Z) : Prop :=
  it_index A s = p /\ forall k v, p = Z.of_nat k -> nth_error items k = Some v -> it_deref A s = Ok v.

Lemma item_at_in {A} (items : list A) p : (0 <= p < Z.of_nat (length items))%Z ->
  exists k v, p = Z.of_nat k /\ nth_error items k = Some v /\ refresh A items p = Ok (Iter A p (Some v)).
Proof.
  intros H. exists (Z.to_nat p). destruct (nth_error items (Z.to_nat p)) as [v|] eqn:E.
  2:{ apply nth_error_None in E. lia. }
  exists v. split; [lia|]. split; [reflexivity|]. unfold refresh, item_at. replace (0 <=? p)%Z with true by lia.
  apply nth_res_ok in E. rewrite E. reflexivity.
Qed.
Lemma refresh_stands {A} (items : list A) p : (0 <= p < Z.of_nat (length items))%Z ->
  exists s, refresh A items p = Ok s /\ stands items s p.
Proof.
  intros H. destruct (item_at_in items p H) as (k & v & -> & Hv & E). eexists. split; [exact E|]. split; [reflexivity|].
  intros k' v' Hk Hv'. apply Nat2Z.inj in Hk as <-. rewrite Hv in Hv'. injection Hv' as <-. reflexivity.
Qed.
Lemma outside_stands {A} (items : list A) p o : (p < 0 \/ Z.of_nat (length items) <= p)%Z -> stands items (Iter A p o) p.
Proof.
  intros H. split; [reflexivity|]. intros k v -> Hv. exfalso.
  assert (k < length items) by (apply nth_error_Some; congruence). lia.
Qed.

Lemma loop_from {A} (items : list A) : forall f k s, k <= length items -> length items - k < f ->
  stands items s (Z.of_nat k) -> it_loop A items f s = Ok (skipn k items).
Proof.
  induction f as [|f IH]; intros k s Hk Hf [Hi Hs]; [lia|]. cbn [it_loop]. rewrite Hi. unfold it_end.
  destruct (Z.of_nat k =? Z.of_nat (length items))%Z eqn:E.
  { rewrite skipn_all2 by lia. reflexivity. }
  destruct (nth_error items k) as [v|] eqn:Hv. 2:{ apply nth_error_None in Hv. lia. }
  rewrite (Hs k v eq_refl Hv). cbn [bind]. unfold it_incr, it_end. rewrite Hi.
  assert (Hsk : skipn k items = v :: skipn (S k) items).
  { clear - Hv. revert k Hv. induction items as [|x l IH]; intros [|k] Hv; try discriminate.
    - injection Hv as ->. reflexivity.
    - simpl in Hv. simpl. rewrite (IH k Hv). reflexivity. }
  replace (Z.of_nat k + 1)%Z with (Z.of_nat (S k)) by lia.
  destruct (Z.of_nat (S k) <? Z.of_nat (length items))%Z eqn:L.
  - destruct (refresh_stands items (Z.of_nat (S k))) as (s' & Es & Hs'); [lia|]. rewrite Es. cbn [bind].
    rewrite (IH (S k) s') by (assumption || lia). cbn [bind]. now rewrite Hsk.
  - cbn [bind]. rewrite (IH (S k)); [|lia|lia|apply outside_stands; lia]. cbn [bind]. now rewrite Hsk.
Qed.

Theorem iterator_visits A (items : list A) fuel : length items < fuel -> it_visit A items fuel = Ok items.
Proof.
  intros Hf. unfold it_visit, it_make, it_end.
  destruct (0 <? Z.of_nat (length items))%Z eqn:E.
  - destruct (refresh_stands items 0%Z) as (s & Es & Hs); [lia|]. rewrite Es. cbn [bind].
    rewrite (loop_from items fuel 0 s); [reflexivity|lia|lia|assumption].
  - cbn [bind]. rewrite (loop_from items fuel 0); [reflexivity|lia|lia|apply outside_stands; lia].
Qed.

(* where a position moves to, and the moves that are allowed there: ++ and -- stay between one before the first and
   one past the last, + and - land on an item *)
Definition target (p : Z) (m : move) : Z :=
  match m with Incr => p + 1 | Decr => p - 1 | Plus k => p + k | Minus k => p - k end%Z.
Definition allowed {A} (items : list A) (p : Z) (m : move) : Prop :=
  let n := Z.of_nat (length items) in
  match m with
  | Incr | Decr => (-1 <= target p m <= n)%Z
  | Plus _ | Minus _ => (0 <= target p m < n)%Z
  end.
Inductive walk {A} (items : list A) : Z -> list move -> Z -> Prop :=
| walk_nil p : walk items p [] p
| walk_cons p m ms q : allowed items p m -> walk items (target p m) ms q -> walk items p (m :: ms) q.

Lemma move_stands {A} (items : list A) s p m : (-1 <= p <= Z.of_nat (length items))%Z -> stands items s p ->
  allowed items p m -> exists s', it_move A items s m = Ok s' /\ stands items s' (target p m).
Proof.
  intros Hp [Hi _] Ha. unfold allowed in Ha.
  destruct m as [| |k|k]; cbn [it_move target] in *; unfold it_incr, it_decr, it_plus, it_minus, it_end; rewrite ?Hi.
  - destruct (p + 1 <? Z.of_nat (length items))%Z eqn:E.
    + apply refresh_stands. lia.
    + eexists. split; [reflexivity|]. apply outside_stands. lia.
  - destruct (0 <=? p - 1)%Z eqn:E.
    + apply refresh_stands. lia.
    + eexists. split; [reflexivity|]. apply outside_stands. lia.
  - apply refresh_stands. lia.
  - apply refresh_stands. lia.
Qed.

Theorem iterator_walk A (items : list A) p ms q : (0 <= p <= Z.of_nat (length items))%Z -> walk items p ms q ->
  exists s, (s0 <- it_make A items p ;; foldM (it_move A items) ms s0) = Ok s /\ stands items s q.
Proof.
  intros Hp Hw.
  assert (H0 : exists s0, it_make A items p = Ok s0 /\ stands items s0 p).
  { unfold it_make, it_end. destruct (p <? Z.of_nat (length items))%Z eqn:E.
    - apply refresh_stands. lia.
    - eexists. split; [reflexivity|]. apply outside_stands. lia. }
  destruct H0 as (s0 & E0 & S0). rewrite E0. cbn [bind].
  assert (G : (-1 <= p <= Z.of_nat (length items))%Z) by lia. clear Hp E0.
  revert s0 S0 G. induction Hw as [p|p m ms q Ha Hw IH]; intros s0 S0 G.
  - exists s0. split; [reflexivity|assumption].
  - destruct (move_stands items s0 p m G S0 Ha) as (s1 & E1 & S1). cbn [foldM]. rewrite E1. cbn [bind].
    apply IH; [assumption|]. unfold allowed in Ha. destruct m; lia.
Qed.
(* + and - do not return to the end of the sequence, where ++ may go *)
Theorem iterator_plus_end_refuted : exists (items : list nat) (s : iter nat) k,
  it_make nat items 0%Z = Ok s /\ target 0%Z (Plus k) = Z.of_nat (length items) /\ it_move nat items s (Plus k) = UB /\
  exists s', foldM (it_move nat items) [Incr; Incr] s = Ok s' /\ stands items s' (Z.of_nat (length items)).
Proof.
  exists [5; 7], (Iter nat 0%Z (Some 5)), 2%Z. split; [reflexivity|]. split; [reflexivity|]. split; [reflexivity|].
  eexists. split; [reflexivity|]. apply outside_stands. simpl. lia.
Qed.
Example iterator_walk_example : walk [5; 7; 9] 0%Z [Incr; Incr; Incr; Decr; Minus 2; Decr; Incr; Plus 1] 1%Z /\
  (s <- (s0 <- it_make nat [5; 7; 9] 0%Z ;; foldM (it_move nat [5; 7; 9]) [Incr; Incr; Incr; Decr; Minus 2; Decr; Incr; Plus 1] s0) ;;
   it_deref nat s) = Ok 7.
Proof. split; [|reflexivity]. repeat (econstructor; [cbn; lia|]). constructor. Qed.

(* ---- C132: the boundary flag of a cell ---- *)
Definition marked (markers : list bool) (v : nat) : Prop := nth_error markers v = Some true.
(* a boundary facet belongs to one cell only *)
Definition boundary_facet (cells : list (list nat)) (f : list nat) : Prop :=
  exists i, forall i', cell_has cells i' f <-> i' = i.

Lemma count_markers markers row : (forall v, In v row -> v < length markers) -> forall n,
  foldM (fun acc v => m <- nth_res markers v ;; Ok (if (m : bool) then S acc else acc)) row n =
  Ok (n + length (filter (fun v => nth v markers false) row)).
Proof.
  induction row as [|v row IH]; intros Hb n; [simpl; f_equal; lia|]. cbn [foldM].
  destruct (nth_error markers v) as [m|] eqn:E. 2:{ apply nth_error_None in E. specialize (Hb v (or_introl eq_refl)). lia. }
  rewrite (proj2 (nth_res_ok _ _ _) E). cbn [bind filter]. rewrite (nth_error_nth _ _ false E).
  rewrite IH by (intros w Hw; apply Hb; now right). destruct m; cbn [length]; f_equal; lia.
Qed.

(* the flag says that at most one vertex of the cell is unmarked *)
Theorem cell_boundary_flag npc markers row : length row = npc -> 0 < npc -> NoDup row -> (forall v, In v row -> v < length markers) ->
  exists b, cell_boundary npc markers row = Ok b /\
    (b = true <-> exists w, forall v, In v row -> v <> w -> marked markers v).
Proof.
  intros Hl Hp Hn Hb. unfold cell_boundary. rewrite count_markers by assumption. cbn [bind]. eexists. split; [reflexivity|].
  rewrite Nat.leb_le. cbn [Nat.add]. set (g := fun v => nth v markers false).
  assert (Hm : forall v, In v row -> (g v = true <-> marked markers v)).
  { intros v Hv. unfold g, marked. specialize (Hb v Hv). destruct (nth_error markers v) as [m|] eqn:E.
    - rewrite (nth_error_nth _ _ false E). split; intros H; congruence.
    - apply nth_error_None in E. lia. }
  assert (Hsplit : length (filter g row) + length (filter (fun v => negb (g v)) row) = length row).
  { clear. induction row as [|v row IH]; [reflexivity|]. simpl. destruct (g v); simpl; lia. }
  split.
  - intros H. destruct (filter (fun v => negb (g v)) row) as [|w [|w' r]] eqn:E.
    + exists 0. intros v Hv _. apply Hm; [assumption|]. destruct (g v) eqn:Eg; [reflexivity|].
      assert (In v (filter (fun v => negb (g v)) row)) by (apply filter_In; rewrite Eg; auto). rewrite E in *. contradiction.
    + exists w. intros v Hv Hne. apply Hm; [assumption|]. destruct (g v) eqn:Eg; [reflexivity|].
      assert (Hi : In v (filter (fun v => negb (g v)) row)) by (apply filter_In; rewrite Eg; auto). rewrite E in Hi.
      destruct Hi as [->|[]]. congruence.
    + simpl in Hsplit. lia.
  - intros (w & Hw).
    assert (Hle : length (filter (fun v => negb (g v)) row) <= 1).
    { assert (Hin : incl (filter (fun v => negb (g v)) row) [w]).
      { intros v Hv. apply filter_In in Hv as [Hv Eg]. destruct (Nat.eq_dec v w) as [->|Hne]; [now left|].
        apply (Hm v Hv) in Hw; [|assumption|assumption]. rewrite Hw in Eg. discriminate. }
      apply NoDup_incl_length in Hin; [assumption|]. now apply NoDup_filter. }
    lia.
Qed.

(* a cell with a facet on the boundary is reported as a boundary cell, in every dimension *)
Theorem cell_boundary_partial D cells markers i c f : simplicial D cells -> 0 < D ->
  (forall c v, In c cells -> In v c -> v < length markers) ->
  (forall f v, boundary_facet cells f -> In v f -> marked markers v) ->
  nth_error cells i = Some c -> facet_of f c -> boundary_facet cells f -> cell_boundary D markers c = Ok true.
Proof.
  intros Hs HD Hb Hm Hc Hf Hbf. pose proof (nth_error_In _ _ Hc) as Hin. destruct (Hs c Hin) as [Hl Hn].
  destruct (cell_boundary_flag D markers c Hl HD Hn (fun v => Hb c v Hin)) as (b & E & Hiff). rewrite E. f_equal.
  apply Hiff. destruct Hf as (Hsort & Hlen & Hincl).
  assert (Hnf : NoDup f).
  { clear - Hsort. induction Hsort as [|a l Hl IH Ha]; constructor; [|assumption].
    intros Hi. rewrite Forall_forall in Ha. specialize (Ha _ Hi). lia. }
  (* the vertex left out *)
  assert (Hw : exists w, forall v, In v c -> v <> w -> In v f).
  { destruct (filter (fun v => negb (existsb (Nat.eqb v) f)) c) as [|w [|w' r]] eqn:Ef.
    - exists 0. intros v Hv _. destruct (existsb (Nat.eqb v) f) eqn:Ex.
      + apply existsb_exists in Ex as (x & Hx & Hxv). apply Nat.eqb_eq in Hxv. now subst.
      + assert (Hi : In v (filter (fun v => negb (existsb (Nat.eqb v) f)) c)) by (apply filter_In; rewrite Ex; auto).
        rewrite Ef in Hi. contradiction.
    - exists w. intros v Hv Hne. destruct (existsb (Nat.eqb v) f) eqn:Ex.
      + apply existsb_exists in Ex as (x & Hx & Hxv). apply Nat.eqb_eq in Hxv. now subst.
      + assert (Hi : In v (filter (fun v => negb (existsb (Nat.eqb v) f)) c)) by (apply filter_In; rewrite Ex; auto).
        rewrite Ef in Hi. destruct Hi as [->|[]]. congruence.
    - exfalso. assert (Hn2 : NoDup (filter (fun v => negb (existsb (Nat.eqb v) f)) c)) by now apply NoDup_filter.
      assert (HN : NoDup (w :: w' :: f)).
      { rewrite Ef in Hn2. inversion Hn2 as [|? ? H1 H2]; subst. inversion H2 as [|? ? H3 H4]; subst.
        assert (Hout : forall x, In x (w :: w' :: r) -> ~ In x f).
        { intros x Hx Hxf. rewrite <- Ef in Hx. apply filter_In in Hx as [_ Hx]. apply negb_true_iff in Hx.
          assert (existsb (Nat.eqb x) f = true) by (apply existsb_exists; exists x; split; [assumption|apply Nat.eqb_refl]).
          congruence. }
        constructor; [|constructor; [|assumption]].
        - intros [->|Hi]; [apply H1; now left|]. apply (Hout w); [now left|assumption].
        - apply Hout. right. now left. }
      assert (Hi : incl (w :: w' :: f) c).
      { assert (HC : forall x, In x (w :: w' :: r) -> In x c) by (intros x Hx; rewrite <- Ef in Hx; now apply filter_In in Hx).
        intros x [<-|[<-|Hx]]; [apply HC; now left|apply HC; right; now left|now apply Hincl]. }
      apply NoDup_incl_length in Hi; [|assumption]. simpl in Hi. lia. }
  destruct Hw as (w & Hw). exists w. intros v Hv Hne. apply (Hm f); [assumption|]. now apply Hw.
Qed.

(* the converse fails: the triangle in the middle has no facet on the boundary, yet its three vertices are there *)
Definition star4 : list (list nat) := [[0; 3; 5]; [3; 1; 4]; [5; 4; 2]; [3; 4; 5]].
Theorem cell_boundary_refuted : exists cells markers i c,
  simplicial 3 cells /\ conforming cells /\
  (forall v, marked markers v <-> exists f, boundary_facet cells f /\ In v f) /\
  nth_error cells i = Some c /\ cell_boundary 3 markers c = Ok true /\
  forall f, facet_of f c -> ~ boundary_facet cells f.
Proof.
  exists star4, (repeat true 6), 3, [3; 4; 5].
  assert (Hs : simplicial 3 star4) by simplicial_tac.
  split; [exact Hs|]. split; [apply (conforming_b_ok 3); [exact Hs|reflexivity]|].
  assert (Hfac : forall a b c f, a < b -> b < c -> (facet_of f [a; b; c] <-> f = [a; b] \/ f = [a; c] \/ f = [b; c])).
  { intros a b c f Hab Hbc. split.
    - intros (H1 & H2 & H3). destruct f as [|x [|y [|z r]]]; simpl in H2; try discriminate.
      inversion H1 as [|? ? _ Hxy]; subst. inversion Hxy as [|? ? Hlt _]; subst.
      assert (Hx := H3 x (or_introl eq_refl)). assert (Hy := H3 y (or_intror (or_introl eq_refl))).
      simpl in Hx, Hy. destruct Hx as [<-|[<-|[<-|[]]]], Hy as [<-|[<-|[<-|[]]]]; try lia; auto.
    - intros H. split; [|split].
      + destruct H as [->|[->| ->]]; repeat constructor; lia.
      + destruct H as [->|[->| ->]]; reflexivity.
      + destruct H as [->|[->| ->]]; intros x [<-|[<-|[]]]; simpl; auto. }
  assert (Hperm : forall f c c', (forall x, In x c <-> In x c') -> length c = length c' -> facet_of f c -> facet_of f c').
  { intros f c c' Hi Hl (H1 & H2 & H3). split; [assumption|]. split; [congruence|]. intros x Hx. now apply Hi, H3. }
  assert (Hcell : forall i f, cell_has star4 i f <->
     (i = 0 /\ (f = [0; 3] \/ f = [0; 5] \/ f = [3; 5])) \/ (i = 1 /\ (f = [1; 3] \/ f = [1; 4] \/ f = [3; 4])) \/
     (i = 2 /\ (f = [2; 4] \/ f = [2; 5] \/ f = [4; 5])) \/ (i = 3 /\ (f = [3; 4] \/ f = [3; 5] \/ f = [4; 5]))).
  { intros i f. split.
    - intros (c & Hc & Hf). destruct i as [|[|[|[|i]]]]; cbn in Hc.
      + injection Hc as <-. apply Hfac in Hf; [auto|lia|lia].
      + injection Hc as <-. apply (Hperm f _ [1; 3; 4]) in Hf; [|simpl; intuition|reflexivity]. apply Hfac in Hf; [auto|lia|lia].
      + injection Hc as <-. apply (Hperm f _ [2; 4; 5]) in Hf; [|simpl; intuition|reflexivity]. apply Hfac in Hf; [auto|lia|lia].
      + injection Hc as <-. apply Hfac in Hf; [intuition|lia|lia].
      + destruct i; discriminate.
    - intros [[-> H]|[[-> H]|[[-> H]|[-> H]]]]; eexists; (split; [reflexivity|]).
      + apply Hfac; auto; lia.
      + apply (Hperm f [1; 3; 4]); [simpl; intuition|reflexivity|]. apply Hfac; auto; lia.
      + apply (Hperm f [2; 4; 5]); [simpl; intuition|reflexivity|]. apply Hfac; auto; lia.
      + apply Hfac; auto; lia. }
  split.
  - intros v. split.
    + unfold marked. intros Hv.
      assert (Hlt : v < 6) by (change 6 with (length (repeat true 6)); apply nth_error_Some; congruence).
      assert (B : forall i f, cell_has star4 i f -> f <> [3; 5] -> f <> [3; 4] -> f <> [4; 5] -> boundary_facet star4 f).
      { intros i f Hi N1 N2 N3. exists i. intros i'. split; [|intros ->; assumption].
        intros Hi'. apply Hcell in Hi, Hi'.
        decompose [and or] Hi; decompose [and or] Hi'; subst; congruence || discriminate. }
      destruct v as [|[|[|[|[|[|v]]]]]]; [| | | | | |lia].
      * exists [0; 3]. split; [apply (B 0); [apply Hcell; tauto|discriminate|discriminate|discriminate]|simpl; auto].
      * exists [1; 3]. split; [apply (B 1); [apply Hcell; tauto|discriminate|discriminate|discriminate]|simpl; auto].
      * exists [2; 4]. split; [apply (B 2); [apply Hcell; tauto|discriminate|discriminate|discriminate]|simpl; auto].
      * exists [0; 3]. split; [apply (B 0); [apply Hcell; tauto|discriminate|discriminate|discriminate]|simpl; auto].
      * exists [1; 4]. split; [apply (B 1); [apply Hcell; tauto|discriminate|discriminate|discriminate]|simpl; auto].
      * exists [0; 5]. split; [apply (B 0); [apply Hcell; tauto|discriminate|discriminate|discriminate]|simpl; auto].
    + intros (f & (i & Hi) & Hv). assert (H : cell_has star4 i f) by now apply Hi. apply Hcell in H.
      decompose [and or] H; subst; simpl in Hv; decompose [or] Hv; subst; try contradiction; reflexivity.
  - split; [reflexivity|]. split; [reflexivity|]. intros f Hf (i & Hi). apply Hfac in Hf; [|lia|lia].
    assert (H3 : cell_has star4 3 f) by (apply Hcell; tauto). apply Hi in H3. subst i.
    assert (E : exists j, j <> 3 /\ cell_has star4 j f).
    { destruct Hf as [->|[->| ->]]; [exists 1|exists 0|exists 2]; (split; [lia|]); apply Hcell; tauto. }
    destruct E as (j & Hj & Hc). apply Hj. now apply Hi.
Qed.

(* ---- C131: the views of one cell ---- *)
Lemma mapM_nth {A B} (f : A -> Res B) (l : list A) (g : nat -> Res A) n : length l = n ->
  (forall k a, nth_error l k = Some a -> g k = Ok a) ->
  mapM (fun k => a <- g k ;; f a) (seq 0 n) = mapM f l.
Proof.
  intros <- Hg.
  assert (G : forall l j, (forall k a, nth_error l k = Some a -> g (j + k) = Ok a) ->
     mapM (fun k => a <- g k ;; f a) (seq j (length l)) = mapM f l).
  { clear. induction l as [|x l IH]; intros j Hg; [reflexivity|]. cbn [length seq mapM].
    assert (E := Hg 0 x eq_refl). rewrite Nat.add_0_r in E. rewrite E. cbn [bind].
    rewrite (IH (S j)); [reflexivity|]. intros k a Ha. replace (S j + k) with (j + S k) by lia. now apply Hg. }
  exact (G l 0 Hg).
Qed.
Lemma mapM_ext_in {A B} (f g : A -> Res B) l : (forall x, In x l -> f x = g x) -> mapM f l = mapM g l.
Proof.
  induction l as [|x l IH]; intros H; [reflexivity|]. cbn [mapM]. rewrite (H x) by now left.
  rewrite IH; [reflexivity|]. intros y Hy. apply H. now right.
Qed.
(* looking up distinct ids in a table of distinct items gives distinct items *)
Lemma mapM_lookup {A} (tab : list A) ids : NoDup tab -> NoDup ids -> (forall h, In h ids -> h < length tab) ->
  exists vs, mapM (nth_res tab) ids = Ok vs /\ NoDup vs /\
    forall v, In v vs <-> exists h, In h ids /\ nth_error tab h = Some v.
Proof.
  intros Ht. induction ids as [|h ids IH]; intros Hn Hb.
  { exists []. split; [reflexivity|]. split; [constructor|]. intros v. split; [contradiction|]. intros (h & [] & _). }
  inversion Hn as [|? ? Hh Hn']; subst.
  destruct IH as (vs & E & Hv & Hin); [assumption|intros k Hk; apply Hb; now right|].
  destruct (nth_error tab h) as [v|] eqn:Ev. 2:{ apply nth_error_None in Ev. specialize (Hb h (or_introl eq_refl)). lia. }
  exists (v :: vs). split; [|split].
  - cbn [mapM]. rewrite (proj2 (nth_res_ok _ _ _) Ev). cbn [bind]. rewrite E. reflexivity.
  - constructor; [|assumption]. intros Hi. apply Hin in Hi as (k & Hk & Ek).
    assert (h = k) by (eapply (proj1 (NoDup_nth_error tab)); [assumption|apply nth_error_Some; congruence|congruence]). congruence.
  - intros w. simpl. rewrite Hin. split.
    + intros [<-|(k & Hk & Ek)]; [exists h; auto|exists k; auto].
    + intros (k & [<-|Hk] & Ek); [left; congruence|right; eauto].
Qed.
(* the ids stored in one row of a table of options *)
Lemma row_ids {A} (tab : list A) row (P : A -> Prop) : NoDup row ->
  (forall o, In o row -> exists h e, o = Some h /\ nth_error tab h = Some e /\ P e) ->
  exists ids, row = map Some ids /\ NoDup ids /\ forall h, In h ids -> exists e, nth_error tab h = Some e /\ P e.
Proof.
  induction row as [|o row IH]; intros Hn Hr.
  { exists []. split; [reflexivity|]. split; [constructor|]. contradiction. }
  inversion Hn as [|? ? Ho Hn']; subst.
  destruct IH as (ids & -> & Hi & Hp); [assumption|intros; apply Hr; now right|].
  destruct (Hr o (or_introl eq_refl)) as (h & e & -> & Hh & He). exists (h :: ids). split; [reflexivity|]. split.
  - constructor; [|assumption]. intros Hin. apply Ho. now apply in_map.
  - intros k [<-|Hk]; eauto.
Qed.

(* what a table of facets gives for one cell: ids, facets, the cells sharing each of them and whether there is only one *)
Definition facet_views (cells : list (list nat)) (i : nat) (fs : list (list nat)) (cs : list (nat * option nat)) (bs : list bool) : Prop :=
  NoDup fs /\ (forall f, In f fs <-> cell_has cells i f) /\
  Forall2 (fun f a => forall j, cell_has cells j f <-> j = fst a \/ snd a = Some j) fs cs /\
  Forall2 (fun f (b : bool) => b = true <-> boundary_facet cells f) fs bs.

Lemma views_ok cells i c (s : facets) n row :
  nth_error cells i = Some c -> NoDup (f_nodes s) -> nth_error (c_facets s) i = Some row -> length row = n -> NoDup row ->
  (forall o, In o row -> exists h e, o = Some h /\ nth_error (f_nodes s) h = Some e /\ facet_of e c) ->
  (forall e, facet_of e c -> exists h, In (Some h) row /\ nth_error (f_nodes s) h = Some e) ->
  (forall h f, nth_error (f_nodes s) h = Some f -> exists a o m, nth_error (f_cells s) h = Some (a, o) /\ nth_error (f_mark s) h = Some m /\
     (forall i, cell_has cells i f <-> i = a \/ o = Some i) /\ (forall b, o = Some b -> a <> b) /\ (m = true <-> boundary_facet cells f)) ->
  exists ids fs cs bs, (forall k h, nth_error ids k = Some h -> face_id_at s i k = Ok h) /\ length ids = n /\ NoDup ids /\
    (forall h, In h ids <-> exists f, nth_error (f_nodes s) h = Some f /\ facet_of f c) /\
    mapM (tet_face s i) (seq 0 n) = Ok fs /\ mapM (tet_face_cells s i) (seq 0 n) = Ok cs /\
    mapM (tet_face_boundary s i) (seq 0 n) = Ok bs /\ facet_views cells i fs cs bs.
Proof.
  intros Hc Hn Hr Hl Hnr Hr1 Hr2 Hb.
  destruct (row_ids (f_nodes s) row (fun e => facet_of e c) Hnr Hr1) as (ids & -> & Hni & Hids).
  assert (Hat : forall k h, nth_error ids k = Some h -> face_id_at s i k = Ok h).
  { intros k h Hk. unfold face_id_at, get2. rewrite (proj2 (nth_res_ok _ _ _) Hr). cbn [bind].
    rewrite (proj2 (nth_res_ok _ _ _) (map_nth_error Some _ _ Hk)). reflexivity. }
  rewrite map_length in Hl.
  destruct (mapM_lookup (f_nodes s) ids Hn Hni) as (fs & Efs & Hfs & Hinfs).
  { intros h Hh. destruct (Hids h Hh) as (e & He & _). apply nth_error_Some. congruence. }
  assert (G : exists cs bs, mapM (nth_res (f_cells s)) ids = Ok cs /\ mapM (nth_res (f_mark s)) ids = Ok bs /\
     Forall2 (fun f a => forall j, cell_has cells j f <-> j = fst a \/ snd a = Some j) fs cs /\
     Forall2 (fun f (b : bool) => b = true <-> boundary_facet cells f) fs bs).
  { apply mapM_ok in Efs. clear - Efs Hb. induction Efs as [|h f ids fs Hf HF IH].
    - exists [], []. repeat split; constructor.
    - destruct IH as (cs & bs & E1 & E2 & F1 & F2). apply nth_res_ok in Hf.
      destruct (Hb h f Hf) as (a & o & m & H1 & H2 & H3 & _ & H4).
      exists ((a, o) :: cs), (m :: bs). cbn [mapM]. rewrite (proj2 (nth_res_ok _ _ _) H1), (proj2 (nth_res_ok _ _ _) H2). cbn [bind].
      rewrite E1, E2. split; [reflexivity|]. split; [reflexivity|]. split; constructor; assumption. }
  destruct G as (cs & bs & Ecs & Ebs & F1 & F2).
  exists ids, fs, cs, bs. split; [assumption|]. split; [assumption|]. split; [assumption|]. split.
  { intros h. split; [apply Hids|]. intros (f & Hf & Hfc). destruct (Hr2 f Hfc) as (h' & Hh' & Hf').
    apply in_map_iff in Hh' as (x & [= ->] & Hx).
    assert (h = h') by (eapply (proj1 (NoDup_nth_error (f_nodes s))); [assumption|apply nth_error_Some; congruence|congruence]).
    now subst. }
  split; [|split; [|split]].
  - unfold tet_face. rewrite (mapM_nth (nth_res (f_nodes s)) ids (face_id_at s i) n Hl Hat). assumption.
  - unfold tet_face_cells. rewrite (mapM_nth (nth_res (f_cells s)) ids (face_id_at s i) n Hl Hat). assumption.
  - unfold tet_face_boundary. rewrite (mapM_nth (nth_res (f_mark s)) ids (face_id_at s i) n Hl Hat). assumption.
  - split; [assumption|]. split; [|split; assumption]. intros f. rewrite Hinfs. split.
    + intros (h & Hh & Hf). destruct (Hids h Hh) as (e & He & Hfc). exists c. split; [assumption|]. congruence.
    + intros (c' & Hc' & Hf). assert (c' = c) by congruence. subst. destruct (Hr2 f Hf) as (h & Hh & Eh).
      apply in_map_iff in Hh as (x & [= ->] & Hx). eauto.
Qed.

(* a triangle lists its three edges once each, with the cells on their sides and their boundary flag *)
Theorem triangle_views cells : simplicial 3 cells -> conforming cells ->
  exists s, tri2 cells = Ok s /\ forall i, i < length cells -> exists es cs bs,
    mapM (triangle_edge s i) (seq 0 3) = Ok es /\ mapM (triangle_edge_cells s i) (seq 0 3) = Ok cs /\
    mapM (triangle_edge_boundary s i) (seq 0 3) = Ok bs /\ facet_views cells i es cs bs.
Proof.
  intros H1 H2. destruct (tri2_edges cells H1 H2) as (s & E & Hn & _ & Hrow).
  destruct (tri2_boundary_edges cells H1 H2) as (s' & E' & Hb). rewrite E in E'. injection E' as <-.
  exists s. split; [assumption|]. intros i Hi. destruct (nth_error cells i) as [c|] eqn:Hc; [|apply nth_error_None in Hc; lia].
  destruct (Hrow i c Hc) as (row & R1 & R2 & R3 & R4 & R5).
  destruct (views_ok cells i c s 3 row Hc Hn R1 R2 R3 R4 R5 Hb) as (ids & fs & cs & bs & _ & _ & _ & _ & F1 & F2 & F3 & F4).
  exists fs, cs, bs. split; [exact F1|]. split; [exact F2|]. split; [exact F3|]. assumption.
Qed.

(* the six edges of a tetrahedron *)
Lemma six_edges c : length c = 4 -> NoDup c ->
  exists l, length l = 6 /\ NoDup l /\ forall e, In e l <-> edge_in_cell e c.
Proof.
  intros Hl Hn. destruct c as [|a [|b [|d [|f [|? ?]]]]]; try discriminate.
  assert (N : a <> b /\ a <> d /\ a <> f /\ b <> d /\ b <> f /\ d <> f).
  { repeat match goal with H : NoDup (_ :: _) |- _ => inversion H; clear H; subst end. simpl in *. intuition. }
  set (g := fun x y : nat => [Nat.min x y; Nat.max x y]).
  exists [g a b; g a d; g a f; g b d; g b f; g d f]. split; [reflexivity|].
  assert (Hg : forall x y x' y', g x y = g x' y' -> (x = x' /\ y = y') \/ (x = y' /\ y = x')).
  { intros x y x' y' E. unfold g in E. injection E as E1 E2. lia. }
  split.
  - repeat constructor; simpl; intros H; decompose [or] H; try contradiction;
      match goal with E : g _ _ = g _ _ |- _ => apply Hg in E; lia end.
  - intros e. split.
    + assert (G : forall x y, x <> y -> In x [a; b; d; f] -> In y [a; b; d; f] -> edge_in_cell (g x y) [a; b; d; f]).
      { intros x y Hxy Hx Hy. exists (Nat.min x y), (Nat.max x y). split; [reflexivity|]. split; [lia|].
        destruct (Nat.min_spec x y) as [[_ ->]|[_ ->]], (Nat.max_spec x y) as [[_ ->]|[_ ->]]; auto. }
      simpl. intros H. decompose [or] H; try contradiction; subst e; apply G; simpl; tauto.
    + intros (x & y & -> & Hxy & Hx & Hy).
      assert (E : forall u v, x = u -> y = v -> g u v = [x; y]).
      { intros u v -> ->. unfold g. rewrite Nat.min_l, Nat.max_r by lia. reflexivity. }
      assert (E' : forall u v, x = v -> y = u -> g u v = [x; y]).
      { intros u v -> ->. unfold g. rewrite Nat.min_r, Nat.max_l by lia. reflexivity. }
      simpl in Hx, Hy. simpl.
      destruct Hx as [Hx|[Hx|[Hx|[Hx|[]]]]], Hy as [Hy|[Hy|[Hy|[Hy|[]]]]]; subst; try lia;
        try (left; first [now apply E | now apply E']); try (right; left; first [now apply E | now apply E']);
        try (right; right; left; first [now apply E | now apply E']); try (right; right; right; left; first [now apply E | now apply E']);
        try (right; right; right; right; left; first [now apply E | now apply E']);
        try (right; right; right; right; right; left; first [now apply E | now apply E']).
Qed.
(* each edge lies on a face *)
Lemma edge_on_face c e : length c = 4 -> NoDup c -> edge_in_cell e c -> exists f, facet_of f c /\ edge_in_cell e f.
Proof.
  intros Hl Hn (x & y & -> & Hxy & Hx & Hy).
  assert (Hz : exists z, In z c /\ z <> x /\ z <> y).
  { destruct c as [|a [|b [|d [|f [|? ?]]]]]; try discriminate.
    assert (N : a <> b /\ a <> d /\ a <> f /\ b <> d /\ b <> f /\ d <> f).
    { repeat match goal with H : NoDup (_ :: _) |- _ => inversion H; clear H; subst end. simpl in *. intuition. }
    simpl in Hx, Hy |- *.
    destruct (Nat.eq_dec a x), (Nat.eq_dec a y); try lia; try (exists a; tauto);
      destruct (Nat.eq_dec b x), (Nat.eq_dec b y); try lia; try (exists b; split; [tauto|lia]); exists d; (split; [tauto|lia]). }
  destruct Hz as (z & Hz & Hzx & Hzy).
  assert (G : forall p q r, p < q -> q < r -> (forall v, v = p \/ v = q \/ v = r -> In v c) ->
     In x [p; q; r] -> In y [p; q; r] -> exists f, facet_of f c /\ edge_in_cell [x; y] f).
  { intros p q r Hpq Hqr Hin H1 H2. exists [p; q; r]. split.
    - split; [|split; [rewrite Hl; reflexivity|]]; [repeat constructor; lia|].
      intros v [<-|[<-|[<-|[]]]]; apply Hin; tauto.
    - exists x, y. split; [reflexivity|]. auto. }
  destruct (lt_dec z x); [apply (G z x y); try lia; try (simpl; tauto); intros v [->|[->| ->]]; assumption|].
  destruct (lt_dec z y); [apply (G x z y); try lia; try (simpl; tauto); intros v [->|[->| ->]]; assumption|].
  apply (G x y z); try lia; try (simpl; tauto); intros v [->|[->| ->]]; assumption.
Qed.
Lemma edge_face_cell e f c : facet_of f c -> edge_in_cell e f -> edge_in_cell e c.
Proof. intros (_ & _ & H) (a & b & -> & Hab & Ha & Hb). exists a, b. auto. Qed.

(* the array filled from the set *)
Lemma fill_array ids : length ids = 6 ->
  (r <- foldM (fun a id => arr <- upd_res (snd a) (fst a) (Some id) ;; Ok (S (fst a), arr)) ids (0, repeat (@None nat) 6) ;; Ok (snd r))
  = Ok (map Some ids).
Proof.
  intros H. destruct ids as [|a [|b [|c [|d [|e [|f [|? ?]]]]]]]; try discriminate. reflexivity.
Qed.

Lemma insert_all (get : nat -> Res nat) ks ids : mapM get ks = Ok ids -> forall s : list nat, NoDup s ->
  exists s', foldM (fun s k => e <- get k ;; Ok (set_add e s)) ks s = Ok s' /\ NoDup s' /\
    forall x, In x s' <-> In x s \/ In x ids.
Proof.
  intros E. apply mapM_ok in E. induction E as [|k id ks ids Hk HF IH]; intros s Hs.
  - exists s. split; [reflexivity|]. split; [assumption|]. simpl. tauto.
  - destruct (IH (set_add id s)) as (s' & E' & Hn & Hin); [now apply set_add_nodup|].
    exists s'. cbn [foldM]. rewrite Hk. cbn [bind]. split; [exact E'|]. split; [assumption|].
    intros x. rewrite Hin, set_add_in. simpl. intuition.
Qed.

(* a tetrahedron lists its four faces and six edges once each, whatever the order in which the set of edge ids is
   traversed, and each face lists its three edges; with the cells around every face and edge *)
Theorem tetrahedron_views cells markers order : simplicial 4 cells -> conforming cells ->
  (forall c v, In c cells -> In v c -> v < length markers) -> (forall l, Permutation (order l) l) ->
  exists s es, tri3 cells markers = Ok (s, es) /\ forall i c, nth_error cells i = Some c ->
    (exists fs cs bs, mapM (tet_face s i) (seq 0 4) = Ok fs /\ mapM (tet_face_cells s i) (seq 0 4) = Ok cs /\
       mapM (tet_face_boundary s i) (seq 0 4) = Ok bs /\ facet_views cells i fs cs bs) /\
    (exists el ec, mapM (tet_edge order s es i) (seq 0 6) = Ok el /\ mapM (tet_edge_cells order s es i) (seq 0 6) = Ok ec /\
       NoDup el /\ (forall e, In e el <-> edge_in_cell e c) /\
       Forall2 (fun e l => NoDup l /\ forall j, In j l <-> cell_has_edge cells j e) el ec) /\
    (forall n f, n < 4 -> tet_face s i n = Ok f -> exists el, mapM (tet_face_edge s es i n) (seq 0 3) = Ok el /\
       NoDup el /\ forall e, In e el <-> edge_in_cell e f).
Proof.
  intros H1 H2 H3 Hord. destruct (tri3_faces cells markers H1 H2 H3) as (s & es & E & Hn & _ & Hrow & _ & _ & _ & Hb).
  destruct (tri3_edges cells markers H1 H2 H3) as (s' & es' & E' & Hne & Hine & Hec & _ & Hfe). rewrite E in E'. injection E' as <- <-.
  exists s, es. split; [assumption|]. intros i c Hc.
  destruct (Hrow i c Hc) as (row & R1 & R2 & R3 & R4 & R5).
  destruct (views_ok cells i c s 4 row Hc Hn R1 R2 R3 R4 R5 Hb) as (ids & fs & cs & bs & Hat & Hlen & Hnd & Hids & F1 & F2 & F3 & F4).
  destruct (H1 c (nth_error_In _ _ Hc)) as [Hcl Hcn].
  split; [exists fs, cs, bs; auto|].
  (* the edge ids of one face *)
  assert (Hface : forall h, In h ids -> exists f l, nth_error (f_nodes s) h = Some f /\ facet_of f c /\
     mapM (fun k => get2 (fe es) h k) (seq 0 3) = Ok l /\ NoDup l /\ (forall id, In id l -> id < length (e_nodes es)) /\
     forall e, edge_in_cell e f <-> exists id, In id l /\ nth_error (e_nodes es) id = Some e).
  { intros h Hh. apply Hids in Hh as (f & Hf & Hfc). destruct (Hfe h f Hf) as (l & Hl & Hl3 & Hln & Hlb & Hle). exists f, l.
    split; [assumption|]. split; [assumption|]. split; [|auto].
    unfold get2. rewrite (proj2 (nth_res_ok _ _ _) Hl). cbn [bind].
    destruct l as [|x [|y [|z [|? ?]]]]; try discriminate. reflexivity. }
  (* the set *)
  assert (Hset : exists S, tet_edge_set s es i = Ok S /\ NoDup S /\
     forall id, In id S <-> exists h l, In h ids /\ mapM (fun k => get2 (fe es) h k) (seq 0 3) = Ok l /\ In id l).
  { unfold tet_edge_set. rewrite <- Hlen.
    assert (G : forall ids' j s0, (forall k h, nth_error ids' k = Some h -> face_id_at s i (j + k) = Ok h) ->
       (forall h, In h ids' -> In h ids) -> NoDup s0 -> exists S,
       foldM (fun s0 j => h <- face_id_at s i j ;; foldM (fun s0 k => e <- get2 (fe es) h k ;; Ok (set_add e s0)) (seq 0 3) s0)
         (seq j (length ids')) s0 = Ok S /\ NoDup S /\
       forall id, In id S <-> In id s0 \/ exists h l, In h ids' /\ mapM (fun k => get2 (fe es) h k) (seq 0 3) = Ok l /\ In id l).
    { induction ids' as [|h ids' IH]; intros j s0 Hj Hsub Hs0.
      - exists s0. split; [reflexivity|]. split; [assumption|]. intros id. split; [auto|]. intros [H|(h & l & [] & _)]. assumption.
      - destruct (Hface h (Hsub h (or_introl eq_refl))) as (f & l & _ & _ & El & _ & _ & _).
        destruct (insert_all _ _ _ El s0 Hs0) as (s1 & E1 & N1 & I1).
        destruct (IH (Datatypes.S j) s1) as (S' & ES & NS & IS).
        { intros k h' Hk. replace (Datatypes.S j + k) with (j + Datatypes.S k) by lia. now apply Hj. }
        { intros h' Hh'. apply Hsub. now right. }
        { assumption. }
        exists S'. cbn [length]. change (seq j (Datatypes.S (length ids'))) with (j :: seq (Datatypes.S j) (length ids')). cbn [foldM]. assert (E0 := Hj 0 h eq_refl). rewrite Nat.add_0_r in E0. rewrite E0. cbn [bind].
        rewrite E1. cbn [bind]. split; [assumption|]. split; [assumption|]. intros id. rewrite IS, I1. split.
        + intros [[H|H]|(h' & l' & Hh' & Hl' & Hid)]; [auto|right; exists h, l; simpl; auto|right; exists h', l'; simpl; auto].
        + intros [H|(h' & l' & [<-|Hh'] & Hl' & Hid)]; [auto| |right; eauto].
          left. right. rewrite El in Hl'. injection Hl' as <-. assumption. }
    destruct (G ids 0 []) as (S' & ES & NS & IS); [assumption|auto|constructor|].
    exists S'. split; [exact ES|]. split; [assumption|]. intros id. rewrite IS. simpl. tauto. }
  destruct Hset as (S & ES & NS & IS).
  (* the ids are exactly those of the edges of the cell *)
  assert (HS : forall id, In id S <-> exists e, nth_error (e_nodes es) id = Some e /\ edge_in_cell e c).
  { intros id. rewrite IS. split.
    - intros (h & l & Hh & El & Hid). destruct (Hface h Hh) as (f & l' & Hf & Hfc & El' & _ & Hlb & Hle). rewrite El in El'. injection El' as <-.
      destruct (nth_error (e_nodes es) id) as [e|] eqn:Ee.
      + exists e. split; [reflexivity|]. apply (edge_face_cell e f c Hfc). apply Hle. eauto.
      + apply nth_error_None in Ee. specialize (Hlb id Hid). lia.
    - intros (e & He & Hec'). destruct (edge_on_face c e Hcl Hcn Hec') as (f & Hf & Hef).
      assert (Hinf : exists h, In h ids /\ nth_error (f_nodes s) h = Some f).
      { destruct (R5 f Hf) as (h & _ & Eh). exists h. split; [|assumption]. apply Hids. eauto. }
      destruct Hinf as (h & Hh & Eh). destruct (Hface h Hh) as (f' & l & Hf' & Hfc & El & _ & _ & Hle). assert (f' = f) by congruence. subst f'.
      exists h, l. split; [assumption|]. split; [assumption|]. apply Hle in Hef as (id' & Hid' & He').
      assert (id = id') by (eapply (proj1 (NoDup_nth_error (e_nodes es))); [assumption|apply nth_error_Some; congruence|congruence]).
      now subst. }
  assert (HS6 : length S = 6).
  { destruct (six_edges c Hcl Hcn) as (l6 & L6 & N6 & I6).
    destruct (mapM_lookup (e_nodes es) S Hne NS) as (vs & Ev & Nv & Iv).
    { intros h Hh. apply HS in Hh as (e & He & _). apply nth_error_Some. congruence. }
    assert (Lv : length vs = length S) by (apply mapM_ok in Ev; symmetry; now apply Forall2_length in Ev).
    rewrite <- Lv, <- L6. apply Permutation_length. apply NoDup_Permutation; [assumption|assumption|].
    intros e. rewrite I6, Iv. split.
    - intros (h & Hh & He). apply HS in Hh as (e' & He' & Hc'). congruence.
    - intros He. assert (Hin : In e (e_nodes es)) by (apply Hine; exists i, c; auto).
      apply In_nth_error in Hin as (id & Hid). exists id. split; [|assumption]. apply HS. eauto. }
  split.
  - set (O := order S). assert (PO : Permutation O S) by apply Hord.
    assert (LO : length O = 6) by (rewrite (Permutation_length PO); assumption).
    assert (Earr : tet_edge_ids order s es i = Ok (map Some O)).
    { unfold tet_edge_ids. rewrite ES. cbn [bind]. apply fill_array. assumption. }
    assert (NO : NoDup O) by (apply (Permutation_NoDup (Permutation_sym PO)); assumption).
    destruct (mapM_lookup (e_nodes es) O Hne NO) as (vs & Ev & Nv & Iv).
    { intros h Hh. apply (Permutation_in _ PO), HS in Hh as (e & He & _). apply nth_error_Some. congruence. }
    assert (Hread : forall k id, nth_error O k = Some id ->
       (arr <- tet_edge_ids order s es i ;; o <- nth_res arr k ;; match o with Some e => Ok e | None => UB end) = Ok id).
    { intros k id Hk. rewrite Earr. cbn [bind]. rewrite (proj2 (nth_res_ok _ _ _) (map_nth_error Some _ _ Hk)). reflexivity. }
    assert (G : forall B (tab : list B), mapM (fun n => arr <- tet_edge_ids order s es i ;; o <- nth_res arr n ;;
         match o with Some e => nth_res tab e | None => UB end) (seq 0 6) = mapM (nth_res tab) O).
    { intros B tab. rewrite <- (mapM_nth (nth_res tab) O _ 6 LO Hread). apply mapM_ext_in. intros k Hk.
      rewrite Earr. cbn [bind]. destruct (nth_res (map Some O) k) as [[e|]| | |]; reflexivity. }
    assert (Hcl' : exists ec, mapM (nth_res (e_cells es)) O = Ok ec /\
       Forall2 (fun e l => NoDup l /\ forall j, In j l <-> cell_has_edge cells j e) vs ec).
    { apply mapM_ok in Ev. clear - Ev Hec. induction Ev as [|id e O vs He HF IH].
      - exists []. split; [reflexivity|constructor].
      - destruct IH as (ec & E & F). apply nth_res_ok in He. destruct (Hec id e He) as (l & Hl & Hn & Hin).
        exists (l :: ec). cbn [mapM]. rewrite (proj2 (nth_res_ok _ _ _) Hl). cbn [bind]. rewrite E. split; [reflexivity|].
        constructor; [split; assumption|assumption]. }
    destruct Hcl' as (ec & Eec & Fec).
    exists vs, ec. split; [unfold tet_edge; rewrite (G _ (e_nodes es)); assumption|].
    split; [unfold tet_edge_cells; rewrite (G _ (e_cells es)); assumption|]. split; [assumption|]. split; [|assumption].
    intros e. rewrite Iv. split.
    + intros (h & Hh & He). apply (Permutation_in _ PO), HS in Hh as (e' & He' & Hc'). congruence.
    + intros He. assert (Hin : In e (e_nodes es)) by (apply Hine; exists i, c; auto).
      apply In_nth_error in Hin as (id & Hid). exists id. split; [|assumption].
      apply (Permutation_in _ (Permutation_sym PO)). apply HS. eauto.
  - intros n f Hn4 Hf. destruct (nth_error ids n) as [h|] eqn:Eh; [|apply nth_error_None in Eh; lia].
    unfold tet_face in Hf. rewrite (Hat n h Eh) in Hf. cbn [bind] in Hf. apply nth_res_ok in Hf.
    destruct (Hface h (nth_error_In _ _ Eh)) as (f' & l & Hf' & Hfc & El & Nl & Bl & Il). assert (f' = f) by congruence. subst f'.
    destruct (mapM_lookup (e_nodes es) l Hne Nl Bl) as (vs & Ev & Nv & Iv).
    exists vs. split; [|split; [assumption|]].
    + unfold tet_face_edge. rewrite (mapM_ext_in _ (fun k => e <- get2 (fe es) h k ;; nth_res (e_nodes es) e)).
      2:{ intros k _. rewrite (Hat n h Eh). reflexivity. }
      rewrite (mapM_nth (nth_res (e_nodes es)) l (fun k => get2 (fe es) h k) 3); [assumption| |].
      * apply mapM_ok in El. apply Forall2_length in El. symmetry. exact El.
      * apply mapM_ok in El. clear - El. pose proof El as Hlen; apply Forall2_length in Hlen.
        destruct l as [|x [|y [|z [|? ?]]]]; try discriminate.
        inversion El as [|? ? ? ? Hx El1]; subst. inversion El1 as [|? ? ? ? Hy El2]; subst. inversion El2 as [|? ? ? ? Hz El3]; subst.
        intros [|[|[|k]]] a Ha; cbn in Ha; try (injection Ha as <-; assumption). destruct k; discriminate.
    + intros e. rewrite Iv, Il. reflexivity.
Qed.
(* the set of edge ids traversed in any order: here the reverse of the order of insertion *)
Example tetrahedron_views_example : exists s es, tri3 mesh3 (repeat true 5) = Ok (s, es) /\
  mapM (tet_edge (@rev nat) s es 1) (seq 0 6) = Ok [[0; 3]; [0; 4]; [3; 4]; [0; 1]; [1; 4]; [1; 3]] /\
  mapM (tet_edge_cells (@rev nat) s es 1) (seq 0 6) = Ok [[1; 0]; [2; 1]; [1]; [2; 1; 0]; [2; 1]; [1; 0]] /\
  mapM (tet_face s 1) (seq 0 4) = Ok [[0; 3; 4]; [0; 1; 4]; [1; 3; 4]; [0; 1; 3]].
Proof. do 2 eexists. split; [vm_compute; reflexivity|]. split; [vm_compute; reflexivity|]. split; vm_compute; reflexivity. Qed.
Example triangle_views_example : exists s, tri2 mesh2 = Ok s /\
  mapM (triangle_edge s 1) (seq 0 3) = Ok [[2; 4]; [1; 4]; [1; 2]] /\
  mapM (triangle_edge_cells s 1) (seq 0 3) = Ok [(1, Some 2); (0, Some 1); (1, None)] /\
  mapM (triangle_edge_boundary s 1) (seq 0 3) = Ok [false; false; true].
Proof. eexists. split; [vm_compute; reflexivity|]. split; [vm_compute; reflexivity|]. split; vm_compute; reflexivity. Qed.
Example cell_boundary_example : cell_boundary 3 [true; false; true; false] [2; 0; 1] = Ok true /\ cell_boundary 3 [true; false; true; false] [3; 0; 1] = Ok false.
Proof. split; reflexivity. Qed.

Print Assumptions triangle_views.
Print Assumptions tetrahedron_views.
Print Assumptions cell_boundary_flag.
Print Assumptions cell_boundary_partial.
Print Assumptions cell_boundary_refuted.
Print Assumptions iterator_visits.
Print Assumptions iterator_walk.
Print Assumptions iterator_plus_end_refuted.
