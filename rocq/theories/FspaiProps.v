From Coq Require Import Permutation.
From Verif Require Import Base FspaiModel.

Lemma mem_spec x l : mem x l = true <-> In x l.
Proof. unfold mem. rewrite existsb_exists. split; [intros (y & Hy & E); apply Nat.eqb_eq in E; now subst|]. intros H. exists x. split; [exact H|apply Nat.eqb_refl]. Qed.
Lemma in_insert x y l : In y (insert x l) <-> y = x \/ In y l.
Proof.
  unfold insert. destruct (mem x l) eqn:E.
  - apply mem_spec in E. split; [now right|]. intros [->|H]; auto.
  - rewrite in_app_iff. cbn. intuition.
Qed.
Lemma insert_nodup x l : NoDup l -> NoDup (insert x l).
Proof.
  intros H. unfold insert. destruct (mem x l) eqn:E; [exact H|]. apply (Permutation_NoDup (l := x :: l)); [apply Permutation_cons_append|]. constructor; [|exact H].
  intros K. apply mem_spec in K. congruence.
Qed.
Lemma insert_length x l : length l <= length (insert x l) <= S (length l).
Proof. unfold insert. destruct (mem x l); [lia|]. rewrite app_length. cbn. lia. Qed.
Lemma in_remove' x y l : In y (remove x l) <-> In y l /\ y <> x.
Proof. unfold remove. rewrite filter_In, negb_true_iff, Nat.eqb_neq. intuition. Qed.
Lemma foldM_ok_inv {S I} (P : S -> Prop) (f : S -> I -> Res S) l : (forall s x, In x l -> P s -> exists s', f s x = Ok s' /\ P s') -> forall s, P s -> exists s', foldM f l s = Ok s' /\ P s'.
Proof.
  induction l as [|x l IH]; intros H s Hs; [exists s; now split|]. destruct (H s x (or_introl eq_refl) Hs) as (s1 & E & H1). cbn [foldM]. rewrite E. cbn [bind]. apply IH; [|exact H1]. intros t y Hy. apply H. now right.
Qed.
Lemma fold_left_inv {S I} (P : S -> Prop) (f : S -> I -> S) l : (forall s x, In x l -> P s -> P (f s x)) -> forall s, P s -> P (fold_left f l s).
Proof. induction l as [|x l IH]; intros H s Hs; [exact Hs|]. cbn. apply IH; [intros t y Hy; apply H; now right|]. apply H; [now left|exact Hs]. Qed.
Lemma mapM_ok_all {X Y} (f : X -> Res Y) l : (forall x, In x l -> exists y, f x = Ok y) -> exists r, mapM f l = Ok r.
Proof.
  induction l as [|x l IH]; intros H; [now exists []|]. destruct (H x (or_introl eq_refl)) as [y E]. destruct IH as [r Er]; [intros z Hz; apply H; now right|].
  exists (y :: r). cbn. now rewrite E, Er.
Qed.

Section Pattern.
Context {F : Type} (zero one : F) (add sub mul div : F -> F -> F) (opp sqrt : F -> F) (gtb geb : F -> F -> bool) (nonzero : F -> bool) (of_nat : nat -> F).
Context (n : nat) (A : nat -> nat -> F) (pattern : nat -> list nat) (solve : list (list F) -> list F -> list F) (order : list nat -> list nat) (order_map : list (nat * F) -> list (nat * F)).
Hypothesis Hnz : nonzero zero = false.
Hypothesis Hpat : forall i, i < n -> pattern i <> [] /\ forall j, In j (pattern i) -> j < n.
Hypothesis Hsolve : forall M b, length (solve M b) = length b.
Hypothesis Hord : forall l, Permutation (order l) l.
Hypothesis Hordm : forall l, Permutation (order_map l) l.
Local Notation approximate := (approximate F zero one add sub mul div opp sqrt A solve order).
Local Notation candidates := (candidates pattern order).
Local Notation eligible := (eligible F zero add mul A order).
Local Notation taus := (taus F zero add mul div gtb A order_map).
Local Notation find_max := (find_max F geb).
Local Notation pick := (pick F gtb geb).
Local Notation step := (step F zero one add sub mul div opp sqrt gtb geb of_nat A pattern solve order order_map).
Local Notation steps := (steps F zero one add sub mul div opp sqrt gtb geb of_nat A pattern solve order order_map).
Local Notation column := (column F zero one add sub mul div opp sqrt gtb geb nonzero of_nat n A pattern solve order order_map).
Local Notation compute := (compute F zero one add sub mul div opp sqrt gtb geb nonzero of_nat n A pattern solve order order_map).
Local Notation construct := (construct F n).
Local Notation coeff := (coeff F zero).

Lemma in_order x l : In x (order l) <-> In x l.
Proof. split; apply Permutation_in; [apply Hord|apply Permutation_sym, Hord]. Qed.
Lemma order_length l : length (order l) = length l.
Proof. apply Permutation_length, Hord. Qed.
(* a column of L: zero outside the pattern *)
Definition col_ok (J : list nat) (L : list F) : Prop := length L = n /\ forall i, i < n -> ~ In i J -> nth_error L i = Some zero.
Lemma upd_ok (L : list F) i x : i < length L -> upd_res L i x = Ok (upd L i x).
Proof. intros H. unfold upd_res. destruct (Nat.ltb_spec i (length L)); [reflexivity|lia]. Qed.
Lemma col_upd J L i x : col_ok J L -> In i J -> col_ok J (upd L i x).
Proof. intros [H1 H2] Hi. split; [now rewrite upd_length|]. intros j Hj Nj. rewrite nth_error_upd_other; [now apply H2|]. intros ->. contradiction. Qed.
Lemma col_mono J J' L : (forall i, In i J -> In i J') -> col_ok J L -> col_ok J' L.
Proof. intros H [H1 H2]. split; [exact H1|]. intros i Hi Ni. apply H2; auto. Qed.
Definition pat_ok (k : nat) (J : list nat) : Prop := NoDup J /\ In k J /\ forall j, In j J -> k <= j < n.

Lemma approximate_ok L k J : pat_ok k J -> col_ok J L -> exists L', approximate L k J = Ok L' /\ col_ok J L'.
Proof.
  intros (Hn & Hk & Hb) HL. assert (Lk : k < length L) by (rewrite (proj1 HL); apply Hb in Hk; lia). unfold FspaiModel.approximate.
  assert (HU : forall b y p, (forall j, In j p -> In j J) -> length y = length p -> exists L', update_inverse F zero one add sub mul div opp sqrt A order L k b y p = Ok L' /\ col_ok J L').
  { intros b y p Hp Hy. unfold update_inverse. rewrite upd_ok by exact Lk. cbn [bind]. apply foldM_ok_inv; [|now apply col_upd].
    intros s [j t] Hin Hs. cbn [fst snd]. assert (Hj : In j J) by (apply in_combine_l in Hin; apply (proj1 (in_order _ _)) in Hin; auto).
    apply in_combine_r in Hin. apply in_seq in Hin. destruct (nth_error y t) as [v|] eqn:E; [|apply nth_error_None in E; lia]. rewrite (proj2 (nth_res_ok _ _ _) E). cbn [bind].
    rewrite upd_ok by (rewrite (proj1 Hs); apply Hb in Hj; lia). eexists. split; [reflexivity|]. now apply col_upd. }
  destruct (remove k J) as [|a r] eqn:E.
  - rewrite upd_ok by exact Lk. eexists. split; [reflexivity|]. now apply col_upd.
  - cbn [extract_system]. apply HU; [|rewrite Hsolve, map_length, order_length; reflexivity]. intros j Hj. rewrite <- E in Hj. now apply in_remove' in Hj.
Qed.
Lemma candidates_ok k dl cand : (forall j, In j dl -> j < n) -> (forall j, In j cand -> k < j < n) ->
  exists c, candidates k dl cand = Ok c /\ (forall j, In j c -> k < j < n).
Proof.
  intros Hd Hc. unfold FspaiModel.candidates. apply foldM_ok_inv; [|exact Hc]. intros c row Hrow Hcc. apply (proj1 (in_order _ _)) in Hrow. destruct (Hpat row (Hd row Hrow)) as [Hne Hlt].
  destruct (pattern row) as [|q r] eqn:E; [contradiction|]. eexists. split; [reflexivity|]. apply fold_left_inv; [|exact Hcc].
  intros s j Hj Hs. destruct (Nat.ltb_spec k j) as [Hkj|]; [|exact Hs]. intros i Hi. apply in_insert in Hi as [->|Hi]; [|now apply Hs]. apply (proj1 (in_order _ _)) in Hj. split; [exact Hkj|now apply Hlt].
Qed.
Lemma eligible_ok k cand J L : length L = n -> (forall j, In j J -> j < n) -> exists h, eligible k cand J L = Ok h.
Proof.
  intros HL HJ. unfold FspaiModel.eligible. apply mapM_ok_all. intros j _. destruct (foldM_ok_inv (fun _ => True) (fun v i => l <- nth_res L i ;; Ok (add v (mul (A j i) l))) (order J)) with (s := zero) as (v & E & _).
  - intros s i Hi _. apply (proj1 (in_order _ _)) in Hi. assert (i < length L) by (rewrite HL; auto). destruct (nth_error L i) as [l|] eqn:E; [|apply nth_error_None in E; lia]. rewrite (proj2 (nth_res_ok _ _ _) E). cbn. eauto.
  - exact I.
  - rewrite E. cbn. eauto.
Qed.
Lemma eligible_keys k cand J L h : eligible k cand J L = Ok h -> map fst h = filter (fun j => negb (mem j J)) (order cand).
Proof.
  unfold FspaiModel.eligible. intros H. apply mapM_ok in H. revert H. generalize (filter (fun j => negb (mem j J)) (order cand)) as l. intros l H.
  induction H as [|j p l h Hj HF IH]; [reflexivity|]. cbn [map]. rewrite IH. f_equal. apply bind_ok in Hj as (v & _ & E). injection E as <-. reflexivity.
Qed.
Lemma taus_keys hat : forall h s m, taus hat = (h, s, m) -> map fst h = map fst (order_map hat).
Proof.
  unfold FspaiModel.taus. intros h s m H.
  assert (G : forall l acc, map fst (fst (fst (fold_left (tau_step F add mul div gtb A) l acc))) = map fst (fst (fst acc)) ++ map fst l).
  { clear. induction l as [|p l IH]; intros acc; cbn [fold_left]; [cbn; now rewrite app_nil_r|]. rewrite IH. unfold tau_step. cbn [fst snd]. rewrite map_app. cbn. now rewrite <- app_assoc. }
  specialize (G (order_map hat) ([], zero, zero)). rewrite H in G. exact G.
Qed.
Lemma find_max_in h m : find_max h = Some m -> In m h.
Proof.
  destruct h as [|p h]; [discriminate|]. intros H. assert (E : m = fold_left (fun m q => if geb (snd q) (snd m) then q else m) (p :: h) p) by (unfold FspaiModel.find_max in H; congruence). subst m. clear H. apply (fold_left_inv (fun m => In m (p :: h))); [|now left]. intros s x Hx Hs. destruct (geb (snd x) (snd s)); assumption.
Qed.
(* picked indices come from the list, at most beta of them *)
Lemma pick_ok beta mean : forall h J dl J' dl', pick beta mean h J dl = (J', dl') ->
  (forall j, In j J -> In j J') /\ (forall j, In j J' -> In j J \/ In j (map fst h)) /\ (forall j, In j dl' -> In j dl \/ In j (map fst h)) /\ length J' <= length J + beta /\ (NoDup J -> NoDup J').
Proof.
  induction beta as [|b IH]; intros h J dl J' dl' H; cbn in H.
  - injection H as <- <-. repeat split; auto. lia.
  - destruct (find_max h) as [m|] eqn:E; [|injection H as <- <-; repeat split; auto; lia]. apply find_max_in in E.
    assert (Hm : In (fst m) (map fst h)) by now apply in_map.
    assert (Hf : forall j, In j (map fst (filter (fun q => negb (fst m =? fst q)) h)) -> In j (map fst h)).
    { intros j Hj. apply in_map_iff in Hj as (q & <- & Hq). apply filter_In in Hq as [Hq _]. now apply in_map. }
    destruct (gtb (snd m) mean); apply IH in H as (H1 & H2 & H3 & H4 & H5).
    + repeat split.
      * intros j Hj. apply H1, in_insert. now right.
      * intros j Hj. apply H2 in Hj as [Hj|Hj]; [|right; auto]. apply in_insert in Hj as [->|Hj]; auto.
      * intros j Hj. apply H3 in Hj as [Hj|Hj]; [|right; auto]. apply in_insert in Hj as [->|Hj]; auto.
      * pose proof (insert_length (fst m) J). lia.
      * intros Hn. apply H5. now apply insert_nodup.
    + repeat split; auto; [|intros j Hj; apply H3 in Hj as [Hj|Hj]; auto|lia]. intros j Hj. apply H2 in Hj as [Hj|Hj]; auto.
Qed.
Definition column_ok (k : nat) (c : list nat * list nat * list nat * list F) : Prop :=
  let '(J, cand, dl, L) := c in pat_ok k J /\ (forall j, In j cand -> k < j < n) /\ (forall j, In j dl -> j < n) /\ col_ok J L.
Definition pat_of (c : list nat * list nat * list nat * list F) : list nat := fst (fst (fst c)).
Theorem C91_step beta eps k c : column_ok k c -> exists c', step beta eps k c = Ok c' /\ column_ok k c' /\
  (forall j, In j (pat_of c) -> In j (pat_of c')) /\ length (pat_of c') <= length (pat_of c) + beta.
Proof.
  destruct c as [[[J cand] dl] L]. intros (HJ & Hc & Hd & HL). unfold FspaiModel.step. destruct dl as [|d dl].
  - eexists. split; [reflexivity|]. split; [exact (conj HJ (conj Hc (conj Hd HL)))|]. split; [auto|lia].
  - destruct (approximate_ok L k J HJ HL) as (L1 & E1 & HL1). rewrite E1. cbn [bind]. destruct (candidates_ok k (d :: dl) cand Hd Hc) as (c1 & E2 & Hc1). rewrite E2. cbn [bind].
    destruct (eligible_ok k c1 J L1 (proj1 HL1)) as (h & E3); [intros j Hj; now apply HJ|]. rewrite E3. cbn [bind]. destruct (taus h) as [[h1 s] m] eqn:Et.
    assert (Hk : forall j, In j (map fst h1) -> k < j < n).
    { intros j Hj. rewrite (taus_keys h h1 s m Et) in Hj. apply (Permutation_in (l' := map fst h)) in Hj; [|apply Permutation_map, Hordm].
      rewrite (eligible_keys _ _ _ _ _ E3) in Hj. apply filter_In in Hj as [Hj _]. apply Hc1. now apply (proj1 (in_order _ _)). }
    destruct (gtb m eps).
    + destruct (pick beta (div s (of_nat (length h))) h1 J []) as [J1 dl1] eqn:Ep. apply pick_ok in Ep as (P1 & P2 & P3 & P4 & P5). eexists. split; [reflexivity|]. cbn. split; [|split; [exact P1|exact P4]].
      destruct HJ as (HJ1 & HJ2 & HJ3). split; [|split; [exact Hc1|split]].
      * split; [auto|]. split; [auto|]. intros j Hj. apply P2 in Hj as [Hj|Hj]; [auto|]. apply Hk in Hj. lia.
      * intros j Hj. apply P3 in Hj as [[]|Hj]. apply Hk in Hj. lia.
      * now apply (col_mono J).
    + eexists. split; [reflexivity|]. cbn. split; [|split; [auto|lia]]. split; [exact HJ|]. split; [exact Hc1|]. split; [now intros j []|exact HL1].
Qed.
Lemma steps_ok alpha beta eps k : forall c, column_ok k c -> exists c', steps alpha beta eps k c = Ok c' /\ column_ok k c' /\ (forall j, In j (pat_of c) -> In j (pat_of c')) /\ length (pat_of c') <= length (pat_of c) + alpha * beta.
Proof.
  induction alpha as [|a IH]; intros c Hc; [exists c; repeat split; auto; lia|]. destruct (C91_step beta eps k c Hc) as (c1 & E1 & H1 & M1 & L1). destruct (IH c1 H1) as (c2 & E2 & H2 & M2 & L2).
  exists c2. cbn [FspaiModel.steps]. rewrite E1. cbn [bind]. rewrite E2. split; [reflexivity|]. split; [exact H2|]. split; [auto|lia].
Qed.
(* the object between two calls: what the constructor establishes and compute preserves *)
Definition state_ok (s : state F) : Prop :=
  length (patterns F s) = n /\ (forall j, In j (delta F s) -> j < n) /\ forall k J, nth_error (patterns F s) k = Some J -> pat_ok k J.
Lemma construct_ok : state_ok construct.
Proof.
  unfold FspaiModel.construct. split; [cbn; now rewrite map_length, seq_length|]. split; [now intros j []|]. cbn [patterns]. intros k J H.
  rewrite nth_error_map, nth_error_seq in H. destruct (Nat.ltb_spec k n) as [Hk|]; [|discriminate]. injection H as <-. cbn. split; [repeat constructor; auto|]. split; [now left|]. intros j [<-|[]]. lia.
Qed.
Lemma column_state alpha beta eps s k : state_ok s -> k < n -> exists s' J J' new, column alpha beta eps s k = Ok s' /\ state_ok s' /\ nth_error (patterns F s) k = Some J /\ nth_error (patterns F s') k = Some J' /\
  (forall i, i <> k -> nth_error (patterns F s') i = nth_error (patterns F s) i) /\ (forall j, In j J -> In j J') /\ length J' <= length J + alpha * beta /\
  entries F s' = entries F s ++ new /\ (forall i l v, In (i, l, v) new -> l = k /\ In i J').
Proof.
  intros (Hl & Hd & Hp) Hk. destruct (nth_error (patterns F s) k) as [J|] eqn:EJ; [|apply nth_error_None in EJ; lia]. unfold FspaiModel.column. rewrite (proj2 (nth_res_ok _ _ _) EJ). cbn [bind].
  assert (HJ := Hp k J EJ). destruct (steps_ok alpha beta eps k (J, [], insert k (delta F s), repeat zero n)) as ([[[J1 cand] dl] L] & E & (HJ1 & Hc1 & Hd1 & HL1) & HM & HL).
  - cbn. split; [exact HJ|]. split; [now intros j []|]. split; [intros j Hj; apply in_insert in Hj as [->|Hj]; auto|]. split; [apply repeat_length|]. intros i Hi _. now apply nth_error_repeat.
  - rewrite E. cbn [bind]. unfold pat_of in HM, HL. cbn [fst] in HM, HL. unfold upd_res. destruct (Nat.ltb_spec k (length (patterns F s))) as [Hkl|]; [|lia]. cbn [bind].
    eexists. exists J, J1. eexists. split; [reflexivity|]. cbn [patterns delta entries]. split; [|split; [reflexivity|split; [now apply nth_error_upd_same|split; [intros i Hi; apply nth_error_upd_other; auto|split; [exact HM|split; [exact HL|split; [reflexivity|]]]]]]].
    + split; [cbn; now rewrite upd_length|]. split; [exact Hd1|]. cbn [patterns]. intros i J2 Hi. destruct (Nat.eq_dec i k) as [->|N].
      * rewrite nth_error_upd_same in Hi by exact Hkl. now injection Hi as <-.
      * rewrite nth_error_upd_other in Hi by auto. now apply Hp.
    + intros i l v Hin. apply in_map_iff in Hin as ([i' v'] & Eq & Hin). injection Eq as -> <- ->. apply filter_In in Hin as [Hin Hnzv]. cbn in Hnzv. split; [reflexivity|].
      apply In_nth_error in Hin as [t Ht]. assert (Ht' : nth_error (seq 0 n) t = Some i /\ nth_error L t = Some v).
      { clear -Ht. revert L t Ht. generalize (seq 0 n) as a. induction a as [|x a IH]; intros [|y L] [|t] Ht; cbn in *; try discriminate; [injection Ht as -> ->; auto|]. now apply IH. }
      destruct Ht' as [Hs Hv]. rewrite nth_error_seq in Hs. destruct (Nat.ltb_spec t n) as [Htn|]; [|discriminate]. injection Hs as <-. cbn in *.
      destruct (in_dec Nat.eq_dec t J1) as [Hin|Hin]; [exact Hin|]. rewrite (proj2 HL1 t Htn Hin) in Hv. injection Hv as <-. congruence.
Qed.
(* any number of calls to compute on a constructed object: patterns contain the diagonal, stay on or below it, only grow, by at most
   alpha * beta indices per call; the entries of L are in the pattern, hence L is lower triangular *)
Theorem C91_pattern alpha beta eps s : state_ok s -> exists s', compute alpha beta eps s = Ok s' /\ state_ok s' /\
  (forall k J, nth_error (patterns F s) k = Some J -> exists J', nth_error (patterns F s') k = Some J' /\ (forall j, In j J -> In j J') /\ length J' <= length J + alpha * beta) /\
  (forall i k v, In (i, k, v) (entries F s') -> k <= i < n /\ exists J', nth_error (patterns F s') k = Some J' /\ In i J').
Proof.
  intros Hs. unfold FspaiModel.compute.
  set (P := fun (m : nat) (s' : state F) => state_ok s' /\
     (forall k J, nth_error (patterns F s) k = Some J -> exists J', nth_error (patterns F s') k = Some J' /\ (forall j, In j J -> In j J') /\ length J' <= length J + alpha * beta /\ (m <= k -> J' = J)) /\
     (forall i k v, In (i, k, v) (entries F s') -> k < m /\ exists J', nth_error (patterns F s') k = Some J' /\ In i J')).
  assert (G : forall l m s', l = seq m (n - m) -> m <= n -> P m s' -> exists s'', foldM (column alpha beta eps) l s' = Ok s'' /\ P n s'').
  { induction l as [|x l IH]; intros m s' El Hm HP.
    - exists s'. split; [reflexivity|]. assert (m = n) by (apply (f_equal (@length nat)) in El; rewrite seq_length in El; cbn in El; lia). now subst.
    - destruct (n - m) as [|d] eqn:Ed; [discriminate|]. cbn [seq] in El. injection El as -> El. assert (Hmn : m < n) by lia. destruct HP as (H1 & H2 & H3).
      destruct (column_state alpha beta eps s' m H1 Hmn) as (s1 & J & J' & new & E & K1 & K2 & K3 & K4 & K5 & K6 & K7 & K8). cbn [foldM]. rewrite E. cbn [bind].
      apply (IH (S m)); [rewrite El; f_equal; lia|lia|]. split; [exact K1|]. split.
      + intros k J0 Hk. destruct (H2 k J0 Hk) as (J1 & M1 & M2 & M3 & M4). destruct (Nat.eq_dec k m) as [->|N].
        * exists J'. assert (J1 = J) by congruence. subst J1. specialize (M4 (Nat.le_refl _)). subst J0. repeat split; auto. intros; lia.
        * exists J1. rewrite K4 by auto. repeat split; auto. intros Hmk. apply M4. lia.
      + intros i k v Hin. rewrite K7 in Hin. apply in_app_or in Hin as [Hin|Hin].
        * destruct (H3 i k v Hin) as (L1 & J1 & L2 & L3). split; [lia|]. exists J1. rewrite K4 by lia. auto.
        * apply K8 in Hin as [-> Hi]. split; [lia|]. eauto. }
  destruct (G (seq 0 n) 0 (State F (patterns F s) (delta F s) [])) as (s' & E & (H1 & H2 & H3)).
  - f_equal; lia.
  - lia.
  - split; [exact Hs|]. cbn [patterns entries]. split; [|now intros i k v []]. intros k J Hk. exists J. repeat split; auto. lia.
  - exists s'. split; [exact E|]. split; [exact H1|]. split.
    + intros k J Hk. destruct (H2 k J Hk) as (J' & M1 & M2 & M3 & _). eauto.
    + intros i k v Hin. destruct (H3 i k v Hin) as (Hk & J' & M1 & M2). destruct H1 as (_ & _ & HP). destruct (HP k J' M1) as (_ & _ & HB). split; [now apply HB|eauto].
Qed.
Theorem C91_constructed : state_ok construct.
Proof. exact construct_ok. Qed.
End Pattern.

Print Assumptions C91_step.
Print Assumptions C91_pattern.
Print Assumptions C91_constructed.
