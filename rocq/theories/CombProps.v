(* Property C16: combinations<K,N> lists every K-subset once, in lexicographic order. *)
From Coq Require Import Sorted.
From Verif Require Import Base CombModel.

Fixpoint increasing_from (i : nat) (l : list nat) : Prop :=
  match l with [] => True | x :: l' => i <= x /\ increasing_from (S x) l' end.
(* a K-subset of {0..N-1}, as an increasing list *)
Definition is_subset (K N : nat) (r : list nat) : Prop :=
  length r = K /\ increasing_from 0 r /\ Forall (fun x => x < N) r.
Fixpoint lex_lt (a b : list nat) : Prop :=
  match a, b with
  | x :: a', y :: b' => x < y \/ (x = y /\ lex_lt a' b')
  | _, _ => False
  end.

Fixpoint masks (k n : nat) : list (list bool) :=
  match n with
  | 0 => match k with 0 => [[]] | S _ => [] end
  | S n' => match k with 0 => [] | S k' => map (cons true) (masks k' n') end ++ map (cons false) (masks k n')
  end.

Lemma masks_gt : forall n k, n < k -> masks k n = [].
Proof.
  induction n; intros k H; simpl; destruct k; try lia; auto.
  rewrite (IHn k), (IHn (S k)) by lia. auto.
Qed.
Lemma masks_0 : forall n, masks 0 n = [repeat false n].
Proof. induction n; simpl; auto. rewrite IHn; auto. Qed.

Fixpoint binom (n k : nat) : nat :=
  match k with 0 => 1 | S k' => match n with 0 => 0 | S n' => binom n' k' + binom n' k end end.
Lemma masks_length : forall n k, length (masks k n) = binom n k.
Proof.
  induction n; intros k; destruct k; simpl; auto.
  - rewrite map_length, masks_0; auto.
  - rewrite app_length, !map_length, !IHn. auto.
Qed.
Lemma binom_n_0 : forall n, binom n 0 = 1. Proof. destruct n; auto. Qed.
Lemma binom_gt : forall n k, n < k -> binom n k = 0.
Proof. intros n k H. rewrite <- masks_length, masks_gt; auto. Qed.
Lemma binom_fact : forall n k, k <= n -> binom n k * (ct_factorial k * ct_factorial (n - k)) = ct_factorial n.
Proof.
  induction n; intros k H; [replace k with 0 by lia; reflexivity|].
  destruct k as [|k].
  - rewrite binom_n_0. cbn [ct_factorial]. rewrite Nat.sub_0_r. cbn [ct_factorial]. ring.
  - cbn [binom]. replace (S n - S k) with (n - k) by lia.
    destruct (Nat.eq_dec k n) as [->|Hk].
    + rewrite (binom_gt n (S n)) by lia. specialize (IHn n (le_n _)).
      rewrite Nat.sub_diag in *. cbn [ct_factorial] in *. nia.
    + pose proof (IHn k ltac:(lia)) as H1. pose proof (IHn (S k) ltac:(lia)) as H2.
      replace (n - k) with (S (n - S k)) in * by lia.
      cbn [ct_factorial] in *.
      set (a := ct_factorial k) in *. set (b := ct_factorial (n - S k)) in *. set (f := ct_factorial n) in *.
      set (x := binom n k) in *. set (y := binom n (S k)) in *.
      replace (S n) with (S (n - S k) + S k) at 1 by lia.
      transitivity (S k * (x * (a * (S (n - S k) * b))) + S (n - S k) * (y * (S k * a * b))); [ring|].
      rewrite H1, H2. ring.
Qed.
Lemma fact_pos : forall n, 0 < ct_factorial n.
Proof. induction n; cbn [ct_factorial]; lia. Qed.
Lemma ct_binomial_ok : forall n k, k <= n -> ct_binomial n k = binom n k.
Proof.
  intros n k H. unfold ct_binomial. rewrite <- (binom_fact n k H).
  apply Nat.div_mul. pose proof (fact_pos k); pose proof (fact_pos (n-k)); nia.
Qed.

(* first and last masks *)
Lemma masks_first : forall n k, k <= n -> exists tl, masks k n = (repeat true k ++ repeat false (n - k)) :: tl.
Proof.
  induction n; intros k H.
  - replace k with 0 by lia. exists []; reflexivity.
  - destruct k as [|k].
    + rewrite masks_0. exists []. simpl. reflexivity.
    + destruct (IHn k ltac:(lia)) as [tl E]. cbn [masks]. rewrite E. eexists. simpl. reflexivity.
Qed.
Lemma masks_last : forall n k, k <= n -> exists ini, masks k n = ini ++ [repeat false (n - k) ++ repeat true k].
Proof.
  induction n; intros k H.
  - replace k with 0 by lia. exists []; reflexivity.
  - destruct (Nat.eq_dec k (S n)) as [->|Hk].
    + rewrite Nat.sub_diag. cbn [masks]. destruct (IHn n (le_n _)) as [ini E]. rewrite E, (masks_gt n (S n)) by lia.
      rewrite map_app, app_nil_r. eexists. rewrite Nat.sub_diag. cbn. reflexivity.
    + destruct (IHn k ltac:(lia)) as [ini E]. cbn [masks]. rewrite E, map_app, app_assoc. eexists. f_equal. cbn [map].
      replace (S n - k) with (S (n - k)) by lia. reflexivity.
Qed.

(* consecutive masks are related by prev_perm and the last one has no successor *)
Fixpoint chain (l : list (list bool)) : Prop :=
  match l with
  | [] => True
  | x :: l' => match l' with [] => prev_perm x = None | y :: _ => prev_perm x = Some y end /\ chain l'
  end.

Lemma set_last_false_ok : forall a k, set_last_false (repeat false (S a) ++ repeat true k) = repeat false a ++ repeat true (S k).
Proof.
  assert (F: forall k, forallb (fun c => c) (repeat true k) = true) by (induction k; simpl; auto).
  induction a as [|a IH]; intros k.
  - cbn [repeat app set_last_false negb]. rewrite F. reflexivity.
  - change (repeat false (S (S a)) ++ repeat true k) with (false :: repeat false (S a) ++ repeat true k).
    cbn [set_last_false negb]. cbn [repeat app forallb andb]. 
    change (false :: repeat false a ++ repeat true k) with (repeat false (S a) ++ repeat true k). rewrite IH. reflexivity.
Qed.
Lemma rev_repeat' : forall A (x : A) n, rev (repeat x n) = repeat x n.
Proof.
  intros A x n. induction n; simpl; auto. rewrite IHn. clear. induction n; simpl; auto. f_equal; auto.
Qed.

Lemma chain_last_none : forall l ini x, chain l -> l = ini ++ [x] -> prev_perm x = None.
Proof.
  induction l as [|y l IH]; intros ini x C E; [destruct ini; discriminate|].
  destruct ini as [|z ini].
  - inversion E; subst. simpl in C. tauto.
  - inversion E; subst. eapply IH; [|reflexivity]. simpl in C; tauto.
Qed.
Lemma chain_map : forall b l, chain l -> (forall x, In x l -> prev_perm x = None -> prev_perm (b :: x) = None) -> chain (map (cons b) l).
Proof.
  intros b; induction l as [|x l IH]; intros C H; simpl; auto. simpl in C. destruct C as [C1 C2]. split.
  - destruct l as [|y l]; simpl.
    + apply H; simpl; auto.
    + rewrite C1. reflexivity.
  - apply IH; auto. intros; apply H; simpl; auto.
Qed.
(* chain on a prefix: every consecutive pair, without the end condition *)
Fixpoint linked (l : list (list bool)) : Prop :=
  match l with
  | [] => True
  | x :: l' => match l' with [] => True | y :: _ => prev_perm x = Some y end /\ linked l'
  end.
Lemma chain_linked : forall l, chain l -> linked l.
Proof. induction l as [|x l IH]; simpl; auto. destruct l; simpl in *; tauto. Qed.
Lemma linked_map : forall b l, linked l -> linked (map (cons b) l).
Proof.
  intros b; induction l as [|x l IH]; simpl; auto. intros [C1 C2]. split; auto. destruct l as [|y l]; simpl; auto. rewrite C1; auto.
Qed.
Lemma linked_chain : forall l y m, linked l -> chain (y :: m) -> (forall ini x, l = ini ++ [x] -> prev_perm x = Some y) ->
  chain (l ++ y :: m).
Proof.
  induction l as [|x l IH]; intros y m L C H; auto.
  destruct L as [L1 L2]. destruct l as [|z l].
  - cbn [app]. split; [apply (H []); reflexivity|auto].
  - cbn [app]. split; [auto|]. apply IH; auto. intros ini w E. apply (H (x :: ini)). rewrite E. reflexivity.
Qed.

Lemma masks_chain : forall n k, chain (masks k n).
Proof.
  induction n as [|n IH]; intros k.
  - destruct k; simpl; auto.
  - assert (HF: chain (map (cons false) (masks k n))).
    { apply chain_map; auto. intros x _ E. cbn [prev_perm]. rewrite E. reflexivity. }
    destruct k as [|k].
    + exact HF.
    + cbn [masks].
      destruct (le_lt_dec (S k) n) as [Hle|Hgt].
      * destruct (masks_first n (S k) Hle) as [tl Etl]. rewrite Etl in *. cbn [map] in *.
        apply linked_chain; auto.
        -- apply linked_map, chain_linked; auto.
        -- intros ini x E.
           destruct (masks_last n k ltac:(lia)) as [ini2 E2]. rewrite E2, map_app in E.
           apply app_inj_tail in E. destruct E as [_ <-].
           cbn [prev_perm]. rewrite (chain_last_none _ _ _ (IH k) E2).
           replace (n - k) with (S (n - S k)) by lia. 
           cbn [repeat app]. do 2 f_equal.
           change (false :: repeat false (n - S k) ++ repeat true k) with (repeat false (S (n - S k)) ++ repeat true k).
           rewrite set_last_false_ok, rev_app_distr, !rev_repeat'. reflexivity.
      * rewrite (masks_gt n (S k)) by lia. cbn [map]. rewrite app_nil_r.
        apply chain_map; auto. intros x Hx E.
        cbn [prev_perm]. rewrite E.
        destruct (le_lt_dec k n) as [Hk|Hk]; [|rewrite (masks_gt n k) in Hx by lia; destruct Hx].
        replace k with n in Hx by lia.
        assert (Hm: masks n n = [repeat true n]).
        { clear. induction n; auto. cbn [masks]. rewrite IHn, (masks_gt n (S n)) by lia. reflexivity. }
        rewrite Hm in Hx. destruct Hx as [<-|[]]. destruct n; reflexivity.
Qed.

Lemma comb_loop_ok : forall l x fuel rows K j, chain (x :: l) -> length (x :: l) <= fuel -> j + length (x :: l) <= rows ->
  (forall m, In m (x :: l) -> length (positions 0 m) = K) ->
  comb_loop fuel rows K j x = Ok (map (positions 0) (x :: l)).
Proof.
  induction l as [|y l IH]; intros x fuel rows K j C Hf Hr HK; (destruct fuel as [|fuel]; [simpl in Hf; lia|]);
    cbn [comb_loop]; rewrite (HK x) by (simpl; auto); rewrite Nat.eqb_refl; cbn [length] in *;
    (assert (Ej: (j <? rows) = true) by (apply Nat.ltb_lt; lia)); rewrite Ej; cbn [andb]; destruct C as [C1 C2]; rewrite C1.
  - reflexivity.
  - rewrite IH; auto; [cbn [length]; lia|cbn [length]; lia|intros; apply HK; simpl in *; auto].
Qed.

Lemma masks_positions_length : forall n k m i, In m (masks k n) -> length (positions i m) = k.
Proof.
  induction n; intros k m i H; simpl in H.
  - destruct k; simpl in H; [destruct H as [<-|[]]; auto|tauto].
  - apply in_app_or in H. destruct H as [H|H].
    + destruct k; [destruct H|]. apply in_map_iff in H. destruct H as [x [<- Hx]]. simpl. f_equal. eauto.
    + apply in_map_iff in H. destruct H as [x [<- Hx]]. simpl. eauto.
Qed.
Lemma masks_len : forall n k m, In m (masks k n) -> length m = n.
Proof.
  induction n; intros k m H; simpl in H.
  - destruct k; simpl in H; [destruct H as [<-|[]]; auto|tauto].
  - apply in_app_or in H. destruct H as [H|H].
    + destruct k; [destruct H|]. apply in_map_iff in H. destruct H as [x [<- Hx]]. simpl. f_equal. eauto.
    + apply in_map_iff in H. destruct H as [x [<- Hx]]. simpl. f_equal. eauto.
Qed.
Lemma positions_range : forall m i, increasing_from i (positions i m) /\ Forall (fun x => x < i + length m) (positions i m).
Proof.
  assert (W: forall l i j, i <= j -> increasing_from j l -> increasing_from i l).
  { intros [|x l] i j H; simpl; auto. intros [H1 H2]; split; auto; lia. }
  induction m as [|b m IH]; intros i; simpl; auto.
  destruct (IH (S i)) as [A B].
  assert (B': Forall (fun x => x < i + S (length m)) (positions (S i) m)).
  { eapply Forall_impl; [|exact B]. intros; simpl in *; lia. }
  destruct b; simpl.
  - split; [split; [lia|auto]|]. constructor; [lia|auto].
  - split; auto. eapply W; [|exact A]. lia.
Qed.
Lemma masks_complete : forall n k r i, length r = k -> increasing_from i r -> Forall (fun x => x < i + n) r ->
  exists m, In m (masks k n) /\ positions i m = r.
Proof.
  induction n as [|n IH]; intros k r i HL HI HF.
  - destruct r as [|x r]; [subst k; exists []; simpl; auto|]. simpl in HI. inversion HF; subst. lia.
  - destruct r as [|x r].
    + subst k. destruct (IH 0 [] (S i) eq_refl I ltac:(constructor)) as [m [Hm E]]. exists (false :: m). split; auto.
      simpl. apply in_map; auto.
    + subst k. simpl in HI. destruct HI as [Hx HI]. inversion HF as [|? ? Hxn HF']; subst.
      destruct (Nat.eq_dec x i) as [->|Hne].
      * destruct (IH (length r) r (S i) eq_refl HI) as [m [Hm E]].
        { eapply Forall_impl; [|exact HF']. intros; simpl in *; lia. }
        exists (true :: m). cbn [masks length]. split; [apply in_or_app; left; apply in_map; auto|]. cbn [positions]. congruence.
      * destruct (IH (S (length r)) (x :: r) (S i) eq_refl) as [m [Hm E]].
        { simpl; split; [lia|auto]. }
        { eapply Forall_impl; [|exact HF]. intros; simpl in *; lia. }
        exists (false :: m). cbn [masks length]. split; [apply in_or_app; right; apply in_map; auto|]. cbn [positions]. auto.
Qed.
Lemma positions_cons_true : forall i l, map (positions i) (map (cons true) l) = map (cons i) (map (positions (S i)) l).
Proof. intros; rewrite !map_map. apply map_ext; auto. Qed.
Lemma positions_cons_false : forall i l, map (positions i) (map (cons false) l) = map (positions (S i)) l.
Proof. intros; rewrite !map_map. apply map_ext; auto. Qed.
Lemma SS_app : forall A (R : A -> A -> Prop) a b, StronglySorted R a -> StronglySorted R b ->
  (forall x y, In x a -> In y b -> R x y) -> StronglySorted R (a ++ b).
Proof.
  induction a as [|x a IH]; intros b Ha Hb H; simpl; auto. inversion Ha; subst. constructor.
  - apply IH; auto. intros; apply H; simpl; auto.
  - apply Forall_app; split; auto. apply Forall_forall. intros; apply H; simpl; auto.
Qed.
Lemma masks_lex : forall n k i, StronglySorted lex_lt (map (positions i) (masks k n)).
Proof.
  induction n as [|n IH]; intros k i.
  - destruct k; simpl; repeat constructor.
  - cbn [masks]. rewrite map_app, positions_cons_false.
    destruct k as [|k]; [apply IH|]. rewrite positions_cons_true. apply SS_app; [|apply IH|].
    + specialize (IH k (S i)). induction IH as [|x l Hs IHs HF]; simpl; constructor; auto.
      apply Forall_forall. intros y Hy. apply in_map_iff in Hy. destruct Hy as [z [<- Hz]].
      rewrite Forall_forall in HF. simpl. right; auto.
    + intros x y Hx Hy. apply in_map_iff in Hx. destruct Hx as [x' [<- Hx]].
      apply in_map_iff in Hy. destruct Hy as [m [<- Hm]].
      pose proof (masks_positions_length _ _ _ (S i) Hm) as HL. destruct (positions_range m (S i)) as [HI _].
      destruct (positions (S i) m) as [|z l]; [discriminate|]. simpl in *. left; lia.
Qed.

(* for every K <= N: the call succeeds, the rows are exactly the K-subsets, in lexicographic order *)
Theorem combinations_spec : forall K N, K <= N ->
  exists rows, combinations K N = Ok rows /\
    (forall r, In r rows <-> is_subset K N r) /\
    StronglySorted lex_lt rows /\
    length rows * (ct_factorial K * ct_factorial (N - K)) = ct_factorial N.
Proof.
  intros K N H. exists (map (positions 0) (masks K N)). split; [|split; [|split]].
  - unfold combinations. destruct (masks_first N K H) as [tl E]. pose proof (masks_chain N K) as C.
    pose proof (masks_length N K) as L. rewrite E in *. rewrite ct_binomial_ok by auto. rewrite <- L.
    apply comb_loop_ok; auto. intros m Hm. rewrite <- E in Hm. eapply masks_positions_length; eauto.
  - intros r. rewrite in_map_iff. split.
    + intros [m [<- Hm]]. split; [eapply masks_positions_length; eauto|].
      destruct (positions_range m 0). split; auto. rewrite (masks_len _ _ _ Hm) in *. auto.
    + intros [A [B C]]. destruct (masks_complete N K r 0 A B C) as [m [Hm E]]. eauto.
  - apply masks_lex.
  - rewrite map_length, masks_length. apply binom_fact; auto.
Qed.
Print Assumptions combinations_spec.

(* each subset appears once *)
Theorem combinations_nodup : forall K N rows, K <= N -> combinations K N = Ok rows -> NoDup rows.
Proof.
  intros K N rows H E. destruct (combinations_spec K N H) as [rows' [E' [_ [S _]]]].
  rewrite E in E'; inversion E'; subst rows'. clear E E'.
  assert (Irr: forall r, ~ lex_lt r r). { induction r; simpl; [tauto|]. intros [?|[_ ?]]; [lia|auto]. }
  induction S as [|x l Hs IHs HF]; constructor; auto. intros Hi. rewrite Forall_forall in HF. eapply Irr; eauto.
Qed.
Print Assumptions combinations_nodup.

Example combinations_2_4 : combinations 2 4 = Ok [[0;1];[0;2];[0;3];[1;2];[1;3];[2;3]].
Proof. reflexivity. Qed.
