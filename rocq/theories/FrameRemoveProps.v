(* Property C124: BlockFrame::remove. *)
From Verif Require Import Base FrameModel FrameSpec FrameProofs FrameProps.

Section P.
Variable V : Type.
Notation mat := (mat V). Notation frame := (frame V).

(* the frames a program can hold: any mix of insert, stack, clear_dirty_bit and remove *)
Inductive held : frame -> Prop :=
| held_new : forall r, held (frame0 r)
| held_call : forall f c g, held f -> wf_call V c -> exec V c f = Ok g -> held g
| held_remove : forall f t k g, held f -> remove V t k f = Ok g -> held g.

Lemma remove_nth_pos : forall k (l : list nat), NoDup l -> In k l ->
  remove_nth (position k l) l = filter (fun x => negb (x =? k)) l.
Proof.
  induction l as [|a l IH]; cbn; [tauto|]. intros N H. inversion N; subst. destruct (k =? a) eqn:E; cbn.
  - apply Nat.eqb_eq in E; subst. rewrite Nat.eqb_refl. cbn. clear - H2. induction l as [|b l IH]; cbn; auto.
    destruct (b =? a) eqn:E; cbn. { apply Nat.eqb_eq in E; subst. exfalso; apply H2; left; auto. } f_equal. apply IH. intro; apply H2; right; auto.
  - rewrite Nat.eqb_sym, E. cbn. f_equal. apply Nat.eqb_neq in E. apply IH; auto. intuition congruence.
Qed.
Lemma remove_nth_length : forall A (l : list A) p, p < length l -> length (remove_nth p l) = length l - 1.
Proof. induction l as [|a l IH]; cbn; intros p H; [lia|]. destruct p; cbn; [lia|]. rewrite IH by lia. lia. Qed.
Lemma remove_nth_same : forall (l : list nat) (d : list bool) k k', length d = length l -> In k l -> In k' l -> k' <> k -> NoDup l ->
  nth_error (remove_nth (position k l) d) (position k' (remove_nth (position k l) l)) = nth_error d (position k' l).
Proof.
  induction l as [|a l IH]; intros d k k' L Hk Hk' NE N; [destruct Hk|]. destruct d as [|b d]; [discriminate|]. inversion N; subst.
  cbn [position]. destruct (k =? a) eqn:E; cbn [remove_nth].
  - apply Nat.eqb_eq in E; subst. destruct (k' =? a) eqn:E'; [apply Nat.eqb_eq in E'; congruence|]. reflexivity.
  - cbn [position]. destruct (k' =? a) eqn:E'; [reflexivity|]. cbn [nth_error]. apply Nat.eqb_neq in E. apply Nat.eqb_neq in E'.
    apply IH; auto; try (destruct Hk; congruence); try (destruct Hk'; congruence).
Qed.
Lemma erase_find : forall k l k', NoDup (map fst l) -> find_key V k' (erase_key V k l) = if k' =? k then None else find_key V k' l.
Proof.
  induction l as [|[a b] l IH]; intros k' N; cbn. { destruct (k' =? k); auto. }
  cbn in N. inversion N; subst. destruct (k =? a) eqn:E; cbn.
  - apply Nat.eqb_eq in E; subst. destruct (k' =? a) eqn:E'; auto. apply Nat.eqb_eq in E'; subst.
    destruct (find_key V a l) eqn:EF; auto. exfalso. apply H1. apply find_in. eauto.
  - rewrite IH by auto. destruct (k' =? a) eqn:E'; auto. apply Nat.eqb_eq in E'; subst. rewrite Nat.eqb_sym, E. auto.
Qed.
Lemma erase_in : forall k l x, In x (map fst (erase_key V k l)) -> In x (map fst l).
Proof. induction l as [|[a b] l IH]; cbn; auto. intros x. destruct (k =? a); cbn; auto. intros [H|H]; auto. Qed.
Lemma erase_nodup : forall k l, NoDup (map fst l) -> NoDup (map fst (erase_key V k l)).
Proof.
  induction l as [|[a b] l IH]; cbn; auto. intros N; inversion N; subst. destruct (k =? a); cbn; auto.
  constructor; auto. intro X. apply H1. eapply erase_in; eauto.
Qed.

Lemma held_inv : forall f, held f -> shape V f /\ forall t, NoDup (map fst (data f t)).
Proof.
  induction 1.
  - split; [split; [constructor|reflexivity]|constructor].
  - destruct IHheld as [SH B].
    assert (INS: forall t k m b, insert V t k m b f = Ok g -> shape V g /\ forall t, NoDup (map fst (data g t))).
    { intros t k m b E. destruct (Nat.eq_dec (frows f) 0) as [Z|Z]; [|destruct (Nat.eq_dec (mrows m) (frows f)) as [Y|Y]].
      3:{ rewrite insert_throw in E; auto; discriminate. }
      all: destruct (insert_effect V t k m b f SH) as [g' [E' [S1 [S2 [S3 _]]]]]; auto;
        rewrite E in E'; inversion E'; subst g'; split; auto. }
    destruct c as [t k m b|t k m|k]; cbn [exec] in H1; eauto.
    + unfold stack in H1. apply bind_ok in H1. destruct H1 as [s [_ H1]]. eauto.
    + unfold clear_dirty_bit in H1. destruct (has_block V k f); [|inversion H1; subst; auto].
      apply bind_ok in H1. destruct H1 as [d [Hd H1]]. inversion H1; subst; cbn. split; auto. destruct SH as [S1 S2]. split; cbn; auto.
      unfold upd_res in Hd. destruct (_ <? _) in Hd; inversion Hd; subst. rewrite upd_length. auto.
  - destruct IHheld as [[S1 S2] B]. unfold remove in H0. destruct (_ <? _) eqn:E in H0; [|discriminate]. inversion H0; subst; clear H0.
    apply Nat.ltb_lt in E. split; [split|]; cbn.
    + assert (HI: In k (columns f)). { apply nth_error_In with (n := position k (columns f)). clear - E. induction (columns f) as [|a l IH]; cbn in *; [lia|].
        destruct (k =? a) eqn:EE; [apply Nat.eqb_eq in EE; subst; auto|]. apply IH. lia. }
      rewrite remove_nth_pos by auto. apply NoDup_filter. auto.
    + rewrite !remove_nth_length; lia.
    + intros t'. unfold set_type. destruct (t' =? t); auto. apply erase_nodup; auto.
Qed.

(* C124: remove takes the block, its name and its flag away and touches nothing else *)
Theorem C124_remove_partial : forall f t k, held f -> has_block V k f = true ->
  exists g, remove V t k f = Ok g /\ has_block V k g = false /\ (forall t', get V t' k g = Throw) /\
    find_key V k (data g t) = None /\
    (forall k', k' <> k -> has_block V k' g = has_block V k' f /\ is_dirty V k' g = is_dirty V k' f /\
       forall t', get V t' k' g = get V t' k' f) /\
    frows g = frows f /\ columns g = filter (fun x => negb (x =? k)) (columns f).
Proof.
  intros f t k H HB. destruct (held_inv f H) as [[S1 S2] B]. unfold has_block in HB. pose proof HB as HI. apply existsb_In in HI.
  unfold remove. pose proof (position_lt k _ HI) as P. rewrite (proj2 (Nat.ltb_lt _ _) P).
  eexists; split; [reflexivity|]. 
  assert (HBg: forall k', has_block V k' (Frame (set_type V (data f) t (erase_key V k (data f t))) (remove_nth (position k (columns f)) (columns f)) (frows f) (remove_nth (position k (columns f)) (dirty f))) = negb (k' =? k) && has_block V k' f).
  { intros k'. unfold has_block; cbn. rewrite remove_nth_pos by auto. clear. induction (columns f) as [|a l IH]; cbn; [rewrite andb_false_r; auto|].
    destruct (a =? k) eqn:E; cbn; rewrite IH; destruct (k' =? a) eqn:E'; cbn; auto.
    - apply Nat.eqb_eq in E; apply Nat.eqb_eq in E'; subst. rewrite Nat.eqb_refl. auto.
    - apply Nat.eqb_eq in E'; subst. rewrite E. auto. }
  split; [rewrite HBg, Nat.eqb_refl; auto|]. split; [intros; unfold get; rewrite HBg, Nat.eqb_refl; auto|].
  split; [cbn; unfold set_type; rewrite Nat.eqb_refl, erase_find, Nat.eqb_refl; auto|].
  split; [|split; [reflexivity|cbn; apply remove_nth_pos; auto]].
  intros k' NE. assert (EB: negb (k' =? k) = true) by (apply negb_true_iff, Nat.eqb_neq; auto).
  split; [rewrite HBg, EB; auto|]. split.
  - unfold is_dirty. rewrite HBg, EB. cbn [andb]. destruct (has_block V k' f) eqn:E'; auto. cbn [dirty columns].
    unfold nth_res. rewrite remove_nth_same; auto. apply existsb_In. exact E'.
  - intros t'. unfold get. rewrite HBg, EB. cbn [andb]. destruct (has_block V k' f); auto. cbn [data]. unfold set_type.
    destruct (t' =? t) eqn:ET; auto. apply Nat.eqb_eq in ET; subst. rewrite erase_find by auto. apply negb_true_iff in EB. rewrite EB. auto.
Qed.
(* removing a key the frame does not have: erase(end()) *)
Theorem C124_missing_refuted : forall f t k, has_block V k f = false -> remove V t k f = UB.
Proof.
  intros f t k H. unfold remove. replace (_ <? _) with false; auto. symmetry. apply Nat.ltb_ge.
  unfold has_block in H. revert H. induction (columns f) as [|a l IH]; cbn; auto. destruct (k =? a); cbn; [discriminate|]. intros H. specialize (IH H). lia.
Qed.
End P.
Print Assumptions C124_remove_partial.
Print Assumptions C124_missing_refuted.

(* three blocks, the middle one removed *)
Example C124_case : exists f g, held nat f /\ columns f = [1; 2; 3] /\ remove nat 0 2 f = Ok g /\
  columns g = [1; 3] /\ is_dirty nat 3 f = Ok true /\ is_dirty nat 3 g = Ok true /\ is_dirty nat 1 g = Ok false /\ get nat 1 3 g = Ok m1.
Proof.
  destruct (insert nat 0 1 m1 false (frame0 0)) as [a| | |] eqn:Ea; try discriminate.
  destruct (insert nat 0 2 m2 false a) as [b| | |] eqn:Eb; try (revert Eb; inversion Ea; discriminate).
  destruct (insert nat 1 3 m1 true b) as [c| | |] eqn:Ec; try (revert Ec; inversion Ea; subst; inversion Eb; discriminate).
  assert (H: held nat c).
  { apply (held_call nat b (CInsert 1 3 m1 true)); [|repeat constructor|exact Ec].
    apply (held_call nat a (CInsert 0 2 m2 false)); [|repeat constructor|exact Eb].
    apply (held_call nat (frame0 0) (CInsert 0 1 m1 false)); [constructor|repeat constructor|exact Ea]. }
  exists c. inversion Ea; subst. inversion Eb; subst. inversion Ec; subst. eexists. split; [exact H|]. split; [reflexivity|]. split; [reflexivity|]. repeat split.
Qed.
