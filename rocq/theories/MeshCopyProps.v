(* C167 copies of a mesh, C168 concurrent point location. *)
From Coq Require Import Permutation Lia.
From Verif Require Import Base MeshCopyModel.
Open Scope nat_scope.

(* ---- C167 --------------------------------------------------------------------------------------- *)
Section Spec.
Variables (C P R : Type) (search : C -> C -> P -> R).
(* meshes as plain values: what a client expects.  [located] records whether locate() was called on the
   object, or on an object it was copied from *)
Record value := Value { val : C; located : bool }.
Definition values := nat -> option value.
Definition vput (h : values) (a : nat) (m : option value) : values := fun b => if b =? a then m else h b.
(* the effect of a call on the values, and the answer it should give; None: not a legal client call *)
Definition expected (h : values) (x : op C P) : option (values * list R) :=
  match x with
  | New _ _ a c => match h a with None => Some (vput h a (Some (Value c false)), []) | Some _ => None end
  | Copy _ _ dst src => match h src, h dst with Some m, None => Some (vput h dst (Some m), []) | _, _ => None end
  | Assign _ _ dst src => match h src, h dst with Some m, Some _ => Some (vput h dst (Some m), []) | _, _ => None end
  | Relocate _ _ dst src => match h src, h dst with Some m, None => Some (vput (vput h dst (Some m)) src None, []) | _, _ => None end
  | Destroy _ _ a => match h a with Some _ => Some (vput h a None, []) | None => None end
  | Locate _ _ a p => match h a with Some m => Some (vput h a (Some (Value (val m) true)), [search (val m) (val m) p]) | None => None end
  end.
Fixpoint expected_run (h : values) (l : list (op C P)) : option (values * list R) :=
  match l with
  | [] => Some (h, [])
  | x :: l' => match expected h x with
               | Some (h1, r) => match expected_run h1 l' with Some (h2, r') => Some (h2, r ++ r') | None => None end
               | None => None
               end
  end.
(* no mesh is copied, assigned or moved after points were located on it *)
Definition fresh_source (h : values) (x : op C P) : Prop :=
  match x with
  | Copy _ _ _ src | Assign _ _ _ src | Relocate _ _ _ src => forall m, h src = Some m -> located m = false
  | _ => True
  end.
Fixpoint fresh_sources (h : values) (l : list (op C P)) : Prop :=
  match l with
  | [] => True
  | x :: l' => fresh_source h x /\ forall h1 r, expected h x = Some (h1, r) -> fresh_sources h1 l'
  end.

(* the objects in memory against their values *)
Definition agrees (h : memory C) (v : values) : Prop :=
  forall a, match h a, v a with
            | None, None => True
            | Some m, Some w => content C m = val w /\ policy C m = if located w then Some (val w, a) else None
            | _, _ => False
            end.
Lemma agrees_put h v a m w : agrees h v ->
  match m, w with None, None => True
  | Some m, Some w => content C m = val w /\ policy C m = if located w then Some (val w, a) else None | _, _ => False end ->
  agrees (put C h a m) (vput v a w).
Proof. intros H1 H2 b. unfold put, vput. destruct (Nat.eqb_spec b a) as [->|Hb]; [exact H2|apply H1]. Qed.

Lemma step_agrees h v x v' r : agrees h v -> fresh_source v x -> expected v x = Some (v', r) ->
  exists h', step C P R search h x = Ok (h', r) /\ agrees h' v'.
Proof.
  intros Ha Hf E. destruct x as [a c|dst src|dst src|dst src|a|a p]; cbn in E |- *.
  - pose proof (Ha a) as H. destruct (v a); [discriminate|]. destruct (h a); [contradiction|]. injection E as <- <-.
    eexists. split; [reflexivity|]. apply agrees_put; cbn; auto.
  - pose proof (Ha src) as H. pose proof (Ha dst) as H'. unfold deref. cbn in Hf.
    destruct (v src) as [w|]; [|discriminate]. destruct (v dst); [discriminate|]. destruct (h src) as [m|]; [|contradiction].
    destruct (h dst); [contradiction|]. injection E as <- <-. cbn. eexists. split; [reflexivity|].
    apply agrees_put; auto. rewrite (Hf w eq_refl) in *. exact H.
  - pose proof (Ha src) as H. pose proof (Ha dst) as H'. unfold deref. cbn in Hf.
    destruct (v src) as [w|]; [|discriminate]. destruct (v dst); [|discriminate]. destruct (h src) as [m|]; [|contradiction].
    destruct (h dst); [|contradiction]. injection E as <- <-. cbn. eexists. split; [reflexivity|].
    apply agrees_put; auto. rewrite (Hf w eq_refl) in *. exact H.
  - pose proof (Ha src) as H. pose proof (Ha dst) as H'. unfold deref. cbn in Hf.
    destruct (v src) as [w|]; [|discriminate]. destruct (v dst); [discriminate|]. destruct (h src) as [m|]; [|contradiction].
    destruct (h dst); [contradiction|]. injection E as <- <-. cbn. eexists. split; [reflexivity|].
    apply agrees_put; auto. apply agrees_put; auto. rewrite (Hf w eq_refl) in *. exact H.
  - pose proof (Ha a) as H. unfold deref. destruct (v a); [|discriminate]. destruct (h a); [|contradiction]. injection E as <- <-.
    cbn. eexists. split; [reflexivity|]. now apply agrees_put.
  - pose proof (Ha a) as H. unfold locate, deref. destruct (v a) as [w|]; [|discriminate]. destruct (h a) as [m|]; [|contradiction].
    destruct H as [H1 H2]. injection E as <- <-. cbn.
    assert (Ep: match policy C m with Some pol => pol | None => (content C m, a) end = (val w, a)).
    { rewrite H2, H1. destruct (located w); reflexivity. }
    rewrite Ep. cbn. unfold put at 1. rewrite Nat.eqb_refl. cbn. rewrite H1. eexists. split; [reflexivity|].
    apply agrees_put; cbn; auto.
Qed.
End Spec.
Arguments Value {C}. Arguments val {C}. Arguments located {C}.

(* as long as no mesh on which points were located is copied, assigned or moved, every sequence of
   constructions, copies, assignments, moves, destructions and queries answers as if meshes were values *)
Theorem C167_values_partial : forall (C P R : Type) (search : C -> C -> P -> R) (l : list (op C P)) v' r,
  fresh_sources C P R search (fun _ => None) l -> expected_run C P R search (fun _ => None) l = Some (v', r) ->
  exists h', run C P R search (fun _ => None) l = Ok (h', r).
Proof.
  intros C P R search l v' r Hf E.
  assert (G: forall l h v v' r, agrees C h v -> fresh_sources C P R search v l -> expected_run C P R search v l = Some (v', r) ->
    exists h', run C P R search h l = Ok (h', r)).
  { clear. induction l as [|x l IH]; intros h v v' r Ha Hf E; cbn in E |- *.
    - injection E as <- <-. eauto.
    - destruct Hf as [F1 F2]. destruct (expected C P R search v x) as [[v1 r1]|] eqn:E1; [|discriminate].
      destruct (expected_run C P R search v1 l) as [[v2 r2]|] eqn:E2; [|discriminate]. injection E as <- <-.
      destruct (step_agrees C P R search h v x v1 r1 Ha F1 E1) as (h1 & S1 & A1). rewrite S1. cbn.
      destruct (IH h1 v1 v2 r2 A1 (F2 _ _ eq_refl) E2) as (h2 & S2). rewrite S2. cbn. eauto. }
  apply (G l (fun _ => None) (fun _ => None) v' r); auto. intros a. exact I.
Qed.
Print Assumptions C167_values_partial.

(* a copy made after a query still points to the original: when that one is gone the next query on the
   copy follows a dangling pointer, for every mesh and every query *)
Theorem C167_dangling_refuted : forall (C P R : Type) (search : C -> C -> P -> R) (c : C) (p q : P),
  let l := [New C P 0 c; Locate C P 0 p; Copy C P 1 0; Destroy C P 0; Locate C P 1 q] in
  run C P R search (fun _ => None) l = UB /\
  exists v, expected_run C P R search (fun _ => None) l = Some (v, [search c c p; search c c q]).
Proof. intros. split; [reflexivity|]. eexists. reflexivity. Qed.
Print Assumptions C167_dangling_refuted.
(* the same when the mesh is moved, for example because the std::vector holding it grows *)
Theorem C167_moved_refuted : forall (C P R : Type) (search : C -> C -> P -> R) (c : C) (p q : P),
  let l := [New C P 0 c; Locate C P 0 p; Relocate C P 1 0; Locate C P 1 q] in
  run C P R search (fun _ => None) l = UB /\
  exists v, expected_run C P R search (fun _ => None) l = Some (v, [search c c p; search c c q]).
Proof. intros. split; [reflexivity|]. eexists. reflexivity. Qed.
Print Assumptions C167_moved_refuted.
(* and when the original is assigned another mesh, the copy answers from the cells of that one *)
Theorem C167_mixed_refuted : forall (C P R : Type) (search : C -> C -> P -> R) (c c' : C) (p q : P),
  let l := [New C P 0 c; Locate C P 0 p; Copy C P 1 0; New C P 2 c'; Assign C P 0 2; Locate C P 1 q] in
  (exists h, run C P R search (fun _ => None) l = Ok (h, [search c c p; search c c' q])) /\
  exists v, expected_run C P R search (fun _ => None) l = Some (v, [search c c p; search c c q]).
Proof. intros. split; eexists; reflexivity. Qed.
Print Assumptions C167_mixed_refuted.

(* a history that meets the hypotheses: copies are taken first, everything else happens later *)
Example C167_example : forall (C P R : Type) (search : C -> C -> P -> R) (c c' : C) (p q : P),
  let l := [New C P 0 c; Copy C P 1 0; Locate C P 0 p; Destroy C P 0; Locate C P 1 q; New C P 2 c'; Assign C P 1 2; Locate C P 1 p] in
  fresh_sources C P R search (fun _ => None) l /\
  exists v, expected_run C P R search (fun _ => None) l = Some (v, [search c c p; search c c q; search c' c' p]).
Proof.
  intros. split; [|eexists; reflexivity].
  repeat (split; [try exact I; cbn; intros m E; injection E as <-; reflexivity|];
          let h := fresh in let r := fresh in let E := fresh in intros h r E; injection E as <- <-). exact I.
Qed.

(* ---- C168 --------------------------------------------------------------------------------------- *)
(* once one query has completed, any number of threads may locate points on the same mesh, whatever the
   interleaving *)
Theorem C168_after_first_partial : forall n l, ~ race (schedule (Shared true (repeat Test n)) l).
Proof.
  intros n l.
  assert (G: forall l s, has_value s = true -> ~ In Build (threads s) -> has_value (schedule s l) = true /\ ~ In Build (threads (schedule s l))).
  { clear. induction l as [|t l IH]; intros s H1 H2; [auto|]. cbn [schedule fold_left]. apply IH.
    - unfold advance. destruct (nth_error (threads s) t) as [[]|]; auto.
    - unfold advance. destruct (nth_error (threads s) t) as [[]|] eqn:E; auto; cbn [threads]; intros Hin;
        apply In_nth_error in Hin; destruct Hin as [k Hk];
        (destruct (Nat.eq_dec k t) as [->|Hkt]; [rewrite nth_error_upd_same in Hk by (apply nth_error_Some; congruence); rewrite ?H1 in Hk; discriminate|
          rewrite nth_error_upd_other in Hk by auto; apply nth_error_In in Hk; contradiction]). }
  destruct (G l (Shared true (repeat Test n)) eq_refl) as [_ G2].
  { cbn. intros H. apply repeat_spec in H. discriminate. }
  intros (i & j & pi & pj & ai & aj & _ & Hi & Hj & Ai & Aj & Hw).
  assert (N: forall k p a, nth_error (threads (schedule (Shared true (repeat Test n)) l)) k = Some p -> next_access p = Some a -> a = Rd).
  { intros k p a Hk Hp. destruct p; cbn in Hp; try congruence. exfalso. apply G2. eapply nth_error_In; eauto. }
  rewrite (N _ _ _ Hi Ai), (N _ _ _ Hj Aj) in Hw. destruct Hw; discriminate.
Qed.
Print Assumptions C168_after_first_partial.
(* a single thread never races *)
Theorem C168_single_partial : forall b l, ~ race (schedule (Shared b [Test]) l).
Proof.
  intros b l (i & j & pi & pj & ai & aj & Hij & Hi & Hj & _).
  assert (L: length (threads (schedule (Shared b [Test]) l)) = 1).
  { assert (G: forall l s, length (threads s) = 1 -> length (threads (schedule s l)) = 1); [|apply G; reflexivity].
    clear. induction l as [|t l IH]; intros s H; [auto|]. cbn [schedule fold_left]. apply IH. unfold advance.
    destruct (nth_error (threads s) t) as [[]|]; cbn [threads]; rewrite ?upd_length; auto. }
  assert (i < 1) by (rewrite <- L; apply nth_error_Some; congruence). assert (j < 1) by (rewrite <- L; apply nth_error_Some; congruence). lia.
Qed.
Print Assumptions C168_single_partial.
(* but the first queries of any two threads race, although locate is a const member function: after
   thread 0 has tested the member, it writes it while every other thread is about to read it *)
Theorem C168_refuted : forall n, 2 <= n -> exists l, race (schedule (Shared false (repeat Test n)) l).
Proof.
  intros [|[|n]] H; try lia. exists [0]. exists 0, 1, Build, Test, Wr, Rd. repeat split; auto.
Qed.
Print Assumptions C168_refuted.
