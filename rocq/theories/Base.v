(* Shared vocabulary of the model: C++ outcomes, checked list access, loops. *)
From Coq Require Export List Arith ZArith NArith Lia Bool.
From Coq Require Export ZifyBool ZifyNat ZifyN.
Export ListNotations.

Ltac Zify.zify_post_hook ::= Z.div_mod_to_equations.

(* Outcome of a C++ call.  [Throw]: the std::runtime_error raised by fdapde_assert
   (utils/assert.h:23-33).  [UB]: undefined behaviour (out-of-range access, null
   dereference, oversized shift, ...).  [OutOfFuel]: the modelled loop did not
   finish within the given fuel. *)
Inductive Res (A : Type) : Type :=
| Ok (a : A)
| Throw
| UB
| OutOfFuel.
Arguments Ok {A} a.
Arguments Throw {A}.
Arguments UB {A}.
Arguments OutOfFuel {A}.

Definition bind {A B} (r : Res A) (f : A -> Res B) : Res B :=
  match r with
  | Ok a => f a
  | Throw => Throw
  | UB => UB
  | OutOfFuel => OutOfFuel
  end.

Notation "x <- e ;; k" := (bind e (fun x => k))
  (at level 61, e at next level, right associativity).

(* fdapde_assert(c): utils/assert.h:23-33 *)
Definition assert_ (c : bool) : Res unit := if c then Ok tt else Throw.

(* l[i] on a std::vector / std::array / Eigen vector: no bounds check, hence UB. *)
Definition nth_res {A} (l : list A) (i : nat) : Res A :=
  match nth_error l i with Some a => Ok a | None => UB end.

(* l[i] = x *)
Fixpoint upd {A} (l : list A) (i : nat) (x : A) : list A :=
  match l, i with
  | [], _ => []
  | _ :: t, 0 => x :: t
  | h :: t, S k => h :: upd t k x
  end.

Definition upd_res {A} (l : list A) (i : nat) (x : A) : Res (list A) :=
  if i <? length l then Ok (upd l i x) else UB.

(* for (x : l) s = f(s, x), stopping on the first abnormal outcome *)
Fixpoint foldM {S I} (f : S -> I -> Res S) (l : list I) (s : S) : Res S :=
  match l with
  | [] => Ok s
  | x :: t => s' <- f s x ;; foldM f t s'
  end.

Fixpoint mapM {A B} (f : A -> Res B) (l : list A) : Res (list B) :=
  match l with
  | [] => Ok []
  | x :: t => y <- f x ;; ys <- mapM f t ;; Ok (y :: ys)
  end.

Lemma bind_ok {A B} (r : Res A) (f : A -> Res B) b :
  bind r f = Ok b <-> exists a, r = Ok a /\ f a = Ok b.
Proof.
  destruct r as [a| | |]; simpl; split; intros H; try discriminate.
  - exists a; auto.
  - destruct H as (a' & E & F); injection E as ->; exact F.
  - destruct H as (a' & E & F); discriminate.
  - destruct H as (a' & E & F); discriminate.
  - destruct H as (a' & E & F); discriminate.
Qed.

Lemma upd_length {A} (l : list A) i x : length (upd l i x) = length l.
Proof. revert i; induction l as [|h t IH]; intros [|i]; simpl; auto. Qed.

Lemma nth_error_upd {A} (l : list A) i x j :
  nth_error (upd l i x) j =
  if (i =? j) && (i <? length l) then Some x else nth_error l j.
Proof.
  revert i j; induction l as [|h t IH]; intros [|i] [|j]; simpl; auto.
  - now rewrite andb_false_r.
  - rewrite IH. reflexivity.
Qed.

Lemma nth_error_upd_same {A} (l : list A) i x :
  i < length l -> nth_error (upd l i x) i = Some x.
Proof.
  intros H; rewrite nth_error_upd, Nat.eqb_refl.
  apply Nat.ltb_lt in H; rewrite H; reflexivity.
Qed.

Lemma nth_error_upd_other {A} (l : list A) i x j :
  i <> j -> nth_error (upd l i x) j = nth_error l j.
Proof.
  intros H; rewrite nth_error_upd. apply Nat.eqb_neq in H; rewrite H; reflexivity.
Qed.

Lemma nth_res_ok {A} (l : list A) i a : nth_res l i = Ok a <-> nth_error l i = Some a.
Proof. unfold nth_res; destruct (nth_error l i); split; congruence. Qed.

Lemma mapM_ok {A B} (f : A -> Res B) l ys :
  mapM f l = Ok ys <-> Forall2 (fun x y => f x = Ok y) l ys.
Proof.
  revert ys; induction l as [|x t IH]; intros ys; simpl.
  - split; intros H; [injection H as <-; constructor | inversion H; reflexivity].
  - rewrite bind_ok. split.
    + intros (y & Hy & H). apply bind_ok in H as (zs & Hz & H).
      injection H as <-. constructor; [exact Hy|]. now apply IH.
    + intros H; inversion H as [|? y ? zs Hy Hz]; subst.
      exists y; split; [exact Hy|]. apply IH in Hz. rewrite Hz; reflexivity.
Qed.

Lemma foldM_app {S I} (f : S -> I -> Res S) l1 l2 s :
  foldM f (l1 ++ l2) s = (s' <- foldM f l1 s ;; foldM f l2 s').
Proof.
  revert s; induction l1 as [|x t IH]; intros s; simpl; auto.
  destruct (f s x); simpl; auto.
Qed.

(* loop invariant rule *)
Lemma foldM_inv {S I} (P : list I -> S -> Prop) (f : S -> I -> Res S) l s :
  P [] s ->
  (forall done x s0, (exists rest, l = done ++ x :: rest) -> P done s0 ->
     exists s1, f s0 x = Ok s1 /\ P (done ++ [x]) s1) ->
  exists s', foldM f l s = Ok s' /\ P l s'.
Proof.
  intros H0 Hs.
  cut (forall rest done s0, l = done ++ rest -> P done s0 ->
         exists s', foldM f rest s0 = Ok s' /\ P l s').
  { intros C; apply (C l []); auto. }
  induction rest as [|x t IH]; intros done s0 E HP; simpl.
  - rewrite app_nil_r in E; subst. eauto.
  - destruct (Hs done x s0) as (s1 & E1 & P1); [exists t; exact E | exact HP |].
    rewrite E1; simpl. apply (IH (done ++ [x])); [|exact P1].
    rewrite <- app_assoc; exact E.
Qed.

Lemma nth_error_seq a n i : nth_error (seq a n) i = if i <? n then Some (a + i) else None.
Proof.
  revert a i; induction n as [|n IH]; intros a [|i]; try reflexivity.
  - cbn. now rewrite Nat.add_0_r.
  - cbn [seq nth_error]. rewrite IH. replace (S a + i) with (a + S i) by lia. reflexivity.
Qed.

Lemma nth_error_ext {A} (l1 l2 : list A) :
  (forall i, nth_error l1 i = nth_error l2 i) -> l1 = l2.
Proof.
  revert l2; induction l1 as [|x t IH]; intros [|y u] H; auto.
  - specialize (H 0); discriminate.
  - specialize (H 0); discriminate.
  - f_equal; [specialize (H 0); simpl in H; congruence|].
    apply IH; intros i; exact (H (S i)).
Qed.

Lemma nth_error_map' {A B} (f : A -> B) l i :
  nth_error (map f l) i = option_map f (nth_error l i).
Proof. revert i; induction l; intros [|i]; simpl; auto. Qed.

Lemma Forall2_length {A B} (R : A -> B -> Prop) l1 l2 : Forall2 R l1 l2 -> length l1 = length l2.
Proof. induction 1; simpl; congruence. Qed.

Lemma NoDup_app_inv : forall A (a b : list A), NoDup (a ++ b) ->
  NoDup a /\ NoDup b /\ (forall c, In c a -> In c b -> False).
Proof.
  induction a as [|x a IH]; intros b H; simpl in *.
  - split; [constructor|split; [auto|tauto]].
  - inversion H as [|? ? Hn Hd]; subst. destruct (IH _ Hd) as [A1 [B1 C1]].
    split; [constructor; auto; intros Hi; apply Hn, in_or_app; auto|]. split; [auto|].
    intros c [->|Hc] Hb; [apply Hn, in_or_app; auto|eauto].
Qed.
Lemma NoDup_app_intro : forall A (a b : list A), NoDup a -> NoDup b -> (forall c, In c a -> In c b -> False) -> NoDup (a ++ b).
Proof.
  induction a as [|x a IH]; intros b Ha Hb Hd; simpl; auto.
  inversion Ha; subst. constructor.
  - intros Hi. apply in_app_or in Hi. destruct Hi; [auto|]. apply (Hd x); simpl; auto.
  - apply IH; auto. intros c Hc. apply Hd; simpl; auto.
Qed.
Lemma nth_error_firstn {A} (l : list A) n i : nth_error (firstn n l) i = if i <? n then nth_error l i else None.
Proof.
  revert l i; induction n as [|n IH]; intros l i; [destruct i; reflexivity|].
  destruct l as [|x l]; cbn [firstn].
  - destruct (i <? S n), i; reflexivity.
  - destruct i as [|i]; [reflexivity|]. cbn [nth_error]. rewrite IH. reflexivity.
Qed.
Lemma nth_error_skipn' {A} (l : list A) n i : nth_error (skipn n l) i = nth_error l (n + i).
Proof.
  revert n i; induction l as [|x l IH]; intros [|n] i; cbn; auto. destruct i; auto.
Qed.
Lemma nth_error_repeat' {A} (x : A) n i : nth_error (repeat x n) i = if i <? n then Some x else None.
Proof. revert i; induction n as [|n IH]; intros [|i]; cbn; auto. rewrite IH. reflexivity. Qed.
