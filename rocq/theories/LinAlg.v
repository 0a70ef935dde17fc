(* Square real matrices: a right inverse is a left inverse. *)
From Verif Require Import Base RSum SimplexModel SimplexProps.
Local Open Scope R_scope.

Lemma lsum_cons_map : forall A (f : A -> R) a l, lsum (map f (a :: l)) = f a + lsum (map f l).
Proof. reflexivity. Qed.
(* fewer equations than unknowns: there is a non-zero solution *)
Lemma underdetermined : forall n (L : list nat) (M : nat -> nat -> R), NoDup L -> (n < length L)%nat ->
  exists x, (exists j, In j L /\ x j <> 0) /\ forall i, (i < n)%nat -> lsum (map (fun j => M i j * x j) L) = 0.
Proof.
  induction n as [|n IH]; intros L M HL Hn.
  - destruct L as [|j L]; [cbn in Hn; lia|]. exists (fun _ => 1). split; [exists j; split; [now left|lra]|]. intros; lia.
  - destruct (Forall_Exists_dec (fun j => M n j = 0) (fun j => Req_EM_T (M n j) 0) L) as [H0|H1].
    + destruct (IH L M HL ltac:(lia)) as (x & Hx & HM). exists x. split; auto. intros i Hi.
      destruct (Nat.eq_dec i n) as [->|]; [|apply HM; lia]. apply lsum_map_0. intros j Hj. rewrite Forall_forall in H0. rewrite (H0 j Hj). ring.
    + apply Exists_exists in H1. destruct H1 as (j0 & Hj0 & Hne). apply in_split in Hj0. destruct Hj0 as (l1 & l2 & ->).
      assert (HN := NoDup_remove _ _ _ HL). destruct HN as [HN Hnot].
      destruct (IH (l1 ++ l2) (fun i j => M i j - M i j0 / M n j0 * M n j) HN) as (x & (j1 & Hj1 & Hx1) & HM).
      { rewrite app_length in *. cbn in Hn. lia. }
      set (t := - lsum (map (fun j => M n j * x j) (l1 ++ l2)) / M n j0).
      set (y := fun j => if Nat.eqb j j0 then t else x j). exists y. 
      assert (Hy : forall i, lsum (map (fun j => M i j * y j) (l1 ++ j0 :: l2)) = M i j0 * t + lsum (map (fun j => M i j * x j) (l1 ++ l2))).
      { intros i. assert (E1 : forall l, ~ In j0 l -> lsum (map (fun j => M i j * y j) l) = lsum (map (fun j => M i j * x j) l)).
        { intros l Hl. apply lsum_map_ext. intros j Hj. unfold y. destruct (Nat.eqb_spec j j0); auto. subst. contradiction. }
        rewrite !map_app, !lsum_app, map_cons. cbn [lsum]. rewrite !E1; try (intros Hin; apply Hnot; apply in_app_iff; auto).
        unfold y. rewrite Nat.eqb_refl. ring. }
      split.
      * exists j1. split; [apply in_app_iff; apply in_app_iff in Hj1; cbn; tauto|]. unfold y. destruct (Nat.eqb_spec j1 j0); auto. subst. contradiction.
      * intros i Hi. rewrite Hy. destruct (Nat.eq_dec i n) as [->|Hin].
        -- unfold t. field. auto.
        -- assert (Hs := HM i ltac:(lia)). rewrite (lsum_map_ext _ _ (fun j => M i j * x j + - (M i j0 / M n j0) * (M n j * x j))) in Hs by (intros; ring).
           rewrite lsum_map_plus, lsum_map_scal in Hs.
           assert (E2 : M i j0 * t = - (M i j0 / M n j0) * lsum (map (fun j => M n j * x j) (l1 ++ l2))) by (unfold t; field; auto).
           rewrite E2. lra.
Qed.

Definition inverse_of (n : nat) (A B : nat -> nat -> R) : Prop :=
  forall i j, (i < n)%nat -> (j < n)%nat -> rsum n (fun k => A i k * B k j) = delta i j.
Theorem inverse_comm : forall n A B, inverse_of n A B -> inverse_of n B A.
Proof.
  intros n A B H.
  (* B is injective, hence onto *)
  assert (Hap : forall x i, (i < n)%nat -> rsum n (fun k => A i k * rsum n (fun j => B k j * x j)) = x i).
  { intros x i Hi. rewrite (rsum_ext n _ (fun k => rsum n (fun j => A i k * B k j * x j))) by (intros; rewrite <- rsum_scal; apply rsum_ext; intros; ring).
    rewrite rsum_swap. rewrite (rsum_ext n _ (fun j => delta i j * x j)); [now apply rsum_delta_l|].
    intros j Hj. rewrite rsum_scal_r. now rewrite H. }
  assert (Honto : forall b, exists x, forall k, (k < n)%nat -> rsum n (fun j => B k j * x j) = b k).
  { intros b. destruct (underdetermined n (seq 0 (S n)) (fun i j => if Nat.eqb j n then b i else B i j)) as (x & (j & Hj & Hxj) & Hx).
    { apply seq_NoDup. } { rewrite seq_length. lia. }
    assert (E : forall i, (i < n)%nat -> rsum n (fun j => B i j * x j) + b i * x n = 0).
    { intros i Hi. assert (Hs := Hx i Hi). rewrite <- rsum_lsum in Hs. cbn [rsum] in Hs. rewrite Nat.eqb_refl in Hs. rewrite <- Hs. f_equal.
      apply rsum_ext. intros k Hk. destruct (Nat.eqb_spec k n); auto; lia. }
    assert (Hxn : x n <> 0).
    { intros Hz. apply in_seq in Hj. destruct (Nat.eq_dec j n) as [->|Hjn]; [auto|]. apply Hxj. rewrite <- (Hap x j) by lia.
      apply rsum_zero. intros k Hk. specialize (E k Hk). rewrite Hz in E. replace (rsum n (fun j0 => B k j0 * x j0)) with 0 by lra. ring. }
    exists (fun j => - x j / x n). intros k Hk. rewrite (rsum_ext n _ (fun j => (-1 / x n) * (B k j * x j))) by (intros; field; auto).
    rewrite rsum_scal. specialize (E k Hk). replace (rsum n (fun j0 => B k j0 * x j0)) with (- (b k * x n)) by lra. field. auto. }
  intros i j Hi Hj. destruct (Honto (fun k => delta k j)) as (x & Hx).
  assert (HA : forall k, (k < n)%nat -> A k j = x k).
  { intros k Hk. rewrite <- (Hap x k Hk). rewrite (rsum_ext n _ (fun l => A k l * delta l j)) by (intros; rewrite Hx; auto).
    rewrite (rsum_single n _ j Hj); [unfold delta; rewrite Nat.eqb_refl; ring|]. intros l Hl Hne. unfold delta. destruct (Nat.eqb_spec l j); [contradiction|ring]. }
  rewrite <- (Hx i Hi). apply rsum_ext. intros k Hk. now rewrite HA.
Qed.
