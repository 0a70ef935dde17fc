(* Finite sums of reals. *)
From Verif Require Import Base.
From Coq Require Export Reals Lra.
Open Scope R_scope.

Fixpoint rsum (n : nat) (f : nat -> R) : R :=
  match n with O => 0 | S k => rsum k f + f k end.
Fixpoint lsum (l : list R) : R := match l with [] => 0 | x :: t => x + lsum t end.

Lemma rsum_ext : forall n f g, (forall i, (i < n)%nat -> f i = g i) -> rsum n f = rsum n g.
Proof. induction n; intros f g H; cbn; auto. rewrite (IHn f g), H; auto. Qed.
Lemma rsum_plus : forall n f g, rsum n (fun i => f i + g i) = rsum n f + rsum n g.
Proof. induction n; intros; cbn; [lra|]. rewrite IHn. lra. Qed.
Lemma rsum_minus : forall n f g, rsum n (fun i => f i - g i) = rsum n f - rsum n g.
Proof. induction n; intros; cbn; [lra|]. rewrite IHn. lra. Qed.
Lemma rsum_scal : forall n c f, rsum n (fun i => c * f i) = c * rsum n f.
Proof. induction n; intros; cbn; [lra|]. rewrite IHn. lra. Qed.
Lemma rsum_scal_r : forall n c f, rsum n (fun i => f i * c) = rsum n f * c.
Proof. induction n; intros; cbn; [lra|]. rewrite IHn. lra. Qed.
Lemma rsum_0 : forall n, rsum n (fun _ => 0) = 0.
Proof. induction n; cbn; lra. Qed.
Lemma rsum_zero : forall n f, (forall i, (i < n)%nat -> f i = 0) -> rsum n f = 0.
Proof. intros. rewrite (rsum_ext n f (fun _ => 0)); auto. apply rsum_0. Qed.
Lemma rsum_single : forall n f k, (k < n)%nat -> (forall i, (i < n)%nat -> i <> k -> f i = 0) -> rsum n f = f k.
Proof.
  induction n; intros f k Hk H; [lia|]. cbn. destruct (Nat.eq_dec k n) as [->|Hne].
  - rewrite rsum_zero; [lra|]. intros i Hi. apply H; lia.
  - rewrite (IHn f k), (H n); try lia; [lra|]. intros; apply H; lia.
Qed.
Lemma rsum_swap : forall n m f, rsum n (fun i => rsum m (fun j => f i j)) = rsum m (fun j => rsum n (fun i => f i j)).
Proof.
  induction n; intros m f; cbn; [rewrite rsum_0; auto|]. rewrite IHn, <- rsum_plus. auto.
Qed.
Lemma rsum_app : forall n m f, rsum (n + m) f = rsum n f + rsum m (fun i => f (n + i)%nat).
Proof.
  intros n m f. induction m; cbn; [rewrite Nat.add_0_r; lra|]. rewrite Nat.add_succ_r. cbn. rewrite IHm. lra.
Qed.
(* reindexing 0..n*m-1 by quotient and remainder *)
Lemma rsum_mul : forall n m f, rsum (n * m) f = rsum n (fun i => rsum m (fun j => f (i * m + j)%nat)).
Proof.
  induction n; intros m f; cbn; auto. rewrite Nat.add_comm, rsum_app, IHn. f_equal.
Qed.
Lemma rsum_le : forall n f g, (forall i, (i < n)%nat -> f i <= g i) -> rsum n f <= rsum n g.
Proof. induction n; intros f g H; cbn; [lra|]. specialize (IHn f g). pose proof (H n). assert (rsum n f <= rsum n g) by (apply IHn; intros; apply H; lia). assert (f n <= g n) by (apply H; lia). lra. Qed.
Lemma lsum_app : forall a b, lsum (a ++ b) = lsum a + lsum b.
Proof. induction a; intros; cbn; [lra|]. rewrite IHa. lra. Qed.
Lemma lsum_map_plus : forall A (f g : A -> R) l, lsum (map (fun x => f x + g x) l) = lsum (map f l) + lsum (map g l).
Proof. induction l; cbn; [lra|]. rewrite IHl. lra. Qed.
Lemma lsum_map_scal : forall A (f : A -> R) c l, lsum (map (fun x => c * f x) l) = c * lsum (map f l).
Proof. induction l; cbn; [lra|]. rewrite IHl. lra. Qed.
Lemma lsum_map_0 : forall A (f : A -> R) l, (forall x, In x l -> f x = 0) -> lsum (map f l) = 0.
Proof. induction l; cbn; intros H; [lra|]. rewrite IHl, H; auto. lra. Qed.
Lemma lsum_map_ext : forall A (f g : A -> R) l, (forall x, In x l -> f x = g x) -> lsum (map f l) = lsum (map g l).
Proof. intros A f g l H. f_equal. apply map_ext_in; auto. Qed.
Lemma rsum_lsum : forall n f, rsum n f = lsum (map f (seq 0 n)).
Proof. induction n; intros; [reflexivity|]. rewrite seq_S, map_app, lsum_app, <- IHn. cbn. lra. Qed.
Lemma rsum_lsum_swap : forall A n (f : nat -> A -> R) l, rsum n (fun i => lsum (map (f i) l)) = lsum (map (fun x => rsum n (fun i => f i x)) l).
Proof. induction l; cbn; [apply rsum_0|]. rewrite rsum_plus, IHl. auto. Qed.
