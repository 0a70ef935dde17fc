(* C75-C78, C115, C116: B-splines. *)
From Coq Require Import Lia Lra Psatz.
From Coquelicot Require Import Coquelicot.
From Verif Require Import FieldProps FemProps EvalProps QuadProps SplineModel.
Local Close Scope Q_scope.
Local Open Scope R_scope.

(* ------------------------------------------------------------------ specification *)
(* the knots given to SplineBasis: at least two, sorted, and the last interval not shorter than the tolerance *)
Definition knots_ok (u : list R) : Prop :=
  (2 <= length u)%nat /\ (forall i j, (i <= j < length u)%nat -> nth i u 0 <= nth j u 0) /\
  nth (length u - 2) u 0 + tol <= nth (length u - 1) u 0.
Definition first_knot (u : list R) : R := nth 0 u 0.
Definition last_knot (u : list R) : R := nth (length u - 1) u 0.

(* ------------------------------------------------------------------ total functions *)
Lemma rsum_shift n f : rsum n (fun i => f (i + 1)%nat) = rsum (S n) f - f 0%nat.
Proof. induction n as [|n IH]; cbn [rsum]; [lra|]. rewrite IH. cbn [rsum]. replace (n + 1)%nat with (S n) by lia. lra. Qed.
Section Total.
Variables (t : nat -> R) (len M : nat).
Definition ind (i : nat) (x : R) : R :=
  if (Rleb (t i) x && Rltb x (t (S i))) || (Rltb (Rabs (x - t (len - 1)%nat)) tol && (i + M + 2 =? len)%nat) then 1 else 0.
Definition rc (r i : nat) : R := if Req_EM_T (t (i + r)%nat - t i) 0 then 0 else 1 / (t (i + r)%nat - t i).
(* Cox - de Boor from given values at order 0 *)
Fixpoint cox (B : nat -> R) (r i : nat) (x : R) : R :=
  match r with
  | O => B i
  | S r' => rc r i * (x - t i) * cox B r' i x + rc r (i + 1) * (t (i + r + 1)%nat - x) * cox B r' (i + 1) x
  end.
Fixpoint dcox (B : nat -> R) (K r i : nat) (x : R) : R :=
  match K with
  | O => cox B r i x
  | S K' => match r with
            | O => 0
            | S r' => INR r * rc r i * dcox B K' r' i x - INR r * rc r (i + 1) * dcox B K' r' (i + 1) x
            end
  end.
Lemma dcox_ext B B' x K : forall r i, (forall j, (i <= j <= i + r)%nat -> B j = B' j) -> dcox B K r i x = dcox B' K r i x.
Proof.
  induction K as [|K IH]; intros r i H.
  - cbn [dcox]. revert i H. induction r as [|r IHr]; intros i H; cbn [cox]; [apply H; lia|].
    rewrite (IHr i), (IHr (i + 1)%nat) by (intros; apply H; lia). reflexivity.
  - cbn [dcox]. destruct r as [|r]; [reflexivity|]. rewrite (IH r i), (IH r (i + 1)%nat) by (intros; apply H; lia). reflexivity.
Qed.
(* local support *)
Lemma dcox_support B x K : forall r i, (forall j, (i <= j <= i + r)%nat -> B j = 0) -> dcox B K r i x = 0.
Proof.
  induction K as [|K IH]; intros r i H.
  - cbn [dcox]. revert i H. induction r as [|r IHr]; intros i H; cbn [cox]; [apply H; lia|].
    rewrite (IHr i), (IHr (i + 1)%nat) by (intros; apply H; lia). ring.
  - cbn [dcox]. destruct r as [|r]; [reflexivity|]. rewrite (IH r i), (IH r (i + 1)%nat) by (intros; apply H; lia). ring.
Qed.
(* indicator of the active interval *)
Definition one_at (k j : nat) : R := if (j =? k)%nat then 1 else 0.
Lemma one_at_same k : one_at k k = 1. Proof. unfold one_at. now rewrite Nat.eqb_refl. Qed.
Lemma one_at_other k j : j <> k -> one_at k j = 0. Proof. intros H. unfold one_at. apply Nat.eqb_neq in H. now rewrite H. Qed.
Lemma cox_zero k r i x : ~ (i <= k <= i + r)%nat -> cox (one_at k) r i x = 0.
Proof. intros H. apply (dcox_support (one_at k) x 0). intros j Hj. apply one_at_other. lia. Qed.
Lemma dcox_zero k K r i x : ~ (i <= k <= i + r)%nat -> dcox (one_at k) K r i x = 0.
Proof. intros H. apply dcox_support. intros j Hj. apply one_at_other. lia. Qed.
Hypothesis mono : forall i j, (i <= j < len)%nat -> t i <= t j.
Lemma rc_nonneg r i : (i + r < len)%nat -> 0 <= rc r i.
Proof.
  intros H. unfold rc. destruct (Req_EM_T _ _) as [_|N]; [lra|]. assert (t i <= t (i + r)%nat) by (apply mono; lia).
  apply Rlt_le. apply Rdiv_lt_0_compat; lra.
Qed.
Lemma rc_mul r i : t (i + r)%nat <> t i -> rc r i * (t (i + r)%nat - t i) = 1.
Proof. intros H. unfold rc. destruct (Req_EM_T _ _) as [E|N]; [lra|]. field. lra. Qed.
Lemma rc_zero r i : t (i + r)%nat = t i -> rc r i = 0.
Proof. intros H. unfold rc. destruct (Req_EM_T _ _) as [E|N]; lra. Qed.

Section Active.
Variables (k : nat) (x : R).
Hypothesis Hk : t k < t (S k).
Hypothesis Hx : t k <= x <= t (S k).
Lemma cox_nonneg r : forall i, (i + r + 1 < len)%nat -> 0 <= cox (one_at k) r i x.
Proof.
  induction r as [|r IH]; intros i Hi; cbn [cox].
  - unfold one_at. destruct (i =? k)%nat; lra.
  - apply Rplus_le_le_0_compat.
    + destruct (le_lt_dec i k) as [L|G]; [|rewrite (cox_zero k r i) by lia; lra].
      destruct (Nat.lt_ge_cases k (i + S r)%nat) as [L'|]; [|rewrite (cox_zero k r i) by lia; lra].
      assert (t i <= t k) by (apply mono; lia). apply Rmult_le_pos; [apply Rmult_le_pos; [apply rc_nonneg; lia|lra]|apply IH; lia].
    + destruct (le_lt_dec (i + 1) k) as [L|G]; [|rewrite (cox_zero k r (i + 1)) by lia; lra].
      destruct (Nat.lt_ge_cases k (i + 1 + S r)%nat) as [L'|]; [|rewrite (cox_zero k r (i + 1)) by lia; lra].
      assert (t (S k) <= t (i + S r + 1)%nat) by (apply mono; lia). apply Rmult_le_pos; [apply Rmult_le_pos; [apply rc_nonneg; lia|lra]|apply IH; lia].
Qed.
Lemma cox_partition r : forall n, (r <= k)%nat -> (k < n)%nat -> (k + r + 1 < len)%nat -> rsum n (fun i => cox (one_at k) r i x) = 1.
Proof.
  induction r as [|r IH]; intros n Hr Hn Hl; cbn [cox].
  - rewrite (rsum_single n _ k Hn); [apply one_at_same|]. intros; now apply one_at_other.
  - rewrite rsum_plus.
    rewrite (rsum_ext n (fun i => rc (S r) (i + 1) * (t (i + S r + 1)%nat - x) * cox (one_at k) r (i + 1) x)
      (fun i => (fun i => rc (S r) i * (t (i + S r)%nat - x) * cox (one_at k) r i x) (i + 1)%nat)) by (intros i _; cbv beta; replace (i + 1 + S r)%nat with (i + S r + 1)%nat by lia; reflexivity).
    rewrite (rsum_shift n (fun i => rc (S r) i * (t (i + S r)%nat - x) * cox (one_at k) r i x)). cbn [rsum].
    rewrite (cox_zero k r n), (cox_zero k r 0) by lia.
    match goal with |- ?A + (?B + ?C - ?D) = 1 => replace (A + (B + C - D)) with (A + B) by lra end.
    rewrite <- rsum_plus. rewrite <- (IH n) by lia. apply rsum_ext. intros i Hi.
    destruct (le_lt_dec i k) as [L|G]; [|rewrite (cox_zero k r i) by lia; lra].
    destruct (Nat.lt_ge_cases k (i + S r)%nat) as [L'|]; [|rewrite (cox_zero k r i) by lia; lra].
    assert (t i <= t k) by (apply mono; lia). assert (t (S k) <= t (i + S r)%nat) by (apply mono; lia).
    assert (E := rc_mul (S r) i ltac:(lra)). 
    replace (rc (S r) i * (x - t i) * cox (one_at k) r i x + rc (S r) i * (t (i + S r)%nat - x) * cox (one_at k) r i x)
      with (rc (S r) i * (t (i + S r)%nat - t i) * cox (one_at k) r i x) by ring. rewrite E. ring.
Qed.
End Active.

(* derivative formula *)
Lemma cox_derive k r : forall i x, (i + r + 1 < len)%nat -> (r = 0%nat \/ True) ->
  is_derive (fun y => cox (one_at k) r i y) x (dcox (one_at k) 1 r i x).
Proof.
  induction r as [|r IH]; intros i x Hi _.
  - cbn. apply (is_derive_const (K := R_AbsRing) (V := R_NormedModule)).
  - cbn [cox].
    assert (D0 := IH i x ltac:(lia) (or_intror I)). assert (D1 := IH (i + 1)%nat x ltac:(lia) (or_intror I)).
    set (d0 := dcox (one_at k) 1 r i x) in *. set (d1 := dcox (one_at k) 1 r (i + 1) x) in *.
    evar (d : R). replace (dcox (one_at k) 1 (S r) i x) with d; unfold d.
    + apply (is_derive_plus (K := R_AbsRing) (V := R_NormedModule) (fun y => rc (S r) i * (y - t i) * cox (one_at k) r i y) (fun y => rc (S r) (i + 1) * (t (i + S r + 1)%nat - y) * cox (one_at k) r (i + 1) y)).
      * apply (is_derive_mult (fun y => rc (S r) i * (y - t i)) (fun y => cox (one_at k) r i y) x (rc (S r) i) d0).
        -- auto_derive; [auto|]. ring.
        -- exact D0.
        -- intros; apply Rmult_comm.
      * apply (is_derive_mult (fun y => rc (S r) (i + 1) * (t (i + S r + 1)%nat - y)) (fun y => cox (one_at k) r (i + 1) y) x (- rc (S r) (i + 1)) d1).
        -- auto_derive; [auto|]. ring.
        -- exact D1.
        -- intros; apply Rmult_comm.
    + unfold plus, mult; cbn -[INR cox dcox rc]. change (dcox (one_at k) 1 (S r) i x) with (INR (S r) * rc (S r) i * cox (one_at k) r i x - INR (S r) * rc (S r) (i + 1) * cox (one_at k) r (i + 1) x).
      rewrite S_INR. unfold d0, d1. destruct r as [|r].
      * cbn -[rc]. lra.
      * change (dcox (one_at k) 1 (S r) i x) with (INR (S r) * rc (S r) i * cox (one_at k) r i x - INR (S r) * rc (S r) (i + 1) * cox (one_at k) r (i + 1) x).
        change (dcox (one_at k) 1 (S r) (i + 1) x) with (INR (S r) * rc (S r) (i + 1) * cox (one_at k) r (i + 1) x - INR (S r) * rc (S r) (i + 1 + 1) * cox (one_at k) r (i + 1 + 1) x).
        cbn [cox]. set (A := cox (one_at k) r i x). set (B := cox (one_at k) r (i + 1) x). set (C := cox (one_at k) r (i + 1 + 1) x).
        set (a := rc (S (S r)) i). set (b := rc (S (S r)) (i + 1)). set (a' := rc (S r) i). set (b' := rc (S r) (i + 1)). set (b'' := rc (S r) (i + 1 + 1)).
        replace (i + 1 + S r + 1)%nat with (i + S (S r) + 1)%nat by lia. replace (i + S r + 1)%nat with (i + S (S r))%nat by lia.
        assert (KEY : b' * (b * (t (i + S (S r) + 1)%nat - t (i + 1)%nat) - a * (t (i + S (S r))%nat - t i)) = 0).
        { destruct (Req_EM_T (t (i + 1 + S r)%nat) (t (i + 1)%nat)) as [E|N].
          - unfold b'. rewrite rc_zero by auto. ring.
          - assert (H1 : t i <= t (i + 1)%nat) by (apply mono; lia). assert (H2 : t (i + 1)%nat <= t (i + 1 + S r)%nat) by (apply mono; lia).
            assert (H3 : t (i + 1 + S r)%nat <= t (i + 1 + S (S r))%nat) by (apply mono; lia).
            assert (E1 := rc_mul (S (S r)) i ltac:(replace (i + S (S r))%nat with (i + 1 + S r)%nat by lia; lra)).
            assert (E2 := rc_mul (S (S r)) (i + 1) ltac:(lra)).
            replace (i + S (S r) + 1)%nat with (i + 1 + S (S r))%nat by lia. unfold a, b. rewrite E1, E2. ring. }
        set (n := INR (S r)) in *.
        assert (G : forall u v, u - v = n * B * (b' * (b * (t (i + S (S r) + 1)%nat - t (i + 1)%nat) - a * (t (i + S (S r))%nat - t i))) -> v = u).
        { intros u v E. rewrite KEY in E. lra. }
        symmetry. apply G. ring.
Qed.
Lemma dcox_derive k K : forall r i x, (i + r + 1 < len)%nat -> (K < r)%nat ->
  is_derive (fun y => dcox (one_at k) K r i y) x (dcox (one_at k) (S K) r i x).
Proof.
  induction K as [|K IH]; intros r i x Hi HK.
  - cbn [dcox]. apply cox_derive; auto.
  - destruct r as [|r]; [lia|].
    change (dcox (one_at k) (S (S K)) (S r) i x) with (INR (S r) * rc (S r) i * dcox (one_at k) (S K) r i x - INR (S r) * rc (S r) (i + 1) * dcox (one_at k) (S K) r (i + 1) x).
    apply (is_derive_ext (fun y => INR (S r) * rc (S r) i * dcox (one_at k) K r i y - INR (S r) * rc (S r) (i + 1) * dcox (one_at k) K r (i + 1) y)); [reflexivity|].
    apply (is_derive_minus (K := R_AbsRing) (V := R_NormedModule) (fun y => INR (S r) * rc (S r) i * dcox (one_at k) K r i y) (fun y => INR (S r) * rc (S r) (i + 1) * dcox (one_at k) K r (i + 1) y)).
    + apply (is_derive_scal (fun y => dcox (one_at k) K r i y)). apply IH; lia.
    + apply (is_derive_scal (fun y => dcox (one_at k) K r (i + 1) y)). apply IH; lia.
Qed.

(* the interval containing x *)
Hypothesis Hlen : (2 * M + 2 <= len)%nat.
Hypothesis left_pad : forall i, (i <= M)%nat -> t i = t 0%nat.
Hypothesis right_pad : forall i, (len - 1 - M <= i < len)%nat -> t i = t (len - 1)%nat.
Hypothesis gap : t (len - M - 2)%nat + tol <= t (len - 1)%nat.
Lemma tol_pos : 0 < tol. Proof. unfold tol. lra. Qed.
Lemma Rleb_spec x y : Rleb x y = true <-> x <= y. Proof. unfold Rleb. destruct (Rle_dec x y); intuition discriminate. Qed.
Lemma Rltb_spec x y : Rltb x y = true <-> x < y. Proof. unfold Rltb. destruct (Rlt_dec x y); intuition discriminate. Qed.
Lemma ind_cases i x : (ind i x = 1 /\ ((t i <= x < t (S i)) \/ (Rabs (x - t (len - 1)%nat) < tol /\ (i + M + 2 = len)%nat))) \/
  (ind i x = 0 /\ ~ (t i <= x < t (S i)) /\ ~ (Rabs (x - t (len - 1)%nat) < tol /\ (i + M + 2 = len)%nat)).
Proof.
  unfold ind. rewrite <- Rleb_spec, <- !Rltb_spec, <- Nat.eqb_eq.
  destruct (Rleb (t i) x), (Rltb x (t (S i))), (Rltb (Rabs _) tol), (i + M + 2 =? len)%nat; cbn; intuition discriminate.
Qed.
Lemma find_interval x n : (n < len)%nat -> t 0%nat <= x -> x < t n -> exists k, (k < n)%nat /\ t k <= x < t (S k).
Proof.
  induction n as [|n IH]; intros Hn H0 Hx; [lra|]. destruct (Rle_lt_dec (t n) x) as [L|G]; [exists n; split; [lia|lra]|].
  destruct IH as (k & Hk & H); [lia|lra|lra|]. exists k. split; [lia|auto].
Qed.
Lemma active x : t 0%nat <= x <= t (len - 1)%nat -> exists k, (M <= k)%nat /\ (k + M + 2 <= len)%nat /\ t k < t (S k) /\ t k <= x <= t (S k) /\
  (forall j, (j + 1 < len)%nat -> ind j x = one_at k j).
Proof.
  intros Hx. pose proof tol_pos as TP. destruct (Rlt_le_dec (t (len - 1)%nat - tol) x) as [Near|Far].
  - assert (Hab : Rabs (x - t (len - 1)%nat) < tol) by (apply Rabs_def1; lra).
    assert (E1 : t (S (len - M - 2)) = t (len - 1)%nat) by (apply right_pad; lia).
    exists (len - M - 2)%nat. split; [lia|]. split; [lia|]. split; [lra|]. split; [lra|]. intros j Hj.
    destruct (ind_cases j x) as [[-> H]|[-> [H1 H2]]].
    + destruct (Nat.eq_dec j (len - M - 2)) as [->|N]; [symmetry; apply one_at_same|]. exfalso. destruct H as [H|[_ H]]; [|lia].
      destruct (Nat.lt_ge_cases j (len - M - 2)) as [L|G].
      * assert (t (S j) <= t (len - M - 2)%nat) by (apply mono; lia). lra.
      * assert (t j = t (len - 1)%nat) by (apply right_pad; lia). assert (t (S j) = t (len - 1)%nat) by (apply right_pad; lia). lra.
    + symmetry. apply one_at_other. intros ->. apply H2. split; [auto|lia].
  - destruct (find_interval x (len - 1)) as (k & Hk & H); [lia|lra|lra|].
    exists k. assert (Mk : (M <= k)%nat). { destruct (Nat.lt_ge_cases k M) as [L|G]; [exfalso|auto]. rewrite (left_pad (S k)) in H by lia. lra. }
    assert (kM : (k + M + 2 <= len)%nat). { destruct (Nat.lt_ge_cases len (k + M + 2)) as [L|G]; [exfalso|auto]. rewrite (right_pad k) in H by lia. lra. }
    split; [auto|]. split; [auto|]. split; [lra|]. split; [lra|]. intros j Hj.
    destruct (ind_cases j x) as [[-> [H'|[H' _]]]|[-> [H1 H2]]].
    + destruct (Nat.lt_trichotomy j k) as [L|[->|G]]; [|symmetry; apply one_at_same|]; exfalso.
      * assert (t (S j) <= t k) by (apply mono; lia). lra.
      * assert (t (S k) <= t j) by (apply mono; lia). lra.
    + exfalso. rewrite Rabs_left1 in H' by lra. lra.
    + symmetry. apply one_at_other. intros ->. contradiction.
Qed.
(* inside an interval it is that interval *)
Lemma active_at x k : (k + 1 < len)%nat -> t k < x < t (S k) ->
  (M <= k)%nat /\ (k + M + 2 <= len)%nat /\ (forall j, (j + 1 < len)%nat -> ind j x = one_at k j).
Proof.
  intros Hk Hx. destruct (active x) as (k' & A & B & C & D & E).
  { assert (t 0%nat <= t k) by (apply mono; lia). assert (t (S k) <= t (len - 1)%nat) by (apply mono; lia). lra. }
  assert (k' = k); [|subst k'; auto].
  assert (F := E k Hk). destruct (ind_cases k x) as [[G _]|[_ [G _]]]; [|exfalso; apply G; lra]. rewrite G in F.
  destruct (Nat.eq_dec k k') as [|N]; [auto|]. rewrite one_at_other in F by auto. lra.
Qed.
(* value at the right end *)
Lemma cox_last r : forall i, (r <= M)%nat -> (i + r + 1 < len)%nat ->
  cox (one_at (len - M - 2)) r i (t (len - 1)%nat) = one_at (len - M - 2) i.
Proof.
  pose proof tol_pos as TP. induction r as [|r IH]; intros i Hr Hi; [reflexivity|]. cbn [cox]. rewrite !IH by lia.
  set (k := (len - M - 2)%nat) in *. replace (rc (S r) (i + 1) * (t (i + S r + 1)%nat - t (len - 1)%nat) * one_at k (i + 1)) with 0.
  - destruct (Nat.eq_dec i k) as [->|N]; [|rewrite one_at_other by auto; ring]. rewrite one_at_same.
    assert (E : t (k + S r)%nat = t (len - 1)%nat) by (apply right_pad; unfold k; lia). rewrite <- E.
    rewrite rc_mul; [ring|]. rewrite E. lra.
  - destruct (Nat.eq_dec (i + 1) k) as [E|N]; [|rewrite one_at_other by auto; ring].
    rewrite (right_pad (i + S r + 1)) by (unfold k in *; lia). ring.
Qed.
End Total.

(* ------------------------------------------------------------------ the model and the total functions *)
Definition kn (knots : list R) : nat -> R := fun i => nth i knots 0.
Lemma nth_res_kn knots i : (i < length knots)%nat -> nth_res knots i = Ok (kn knots i).
Proof. intros H. apply nth_res_ok. now apply nth_error_nth'. Qed.
Lemma recip_ok knots r i : (i + r < length knots)%nat -> recip knots r i = Ok (rc (kn knots) r i).
Proof. intros H. unfold recip. rewrite !nth_res_kn by lia. reflexivity. Qed.
Lemma spline_ok M knots r : forall i x, (i + r + 1 < length knots)%nat ->
  spline M knots r i x = Ok (cox (kn knots) (fun j => ind (kn knots) (length knots) M j x) r i x).
Proof.
  induction r as [|r IH]; intros i x H; cbn [spline cox].
  - unfold spline0. rewrite !nth_res_kn by lia. reflexivity.
  - rewrite !recip_ok by lia. rewrite !nth_res_kn by lia. cbn [bind]. rewrite !IH by lia. reflexivity.
Qed.
Lemma derive_ok M knots K : forall r i x, (K <= r)%nat -> (i + r + 1 < length knots)%nat ->
  derive M knots K r i x = Ok (dcox (kn knots) (fun j => ind (kn knots) (length knots) M j x) K r i x).
Proof.
  induction K as [|K IH]; intros r i x HK H; cbn [derive dcox]; [now apply spline_ok|].
  destruct r as [|r]; [lia|]. rewrite !recip_ok by lia. cbn [bind]. rewrite !IH by lia. reflexivity.
Qed.

Section Padded.
Variables (r : nat) (u : list R).
Hypothesis Hu : knots_ok u.
Lemma u_len : (2 <= length u)%nat. Proof. apply Hu. Qed.
Definition padded : list R := map (fun i => nth (Nat.min (i - r) (length u - 1)) u 0) (seq 0 (length u + 2 * r)).
Lemma pad_ok : pad_knots r u = Ok padded.
Proof.
  unfold pad_knots, padded. pose proof u_len. apply mapM_fun. intros i Hi. apply in_seq in Hi.
  destruct (Nat.ltb_spec i r); [|destruct (Nat.ltb_spec i (length u + r))]; rewrite nth_res_kn by lia; unfold kn; do 2 f_equal; lia.
Qed.
Lemma padded_length : length padded = (length u + 2 * r)%nat.
Proof. unfold padded. now rewrite map_length, seq_length. Qed.
Lemma padded_kn i : (i < length padded)%nat -> kn padded i = nth (Nat.min (i - r) (length u - 1)) u 0.
Proof.
  rewrite padded_length. intros H. unfold kn. apply nth_error_nth. unfold padded. rewrite nth_error_map, nth_error_seq.
  apply Nat.ltb_lt in H. now rewrite H.
Qed.
Lemma p_mono i j : (i <= j < length padded)%nat -> kn padded i <= kn padded j.
Proof. intros H. rewrite !padded_kn by lia. pose proof u_len. apply Hu. lia. Qed.
Lemma p_len : (2 * r + 2 <= length padded)%nat. Proof. rewrite padded_length. pose proof u_len. lia. Qed.
Lemma p_left i : (i <= r)%nat -> kn padded i = kn padded 0.
Proof. intros H. pose proof p_len. rewrite !padded_kn by lia. do 2 f_equal. lia. Qed.
Lemma p_first : kn padded 0 = first_knot u.
Proof. pose proof p_len. rewrite padded_kn by lia. reflexivity. Qed.
Lemma p_right i : (length padded - 1 - r <= i < length padded)%nat -> kn padded i = kn padded (length padded - 1).
Proof. intros H. pose proof p_len. rewrite !padded_kn by lia. rewrite padded_length in *. f_equal. lia. Qed.
Lemma p_last : kn padded (length padded - 1) = last_knot u.
Proof. pose proof p_len. rewrite padded_kn by lia. unfold last_knot. rewrite padded_length in *. f_equal. lia. Qed.
Lemma p_gap : kn padded (length padded - r - 2) + tol <= kn padded (length padded - 1).
Proof.
  pose proof p_len. pose proof u_len. rewrite p_last. rewrite padded_kn by lia. replace (Nat.min _ _) with (length u - 2)%nat by (rewrite padded_length in *; lia).
  apply Hu.
Qed.
Lemma p_size : basis_size r padded = (length u + r - 1)%nat.
Proof. unfold basis_size. rewrite padded_length. lia. Qed.
Lemma p_active x : first_knot u <= x <= last_knot u -> exists k, (r <= k)%nat /\ (k + r + 2 <= length padded)%nat /\ kn padded k < kn padded (S k) /\ kn padded k <= x <= kn padded (S k) /\
  (forall j, (j + 1 < length padded)%nat -> ind (kn padded) (length padded) r j x = one_at k j).
Proof.
  intros Hx. apply (active _ _ r p_mono p_len p_left p_right p_gap). rewrite p_first, p_last. exact Hx.
Qed.
Lemma p_active_at x k : (k + 1 < length padded)%nat -> kn padded k < x < kn padded (S k) ->
  (r <= k)%nat /\ (k + r + 2 <= length padded)%nat /\ (forall j, (j + 1 < length padded)%nat -> ind (kn padded) (length padded) r j x = one_at k j).
Proof. apply (active_at _ _ r p_mono p_len p_left p_right p_gap). Qed.
Lemma p_derive_at K i x k : (K <= r)%nat -> (i < basis_size r padded)%nat ->
  (forall j, (j + 1 < length padded)%nat -> ind (kn padded) (length padded) r j x = one_at k j) ->
  derive r padded K r i x = Ok (dcox (kn padded) (one_at k) K r i x).
Proof.
  intros HK Hi H. rewrite p_size in Hi. pose proof u_len. rewrite derive_ok by (rewrite ?padded_length; lia). f_equal. apply dcox_ext. intros j Hj. apply H. rewrite padded_length. lia.
Qed.
End Padded.

(* ------------------------------------------------------------------ C75 *)
Theorem C75_partition_of_unity_partial r u x : knots_ok u -> first_knot u <= x <= last_knot u ->
  exists t, pad_knots r u = Ok t /\ basis_size r t = (length u + r - 1)%nat /\
  exists N, (forall i, (i < basis_size r t)%nat -> spline r t r i x = Ok (N i) /\ 0 <= N i <= 1) /\
    rsum (basis_size r t) N = 1.
Proof.
  intros Hu Hx. exists (padded r u). split; [apply pad_ok; auto|]. split; [apply p_size|].
  destruct (p_active r u Hu x Hx) as (k & A & B & C & D & E).
  exists (fun i => cox (kn (padded r u)) (one_at k) r i x).
  assert (P : rsum (basis_size r (padded r u)) (fun i => cox (kn (padded r u)) (one_at k) r i x) = 1).
  { apply (cox_partition _ _ (p_mono r u Hu) k x C); auto; [unfold basis_size; lia|lia]. }
  assert (Q : forall i, (i < basis_size r (padded r u))%nat -> 0 <= cox (kn (padded r u)) (one_at k) r i x).
  { intros i Hi. apply (cox_nonneg _ _ (p_mono r u Hu) k x D). unfold basis_size in Hi. lia. }
  split; [|exact P]. intros i Hi. split; [|split; [now apply Q|]].
  - exact (p_derive_at r u Hu 0 i x k ltac:(lia) Hi E).
  - rewrite <- P.
    assert (S1 := rsum_single (basis_size r (padded r u)) (fun j => if (j =? i)%nat then cox (kn (padded r u)) (one_at k) r j x else 0) i Hi).
    cbv beta in S1. rewrite Nat.eqb_refl in S1. rewrite <- S1.
    + apply rsum_le. intros j Hj. destruct (j =? i)%nat; [lra|now apply Q].
    + intros j _ Hne. apply Nat.eqb_neq in Hne. now rewrite Hne.
Qed.
(* distinct knots closer than the tolerance: next to the right end two pieces are active and the functions sum to two *)
Definition close_knots : list R := [0; 1; 1 + tol / 2].
Lemma ind_true t len M i x : (t i <= x < t (S i)) \/ (Rabs (x - t (len - 1)%nat) < tol /\ (i + M + 2 = len)%nat) -> ind t len M i x = 1.
Proof. intros H. destruct (ind_cases t len M i x) as [[E _]|[_ [H1 H2]]]; [auto|]. destruct H; contradiction. Qed.
Lemma ind_false t len M i x : ~ (t i <= x < t (S i)) -> ~ (Rabs (x - t (len - 1)%nat) < tol /\ (i + M + 2 = len)%nat) -> ind t len M i x = 0.
Proof. intros H1 H2. destruct (ind_cases t len M i x) as [[_ [H|H]]|[E _]]; [contradiction|contradiction|auto]. Qed.
Theorem C75_close_knots_refuted : exists u x t N, (forall i j, (i < j < length u)%nat -> nth i u 0 < nth j u 0) /\
  first_knot u <= x <= last_knot u /\ pad_knots 1 u = Ok t /\ (forall i, (i < basis_size 1 t)%nat -> spline 1 t 1 i x = Ok (N i)) /\
  rsum (basis_size 1 t) N = 2.
Proof.
  pose proof tol_pos as TP. assert (T1 : tol < 1) by (unfold tol; lra).
  pose (t := [0; 0; 1; 1 + tol / 2; 1 + tol / 2]).
  exists close_knots, (1 - tol / 4), t, (fun i => cox (kn t) (fun j => ind (kn t) 5 1 j (1 - tol / 4)) 1 i (1 - tol / 4)).
  split; [|split; [|split; [|split]]].
  - intros i j H. cbn in H. destruct i as [|[|[|i]]], j as [|[|[|j]]]; cbn; try lia; lra.
  - unfold first_knot, last_knot. cbn. lra.
  - reflexivity.
  - intros i Hi. apply spline_ok. cbn in *. lia.
  - cbn [basis_size t length Nat.sub rsum cox Nat.add].
    rewrite (ind_false (kn t) 5 1 0) by (cbn; intros; try lra; lia).
    rewrite (ind_true (kn t) 5 1 1) by (cbn; left; lra).
    rewrite (ind_true (kn t) 5 1 2) by (cbn; right; split; [rewrite Rabs_left; lra|lia]).
    rewrite (ind_false (kn t) 5 1 3) by (cbn; intros; try lra; lia).
    unfold rc, kn. cbn. repeat match goal with |- context [Req_EM_T ?a ?b] => destruct (Req_EM_T a b); try lra end. field. lra.
Qed.

(* ------------------------------------------------------------------ C76 *)
Theorem C76_local_support r u t i x : knots_ok u -> pad_knots r u = Ok t -> (i < basis_size r t)%nat ->
  (x < nth i t 0 \/ nth (i + r + 1) t 0 <= x) -> (tol <= Rabs (x - last_knot u) \/ nth (i + r + 1) t 0 < last_knot u) ->
  spline r t r i x = Ok 0 /\ (forall K, (K <= r)%nat -> derive r t K r i x = Ok 0).
Proof.
  intros Hu Ht Hi Hx He. assert (t = padded r u) by (pose proof (pad_ok r u Hu) as E; rewrite Ht in E; congruence). subst t.
  assert (G : forall K, (K <= r)%nat -> derive r (padded r u) K r i x = Ok 0).
  { intros K HK. pose proof (p_len r u Hu) as PL. unfold basis_size in Hi. rewrite derive_ok by lia. f_equal. apply dcox_support. intros j Hj.
    destruct (ind_cases (kn (padded r u)) (length (padded r u)) r j x) as [[_ H]|[H _]]; [exfalso|exact H].
    change (x < kn (padded r u) i \/ kn (padded r u) (i + r + 1) <= x) in Hx.
    change (tol <= Rabs (x - last_knot u) \/ kn (padded r u) (i + r + 1) < last_knot u) in He.
    destruct H as [H|[H E]].
    - assert (kn (padded r u) i <= kn (padded r u) j) by (apply (p_mono r u Hu); lia).
      assert (kn (padded r u) (S j) <= kn (padded r u) (i + r + 1)) by (apply (p_mono r u Hu); lia). lra.
    - rewrite (p_last r u Hu) in H. destruct He as [He|He]; [lra|].
      rewrite (p_right r u Hu (i + r + 1)) in He by lia. rewrite (p_last r u Hu) in He. lra. }
  split; [exact (G 0%nat ltac:(lia))|exact G].
Qed.
(* at the right end of the span the last function is one and the others vanish *)
Theorem C76_right_end r u t i : knots_ok u -> pad_knots r u = Ok t -> (i < basis_size r t)%nat ->
  spline r t r i (last_knot u) = Ok (if (i =? basis_size r t - 1)%nat then 1 else 0).
Proof.
  intros Hu Ht Hi. assert (t = padded r u) by (pose proof (pad_ok r u Hu) as E; rewrite Ht in E; congruence). subst t.
  pose proof (p_len r u Hu) as PL. pose proof tol_pos as TP. unfold basis_size in *. rewrite spline_ok by lia. f_equal.
  set (t := padded r u) in *. rewrite <- (p_last r u Hu). fold t.
  assert (E : forall j, (j + 1 < length t)%nat -> ind (kn t) (length t) r j (kn t (length t - 1)) = one_at (length t - r - 2) j).
  { intros j Hj. destruct (ind_cases (kn t) (length t) r j (kn t (length t - 1))) as [[-> [H|[_ H]]]|[-> [_ H]]].
    - exfalso. assert (kn t (S j) <= kn t (length t - 1)) by (apply (p_mono r u Hu); fold t; lia). lra.
    - replace j with (length t - r - 2)%nat by lia. now rewrite one_at_same.
    - symmetry. apply one_at_other. intros ->. apply H. split; [|lia]. rewrite Rminus_eq_0, Rabs_R0. lra. }
  transitivity (cox (kn t) (one_at (length t - r - 2)) r i (kn t (length t - 1)));
    [apply (dcox_ext (kn t) _ (one_at (length t - r - 2)) (kn t (length t - 1)) 0 r i); intros; apply E; lia|].
  rewrite (cox_last (kn t) (length t) r); try lia.
  - unfold one_at. replace (length t - r - 1 - 1)%nat with (length t - r - 2)%nat by lia. reflexivity.
  - exact (p_mono r u Hu).
  - exact (p_left r u Hu).
  - exact (p_right r u Hu).
  - exact (p_gap r u Hu).
Qed.
(* beyond the right end, within the tolerance, basis functions do not vanish *)
Theorem C76_beyond_end_refuted : exists x, last_knot [0; 1] < x /\
  exists t v, pad_knots 1 [0; 1] = Ok t /\ spline 1 t 1 1 x = Ok v /\ v <> 0.
Proof.
  pose proof tol_pos as TP. exists (1 + tol / 2). split; [unfold last_knot; cbn; lra|].
  eexists. eexists. split; [reflexivity|]. split; [apply spline_ok; cbn; lia|]. cbn [length].
  cbn [cox]. set (t := [0; 0; 1; 1]). rewrite (ind_true (kn t) 4 1 1) by (cbn; right; split; [rewrite Rabs_right; lra|lia]).
  rewrite (ind_false (kn t) 4 1 (1 + 1)) by (cbn; intros; try lra; lia).
  unfold rc, kn, t. cbn. repeat match goal with |- context [Req_EM_T ?a ?b] => destruct (Req_EM_T a b); try lra end.
Qed.

(* ------------------------------------------------------------------ C77 *)
Theorem C77_derivative r u t K i : knots_ok u -> pad_knots r u = Ok t -> (i < basis_size r t)%nat -> (K < r)%nat ->
  exists f f', (forall y, derive r t K r i y = Ok (f y)) /\ (forall y, derive r t (S K) r i y = Ok (f' y)) /\
    (K = 0%nat -> forall y, spline r t r i y = Ok (f y)) /\
    forall x, first_knot u < x < last_knot u -> (forall k, (k < length u)%nat -> nth k u 0 <> x) -> is_derive f x (f' x).
Proof.
  intros Hu Ht Hi HK. assert (t = padded r u) by (pose proof (pad_ok r u Hu) as E; rewrite Ht in E; congruence). subst t.
  pose proof (p_len r u Hu) as PL. assert (Hi' : (i + r + 1 < length (padded r u))%nat) by (unfold basis_size in Hi; lia).
  set (t := padded r u) in *. set (F := fun K y => dcox (kn t) (fun j => ind (kn t) (length t) r j y) K r i y).
  exists (F K), (F (S K)). split; [intros y; apply derive_ok; lia|]. split; [intros y; apply derive_ok; lia|].
  split; [intros -> y; unfold F; cbn [dcox]; now apply spline_ok|].
  intros x Hx Hne. destruct (p_active r u Hu x ltac:(lra)) as (k & A & B & C & D & E). fold t in A, B, C, D, E.
  assert (In : kn t k < x < kn t (S k)).
  { assert (kn t k <> x) by (unfold t; rewrite padded_kn by (fold t; lia); apply Hne; pose proof (u_len u Hu); lia).
    assert (kn t (S k) <> x) by (unfold t; rewrite padded_kn by (fold t; lia); apply Hne; pose proof (u_len u Hu); lia). lra. }
  assert (Loc : forall K y, kn t k < y < kn t (S k) -> dcox (kn t) (one_at k) K r i y = F K y).
  { intros K' y Hy. unfold F. destruct (p_active_at r u Hu y k ltac:(fold t; lia) Hy) as (_ & _ & G). symmetry. apply dcox_ext. intros j Hj. apply G. fold t. lia. }
  rewrite <- (Loc (S K)) by auto.
  apply (is_derive_ext_loc (fun y => dcox (kn t) (one_at k) K r i y)).
  - assert (HP : 0 < Rmin (x - kn t k) (kn t (S k) - x)) by (apply Rmin_pos; lra). exists (mkposreal _ HP). intros y Hy. apply Loc.
    unfold ball in Hy. cbn in Hy. unfold AbsRing_ball, abs, minus, plus, opp in Hy. cbn in Hy.
    apply Rabs_def2 in Hy. pose proof (Rmin_l (x - kn t k) (kn t (S k) - x)). pose proof (Rmin_r (x - kn t k) (kn t (S k) - x)). lra.
  - apply (dcox_derive (kn t) (length t) (p_mono r u Hu)); auto.
Qed.

(* ------------------------------------------------------------------ C78 *)
(* the bilaplacian needs second derivatives *)
Fixpoint op_ok (r : nat) (op : sop) : Prop :=
  match op with
  | SReac _ => True
  | SBilap => (2 <= r)%nat
  | SPlus a b | SMinus a b => op_ok r a /\ op_ok r b
  | SScale _ a | SNegate a => op_ok r a
  end.
(* the weak form at a point from the values and second derivatives of the two functions *)
Fixpoint weak (op : sop) (p q : nat -> R) (x : R) : R :=
  match op with
  | SReac c => c x * p 0%nat * q 0%nat
  | SBilap => - (p 2%nat * q 2%nat)
  | SPlus a b => weak a p q x + weak b p q x
  | SMinus a b => weak a p q x - weak b p q x
  | SScale c a => c * weak a p q x
  | SNegate a => - weak a p q x
  end.
Lemma weak_sym op p q x : weak op p q x = weak op q p x.
Proof. induction op; cbn; try (rewrite IHop1, IHop2); try rewrite IHop; ring. Qed.
Lemma weak_zero op p q x : (forall k, p k = 0) -> weak op p q x = 0.
Proof. intros H. induction op; cbn; rewrite ?IHop1, ?IHop2, ?IHop, ?H; ring. Qed.
Section Assembly.
Variables (r : nat) (u : list R).
Hypothesis Hu : knots_ok u.
Local Notation t := (padded r u).
Definition phi (i : nat) (x : R) (K : nat) : R := dcox (kn t) (fun j => ind (kn t) (length t) r j x) K r i x.
Definition form (op : sop) (i j : nat) (x : R) : R := weak op (phi i x) (phi j x) x.
Lemma sform_ok op i j x : op_ok r op -> (i < basis_size r t)%nat -> (j < basis_size r t)%nat -> sform r t op i j x = Ok (form op i j x).
Proof.
  unfold basis_size. intros Ho Hi Hj. unfold form. induction op as [c| |a IHa b IHb|a IHa b IHb|c a IHa|a IHa]; cbn [sform weak op_ok] in *.
  - rewrite !spline_ok by lia. reflexivity.
  - rewrite !derive_ok by lia. reflexivity.
  - rewrite IHa, IHb by tauto. reflexivity.
  - rewrite IHa, IHb by tauto. reflexivity.
  - rewrite IHa by tauto. reflexivity.
  - rewrite IHa by tauto. reflexivity.
Qed.
Lemma integrate_interval_ok a b f g : (forall x, f x = Ok (g x)) -> integrate_interval a b f = Ok (spline_integrate a b g).
Proof.
  intros H. unfold integrate_interval, spline_integrate, quadrature, table_gl_1_3. cbn [combine q_nodes q_weights foldM map fst snd lsum].
  rewrite !H. cbn [bind nth]. f_equal. f_equal. lra.
Qed.
Definition piece (f : R -> R) (k : nat) : R := spline_integrate (kn t k) (kn t (S k)) f.
Lemma pair_ok f g i j : (forall x, f x = Ok (g x)) -> (i + r + 1 < length t)%nat ->
  pair_value r t f i j = Ok (rsum (i + r + 1 - j) (fun k => piece g (j + k))).
Proof.
  intros H Hi. unfold pair_value.
  assert (G : forall n k s, (k + n <= i + r + 1)%nat -> foldM (fun s k => u0 <- nth_res t k ;; v <- nth_res t (S k) ;; w <- integrate_interval u0 v f ;; Ok (s + w)) (seq k n) s =
    Ok (s + rsum n (fun l => piece g (k + l)))).
  { induction n as [|n IH]; intros k s Hk; cbn [seq foldM]; [cbn; f_equal; lra|].
    rewrite !nth_res_kn by lia. cbn [bind]. rewrite (integrate_interval_ok _ _ f g H). cbn [bind]. rewrite IH by lia. f_equal.
    rewrite (rsum_ext n (fun l => piece g (S k + l)) (fun l => (fun l => piece g (k + l)) (l + 1)%nat)) by (intros l _; cbv beta; f_equal; lia).
    rewrite (rsum_shift n (fun l => piece g (k + l))). rewrite Nat.add_0_r. change (spline_integrate (kn t k) (kn t (S k)) g) with (piece g k). cbn [rsum]. lra. }
  destruct (Nat.lt_ge_cases (i + r + 1) j) as [L|L].
  - replace (i + r + 1 - j)%nat with 0%nat by lia. reflexivity.
  - rewrite G by lia. f_equal. lra.
Qed.
(* pieces outside the common support vanish *)
Lemma piece_zero op i j k : (i < basis_size r t)%nat -> (j < basis_size r t)%nat -> (k + 1 < length t)%nat ->
  ~ (i <= k <= i + r /\ j <= k <= j + r)%nat -> piece (form op i j) k = 0.
Proof.
  unfold basis_size. intros Hi Hj Hk Hout. unfold piece.
  assert (Hm : kn t k <= kn t (S k)) by (apply (p_mono r u Hu); lia).
  destruct (Req_EM_T (kn t k) (kn t (S k))) as [E|N]; [unfold spline_integrate; rewrite <- E; lra|].
  assert (Z : forall x, kn t k < x < kn t (S k) -> form op i j x = 0).
  { intros x Hx. destruct (p_active_at r u Hu x k Hk Hx) as (_ & _ & G).
    assert (V : forall a, (a + r + 1 < length t)%nat -> ~ (a <= k <= a + r)%nat -> forall K, phi a x K = 0).
    { intros a Ha Hna K. unfold phi. apply dcox_support. intros l Hl. rewrite G by lia. apply one_at_other. lia. }
    unfold form. destruct (le_lt_dec i k) as [L1|]; [destruct (le_lt_dec k (i + r)) as [L2|]|].
    - rewrite weak_sym. apply weak_zero. apply V; lia.
    - apply weak_zero. apply V; lia.
    - apply weak_zero. apply V; lia. }
  unfold spline_integrate, quadrature, table_gl_1_3. cbn [combine q_nodes q_weights map fst snd lsum nth].
  rewrite !Z; [ring| | |]; unfold Q2R; cbn; nra.
Qed.
Definition whole (op : sop) (i j : nat) : R := rsum (length t - 1) (piece (form op i j)).
Lemma pair_whole op i j : (i < basis_size r t)%nat -> (j <= i)%nat ->
  rsum (i + r + 1 - j) (fun k => piece (form op i j) (j + k)) = whole op i j.
Proof.
  intros Hi Hji. pose proof (p_len r u Hu). unfold whole. unfold basis_size in Hi.
  replace (length t - 1)%nat with (j + ((i + r + 1 - j) + (length t - 1 - (i + r + 1))))%nat by lia.
  rewrite !rsum_app. rewrite (rsum_ext j _ (fun _ => 0)) by (intros k Hk; apply piece_zero; unfold basis_size; lia).
  rewrite (rsum_ext (length t - 1 - (i + r + 1)) _ (fun _ => 0)) by (intros k Hk; apply piece_zero; unfold basis_size; lia).
  rewrite !rsum_0. lra.
Qed.
Lemma whole_sym op i j : whole op i j = whole op j i.
Proof.
  unfold whole. apply rsum_ext. intros k _. unfold piece, spline_integrate, quadrature. f_equal. apply lsum_map_ext. intros x _.
  f_equal. unfold form. apply weak_sym.
Qed.
Lemma discretize_ok op : op_ok r op -> exists A, spline_discretize r t true op = Ok A /\
  forall a b, (a < basis_size r t)%nat -> (b < basis_size r t)%nat -> A a b = whole op a b.
Proof.
  intros Ho. unfold spline_discretize. pose proof (p_len r u Hu) as PL. set (m := basis_size r t) in *.
  set (row := fun i => map (fun j => (i, j, whole op i j)) (seq 0 (S i))).
  erewrite (foldM_collect _ row).
  2:{ intros acc i Hi. apply in_seq in Hi. rewrite (foldM_collect _ (fun j => [(i, j, whole op i j)])); [reflexivity|].
      intros acc' j Hj. apply in_seq in Hj. destruct (Nat.ltb_spec j m) as [L|L]; [|lia]. cbn [bind].
      rewrite (pair_ok _ (form op i j)); [cbn [bind]; now rewrite pair_whole by (unfold m in *; lia)| |unfold m, basis_size in *; lia].
      intros x. apply sform_ok; auto. unfold m in *. lia. }
  cbn [bind app]. eexists. split; [reflexivity|].
  assert (L : forall a b, (a < m)%nat -> (b <= a)%nat -> entry_of (flat_map row (seq 0 m)) a b = whole op a b).
  { intros a b Ha Hb. rewrite (rows_entry row) by (auto; unfold row; intros k tr Hin; apply in_map_iff in Hin as (j & <- & _); reflexivity).
    unfold row. rewrite (entry_of_map (seq 0 (S a)) (fun _ => a) (fun j => j) (fun j => whole op a j)).
    rewrite <- (rsum_lsum (S a) (fun j => hit a a * hit j b * whole op a j)). rewrite (rsum_single (S a) _ b ltac:(lia)); [rewrite !hit_same; lra|].
    intros i _ Hne. rewrite (hit_other i b) by auto. lra. }
  intros a b Ha Hb. cbv beta. destruct (Nat.leb_spec b a); [apply L; auto|]. rewrite L by (auto; lia). apply whole_sym.
Qed.
End Assembly.

(* the assembled matrix: every read is in range, the matrix is symmetric, and entry (a, b) is the quadrature of the
   weak form over every interval of the knot vector, not only those visited *)
Theorem C78_assembly_partial r u op : knots_ok u -> op_ok r op -> exists t A, pad_knots r u = Ok t /\
  spline_discretize r t true op = Ok A /\
  forall a b, (a < basis_size r t)%nat -> (b < basis_size r t)%nat ->
    A a b = A b a /\ exists f, (forall x, sform r t op a b x = Ok (f x)) /\
    A a b = rsum (length t - 1) (fun k => spline_integrate (nth k t 0) (nth (S k) t 0) f).
Proof.
  intros Hu Ho. destruct (discretize_ok r u Hu op Ho) as (A & E & H). exists (padded r u), A.
  split; [now apply pad_ok|]. split; [exact E|]. intros a b Ha Hb. split.
  - rewrite !H by auto. apply whole_sym.
  - exists (form r u op a b). split; [intros x; now apply sform_ok|]. rewrite H by auto. reflexivity.
Qed.
(* an operator not flagged as symmetric: the inner loop reads one basis function too many *)
Theorem C78_nonsymmetric_refuted r u op : knots_ok u -> op_ok r op -> exists t, pad_knots r u = Ok t /\
  spline_discretize r t false op = UB.
Proof.
  intros Hu Ho. exists (padded r u). split; [now apply pad_ok|]. unfold spline_discretize. pose proof (p_len r u Hu) as PL.
  set (t := padded r u) in *. set (m := basis_size r t).
  assert (G : foldM (fun acc j => _ <- (if (j <? m)%nat then Ok tt else UB) ;; v <- pair_value r t (sform r t op 0 j) 0 j ;; Ok (acc ++ [(0%nat, j, v)])) (seq 0 (S m)) [] = UB).
  { replace (S m) with (m + 1)%nat by lia. rewrite seq_app, foldM_app.
    rewrite (foldM_collect _ (fun j => [(0%nat, j, rsum (0 + r + 1 - j) (fun k => piece r u (form r u op 0 j) (j + k)))])).
    - cbn [bind seq foldM Nat.add]. now rewrite Nat.ltb_irrefl.
    - intros acc j Hj. apply in_seq in Hj. destruct (Nat.ltb_spec j m); [|lia]. cbn [bind].
      unfold t. rewrite (pair_ok r u _ (form r u op 0 j)); [reflexivity| |fold t; lia].
      intros x. apply sform_ok; auto; fold t; unfold m, basis_size in *; lia. }
  assert (M1 : exists m', m = S m') by (exists (m - 1)%nat; unfold m, basis_size; lia). destruct M1 as [m' E].
  assert (Es : seq 0 m = 0%nat :: seq 1 m') by (rewrite E; reflexivity). fold m. rewrite Es. cbn [foldM]. rewrite G. reflexivity.
Qed.

(* pointwise evaluation: row j holds the values of all the functions at location j, and sums to one *)
Theorem C116_pointwise r u locs : knots_ok u -> locs <> [] -> (forall x, In x locs -> first_knot u <= x <= last_knot u) ->
  exists t Psi, pad_knots r u = Ok t /\ spline_pointwise r t locs = Ok Psi /\
  (forall j x, nth_error locs j = Some x -> (forall i, (i < basis_size r t)%nat -> spline r t r i x = Ok (Psi j i)) /\
     rsum (basis_size r t) (Psi j) = 1).
Proof.
  intros Hu Hne Hin. exists (padded r u). set (t := padded r u). set (m := basis_size r t). pose proof (p_len r u Hu) as PL. fold t in PL.
  set (N := fun i x => cox (kn t) (fun j => ind (kn t) (length t) r j x) r i x).
  assert (HN : forall i x, (i < m)%nat -> spline r t r i x = Ok (N i x)) by (intros; apply spline_ok; unfold m, basis_size in *; lia).
  unfold spline_pointwise. fold m. destruct (Nat.eqb_spec (length locs) 0) as [E|_]; [destruct locs; [contradiction|discriminate]|]. cbn [negb assert_ bind].
  rewrite (mapM_fun _ (fun ij : nat * nat => (snd ij, fst ij, N (fst ij) (nth (snd ij) locs 0)))).
  2:{ intros [i j] Hij. apply in_prod_iff in Hij as [Hi Hj]. apply in_seq in Hi, Hj. cbn [fst snd]. rewrite nth_res_kn by lia. cbn [bind]. rewrite HN by lia. reflexivity. }
  eexists. split; [now apply pad_ok|]. cbn [bind]. split; [reflexivity|]. intros j x Hj.
  assert (Lj : (j < length locs)%nat) by (apply nth_error_Some; congruence).
  assert (V : forall i, (i < m)%nat -> entry_of (map (fun ij : nat * nat => (snd ij, fst ij, N (fst ij) (nth (snd ij) locs 0))) (list_prod (seq 0 m) (seq 0 (length locs)))) j i = N i x).
  { intros i Hi. rewrite (entry_of_map _ (fun ij : nat * nat => snd ij) (fun ij => fst ij) (fun ij => N (fst ij) (nth (snd ij) locs 0))).
    rewrite (lsum_list_prod m (length locs) (fun ij => hit (snd ij) j * hit (fst ij) i * N (fst ij) (nth (snd ij) locs 0))).
    rewrite (rsum_single m _ i Hi).
    - cbn [fst snd]. rewrite (rsum_single (length locs) _ j Lj); [rewrite !hit_same, (nth_error_nth _ _ 0 Hj); lra|].
      intros k _ Hk. rewrite (hit_other k j) by auto. lra.
    - intros k _ Hk. apply rsum_zero. intros l _. cbn [fst snd]. rewrite (hit_other k i) by auto. lra. }
  split; [intros i Hi; rewrite V by auto; now apply HN|].
  destruct (C75_partition_of_unity_partial r u x Hu) as (t' & Et & _ & N' & HN' & HS); [apply Hin; eapply nth_error_In; eauto|].
  rewrite (pad_ok r u Hu) in Et. injection Et as <-. fold t m in HN', HS. rewrite <- HS. apply rsum_ext. intros i Hi. rewrite V by auto.
  destruct (HN' i Hi) as [A _]. rewrite HN in A by auto. congruence.
Qed.
(* expansion: the value of the linear combination at every location *)
Theorem C116_expansion r u c locs : knots_ok u -> length c = (length u + r - 1)%nat -> exists t, pad_knots r u = Ok t /\
  exists N, (forall i x, (i < basis_size r t)%nat -> spline r t r i x = Ok (N i x)) /\
  spline_expansion r t c locs = Ok (map (fun x => rsum (length c) (fun i => nth i c 0 * N i x)) locs).
Proof.
  intros Hu Hc. exists (padded r u). split; [now apply pad_ok|]. set (t := padded r u). pose proof (p_len r u Hu) as PL. fold t in PL.
  exists (fun i x => cox (kn t) (fun j => ind (kn t) (length t) r j x) r i x).
  assert (E : length c = basis_size r t) by (unfold t; rewrite p_size; auto).
  assert (HN : forall i x, (i < basis_size r t)%nat -> spline r t r i x = Ok (cox (kn t) (fun j => ind (kn t) (length t) r j x) r i x)) by (intros; apply spline_ok; unfold basis_size in *; lia).
  split; [exact HN|]. unfold spline_expansion. rewrite <- E, Nat.eqb_refl. cbn [assert_ bind]. apply mapM_fun. intros x _.
  apply sum_loop_ok. intros i Hi. rewrite nth_res_kn by auto. cbn [bind]. rewrite HN by lia. reflexivity.
Qed.

(* the hypotheses are met by knots with different spacings and a repeated knot *)
Example knots_example : knots_ok [0; 1; 1; 3] /\ first_knot [0; 1; 1; 3] <= 2 <= last_knot [0; 1; 1; 3].
Proof.
  unfold knots_ok, first_knot, last_knot, tol. split; [|cbn; lra]. split; [cbn; lia|]. split; [|cbn; lra]. intros i j H. cbn in H.
  destruct i as [|[|[|[|i]]]], j as [|[|[|[|j]]]]; cbn; try lia; lra.
Qed.
Example op_example : op_ok 3 (SMinus (SScale 2 (SReac (fun x => x))) SBilap). Proof. cbn. lia. Qed.

(* ------------------------------------------------------------------ C115: the mass matrix *)
Local Ltac eqR := match goal with |- ?a = ?b => change (@eq R a b) end.
Definition mass : sop := SReac (fun _ => 1).
Definition quadratic (f : R -> R) : Prop := exists A B C, forall x, f x = A + B * x + C * x ^ 2.
Definition affine (f : R -> R) : Prop := exists A B, forall x, f x = A + B * x.
Lemma affine_mul f g : affine f -> affine g -> quadratic (fun x => f x * g x).
Proof. intros (A & B & H) (C & D & G). exists (A * C), (A * D + B * C), (B * D). intros x. rewrite H, G. ring. Qed.
Lemma quadratic_plus f g : quadratic f -> quadratic g -> quadratic (fun x => f x + g x).
Proof. intros (A & B & C & H) (D & E & F & G). exists (A + D), (B + E), (C + F). intros x. rewrite H, G. ring. Qed.
Lemma affine_quadratic f : affine f -> quadratic f.
Proof. intros (A & B & H). exists A, B, 0. intros x. rewrite H. ring. Qed.
Lemma cox_quadratic t B r i : (r <= 2)%nat -> quadratic (cox t B r i).
Proof.
  assert (A1 : forall i, affine (cox t B 1 i)).
  { intros j. cbn [cox]. exists (- rc t 1 j * t j * B j + rc t 1 (j + 1) * t (j + 1 + 1)%nat * B (j + 1)%nat), (rc t 1 j * B j - rc t 1 (j + 1) * B (j + 1)%nat). intros x. ring. }
  intros H. destruct r as [|[|[|r]]]; [| | |lia].
  - exists (B i), 0, 0. intros x. cbn. ring.
  - apply affine_quadratic, A1.
  - change (cox t B 2 i) with (fun x => rc t 2 i * (x - t i) * cox t B 1 i x + rc t 2 (i + 1) * (t (i + 2 + 1)%nat - x) * cox t B 1 (i + 1) x).
    apply (quadratic_plus (fun x => rc t 2 i * (x - t i) * cox t B 1 i x) (fun x => rc t 2 (i + 1) * (t (i + 2 + 1)%nat - x) * cox t B 1 (i + 1) x)).
    + apply (affine_mul (fun x => rc t 2 i * (x - t i)) (cox t B 1 i)); [|apply A1]. exists (- rc t 2 i * t i), (rc t 2 i). intros x. ring.
    + apply (affine_mul (fun x => rc t 2 (i + 1) * (t (i + 2 + 1)%nat - x)) (cox t B 1 (i + 1))); [|apply A1]. exists (rc t 2 (i + 1) * t (i + 2 + 1)%nat), (- rc t 2 (i + 1)). intros x. ring.
Qed.
(* a quadratic with values in [0, 1] at the ends and the middle of an interval *)
Lemma quadratic_local f a b : a < b -> quadratic f -> (forall x, a <= x <= b -> 0 <= f x <= 1) ->
  exists c0 c1 c2, Rabs c0 <= 1 /\ Rabs c1 <= 1 / 2 /\ Rabs c2 <= 1 /\
    forall x, f x = c0 + c1 * ((x - (a + b) / 2) / ((b - a) / 2)) + c2 * ((x - (a + b) / 2) / ((b - a) / 2)) ^ 2.
Proof.
  intros Hab (A & B & C & H) Hb. assert (Fa := Hb a ltac:(lra)). assert (Fb := Hb b ltac:(lra)). assert (Fm := Hb ((a + b) / 2) ltac:(lra)).
  exists (f ((a + b) / 2)), ((f b - f a) / 2), ((f b + f a) / 2 - f ((a + b) / 2)).
  split; [apply Rabs_le; lra|]. split; [apply Rabs_le; lra|]. split; [apply Rabs_le; lra|]. intros x. rewrite !H. field. lra.
Qed.
Lemma quadratic_mass f g a b : a < b -> quadratic f -> quadratic g -> (forall x, a <= x <= b -> 0 <= f x <= 1) -> (forall x, a <= x <= b -> 0 <= g x <= 1) ->
  ex_RInt (fun x => f x * g x) a b /\
  Rabs (spline_integrate a b (fun x => f x * g x) - RInt (fun x => f x * g x) a b) <= (b - a) / 2 * (eps * 7).
Proof.
  intros Hab Qf Qg Bf Bg. destruct (quadratic_local f a b Hab Qf Bf) as (c0 & c1 & c2 & C0 & C1 & C2 & Ef).
  destruct (quadratic_local g a b Hab Qg Bg) as (d0 & d1 & d2 & D0 & D1 & D2 & Eg). set (h := (b - a) / 2) in *.
  assert (Hh : 0 < h) by (unfold h; lra).
  set (p := [(c0 * d0, [0%nat]); ((c0 * d1 + c1 * d0) / h, [1%nat]); ((c0 * d2 + c1 * d1 + c2 * d0) / h ^ 2, [2%nat]);
             ((c1 * d2 + c2 * d1) / h ^ 3, [3%nat]); (c2 * d2 / h ^ 4, [4%nat])] : QuadProps.poly).
  assert (Ep : forall x, f x * g x = peval p [x - (a + b) / 2]).
  { intros x. rewrite Ef, Eg. unfold p, peval. cbn [map lsum fst snd monomial]. field. lra. }
  assert (Dp : degree_le 1 5 p). { intros c al Hin. cbn in Hin. repeat (destruct Hin as [Heq|Hin]; [injection Heq as <- <-; cbn; split; [reflexivity|lia]|]). destruct Hin. }
  pose proof (C69_spline_interval a b p Dp) as S. cbv zeta in S. fold h in S.
  assert (X1 : spline_integrate a b (fun x => f x * g x) = spline_integrate a b (fun x => peval p [x - (a + b) / 2])).
  { unfold spline_integrate, quadrature. f_equal. apply lsum_map_ext. intros y _. f_equal. apply Ep. }
  assert (X2 : RInt (fun x => f x * g x) a b = RInt (fun x => peval p [x - (a + b) / 2]) a b) by (apply RInt_ext; intros x _; apply Ep).
  split.
  - apply (ex_RInt_ext (fun x => c0 * d0 + (c0 * d1 + c1 * d0) / h * (x - (a + b) / 2) + (c0 * d2 + c1 * d1 + c2 * d0) / h ^ 2 * (x - (a + b) / 2) ^ 2
      + (c1 * d2 + c2 * d1) / h ^ 3 * (x - (a + b) / 2) ^ 3 + c2 * d2 / h ^ 4 * (x - (a + b) / 2) ^ 4)).
    + intros x _. rewrite Ef, Eg. eqR. field. lra.
    + apply (ex_RInt_continuous (V := R_CompleteNormedModule)). intros z _. apply (ex_derive_continuous (K := R_AbsRing) (V := R_NormedModule)). auto_derive. auto.
  - rewrite X1, X2. eapply Rle_trans; [exact S|]. rewrite (Rabs_pos_eq h) by lra. apply Rmult_le_compat_l; [lra|].
    apply Rmult_le_compat_l; [unfold eps; lra|].
    assert (CS : coef_size (scaled h p) = Rabs (c0 * d0) + Rabs (c0 * d1 + c1 * d0) + Rabs (c0 * d2 + c1 * d1 + c2 * d0) + Rabs (c1 * d2 + c2 * d1) + Rabs (c2 * d2)).
    { unfold coef_size, scaled, p. cbn [map lsum fst snd list_sum fold_right Nat.add].
      replace (c0 * d0 * h ^ 0) with (c0 * d0) by field. replace ((c0 * d1 + c1 * d0) / h * h ^ 1) with (c0 * d1 + c1 * d0) by (field; lra).
      replace ((c0 * d2 + c1 * d1 + c2 * d0) / h ^ 2 * h ^ 2) with (c0 * d2 + c1 * d1 + c2 * d0) by (field; lra).
      replace ((c1 * d2 + c2 * d1) / h ^ 3 * h ^ 3) with (c1 * d2 + c2 * d1) by (field; lra).
      replace (c2 * d2 / h ^ 4 * h ^ 4) with (c2 * d2) by (field; lra). lra. }
    rewrite CS.
    pose proof (Rabs_triang (c0 * d1) (c1 * d0)). pose proof (Rabs_triang (c0 * d2 + c1 * d1) (c2 * d0)). pose proof (Rabs_triang (c0 * d2) (c1 * d1)).
    pose proof (Rabs_triang (c1 * d2) (c2 * d1)). rewrite !Rabs_mult in *.
    pose proof (Rabs_pos c0). pose proof (Rabs_pos c1). pose proof (Rabs_pos c2). pose proof (Rabs_pos d0). pose proof (Rabs_pos d1). pose proof (Rabs_pos d2).
    assert (M : forall x y u v, 0 <= x <= u -> 0 <= y <= v -> x * y <= u * v) by (intros; apply Rmult_le_compat; lra).
    pose proof (M (Rabs c0) (Rabs d0) 1 1 ltac:(lra) ltac:(lra)). pose proof (M (Rabs c0) (Rabs d1) 1 (1 / 2) ltac:(lra) ltac:(lra)). pose proof (M (Rabs c0) (Rabs d2) 1 1 ltac:(lra) ltac:(lra)).
    pose proof (M (Rabs c1) (Rabs d0) (1 / 2) 1 ltac:(lra) ltac:(lra)). pose proof (M (Rabs c1) (Rabs d1) (1 / 2) (1 / 2) ltac:(lra) ltac:(lra)). pose proof (M (Rabs c1) (Rabs d2) (1 / 2) 1 ltac:(lra) ltac:(lra)).
    pose proof (M (Rabs c2) (Rabs d0) 1 1 ltac:(lra) ltac:(lra)). pose proof (M (Rabs c2) (Rabs d1) 1 (1 / 2) ltac:(lra) ltac:(lra)). pose proof (M (Rabs c2) (Rabs d2) 1 1 ltac:(lra) ltac:(lra)).
    lra.
Qed.
Section Mass.
Variables (r : nat) (u : list R).
Hypothesis Hu : knots_ok u.
Hypothesis Hr : (r <= 2)%nat.
Local Notation t := (padded r u).
Lemma piece_mass i j k : (i < basis_size r t)%nat -> (j < basis_size r t)%nat -> (k + 1 < length t)%nat ->
  ex_RInt (fun x => phi r u i x 0 * phi r u j x 0) (kn t k) (kn t (S k)) /\
  Rabs (piece r u (form r u mass i j) k - RInt (fun x => phi r u i x 0 * phi r u j x 0) (kn t k) (kn t (S k))) <= (kn t (S k) - kn t k) / 2 * (eps * 7).
Proof.
  intros Hi Hj Hk. assert (Hm : kn t k <= kn t (S k)) by (apply (p_mono r u Hu); lia).
  destruct (Req_EM_T (kn t k) (kn t (S k))) as [E|N].
  - rewrite <- E. split; [apply ex_RInt_point|]. unfold piece. rewrite <- E, RInt_point. unfold spline_integrate, zero. cbn -[eps quadrature].
    rewrite Rabs_right; lra.
  - assert (H : kn t k < kn t (S k)) by lra.
    assert (MK : (r <= k)%nat /\ (k + r + 2 <= length t)%nat) by (destruct (p_active_at r u Hu ((kn t k + kn t (S k)) / 2) k Hk ltac:(lra)) as (A & B & _); auto).
    assert (L : forall a x, (a < basis_size r t)%nat -> kn t k < x < kn t (S k) -> phi r u a x 0 = cox (kn t) (one_at k) r a x).
    { intros a x Ha Hx. destruct (p_active_at r u Hu x k Hk Hx) as (_ & _ & G). unfold phi. apply (dcox_ext (kn t) _ (one_at k) x 0). intros l Hl. apply G. unfold basis_size in Ha. lia. }
    assert (Bd : forall a, (a < basis_size r t)%nat -> forall x, kn t k <= x <= kn t (S k) -> 0 <= cox (kn t) (one_at k) r a x <= 1).
    { intros a Ha x Hx. assert (Q : forall i, (i < basis_size r t)%nat -> 0 <= cox (kn t) (one_at k) r i x) by (intros l Hl; apply (cox_nonneg (kn t) (length t) (p_mono r u Hu) k x Hx); unfold basis_size in Hl; lia).
      split; [now apply Q|].
      assert (P : rsum (basis_size r t) (fun i => cox (kn t) (one_at k) r i x) = 1) by (apply (cox_partition (kn t) (length t) (p_mono r u Hu) k x H); [lia|unfold basis_size; lia|lia]).
      rewrite <- P. assert (S1 := rsum_single (basis_size r t) (fun j => if (j =? a)%nat then cox (kn t) (one_at k) r j x else 0) a Ha).
      cbv beta in S1. rewrite Nat.eqb_refl in S1. rewrite <- S1.
      + apply rsum_le. intros l Hl. destruct (l =? a)%nat; [lra|now apply Q].
      + intros l _ Hne. apply Nat.eqb_neq in Hne. now rewrite Hne. }
    destruct (quadratic_mass (cox (kn t) (one_at k) r i) (cox (kn t) (one_at k) r j) (kn t k) (kn t (S k)) H (cox_quadratic _ _ _ _ Hr) (cox_quadratic _ _ _ _ Hr) (Bd i Hi) (Bd j Hj)) as [EX ER].
    assert (Ext : forall x, Rmin (kn t k) (kn t (S k)) < x < Rmax (kn t k) (kn t (S k)) -> cox (kn t) (one_at k) r i x * cox (kn t) (one_at k) r j x = phi r u i x 0 * phi r u j x 0).
    { intros x Hx. rewrite Rmin_left, Rmax_right in Hx by lra. now rewrite !L by auto. }
    split; [exact (ex_RInt_ext _ _ _ _ Ext EX)|]. rewrite <- (RInt_ext _ _ _ _ Ext).
    replace (piece r u (form r u mass i j) k) with (spline_integrate (kn t k) (kn t (S k)) (fun x => cox (kn t) (one_at k) r i x * cox (kn t) (one_at k) r j x)); [exact ER|].
    unfold piece, spline_integrate, quadrature, table_gl_1_3. cbn [combine q_nodes q_weights map fst snd lsum nth].
    unfold form, mass. cbn [weak]. rewrite !L by (auto; unfold Q2R; cbn; nra). ring.
Qed.
Lemma span_mass i j n : (i < basis_size r t)%nat -> (j < basis_size r t)%nat -> (n < length t)%nat ->
  ex_RInt (fun x => phi r u i x 0 * phi r u j x 0) (kn t 0) (kn t n) /\
  Rabs (rsum n (piece r u (form r u mass i j)) - RInt (fun x => phi r u i x 0 * phi r u j x 0) (kn t 0) (kn t n)) <= (kn t n - kn t 0) / 2 * (eps * 7).
Proof.
  intros Hi Hj. induction n as [|n IH]; intros Hn.
  - split; [apply ex_RInt_point|]. rewrite RInt_point. unfold zero. cbn -[eps]. rewrite Rabs_right; lra.
  - destruct IH as [E1 B1]; [lia|]. destruct (piece_mass i j n Hi Hj ltac:(lia)) as [E2 B2].
    split; [exact (ex_RInt_Chasles _ _ _ _ E1 E2)|]. rewrite <- (RInt_Chasles _ _ _ _ E1 E2). unfold plus. cbn [rsum]. cbn -[eps RInt phi rsum piece kn padded].
    match goal with |- Rabs (?S + ?P - (?I + ?J)) <= _ => replace (S + P - (I + J)) with ((S - I) + (P - J)) by ring end.
    eapply Rle_trans; [apply Rabs_triang|]. lra.
Qed.
End Mass.
(* up to order 2 the assembled mass matrix is the Gram matrix of the basis, up to the rounding of the quadrature table *)
Theorem C115_mass_partial r u : knots_ok u -> (r <= 2)%nat -> exists t A, pad_knots r u = Ok t /\
  spline_discretize r t true mass = Ok A /\
  exists N, (forall i x, (i < basis_size r t)%nat -> spline r t r i x = Ok (N i x)) /\
  forall a b, (a < basis_size r t)%nat -> (b < basis_size r t)%nat ->
    Rabs (A a b - RInt (fun x => N a x * N b x) (first_knot u) (last_knot u)) <= 4 * eps * (last_knot u - first_knot u).
Proof.
  intros Hu Hr. destruct (discretize_ok r u Hu mass I) as (A & E & H). exists (padded r u), A. pose proof (p_len r u Hu) as PL.
  split; [now apply pad_ok|]. split; [exact E|]. exists (fun i x => phi r u i x 0). split.
  - intros i x Hi. unfold phi. cbn [dcox]. apply spline_ok. unfold basis_size in Hi. lia.
  - intros a b Ha Hb. rewrite H by auto. destruct (span_mass r u Hu Hr a b (length (padded r u) - 1) Ha Hb ltac:(lia)) as [_ B].
    rewrite (p_first r u Hu), (p_last r u Hu) in B. unfold whole. eapply Rle_trans; [exact B|].
    assert (first_knot u <= last_knot u) by (unfold first_knot, last_knot; pose proof (u_len u Hu); apply Hu; lia). unfold eps. lra.
Qed.
(* order 3: three quadrature nodes are not enough for the square of a cubic *)
Lemma cubic_first x : 0 < x < 1 -> phi 3 [0; 1] 0 x 0 = (1 - x) ^ 3.
Proof.
  intros Hx. unfold phi. change (padded 3 [0; 1]) with [0; 0; 0; 0; 1; 1; 1; 1]. set (t := [0; 0; 0; 0; 1; 1; 1; 1]).
  rewrite (dcox_ext (kn t) _ (one_at 3) x 0).
  - cbn [dcox cox Nat.add]. unfold rc, kn, t, one_at. cbn [nth Nat.add Nat.eqb].
    repeat match goal with |- context [Req_EM_T ?a ?b] => destruct (Req_EM_T a b); try lra end.
  - intros j Hj. destruct j as [|[|[|[|j]]]]; [| | | |lia].
    1-3: unfold one_at; cbn [Nat.eqb]; apply ind_false; cbn; [lra|intros [_ K]; lia].
    unfold one_at. cbn [Nat.eqb]. apply ind_true. left. cbn. lra.
Qed.
Lemma unit_knots : knots_ok [0; 1].
Proof.
  unfold knots_ok, tol. split; [cbn; lia|]. split; [|cbn; lra]. intros i j H. cbn in H. destruct i as [|[|i]], j as [|[|j]]; cbn; try lia; lra.
Qed.
Theorem C115_mass_cubic_refuted : exists t A, pad_knots 3 [0; 1] = Ok t /\ spline_discretize 3 t true mass = Ok A /\
  exists N, (forall i x, (i < basis_size 3 t)%nat -> spline 3 t 3 i x = Ok (N i x)) /\
  Rabs (A 0%nat 0%nat - RInt (fun x => N 0%nat x * N 0%nat x) 0 1) > 1 / 10000.
Proof.
  destruct (discretize_ok 3 [0; 1] unit_knots mass I) as (A & E & H). exists (padded 3 [0; 1]), A.
  split; [now apply pad_ok, unit_knots|]. split; [exact E|]. exists (fun i x => phi 3 [0; 1] i x 0). split.
  - intros i x Hi. unfold phi. cbn [dcox]. apply spline_ok. unfold basis_size in Hi. cbn in *. lia.
  - rewrite H by (cbn; lia). replace (RInt _ 0 1) with (1 / 7).
    + unfold whole. rewrite (rsum_single (length (padded 3 [0; 1]) - 1) _ 3 ltac:(cbn; lia)).
      * unfold piece, spline_integrate, quadrature, table_gl_1_3. cbn [combine q_nodes q_weights map fst snd lsum nth].
        unfold form, mass. cbn [weak]. change (kn (padded 3 [0; 1]) 3) with 0. change (kn (padded 3 [0; 1]) 4) with 1.
        rewrite !cubic_first by (unfold Q2R; cbn; lra). unfold Q2R. cbn. apply Rlt_gt. rewrite Rabs_left; lra.
      * intros k Hk Hne. unfold piece. replace (kn (padded 3 [0; 1]) (S k)) with (kn (padded 3 [0; 1]) k); [unfold spline_integrate; lra|].
        cbn in Hk. destruct k as [|[|[|[|[|[|[|k]]]]]]]; cbn; try reflexivity; lia.
    + symmetry. rewrite (RInt_ext _ (fun x => (1 - x) ^ 6)).
      * apply is_RInt_unique. evar (v : R). replace (1 / 7) with v; unfold v.
        -- apply (is_RInt_derive (V := R_CompleteNormedModule) (fun x => - (1 - x) ^ 7 / 7) (fun x => (1 - x) ^ 6)).
           ++ intros x _. auto_derive; [auto|]. field.
           ++ intros x _. apply (ex_derive_continuous (K := R_AbsRing) (V := R_NormedModule)). auto_derive. auto.
        -- unfold minus, plus, opp. cbn. field.
      * intros x Hx. rewrite Rmin_left, Rmax_right in Hx by lra. rewrite cubic_first by lra. eqR. ring.
Qed.
Print Assumptions C75_partition_of_unity_partial.
Print Assumptions C77_derivative.
Print Assumptions C78_assembly_partial.
Print Assumptions C115_mass_partial.
