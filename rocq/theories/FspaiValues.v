(* Values computed by the sparse approximate inverse, in exact arithmetic. *)
From Coq Require Import Permutation Reals Lra.
From Verif Require Import Base RSum FspaiModel FspaiProps.
Local Open Scope nat_scope.
Local Open Scope R_scope.

Definition gtR (a b : R) : bool := if Rlt_dec b a then true else false.
Definition geR (a b : R) : bool := if Rle_dec b a then true else false.
Definition nzR (a : R) : bool := if Req_EM_T a 0 then false else true.

Definition one_if (b : bool) : R := if b then 1 else 0.
Lemma rsum_pick n (f : nat -> R) k : (k < n)%nat -> rsum n (fun j => f j * one_if (k =? j)%nat) = f k.
Proof.
  intros H. rewrite (rsum_single n _ k H); [rewrite Nat.eqb_refl; cbn; lra|]. intros i _ N. destruct (Nat.eqb_spec k i); [congruence|cbn; lra].
Qed.
Lemma dot_rsum a : forall b, length a = length b -> dot R 0 Rplus Rmult a b = rsum (length a) (fun t => nth t a 0 * nth t b 0).
Proof.
  intros b. unfold dot. assert (G : forall a b s, length a = length b -> fold_left (fun s p => s + fst p * snd p) (combine a b) s = s + rsum (length a) (fun t => nth t a 0 * nth t b 0)).
  { clear. induction a as [|x a IH]; intros [|y b] s H; cbn in H; try lia; cbn [combine fold_left length]; [cbn; lra|]. rewrite IH by lia. cbn [fst snd].
    change (S (length a)) with (1 + length a)%nat. rewrite rsum_app. cbn [rsum nth Nat.add]. lra. }
  intros H. rewrite G by exact H. lra.
Qed.
Lemma find_none_all {B} (f : B -> bool) l : (forall x, In x l -> f x = false) -> find f l = None.
Proof. induction l as [|y l IH]; intros H; [reflexivity|]. cbn. rewrite H by now left. apply IH. intros x Hx. apply H. now right. Qed.
Lemma find_app' {B} (f : B -> bool) l r : find f (l ++ r) = match find f l with Some x => Some x | None => find f r end.
Proof. induction l as [|y l IH]; cbn; [reflexivity|]. destruct (f y); auto. Qed.

Section Values.
Context (n : nat) (A : nat -> nat -> R) (pattern : nat -> list nat) (solve : list (list R) -> list R -> list R) (order : list nat -> list nat) (order_map : list (nat * R) -> list (nat * R)).
Hypothesis Hpat : forall i, (i < n)%nat -> pattern i <> [] /\ forall j, In j (pattern i) -> (j < n)%nat.
Hypothesis Hsolve : forall M b, length (solve M b) = length b.
Hypothesis Hord : forall l, Permutation (order l) l.
Hypothesis Hordm : forall l, Permutation (order_map l) l.
Hypothesis Hsym : forall i j, (i < n)%nat -> (j < n)%nat -> A i j = A j i.
Hypothesis Hspd : forall x, (exists i, (i < n)%nat /\ x i <> 0) -> 0 < rsum n (fun i => rsum n (fun j => x i * A i j * x j)).
(* the Cholesky solver is exact on the systems it is given: A(l, l) y = A(l, k) *)
Hypothesis Hexact : forall l k i, NoDup l -> (forall j, In j l -> (j < n)%nat) -> In i l ->
  rsum (length l) (fun t => A i (nth t l 0%nat) * nth t (solve (map (fun i => map (A i) l) l) (map (fun i => A i k) l)) 0) = A i k.
Local Notation approximate := (approximate R 0 1 Rplus Rminus Rmult Rdiv Ropp sqrt A solve order).
Local Notation step := (step R 0 1 Rplus Rminus Rmult Rdiv Ropp sqrt gtR geR INR A pattern solve order order_map).
Local Notation steps := (steps R 0 1 Rplus Rminus Rmult Rdiv Ropp sqrt gtR geR INR A pattern solve order order_map).
Local Notation column := (column R 0 1 Rplus Rminus Rmult Rdiv Ropp sqrt gtR geR nzR INR n A pattern solve order order_map).
Local Notation compute := (compute R 0 1 Rplus Rminus Rmult Rdiv Ropp sqrt gtR geR nzR INR n A pattern solve order order_map).
Local Notation coeff := (coeff R 0).

Section Column.
Variables (k : nat) (l : list nat) (y : list R).
Hypothesis Hk : (k < n)%nat.
Hypothesis Hl : NoDup l /\ (forall j, In j l -> (j < n)%nat) /\ ~ In k l.
Hypothesis Hy : length y = length l.
Hypothesis Hsys : forall i, In i l -> rsum (length l) (fun t => A i (nth t l 0%nat) * nth t y 0) = A i k.
(* z = e_k - sum_t y_t e_{l_t} *)
Definition zvec (j : nat) : R := one_if (k =? j)%nat - rsum (length l) (fun t => nth t y 0 * one_if (nth t l 0%nat =? j)%nat).
Lemma sum_z f : rsum n (fun j => f j * zvec j) = f k - rsum (length l) (fun t => f (nth t l 0%nat) * nth t y 0).
Proof.
  unfold zvec. rewrite (rsum_ext n _ (fun j => f j * one_if (k =? j)%nat - rsum (length l) (fun t => (f j * one_if (nth t l 0%nat =? j)%nat) * nth t y 0))).
  - rewrite rsum_minus, rsum_pick by exact Hk. f_equal. rewrite rsum_swap. apply rsum_ext. intros t Ht. rewrite rsum_scal_r. rewrite rsum_pick; [reflexivity|]. apply Hl. now apply nth_In.
  - intros j _. rewrite Rmult_minus_distr_l. f_equal. rewrite <- rsum_scal. apply rsum_ext. intros t _. ring.
Qed.
Lemma Az_row i : In i l -> rsum n (fun j => A i j * zvec j) = 0.
Proof. intros Hi. rewrite sum_z, Hsys by exact Hi. lra. Qed.
Definition pivot : R := A k k - rsum (length l) (fun t => A (nth t l 0%nat) k * nth t y 0).
Lemma zAz : rsum n (fun i => rsum n (fun j => zvec i * A i j * zvec j)) = pivot.
Proof.
  rewrite (rsum_ext n _ (fun i => rsum n (fun j => A i j * zvec j) * zvec i)).
  - rewrite (sum_z (fun i => rsum n (fun j => A i j * zvec j))). rewrite (rsum_zero (length l)).
    + rewrite sum_z. unfold pivot. rewrite Rminus_0_r. f_equal. apply rsum_ext. intros t Ht. f_equal. apply Hsym; [exact Hk|]. apply Hl. now apply nth_In.
    + intros t Ht. rewrite Az_row; [lra|]. now apply nth_In.
  - intros i _. rewrite <- rsum_scal_r. apply rsum_ext. intros j _. ring.
Qed.
Lemma z_k : zvec k = 1.
Proof.
  unfold zvec. rewrite Nat.eqb_refl, rsum_zero; [cbn; lra|]. intros t Ht. destruct (Nat.eqb_spec (nth t l 0%nat) k) as [E|]; [|cbn; lra].
  exfalso. apply (proj2 (proj2 Hl)). rewrite <- E. now apply nth_In.
Qed.
Lemma z_l t : (t < length l)%nat -> zvec (nth t l 0%nat) = - nth t y 0.
Proof.
  intros Ht. unfold zvec. destruct (Nat.eqb_spec k (nth t l 0%nat)) as [E|_]; [exfalso; apply (proj2 (proj2 Hl)); rewrite E; now apply nth_In|].
  rewrite (rsum_single _ _ t Ht); [rewrite Nat.eqb_refl; cbn; lra|]. intros i Hi N. destruct (Nat.eqb_spec (nth i l 0%nat) (nth t l 0%nat)) as [E|]; [|cbn; lra].
  exfalso. apply N. destruct Hl as [Hn _]. rewrite (NoDup_nth l 0%nat) in Hn. now apply Hn.
Qed.
Lemma z_out j : j <> k -> ~ In j l -> zvec j = 0.
Proof.
  intros N1 N2. unfold zvec. destruct (Nat.eqb_spec k j); [congruence|]. rewrite rsum_zero; [cbn; lra|]. intros t Ht. destruct (Nat.eqb_spec (nth t l 0%nat) j) as [E|]; [|cbn; lra].
  exfalso. apply N2. rewrite <- E. now apply nth_In.
Qed.
Lemma pivot_pos : 0 < pivot.
Proof. rewrite <- zAz. apply Hspd. exists k. split; [exact Hk|]. rewrite z_k. lra. Qed.
End Column.

(* what column k of L satisfies: for a pattern P with the diagonal, the column l is zero outside P, A l vanishes on P but the diagonal, l' A l = 1 *)
Definition solved (k : nat) (P : list nat) (l : nat -> R) : Prop :=
  In k P /\ (forall i, (i < n)%nat -> ~ In i P -> l i = 0) /\ (forall i, In i P -> i <> k -> rsum n (fun j => A i j * l j) = 0) /\
  rsum n (fun i => rsum n (fun j => l i * A i j * l j)) = 1 /\ 0 < l k.
Definition as_fun (L : list R) (i : nat) : R := nth i L 0.
Lemma write_all l y c : NoDup l -> length y = length l -> forall L, (forall j, In j l -> (j < length L)%nat) -> exists L',
  foldM (fun L (it : nat * nat) => v <- nth_res y (snd it) ;; upd_res L (fst it) (c * v)) (combine l (seq 0 (length l))) L = Ok L' /\ length L' = length L /\
  (forall t, (t < length l)%nat -> nth (nth t l 0%nat) L' 0 = c * nth t y 0) /\ (forall i, ~ In i l -> nth i L' 0 = nth i L 0).
Proof.
  intros Hn Hy. assert (G : forall r off L, NoDup r -> length y = (off + length r)%nat -> (forall j, In j r -> (j < length L)%nat) -> exists L',
     foldM (fun L (it : nat * nat) => v <- nth_res y (snd it) ;; upd_res L (fst it) (c * v)) (combine r (seq off (length r))) L = Ok L' /\ length L' = length L /\
     (forall t, (t < length r)%nat -> nth (nth t r 0%nat) L' 0 = c * nth (off + t) y 0) /\ (forall i, ~ In i r -> nth i L' 0 = nth i L 0)).
  { clear Hn Hy. induction r as [|j r IH]; intros off L Hn Hy HL.
    - exists L. cbn. repeat split; auto. intros; lia.
    - cbn [length seq combine foldM fst snd] in *. inversion Hn as [|? ? Hj Hr]; subst. destruct (nth_error y off) as [v|] eqn:E; [|apply nth_error_None in E; lia].
      rewrite (proj2 (nth_res_ok _ _ _) E). cbn [bind]. assert (Lj : (j < length L)%nat) by (apply HL; now left). unfold upd_res at 1. destruct (Nat.ltb_spec j (length L)); [|lia]. cbn [bind].
      destruct (IH (S off) (upd L j (c * v)) Hr) as (L' & E' & Le & W & K); [lia|intros i Hi; rewrite upd_length; apply HL; now right|].
      assert (Nj : nth j L' 0 = c * v) by (rewrite K by exact Hj; apply nth_error_nth; now apply nth_error_upd_same).
      exists L'. rewrite upd_length in Le. split; [exact E'|]. split; [exact Le|]. split.
      + intros [|t] Ht; cbn [nth]; [rewrite Nat.add_0_r, Nj; f_equal; symmetry; now apply nth_error_nth|]. rewrite W by lia. f_equal. f_equal. lia.
      + intros i Hi. rewrite K by (intros Hin; apply Hi; now right). assert (i <> j) by (intros ->; apply Hi; now left).
        destruct (nth_error L i) as [u|] eqn:Eu.
        * rewrite (nth_error_nth _ _ 0 Eu). apply nth_error_nth. now rewrite nth_error_upd_other by auto.
        * rewrite !nth_overflow; auto; [now apply nth_error_None|rewrite upd_length; now apply nth_error_None]. }
  intros L HL. destruct (G l 0%nat L Hn) as (L' & H); [now rewrite Hy|exact HL|]. exists L'. exact H.
Qed.
Lemma approximate_solved L k J L' : pat_ok n k J -> col_ok 0 n J L -> approximate L k J = Ok L' -> solved k J (as_fun L').
Proof.
  intros HJ HL E. destruct (approximate_ok 0 1 Rplus Rminus Rmult Rdiv Ropp sqrt gtR geR nzR INR n A pattern solve order Hpat Hsolve Hord L k J HJ HL) as (L2 & E2 & HL2). assert (L2 = L') by congruence. subst L2. clear E2.
  destruct HJ as (Hn & Hk & Hb). assert (Kn : (k < n)%nat) by (apply Hb in Hk; lia).
  set (p := remove k J) in *. set (l := order p). set (y := solve (map (fun i => map (A i) l) l) (map (fun i => A i k) l)).
  assert (Pl : Permutation l p) by apply Hord. assert (Np : NoDup p) by (apply NoDup_filter; exact Hn).
  assert (Hl : NoDup l /\ (forall j, In j l -> (j < n)%nat) /\ ~ In k l).
  { split; [eapply Permutation_NoDup; [apply Permutation_sym, Pl|exact Np]|]. split.
    - intros j Hj. apply (Permutation_in _ Pl) in Hj. apply in_remove' in Hj as [Hj _]. now apply Hb.
    - intros Hj. apply (Permutation_in _ Pl) in Hj. apply in_remove' in Hj as [_ Hj]. congruence. }
  assert (In_l : forall j, In j J <-> j = k \/ In j l).
  { intros j. split.
    - intros Hj. destruct (Nat.eq_dec j k) as [->|N]; [now left|right]. apply (Permutation_in _ (Permutation_sym Pl)). now apply in_remove'.
    - intros [->|Hj]; [exact Hk|]. apply (Permutation_in _ Pl) in Hj. now apply in_remove' in Hj. }
  assert (Hy : length y = length l) by (unfold y; now rewrite Hsolve, map_length).
  assert (Hsys : forall i, In i l -> rsum (length l) (fun t => A i (nth t l 0%nat) * nth t y 0) = A i k) by (intros i Hi; apply Hexact; [apply Hl|apply Hl|exact Hi]).
  set (c := 1 / sqrt (pivot k l y)). assert (HP := pivot_pos k l y Kn Hl Hsys).
  assert (Hs : 0 < sqrt (pivot k l y)) by now apply sqrt_lt_R0. assert (Hc : 0 < c) by (unfold c, Rdiv; rewrite Rmult_1_l; now apply Rinv_0_lt_compat).
  assert (V : forall j, (j < n)%nat -> nth j L' 0 = c * zvec k l y j).
  { assert (W : nth k L' 0 = c /\ forall t, (t < length l)%nat -> nth (nth t l 0%nat) L' 0 = - c * nth t y 0).
    { assert (Lk : (k < length L)%nat) by (rewrite (proj1 HL); exact Kn). assert (E' : match p with [] => upd_res L k (1 / sqrt (A k k)) | _ => 
          (L1 <- upd_res L k (1 / sqrt (A k k - dot R 0 Rplus Rmult (map (fun i => A i k) l) y)) ;;
           foldM (fun L (it : nat * nat) => v <- nth_res y (snd it) ;; upd_res L (fst it) (- (1 / sqrt (A k k - dot R 0 Rplus Rmult (map (fun i => A i k) l) y)) * v)) (combine l (seq 0 (length p))) L1) end = Ok L') by exact E.
      clear E. rename E' into E. assert (Lp : length p = length l) by (symmetry; now apply Permutation_length). clearbody y l p. destruct p as [|a r].
      - assert (l = []) as El by (apply Permutation_nil; apply Permutation_sym; exact Pl). unfold upd_res in E. destruct (Nat.ltb_spec k (length L)); [|lia]. injection E as <-. split.
        + unfold c, pivot. rewrite El. cbn [length rsum]. rewrite Rminus_0_r. apply nth_error_nth. now apply nth_error_upd_same.
        + intros t Ht. rewrite El in Ht. cbn in Ht. lia.
      - rewrite Lp in E.
        assert (D : A k k - dot R 0 Rplus Rmult (map (fun i => A i k) l) y = pivot k l y).
        { unfold pivot. rewrite dot_rsum by now rewrite map_length. f_equal. rewrite map_length. apply rsum_ext. intros t Ht. f_equal.
          rewrite (nth_indep _ 0 (A 0%nat k)) by now rewrite map_length. apply (map_nth (fun i => A i k)). }
        rewrite D in E. fold c in E. unfold upd_res at 1 in E. destruct (Nat.ltb_spec k (length L)); [|lia]. cbn [bind] in E.
        destruct (write_all l y (- c) (proj1 Hl) Hy (upd L k c)) as (L2 & E2 & _ & W2 & K2); [intros j Hj; rewrite upd_length, (proj1 HL); now apply Hl|].
        rewrite E2 in E. injection E as <-. split; [|exact W2]. rewrite K2 by apply Hl. apply nth_error_nth. now apply nth_error_upd_same. }
    destruct W as [W1 W2]. intros j Hj. destruct (Nat.eq_dec j k) as [->|Nk]; [rewrite W1, z_k by exact Hl; lra|]. destruct (in_dec Nat.eq_dec j l) as [Hin|Hout].
    - apply (In_nth l j 0%nat) in Hin as (t & Ht & <-). rewrite W2, z_l by auto. lra.
    - rewrite z_out by auto. rewrite Rmult_0_r. apply nth_error_nth. apply HL2; [exact Hj|]. rewrite In_l. tauto. }
  unfold solved, as_fun. split; [exact Hk|]. split; [|split; [|split]].
  - intros i Hi Ni. apply nth_error_nth. now apply HL2.
  - intros i Hi Ni. rewrite (rsum_ext n _ (fun j => c * (A i j * zvec k l y j))) by (intros j Hj; rewrite V by exact Hj; ring). rewrite rsum_scal.
    rewrite (Az_row k l y Kn Hl Hsys) by (apply In_l in Hi; tauto). lra.
  - rewrite (rsum_ext n _ (fun i => (c * c) * rsum n (fun j => zvec k l y i * A i j * zvec k l y j))).
    + rewrite rsum_scal, (zAz k l y Kn Hl Hsys). unfold c. rewrite <- (sqrt_sqrt (pivot k l y)) at 3 by lra. field. lra.
    + intros i Hi. rewrite <- rsum_scal. apply rsum_ext. intros j Hj. rewrite !V by auto. ring.
  - rewrite V, z_k by auto. lra.
Qed.

(* the column kept after at least one step *)
Definition col_solved (k : nat) (c : list nat * list nat * list nat * list R) : Prop :=
  exists P, (forall j, In j P -> In j (pat_of c)) /\ solved k P (as_fun (snd c)).
Lemma step_solved beta eps k c c' : column_ok 0 n k c -> (snd (fst c) <> [] \/ col_solved k c) -> step beta eps k c = Ok c' -> col_solved k c'.
Proof.
  destruct c as [[[J cand] dl] L]. intros (HJ & Hc & Hd & HL) Hs E. cbn [fst snd] in Hs. unfold FspaiModel.step in E. destruct dl as [|d dl].
  - injection E as <-. destruct Hs as [Hs|Hs]; [contradiction|exact Hs].
  - destruct (approximate L k J) as [L1| | |] eqn:E1; try discriminate. cbn [bind] in E. assert (S1 := approximate_solved L k J L1 HJ HL E1).
    destruct (candidates pattern order k (d :: dl) cand) as [c1| | |]; try discriminate. cbn [bind] in E.
    destruct (eligible R 0 Rplus Rmult A order k c1 J L1) as [h| | |]; try discriminate. cbn [bind] in E. destruct (taus R 0 Rplus Rmult Rdiv gtR A order_map h) as [[h1 s] m].
    destruct (gtR m eps).
    + destruct (pick R gtR geR beta (s / INR (length h)) h1 J []) as [J1 dl1] eqn:Ep. injection E as <-. apply (pick_ok 0 Rplus Rminus Rmult Rdiv Ropp sqrt gtR geR nzR INR n A pattern order order_map Hpat Hord Hordm) in Ep as (P1 & _). exists J. cbn. split; [exact P1|exact S1].
    + injection E as <-. exists J. cbn. split; [auto|exact S1].
Qed.
Lemma step_ok' beta eps k c : column_ok 0 n k c -> exists c', step beta eps k c = Ok c' /\ column_ok 0 n k c' /\ (forall j, In j (pat_of c) -> In j (pat_of c')) /\ (length (pat_of c') <= length (pat_of c) + beta)%nat.
Proof. apply (C91_step 0 1 Rplus Rminus Rmult Rdiv Ropp sqrt gtR geR nzR INR n A pattern solve order order_map Hpat Hsolve Hord Hordm). Qed.
Lemma steps_solved alpha beta eps k : forall c c', column_ok 0 n k c -> (snd (fst c) <> [] /\ (0 < alpha)%nat \/ col_solved k c) -> steps alpha beta eps k c = Ok c' -> col_solved k c'.
Proof.
  induction alpha as [|a IH]; intros c c' Hc Hs E; cbn in E.
  - injection E as <-. destruct Hs as [[_ Hs]|Hs]; [lia|exact Hs].
  - destruct (step_ok' beta eps k c Hc) as (c1 & E1 & H1 & _). rewrite E1 in E. cbn [bind] in E. apply (IH c1 c' H1); [|exact E]. right.
    apply (step_solved beta eps k c c1 Hc); [|exact E1]. tauto.
Qed.
Lemma column_solved alpha beta eps s k s' : (0 < alpha)%nat -> state_ok n s -> (k < n)%nat -> column alpha beta eps s k = Ok s' ->
  exists J' P L, nth_error (patterns R s') k = Some J' /\ (forall j, In j P -> In j J') /\ solved k P (as_fun L) /\ length L = n /\
    entries R s' = entries R s ++ map (fun p => (fst p, k, snd p)) (filter (fun p => nzR (snd p)) (combine (seq 0 n) L)).
Proof.
  intros Ha (Hl & Hd & Hp) Hk E. unfold FspaiModel.column in E. destruct (nth_error (patterns R s) k) as [J|] eqn:EJ; [|apply nth_error_None in EJ; lia].
  rewrite (proj2 (nth_res_ok _ _ _) EJ) in E. cbn [bind] in E. set (c0 := (J, [], insert k (delta R s), repeat 0 n)) in E.
  assert (H0 : column_ok 0 n k c0).
  { cbn. split; [now apply Hp|]. split; [now intros j []|]. split; [intros j Hj; apply in_insert in Hj as [->|Hj]; auto|]. split; [apply repeat_length|]. intros i Hi _. now apply nth_error_repeat. }
  assert (H1 : exists c', steps alpha beta eps k c0 = Ok c' /\ column_ok 0 n k c') by (destruct (steps_ok 0 1 Rplus Rminus Rmult Rdiv Ropp sqrt gtR geR nzR INR n A pattern solve order order_map Hpat Hsolve Hord Hordm alpha beta eps k c0 H0) as (c' & X & Y & _); eauto).
  destruct H1 as (c' & E1 & K1). rewrite E1 in E. cbn [bind] in E. assert (S1 : col_solved k c').
  { apply (steps_solved alpha beta eps k c0 c' H0); [|exact E1]. left. split; [|exact Ha]. cbn. intros K. assert (In k (insert k (delta R s))) by (apply in_insert; now left). rewrite K in H. destruct H. }
  destruct c' as [[[J1 cand] dl] L]. unfold upd_res in E. destruct (Nat.ltb_spec k (length (patterns R s))); [|lia]. cbn [bind] in E. injection E as <-. destruct S1 as (P & HP & HS).
  exists J1, P, L. cbn [patterns entries]. split; [now apply nth_error_upd_same|]. split; [exact HP|]. split; [exact HS|]. split; [apply K1|reflexivity].
Qed.
Lemma combine_find (L : list R) : forall off i k, find (fun t : nat * nat * R => ((fst (fst t) =? i) && (snd (fst t) =? k))%nat) (map (fun p => (fst p, k, snd p)) (filter (fun p => nzR (snd p)) (combine (seq off (length L)) L)))
  = if ((off <=? i) && (i <? off + length L))%nat then if nzR (nth (i - off) L 0) then Some (i, k, nth (i - off) L 0) else None else None.
Proof.
  induction L as [|v L IH]; intros off i k; cbn [length seq combine filter map find].
  - destruct (Nat.leb_spec off i), (Nat.ltb_spec i (off + 0)); cbn; auto; lia.
  - cbn [snd]. destruct (Nat.eq_dec off i) as [->|N].
    + rewrite Nat.sub_diag. cbn [nth]. rewrite (proj2 (Nat.leb_le i i)) by lia. rewrite (proj2 (Nat.ltb_lt i (i + S (length L)))) by lia. cbn [andb]. destruct (nzR v) eqn:Ev.
      * cbn [map find fst snd]. now rewrite !Nat.eqb_refl.
      * rewrite IH. destruct (Nat.leb_spec (S i) i); [lia|reflexivity].
    + assert (R : find (fun t : nat * nat * R => ((fst (fst t) =? i) && (snd (fst t) =? k))%nat) (map (fun p => (fst p, k, snd p)) (if nzR v then (off, v) :: filter (fun p => nzR (snd p)) (combine (seq (S off) (length L)) L) else filter (fun p => nzR (snd p)) (combine (seq (S off) (length L)) L))) =
         find (fun t : nat * nat * R => ((fst (fst t) =? i) && (snd (fst t) =? k))%nat) (map (fun p => (fst p, k, snd p)) (filter (fun p => nzR (snd p)) (combine (seq (S off) (length L)) L)))).
      { destruct (nzR v); [|reflexivity]. cbn [map find fst snd]. destruct (Nat.eqb_spec off i); [contradiction|reflexivity]. }
      rewrite R, IH. clear R. destruct (Nat.leb_spec (S off) i), (Nat.leb_spec off i); try lia; cbn [andb]; auto.
      replace (S off + length L)%nat with (off + S (length L))%nat by lia. destruct (i <? off + S (length L))%nat; [|reflexivity]. replace (i - off)%nat with (S (i - S off)) by lia. reflexivity.
Qed.
(* C120 *)
Theorem C120_columns alpha beta eps s : (0 < alpha)%nat -> state_ok n s -> exists s', compute alpha beta eps s = Ok s' /\
  forall k, (k < n)%nat -> exists J P, nth_error (patterns R s') k = Some J /\ (forall j, In j P -> In j J) /\ solved k P (fun i => coeff s' i k).
Proof.
  intros Ha Hs. unfold FspaiModel.compute.
  set (Q := fun (m : nat) (s' : state R) => state_ok n s' /\ (forall i k v, In (i, k, v) (entries R s') -> (k < m)%nat) /\
    forall k, (k < m)%nat -> exists J P, nth_error (patterns R s') k = Some J /\ (forall j, In j P -> In j J) /\ solved k P (fun i => coeff s' i k)).
  assert (G : forall l m s', l = seq m (n - m) -> (m <= n)%nat -> Q m s' -> exists s'', foldM (column alpha beta eps) l s' = Ok s'' /\ Q n s'').
  { induction l as [|x l IH]; intros m s' El Hm HQ.
    - exists s'. split; [reflexivity|]. assert (m = n) by (apply (f_equal (@length nat)) in El; rewrite seq_length in El; cbn in El; lia). now subst.
    - destruct (n - m)%nat as [|d] eqn:Ed; [discriminate|]. cbn [seq] in El. injection El as -> El. assert (Hmn : (m < n)%nat) by lia. destruct HQ as (H1 & H2 & H3).
      destruct (column_state 0 1 Rplus Rminus Rmult Rdiv Ropp sqrt gtR geR nzR INR n A pattern solve order order_map) with (alpha := alpha) (beta := beta) (eps := eps) (s := s') (k := m) as (s1 & J0 & J1 & new & E & K1 & _ & _ & K4 & _ & _ & K7 & K8); auto.
      { unfold nzR. destruct (Req_EM_T 0 0); [reflexivity|contradiction]. }
      destruct (column_solved alpha beta eps s' m s1 Ha H1 Hmn E) as (J' & P & L & M1 & M2 & M3 & M4 & M5).
      cbn [foldM]. rewrite E. cbn [bind]. apply (IH (S m)); [rewrite El; f_equal; lia|lia|]. split; [exact K1|]. split.
      + intros i k v Hin. rewrite K7 in Hin. apply in_app_or in Hin as [Hin|Hin]; [apply H2 in Hin; lia|]. apply K8 in Hin as [-> _]. lia.
      + assert (C : forall i k, coeff s1 i k = if (k =? m)%nat then (if (i <? n)%nat then as_fun L i else 0) else coeff s' i k).
        { intros i k. unfold FspaiModel.coeff. rewrite M5, find_app'. destruct (Nat.eqb_spec k m) as [->|N].
          - rewrite (find_none_all _ (entries R s')).
            + rewrite <- M4. rewrite (combine_find L 0 i m). cbn [Nat.leb andb Nat.add]. rewrite Nat.sub_0_r. destruct (i <? length L)%nat; [|reflexivity]. unfold as_fun, nzR. destruct (Req_EM_T (nth i L 0) 0); [congruence|reflexivity].
            + intros [[a b] v] Hin. cbn. apply H2 in Hin. destruct (Nat.eqb_spec b m); [lia|]. apply andb_false_r.
          - destruct (find _ (entries R s')) as [t|] eqn:Ef; [reflexivity|]. rewrite find_none_all; [reflexivity|]. intros t Hin. apply in_map_iff in Hin as ([a v] & <- & _). cbn. destruct (Nat.eqb_spec m k); [congruence|]. apply andb_false_r. }
        assert (Ext : forall k P f g, (forall i, (i < n)%nat -> f i = g i) -> (k < n)%nat -> solved k P f -> solved k P g).
        { clear. intros k P f g Hfg Hk (S1 & S2 & S3 & S4 & S5). split; [exact S1|]. split; [|split; [|split]].
          - intros i Hi Ni. rewrite <- Hfg by exact Hi. now apply S2.
          - intros i Hi Ni. rewrite <- (S3 i Hi Ni). apply rsum_ext. intros j Hj. now rewrite Hfg.
          - rewrite <- S4. apply rsum_ext. intros i Hi. apply rsum_ext. intros j Hj. now rewrite !Hfg.
          - rewrite <- Hfg by exact Hk. exact S5. }
        intros k Hk. destruct (Nat.eq_dec k m) as [->|N].
        * exists J', P. split; [exact M1|]. split; [exact M2|]. apply (Ext m P (as_fun L)); auto. intros i Hi. rewrite C, Nat.eqb_refl. destruct (Nat.ltb_spec i n); [reflexivity|lia].
        * destruct (H3 k) as (J2 & P2 & N1 & N2 & N3); [lia|]. exists J2, P2. rewrite K4 by exact N. split; [exact N1|]. split; [exact N2|]. apply (Ext k P2 (fun i => coeff s' i k)); [|lia|exact N3].
          intros i _. rewrite C. destruct (Nat.eqb_spec k m); [contradiction|reflexivity]. }
  destruct (G (seq 0 n) 0%nat (State R (patterns R s) (delta R s) [])) as (s' & E & (_ & _ & H3)); [f_equal; lia|lia| |].
  - split; [exact Hs|]. split; [now intros i k v []|]. intros k Hk. lia.
  - exists s'. split; [exact E|exact H3].
Qed.
End Values.

(* ------------------------------------------------------------------ C121: which candidate enters the pattern *)
Lemma lsum_perm a b : Permutation a b -> lsum a = lsum b.
Proof. induction 1; cbn; lra. Qed.
(* improvement of the K-condition number brought by index j: (A(j, J) L(J))^2 / A(j, j) *)
Definition improvement (A : nat -> nat -> R) (J : list nat) (L : list R) (j : nat) : R :=
  (lsum (map (fun i => A j i * nth i L 0) J) * lsum (map (fun i => A j i * nth i L 0) J)) / A j j.
Definition tauf (A : nat -> nat -> R) (p : nat * R) : R := snd p * snd p / A (fst p) (fst p).
Section Choice.
Context (n : nat) (A : nat -> nat -> R) (pattern : nat -> list nat) (solve : list (list R) -> list R -> list R) (order : list nat -> list nat) (order_map : list (nat * R) -> list (nat * R)).
Hypothesis Hpat : forall i, (i < n)%nat -> pattern i <> [] /\ forall j, In j (pattern i) -> (j < n)%nat.
Hypothesis Hsolve : forall M b, length (solve M b) = length b.
Hypothesis Hord : forall l, Permutation (order l) l.
Hypothesis Hordm : forall l, Permutation (order_map l) l.
Local Notation step := (step R 0 1 Rplus Rminus Rmult Rdiv Ropp sqrt gtR geR INR A pattern solve order order_map).
Local Notation steps := (steps R 0 1 Rplus Rminus Rmult Rdiv Ropp sqrt gtR geR INR A pattern solve order order_map).
Local Notation column := (column R 0 1 Rplus Rminus Rmult Rdiv Ropp sqrt gtR geR nzR INR n A pattern solve order order_map).
Local Notation compute := (compute R 0 1 Rplus Rminus Rmult Rdiv Ropp sqrt gtR geR nzR INR n A pattern solve order order_map).
Local Notation eligible := (eligible R 0 Rplus Rmult A order).
Local Notation taus := (taus R 0 Rplus Rmult Rdiv gtR A order_map).

Lemma eligible_values k cand J L h : eligible k cand J L = Ok h -> forall j v, In (j, v) h -> v = lsum (map (fun i => A j i * nth i L 0) J).
Proof.
  unfold FspaiModel.eligible. intros H j v Hin. apply mapM_ok in H. revert H Hin. generalize (filter (fun j => negb (mem j J)) (order cand)) as l. intros l H Hin.
  induction H as [|j' p l h Hj HF IH]; [destruct Hin|]. destruct Hin as [->|Hin]; [|auto]. apply bind_ok in Hj as (w & Hw & E). injection E as -> ->.
  rewrite <- (lsum_perm (map (fun i => A j i * nth i L 0) (order J))) by apply Permutation_map, Hord.
  assert (G : forall (l : list nat) (s w : R), foldM (fun v i => x <- nth_res L i ;; Ok (v + A j i * x)) l s = Ok w -> w = s + lsum (map (fun i => A j i * nth i L 0) l)).
  { clear. induction l as [|i l IH]; intros s w H; cbn in H; [injection H as <-; cbn; lra|]. destruct (nth_res L i) as [x| | |] eqn:E; try discriminate. cbn [bind] in H.
    apply IH in H. rewrite H. cbn [map lsum]. apply nth_res_ok in E. rewrite (nth_error_nth _ _ 0 E). lra. }
  apply G in Hw. lra.
Qed.
Lemma taus_values l : forall h0 s0 m0, fold_left (tau_step R Rplus Rmult Rdiv gtR A) l (h0, s0, m0) =
  (h0 ++ map (fun p => (fst p, tauf A p)) l, s0 + lsum (map (tauf A) l), fold_left (fun m p => if gtR (tauf A p) m then tauf A p else m) l m0).
Proof.
  induction l as [|p l IH]; intros h0 s0 m0; cbn [fold_left map lsum]; [rewrite app_nil_r, Rplus_0_r; reflexivity|]. unfold tau_step at 2. cbn [fst snd]. fold (tauf A p). rewrite IH. rewrite <- app_assoc. cbn [app]. rewrite Rplus_assoc. reflexivity.
Qed.
Lemma find_max_spec h m : find_max R geR h = Some m -> In m h /\ forall q, In q h -> snd q <= snd m.
Proof.
  destruct h as [|p h]; [discriminate|]. unfold find_max. intros H. assert (E : m = fold_left (fun m q => if geR (snd q) (snd m) then q else m) (p :: h) p) by congruence. clear H.
  assert (G : forall (l : list (nat * R)) m0, let r := fold_left (fun m q => if geR (snd q) (snd m) then q else m) l m0 in (r = m0 \/ In r l) /\ snd m0 <= snd r /\ forall q, In q l -> snd q <= snd r).
  { clear. induction l as [|q l IH]; intros m0; cbn [fold_left]; [cbn; repeat split; [now left|lra|now intros q []]|]. cbv zeta. destruct (geR (snd q) (snd m0)) eqn:Hle; unfold geR in Hle; destruct (Rle_dec (snd m0) (snd q)) as [Hle'|Hle']; try discriminate; clear Hle.
    - destruct (IH q) as (H1 & H2 & H3). split; [right; destruct H1 as [->|H1]; [now left|now right]|]. split; [lra|]. intros x [<-|Hx]; auto.
    - destruct (IH m0) as (H1 & H2 & H3). split; [destruct H1 as [H1|H1]; [now left|now right; right]|]. split; [exact H2|]. intros x [<-|Hx]; [lra|auto]. }
  destruct (G (p :: h) p) as (H1 & H2 & H3). cbv zeta in H1, H2, H3. rewrite <- E in H1, H2, H3. split; [|exact H3]. destruct H1 as [->|H1]; [now left|exact H1].
Qed.
Lemma lsum_below l b : (forall x, In x l -> x <= b) -> lsum l <= INR (length l) * b.
Proof.
  induction l as [|x l IH]; intros H; [cbn; lra|]. change (length (x :: l)) with (S (length l)). rewrite S_INR. cbn [lsum]. assert (x <= b) by (apply H; now left). assert (lsum l <= INR (length l) * b) by (apply IH; intros; apply H; now right). lra.
Qed.
Lemma lsum_below_strict l b x : (forall x, In x l -> x <= b) -> In x l -> x < b -> lsum l < INR (length l) * b.
Proof.
  intros H Hx Hb. apply in_split in Hx as (l1 & l2 & ->). rewrite lsum_app, app_length, plus_INR. change (length (x :: l2)) with (S (length l2)). rewrite S_INR. cbn [lsum].
  assert (lsum l1 <= INR (length l1) * b) by (apply lsum_below; intros; apply H; apply in_or_app; now left). assert (lsum l2 <= INR (length l2) * b) by (apply lsum_below; intros; apply H; apply in_or_app; right; now right). lra.
Qed.
(* when a candidate improves by more than epsilon, and not all of them by the same amount, a best candidate enters the pattern *)
Theorem C121_best_enters_partial beta eps k J cand dl L J1 cand1 dl1 L1 j1 j2 : column_ok 0 n k (J, cand, dl, L) -> dl <> [] -> (1 <= beta)%nat ->
  step beta eps k (J, cand, dl, L) = Ok (J1, cand1, dl1, L1) ->
  In j1 cand1 -> ~ In j1 J -> In j2 cand1 -> ~ In j2 J -> 0 <= improvement A J L1 j1 -> eps < improvement A J L1 j1 -> improvement A J L1 j2 < improvement A J L1 j1 ->
  exists j, In j J1 /\ In j cand1 /\ ~ In j J /\ forall i, In i cand1 -> ~ In i J -> improvement A J L1 i <= improvement A J L1 j.
Proof.
  intros (HJ & Hc & Hd & HL) Hdl Hb E Hj1 Nj1 Hj2 Nj2 Hz He Hlt. unfold FspaiModel.step in E. destruct dl as [|d dl]; [contradiction|]. clear Hdl.
  destruct (FspaiModel.approximate R 0 1 Rplus Rminus Rmult Rdiv Ropp sqrt A solve order L k J) as [L2| | |]; try discriminate. cbn [bind] in E.
  destruct (candidates pattern order k (d :: dl) cand) as [c1| | |]; try discriminate. cbn [bind] in E. destruct (eligible k c1 J L2) as [h| | |] eqn:Eh; try discriminate. cbn [bind] in E.
  unfold FspaiModel.taus in E. rewrite taus_values in E. cbn [app] in E. rewrite Rplus_0_l in E.
  assert (Pl : Permutation (order_map h) h) by apply Hordm. set (tau := tauf A) in *. revert E Pl. generalize (order_map h) as l. intros l E Pl. set (mx := fold_left (fun m p => if gtR (tau p) m then tau p else m) l 0) in E.
  assert (LC : L1 = L2 /\ cand1 = c1) by (destruct (gtR mx eps); [destruct (pick R gtR geR beta (lsum (map tau l) / INR (length h)) (map (fun p => (fst p, tau p)) l) J []) as [Ja da]|]; injection E; intros; subst; auto). destruct LC as [-> ->].
  assert (Keys : forall j, In j c1 -> ~ In j J -> exists v, In (j, v) l).
  { intros j Hj Nj. pose proof (eligible_keys 0 Rplus Rmult A order k c1 J L2 h Eh) as K. assert (In j (map fst h)).
    { rewrite K. apply filter_In. split; [apply (Permutation_in _ (Permutation_sym (Hord c1))); exact Hj|]. destruct (mem j J) eqn:Em; [apply mem_spec in Em; contradiction|reflexivity]. }
    apply in_map_iff in H as ([j' v] & <- & Hin). exists v. apply (Permutation_in _ (Permutation_sym Pl)). exact Hin. }
  assert (Vals : forall p, In p l -> In (fst p) c1 /\ ~ In (fst p) J /\ tau p = improvement A J L2 (fst p)).
  { intros [j v] Hp. apply (Permutation_in _ Pl) in Hp. cbn [fst]. assert (In j (map fst h)) by (change j with (fst (j, v)); now apply in_map). rewrite (eligible_keys 0 Rplus Rmult A order k c1 J L2 h Eh) in H.
    apply filter_In in H as [H1 H2]. split; [apply (Permutation_in _ (Hord c1)); exact H1|]. split; [intros K; apply mem_spec in K; rewrite K in H2; discriminate|].
    unfold tau, tauf, improvement. cbn [fst snd]. now rewrite (eligible_values k c1 J L2 h Eh j v Hp). }
  assert (M : forall p, In p l -> tau p <= mx).
  { unfold mx. clear. assert (G : forall l m0, m0 <= fold_left (fun m p => if gtR (tau p) m then tau p else m) l m0 /\ forall p, In p l -> tau p <= fold_left (fun m p => if gtR (tau p) m then tau p else m) l m0).
    { induction l0 as [|q l0 IH]; intros m0; cbn [fold_left]; [split; [lra|now intros p []]|]. assert (Hq : m0 <= (if gtR (tau q) m0 then tau q else m0) /\ tau q <= (if gtR (tau q) m0 then tau q else m0)) by (unfold gtR; destruct (Rlt_dec m0 (tau q)); lra). destruct (IH (if gtR (tau q) m0 then tau q else m0)) as [H1 H2]. split; [lra|]. intros p [<-|Hp]; auto; lra. }
    apply G. }
  destruct (Keys j1 Hj1 Nj1) as [v1 Hv1]. destruct (Keys j2 Hj2 Nj2) as [v2 Hv2]. pose proof (Vals _ Hv1) as (_ & _ & T1). pose proof (Vals _ Hv2) as (_ & _ & T2). cbn [fst] in T1, T2.
  assert (G : gtR mx eps = true) by (unfold gtR; destruct (Rlt_dec eps mx); [reflexivity|exfalso; specialize (M _ Hv1); lra]). rewrite G in E.
  destruct beta as [|b]; [lia|]. cbn [FspaiModel.pick] in E.
  destruct (find_max R geR (map (fun p => (fst p, tau p)) l)) as [m|] eqn:Em; [|destruct l; [destruct Hv1|discriminate]].
  apply find_max_spec in Em as [Hm Hmax]. apply in_map_iff in Hm as (p & Ep & Hp). subst m. cbn [fst snd] in *.
  assert (Hbest : forall q, In q l -> tau q <= tau p) by (intros q Hq; apply (Hmax (fst q, tau q)); apply in_map_iff; eauto).
  assert (Hmean : gtR (tau p) (lsum (map tau l) / INR (length h)) = true).
  { unfold gtR. destruct (Rlt_dec (lsum (map tau l) / INR (length h)) (tau p)) as [|K]; [reflexivity|]. exfalso. apply K. assert (Ll : length h = length (map tau l)) by (rewrite map_length; symmetry; now apply Permutation_length).
    assert (0 < length (map tau l))%nat by (rewrite map_length; destruct l; [destruct Hv1|cbn; lia]). assert (Hpos : 0 < INR (length (map tau l))) by (apply lt_0_INR; exact H).
    rewrite Ll. apply (Rmult_lt_reg_r (INR (length (map tau l)))); [exact Hpos|]. unfold Rdiv. rewrite Rmult_assoc, Rinv_l, Rmult_1_r by lra. rewrite Rmult_comm.
    apply (lsum_below_strict (map tau l) (tau p) (tau (j2, v2))); [|now apply in_map|].
    - intros x Hx. apply in_map_iff in Hx as (q & <- & Hq). now apply Hbest.
    - specialize (Hbest _ Hv1). lra. }
  rewrite Hmean in E. destruct (pick R gtR geR b _ _ (insert (fst p) J) (insert (fst p) [])) as [Ja da] eqn:Epk. injection E as <- <-.
  apply (pick_ok 0 Rplus Rminus Rmult Rdiv Ropp sqrt gtR geR nzR INR n A pattern order order_map Hpat Hord Hordm) in Epk as (P1 & _).
  destruct (Vals p Hp) as (Q1 & Q2 & Q3). exists (fst p). split; [apply P1, in_insert; now left|]. split; [exact Q1|]. split; [exact Q2|]. intros i Hi Ni. destruct (Keys i Hi Ni) as [v Hv].
  destruct (Vals _ Hv) as (_ & _ & Ti). cbn [fst] in Ti. rewrite <- Ti, <- Q3. now apply Hbest.
Qed.
(* a matrix whose rows have at most one stored entry right of the diagonal (for instance a tridiagonal one): a single candidate is never above the mean, and
   the pattern stays that of the identity whatever alpha, beta and epsilon *)
Hypothesis Htri : forall k i j, (k < n)%nat -> In i (pattern k) -> In j (pattern k) -> (k < i)%nat -> (k < j)%nat -> i = j.
Lemma single_step beta eps k c cand : (k < n)%nat -> (forall j, In j cand -> In j (pattern k) /\ (k < j)%nat) -> NoDup cand -> forall dl L, (dl = [] \/ dl = [k]) -> column_ok 0 n k ([k], cand, dl, L) -> step beta eps k ([k], cand, dl, L) = Ok c ->
  exists cand' L', c = ([k], cand', [], L') /\ (forall j, In j cand' -> In j (pattern k) /\ (k < j)%nat) /\ NoDup cand'.
Proof.
  intros Hk Hc Hn dl L Hdl Hok E. destruct Hdl as [->| ->]; [cbn in E; injection E as <-; eauto|]. unfold FspaiModel.step in E.
  destruct (FspaiModel.approximate R 0 1 Rplus Rminus Rmult Rdiv Ropp sqrt A solve order L k [k]) as [L1| | |]; try discriminate. cbn [bind] in E.
  unfold candidates in E. assert (O1 : order [k] = [k]) by (apply Permutation_length_1_inv, Permutation_sym, Hord). rewrite O1 in E. cbn [foldM] in E.
  destruct (pattern k) as [|q r] eqn:Ek; [discriminate|]. cbn [bind] in E. rewrite <- Ek in *. set (c1 := fold_left (fun c j => if (k <? j)%nat then insert j c else c) (order (pattern k)) cand) in E.
  assert (Hc1 : (forall j, In j c1 -> In j (pattern k) /\ (k < j)%nat) /\ NoDup c1).
  { unfold c1. apply (fold_left_inv (fun c => (forall j, In j c -> In j (pattern k) /\ (k < j)%nat) /\ NoDup c)); [|now split]. intros s j Hj [H1 H2]. destruct (Nat.ltb_spec k j); [|now split].
    split; [|now apply insert_nodup]. intros i Hi. apply in_insert in Hi as [->|Hi]; [|now apply H1]. split; [|assumption]. apply (Permutation_in _ (Hord (pattern k))). exact Hj. }
  clearbody c1. destruct (eligible k c1 [k] L1) as [h| | |] eqn:Eh; try discriminate. cbn [bind] in E. unfold FspaiModel.taus in E. rewrite taus_values in E. cbn [app] in E. rewrite Rplus_0_l in E.
  assert (Hh : exists l, order_map h = l /\ length h = length l /\ (l = [] \/ exists p, l = [p])).
  { exists (order_map h). split; [reflexivity|]. split; [symmetry; apply Permutation_length, Hordm|]. assert (Lle : (length (order_map h) <= 1)%nat).
    { rewrite (Permutation_length (Hordm h)), <- (map_length fst), (eligible_keys 0 Rplus Rmult A order k c1 [k] L1 h Eh). destruct Hc1 as [H1 H2].
      assert (N : NoDup (filter (fun j => negb (mem j [k])) (order c1))) by (apply NoDup_filter; eapply Permutation_NoDup; [apply Permutation_sym, Hord|exact H2]).
      destruct (filter (fun j => negb (mem j [k])) (order c1)) as [|a [|b u]] eqn:Ef; cbn; try lia. exfalso.
      assert (In1 : forall x, In x (a :: b :: u) -> In x c1) by (intros x Hx; rewrite <- Ef in Hx; apply filter_In in Hx as [Hx _]; apply (Permutation_in _ (Hord c1)); exact Hx).
      destruct (H1 a (In1 a (or_introl eq_refl))) as [A1 A2]. destruct (H1 b (In1 b (or_intror (or_introl eq_refl)))) as [B1 B2]. assert (a = b) by (eapply (Htri k); eauto). subst. inversion N as [|? ? Nx _]. apply Nx. now left. }
    destruct (order_map h) as [|p [|p' u]]; cbn in Lle; [now left|right; eauto|lia]. }
  destruct Hh as (l & El & Ll & Hl). rewrite El, Ll in E.
  assert (PK : forall p, pick R gtR geR beta (lsum (map (tauf A) [p]) / INR (length [p])) (map (fun p => (fst p, tauf A p)) [p]) [k] [] = ([k], [])).
  { intros p. destruct beta as [|b]; [reflexivity|]. cbn [map FspaiModel.pick FspaiModel.find_max fold_left]. unfold geR at 1. cbn [fst snd]. destruct (Rle_dec _ _); cbn [fst snd length lsum].
    all: replace (gtR _ _) with false by (unfold gtR; destruct (Rlt_dec _ _) as [K|]; [exfalso; cbn [INR] in K; lra|reflexivity]).
    all: destruct (geR (tauf A p) (tauf A p)); cbn [filter fst]; rewrite Nat.eqb_refl; cbn [negb]; destruct b; reflexivity. }
  destruct Hl as [->|[p ->]].
  - cbn [map lsum fold_left length] in E. destruct (gtR 0 eps); [|injection E as <-; eauto]. destruct beta; cbn in E; injection E as <-; exists c1, L1; split; auto.
  - destruct (gtR _ eps); [|injection E as <-; eauto]. rewrite PK in E. injection E as <-. eauto.
Qed.
Lemma single_steps alpha beta eps k : (k < n)%nat -> forall c cand dl L, (forall j, In j cand -> In j (pattern k) /\ (k < j)%nat) -> NoDup cand -> (dl = [] \/ dl = [k]) -> column_ok 0 n k ([k], cand, dl, L) -> steps alpha beta eps k ([k], cand, dl, L) = Ok c ->
  pat_of c = [k] /\ (snd (fst c) = [] \/ alpha = 0%nat).
Proof.
  intros Hk. induction alpha as [|a IH]; intros c cand dl L Hc Hn Hdl Hok E; [cbn in E; injection E as <-; cbn; auto|]. cbn [FspaiModel.steps] in E.
  destruct (C91_step 0 1 Rplus Rminus Rmult Rdiv Ropp sqrt gtR geR nzR INR n A pattern solve order order_map Hpat Hsolve Hord Hordm beta eps k _ Hok) as (c1 & E1 & H1 & _). rewrite E1 in E. cbn [bind] in E.
  destruct (single_step beta eps k c1 cand Hk Hc Hn dl L Hdl Hok E1) as (cand' & L' & -> & Hc' & Hn'). destruct (IH c cand' [] L' Hc' Hn' (or_introl eq_refl) H1 E) as [P1 P2]. split; [exact P1|]. left.
  destruct P2 as [P2| ->]; [exact P2|]. cbn in E. now injection E as <-.
Qed.
Theorem C121_single_candidate_refuted alpha beta eps : (1 <= alpha)%nat -> exists s, compute alpha beta eps (construct R n) = Ok s /\ patterns R s = map (fun i => [i]) (seq 0 n).
Proof.
  intros Ha. unfold FspaiModel.compute, construct. cbn [patterns delta].
  assert (G : forall l s, (forall k, In k l -> (k < n)%nat) -> state_ok n s -> delta R s = [] -> patterns R s = map (fun i => [i]) (seq 0 n) -> exists s', foldM (column alpha beta eps) l s = Ok s' /\ patterns R s' = map (fun i => [i]) (seq 0 n)).
  { induction l as [|k l IH]; intros s Hl Hs Hd Hp; [exists s; now split|]. assert (Hk : (k < n)%nat) by (apply Hl; now left).
    destruct (column_state 0 1 Rplus Rminus Rmult Rdiv Ropp sqrt gtR geR nzR INR n A pattern solve order order_map) with (alpha := alpha) (beta := beta) (eps := eps) (s := s) (k := k) as (s1 & J & J' & new & E & K1 & K2 & K3 & K4 & _); auto.
    { unfold nzR. destruct (Req_EM_T 0 0); [reflexivity|contradiction]. }
    cbn [foldM]. rewrite E. cbn [bind].
    assert (EJ : J = [k]) by (rewrite Hp, nth_error_map, nth_error_seq in K2; destruct (k <? n)%nat; [|discriminate]; cbn in K2; congruence). subst J.
    unfold FspaiModel.column in E. rewrite (proj2 (nth_res_ok _ _ _) K2) in E. cbn [bind] in E. rewrite Hd in E. change (insert k []) with [k] in E.
    assert (H0 : column_ok 0 n k ([k], [], [k], repeat 0 n)).
    { cbn. destruct Hs as (_ & _ & HP). split; [now apply HP|]. split; [now intros j []|]. split; [intros j [<-|[]]; exact Hk|]. split; [apply repeat_length|]. intros i Hi _. now apply nth_error_repeat. }
    destruct (steps alpha beta eps k ([k], [], [k], repeat 0 n)) as [c| | |] eqn:Es; try discriminate. cbn [bind] in E.
    destruct (single_steps alpha beta eps k Hk c [] [k] (repeat 0 n)) as [P1 P2]; auto; [now intros j []|constructor|]. destruct P2 as [P2|P2]; [|lia].
    destruct c as [[[J1 cand1] dl1] L1]. cbn in P1, P2. subst J1 dl1. unfold upd_res in E. destruct (k <? length (patterns R s))%nat; [|discriminate]. cbn [bind] in E. injection E as <-.
    apply IH; [intros; apply Hl; now right|exact K1|reflexivity|]. cbn [patterns]. rewrite <- Hp. apply nth_error_ext. intros i. destruct (Nat.eq_dec i k) as [->|N]; [|now rewrite nth_error_upd_other by auto].
    rewrite K2. apply nth_error_upd_same. apply nth_error_Some. congruence. }
  apply G; cbn; auto.
  - intros k Hk. apply in_seq in Hk. lia.
  - exact (construct_ok 0 Rplus Rminus Rmult Rdiv Ropp sqrt gtR geR nzR INR n A pattern Hpat).
Qed.
End Choice.

(* ------------------------------------------------------------------ C122: dependence on the history *)
From Coq Require Import QArith.
Local Close Scope Q_scope.
Local Open Scope R_scope.
(* rational arithmetic, exact on the runs below: every square root taken is of the square of a rational *)
Definition qsqrt (q : Q) : Q := let r := Qred q in Qmake (Z.sqrt (Qnum r)) (Z.to_pos (Z.sqrt (Z.pos (Qden r)))).
Definition qgt (a b : Q) : bool := negb (Qle_bool a b).
Definition qge (a b : Q) : bool := Qle_bool b a.
Definition qnz (a : Q) : bool := negb (Qeq_bool a 0).
Definition qof (n : nat) : Q := inject_Z (Z.of_nat n).
Definition qsolve (M : list (list Q)) (b : list Q) : list Q := match M, b with [[a]], [c] => [Qdiv c a] | _, _ => map (fun _ => 0%Q) b end.
Local Notation qcompute n A pat := (FspaiModel.compute Q 0%Q 1%Q Qplus Qminus Qmult Qdiv Qopp qsqrt qgt qge qnz qof n A pat qsolve (fun l => l) (fun l => l)).
Definition of_rows (rows : list (list Q)) (i j : nat) : Q := nth j (nth i rows []) 0%Q.
Definition stored (rows : list (list Q)) (i : nat) : list nat := filter (fun j => qnz (of_rows rows i j)) (seq 0 (length rows)).
Definition ex1 : list (list Q) := [[25 # 4; 3 # 1; 1 # 1]; [3 # 1; 4 # 1; 0 # 1]; [1 # 1; 0 # 1; 4 # 1]]%Q.
(* calling compute again with the same parameters on the same matrix changes the result *)
Theorem C122_again_refuted : exists s1 s2, qcompute 3 (of_rows ex1) (stored ex1) 1 1 0%Q (construct Q 3) = Ok s1 /\ qcompute 3 (of_rows ex1) (stored ex1) 1 1 0%Q s1 = Ok s2 /\
  Qeq (coeff Q 0%Q s1 1 0) 0 /\ Qeq (coeff Q 0%Q s2 1 0) (-3 # 8).
Proof. eexists. eexists. split; [vm_compute; reflexivity|]. split; [vm_compute; reflexivity|]. split; vm_compute; reflexivity. Qed.
(* two matrices that differ in row and column 0 only, so that column 0 is the only one that should change: the pattern of column 1 changes,
   because the indices left over from column 0 are used for column 1 *)
Definition ex2 : list (list Q) := [[25 # 4; 0 # 1; 1 # 1; 3 # 1]; [0 # 1; 4 # 1; 1 # 1; 0 # 1]; [1 # 1; 1 # 1; 4 # 1; 0 # 1]; [3 # 1; 0 # 1; 0 # 1; 4 # 1]]%Q.
Definition ex3 : list (list Q) := [[25 # 4; 0 # 1; 0 # 1; 0 # 1]; [0 # 1; 4 # 1; 1 # 1; 0 # 1]; [0 # 1; 1 # 1; 4 # 1; 0 # 1]; [0 # 1; 0 # 1; 0 # 1; 4 # 1]]%Q.
Theorem C122_other_columns_refuted : (forall i j, (1 <= i)%nat -> (1 <= j)%nat -> of_rows ex2 i j = of_rows ex3 i j) /\
  exists s2 s3, qcompute 4 (of_rows ex2) (stored ex2) 1 1 0%Q (construct Q 4) = Ok s2 /\ qcompute 4 (of_rows ex3) (stored ex3) 1 1 0%Q (construct Q 4) = Ok s3 /\
  nth_error (patterns Q s2) 1 = Some [1; 2]%nat /\ nth_error (patterns Q s3) 1 = Some [1]%nat.
Proof.
  split.
  - intros [|i] [|j] Hi Hj; try lia. unfold of_rows, ex2, ex3. destruct i as [|[|[|i]]]; cbn [nth]; try reflexivity; destruct j as [|[|[|j]]]; try reflexivity; destruct i; reflexivity.
  - eexists. eexists. split; [vm_compute; reflexivity|]. split; [vm_compute; reflexivity|]. split; vm_compute; reflexivity.
Qed.

(* the values of a column are determined by the matrix and the pattern they live on *)
Theorem C122_values_partial n A k P l l' : (forall x, (exists i, (i < n)%nat /\ x i <> 0) -> 0 < rsum n (fun i => rsum n (fun j => x i * A i j * x j))) -> (k < n)%nat ->
  solved n A k P l -> solved n A k P l' -> forall i, (i < n)%nat -> l i = l' i.
Proof.
  intros Hspd Hk (Hkp & Z & S & U & Pl) (_ & Z' & S' & U' & Pl').
  set (d := fun i => l i / l k - l' i / l' k).
  assert (Dq : rsum n (fun i => rsum n (fun j => d i * A i j * d j)) = 0).
  { apply rsum_zero. intros i Hi. rewrite (rsum_ext n _ (fun j => d i * (A i j * d j))) by (intros; ring). rewrite rsum_scal.
    destruct (in_dec Nat.eq_dec i P) as [Hp|Hp]; [destruct (Nat.eq_dec i k) as [->|Nk]|].
    - assert (d k = 0) as -> by (unfold d; field; lra). ring.
    - assert (rsum n (fun j => A i j * d j) = 0) as ->; [|ring]. unfold d. rewrite (rsum_ext n _ (fun j => (A i j * l j) * / l k - (A i j * l' j) * / l' k)) by (intros; unfold Rdiv; ring).
      rewrite rsum_minus, !rsum_scal_r, S, S' by assumption. ring.
    - assert (d i = 0) as -> by (unfold d; rewrite Z, Z' by assumption; unfold Rdiv; ring). ring. }
  assert (D0 : forall i, (i < n)%nat -> d i = 0). { intros i Hi. destruct (Req_dec (d i) 0) as [|N]; [assumption|]. exfalso. assert (0 < rsum n (fun i => rsum n (fun j => d i * A i j * d j))) by (apply Hspd; eauto). lra. }
  assert (Hc : forall i, (i < n)%nat -> l' i = l' k / l k * l i).
  { intros i Hi. specialize (D0 i Hi). unfold d in D0. assert (l' i = l' k * (l' i / l' k)) as -> by (field; lra). assert (l' i / l' k = l i / l k) as -> by lra. field. lra. }
  set (c := l' k / l k) in Hc. assert (Pc : 0 < c) by (unfold c; apply Rdiv_lt_0_compat; assumption).
  assert (C2 : c * c = 1).
  { rewrite <- U'. rewrite (rsum_ext n _ (fun i => (c * c) * rsum n (fun j => l i * A i j * l j))).
    - rewrite rsum_scal, U. ring.
    - intros i Hi. rewrite <- rsum_scal. apply rsum_ext. intros j Hj. rewrite (Hc i Hi), (Hc j Hj). ring. }
  assert (c = 1) by nra. intros i Hi. rewrite (Hc i Hi), H. ring.
Qed.

(* ------------------------------------------------------------------ concrete cases of the hypotheses *)
Definition A2 (i j : nat) : R := if (i =? j)%nat then 2 else 1.
Definition solve2 (M : list (list R)) (b : list R) : list R :=
  match M, b with
  | [[a]], [c] => [c / a]
  | [[a; b]; [c; d]], [e; f] => [(e * d - b * f) / (a * d - b * c); (a * f - e * c) / (a * d - b * c)]
  | _, _ => map (fun _ => 0) b
  end.
Lemma solve2_length M b : length (solve2 M b) = length b.
Proof.
  unfold solve2. destruct M as [|[|a [|b' [|x u]]] [|[|c [|d [|y v]]] [|z w]]]; try (now rewrite map_length); destruct b as [|e [|f [|g t]]]; try (now rewrite map_length); reflexivity.
Qed.
Lemma small_lists l : NoDup l -> (forall j, In j l -> (j < 2)%nat) -> l = [] \/ l = [0%nat] \/ l = [1%nat] \/ l = [0; 1]%nat \/ l = [1; 0]%nat.
Proof.
  intros N B. destruct l as [|a l]; [now left|]. right. assert (Ha : (a < 2)%nat) by (apply B; now left). destruct l as [|b l]; [assert (a = 0 \/ a = 1)%nat as [->| ->] by lia; auto|].
  assert (Hb : (b < 2)%nat) by (apply B; right; now left). inversion N as [|? ? Na Nb]. subst. inversion Nb as [|? ? Nc _]. subst. assert (a <> b) by (intros ->; apply Na; now left).
  destruct l as [|c l]; [|exfalso; assert (c < 2)%nat by (apply B; right; right; now left); assert (c <> a) by (intros ->; apply Na; right; now left); assert (c <> b) by (intros ->; apply Nc; now left); lia].
  assert (a = 0 \/ a = 1)%nat as [->| ->] by lia; [assert (b = 1)%nat by lia|assert (b = 0)%nat by lia]; subst; auto.
Qed.
Example C120_case : exists s', FspaiModel.compute R 0 1 Rplus Rminus Rmult Rdiv Ropp sqrt gtR geR nzR INR 2 A2 (fun _ => [0; 1]%nat) solve2 (fun l => l) (fun l => l) 3 2 (1 / 10) (construct R 2) = Ok s' /\
  forall k, (k < 2)%nat -> exists J P, nth_error (patterns R s') k = Some J /\ (forall j, In j P -> In j J) /\ solved 2 A2 k P (fun i => coeff R 0 s' i k).
Proof.
  apply (C120_columns 2 A2 (fun _ => [0; 1]%nat) solve2 (fun l => l) (fun l => l)); auto.
  - intros i Hi. split; [discriminate|]. intros j [<-|[<-|[]]]; lia.
  - apply solve2_length.
  - intros i j _ _. unfold A2. now rewrite Nat.eqb_sym.
  - intros x (i & Hi & Hx). cbn [rsum]. unfold A2. cbn [Nat.eqb]. assert (D : 0 < x 0%nat * x 0%nat + x 1%nat * x 1%nat).
    { assert (i = 0 \/ i = 1)%nat as [->| ->] by lia; [pose proof (Rle_0_sqr (x 1%nat)); pose proof (Rsqr_pos_lt _ Hx)|pose proof (Rle_0_sqr (x 0%nat)); pose proof (Rsqr_pos_lt _ Hx)]; unfold Rsqr in *; lra. }
    pose proof (Rle_0_sqr (x 0%nat + x 1%nat)) as S. unfold Rsqr in S. lra.
  - intros l k i N B Hi. destruct (small_lists l N B) as [->|[->|[->|[->| ->]]]]; [destruct Hi| | | |]; cbn [In] in Hi;
      repeat (destruct Hi as [<-|Hi]; [unfold A2; cbn; destruct k as [|[|k]]; cbn; field; lra|]); destruct Hi.
  - apply (construct_ok 0 Rplus Rminus Rmult Rdiv Ropp sqrt gtR geR nzR INR 2 A2 (fun _ => [0; 1]%nat)). intros i Hi. split; [discriminate|]. intros j [<-|[<-|[]]]; lia.
Qed.
(* the same matrix: the only candidate of column 0 improves by 1/4, more than epsilon = 0, and is not taken *)
Example C121_refuted_case : (exists s, FspaiModel.compute R 0 1 Rplus Rminus Rmult Rdiv Ropp sqrt gtR geR nzR INR 2 A2 (fun _ => [0; 1]%nat) solve2 (fun l => l) (fun l => l) 5 5 0 (construct R 2) = Ok s /\ patterns R s = [[0]; [1]]%nat) /\
  improvement A2 [0%nat] [1 / sqrt 2; 0] 1 = 1 / 4.
Proof.
  split.
  - apply (C121_single_candidate_refuted 2 A2 (fun _ => [0; 1]%nat) solve2 (fun l => l) (fun l => l)); auto; try lia.
    + intros i Hi. split; [discriminate|]. intros j [<-|[<-|[]]]; lia.
    + apply solve2_length.
    + intros k i j Hk [<-|[<-|[]]] [<-|[<-|[]]]; lia.
  - unfold improvement, A2. cbn. pose proof (sqrt_lt_R0 2 ltac:(lra)) as P. pose proof (sqrt_sqrt 2 ltac:(lra)) as E.
    replace ((1 * (1 / sqrt 2) + 0) * (1 * (1 / sqrt 2) + 0) / 2) with (1 / (sqrt 2 * sqrt 2) / 2) by (field; lra). rewrite E. lra.
Qed.
(* three unknowns, 0 tied to 1 (strongly) and to 2 (weakly): 1 enters the pattern of column 0 *)
Definition A3 (i j : nat) : R := match i, j with O, O => 4 | 1%nat, 1%nat => 4 | 2%nat, 2%nat => 4 | O, 1%nat | 1%nat, O => 2 | O, 2%nat | 2%nat, O => 1 | _, _ => 0 end.
Example C121_partial_case : exists J1 cand1 dl1 L1, FspaiModel.step R 0 1 Rplus Rminus Rmult Rdiv Ropp sqrt gtR geR INR A3 (fun i => match i with 0 => [0; 1; 2] | 1 => [0; 1] | _ => [0; 2] end%nat) solve2 (fun l => l) (fun l => l)
    1 0 0 ([0%nat], [], [0%nat], [0; 0; 0]) = Ok (J1, cand1, dl1, L1) /\ In 1%nat cand1 /\ ~ In 1%nat [0%nat] /\ In 2%nat cand1 /\ ~ In 2%nat [0%nat] /\
  0 < improvement A3 [0%nat] L1 1 /\ improvement A3 [0%nat] L1 2 < improvement A3 [0%nat] L1 1.
Proof.
  unfold FspaiModel.step. cbn [FspaiModel.approximate FspaiModel.candidates].
  set (g := gtR). cbn - [g sqrt pick]. 
  match goal with |- context [g ?m 0] => destruct (g m 0) end.
  - match goal with |- context [pick R ?a ?b ?c ?d ?e ?f ?h] => destruct (pick R a b c d e f h) as [J1 dl1] end.
    do 4 eexists. split; [reflexivity|]. cbn [In]. split; [auto|]. split; [lia|]. split; [auto|]. split; [lia|].
    unfold improvement, A3. cbn - [sqrt]. replace (sqrt 4) with 2 by (replace 4 with (2 * 2) by lra; rewrite sqrt_square; lra). lra.
  - do 4 eexists. split; [reflexivity|]. cbn [In]. split; [auto|]. split; [lia|]. split; [auto|]. split; [lia|].
    unfold improvement, A3. cbn - [sqrt]. replace (sqrt 4) with 2 by (replace 4 with (2 * 2) by lra; rewrite sqrt_square; lra). lra.
Qed.
Print Assumptions C120_columns.
Print Assumptions C121_best_enters_partial.
Print Assumptions C121_single_candidate_refuted.
Print Assumptions C122_values_partial.
Print Assumptions C122_again_refuted.
Print Assumptions C122_other_columns_refuted.
