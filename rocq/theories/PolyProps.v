(* Polynomial exponent table and polynomial evaluation (C61, C62). *)
From Coq Require Import FinFun.
From Verif Require Import CombProps PolyModel.
Local Open Scope nat_scope.

(* all the exponent vectors of length n and total degree at most b, in the order of the code *)
Fixpoint exps (n b : nat) : list (list nat) :=
  match n with
  | O => [[]]
  | S k => flat_map (fun d => map (fun v => v ++ [d]) (exps k (b - d))) (seq 0 (S b))
  end.
Lemma array_sum_app : forall a b, array_sum (a ++ b) = array_sum a + array_sum b.
Proof. induction a; intros; cbn; auto. rewrite IHa. lia. Qed.
Lemma array_sum_repeat : forall n, array_sum (repeat 0 n) = 0.
Proof. induction n; cbn; auto. Qed.
Lemma exps_spec : forall n b v, In v (exps n b) <-> length v = n /\ array_sum v <= b.
Proof.
  induction n as [|n IH]; intros b v; cbn [exps].
  - cbn. split; [intros [<-|[]]; cbn; lia|]. intros [H _]. left. destruct v; auto; discriminate.
  - rewrite in_flat_map. split.
    + intros (d & Hd & Hv). apply in_seq in Hd. apply in_map_iff in Hv. destruct Hv as (u & <- & Hu). apply IH in Hu.
      rewrite app_length, array_sum_app. cbn. lia.
    + intros [Hl Hs]. destruct (exists_last (l := v)) as (u & d & ->); [intros ->; discriminate|].
      rewrite app_length in Hl. rewrite array_sum_app in Hs. cbn in Hl, Hs. exists d. split; [apply in_seq; lia|].
      apply in_map_iff. exists u. split; auto. apply IH. lia.
Qed.
Lemma NoDup_flat_map : forall A B (f : A -> list B) l, NoDup l -> (forall a, In a l -> NoDup (f a)) ->
  (forall a b x, In a l -> In b l -> In x (f a) -> In x (f b) -> a = b) -> NoDup (flat_map f l).
Proof.
  intros A B f l Hl. induction Hl as [|a l Ha Hl IH]; intros H1 H2; cbn; [constructor|].
  apply NoDup_app_intro.
  - apply H1. now left.
  - apply IH; [intros; apply H1; now right|]. intros b c x Hb Hc. apply H2; now right.
  - intros x Hx Hx'. apply in_flat_map in Hx'. destruct Hx' as (b & Hb & Hbx). apply Ha.
    rewrite (H2 a b x); auto; [now left|now right].
Qed.
Lemma exps_nodup : forall n b, NoDup (exps n b).
Proof.
  induction n as [|n IH]; intros b; cbn [exps]; [constructor; [intros []|constructor]|].
  apply NoDup_flat_map; [apply seq_NoDup| |].
  - intros d _. apply FinFun.Injective_map_NoDup; auto. intros u v H. now apply app_inj_tail in H.
  - intros a c x _ _ Ha Hc. apply in_map_iff in Ha, Hc. destruct Ha as (u & <- & _). destruct Hc as (w & H & _).
    apply app_inj_tail in H. symmetry. tauto.
Qed.
Lemma hockey : forall n b, list_sum (map (fun d => binom (b - d + n) (b - d)) (seq 0 (S b))) = binom (b + S n) b.
Proof.
  intros n b. induction b as [|b IH]; [cbn [seq map Nat.sub]; rewrite !binom_n_0; reflexivity|].
  change (seq 0 (S (S b))) with (0 :: seq 1 (S b)). rewrite <- seq_shift, map_cons, map_map.
  transitivity (binom (S b + n) (S b) + list_sum (map (fun d => binom (b - d + n) (b - d)) (seq 0 (S b)))); [reflexivity|].
  rewrite IH. change (binom (S b + S n) (S b)) with (binom (b + S n) b + binom (b + S n) (S b)).
  replace (S b + n) with (b + S n) by lia. lia.
Qed.
Lemma exps_length : forall n b, length (exps n b) = binom (b + n) b.
Proof.
  induction n as [|n IH]; intros b; cbn [exps].
  - rewrite Nat.add_0_r. clear. induction b as [|b IHb]; auto. cbn [binom length] in *. rewrite <- IHb. rewrite binom_gt; lia.
  - rewrite flat_map_concat_map, <- hockey. induction (seq 0 (S b)) as [|d l IHl]; cbn [map concat]; auto.
    rewrite app_length, map_length, IH, IHl. reflexivity.
Qed.

(* ---- the loop produces exactly this list ---- *)
Section Loop.
Variables (N Rd : nat).
Definition zeros (n : nat) := repeat 0 n.
Lemma upd_mid : forall (p : list nat) x y s, upd (p ++ x :: s) (length p) y = p ++ y :: s.
Proof. induction p; intros; cbn; auto. now rewrite IHp. Qed.
Lemma nth_mid : forall (p : list nat) x s, nth_error (p ++ x :: s) (length p) = Some x.
Proof. intros. rewrite nth_error_app2, Nat.sub_diag by lia. reflexivity. Qed.
Lemma nth_res_mid : forall (p : list nat) x s, nth_res (p ++ x :: s) (length p) = Ok x.
Proof. intros. unfold nth_res. now rewrite nth_mid. Qed.
Lemma upd_res_mid : forall (p : list nat) x y s, upd_res (p ++ x :: s) (length p) y = Ok (p ++ y :: s).
Proof.
  intros. unfold upd_res. rewrite upd_mid. rewrite app_length. cbn [length].
  replace (length p <? length p + S (length s)) with true by (symmetry; apply Nat.ltb_lt; lia). reflexivity.
Qed.
(* one carry *)
Lemma find_carry : forall f n x y s, n + S (S (length s)) = N -> Rd < x + array_sum (y :: s) ->
  poly_find N Rd (S f) n (zeros n ++ x :: y :: s) = poly_find N Rd f (S n) (zeros (S n) ++ S y :: s).
Proof.
  intros f n x y s HN Hs. cbn [poly_find]. replace (n <? N) with true by (symmetry; apply Nat.ltb_lt; lia).
  assert (Hz : length (zeros n) = n) by apply repeat_length.
  pose proof (nth_res_mid (zeros n) x (y :: s)) as E1. rewrite Hz in E1. rewrite E1. cbn [bind].
  rewrite array_sum_app. unfold zeros at 1. rewrite array_sum_repeat. cbn [array_sum plus]. cbn [array_sum] in Hs.
  replace (x + (y + array_sum s) <=? Rd) with false by (symmetry; apply Nat.leb_gt; lia). rewrite andb_false_r.
  pose proof (upd_res_mid (zeros n) x 0 (y :: s)) as E2. rewrite Hz in E2. rewrite E2. cbn [bind].
  assert (E : zeros n ++ 0 :: y :: s = zeros (S n) ++ y :: s).
  { unfold zeros. change (0 :: y :: s) with ([0] ++ y :: s). rewrite app_assoc. f_equal. rewrite <- (repeat_cons n 0). reflexivity. }
  rewrite E. assert (Hz' : length (zeros (S n)) = S n) by apply repeat_length.
  pose proof (nth_res_mid (zeros (S n)) y s) as E3. rewrite Hz' in E3. rewrite E3. cbn [bind].
  pose proof (upd_res_mid (zeros (S n)) y (S y) s) as E4. rewrite Hz' in E4. rewrite E4. reflexivity.
Qed.
Lemma array_sum_nth : forall l i x, nth_error l i = Some x -> x <= array_sum l.
Proof. induction l as [|a l IH]; intros [|i] x H; cbn in *; try discriminate; [injection H as <-; lia|]. apply IH in H. lia. Qed.
Lemma find_ok : forall f n tmp, n < N -> length tmp = N -> array_sum tmp <= Rd -> poly_find N Rd (S f) n tmp = Ok tmp.
Proof.
  intros f n tmp Hn Hl Hs. cbn [poly_find]. replace (n <? N) with true by (symmetry; apply Nat.ltb_lt; lia).
  destruct (nth_error tmp n) as [x|] eqn:E; [|apply nth_error_None in E; lia]. unfold nth_res. rewrite E. cbn [bind].
  apply array_sum_nth in E. replace (x <=? Rd) with true by (symmetry; apply Nat.leb_le; lia). replace (array_sum tmp <=? Rd) with true by (symmetry; apply Nat.leb_le; lia).
  reflexivity.
Qed.
(* emits rows: after the rows l the state is tmp' *)
Fixpoint emits (tmp : list nat) (l : list (list nat)) (tmp' : list nat) : Prop :=
  match l with
  | [] => tmp' = tmp
  | row :: rest => poly_find N Rd (S N) 0 tmp = Ok row /\
      exists t0 tl, row = t0 :: tl /\ emits (S t0 :: tl) rest tmp'
  end.
Lemma emits_app : forall l1 tmp tmp1 l2 tmp2, emits tmp l1 tmp1 -> emits tmp1 l2 tmp2 -> emits tmp (l1 ++ l2) tmp2.
Proof.
  induction l1 as [|row l1 IH]; intros tmp tmp1 l2 tmp2 H1 H2; cbn in *; [now subst|].
  destruct H1 as (Hf & t0 & tl & -> & H1). split; auto. exists t0, tl. split; auto. eapply IH; eauto.
Qed.
Lemma emits_from : forall tmpa tmpb l tmp', poly_find N Rd (S N) 0 tmpa = poly_find N Rd (S N) 0 tmpb -> l <> [] -> emits tmpb l tmp' -> emits tmpa l tmp'.
Proof. intros tmpa tmpb [|row l] tmp' E Hl H; [contradiction|]. cbn in *. rewrite E. auto. Qed.
Lemma emits_rows : forall l tmp tmp', emits tmp l tmp' -> poly_rows N Rd (length l) tmp = Ok l.
Proof.
  induction l as [|row l IH]; intros tmp tmp' H; cbn [poly_rows length emits] in *; auto.
  destruct H as (Hf & t0 & tl & -> & H). rewrite Hf. cbn. rewrite (IH _ _ H). reflexivity.
Qed.
Lemma exps_nonempty : forall n b, exps n b <> [].
Proof. intros n b H. assert (Hin : In (zeros n) (exps n b)) by (apply exps_spec; unfold zeros; rewrite repeat_length, array_sum_repeat; lia). rewrite H in Hin. destruct Hin. Qed.
(* a block of n exponents below the suffix s is enumerated completely, and the search that follows resumes
   with one more in the first position of the suffix *)
Lemma block : forall n s, 1 <= n -> n + length s = N -> array_sum s <= Rd ->
  exists tmp', emits (zeros n ++ s) (map (fun v => v ++ s) (exps n (Rd - array_sum s))) tmp' /\
    (forall y s', s = y :: s' -> poly_find N Rd (S N) 0 tmp' = poly_find N Rd (S N - n) n (zeros n ++ S y :: s')).
Proof.
  intros n. induction n as [|n IH]; intros s Hn HN Hs; [lia|].
  set (b := Rd - array_sum s). destruct (Nat.eq_dec n 0) as [->|Hn0].
  - (* a single exponent counts from 0 to b *)
    assert (G : forall k d, d + k = b -> exists tmp', emits (d :: s) (map (fun x => x :: s) (seq d (S k))) tmp' /\ tmp' = S b :: s).
    { induction k as [|k IHk]; intros d Hd; cbn [seq map emits].
      - assert (d = b) by lia. subst d. exists (S b :: s). split; [|reflexivity]. split; [apply find_ok; cbn [length array_sum]; lia|].
        exists b, s. auto.
      - destruct (IHk (S d)) as (tmp' & He & Ht); [lia|]. exists tmp'. split; [|auto]. split; [apply find_ok; cbn [length array_sum]; lia|]. exists d, s. auto. }
    destruct (G b 0 eq_refl) as (tmp' & He & Ht). exists tmp'. split.
    + replace (map (fun v => v ++ s) (exps 1 b)) with (map (fun x => x :: s) (seq 0 (S b))); auto.
      cbn [exps]. rewrite flat_map_concat_map, concat_map, !map_map. generalize (seq 0 (S b)) as l. induction l as [|x l IHl]; cbn; auto. now rewrite IHl.
    + intros y s' ->. rewrite Ht. replace (S N - 1) with N by lia. cbn [length] in HN.
      apply (find_carry N 0 (S b) y s'); [cbn; lia|cbn [array_sum] in *; lia].
  - assert (G : forall k d, d + k = b ->
        exists tmp', emits (zeros n ++ d :: s) (flat_map (fun d => map (fun v => v ++ d :: s) (exps n (b - d))) (seq d (S k))) tmp' /\
          (forall y s', s = y :: s' -> poly_find N Rd (S N) 0 tmp' = poly_find N Rd (S N - S n) (S n) (zeros (S n) ++ S y :: s'))).
    { induction k as [|k IHk]; intros d Hd.
      - assert (d = b) by lia. subst d. destruct (IH (b :: s)) as (tmp' & He & Hf); [lia|cbn; lia|cbn [array_sum]; lia|].
        exists tmp'. cbn [seq flat_map]. rewrite app_nil_r. replace (Rd - array_sum (b :: s)) with (b - b) in He by (cbn [array_sum]; lia). split; auto.
        intros y s' ->. rewrite (Hf b (y :: s') eq_refl). replace (S N - n) with (S (S N - S n)) by lia.
        cbn [length] in HN. apply find_carry; [lia|cbn [array_sum] in *; lia].
      - destruct (IH (d :: s)) as (tmp1 & He & Hf); [lia|cbn; lia|cbn [array_sum]; lia|].
        destruct (IHk (S d)) as (tmp' & He' & Hf'); [lia|]. exists tmp'. split; auto.
        change (seq d (S (S k))) with (d :: seq (S d) (S k)). cbn [flat_map].
        replace (Rd - array_sum (d :: s)) with (b - d) in He by (cbn [array_sum]; lia).
        eapply emits_app; [exact He|]. eapply emits_from; [|intros Hnil|exact He'].
        + rewrite (Hf d s eq_refl). replace (S N - n) with (S (S N - S n)) by lia.
          rewrite !find_ok; auto; try lia; rewrite ?app_length, ?array_sum_app; unfold zeros; rewrite ?repeat_length, ?array_sum_repeat; cbn [length array_sum]; lia.
        + cbn [seq flat_map] in Hnil. apply app_eq_nil in Hnil. destruct Hnil as [Hnil _]. apply map_eq_nil in Hnil. now apply exps_nonempty in Hnil. }
    destruct (G b 0 eq_refl) as (tmp' & He & Hf). exists tmp'. split; auto.
    replace (zeros (S n) ++ s) with (zeros n ++ 0 :: s).
    2:{ unfold zeros. change (0 :: s) with ([0] ++ s). rewrite app_assoc. f_equal. rewrite <- (repeat_cons n 0). reflexivity. }
    replace (map (fun v => v ++ s) (exps (S n) b)) with (flat_map (fun d => map (fun v => v ++ d :: s) (exps n (b - d))) (seq 0 (S b))); auto.
    cbn [exps]. generalize (seq 0 (S b)) as l. induction l as [|d l IHl]; cbn [flat_map map]; auto. rewrite map_app, IHl, map_map. f_equal.
    apply map_ext. intros v. now rewrite <- app_assoc.
Qed.
End Loop.

(* C61: the table never runs out of bounds, has binomial(N+R, R) rows and lists every exponent vector of
   total degree at most R exactly once; its first row is the constant monomial *)
Theorem C61_table : forall N Rd, 1 <= N -> exists table, ct_poly_exp N Rd = Ok table /\
  length table * (ct_factorial Rd * ct_factorial N) = ct_factorial (N + Rd) /\ NoDup table /\
  (forall v, In v table <-> length v = N /\ array_sum v <= Rd) /\
  hd_error table = Some (repeat 0 N).
Proof.
  intros N Rd HN. exists (exps N Rd). destruct (block N Rd N [] HN) as (tmp' & He & _); [cbn; lia|cbn; lia|].
  rewrite app_nil_r in He. cbn [array_sum] in He. rewrite Nat.sub_0_r in He.
  rewrite (map_ext _ (fun v => v)) in He by (intros; apply app_nil_r). rewrite map_id in He.
  assert (HL : length (exps N Rd) = ct_binomial (Rd + N) Rd) by (rewrite exps_length, ct_binomial_ok; auto; lia).
  split; [unfold ct_poly_exp; rewrite <- HL; eapply emits_rows; eauto|].
  split. { rewrite exps_length. pose proof (binom_fact (Rd + N) Rd). replace (Rd + N - Rd) with N in H by lia. rewrite H by lia. f_equal. lia. }
  split; [apply exps_nodup|]. split; [apply exps_spec|].
  destruct (exps N Rd) as [|row l] eqn:E; [now apply exps_nonempty in E|]. cbn [emits] in He. destruct He as (Hf & _).
  unfold zeros in Hf. rewrite find_ok in Hf; try lia; [injection Hf as <-; reflexivity|apply repeat_length|rewrite array_sum_repeat; lia].
Qed.
Example C61_instance : ct_poly_exp 3 2 = Ok [[0;0;0];[1;0;0];[2;0;0];[0;1;0];[1;1;0];[0;2;0];[0;0;1];[1;0;1];[0;1;1];[0;0;2]].
Proof. vm_compute. reflexivity. Qed.

(* ---- C62 ---- *)
Local Open Scope R_scope.
Fixpoint rprod (n : nat) (f : nat -> R) : R := match n with O => 1 | S k => rprod k f * f k end.
(* value at p of the polynomial with coefficients c: sum_j c_j p_0^{v_j0} ... p_{N-1}^{v_j,N-1} *)
Definition polynomial (N : nat) (table : list (list nat)) (c p : nat -> R) : R :=
  rsum (length table) (fun j => c j * rprod N (fun k => p k ^ entry table j k)).
Definition replace_coord (p : nat -> R) (i : nat) (t : R) : nat -> R := fun k => if Nat.eqb k i then t else p k.

Lemma monomial_prod : forall n p v, monomial n p v = rprod (S n) (fun k => p k ^ v k).
Proof.
  induction n as [|n IH]; intros p v; cbn [monomial].
  - destruct (Nat.eqb_spec (v O) 0) as [E|E]; cbn; rewrite ?E; cbn; ring.
  - rewrite IH. destruct (Nat.eqb_spec (v (S n)) 0) as [E|E].
    + change (rprod (S (S n)) (fun k => p k ^ v k)) with (rprod (S n) (fun k => p k ^ v k) * p (S n) ^ v (S n)). rewrite E. cbn [pow]. ring.
    + change (rprod (S (S n)) (fun k => p k ^ v k)) with (rprod (S n) (fun k => p k ^ v k) * p (S n) ^ v (S n)). ring.
Qed.
Lemma monomial_prod' : forall N p v, (1 <= N)%nat -> monomial (N - 1) p v = rprod N (fun k => p k ^ v k).
Proof. intros. rewrite monomial_prod. now replace (S (N - 1)) with N by lia. Qed.
Lemma monomial_sum_rsum : forall i m c p t, monomial_sum i m c p t = rsum (S i) (fun j => c j * monomial (m - 1) p (entry t j)).
Proof. induction i; intros; cbn [monomial_sum]; [cbn; ring|]. rewrite IHi. cbn. ring. Qed.
Theorem C62_eval : forall N table c p, (1 <= N)%nat -> table <> [] -> poly_eval N table c p = polynomial N table c p.
Proof.
  intros N table c p HN Ht. unfold poly_eval, polynomial. rewrite monomial_sum_rsum.
  replace (S (length table - 1)) with (length table) by (destruct table; [contradiction|cbn; lia]).
  apply rsum_ext. intros j Hj. now rewrite monomial_prod'.
Qed.

Lemma fold_rsum : forall (g : nat -> R) (t : nat -> bool) l a,
  fold_left (fun v m => if t m then v else v + g m) l a = a + lsum (map (fun m => if t m then 0 else g m) l).
Proof. induction l as [|x l IH]; intros a; cbn; [ring|]. rewrite IH. destruct (t x); ring. Qed.
Lemma derive_sum : forall N table c i p, poly_derive N table c i p =
  rsum (length table) (fun m => c m * (if Nat.eqb (entry table m i) 0 then 0 else INR (entry table m i) * monomial (N - 1) p (grad_entry table i m))).
Proof.
  intros. unfold poly_derive. rewrite fold_rsum, Rplus_0_l, rsum_lsum. apply lsum_map_ext. intros m _. destruct (Nat.eqb _ _); ring.
Qed.
Lemma derivable_rsum : forall n (f : nat -> R -> R) (d : nat -> R) t, (forall j, (j < n)%nat -> derivable_pt_lim (f j) t (d j)) ->
  derivable_pt_lim (fun s => rsum n (fun j => f j s)) t (rsum n d).
Proof.
  induction n as [|n IH]; intros f d t H; cbn [rsum]; [apply derivable_pt_lim_const|].
  apply (derivable_pt_lim_plus (fun s => rsum n (fun j => f j s)) (f n)); auto.
Qed.
Lemma rprod_ext : forall n f g, (forall k, (k < n)%nat -> f k = g k) -> rprod n f = rprod n g.
Proof. induction n; intros; cbn; auto. rewrite (IHn f g), H; auto. Qed.
(* isolate coordinate i in a product *)
Lemma rprod_split : forall n f i, (i < n)%nat -> rprod n f = f i * rprod n (fun k => if Nat.eqb k i then 1 else f k).
Proof.
  induction n as [|n IH]; intros f i Hi; [lia|]. cbn [rprod]. destruct (Nat.eq_dec i n) as [->|Hne].
  - rewrite Nat.eqb_refl. rewrite (rprod_ext n (fun k => if Nat.eqb k n then 1 else f k) f); [ring|].
    intros k Hk. destruct (Nat.eqb_spec k n); auto; lia.
  - rewrite (IH f i) by lia. destruct (Nat.eqb_spec n i); [lia|]. ring.
Qed.
Lemma derivable_ext : forall f g t l, (forall s, f s = g s) -> derivable_pt_lim g t l -> derivable_pt_lim f t l.
Proof. intros f g t l H HD eps He. destruct (HD eps He) as (d & Hd). exists d. intros h Hh Hd'. rewrite !H. auto. Qed.
(* C62: derive()[i] is the partial derivative with respect to x_i *)
Theorem C62_derive : forall N table c i p, (1 <= N)%nat -> table <> [] -> (i < N)%nat ->
  derivable_pt_lim (fun t => poly_eval N table c (replace_coord p i t)) (p i) (poly_derive N table c i p).
Proof.
  intros N table c i p HN Ht Hi. apply derivable_ext with (g := fun t => polynomial N table c (replace_coord p i t)).
  { intros s. now apply C62_eval. }
  rewrite derive_sum. unfold polynomial. apply derivable_rsum. intros j Hj.
  set (others := rprod N (fun k => if Nat.eqb k i then 1 else p k ^ entry table j k)).
  apply derivable_ext with (g := fun t => c j * others * t ^ entry table j i).
  { intros s. rewrite (rprod_split N _ i Hi). unfold replace_coord at 1. rewrite Nat.eqb_refl. rewrite Rmult_assoc. f_equal. rewrite Rmult_comm. f_equal.
    apply rprod_ext. intros k Hk. unfold replace_coord. destruct (Nat.eqb_spec k i); auto. }
  assert (E : (if Nat.eqb (entry table j i) 0 then 0 else INR (entry table j i) * monomial (N - 1) p (grad_entry table i j)) =
              others * (INR (entry table j i) * p i ^ Nat.pred (entry table j i))).
  { destruct (Nat.eqb_spec (entry table j i) 0) as [E|E]; [rewrite E; cbn; ring|].
    rewrite monomial_prod' by auto. rewrite (rprod_split N _ i Hi). unfold grad_entry at 1. rewrite Nat.eqb_refl.
    replace (entry table j i =? 0)%nat with false by (symmetry; now apply Nat.eqb_neq).
    replace (entry table j i - 1)%nat with (Nat.pred (entry table j i)) by lia.
    rewrite (rprod_ext N (fun k => if Nat.eqb k i then 1 else p k ^ grad_entry table i j k) (fun k => if Nat.eqb k i then 1 else p k ^ entry table j k)); [unfold others; ring|].
    intros k Hk. destruct (Nat.eqb_spec k i); auto. unfold grad_entry. destruct (Nat.eqb_spec i k); auto; lia. }
  rewrite E. rewrite <- Rmult_assoc. apply (derivable_pt_lim_scal (fun t => t ^ entry table j i)). apply derivable_pt_lim_pow.
Qed.
(* the tables of the code are non-empty *)
Corollary C62_polynomial : forall N Rd c, (1 <= N)%nat -> exists table, ct_poly_exp N Rd = Ok table /\
  (forall p, poly_eval N table c p = polynomial N table c p) /\
  (forall p i, (i < N)%nat -> derivable_pt_lim (fun t => poly_eval N table c (replace_coord p i t)) (p i) (poly_derive N table c i p)).
Proof.
  intros N Rd c HN. destruct (C61_table N Rd HN) as (table & Ht & _ & _ & _ & Hh). exists table. assert (table <> []) by (intros ->; discriminate).
  split; auto. split; intros; [now apply C62_eval|now apply C62_derive].
Qed.
Print Assumptions C61_table.
Print Assumptions C62_polynomial.
