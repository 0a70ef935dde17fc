(* C69: the tabulated quadrature rules. *)
From Coq Require Import Lia Lra Psatz Qabs.
From Coquelicot Require Import Coquelicot.
From Verif Require Import QuadModel.
Local Close Scope Q_scope.
Local Open Scope R_scope.

(* ------------------------------------------------------------------ specification *)
(* x_1^a_1 ... x_M^a_M *)
Fixpoint monomial (al : list nat) (x : list R) : R :=
  match al, x with
  | a :: al, v :: x => v ^ a * monomial al x
  | _, _ => 1
  end.
(* a polynomial: coefficients and exponents *)
Definition poly := list (R * list nat).
Definition peval (p : poly) (x : list R) : R := lsum (map (fun m => fst m * monomial (snd m) x) p).
Definition degree_le (M d : nat) (p : poly) : Prop :=
  forall c al, In (c, al) p -> length al = M /\ (list_sum al <= d)%nat.
Definition coef_size (p : poly) : R := lsum (map (fun m => Rabs (fst m)) p).
(* iterated integral over the simplex { x_1, ..., x_M >= 0, x_1 + ... + x_M <= s } *)
Fixpoint integral (M : nat) (s : R) (f : list R -> R) : R :=
  match M with
  | O => f []
  | S M => RInt (fun x => integral M (s - x) (fun v => f (x :: v))) 0 s
  end.
(* degree of exactness of the rules *)
Definition declared (M K : nat) : nat :=
  match M, K with
  | 1, 2 => 3 | 1, 3 => 5
  | 2, 1 => 1 | 2, 3 => 2 | 2, 6 => 4 | 2, 7 => 5 | 2, 12 => 6
  | 3, 1 => 1 | 3, 4 => 2 | 3, 5 => 3 | 3, 11 => 4
  | _, _ => 0
  end%nat.
(* rounding of the tables to 15 digits *)
Definition eps : R := 2 / 10 ^ 15.

(* ------------------------------------------------------------------ integrals of monomials *)
Local Ltac eqR := match goal with |- ?a = ?b => change (@eq R a b) end.
Lemma INR_fact_neq n : INR (fact n) <> 0. Proof. apply INR_fact_neq_0. Qed.
Lemma beta_integral n : forall b s, is_RInt (fun y => y ^ b * (s - y) ^ n) 0 s
  (s ^ (b + n + 1) * (INR (fact b) * INR (fact n) / INR (fact (b + n + 1)))).
Proof.
  induction n as [|n IH]; intros b s.
  - pose (F := fun y : R => y ^ (S b) / INR (S b)).
    replace (s ^ (b + 0 + 1) * _) with (minus (F s) (F 0)).
    + apply (is_RInt_ext (fun y => y ^ b)); [intros; cbn [pow]; eqR; ring|]. apply (is_RInt_derive F).
      * intros x _. unfold F. auto_derive; [auto|]. change (match b with 0%nat => 1 | S _ => INR b + 1 end) with (INR (S b)). field. apply not_0_INR. lia.
      * intros x _. apply (ex_derive_continuous (K := R_AbsRing) (V := R_NormedModule)). auto_derive; auto.
    + unfold F, minus, plus, opp; cbn -[pow fact INR]. rewrite pow_ne_zero by lia. replace (b + 0 + 1)%nat with (S b) by lia.
      rewrite fact_simpl, mult_INR. cbn [fact]. change (INR 1) with 1. field. split; [apply INR_fact_neq|apply not_0_INR; lia].
  - pose (F := fun y : R => y ^ (S b) * (s - y) ^ (S n) / INR (S b)).
    specialize (IH (S b) s).
    replace (s ^ (b + S n + 1) * _) with (plus (minus (F s) (F 0)) (scal (INR (S n) / INR (S b)) (s ^ (S b + n + 1) * (INR (fact (S b)) * INR (fact n) / INR (fact (S b + n + 1)))))).
    + apply (is_RInt_ext (fun y => plus (y ^ b * (s - y) ^ (S n) - INR (S n) / INR (S b) * (y ^ (S b) * (s - y) ^ n)) (scal (INR (S n) / INR (S b)) (y ^ (S b) * (s - y) ^ n)))).
      { intros. unfold plus, scal; cbn -[pow INR]. unfold mult; cbn -[pow INR]. eqR. ring. }
      apply (is_RInt_plus (V := R_NormedModule)); [|apply (is_RInt_scal (V := R_NormedModule)); exact IH].
      apply (is_RInt_derive F).
      * intros x _. unfold F. auto_derive; [auto|]. change (match b with 0%nat => 1 | S _ => INR b + 1 end) with (INR (S b)). change (match n with 0%nat => 1 | S _ => INR n + 1 end) with (INR (S n)).
        assert (INR (S b) <> 0) by (apply not_0_INR; lia). unfold Rminus. cbn [pow]. field. auto.
      * intros x _. apply (ex_derive_continuous (K := R_AbsRing) (V := R_NormedModule)). auto_derive; auto.
    + unfold F, minus, plus, opp, scal; cbn -[pow fact INR]. unfold mult; cbn -[pow fact INR].
      rewrite Rminus_diag_eq by auto. rewrite !(pow_ne_zero (S _)) by lia. replace (b + S n + 1)%nat with (S b + n + 1)%nat by lia.
      rewrite (fact_simpl n), (fact_simpl b), !mult_INR. change (S b + n + 1)%nat with (S (b + n + 1)). set (X := s ^ S (b + n + 1)). field. split; [apply INR_fact_neq|apply not_0_INR; lia].
Qed.
Fixpoint fact_prod (al : list nat) : R := match al with [] => 1 | a :: al => INR (fact a) * fact_prod al end.
Definition mono_int (al : list nat) (s : R) : R :=
  s ^ (list_sum al + length al) * (fact_prod al / INR (fact (list_sum al + length al))).
Lemma is_RInt_lsum {A} (l : list A) (f : A -> R -> R) (v : A -> R) a b : (forall m, In m l -> is_RInt (f m) a b (v m)) ->
  is_RInt (fun x => lsum (map (fun m => f m x) l)) a b (lsum (map v l)).
Proof.
  induction l as [|m l IH]; intros H; cbn.
  - pose proof (is_RInt_const (V := R_NormedModule) a b 0) as G. unfold scal in G; cbn in G. unfold mult in G; cbn in G. rewrite Rmult_0_r in G. exact G.
  - apply (is_RInt_plus (V := R_NormedModule)); [apply H; now left|apply IH; intros; apply H; now right].
Qed.
Lemma integral_ext M : forall s f g, (forall v, length v = M -> f v = g v) -> integral M s f = integral M s g.
Proof.
  induction M as [|M IH]; intros s f g H; cbn [integral]; [apply H; auto|].
  apply RInt_ext. intros x _. apply IH. intros v Hv. apply H. cbn. lia.
Qed.
(* the integral of a polynomial over the simplex *)
Lemma integral_poly M : forall s p, (forall c al, In (c, al) p -> length al = M) ->
  integral M s (peval p) = lsum (map (fun m => fst m * mono_int (snd m) s) p).
Proof.
  induction M as [|M IH]; intros s p Hp; cbn [integral].
  - unfold peval. apply lsum_map_ext. intros [c al] Hin. specialize (Hp c al Hin). destruct al; [|discriminate].
    cbn. unfold mono_int. cbn. change (INR 1) with 1. field.
  - rewrite (RInt_ext _ (fun x => lsum (map (fun m => fst m * (x ^ (hd 0%nat (snd m)) * mono_int (tl (snd m)) (s - x))) p))).
    + apply is_RInt_unique. apply is_RInt_lsum. intros [c al] Hin. specialize (Hp c al Hin). destruct al as [|a al]; [discriminate|].
      cbn [fst snd hd tl]. apply (is_RInt_scal (V := R_NormedModule) (fun x => x ^ a * mono_int al (s - x)) 0 s c).
      unfold mono_int. cbn [fact_prod]. set (n := (list_sum al + length al)%nat).
      replace (list_sum (a :: al) + length (a :: al))%nat with (a + n + 1)%nat by (unfold n; change (list_sum (a :: al)) with (a + list_sum al)%nat; cbn [length]; lia).
      apply (is_RInt_ext (fun x => scal (fact_prod al / INR (fact n)) (x ^ a * (s - x) ^ n))).
      { intros x _. unfold scal; cbn -[fact INR]. unfold mult; cbn -[fact INR]. eqR. ring. }
      replace (s ^ (a + n + 1) * (INR (fact a) * fact_prod al / INR (fact (a + n + 1))))
        with (scal (fact_prod al / INR (fact n)) (s ^ (a + n + 1) * (INR (fact a) * INR (fact n) / INR (fact (a + n + 1))))).
      { apply (is_RInt_scal (V := R_NormedModule)). apply beta_integral. }
      unfold scal; cbn -[fact INR pow]. unfold mult; cbn -[fact INR pow]. field. split; apply INR_fact_neq.
    + intros x _.
      pose (p' := map (fun m : R * list nat => (fst m * x ^ (hd 0%nat (snd m)), tl (snd m))) p).
      transitivity (integral M (s - x) (peval p')).
      * apply integral_ext. intros v _. unfold peval, p'. rewrite map_map. apply lsum_map_ext. intros [c al] Hin. specialize (Hp c al Hin).
        destruct al as [|a al]; [discriminate|]. cbn. ring.
      * rewrite IH.
        -- unfold p'. rewrite map_map. apply lsum_map_ext. intros [c al] _. cbn. ring.
        -- intros c al Hin. unfold p' in Hin. apply in_map_iff in Hin as ([c' al'] & Heq & Hin). injection Heq as <- <-. specialize (Hp c' al' Hin).
           destruct al'; cbn in *; lia.
Qed.

(* ------------------------------------------------------------------ checking a rule on the monomials *)
Fixpoint Qpow (v : Q) (n : nat) : Q := match n with O => 1%Q | S n => (v * Qpow v n)%Q end.
Fixpoint Qmono (al : list nat) (x : list Q) : Q :=
  match al, x with
  | a :: al, v :: x => (Qpow v a * Qmono al x)%Q
  | _, _ => 1%Q
  end.
Fixpoint Qsum (l : list Q) : Q := match l with [] => 0%Q | x :: t => Qred (x + Qsum t)%Q end.
Definition Qquad (r : rule) (al : list nat) : Q :=
  Qsum (map (fun nw => (Qmono al (fst nw) * snd nw)%Q) (combine (q_nodes r) (q_weights r))).
Fixpoint mons (M d : nat) : list (list nat) :=
  match M with
  | O => [[]]
  | S M => flat_map (fun a => map (cons a) (mons M (d - a))) (seq 0 (S d))
  end.
Lemma mons_complete M : forall d al, length al = M -> (list_sum al <= d)%nat -> In al (mons M d).
Proof.
  induction M as [|M IH]; intros d al Hl Hd; destruct al as [|a al]; try discriminate; [now left|].
  cbn [mons]. apply in_flat_map. exists a. change (list_sum (a :: al)) with (a + list_sum al)%nat in Hd. cbn in Hl. split; [apply in_seq; lia|]. apply in_map. apply IH; lia.
Qed.
Definition check_rule (r : rule) (M d : nat) (e : Q) (ex : list nat -> Q) : bool :=
  forallb (fun al => Qle_bool (Qabs (Qquad r al - ex al)) e) (mons M d).
Lemma Q2R_power v a : Q2R (Qpow v a) = Q2R v ^ a.
Proof. induction a as [|a IH]; cbn; [unfold Q2R; cbn; field|]. now rewrite Q2R_mult, IH. Qed.
Lemma Q2R_mono al : forall x, Q2R (Qmono al x) = monomial al (map Q2R x).
Proof.
  induction al as [|a al IH]; intros x; cbn; [unfold Q2R; cbn; field|]. destruct x as [|v x]; cbn; [unfold Q2R; cbn; field|].
  now rewrite Q2R_mult, Q2R_power, IH.
Qed.
Lemma Q2R_sum l : Q2R (Qsum l) = lsum (map Q2R l).
Proof.
  induction l as [|x l IH]; cbn [Qsum map lsum]; [unfold Q2R; cbn; field|]. rewrite (Qeq_eqR _ _ (Qred_correct _)), Q2R_plus, IH. reflexivity.
Qed.
Lemma Q2R_quad r al : Q2R (Qquad r al) = quadrature r (monomial al).
Proof.
  unfold Qquad, quadrature. rewrite Q2R_sum, map_map. apply lsum_map_ext. intros [n w] _. cbn. now rewrite Q2R_mult, Q2R_mono.
Qed.
Lemma Q2R_abs q : Q2R (Qabs q) = Rabs (Q2R q).
Proof.
  apply Qabs_case; intros H; apply Qle_Rle in H; rewrite RMicromega.Q2R_0 in H.
  - now rewrite Rabs_right by lra.
  - rewrite Q2R_opp. rewrite Rabs_left1 by lra. reflexivity.
Qed.
Lemma check_rule_sound r M d e ex : check_rule r M d e ex = true -> forall al, length al = M -> (list_sum al <= d)%nat ->
  Rabs (quadrature r (monomial al) - Q2R (ex al)) <= Q2R e.
Proof.
  intros H al Hl Hd. unfold check_rule in H. rewrite forallb_forall in H. specialize (H al (mons_complete M d al Hl Hd)).
  apply Qle_bool_iff in H. apply Qle_Rle in H. rewrite Q2R_abs, Q2R_minus, Q2R_quad in H. exact H.
Qed.
(* from monomials to polynomials *)
Lemma quadrature_poly r p : quadrature r (peval p) = lsum (map (fun m => fst m * quadrature r (monomial (snd m))) p).
Proof.
  unfold quadrature, peval. induction p as [|m p IH].
  - cbn. apply lsum_map_0. intros; cbn; ring.
  - cbn [map lsum]. rewrite <- IH, <- lsum_map_scal, <- lsum_map_plus. apply lsum_map_ext. intros; cbn; ring.
Qed.
Lemma poly_error r (I : list nat -> R) M d e p : 0 <= e ->
  (forall al, length al = M -> (list_sum al <= d)%nat -> Rabs (quadrature r (monomial al) - I al) <= e) ->
  degree_le M d p -> Rabs (quadrature r (peval p) - lsum (map (fun m => fst m * I (snd m)) p)) <= e * coef_size p.
Proof.
  intros He H Hp. rewrite quadrature_poly. unfold coef_size. induction p as [|[c al] p IH]; cbn.
  - rewrite Rminus_0_r, Rabs_R0. lra.
  - assert (G : Rabs (quadrature r (monomial al) - I al) <= e) by (destruct (Hp c al) as [A B]; [now left|auto]).
    assert (IH' := IH ltac:(intros c' al' Hin; apply (Hp c' al'); now right)).
    match goal with |- Rabs (?a + ?b - (?c' + ?d')) <= _ => replace (a + b - (c' + d')) with ((a - c') + (b - d')) by ring end.
    eapply Rle_trans; [apply Rabs_triang|]. rewrite Rmult_plus_distr_l. apply Rplus_le_compat; [|exact IH'].
    rewrite <- Rmult_minus_distr_l, Rabs_mult. rewrite (Rmult_comm e). apply Rmult_le_compat_l; [apply Rabs_pos|auto].
Qed.
Fixpoint Zfact_prod (al : list nat) : Z := match al with [] => 1%Z | a :: al => (Z.of_nat (fact a) * Zfact_prod al)%Z end.
(* M! times the integral over the unit simplex *)
Definition Qexact (M : nat) (al : list nat) : Q :=
  (Qred ((Z.of_nat (fact M) * Zfact_prod al)%Z # Pos.of_nat (fact (list_sum al + M))))%Q.
Lemma Zfact_prod_R al : IZR (Zfact_prod al) = fact_prod al.
Proof. induction al as [|a al IH]; cbn [Zfact_prod fact_prod]; [auto|]. now rewrite mult_IZR, IH, <- INR_IZR_INZ. Qed.
Lemma Qexact_R M al : length al = M -> Q2R (Qexact M al) = INR (fact M) * mono_int al 1.
Proof.
  intros Hl. unfold Qexact. rewrite (Qeq_eqR _ _ (Qred_correct _)). unfold Q2R, mono_int. cbn [Qnum Qden]. rewrite Hl, pow1, mult_IZR, Zfact_prod_R, <- INR_IZR_INZ.
  replace (IZR (Z.pos (Pos.of_nat (fact (list_sum al + M))))) with (INR (fact (list_sum al + M))).
  - field. apply INR_fact_neq.
  - rewrite <- positive_nat_Z, <- INR_IZR_INZ. now rewrite Nat2Pos.id by apply fact_neq_0.
Qed.
Definition epsQ : Q := (2 # 1000000000000000)%Q.
Lemma eps_Q : Q2R epsQ = eps. Proof. unfold epsQ, eps, Q2R. cbn. lra. Qed.

(* ------------------------------------------------------------------ C69 *)
Theorem C69_exactness M K r p : table_of M K = Some r -> degree_le M (declared M K) p ->
  Rabs (quadrature r (peval p) - INR (fact M) * integral M 1 (peval p)) <= eps * coef_size p.
Proof.
  intros Hr Hp. rewrite integral_poly by (intros c al Hin; apply (Hp c al Hin)). rewrite <- lsum_map_scal.
  rewrite (lsum_map_ext _ _ (fun m => fst m * (INR (fact M) * mono_int (snd m) 1))) by (intros; ring).
  apply (poly_error r (fun al => INR (fact M) * mono_int al 1) M (declared M K)); [unfold eps; lra| |exact Hp].
  assert (C : check_rule r M (declared M K) epsQ (Qexact M) = true).
  { destruct M as [|[|[|[|M]]]]; try discriminate; do 13 (destruct K as [|K]; [try discriminate; injection Hr as <-; vm_compute; reflexivity|]); discriminate. }
  intros al Hl Hd. rewrite <- eps_Q, <- Qexact_R by auto. now apply (check_rule_sound r M (declared M K)).
Qed.
(* the weights sum to one *)
Theorem C69_weights M K r : table_of M K = Some r -> length (q_nodes r) = K /\ length (q_weights r) = K /\
  (forall n, In n (q_nodes r) -> length n = M) /\ Rabs (lsum (map Q2R (q_weights r)) - 1) <= eps.
Proof.
  intros Hr. rewrite <- Q2R_sum, <- RMicromega.Q2R_1, <- Q2R_minus, <- Q2R_abs, <- eps_Q.
  assert (C : length (q_nodes r) = K /\ length (q_weights r) = K /\ forallb (fun n => Nat.eqb (length n) M) (q_nodes r) = true /\
    Qle_bool (Qabs (Qsum (q_weights r) - 1)) epsQ = true).
  { destruct M as [|[|[|[|M]]]]; try discriminate; do 13 (destruct K as [|K]; [try discriminate; injection Hr as <-; vm_compute; auto|]); discriminate. }
  destruct C as (C1 & C2 & C3 & C4). split; [auto|]. split; [auto|]. split.
  - intros n Hn. rewrite forallb_forall in C3. now apply Nat.eqb_eq, C3.
  - apply Qle_Rle. now apply Qle_bool_iff.
Qed.
(* no rule does better than its degree *)
Theorem C69_sharp M K r : table_of M K = Some r -> exists al, length al = M /\ list_sum al = S (declared M K) /\
  Rabs (quadrature r (monomial al) - INR (fact M) * integral M 1 (monomial al)) >= / 1000000.
Proof.
  intros Hr.
  assert (G : forall al, length al = M -> INR (fact M) * integral M 1 (monomial al) = Q2R (Qexact M al)).
  { intros al Hl. rewrite Qexact_R by auto. f_equal.
    rewrite (integral_ext M 1 (monomial al) (peval [(1, al)])) by (intros; unfold peval; cbn; ring).
    rewrite integral_poly by (intros c al' [Heq|[]]; injection Heq as <- <-; auto). cbn. ring. }
  assert (C : exists al, length al = M /\ list_sum al = S (declared M K) /\ Qle_bool (1 # 1000000) (Qabs (Qquad r al - Qexact M al)) = true).
  { destruct M as [|[|[|[|M]]]]; try discriminate.
    - exists [S (declared 1 K)]. do 4 (destruct K as [|K]; [try discriminate; injection Hr as <-; vm_compute; auto|]); discriminate.
    - exists [S (declared 2 K); 0%nat]. do 13 (destruct K as [|K]; [try discriminate; injection Hr as <-; vm_compute; auto|]); discriminate.
    - exists [S (declared 3 K); 0%nat; 0%nat]. do 13 (destruct K as [|K]; [try discriminate; injection Hr as <-; vm_compute; auto|]); discriminate. }
  destruct C as (al & Hl & Hs & C). exists al. split; [auto|]. split; [auto|]. rewrite G by auto. rewrite <- Q2R_quad, <- Q2R_minus, <- Q2R_abs.
  apply Qle_bool_iff, Qle_Rle in C. apply Rle_ge. refine (Rle_trans _ _ _ _ C). unfold Q2R. cbn. lra.
Qed.
(* the standard rules are exact for degree order + 1, as documented, and, but for quadratic tetrahedra, for products of
   two basis functions *)
Theorem C69_standard M order : In (M, order) [(1, 1); (1, 2); (2, 1); (2, 2); (2, 3); (3, 1); (3, 2)]%nat ->
  exists r, table_of M (standard_rule M order) = Some r /\ (order + 1 <= declared M (standard_rule M order))%nat /\
    ((M, order) <> (3, 2)%nat -> (2 * order <= declared M (standard_rule M order))%nat).
Proof.
  intros H. repeat (destruct H as [H|H]; [injection H as <- <-; eexists; split; [reflexivity|]; cbn; split; [lia|intros; try congruence; lia]|]). destruct H.
Qed.

(* ------------------------------------------------------------------ Gauss-Legendre rules on [-1, 1] and [a, b] *)
Lemma pow_integral k u v : is_RInt (fun x => x ^ k) u v ((v ^ S k - u ^ S k) / INR (S k)).
Proof.
  pose (F := fun y : R => y ^ (S k) / INR (S k)).
  replace ((v ^ S k - u ^ S k) / INR (S k)) with (minus (F v) (F u)).
  - apply (is_RInt_derive F).
    + intros x _. unfold F. auto_derive; [auto|]. change (match k with 0%nat => 1 | S _ => INR k + 1 end) with (INR (S k)). field. apply not_0_INR. lia.
    + intros x _. apply (ex_derive_continuous (K := R_AbsRing) (V := R_NormedModule)). auto_derive; auto.
  - unfold F, minus, plus, opp; cbn -[pow INR]. field. apply not_0_INR. lia.
Qed.
Definition legendre (al : list nat) : Q := (let k := hd 0%nat al in if Nat.even k then 2 # Pos.of_nat (S k) else 0)%Q.
Lemma legendre_R a : Q2R (legendre [a]) = (1 ^ S a - (-1) ^ S a) / INR (S a).
Proof.
  unfold legendre. cbn [hd]. rewrite pow1. destruct (Nat.even a) eqn:E.
  - apply Nat.even_spec in E as [k ->]. rewrite pow_1_odd. unfold Q2R. cbn [Qnum Qden].
    replace (IZR (Z.pos (Pos.of_nat (S (2 * k))))) with (INR (S (2 * k))).
    + field. apply not_0_INR. lia.
    + rewrite <- positive_nat_Z, <- INR_IZR_INZ. now rewrite Nat2Pos.id by lia.
  - assert (O : Nat.odd a = true) by (rewrite <- Nat.negb_even, E; reflexivity). apply Nat.odd_spec in O as [k ->].
    replace (S (2 * k + 1)) with (2 * S k)%nat by lia. rewrite pow_1_even, RMicromega.Q2R_0. field. apply not_0_INR. lia.
Qed.
Theorem C69_gauss_legendre r d p : In (r, d) [(table_gl_1_3, 5%nat); (table_gl_1_5, 9%nat)] -> degree_le 1 d p ->
  Rabs (quadrature r (peval p) - RInt (fun x => peval p [x]) (-1) 1) <= eps * coef_size p.
Proof.
  intros Hr Hp.
  assert (G : RInt (fun x => peval p [x]) (-1) 1 = lsum (map (fun m => fst m * Q2R (legendre (snd m))) p)).
  { apply is_RInt_unique. unfold peval. apply is_RInt_lsum. intros [c al] Hin. destruct (Hp c al Hin) as [Hl _].
    destruct al as [|a [|]]; try discriminate. cbn [fst snd]. rewrite legendre_R.
    apply (is_RInt_scal (V := R_NormedModule) (fun x => monomial [a] [x]) (-1) 1 c).
    apply (is_RInt_ext (fun x => x ^ a)); [intros; cbn; eqR; ring|apply pow_integral]. }
  rewrite G. apply (poly_error r (fun al => Q2R (legendre al)) 1 d); [unfold eps; lra| |exact Hp].
  assert (C : check_rule r 1 d epsQ legendre = true).
  { destruct Hr as [Hr|[Hr|[]]]; injection Hr as <- <-; vm_compute; reflexivity. }
  intros al Hl Hd. rewrite <- eps_Q. now apply (check_rule_sound r 1 d).
Qed.
(* the spline integrator on any interval: polynomials of degree 5, written around the midpoint *)
Definition scaled (h : R) (p : poly) : poly := map (fun m => (fst m * h ^ (list_sum (snd m)), snd m)) p.
Theorem C69_spline_interval a b p : degree_le 1 5 p ->
  let h := (b - a) / 2 in
  Rabs (spline_integrate a b (fun x => peval p [x - (a + b) / 2]) - RInt (fun x => peval p [x - (a + b) / 2]) a b)
    <= Rabs h * (eps * coef_size (scaled h p)).
Proof.
  intros Hp h.
  assert (Hs : degree_le 1 5 (scaled h p)).
  { intros c al Hin. apply in_map_iff in Hin as ([c' al'] & Heq & Hin). injection Heq as <- <-. apply (Hp c' al' Hin). }
  assert (E : forall x, peval p [h * x + (b + a) / 2 - (a + b) / 2] = peval (scaled h p) [x]).
  { intros x. unfold peval, scaled. rewrite map_map. apply lsum_map_ext. intros [c al] Hin. destruct (Hp c al Hin) as [Hl _].
    destruct al as [|k [|]]; try discriminate. cbn [fst snd monomial list_sum fold_right]. replace (h * x + (b + a) / 2 - (a + b) / 2) with (h * x) by lra.
    change (list_sum [k]) with (k + 0)%nat. rewrite Nat.add_0_r, Rpow_mult_distr. ring. }
  assert (I : RInt (fun x => peval p [x - (a + b) / 2]) a b = h * RInt (fun x => peval (scaled h p) [x]) (-1) 1).
  { pose (f := fun x => peval p [x - (a + b) / 2]). fold f.
    assert (EX : forall u v, ex_RInt f u v).
    { intros u v. apply (ex_RInt_continuous (V := R_CompleteNormedModule)). intros z _. unfold f, peval. clear E Hs.
      induction p as [|[c al] q IH]; cbn [map lsum]; [apply continuous_const|].
      apply (continuous_plus (V := R_NormedModule) (fun x => fst (c, al) * monomial (snd (c, al)) [x - (a + b) / 2])).
      - destruct (Hp c al) as [Hl _]; [now left|]. destruct al as [|k [|]]; try discriminate. cbn [fst snd monomial].
        apply (ex_derive_continuous (K := R_AbsRing) (V := R_NormedModule)). auto_derive. auto.
      - apply IH. intros c' al' Hin. apply (Hp c' al'). now right. }
    transitivity (RInt f (h * -1 + (b + a) / 2) (h * 1 + (b + a) / 2)); [unfold h; f_equal; lra|].
    rewrite <- (RInt_comp_lin (V := R_CompleteNormedModule) f h ((b + a) / 2) (-1) 1) by apply EX.
    rewrite RInt_scal.
      + change (h * RInt (fun x => f (h * x + (b + a) / 2)) (-1) 1 = h * RInt (fun x => peval (scaled h p) [x]) (-1) 1). f_equal. apply RInt_ext. intros x _. unfold f. apply E.
      + apply (ex_RInt_ext (fun x => peval (scaled h p) [x])); [intros x _; unfold f; now rewrite E|].
        apply (ex_RInt_continuous (V := R_CompleteNormedModule)). intros z _. unfold peval. clear E EX f. revert Hs.
        generalize (scaled h p) as q. induction q as [|[c al] q IH]; intros Hq; cbn [map lsum]; [apply continuous_const|].
        apply (continuous_plus (V := R_NormedModule) (fun x => fst (c, al) * monomial (snd (c, al)) [x])).
        * destruct (Hq c al) as [Hl _]; [now left|]. destruct al as [|k [|]]; try discriminate. cbn [fst snd monomial].
          apply (ex_derive_continuous (K := R_AbsRing) (V := R_NormedModule)). auto_derive. auto.
        * apply IH. intros c' al' Hin. apply (Hq c' al'). now right. }
  rewrite I. unfold spline_integrate. fold h.
  replace (quadrature table_gl_1_3 _) with (quadrature table_gl_1_3 (peval (scaled h p))).
  - rewrite <- Rmult_minus_distr_l, Rabs_mult. apply Rmult_le_compat_l; [apply Rabs_pos|]. apply (C69_gauss_legendre _ 5); [now left|auto].
  - unfold quadrature. apply lsum_map_ext. intros [n w] Hin. cbn [fst snd]. rewrite E. f_equal. f_equal. apply in_combine_l in Hin.
    cbn in Hin. destruct Hin as [<-|[<-|[<-|[]]]]; reflexivity.
Qed.

(* the hypotheses are met: x y on the 3-point triangle rule, whose mean over the triangle is 1/12 *)
Example C69_example : table_of 2 3 = Some table_2_3 /\ degree_le 2 (declared 2 3) [(1, [1; 1]%nat)] /\
  INR (fact 2) * integral 2 1 (peval [(1, [1; 1]%nat)]) = / 12.
Proof.
  split; [reflexivity|]. split.
  - intros c al [Heq|[]]. injection Heq as <- <-. cbn. lia.
  - rewrite integral_poly by (intros c al [Heq|[]]; injection Heq as <- <-; reflexivity). cbn. unfold mono_int. cbn. lra.
Qed.
Print Assumptions C69_exactness.
Print Assumptions C69_spline_interval.
