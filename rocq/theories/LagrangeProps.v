(* Lagrangian reference basis (C63). *)
From Verif Require Import SimplexModel SimplexProps LinAlg CombProps PolyModel PolyProps.
Local Open Scope R_scope.

Lemma table_facts : forall N Rd table, (1 <= N)%nat -> ct_poly_exp N Rd = Ok table ->
  (0 < length table)%nat /\ (forall k, (k < N)%nat -> entry table 0 k = 0%nat).
Proof.
  intros N Rd table HN Htable. destruct (C61_table N Rd HN) as (t & Ht & _ & _ & _ & Hh). rewrite Htable in Ht. injection Ht as <-.
  destruct table as [|row l]; [discriminate|]. split; [cbn; lia|]. injection Hh as ->.
  intros k Hk. unfold entry. cbn [nth]. apply nth_repeat.
Qed.
(* the Vandermonde matrix holds the values of the monomials at the nodes *)
Lemma vandermonde_spec : forall N Rd table nodes, (1 <= N)%nat -> ct_poly_exp N Rd = Ok table ->
  forall i j, vandermonde N table nodes i j = rprod N (fun k => nodes i k ^ entry table j k).
Proof.
  intros N Rd table nodes HN Htable i [|j]; cbn [vandermonde]; [|now apply monomial_prod'].
  assert (E : forall m, (m <= N)%nat -> rprod m (fun k => nodes i k ^ entry table 0 k) = 1).
  { induction m as [|m IH]; intros Hm; auto. cbn [rprod]. rewrite IH by lia. rewrite (proj2 (table_facts N Rd table HN Htable)) by lia. cbn. ring. }
  now rewrite E.
Qed.
Section Basis.
Variables (N Rd : nat) (table : list (list nat)) (nodes : nat -> nat -> R) (solve : (nat -> R) -> nat -> R).
Hypothesis HN : (1 <= N)%nat.
Hypothesis Htable : ct_poly_exp N Rd = Ok table.
Let n := length table.
(* the LU solve returns a solution of V a = b *)
Hypothesis Hsolve : forall b i, (i < n)%nat -> rsum n (fun j => vandermonde N table nodes i j * solve b j) = b i.

Lemma eval_at_node : forall c i, polynomial N table c (nodes i) = rsum n (fun j => vandermonde N table nodes i j * c j).
Proof. intros. unfold polynomial. apply rsum_ext. intros j Hj. rewrite (vandermonde_spec N Rd) by auto. ring. Qed.
Lemma basis_poly : forall i x, basis N table solve i x = polynomial N table (solve (unit_rhs i)) x.
Proof. intros. apply C62_eval; auto. pose proof (table_facts N Rd table HN Htable) as [H _]. unfold n in H. intros E. rewrite E in H. cbn in H. lia. Qed.

(* basis function i is 1 at node i and 0 at the other nodes *)
Theorem C63_nodal : forall i k, (i < n)%nat -> (k < n)%nat -> basis N table solve i (nodes k) = delta i k.
Proof. intros i k Hi Hk. rewrite basis_poly, eval_at_node, Hsolve by auto. reflexivity. Qed.
(* every polynomial of the space is the combination of the basis weighted with its values at the nodes *)
Theorem C63_reproduces : forall c x, polynomial N table c x = rsum n (fun i => polynomial N table c (nodes i) * basis N table solve i x).
Proof.
  intros c x.
  assert (HI : inverse_of n (vandermonde N table nodes) (fun j i => solve (unit_rhs i) j)).
  { intros i j Hi Hj. rewrite (Hsolve (unit_rhs j) i Hi). unfold unit_rhs, delta. now rewrite Nat.eqb_sym. }
  apply inverse_comm in HI.
  rewrite (rsum_ext n _ (fun i => rsum n (fun j => polynomial N table c (nodes i) * (solve (unit_rhs i) j * rprod N (fun k => x k ^ entry table j k))))).
  2:{ intros i Hi. rewrite basis_poly. unfold polynomial at 2. rewrite <- rsum_scal. reflexivity. }
  rewrite rsum_swap. unfold polynomial at 1. apply rsum_ext. intros j Hj.
  set (mon := rprod N (fun k => x k ^ entry table j k)).
  rewrite (rsum_ext n _ (fun i => rsum n (fun k => solve (unit_rhs i) j * vandermonde N table nodes i k * c k) * mon)).
  2:{ intros i Hi. rewrite eval_at_node. rewrite (rsum_ext n (fun k => solve (unit_rhs i) j * vandermonde N table nodes i k * c k) (fun k => solve (unit_rhs i) j * (vandermonde N table nodes i k * c k))) by (intros; ring).
      rewrite rsum_scal. ring. }
  rewrite rsum_scal_r. f_equal. rewrite rsum_swap.
  rewrite (rsum_ext n _ (fun k => delta j k * c k)); [symmetry; now apply rsum_delta_l|].
  intros k Hk. rewrite rsum_scal_r. now rewrite (HI j k Hj Hk).
Qed.
(* the basis functions sum to one everywhere *)
Theorem C63_partition_of_unity : forall x, rsum n (fun i => basis N table solve i x) = 1.
Proof.
  intros x. pose proof (table_facts N Rd table HN Htable) as [Hn H0].
  assert (E : forall p, polynomial N table (unit_rhs 0) p = 1).
  { intros p. unfold polynomial. fold n. rewrite (rsum_single n _ 0 Hn).
    - unfold unit_rhs. cbn [Nat.eqb]. rewrite Rmult_1_l. assert (E : forall m, (m <= N)%nat -> rprod m (fun k => p k ^ entry table 0 k) = 1).
      { induction m as [|m IH]; intros Hm; auto. cbn [rprod]. rewrite IH by lia. rewrite H0 by lia. cbn. ring. }
      now rewrite E.
    - intros j Hj Hne. unfold unit_rhs. destruct (Nat.eqb_spec 0 j); [lia|ring]. }
  rewrite <- (E x). rewrite (C63_reproduces (unit_rhs 0) x). apply rsum_ext. intros i Hi. rewrite E. ring.
Qed.
End Basis.

(* ---- the reference elements of the library (reference_element.h) have an invertible Vandermonde matrix ---- *)
From Coq Require Import QArith Qreals.
Local Open Scope Q_scope.
Fixpoint qpow (x : Q) (n : nat) : Q := match n with O => 1 | S k => x * qpow x k end.
Fixpoint qprod (xs : list Q) (es : list nat) : Q :=
  match xs, es with x :: xs', e :: es' => qpow x e * qprod xs' es' | _, _ => 1 end.
Fixpoint qdot (a b : list Q) : Q := match a, b with x :: a', y :: b' => x * y + qdot a' b' | _, _ => 0 end.
Definition qcol (m : list (list Q)) (j : nat) : list Q := map (fun r => nth j r 0) m.
(* rows of inv: inverse of the Vandermonde matrix *)
Definition check (table : list (list nat)) (nodes inv : list (list Q)) : bool :=
  let n := length table in
  Nat.eqb (length nodes) n && Nat.eqb (length inv) n &&
  forallb (fun i => forallb (fun j => Qeq_bool (qdot (map (qprod (nth i nodes [])) table) (qcol inv j)) (if Nat.eqb i j then 1 else 0)) (seq 0 n)) (seq 0 n).
Local Open Scope R_scope.
Definition qnodes (nodes : list (list Q)) (i k : nat) : R := Q2R (nth k (nth i nodes []) 0%Q).
Lemma Q2R_pow : forall x n, Q2R (qpow x n) = Q2R x ^ n.
Proof. induction n; cbn [qpow pow]; [unfold Q2R; cbn; lra|]. now rewrite Q2R_mult, IHn. Qed.
Lemma rprod_head : forall n f, rprod (S n) f = f O * rprod n (fun k => f (S k)).
Proof. induction n; intros; [cbn; ring|]. cbn [rprod] in *. rewrite (IHn f). ring. Qed.
Lemma Q2R_prod : forall xs es, length xs = length es -> Q2R (qprod xs es) = rprod (length es) (fun k => Q2R (nth k xs 0%Q) ^ nth k es O).
Proof.
  induction xs as [|x xs IH]; intros [|e es] H; cbn [qprod length] in *; try discriminate; [unfold Q2R; cbn; lra|].
  rewrite rprod_head, Q2R_mult, Q2R_pow, IH by lia. reflexivity.
Qed.
Lemma Q2R_dot : forall a b, length a = length b -> Q2R (qdot a b) = rsum (length a) (fun k => Q2R (nth k a 0%Q) * Q2R (nth k b 0%Q)).
Proof.
  induction a as [|x a IH]; intros [|y b] H; cbn [qdot length] in *; try discriminate; [unfold Q2R; cbn; lra|].
  rewrite Q2R_plus, Q2R_mult, IH by lia. rewrite rsum_head. reflexivity.
Qed.
Definition qsolve (n : nat) (inv : list (list Q)) (b : nat -> R) (j : nat) : R :=
  rsum n (fun i => Q2R (nth i (nth j inv []) 0%Q) * b i).
Lemma check_sound : forall N Rd table nodes inv, (1 <= N)%nat -> ct_poly_exp N Rd = Ok table -> Forall (fun p => length p = N) nodes ->
  check table nodes inv = true ->
  forall b i, (i < length table)%nat ->
    rsum (length table) (fun j => vandermonde N table (qnodes nodes) i j * qsolve (length table) inv b j) = b i.
Proof.
  intros N Rd table nodes inv HN Ht Hnl Hc b i Hi. unfold check in Hc. apply andb_true_iff in Hc. destruct Hc as [Hc Hf].
  apply andb_true_iff in Hc. destruct Hc as [Hn Hl]. apply Nat.eqb_eq in Hn, Hl. rewrite forallb_forall in Hf.
  assert (HT : forall v, In v table -> length v = N).
  { destruct (C61_table N Rd HN) as (t & Ht' & _ & _ & Hin & _). rewrite Ht in Ht'. injection Ht' as <-. intros v Hv. now apply Hin. }
  set (n := length table) in *.
  assert (HV : forall i j, (i < n)%nat -> (j < n)%nat -> vandermonde N table (qnodes nodes) i j = Q2R (nth j (map (qprod (nth i nodes [])) table) 0%Q)).
  { intros a c Ha Hc. rewrite (vandermonde_spec N Rd table (qnodes nodes) HN Ht). rewrite (nth_indep _ 0%Q (qprod (nth a nodes []) [])) by (rewrite map_length; auto). rewrite map_nth.
    assert (Hrow : length (nth c table []) = N) by (apply HT; now apply nth_In).
    assert (Hnode : length (nth a nodes []) = N) by (rewrite Forall_forall in Hnl; apply Hnl; apply nth_In; lia).
    rewrite Q2R_prod by lia. rewrite Hrow. reflexivity. }
  assert (HI : inverse_of n (vandermonde N table (qnodes nodes)) (fun j k => Q2R (nth k (nth j inv []) 0%Q))).
  { intros a c Ha Hc. rewrite (rsum_ext n _ (fun k => Q2R (nth k (map (qprod (nth a nodes [])) table) 0%Q) * Q2R (nth k (qcol inv c) 0%Q))).
    - assert (Hr : length (map (qprod (nth a nodes [])) table) = n) by apply map_length.
      rewrite <- Hr at 1. rewrite <- Q2R_dot by (unfold qcol; rewrite !map_length; lia).
      specialize (Hf a ltac:(apply in_seq; lia)). rewrite forallb_forall in Hf. specialize (Hf c ltac:(apply in_seq; lia)). apply Qeq_bool_eq in Hf.
      rewrite (Qeq_eqR _ _ Hf). unfold delta. destruct (Nat.eqb a c); unfold Q2R; cbn; lra.
    - intros k Hk. rewrite HV by auto. unfold qcol. rewrite (nth_indep (map (fun r => nth c r 0%Q) inv) 0%Q (nth c [] 0%Q)) by (rewrite map_length; lia).
      rewrite (map_nth (fun r => nth c r 0%Q)). reflexivity. }
  unfold qsolve. rewrite (rsum_ext n _ (fun j => rsum n (fun k => vandermonde N table (qnodes nodes) i j * Q2R (nth k (nth j inv []) 0%Q) * b k))).
  2:{ intros j Hj. rewrite <- rsum_scal. apply rsum_ext. intros; ring. }
  rewrite rsum_swap. rewrite (rsum_ext n _ (fun k => delta i k * b k)); [now apply rsum_delta_l|].
  intros k Hk. rewrite rsum_scal_r. f_equal. exact (HI i k Hi Hk).
Qed.
(* ReferenceElement<M, R>::nodes, reference_element.h 30-97 *)
Definition ref_nodes (M Rd : nat) : list (list Q) := (match M, Rd with
  | 1%nat, 1%nat => [[0]; [1]]
  | 1%nat, 2%nat => [[0]; [1]; [1#2]]
  | 2%nat, 1%nat => [[0;0]; [1;0]; [0;1]]
  | 2%nat, 2%nat => [[0;0]; [1;0]; [0;1]; [1#2;0]; [0;1#2]; [1#2;1#2]]
  | 2%nat, 3%nat => [[0;0]; [1;0]; [0;1]; [1#3;0]; [2#3;0]; [0;1#3]; [0;2#3]; [2#3;1#3]; [1#3;2#3]; [1#3;1#3]]
  | 3%nat, 1%nat => [[0;0;0]; [1;0;0]; [0;1;0]; [0;0;1]]
  | 3%nat, 2%nat => [[0;0;0]; [1;0;0]; [0;1;0]; [0;0;1]; [1#2;1#2;0]; [0;1#2;0]; [1#2;0;0]; [1#2;0;1#2]; [0;1#2;1#2]; [0;0;1#2]]
  | _, _ => []
  end)%Q.
(* the inverses of their Vandermonde matrices, checked below by check_sound *)
Definition ref_inv (M Rd : nat) : list (list Q) := (match M, Rd with
  | 1%nat, 1%nat => [[1;0]; [(-1);1]]
  | 1%nat, 2%nat => [[1;0;0]; [(-3);(-1);4]; [2;2;(-4)]]
  | 2%nat, 1%nat => [[1;0;0]; [(-1);1;0]; [(-1);0;1]]
  | 2%nat, 2%nat => [[1;0;0;0;0;0]; [(-3);(-1);0;4;0;0]; [2;2;0;(-4);0;0]; [(-3);0;(-1);0;4;0]; [4;0;0;(-4);(-4);4]; [2;0;2;0;(-4);0]]
  | 2%nat, 3%nat => [[1;0;0;0;0;0;0;0;0;0]; [(-11#2);1;0;9;(-9#2);0;0;0;0;0]; [9;(-9#2);0;(-45#2);18;0;0;0;0;0]; [(-9#2);(9#2);0;(27#2);(-27#2);0;0;0;0;0]; [(-11#2);0;1;0;0;9;(-9#2);0;0;0]; [18;0;0;(-45#2);(9#2);(-45#2);(9#2);(-9#2);(-9#2);27]; [(-27#2);0;0;27;(-27#2);(27#2);0;(27#2);0;(-27)]; [9;0;(-9#2);0;0;(-45#2);18;0;0;0]; [(-27#2);0;0;(27#2);0;27;(-27#2);0;(27#2);(-27)]; [(-9#2);0;(9#2);0;0;(27#2);(-27#2);0;0;0]]
  | 3%nat, 1%nat => [[1;0;0;0]; [(-1);1;0;0]; [(-1);0;1;0]; [(-1);0;0;1]]
  | 3%nat, 2%nat => [[1;0;0;0;0;0;0;0;0;0]; [(-3);(-1);0;0;0;0;4;0;0;0]; [2;2;0;0;0;0;(-4);0;0;0]; [(-3);0;(-1);0;0;4;0;0;0;0]; [4;0;0;0;4;(-4);(-4);0;0;0]; [2;0;2;0;0;(-4);0;0;0;0]; [(-3);0;0;(-1);0;0;0;0;0;4]; [4;0;0;0;0;0;(-4);4;0;(-4)]; [4;0;0;0;0;(-4);0;0;4;(-4)]; [2;0;0;2;0;0;0;0;0;(-4)]]
  | _, _ => []
  end)%Q.
Definition supported (M Rd : nat) : Prop := In (M, Rd) [(1, 1); (1, 2); (2, 1); (2, 2); (2, 3); (3, 1); (3, 2)]%nat.
Theorem C63_reference_elements : forall M Rd, supported M Rd -> exists table solve, ct_poly_exp M Rd = Ok table /\ length (ref_nodes M Rd) = length table /\
  forall b i, (i < length table)%nat -> rsum (length table) (fun j => vandermonde M table (qnodes (ref_nodes M Rd)) i j * solve b j) = b i.
Proof.
  intros M Rd H.
  assert (G : exists table, ct_poly_exp M Rd = Ok table /\ Forall (fun p => length p = M) (ref_nodes M Rd) /\ check table (ref_nodes M Rd) (ref_inv M Rd) = true /\ (1 <= M)%nat).
  { unfold supported in H. cbn [In] in H.
    repeat (destruct H as [H|H]; [injection H as <- <-; eexists; split; [vm_compute; reflexivity|split; [repeat constructor|split; [vm_compute; reflexivity|lia]]]|]).
    destruct H. }
  destruct G as (table & Ht & Hl & Hc & HM). exists table, (qsolve (length table) (ref_inv M Rd)). split; auto. split.
  - unfold check in Hc. apply andb_true_iff in Hc. destruct Hc as [Hc _]. apply andb_true_iff in Hc. destruct Hc as [Hc _]. now apply Nat.eqb_eq in Hc.
  - eapply check_sound; eauto.
Qed.
Print Assumptions C63_reproduces.
Print Assumptions C63_reference_elements.
