(* C217: the counting functions with machine integers. *)
From Coq Require Import ZArith Lia List Factorial.
From Verif Require Import Base CombModel CombProps CombIntModel.
Import ListNotations.
Open Scope Z_scope.

Definition fits_int (z : Z) : Prop := - 2 ^ 31 <= z < 2 ^ 31.
Lemma imul_ok a b : fits_int (a * b) -> imul a b = Ok (a * b).
Proof. unfold fits_int, imul. intros [A B]. rewrite (proj2 (Z.leb_le _ _) A), (proj2 (Z.ltb_lt _ _) B). reflexivity. Qed.
Lemma imul_bad a b : 2 ^ 31 <= a * b -> imul a b = UB.
Proof. unfold imul. intros A. rewrite (proj2 (Z.ltb_ge _ _) A), Bool.andb_false_r. reflexivity. Qed.
Lemma ct_fact n : ct_factorial n = fact n.
Proof. induction n as [|n IH]; [reflexivity|]. cbn [ct_factorial fact]. rewrite IH. lia. Qed.
Fixpoint zfact (n : nat) : Z := match n with O => 1 | S n' => Z.of_nat n * zfact n' end.
Lemma zfact_ok n : Z.of_nat (fact n) = zfact n.
Proof. induction n as [|n IH]; [reflexivity|]. change (fact (S n)) with (S n * fact n)%nat. rewrite Nat2Z.inj_mul, IH. reflexivity. Qed.
Lemma fact_12 n : (n <= 12)%nat -> Z.of_nat (fact n) <= 479001600.
Proof. intros H. rewrite zfact_ok. do 13 (destruct n as [|n]; [vm_compute; discriminate|]). lia. Qed.
Lemma i_factorial_ok n : (n <= 12)%nat -> i_factorial n = Ok (Z.of_nat (fact n)).
Proof.
  induction n as [|n IH]; intros H; [reflexivity|]. cbn [i_factorial]. rewrite IH by lia. cbn [bind]. assert (E : Z.of_nat (S n) * Z.of_nat (fact n) = Z.of_nat (fact (S n))) by (change (fact (S n)) with (S n * fact n)%nat; lia).
  assert (B := fact_12 (S n) H). rewrite imul_ok; [now rewrite E|]. rewrite E. unfold fits_int. lia.
Qed.
Lemma i_factorial_bad n : (13 <= n)%nat -> i_factorial n = UB.
Proof. induction n as [|n IH]; intros H; [lia|]. destruct (Nat.eq_dec n 12) as [->|N]; [vm_compute; reflexivity|]. cbn [i_factorial]. rewrite IH by lia. reflexivity. Qed.
(* C217: the factorial is right up to 12 and overflows from 13 on *)
Theorem C217_factorial (n : Z) : m_factorial n = if (0 <=? n) && (n <=? 12) then Ok (Z.of_nat (fact (Z.to_nat n))) else UB.
Proof.
  unfold m_factorial. destruct (Z.ltb_spec n 0), (Z.leb_spec 0 n), (Z.leb_spec n 12); cbn [andb]; try lia; try reflexivity; [apply i_factorial_ok|apply i_factorial_bad]; lia.
Qed.
Lemma quotient n k : (k <= n)%nat -> (n <= 12)%nat ->
  (p <- imul (Z.of_nat (fact k)) (Z.of_nat (fact (n - k))) ;; if p =? 0 then UB else Ok (Z.quot (Z.of_nat (fact n)) p)) = Ok (Z.of_nat (binom n k)).
Proof.
  intros Hk Hn. assert (F := binom_fact n k Hk). rewrite !ct_fact in F. assert (B := fact_12 n Hn). assert (P1 := lt_O_fact k). assert (P2 := lt_O_fact (n - k)).
  assert (P : (0 < fact k * fact (n - k))%nat) by (apply Nat.mul_pos_pos; lia). set (q := (fact k * fact (n - k))%nat) in *.
  assert (Pb : (1 <= binom n k)%nat). { destruct (binom n k) eqn:E; [|lia]. assert (P3 := lt_O_fact n). cbn in F. lia. }
  assert (Q : Z.of_nat (fact k) * Z.of_nat (fact (n - k)) = Z.of_nat q) by (unfold q; lia).
  rewrite imul_ok; [|rewrite Q; unfold fits_int; assert (Z.of_nat q <= Z.of_nat (fact n)) by (apply Nat2Z.inj_le; nia); lia]. cbn [bind]. rewrite Q. destruct (Z.eqb_spec (Z.of_nat q) 0); [lia|]. f_equal.
  rewrite <- F, Nat2Z.inj_mul. apply Z.quot_mul. lia.
Qed.
(* C217: the binomial coefficient is defined exactly for 0 <= k <= n <= 12, and then it is the entry of Pascal's triangle *)
Theorem C217_binomial_partial (n k : Z) : m_binomial n k =
  if (0 <=? k) && (k <=? n) && (n <=? 12) then Ok (Z.of_nat (binom (Z.to_nat n) (Z.to_nat k))) else UB.
Proof.
  unfold m_binomial. rewrite !C217_factorial.
  destruct (Z.leb_spec 0 k), (Z.leb_spec k n), (Z.leb_spec n 12), (Z.leb_spec 0 n), (Z.leb_spec k 12), (Z.leb_spec 0 (n - k)), (Z.leb_spec (n - k) 12); cbn [andb bind]; try lia; try reflexivity.
  replace (Z.to_nat (n - k)) with (Z.to_nat n - Z.to_nat k)%nat by lia. apply quotient; lia.
Qed.
(* C217: the number of nodes of an element of order R in dimension M *)
Theorem C217_nnodes_partial (M R : Z) : 0 <= M -> 0 <= R -> m_nnodes M R = if M + R <=? 12 then Ok (Z.of_nat (binom (Z.to_nat M + Z.to_nat R) (Z.to_nat M))) else UB.
Proof.
  intros HM HR. unfold m_nnodes. rewrite !C217_factorial.
  destruct (Z.leb_spec (M + R) 12), (Z.leb_spec 0 (M + R)), (Z.leb_spec 0 M), (Z.leb_spec M 12), (Z.leb_spec 0 R), (Z.leb_spec R 12); cbn [andb bind]; try lia; try reflexivity.
  replace (Z.to_nat (M + R)) with (Z.to_nat M + Z.to_nat R)%nat by lia. assert (Q := quotient (Z.to_nat M + Z.to_nat R) (Z.to_nat M) ltac:(lia) ltac:(lia)). replace (Z.to_nat M + Z.to_nat R - Z.to_nat M)%nat with (Z.to_nat R) in Q by lia. exact Q.
Qed.
(* the number of edges of a simplex of dimension M is the number of pairs of its M + 1 vertices *)
Theorem C217_nedges (M : nat) : fits_int (Z.of_nat M * (Z.of_nat M + 1)) -> m_nedges (Z.of_nat M) = Ok (Z.of_nat (binom (S M) 2)).
Proof.
  intros H. unfold m_nedges. rewrite imul_ok by exact H. cbn [bind]. f_equal.
  assert (B1 : forall n, binom n 1 = n) by (induction n as [|n IH]; [reflexivity|cbn [binom]; rewrite binom_n_0, IH; lia]).
  assert (E : forall m, (2 * binom (S m) 2 = m * (m + 1))%nat). { induction m as [|m IH]; [reflexivity|]. change (binom (S (S m)) 2) with (binom (S m) 1 + binom (S m) 2)%nat. rewrite B1. lia. }
  replace (Z.of_nat M * (Z.of_nat M + 1)) with (Z.of_nat (binom (S M) 2) * 2); [apply Z.quot_mul; lia|]. specialize (E M). lia.
Qed.
(* C217 fails from 13 on, although the value fits: the number of one-element subsets of a set of n elements *)
Theorem C217_refuted (n : Z) : 13 <= n < 2 ^ 31 -> Z.of_nat (binom (Z.to_nat n) 1) = n /\ fits_int n /\ m_binomial n 1 = UB.
Proof.
  intros H. assert (B1 : forall m, binom m 1 = m) by (induction m as [|m IH]; [reflexivity|cbn [binom]; rewrite binom_n_0, IH; lia]).
  rewrite B1. split; [lia|]. split; [unfold fits_int; lia|]. rewrite C217_binomial_partial. rewrite (proj2 (Z.leb_gt n 12)) by lia. now rewrite Bool.andb_false_r.
Qed.
Example C217_example : m_binomial 12 6 = Ok 924 /\ m_nnodes 3 2 = Ok 10 /\ m_nedges 3 = Ok 6 /\ m_binomial 13 6 = UB.
Proof. vm_compute. auto. Qed.
Print Assumptions C217_binomial_partial.
Print Assumptions C217_refuted.
