(* C185: Kronecker products as matrices: transposes, inverses, associativity, definiteness.  Uses the axioms of Coq's reals. *)
From Verif Require Import Base RSum KronModel KronProps.

(* ------------------------------------------------------------------ specification *)
Definition transpose (m : dmat) : dmat := DMat (dc m) (dr m) (fun i j => dent m j i).
Definition agree (a b : dmat) : Prop := dr a = dr b /\ dc a = dc b /\ forall i j, (i < dr a)%nat -> (j < dc a)%nat -> dent a i j = dent b i j.
Definition identity (n : nat) : dmat := DMat n n (fun i j => if Nat.eqb i j then 1 else 0).
Definition inverse_matrix (a b : dmat) : Prop := dr a = dc a /\ dr b = dr a /\ dc b = dr a /\ agree (mmul a b) (identity (dr a)) /\ agree (mmul b a) (identity (dr a)).
Definition symmetric_matrix (n : nat) (A : nat -> nat -> R) : Prop := forall i j, (i < n)%nat -> (j < n)%nat -> A i j = A j i.
Definition form (n : nat) (A : nat -> nat -> R) (x : nat -> R) : R := rsum n (fun i => rsum n (fun j => x i * A i j * x j)).
Definition semidefinite (n : nat) (A : nat -> nat -> R) : Prop := forall x, 0 <= form n A x.
Definition definite (n : nat) (A : nat -> nat -> R) : Prop := forall x i, (i < n)%nat -> x i <> 0 -> 0 < form n A x.
(* a sparse matrix holding what the iterators over the columns of the product yield *)
Definition sparse_evaluates (a b k : smat) : Prop :=
  sr k = (sr a * sr b)%nat /\ sc k = (sc a * sc b)%nat /\
  forall j, (j < sc k)%nat -> exists fuel, nth_res (scol k) j = kron_iterate fuel a b j.

(* ------------------------------------------------------------------ quotients and remainders *)
Lemma quot x y z : (z < y)%nat -> ((x * y + z) / y = x)%nat.
Proof. intros H. rewrite Nat.add_comm, Nat.div_add, Nat.div_small; lia. Qed.
Lemma rest x y z : (z < y)%nat -> ((x * y + z) mod y = z)%nat.
Proof. intros H. rewrite Nat.add_comm, Nat.mod_add, Nat.mod_small; lia. Qed.
Lemma evaluates_entry a b k i j : evaluates a b k -> (i < dr a * dr b)%nat -> (j < dc a * dc b)%nat ->
  dent k i j = dent a (i / dr b) (j / dc b) * dent b (i mod dr b) (j mod dc b).
Proof.
  intros (R1 & C1 & E) Hi Hj. unfold kron_rows, kron_cols in *. specialize (E i j ltac:(lia) ltac:(lia)).
  rewrite kron_dense_coeff in E by (unfold kron_rows, kron_cols; lia). congruence.
Qed.
Theorem C185_transpose a b k kt : evaluates a b k -> evaluates (transpose a) (transpose b) kt -> agree (transpose k) kt.
Proof.
  intros H Ht. assert (A := H). assert (B := Ht). destruct A as (R1 & C1 & _). destruct B as (R2 & C2 & _). unfold kron_rows, kron_cols in *. cbn in *.
  split; [cbn; congruence|]. split; [cbn; congruence|]. intros i j Hi Hj. cbn in Hi, Hj |- *.
  rewrite (evaluates_entry _ _ _ _ _ H) by lia. rewrite (evaluates_entry _ _ _ _ _ Ht) by (cbn; lia). reflexivity.
Qed.
Theorem C185_associative a b c ab bc l r : evaluates a b ab -> evaluates b c bc -> evaluates ab c l -> evaluates a bc r -> agree l r.
Proof.
  intros H1 H2 H3 H4. assert (S1 := H1). assert (S2 := H2). assert (S3 := H3). assert (S4 := H4).
  destruct S1 as (R1 & C1 & _). destruct S2 as (R2 & C2 & _). destruct S3 as (R3 & C3 & _). destruct S4 as (R4 & C4 & _). unfold kron_rows, kron_cols in *.
  split; [rewrite R3, R4, R1, R2; lia|]. split; [rewrite C3, C4, C1, C2; lia|]. intros i j Hi Hj. rewrite R3, R1 in Hi. rewrite C3, C1 in Hj.
  assert (N0 : (dr a <> 0 /\ dr b <> 0 /\ dr c <> 0 /\ dc a <> 0 /\ dc b <> 0 /\ dc c <> 0)%nat) by nia. destruct N0 as (N1 & N2 & N3 & N4 & N5 & N6).
  assert (D1 : (i / dr c < dr a * dr b)%nat) by (apply Nat.div_lt_upper_bound; lia).
  assert (D2 : (j / dc c < dc a * dc b)%nat) by (apply Nat.div_lt_upper_bound; lia).
  rewrite (evaluates_entry _ _ _ _ _ H3) by (rewrite ?R1, ?C1; lia). rewrite (evaluates_entry _ _ _ _ _ H1) by lia.
  rewrite (evaluates_entry _ _ _ _ _ H4) by (rewrite ?R2, ?C2; lia).
  assert (M1 : (i mod dr bc < dr b * dr c)%nat) by (rewrite R2; apply Nat.mod_upper_bound; nia).
  assert (M2 : (j mod dc bc < dc b * dc c)%nat) by (rewrite C2; apply Nat.mod_upper_bound; nia).
  rewrite (evaluates_entry _ _ _ _ _ H2) by lia. rewrite R2, C2.
  rewrite (Nat.mul_comm (dr b) (dr c)), (Nat.mul_comm (dc b) (dc c)), <- !Nat.div_div by lia.
  assert (T : forall x p q, p <> 0%nat -> q <> 0%nat -> ((x mod (p * q)) / p = (x / p) mod q /\ (x mod (p * q)) mod p = x mod p)%nat).
  { intros x p q Hp Hq. rewrite Nat.mod_mul_r by auto. split.
    - rewrite (Nat.mul_comm p), Nat.div_add by auto. rewrite Nat.div_small by (apply Nat.mod_upper_bound; auto). reflexivity.
    - rewrite (Nat.mul_comm p), Nat.mod_add by auto. apply Nat.mod_mod; auto. }
  destruct (T i (dr c) (dr b)) as [-> ->]; auto. destruct (T j (dc c) (dc b)) as [-> ->]; auto. ring.
Qed.
Lemma identity_product n m k : evaluates (identity n) (identity m) k -> agree k (identity (n * m)).
Proof.
  intros H. assert (S1 := H). destruct S1 as (R1 & C1 & _). unfold kron_rows, kron_cols in *. cbn in R1, C1.
  split; [auto|]. split; [auto|]. intros i j Hi Hj. rewrite (evaluates_entry _ _ _ _ _ H) by (cbn; lia). cbn.
  assert (Hm : m <> 0%nat) by nia. pose proof (Nat.div_mod i m Hm). pose proof (Nat.div_mod j m Hm).
  destruct (Nat.eqb_spec (i / m) (j / m)) as [E1|E1], (Nat.eqb_spec (i mod m) (j mod m)) as [E2|E2], (Nat.eqb_spec i j) as [E3|E3]; try lra; exfalso; subst; try congruence.
Qed.
(* every product has a value *)
Lemma evaluates_exists a b : exists k, evaluates a b k.
Proof.
  exists (DMat (kron_rows a b) (kron_cols a b) (fun i j => dent a (i / dr b) (j / dc b) * dent b (i mod dr b) (j mod dc b))).
  split; [reflexivity|]. split; [reflexivity|]. cbn. intros. now apply kron_dense_coeff.
Qed.
Lemma evaluates_agree a b a' b' k k' : agree a a' -> agree b b' -> evaluates a b k -> evaluates a' b' k' -> agree k k'.
Proof.
  intros (A1 & A2 & A3) (B1 & B2 & B3) H H'. assert (S1 := H). destruct S1 as (R1 & C1 & _). assert (S2 := H'). destruct S2 as (R2 & C2 & _). unfold kron_rows, kron_cols in *.
  split; [congruence|]. split; [congruence|]. intros i j Hi Hj. rewrite R1 in Hi. rewrite C1 in Hj.
  rewrite (evaluates_entry _ _ _ _ _ H) by auto. rewrite (evaluates_entry _ _ _ _ _ H') by congruence.
  destruct (div_lt_mul _ _ _ Hi) as [D1 D2]. destruct (div_lt_mul _ _ _ Hj) as [D3 D4].
  rewrite <- B1, <- B2. rewrite A3, B3 by auto. reflexivity.
Qed.
Lemma agree_trans a b c : agree a b -> agree b c -> agree a c.
Proof. intros (A1 & A2 & A3) (B1 & B2 & B3). split; [congruence|]. split; [congruence|]. intros i j Hi Hj. rewrite A3 by auto. apply B3; congruence. Qed.
(* (A x B)^-1 = A^-1 x B^-1 *)
Theorem C185_inverse a b a' b' k k' : inverse_matrix a a' -> inverse_matrix b b' -> evaluates a b k -> evaluates a' b' k' -> inverse_matrix k k'.
Proof.
  intros (A1 & A2 & A3 & A4 & A5) (B1 & B2 & B3 & B4 & B5) H H'. assert (S1 := H). assert (S2 := H'). destruct S1 as (R1 & C1 & _). destruct S2 as (R2 & C2 & _). unfold kron_rows, kron_cols in *.
  assert (G : forall a b a' b' k k', evaluates a b k -> evaluates a' b' k' -> dc a = dr a' -> dc b = dr b' -> forall n m, agree (mmul a a') (identity n) -> agree (mmul b b') (identity m) -> agree (mmul k k') (identity (n * m))).
  { clear. intros a b a' b' k k' H H' Ha Hb n m Ia Ib. destruct (evaluates_exists (mmul a a') (mmul b b')) as [e He].
    destruct (kron_mixed_product a b a' b' k k' e Ha Hb H H' He) as (X1 & X2 & X3). destruct (evaluates_exists (identity n) (identity m)) as [e' He'].
    apply (agree_trans _ e); [split; [exact X1|]; split; [exact X2|]; intros i j Hi Hj; apply X3; congruence|].
    apply (agree_trans _ e'); [exact (evaluates_agree _ _ _ _ _ _ Ia Ib He He')|now apply identity_product]. }
  split; [congruence|]. split; [congruence|]. split; [congruence|]. rewrite R1.
  split; [apply (G a b a' b')|apply (G a' b' a b)]; auto; congruence.
Qed.

(* ------------------------------------------------------------------ definiteness *)
Lemma rsum_first n (f : nat -> R) : rsum (S n) f = f 0%nat + rsum n (fun i => f (S i)).
Proof. change (S n) with (1 + n)%nat. rewrite rsum_app. cbn [rsum]. rewrite Rplus_0_l. reflexivity. Qed.
Lemma form_first n A x : symmetric_matrix (S n) A ->
  form (S n) A x = A 0%nat 0%nat * x 0%nat * x 0%nat + 2 * x 0%nat * rsum n (fun j => A 0%nat (S j) * x (S j)) + form n (fun i j => A (S i) (S j)) (fun i => x (S i)).
Proof.
  intros HS. unfold form. rewrite rsum_first.
  rewrite (rsum_ext n (fun i => rsum (S n) (fun j => x (S i) * A (S i) j * x j)) (fun i => x 0%nat * (A 0%nat (S i) * x (S i)) + rsum n (fun j => x (S i) * A (S i) (S j) * x (S j)))).
  - rewrite rsum_plus, rsum_scal, rsum_first.
    rewrite (rsum_ext n (fun i => x 0%nat * A 0%nat (S i) * x (S i)) (fun i => x 0%nat * (A 0%nat (S i) * x (S i)))) by (intros; ring). rewrite rsum_scal. ring.
  - intros i Hi. rewrite rsum_first. rewrite (HS 0%nat (S i)) by lia. ring.
Qed.
Lemma form_corner n A : symmetric_matrix (S n) A -> form (S n) A (fun i => match i with O => 1 | _ => 0 end) = A 0%nat 0%nat.
Proof.
  intros HS. rewrite form_first by auto. cbn beta iota. rewrite (rsum_zero n) by (intros; ring).
  unfold form. rewrite (rsum_zero n) by (intros; apply rsum_zero; intros; ring). ring.
Qed.
(* a nonnegative quadratic polynomial s^2 a + 2 s b + c >= 0 *)
Lemma quadratic a b c : (forall s, 0 <= a * s * s + 2 * s * b + c) -> 0 <= a /\ (a = 0 -> b = 0).
Proof.
  intros H. assert (A : 0 <= a).
  { destruct (Rle_dec 0 a) as [|Hn]; auto. exfalso. apply Rnot_le_lt in Hn.
    set (m := 1 + Rabs b + Rabs c). assert (Hb := Rle_abs b). assert (Hc := Rle_abs c). assert (Hb' := Rabs_pos b). assert (Hc' := Rabs_pos c).
    assert (X := H (m * (2 * / (- a) + 1))). set (t := 2 * / (- a) + 1) in *. assert (Ht : - a * t = 2 - a) by (unfold t; field; lra).
    assert (Hi : 0 < / - a) by (apply Rinv_0_lt_compat; lra). assert (Ht1 : 1 <= t) by (unfold t; lra).
    assert (Hm : 1 <= m) by (unfold m; lra).
    assert (Y : a * (m * t) * (m * t) = - (2 - a) * (m * (m * t))) by (rewrite <- Ht; ring).
    rewrite Y in X. assert (Z : 1 <= m * t) by nra. assert (Zb : b <= m) by (unfold m; lra). assert (Zc : c <= m) by (unfold m; lra).
    assert (2 * (m * t) * b <= 2 * (m * t) * m) by (apply Rmult_le_compat_l; lra). assert (c <= m * (m * t)) by nra. nra. }
  split; auto. intros ->. destruct (Req_dec b 0) as [|Hb]; auto. exfalso. assert (X := H (- (1 + Rabs c) * / b)).
  replace (0 * (- (1 + Rabs c) * / b) * (- (1 + Rabs c) * / b) + 2 * (- (1 + Rabs c) * / b) * b + c) with (- 2 * (1 + Rabs c) + c) in X by (field; auto).
  assert (Hc := Rle_abs c). assert (Hc' := Rabs_pos c). lra.
Qed.
(* <X, Y> = sum of X r B r s Y s *)
Definition inner (m : nat) (B : nat -> nat -> R) (X Y : nat -> R) : R := rsum m (fun r => rsum m (fun s => X r * B r s * Y s)).
Definition tensor_form (n m : nat) (A B : nat -> nat -> R) (X : nat -> nat -> R) : R :=
  rsum n (fun i => rsum n (fun j => A i j * inner m B (X i) (X j))).
Lemma inner_sym m B X Y : symmetric_matrix m B -> inner m B X Y = inner m B Y X.
Proof.
  intros H. unfold inner. rewrite rsum_swap. apply rsum_ext. intros r Hr. apply rsum_ext. intros s Hs. rewrite (H s r) by auto. ring.
Qed.
Lemma inner_plus m B X Y Z : inner m B X (fun s => Y s + Z s) = inner m B X Y + inner m B X Z.
Proof.
  unfold inner. rewrite <- rsum_plus. apply rsum_ext. intros r _. rewrite <- rsum_plus. apply rsum_ext. intros s _. ring.
Qed.
Lemma inner_scal m B X c Y : inner m B X (fun s => c * Y s) = c * inner m B X Y.
Proof.
  unfold inner. rewrite <- rsum_scal. apply rsum_ext. intros r _. rewrite <- rsum_scal. apply rsum_ext. intros s _. ring.
Qed.
Lemma inner_rsum m B X n (Y : nat -> nat -> R) : inner m B X (fun s => rsum n (fun j => Y j s)) = rsum n (fun j => inner m B X (Y j)).
Proof.
  unfold inner. rewrite (rsum_swap n m). apply rsum_ext. intros r _. rewrite rsum_swap. apply rsum_ext. intros s _. rewrite rsum_scal. reflexivity.
Qed.
Lemma tensor_first n m A B X : symmetric_matrix (S n) A -> symmetric_matrix m B ->
  tensor_form (S n) m A B X = A 0%nat 0%nat * inner m B (X 0%nat) (X 0%nat) + 2 * rsum n (fun j => A 0%nat (S j) * inner m B (X 0%nat) (X (S j)))
    + tensor_form n m (fun i j => A (S i) (S j)) B (fun i => X (S i)).
Proof.
  intros HA HB. unfold tensor_form. rewrite rsum_first.
  rewrite (rsum_ext n (fun i => rsum (S n) (fun j => A (S i) j * inner m B (X (S i)) (X j))) (fun i => A 0%nat (S i) * inner m B (X 0%nat) (X (S i)) + rsum n (fun j => A (S i) (S j) * inner m B (X (S i)) (X (S j))))).
  - rewrite rsum_plus, rsum_first. ring.
  - intros i Hi. rewrite rsum_first. rewrite (HA 0%nat (S i)) by lia. rewrite (inner_sym m B (X 0%nat)) by auto. reflexivity.
Qed.
(* elimination of the first row and column *)
Definition schur (A : nat -> nat -> R) (i j : nat) : R := A (S i) (S j) - A 0%nat (S i) * A 0%nat (S j) / A 0%nat 0%nat.
Lemma schur_sym n A : symmetric_matrix (S n) A -> symmetric_matrix n (schur A).
Proof. intros H i j Hi Hj. unfold schur. rewrite (H (S i) (S j)) by lia. unfold Rdiv. ring. Qed.
Lemma form_schur n A x : symmetric_matrix (S n) A -> A 0%nat 0%nat <> 0 ->
  form (S n) A x = A 0%nat 0%nat * (x 0%nat + rsum n (fun j => A 0%nat (S j) / A 0%nat 0%nat * x (S j))) * (x 0%nat + rsum n (fun j => A 0%nat (S j) / A 0%nat 0%nat * x (S j)))
    + form n (schur A) (fun i => x (S i)).
Proof.
  intros H Ha. rewrite form_first by auto. set (a := A 0%nat 0%nat) in *. set (t := rsum n (fun j => A 0%nat (S j) * x (S j))).
  rewrite (rsum_ext n (fun j => A 0%nat (S j) / a * x (S j)) (fun j => / a * (A 0%nat (S j) * x (S j)))) by (intros; field; auto). rewrite rsum_scal. fold t.
  assert (E : form n (schur A) (fun i => x (S i)) = form n (fun i j => A (S i) (S j)) (fun i => x (S i)) - t * t / a).
  { unfold form, schur. fold a. rewrite (rsum_ext n _ (fun i => rsum n (fun j => x (S i) * A (S i) (S j) * x (S j)) - (A 0%nat (S i) * x (S i)) * (t / a))).
    - rewrite rsum_minus, rsum_scal_r. fold t. field. auto.
    - intros i _. rewrite (rsum_ext n _ (fun j => x (S i) * A (S i) (S j) * x (S j) - (x (S i) * A 0%nat (S i) / a) * (A 0%nat (S j) * x (S j)))) by (intros; field; auto).
      rewrite rsum_minus, rsum_scal. fold t. field. auto. }
  rewrite E. field. auto.
Qed.
Lemma tensor_schur n m A B X : symmetric_matrix (S n) A -> symmetric_matrix m B -> A 0%nat 0%nat <> 0 ->
  let Y := fun s => X 0%nat s + rsum n (fun j => A 0%nat (S j) / A 0%nat 0%nat * X (S j) s) in
  tensor_form (S n) m A B X = A 0%nat 0%nat * inner m B Y Y + tensor_form n m (schur A) B (fun i => X (S i)).
Proof.
  intros HA HB Ha Y. set (a := A 0%nat 0%nat) in *. rewrite tensor_first by auto. fold a. set (Z := fun s => rsum n (fun j => A 0%nat (S j) / a * X (S j) s)).
  assert (EZ : forall W, inner m B W Z = / a * rsum n (fun j => A 0%nat (S j) * inner m B W (X (S j)))).
  { intros W. unfold Z. rewrite inner_rsum. rewrite <- rsum_scal. apply rsum_ext. intros j _. rewrite inner_scal. field. auto. }
  assert (EY : inner m B Y Y = inner m B (X 0%nat) (X 0%nat) + 2 * inner m B (X 0%nat) Z + inner m B Z Z).
  { change Y with (fun s => X 0%nat s + Z s). rewrite inner_plus. rewrite (inner_sym m B _ (X 0%nat)), (inner_sym m B _ Z) by auto. rewrite !inner_plus.
    rewrite (inner_sym m B Z (X 0%nat)) by auto. ring. }
  assert (ES : tensor_form n m (schur A) B (fun i => X (S i)) = tensor_form n m (fun i j => A (S i) (S j)) B (fun i => X (S i)) - a * inner m B Z Z).
  { unfold tensor_form, schur. fold a.
    rewrite (rsum_ext n _ (fun i => rsum n (fun j => A (S i) (S j) * inner m B (X (S i)) (X (S j))) - A 0%nat (S i) * inner m B Z (X (S i)))).
    - rewrite rsum_minus. rewrite (EZ Z). field. auto.
    - intros i _. rewrite (inner_sym m B Z) by auto. rewrite EZ. rewrite <- !rsum_scal, <- rsum_minus. apply rsum_ext. intros j _. field. auto. }
  rewrite ES, EY, EZ. field. auto.
Qed.
Lemma pivot n A : semidefinite (S n) A -> symmetric_matrix (S n) A -> 0 <= A 0%nat 0%nat /\ (A 0%nat 0%nat = 0 -> forall j, (j < n)%nat -> A 0%nat (S j) = 0).
Proof.
  intros HP HS.
  assert (Q : forall j, (j < n)%nat -> forall s, 0 <= A 0%nat 0%nat * s * s + 2 * s * A 0%nat (S j) + A (S j) (S j)).
  { intros j Hj s. assert (X := HP (fun i => match i with O => s | S k => if Nat.eqb k j then 1 else 0 end)). rewrite form_first in X by auto. cbn beta iota in X.
    rewrite (rsum_single n (fun j0 => A 0%nat (S j0) * _) j Hj) in X by (intros k _ Hk; destruct (Nat.eqb_spec k j); [contradiction|ring]). rewrite Nat.eqb_refl in X.
    unfold form in X. rewrite (rsum_single n _ j Hj) in X by (intros k _ Hk; apply rsum_zero; intros l _; destruct (Nat.eqb_spec k j); [contradiction|ring]).
    rewrite (rsum_single n _ j Hj) in X by (intros k _ Hk; destruct (Nat.eqb_spec k j); [contradiction|ring]). rewrite Nat.eqb_refl in X. lra. }
  split.
  - assert (X := HP (fun i => match i with O => 1 | _ => 0 end)). rewrite form_corner in X by auto. exact X.
  - intros E j Hj. exact (proj2 (quadratic _ _ _ (Q j Hj)) E).
Qed.
Lemma tail_semidefinite n A : semidefinite (S n) A -> symmetric_matrix (S n) A -> semidefinite n (fun i j => A (S i) (S j)).
Proof.
  intros HP HS x. assert (X := HP (fun i => match i with O => 0 | S k => x k end)). rewrite form_first in X by auto. cbn beta iota in X. change (fun i => x i) with x in X. lra.
Qed.
Lemma schur_semidefinite n A : semidefinite (S n) A -> symmetric_matrix (S n) A -> A 0%nat 0%nat <> 0 -> semidefinite n (schur A).
Proof.
  intros HP HS Ha x. assert (X := HP (fun i => match i with O => - rsum n (fun j => A 0%nat (S j) / A 0%nat 0%nat * x j) | S k => x k end)).
  rewrite form_schur in X by auto. cbn beta iota in X. rewrite Rplus_opp_l in X. change (fun i => x i) with x in X. lra.
Qed.
Lemma schur_definite n A : definite (S n) A -> symmetric_matrix (S n) A -> A 0%nat 0%nat <> 0 -> definite n (schur A).
Proof.
  intros HP HS Ha x i Hi Hx. assert (X := HP (fun i => match i with O => - rsum n (fun j => A 0%nat (S j) / A 0%nat 0%nat * x j) | S k => x k end) (S i) ltac:(lia) Hx).
  rewrite form_schur in X by auto. cbn beta iota in X. rewrite Rplus_opp_l in X. change (fun i => x i) with x in X. lra.
Qed.
Lemma definite_semidefinite n A : definite n A -> semidefinite n A.
Proof.
  intros H x. assert (D : (exists i, (i < n)%nat /\ x i <> 0) \/ forall i, (i < n)%nat -> x i = 0).
  { clear H A. induction n as [|n IH]; [right; intros; lia|]. destruct IH as [(i & Hi & Hx)|Hz]; [left; exists i; auto|].
    destruct (Req_dec (x n) 0) as [E|E]; [right; intros i Hi; destruct (Nat.eq_dec i n) as [->|]; auto; apply Hz; lia|left; exists n; auto]. }
  destruct D as [(i & Hi & Hx)|Hz]; [left; eauto|]. right. unfold form. symmetry. apply rsum_zero. intros i Hi. apply rsum_zero. intros j Hj. rewrite Hz by auto. ring.
Qed.
Lemma tensor_semidefinite m B : symmetric_matrix m B -> semidefinite m B -> forall n A X, symmetric_matrix n A -> semidefinite n A -> 0 <= tensor_form n m A B X.
Proof.
  intros SB PB. induction n as [|n IH]; intros A X SA PA; [unfold tensor_form; cbn; lra|].
  destruct (pivot n A PA SA) as [P0 P1]. destruct (Req_dec (A 0%nat 0%nat) 0) as [E|E].
  - rewrite tensor_first by auto. rewrite E. rewrite (rsum_zero n) by (intros j Hj; rewrite (P1 E j Hj); ring).
    assert (Y := IH (fun i j => A (S i) (S j)) (fun i => X (S i))). cbn beta in Y.
    assert (0 <= tensor_form n m (fun i j => A (S i) (S j)) B (fun i => X (S i))); [|lra].
    apply Y; [intros i j Hi Hj; apply SA; lia|now apply tail_semidefinite].
  - rewrite tensor_schur by auto. cbn zeta. match goal with |- 0 <= _ * inner m B ?Y ?Y + _ => assert (HY := PB Y); change (form m B Y) with (inner m B Y Y) in HY; set (y := inner m B Y Y) in * end.
    assert (Z := IH (schur A) (fun i => X (S i)) (schur_sym n A SA) (schur_semidefinite n A PA SA E)). assert (0 <= A 0%nat 0%nat * y) by (apply Rmult_le_pos; auto). lra.
Qed.
Lemma tensor_definite m B : symmetric_matrix m B -> definite m B -> forall n A X i r, symmetric_matrix n A -> definite n A ->
  (i < n)%nat -> (r < m)%nat -> X i r <> 0 -> 0 < tensor_form n m A B X.
Proof.
  intros SB PB. induction n as [|n IH]; intros A X i r SA PA Hi Hr HX; [lia|].
  assert (E : 0 < A 0%nat 0%nat).
  { assert (Y := PA (fun i => match i with O => 1 | _ => 0 end) 0%nat ltac:(lia) R1_neq_R0). rewrite form_corner in Y by auto. exact Y. }
  rewrite tensor_schur by (auto; lra). cbn zeta. set (Y := fun s => X 0%nat s + rsum n (fun j => A 0%nat (S j) / A 0%nat 0%nat * X (S j) s)).
  assert (SS := schur_sym n A SA). assert (PS := schur_definite n A PA SA ltac:(lra)).
  assert (HY : 0 <= inner m B Y Y) by exact (definite_semidefinite m B PB Y).
  assert (D : (exists i r, (i < n)%nat /\ (r < m)%nat /\ X (S i) r <> 0) \/ forall i r, (i < n)%nat -> (r < m)%nat -> X (S i) r = 0).
  { clear - X. induction n as [|n IH]; [right; intros; lia|]. destruct IH as [(i & r & Hi & Hr & Hx)|Hz]; [left; exists i, r; auto|].
    assert (D : (exists r, (r < m)%nat /\ X (S n) r <> 0) \/ forall r, (r < m)%nat -> X (S n) r = 0).
    { clear. generalize (X (S n)) as x. intros x. induction m as [|m IH]; [right; intros; lia|]. destruct IH as [(i & Hi & Hx)|Hz]; [left; exists i; auto|].
      destruct (Req_dec (x m) 0) as [E|E]; [right; intros i Hi; destruct (Nat.eq_dec i m) as [->|]; auto; apply Hz; lia|left; exists m; auto]. }
    destruct D as [(r & Hr & Hx)|Hz']; [left; exists n, r; auto|]. right. intros i r Hi Hr. destruct (Nat.eq_dec i n) as [->|]; [auto|apply Hz; auto; lia]. }
  destruct D as [(i' & r' & Hi' & Hr' & Hx)|Hz].
  - assert (Z := IH (schur A) (fun i => X (S i)) i' r' SS PS Hi' Hr' Hx). assert (0 <= A 0%nat 0%nat * inner m B Y Y) by (apply Rmult_le_pos; lra). lra.
  - destruct i as [|i]; [|exfalso; apply HX, Hz; auto; lia].
    assert (0 < inner m B Y Y).
    { apply (PB Y r Hr). unfold Y. rewrite rsum_zero by (intros j Hj; rewrite Hz by auto; ring). lra. }
    assert (0 <= tensor_form n m (schur A) B (fun i => X (S i))) by (apply tensor_semidefinite; auto; apply definite_semidefinite; auto).
    assert (0 < A 0%nat 0%nat * inner m B Y Y) by (apply Rmult_lt_0_compat; auto). lra.
Qed.
(* the quadratic form of the product of entries A(i/m, j/m) B(i mod m, j mod m) *)
Lemma product_form n m A B K x : (forall i j, (i < n * m)%nat -> (j < n * m)%nat -> K i j = A (i / m)%nat (j / m)%nat * B (i mod m)%nat (j mod m)%nat) ->
  form (n * m) K x = tensor_form n m A B (fun i r => x (i * m + r)%nat).
Proof.
  intros HK. unfold form, tensor_form, inner. rewrite rsum_mul. apply rsum_ext. intros i Hi.
  rewrite (rsum_ext n _ (fun j => rsum m (fun r => rsum m (fun s => A i j * (x (i * m + r)%nat * B r s * x (j * m + s)%nat))))).
  2:{ intros j _. rewrite <- rsum_scal. apply rsum_ext. intros r _. rewrite <- rsum_scal. reflexivity. }
  rewrite (rsum_swap n m). apply rsum_ext. intros r Hr. rewrite rsum_mul. apply rsum_ext. intros j Hj. apply rsum_ext. intros s Hs.
  rewrite HK by nia. rewrite !quot, !rest by auto. ring.
Qed.
Theorem product_definiteness n m A B K :
  (forall i j, (i < n * m)%nat -> (j < n * m)%nat -> K i j = A (i / m)%nat (j / m)%nat * B (i mod m)%nat (j mod m)%nat) ->
  symmetric_matrix n A -> symmetric_matrix m B ->
  symmetric_matrix (n * m) K /\ (semidefinite n A -> semidefinite m B -> semidefinite (n * m) K) /\ (definite n A -> definite m B -> definite (n * m) K).
Proof.
  intros HK SA SB. split; [|split].
  - intros i j Hi Hj. rewrite !HK by auto. destruct (div_lt_mul _ _ _ Hi). destruct (div_lt_mul _ _ _ Hj). rewrite SA, SB by auto. reflexivity.
  - intros PA PB x. rewrite (product_form n m A B K x HK). now apply tensor_semidefinite.
  - intros PA PB x i Hi Hx. rewrite (product_form n m A B K x HK). destruct (div_lt_mul _ _ _ Hi) as [D1 D2].
    apply (tensor_definite m B SB PB n A _ (i / m)%nat (i mod m)%nat); auto. cbn beta.
    replace (i / m * m + i mod m)%nat with i; [auto|]. rewrite Nat.mul_comm. apply Nat.div_mod. lia.
Qed.
Theorem C185_definite a b k : dr a = dc a -> dr b = dc b -> evaluates a b k -> symmetric_matrix (dr a) (dent a) -> symmetric_matrix (dr b) (dent b) ->
  dr k = dc k /\ symmetric_matrix (dr k) (dent k) /\
  (semidefinite (dr a) (dent a) -> semidefinite (dr b) (dent b) -> semidefinite (dr k) (dent k)) /\
  (definite (dr a) (dent a) -> definite (dr b) (dent b) -> definite (dr k) (dent k)).
Proof.
  intros Qa Qb H SA SB. assert (S1 := H). destruct S1 as (R1 & C1 & _). unfold kron_rows, kron_cols in *. split; [congruence|]. rewrite R1.
  apply product_definiteness; auto. intros i j Hi Hj. rewrite (evaluates_entry _ _ _ _ _ H) by congruence. now rewrite <- Qb.
Qed.
(* the same for sparse operands *)
Lemma sparse_entry a b k i j : (forall c e, In c (scol b) -> In e c -> (fst e < sr b)%nat) -> sparse_evaluates a b k -> (i < sr k)%nat -> (j < sc k)%nat ->
  sent k i j = sent a (i / sr b) (j / sc b) * sent b (i mod sr b) (j mod sc b).
Proof.
  intros Hb (R1 & C1 & E) Hi Hj. destruct (E j Hj) as [fuel Ej].
  assert (Hj' := Hj). rewrite C1 in Hj'. destruct (div_lt_mul _ _ _ Hj') as [D1 D2].
  destruct (nth_error (scol a) (j / sc b)) as [l|] eqn:El; [|apply nth_error_None in El; unfold sc in *; lia].
  destruct (nth_error (scol b) (j mod sc b)) as [r|] eqn:Er; [|apply nth_error_None in Er; unfold sc in *; lia].
  destruct (nth_error (scol k) j) as [c|] eqn:Ec; [|apply nth_error_None in Ec; unfold sc in *; lia].
  unfold nth_res in Ej. rewrite Ec in Ej.
  assert (Ec' : c = kron_column (sr b) l r).
  { assert (Big := kron_sparse_iterate a b (j / sc b) (j mod sc b) l r (S (length l * length r) + fuel) El Er ltac:(lia)).
    replace (j / sc b * sc b + j mod sc b)%nat with j in Big by (rewrite Nat.mul_comm; apply Nat.div_mod; lia).
    assert (Mono : forall f g inner full it v, kcollect f inner full it = Ok v -> (f <= g)%nat -> kcollect g inner full it = Ok v).
    { clear. induction f as [|f IH]; intros g inner full it v H Hg.
      - cbn in H. destruct g; cbn; destruct (kcur it); auto; discriminate.
      - destruct g as [|g]; [lia|]. cbn in H |- *. destruct (kcur it); auto. destruct (kincr inner full it) as [it'| | |]; cbn in *; try discriminate.
        destruct (kcollect f inner full it') as [t| | |] eqn:Et; cbn in H; try discriminate. rewrite (IH g _ _ _ t Et) by lia. exact H. }
    unfold kron_iterate in Ej, Big. unfold nth_res in Ej, Big. rewrite Er in Ej, Big. cbn [bind] in Ej, Big.
    destruct (kbegin a b j) as [it| | |]; cbn [bind] in Ej, Big; try discriminate.
    symmetry in Ej. rewrite (Mono fuel (S (length l * length r) + fuel)%nat _ _ _ _ Ej ltac:(lia)) in Big. congruence. }
  unfold sent. rewrite Ec, El, Er, Ec'. apply kron_sparse_coefficient.
  - intros e He. apply (Hb r); auto. now apply nth_error_In in Er.
  - rewrite R1 in Hi. nia.
Qed.
Theorem C185_sparse a b k : sr a = sc a -> sr b = sc b -> (forall c e, In c (scol b) -> In e c -> (fst e < sr b)%nat) -> sparse_evaluates a b k ->
  symmetric_matrix (sr a) (sent a) -> symmetric_matrix (sr b) (sent b) ->
  sr k = sc k /\ symmetric_matrix (sr k) (sent k) /\
  (semidefinite (sr a) (sent a) -> semidefinite (sr b) (sent b) -> semidefinite (sr k) (sent k)) /\
  (definite (sr a) (sent a) -> definite (sr b) (sent b) -> definite (sr k) (sent k)).
Proof.
  intros Qa Qb Hb H SA SB. assert (S1 := H). destruct S1 as (R1 & C1 & _). split; [congruence|]. rewrite R1.
  apply product_definiteness; auto. intros i j Hi Hj. rewrite (sparse_entry _ _ _ _ _ Hb H) by congruence. now rewrite <- Qb.
Qed.
Lemma sparse_evaluates_exists a b : exists k, sparse_evaluates a b k.
Proof.
  set (col := fun j => kron_column (sr b) (nth (j / sc b) (scol a) []) (nth (j mod sc b) (scol b) [])).
  exists (SMat (sr a * sr b) (map col (seq 0 (sc a * sc b)))). split; [reflexivity|].
  assert (L : sc (SMat (sr a * sr b) (map col (seq 0 (sc a * sc b)))) = (sc a * sc b)%nat) by (unfold sc at 1; cbn; rewrite map_length, seq_length; reflexivity).
  split; [exact L|]. rewrite L. intros j Hj. destruct (div_lt_mul _ _ _ Hj) as [D1 D2].
  exists (S (length (nth (j / sc b) (scol a) []) * length (nth (j mod sc b) (scol b) []))).
  pose proof (Nat.div_mod j (sc b) ltac:(lia)) as DM. rewrite Nat.mul_comm in DM.
  assert (KI := kron_sparse_iterate a b (j / sc b) (j mod sc b) (nth (j / sc b) (scol a) []) (nth (j mod sc b) (scol b) [])
    (S (length (nth (j / sc b) (scol a) []) * length (nth (j mod sc b) (scol b) []))) ltac:(now apply nth_error_nth') ltac:(now apply nth_error_nth') ltac:(lia)).
  rewrite <- DM in KI. rewrite KI.
  unfold nth_res. cbn [scol]. rewrite nth_error_map', nth_error_seq, (proj2 (Nat.ltb_lt _ _) Hj). reflexivity.
Qed.
(* the operands of a space-time penalty: a mass matrix and a stiffness matrix *)
Example C185_example : let a := DMat 2 2 (fun i j => if Nat.eqb i j then 2 else 1) in let b := DMat 2 2 (fun i j => if Nat.eqb i j then 1 else -1) in
  symmetric_matrix 2 (dent a) /\ definite 2 (dent a) /\ symmetric_matrix 2 (dent b) /\ semidefinite 2 (dent b) /\ (exists k, evaluates a b k) /\
  inverse_matrix a (DMat 2 2 (fun i j => if Nat.eqb i j then 2 / 3 else - / 3)).
Proof.
  intros a b. split; [|split; [|split; [|split; [|split]]]].
  - intros i j _ _. cbn. rewrite Nat.eqb_sym. reflexivity.
  - intros x i Hi Hx. unfold form. cbn. assert (H := Rle_0_sqr (x 0%nat + x 1%nat)). assert (H0 := Rle_0_sqr (x 0%nat)). assert (H1 := Rle_0_sqr (x 1%nat)). unfold Rsqr in *.
    destruct i as [|[|i]]; [| |lia]; assert (X := Rsqr_pos_lt _ Hx); unfold Rsqr in X; lra.
  - intros i j _ _. cbn. rewrite Nat.eqb_sym. reflexivity.
  - intros x. unfold form. cbn. assert (H := Rle_0_sqr (x 0%nat - x 1%nat)). unfold Rsqr in H. lra.
  - apply evaluates_exists.
  - unfold inverse_matrix, agree. cbn. repeat split; auto; intros i j Hi Hj; destruct i as [|[|i]], j as [|[|j]]; try lia; cbn; lra.
Qed.
Print Assumptions C185_transpose.
Print Assumptions C185_associative.
Print Assumptions C185_inverse.
Print Assumptions C185_definite.
Print Assumptions C185_sparse.
