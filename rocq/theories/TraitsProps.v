From Verif Require Import Base TraitsModel.

(* ------------------------------------------------------------------ C89 *)
Lemma ty_eqb_spec a b : reflect (a = b) (ty_eqb a b).
Proof.
  destruct a as [n|t l], b as [m|u k]; cbn; try (constructor; congruence).
  - destruct (Nat.eqb_spec n m); constructor; congruence.
  - destruct (Nat.eqb_spec t u); cbn; [|constructor; congruence]. destruct (list_eq_dec Nat.eq_dec l k); constructor; congruence.
Qed.
Lemma unique_from_spec l : forall t, unique_from t l = true <-> NoDup (t :: l).
Proof.
  induction l as [|u r IH]; intros t; cbn [unique_from].
  - split; [intros _; constructor; [now intros []|constructor]|reflexivity].
  - rewrite !andb_true_iff, negb_true_iff, !IH. destruct (ty_eqb_spec t u) as [->|N].
    + split; [intros [[? _] _]; discriminate|]. intros H. inversion H as [|x y Hx _]. exfalso. apply Hx. now left.
    + split.
      * intros [[_ H1] H2]. inversion H1; subst. constructor; [|exact H2]. intros [E|E]; [congruence|contradiction].
      * intros H. inversion H as [|x y Hx Hn]; subst. inversion Hn; subst. repeat split; auto. constructor; auto. intros E. apply Hx. now right.
Qed.
Theorem C89_unique_types l : l <> [] -> exists b, unique_types l = Some b /\ (b = true <-> NoDup l).
Proof. destruct l as [|t r]; [contradiction|]. intros _. exists (unique_from t r). split; [reflexivity|apply unique_from_spec]. Qed.

Lemma index_sum_none t l : forall k, ~ In t l -> index_sum t l k = 0%Z.
Proof.
  induction l as [|u r IH]; intros k H; cbn; [reflexivity|]. destruct (ty_eqb_spec t u) as [->|N]; [exfalso; apply H; now left|].
  rewrite IH by (intros E; apply H; now right). reflexivity.
Qed.
Lemma index_sum_at t l : forall k i, NoDup l -> nth_error l i = Some t -> index_sum t l k = (k + Z.of_nat i + 1)%Z.
Proof.
  induction l as [|u r IH]; intros k i Hn Hi; [destruct i; discriminate|]. inversion Hn as [|x y Hx Hr]; subst. cbn [index_sum]. destruct i as [|i]; cbn in Hi.
  - injection Hi as ->. destruct (ty_eqb_spec t t); [|congruence]. rewrite index_sum_none by exact Hx. lia.
  - destruct (ty_eqb_spec t u) as [->|_]; [exfalso; apply Hx; eapply nth_error_In; eauto|]. rewrite (IH _ i Hr Hi). lia.
Qed.
Lemma to_int_small z : (-1 <= z < 2 ^ 31)%Z -> to_int (z mod 2 ^ 64) = z.
Proof.
  intros H. unfold to_int. destruct (Z.eq_dec z (-1)) as [->|N]; [reflexivity|]. rewrite (Z.mod_small z) by lia. rewrite Z.mod_small by lia.
  destruct (Z.ltb_spec z (2 ^ 31)); lia.
Qed.
(* position of a type of a duplicate-free list, -1 for a type not in the list; lists fit in an int *)
Theorem C89_index_of l t : l <> [] -> NoDup l -> (Z.of_nat (length l) < 2 ^ 31)%Z ->
  (forall i, nth_error l i = Some t -> index_of t l = Some (Z.of_nat i)) /\ (~ In t l -> index_of t l = Some (-1)%Z).
Proof.
  intros Hl Hn Hs. split.
  - intros i Hi. assert (i < length l) by (apply nth_error_Some; congruence). unfold index_of. destruct l as [|u r]; [contradiction|].
    rewrite (index_sum_at t (u :: r) 0 i Hn Hi), to_int_small; [f_equal; lia|lia].
  - intros Ht. unfold index_of. destruct l as [|u r]; [contradiction|]. now rewrite index_sum_none, to_int_small by (auto; lia).
Qed.
Theorem C89_has_type l t : has_type t l = true <-> In t l.
Proof.
  induction l as [|u r IH]; cbn; [intuition discriminate|]. destruct (ty_eqb_spec t u) as [->|N]; [intuition|]. rewrite IH. intuition congruence.
Qed.
Theorem C89_has_instance_of l e : has_instance_of e l = true <-> exists f, In (Inst e [f]) l.
Proof.
  induction l as [|u r IH]; cbn; [split; [discriminate|intros [f []]]|].
  assert (R : (forall f, u <> Inst e [f]) -> (has_instance_of e r = true <-> exists f, u = Inst e [f] \/ In (Inst e [f]) r)).
  { intros N. rewrite IH. split; intros [f Hf]; exists f; [now right|]. destruct Hf as [E|E]; [exfalso; exact (N f E)|exact E]. }
  destruct u as [n|t [|f [|g k]]]; try (apply R; intros; congruence). destruct (Nat.eqb_spec t e) as [->|N]; [|apply R; intros; congruence].
  split; [intros _; exists f; now left|reflexivity].
Qed.
Theorem C89_switch_type l : (forall k t, nth_error l k = Some (true, t) -> (forall j b u, j < k -> nth_error l j = Some (b, u) -> b = false) -> switch_type l = Ok t) /\
  ((forall k b t, nth_error l k = Some (b, t) -> b = false) -> switch_type l = Throw).
Proof.
  split.
  - induction l as [|[b u] r IH]; intros k t Hk Hb; [destruct k; discriminate|]. destruct k as [|k]; cbn in Hk.
    + injection Hk as -> ->. destruct r; reflexivity.
    + assert (b = false) as -> by (apply (Hb 0 b u); [lia|reflexivity]). destruct r as [|c r]; [destruct k; discriminate|].
      change (switch_type ((false, u) :: c :: r)) with (switch_type (c :: r)). apply (IH k t Hk). intros j b v Hj Hv. apply (Hb (S j) b v); [lia|exact Hv].
  - induction l as [|[b u] r IH]; intros Hb; [reflexivity|]. assert (b = false) as -> by now apply (Hb 0 b u). destruct r as [|c r]; [reflexivity|].
    apply IH. intros k. apply (Hb (S k)).
Qed.
Lemma get_impl_spec l : forall i n, n <= i -> i < n + length l -> get_impl i n l = nth_error l (i - n).
Proof.
  induction l as [|t r IH]; intros i n H1 H2; cbn [length] in H2; [lia|]. destruct r as [|u r].
  - cbn in H2. replace (i - n) with 0 by lia. reflexivity.
  - change (get_impl i n (t :: u :: r)) with (if n =? i then Some t else get_impl i (S n) (u :: r)). destruct (Nat.eqb_spec n i) as [->|N].
    + now rewrite Nat.sub_diag.
    + rewrite IH by (cbn in *; lia). replace (i - n) with (S (i - S n)) by lia. reflexivity.
Qed.
Theorem C89_get l i : type_get i l = nth_error l i.
Proof.
  unfold type_get. destruct (Nat.ltb_spec i (length l)) as [H|H].
  - rewrite get_impl_spec by lia. now rewrite Nat.sub_0_r.
  - symmetry. now apply nth_error_None.
Qed.
Theorem C89_merge V (vs : list (list V)) : vs <> [] -> merge vs = Some (concat vs).
Proof.
  destruct vs as [|v r]; [contradiction|]. intros _. cbn. f_equal. revert v. induction r as [|w r IH]; intros v; cbn; [now rewrite app_nil_r|]. now rewrite IH, app_assoc.
Qed.
Lemma get_range_spec {A} m n (l : list A) : m + n <= length l -> get_range m n l = Some (firstn n (skipn m l)).
Proof.
  intros H. unfold get_range.
  assert (E : mapM (fun i => nth_res l (m + i)) (seq 0 n) = Ok (firstn n (skipn m l))); [|now rewrite E].
  assert (G : forall k s, s + k <= n -> mapM (fun i => nth_res l (m + i)) (seq s k) = Ok (firstn k (skipn (m + s) l))).
  { induction k as [|k IH]; intros s Hs; [reflexivity|]. cbn [seq mapM]. assert (Hlt : m + s < length l) by lia.
    destruct (nth_error l (m + s)) as [a|] eqn:E; [|apply nth_error_None in E; lia]. rewrite (proj2 (nth_res_ok _ _ _) E). cbn [bind].
    rewrite IH by lia. cbn [bind]. f_equal. replace (m + S s) with (S (m + s)) by lia.
    clear -E. revert E. generalize (m + s) as p. intros p. revert l. induction p as [|p IHp]; intros [|x l] E; cbn in E |- *; try discriminate; [now injection E as ->|].
    apply (IHp l E). }
  specialize (G n 0 (Nat.le_refl _)). now rewrite Nat.add_0_r in G.
Qed.
Theorem C89_split A n (l : list A) : n <= length l -> split_head n l = Some (firstn n l) /\ split_tail n l = Some (skipn n l).
Proof.
  intros H. unfold split_head, split_tail. rewrite (proj2 (Nat.leb_le _ _) H). split.
  - rewrite get_range_spec by lia. reflexivity.
  - rewrite get_range_spec by lia. f_equal. rewrite <- skipn_length. apply firstn_all.
Qed.
Example C89_example : unique_types [Plain 0; Plain 1; Plain 0] = Some false /\ index_of (Plain 1) [Plain 0; Inst 3 [1]; Plain 1] = Some 2%Z /\
  NoDup [Plain 0; Inst 3 [1]; Plain 1].
Proof. repeat split; try reflexivity. apply (unique_from_spec [Inst 3 [1]; Plain 1] (Plain 0)). reflexivity. Qed.

(* ------------------------------------------------------------------ C88 *)
Section C88.
Context {M : Type}.
Lemma init_vtable_ok (fs : list M) : forall n vt, fs <> [] -> n + length fs <= length vt -> exists vt', init_vtable n fs vt = Ok vt' /\ length vt' = length vt /\
  (forall k, k < n -> nth_error vt' k = nth_error vt k) /\ (forall k, k < length fs -> nth_error vt' (n + k) = option_map Some (nth_error fs k)).
Proof.
  induction fs as [|f r IH]; intros n vt Hf Hl; [contradiction|]. cbn [length] in Hl.
  assert (U : upd_res vt n (Some f) = Ok (upd vt n (Some f))) by (unfold upd_res; destruct (Nat.ltb_spec n (length vt)); [reflexivity|lia]).
  destruct r as [|g r].
  - exists (upd vt n (Some f)). cbn [init_vtable]. rewrite U. split; [reflexivity|]. split; [apply upd_length|]. split.
    + intros k Hk. apply nth_error_upd_other. lia.
    + intros k Hk. cbn in Hk. replace k with 0 by lia. rewrite Nat.add_0_r. cbn. apply nth_error_upd_same. lia.
  - change (init_vtable n (f :: g :: r) vt) with (vt1 <- upd_res vt n (Some f) ;; init_vtable (S n) (g :: r) vt1). rewrite U. cbn [bind].
    destruct (IH (S n) (upd vt n (Some f))) as (vt' & E & L & B & A); [discriminate|rewrite upd_length; cbn [length]; cbn [length] in Hl; lia|].
    exists vt'. split; [exact E|]. split; [rewrite L; apply upd_length|]. split.
    + intros k Hk. rewrite B by lia. apply nth_error_upd_other. lia.
    + intros [|k] Hk.
      * rewrite Nat.add_0_r, B by lia. cbn. apply nth_error_upd_same. lia.
      * replace (n + S k) with (S n + k) by lia. apply A. cbn [length] in *. lia.
Qed.
Lemma off_at_set_same t i o : off_at (off_set t i o) i = Ok o.
Proof. induction t as [|[j p] r IH]; cbn; [now rewrite Nat.eqb_refl|]. destruct (Nat.eqb_spec j i) as [->|N]; cbn; [now rewrite Nat.eqb_refl|]. destruct (Nat.eqb_spec j i); [congruence|exact IH]. Qed.
Lemma off_at_set_other t i j o : j <> i -> off_at (off_set t i o) j = off_at t j.
Proof.
  intros N. induction t as [|[k p] r IH]; cbn; [destruct (Nat.eqb_spec i j); [congruence|reflexivity]|]. destruct (Nat.eqb_spec k i) as [->|Nk]; cbn.
  - destruct (Nat.eqb_spec i j); [congruence|reflexivity].
  - destruct (Nat.eqb_spec k j); [reflexivity|exact IH].
Qed.
Definition before (ifs : list (nat * list M)) (k : nat) : nat := list_sum (map (fun im => length (snd im)) (firstn k ifs)).
Lemma load_offsets_other (ifs : list (nat * list M)) : forall base t j, ~ In j (map fst ifs) -> off_at (load_offsets ifs base t) j = off_at t j.
Proof.
  induction ifs as [|[i ms] r IH]; intros base t j H; cbn [load_offsets]; [reflexivity|]. cbn in H. rewrite IH by tauto. apply off_at_set_other. intuition.
Qed.
Lemma load_offsets_at (ifs : list (nat * list M)) : forall base t k i ms, NoDup (map fst ifs) -> nth_error ifs k = Some (i, ms) -> off_at (load_offsets ifs base t) i = Ok (base + Z.of_nat (before ifs k))%Z.
Proof.
  induction ifs as [|[j us] r IH]; intros base t k i ms Hn Hk; [destruct k; discriminate|]. cbn [map] in Hn. inversion Hn as [|x y Hx Hr]; subst. cbn [load_offsets].
  destruct k as [|k]; cbn in Hk.
  - injection Hk as -> ->. rewrite load_offsets_other by exact Hx. rewrite off_at_set_same. cbn. f_equal. lia.
  - rewrite (IH _ _ k i ms Hr Hk). f_equal. unfold before. cbn [firstn map]. cbn [snd]. change (list_sum (length us :: ?l)) with (length us + list_sum l). lia.
Qed.
Lemma concat_at (ifs : list (nat * list M)) : forall k i ms n m, nth_error ifs k = Some (i, ms) -> nth_error ms n = Some m -> nth_error (concat (map snd ifs)) (before ifs k + n) = Some m.
Proof.
  induction ifs as [|[j us] r IH]; intros k i ms n m Hk Hm; [destruct k; discriminate|]. destruct k as [|k]; cbn in Hk.
  - injection Hk as -> ->. cbn [map concat snd]. unfold before. cbn. rewrite nth_error_app1; [exact Hm|]. apply nth_error_Some. congruence.
  - cbn [map concat snd]. unfold before. cbn [firstn map snd]. change (list_sum (length us :: map (fun im => length (snd im)) (firstn k r))) with (length us + before r k).
    rewrite <- Nat.add_assoc. rewrite nth_error_app2 by lia. replace (length us + (before r k + n) - length us) with (before r k + n) by lia. apply (IH k i ms n m Hk Hm).
Qed.
Lemma concat_length (ifs : list (nat * list M)) : length (concat (map snd ifs)) = list_sum (map (fun im => length (snd im)) ifs).
Proof. induction ifs as [|[i ms] r IH]; cbn; [reflexivity|]. rewrite app_length, IH. reflexivity. Qed.

(* the table built for a stored type answers the n-th method of interface k, whatever the offset table contained before *)
Theorem C88_dispatch (ifs : list (nat * list M)) old : NoDup (map fst ifs) -> concat (map snd ifs) <> [] -> (Z.of_nat (length (concat (map snd ifs))) < 2 ^ 15)%Z ->
  exists vt off, vtable_init ifs old = Ok (vt, off) /\
    forall k i ms n m, nth_error ifs k = Some (i, ms) -> nth_error ms n = Some m -> dispatch vt off i n = Ok m.
Proof.
  intros Hn Hc Hs. unfold vtable_init. rewrite C89_merge by (destruct ifs; [contradiction|discriminate]).
  destruct (init_vtable_ok (concat (map snd ifs)) 0 (repeat None (list_sum (map (fun im => length (snd im)) ifs))) Hc) as (vt & E & L & _ & A); [rewrite repeat_length, concat_length; lia|].
  rewrite E. cbn [bind]. eexists. eexists. split; [reflexivity|]. intros k i ms n m Hk Hm. unfold dispatch. rewrite (load_offsets_at ifs 0 old k i ms Hn Hk). cbn [bind].
  pose proof (concat_at ifs k i ms n m Hk Hm) as C. assert (B : before ifs k + n < length (concat (map snd ifs))) by (apply nth_error_Some; congruence).
  unfold to_short. rewrite Z.mod_small by lia. destruct (Z.ltb_spec (0 + Z.of_nat (before ifs k) + Z.of_nat n) (2 ^ 15)); [|lia].
  destruct (Z.ltb_spec (0 + Z.of_nat (before ifs k) + Z.of_nat n) 0); [lia|]. replace (Z.to_nat _) with (before ifs k + n) by lia.
  unfold nth_res. rewrite <- (Nat.add_0_l (before ifs k + n)), A by exact B. now rewrite C.
Qed.
(* an interface the object does not implement is refused *)
Theorem C88_unknown_interface (ifs : list (nat * list M)) vt off i n : vtable_init ifs [] = Ok (vt, off) -> ~ In i (map fst ifs) -> dispatch vt off i n = Throw.
Proof.
  unfold vtable_init. intros H Hi. destruct (merge (map snd ifs)); [|discriminate]. destruct (init_vtable 0 l _) as [v| | |]; try discriminate. cbn in H. injection H as <- <-.
  unfold dispatch. rewrite load_offsets_other by exact Hi. reflexivity.
Qed.
(* the bound is needed: the index is a short, method 32768 of a long interface is looked up at a negative position *)
Theorem C88_short_limit (m : M) vt off : vtable_init [(0, repeat m (Z.to_nat 32769))] [] = Ok (vt, off) -> dispatch vt off 0 (Z.to_nat 32768) = UB.
Proof.
  unfold vtable_init. intros H. destruct (merge _); [|discriminate]. destruct (init_vtable 0 l _) as [v| | |]; try discriminate. cbn [bind load_offsets] in H. injection H as <- <-.
  unfold dispatch. cbn [off_set off_at Nat.eqb bind]. rewrite Z2Nat.id by lia. reflexivity.
Qed.
End C88.
Example C88_example : exists vt off, vtable_init [(7, [10; 11]); (8, [12]); (9, [13; 14; 15])] [(9, 100%Z)] = Ok (vt, off) /\ dispatch vt off 9 1 = Ok 14 /\ dispatch vt off 8 0 = Ok 12.
Proof. eexists. eexists. split; [reflexivity|]. split; reflexivity. Qed.

(* ------------------------------------------------------------------ C90 *)
(* C++ requirement on comparators (std::map key order), [alg.sorting] *)
Definition incomparable {A} (lt : A -> A -> bool) (a b : A) : Prop := lt a b = false /\ lt b a = false.
Definition strict_weak_order {A} (ok : A -> Prop) (lt : A -> A -> bool) : Prop :=
  (forall a, ok a -> lt a a = false) /\
  (forall a b c, ok a -> ok b -> ok c -> lt a b = true -> lt b c = true -> lt a c = true) /\
  (forall a b c, ok a -> ok b -> ok c -> incomparable lt a b -> incomparable lt b c -> incomparable lt a c).
Section C90.
Context {T : Type} (ok : T -> Prop) (lt : T -> T -> bool).
Hypothesis SW : strict_weak_order ok lt.
Definition all_ok (v : list T) : Prop := forall x, In x v -> ok x.
Lemma lt_asym a b : ok a -> ok b -> lt a b = true -> lt b a = false.
Proof. intros Ha Hb H. destruct SW as (I & Tr & _). destruct (lt b a) eqn:E; [|reflexivity]. rewrite <- (I a Ha). symmetry. now apply (Tr a b a). Qed.
Lemma lt_eq_l a b c : ok a -> ok b -> ok c -> incomparable lt a b -> lt b c = true -> lt a c = true.
Proof.
  intros Ha Hb Hc [E1 E2] H. destruct SW as (I & Tr & In). destruct (lt a c) eqn:E; [reflexivity|]. destruct (lt c a) eqn:E'.
  - rewrite <- E2. now apply (Tr b c a).
  - destruct (In b a c Hb Ha Hc) as [K _]; [now split|now split|congruence].
Qed.
Lemma lt_eq_r a b c : ok a -> ok b -> ok c -> lt a b = true -> incomparable lt b c -> lt a c = true.
Proof.
  intros Ha Hb Hc H [E1 E2]. destruct SW as (I & Tr & In). destruct (lt a c) eqn:E; [reflexivity|]. destruct (lt c a) eqn:E'.
  - rewrite <- E2. now apply (Tr c a b).
  - destruct (In a c b Ha Hc Hb) as [K _]; [now split|now split|congruence].
Qed.
(* vectors are equivalent exactly when their coefficients are *)
Theorem C90_equivalent a b : all_ok a -> all_ok b -> (incomparable (vector_compare lt) a b <-> Forall2 (incomparable lt) a b).
Proof.
  unfold incomparable at 1. revert b. induction a as [|x a IH]; intros [|y b] Ha Hb; cbn.
  - intuition.
  - split; [intros []; discriminate|intros H; inversion H].
  - split; [intros []; discriminate|intros H; inversion H].
  - assert (Ox : ok x) by (apply Ha; now left). assert (Oy : ok y) by (apply Hb; now left).
    destruct (lt x y) eqn:E1, (lt y x) eqn:E2; try (split; [intros []; discriminate|intros H; inversion H as [|? ? ? ? [? ?]]; congruence]).
    rewrite (IH b) by (intros z Hz; first [apply Ha; now right | apply Hb; now right]). split; [intros H; constructor; [now split|exact H]|intros H; now inversion H].
Qed.
Theorem C90_strict_weak_order : strict_weak_order all_ok (vector_compare lt).
Proof.
  destruct SW as (I & Tr & Inc). split; [|split].
  - induction a as [|x a IH]; intros Ha; cbn; [reflexivity|]. rewrite I by (apply Ha; now left). apply IH. intros y Hy. apply Ha. now right.
  - induction a as [|x a IH]; intros [|y b] [|z c] Ha Hb Hc; cbn; try discriminate; try reflexivity.
    assert (Ox : ok x) by (apply Ha; now left). assert (Oy : ok y) by (apply Hb; now left). assert (Oz : ok z) by (apply Hc; now left).
    assert (R : vector_compare lt a b = true -> vector_compare lt b c = true -> vector_compare lt a c = true) by (apply IH; intros w Hw; first [apply Ha; now right | apply Hb; now right | apply Hc; now right]).
    destruct (lt x y) eqn:E1.
    + intros _. destruct (lt y z) eqn:E2; [intros _; now rewrite (Tr x y z)|]. destruct (lt z y) eqn:E3; [discriminate|]. intros _. rewrite (lt_eq_r x y z); auto. now split.
    + destruct (lt y x) eqn:E1'; [discriminate|]. intros H1. destruct (lt y z) eqn:E2; [intros _; rewrite (lt_eq_l x y z); auto; now split|].
      destruct (lt z y) eqn:E3; [discriminate|]. intros H2. destruct (Inc x y z Ox Oy Oz) as [E4 E5]; [now split|now split|]. rewrite E4, E5. now apply R.
  - intros a b c Ha Hb Hc H1 H2. apply C90_equivalent in H1; auto. apply C90_equivalent in H2; auto. apply C90_equivalent; auto. revert c Hc H2.
    induction H1 as [|x y a b E F IH]; intros c Hc H2; inversion H2 as [|? z ? d E' F']; subst; constructor.
    + apply (Inc x y z); auto; first [apply Ha; now left | apply Hb; now left | apply Hc; now left].
    + apply IH; auto; intros w Hw; first [apply Ha; now right | apply Hb; now right | apply Hc; now right].
Qed.
End C90.

(* doubles, compared by operator< of IEEE 754 (Flocq's binary64): false as soon as one side is not a number *)
From Coq Require Import Reals Lra.
From Flocq Require Import Core.Raux IEEE754.Binary IEEE754.Bits.
Local Open Scope nat_scope.
Definition double_lt (a b : binary64) : bool := match b64_compare a b with Some Lt => true | _ => false end.
Definition number (a : binary64) : Prop := is_nan 53 1024 a = false.
(* minus infinity, a real number, plus infinity *)
Definition level (a : binary64) : Z := match a with B754_infinity _ _ true => -1 | B754_infinity _ _ false => 1 | _ => 0 end%Z.
Lemma double_lt_spec a b : number a -> number b ->
  (double_lt a b = true <-> (level a < level b)%Z \/ (level a = level b /\ B2R 53 1024 a < B2R 53 1024 b)%R).
Proof.
  intros Ha Hb. unfold double_lt, b64_compare.
  assert (F : is_finite 53 1024 a = true -> is_finite 53 1024 b = true -> (match Bcompare 53 1024 a b with Some Lt => true | _ => false end = true <-> (B2R 53 1024 a < B2R 53 1024 b)%R)).
  { intros Fa Fb. rewrite Bcompare_correct by assumption. destruct (Rcompare_spec (B2R 53 1024 a) (B2R 53 1024 b)); intuition (try discriminate; lra). }
  destruct a as [sa|sa|sa pa ea|sa ma ea ba], b as [sb|sb|sb pb eb|sb mb eb bb]; try discriminate Ha; try discriminate Hb;
    try (rewrite F by reflexivity; cbn [level]; intuition (try lia; auto));
    try destruct sa; try destruct sb; cbn -[Rlt]; intuition (try discriminate; try lia; try lra).
Qed.
Theorem C90_doubles : strict_weak_order number double_lt.
Proof.
  split; [|split].
  - intros a Ha. destruct (double_lt a a) eqn:E; [|reflexivity]. apply double_lt_spec in E; auto. destruct E as [E|[_ E]]; [lia|lra].
  - intros a b c Ha Hb Hc H1 H2. apply double_lt_spec in H1; auto. apply double_lt_spec in H2; auto. apply double_lt_spec; auto. intuition (try lia). right. split; [congruence|lra].
  - assert (N : forall a b, number a -> number b -> (incomparable double_lt a b <-> level a = level b /\ B2R 53 1024 a = B2R 53 1024 b)).
    { intros a b Ha Hb. unfold incomparable. pose proof (double_lt_spec a b Ha Hb) as P. pose proof (double_lt_spec b a Hb Ha) as Q. split.
      - intros [E1 E2]. destruct (Z.lt_trichotomy (level a) (level b)) as [L|[L|L]]; [exfalso; rewrite E1 in P; assert (false = true) by (apply P; auto); discriminate| |exfalso; rewrite E2 in Q; assert (false = true) by (apply Q; auto); discriminate].
        split; [exact L|]. destruct (Rtotal_order (B2R 53 1024 a) (B2R 53 1024 b)) as [K|[K|K]]; [exfalso; rewrite E1 in P; assert (false = true) by (apply P; auto); discriminate|exact K|exfalso; rewrite E2 in Q; assert (false = true) by (apply Q; auto); discriminate].
      - intros [E1 E2]. split; apply not_true_is_false; intros K; [apply P in K|apply Q in K]; intuition (try lia; try lra). }
    intros a b c Ha Hb Hc H1 H2. apply N in H1; auto. apply N in H2; auto. apply N; auto. intuition congruence.
Qed.
(* vectors of doubles without NaN *)
Theorem C90_vectors_partial : strict_weak_order (all_ok number) (vector_compare double_lt).
Proof. exact (C90_strict_weak_order number double_lt C90_doubles). Qed.
(* with a NaN coefficient equivalence is not transitive: (NaN) is equivalent to (1) and to (2) *)
Theorem C90_nan_refuted : ~ strict_weak_order (fun _ => True) (vector_compare double_lt).
Proof.
  intros (_ & _ & H). destruct (H [b64_of_bits 4607182418800017408] [B754_nan 53 1024 false 1 eq_refl] [b64_of_bits 4611686018427387904]) as [K _]; auto; try (split; vm_compute; reflexivity).
  vm_compute in K. discriminate.
Qed.
Example C90_example : all_ok number [b64_of_bits 4607182418800017408; B754_infinity 53 1024 true] /\
  vector_compare double_lt [b64_of_bits 4607182418800017408; B754_infinity 53 1024 true] [b64_of_bits 4607182418800017408; b64_of_bits 0] = true.
Proof. split; [|vm_compute; reflexivity]. intros x [<-|[<-|[]]]; vm_compute; reflexivity. Qed.
Print Assumptions C90_vectors_partial.
Print Assumptions C88_dispatch.
Print Assumptions C89_index_of.
