(* C127: the Voronoi diagram of a one-dimensional mesh. *)
From Coq Require Import Lqa Lia Permutation.
From Verif Require Import Base IntervalModel IntervalProps VorLineModel.
Open Scope nat_scope.

Lemma ctor_more nodes t : interval_ctor nodes = Ok t -> iv_nc t = length nodes - 1 /\
  (forall i, i < length nodes - 1 -> nth_res (iv_cells t) i = Ok (i, i + 1)).
Proof.
  intros H. destruct (ctor_fields nodes t H) as (_ & _ & HL & _). unfold interval_ctor in H. cbv zeta in H.
  rewrite !nth_res_at in H by lia. cbn [bind] in H.
  destruct (set_neigh _ _ _ _); try discriminate. cbn [bind] in H.
  destruct (foldM _ _ _); try discriminate. cbn [bind] in H.
  destruct (if _ =? 0 then _ else _); try discriminate. cbn [bind] in H.
  destruct (upd_res _ 0 _); try discriminate. cbn [bind] in H.
  destruct (upd_res _ _ _); try discriminate. cbn [bind] in H.
  injection H as <-. cbn [iv_nc iv_cells]. split; [auto|].
  intros i Hi. apply nth_res_ok. rewrite nth_error_map', nth_error_seq.
  destruct (i <? length nodes - 1) eqn:E; [reflexivity|]. apply Nat.ltb_ge in E. lia.
Qed.

Section Line.
Variables (nodes : list Q) (t : interval).
Hypothesis Ht : interval_ctor nodes = Ok t.
Let n := length nodes - 1.
Let X := at_ nodes.

Definition v1_row (i j : nat) : option Q :=
  if j <? i then Some ((X j + X (j + 1)) / 2)%Q
  else if (j =? n) && (1 <=? i) then Some (X 0)
  else if (j =? n + 1) && (i =? n) then Some (X n) else None.
Definition v1_list (i v : nat) : list nat :=
  (if (1 <=? v) && (v <=? i) then [v - 1] else []) ++ (if v <? i then [v] else []) ++
  (if (v =? 0) && (1 <=? i) then [n] else []) ++ (if (v =? n) && (i =? n) then [n + 1] else []).
Definition v1_inv (i : nat) (s : vor1 * nat) : Prop :=
  snd s = n + (if 1 <=? i then 1 else 0) + (if i =? n then 1 else 0) /\
  length (v1_nodes (fst s)) = n + 2 /\ length (v1_mark (fst s)) = n + 2 /\
  (forall j, j < n + 2 -> nth_error (v1_nodes (fst s)) j = Some (v1_row i j)) /\
  (forall j, j < n + 2 -> nth_error (v1_mark (fst s)) j = Some (((j =? n) && (1 <=? i)) || ((j =? n + 1) && (i =? n)))) /\
  (forall v, v1_cells (fst s) v = v1_list i v).

Ltac bool_cases := repeat (match goal with
  | |- context [?a =? ?b] => destruct (Nat.eqb_spec a b)
  | |- context [?a <=? ?b] => destruct (Nat.leb_spec a b)
  | |- context [?a <? ?b] => destruct (Nat.ltb_spec a b)
  end; try (exfalso; lia)); cbn [andb orb] in *.

Lemma n_pos : 1 <= n.
Proof. destruct (ctor_fields nodes t Ht) as (A & B & C & D). unfold n. lia. Qed.
Lemma v1_inv_init : v1_inv 0 (Vor1 (repeat None (n + 2)) (repeat false (n + 2)) (fun _ => []), n).
Proof.
  pose proof n_pos. unfold v1_inv. cbn [fst snd v1_nodes v1_mark v1_cells]. rewrite !repeat_length.
  split; [bool_cases; lia|]. split; [auto|]. split; [auto|]. split; [|split].
  - intros j Hj. rewrite nth_error_repeat'. unfold v1_row. bool_cases; try lia; reflexivity.
  - intros j Hj. rewrite nth_error_repeat'. bool_cases; try lia; reflexivity.
  - intros v. unfold v1_list. bool_cases; try lia; reflexivity.
Qed.
Lemma bnd v : is_node_on_boundary t v = (v =? 0) || (v =? n).
Proof. destruct (ctor_fields nodes t Ht) as (A & B & C & D). unfold is_node_on_boundary. rewrite B. reflexivity. Qed.

Lemma nth_upd {A} (l : list A) i j x : i < length l -> nth_error (upd l i x) j = if j =? i then Some x else nth_error l j.
Proof. intros H. destruct (Nat.eqb_spec j i) as [->|Hn]; [apply nth_error_upd_same; auto|apply nth_error_upd_other; auto]. Qed.
Lemma upd_res_lt {A} (l : list A) i x : i < length l -> upd_res l i x = Ok (upd l i x).
Proof. intros H. unfold upd_res. apply Nat.ltb_lt in H. rewrite H. reflexivity. Qed.

Lemma v1_bound_no s v : 0 < v < n -> v1_bound t s v = Ok s.
Proof. intros H. unfold v1_bound. destruct s. rewrite bnd. bool_cases; try lia. reflexivity. Qed.
Lemma v1_bound_yes w k v : v = 0 \/ v = n -> k < length (v1_nodes w) -> k < length (v1_mark w) ->
  v1_bound t (w, k) v = Ok (Vor1 (upd (v1_nodes w) k (Some (X v))) (upd (v1_mark w) k true) (push_at (v1_cells w) v k), S k).
Proof.
  intros H H1 H2. destruct (ctor_fields nodes t Ht) as (A & B & C & D). unfold v1_bound. rewrite bnd. replace ((v =? 0) || (v =? n)) with true by (bool_cases; lia || reflexivity).
  rewrite A. rewrite nth_res_at by (unfold n in H; lia). cbn [bind]. rewrite !upd_res_lt by auto. reflexivity.
Qed.

Lemma v1_step i s : i < n -> v1_inv i s -> exists s', v1_cell t s i = Ok s' /\ v1_inv (S i) s'.
Proof.
  intros Hi (K & L1 & L2 & R & M & C). destruct s as [w k]. cbn [fst snd] in *.
  destruct (ctor_fields nodes t Ht) as (A & B & Cn & D). destruct (ctor_more nodes t Ht) as [Hnc Hc].
  unfold v1_cell. rewrite (Hc i Hi). cbn [bind fst snd]. rewrite A. rewrite !nth_res_at by (unfold n in *; lia). cbn [bind].
  rewrite upd_res_lt by lia. cbn [bind]. rewrite !bnd. fold X.
  set (w1 := Vor1 (upd (v1_nodes w) i (Some ((X i + X (i + 1)) / 2)%Q)) (v1_mark w) (push_at (push_at (v1_cells w) i i) (i + 1) i)).
  assert (W1: length (v1_nodes w1) = n + 2) by (cbn; rewrite upd_length; auto).
  assert (W2: length (v1_mark w1) = n + 2) by auto.
  assert (N: forall j, j < n + 2 -> nth_error (v1_nodes w1) j = Some (if j =? i then Some ((X i + X (i + 1)) / 2)%Q else v1_row i j)).
  { intros j Hj. cbn [w1 v1_nodes]. rewrite nth_upd by lia. destruct (j =? i); auto. }
  assert (P: forall v, v1_cells w1 v = v1_list i v ++ (if v =? i then [i] else []) ++ (if v =? i + 1 then [i] else [])).
  { intros v. cbn [w1 v1_cells]. unfold push_at. rewrite C. bool_cases; try lia; rewrite <- ?app_assoc, ?app_nil_r; auto. }
  assert (Hk: k = if i =? 0 then n else n + 1) by (rewrite K; bool_cases; lia). clear K R C.
  destruct (Nat.eq_dec i 0) as [Ei|Ei].
  - rewrite Ei in Hk. cbn [Nat.eqb] in Hk. replace (1 <=? _) with true by (symmetry; apply Nat.leb_le; clear - Hi Ei; bool_cases; cbn; lia). cbn [foldM]. rewrite v1_bound_yes by (clear N P; bool_cases; lia). cbn [bind].
    destruct (Nat.eq_dec n 1) as [En|En].
    + rewrite v1_bound_yes by (cbn [v1_nodes v1_mark]; rewrite ?upd_length; clear N P; bool_cases; lia). cbn [bind]. eexists. split; [reflexivity|].
      unfold v1_inv. cbn [fst snd v1_nodes v1_mark v1_cells]. rewrite !upd_length.
      split; [bool_cases; lia|]. split; [auto|]. split; [auto|]. split; [|split].
      * intros j Hj. rewrite nth_upd by (rewrite upd_length; bool_cases; lia). rewrite nth_upd by (bool_cases; lia). rewrite N by auto. subst k.
        unfold v1_row. rewrite Ei. replace n with 1. bool_cases; try lia; subst; reflexivity.
      * intros j Hj. rewrite nth_upd by (rewrite upd_length; bool_cases; lia). rewrite nth_upd by (bool_cases; lia). rewrite M by auto. subst k.
        rewrite Ei. replace n with 1. bool_cases; try lia; subst; reflexivity.
      * intros v. unfold push_at. rewrite P. subst k. unfold v1_list. rewrite Ei. replace n with 1. bool_cases; try lia; subst; reflexivity.
    + rewrite v1_bound_no by lia. cbn [bind]. eexists. split; [reflexivity|].
      unfold v1_inv. cbn [fst snd v1_nodes v1_mark v1_cells]. rewrite !upd_length.
      split; [bool_cases; lia|]. split; [auto|]. split; [auto|]. split; [|split].
      * intros j Hj. rewrite nth_upd by (bool_cases; lia). rewrite N by auto. subst k.
        unfold v1_row. rewrite Ei. bool_cases; try lia; subst; auto.
      * intros j Hj. rewrite nth_upd by (bool_cases; lia). rewrite M by auto. subst k.
        rewrite Ei. bool_cases; try lia; subst; auto.
      * intros v. unfold push_at. rewrite P. subst k. unfold v1_list. rewrite Ei. bool_cases; try lia; subst; auto.
  - replace (i =? 0) with false in Hk by (symmetry; apply Nat.eqb_neq; auto). destruct (Nat.eq_dec (i + 1) n) as [En|En].
    + replace (1 <=? _) with true by (symmetry; apply Nat.leb_le; clear - Hi Ei En; bool_cases; cbn; lia). cbn [foldM]. rewrite v1_bound_no by lia. cbn [bind].
      rewrite v1_bound_yes by (clear N P; bool_cases; lia). cbn [bind]. eexists. split; [reflexivity|].
      unfold v1_inv. cbn [fst snd v1_nodes v1_mark v1_cells]. rewrite !upd_length.
      split; [bool_cases; lia|]. split; [auto|]. split; [auto|]. split; [|split].
      * intros j Hj. rewrite nth_upd by (bool_cases; lia). rewrite N by auto. subst k.
        unfold v1_row. bool_cases; try lia; try subst j; rewrite ?En; auto.
      * intros j Hj. rewrite nth_upd by (bool_cases; lia). rewrite M by auto. subst k.
        bool_cases; try lia; subst; auto.
      * intros v. unfold push_at. rewrite P. subst k. unfold v1_list. bool_cases; try lia; subst; rewrite ?app_nil_r; cbn; auto; repeat f_equal; lia.
    + replace (1 <=? _) with false by (symmetry; apply Nat.leb_gt; clear - Hi Ei En; bool_cases; cbn; lia). eexists. split; [reflexivity|].
      unfold v1_inv. cbn [fst snd].
      split; [bool_cases; lia|]. split; [auto|]. split; [auto|]. split; [|split].
      * intros j Hj. rewrite N by auto. unfold v1_row. bool_cases; try lia; subst; auto.
      * intros j Hj. cbn [w1 v1_mark]. rewrite M by auto. bool_cases; try lia; subst; auto.
      * intros v. rewrite P. unfold v1_list. bool_cases; try lia; subst; rewrite ?app_nil_r; cbn; auto; repeat f_equal; lia.
Qed.

Lemma v1_loop i : i <= n -> forall s, v1_inv 0 s -> exists s', foldM (v1_cell t) (seq 0 i) s = Ok s' /\ v1_inv i s'.
Proof.
  induction i as [|i IH]; intros Hi s Hs; [exists s; auto|].
  destruct (IH ltac:(lia) s Hs) as (s1 & E1 & I1). destruct (v1_step i s1 ltac:(lia) I1) as (s2 & E2 & I2).
  exists s2. rewrite seq_S, foldM_app, E1. cbn [bind foldM Nat.add]. rewrite E2. auto.
Qed.

Lemma v1_list_end v : v <= n -> v1_list n v = if v =? 0 then [0; n] else if v =? n then [n - 1; n + 1] else [v - 1; v].
Proof. pose proof n_pos. intros Hv. unfold v1_list. bool_cases; try lia; subst; cbn; auto. Qed.
Lemma v1_swaps order : (forall v, In v order -> v <= n) -> forall f, (forall v, f v = v1_list n v) ->
  exists f', foldM (fun f v => l <- v1_swap (f v) ;; Ok (fun w => if w =? v then l else f w)) order f = Ok f' /\ forall v, f' v = v1_list n v.
Proof.
  induction order as [|v order IH]; intros Ho f Hf; [exists f; auto|]. cbn [foldM].
  assert (E: v1_swap (f v) = Ok (v1_list n v)).
  { pose proof n_pos. rewrite Hf. rewrite v1_list_end by (apply Ho; left; auto). unfold v1_swap. bool_cases; try lia; reflexivity. }
  rewrite E. cbn [bind]. apply IH; [intros; apply Ho; right; auto|]. intros w. destruct (Nat.eqb_spec w v) as [->|]; auto.
Qed.
Lemma v1_ctor_ok order : (forall v, In v order -> v <= n) ->
  exists w, v1_ctor t order = Ok w /\ length (v1_nodes w) = n + 2 /\
    (forall j, j < n + 2 -> nth_error (v1_nodes w) j = Some (v1_row n j)) /\
    (forall j, j < n + 2 -> nth_error (v1_mark w) j = Some (n <=? j)) /\
    (forall v, v1_cells w v = v1_list n v).
Proof.
  intros Ho. pose proof n_pos as Hn. destruct (ctor_more nodes t Ht) as [Hnc _]. fold n in Hnc. unfold v1_ctor. rewrite Hnc.
  destruct (v1_loop n ltac:(lia) _ v1_inv_init) as (s & E & (K & L1 & L2 & R & M & C)). rewrite E. cbn [bind].
  destruct (v1_swaps order Ho (v1_cells (fst s)) C) as (f & Ef & Hf). rewrite Ef. cbn [bind].
  eexists. split; [reflexivity|]. cbn [v1_nodes v1_mark v1_cells]. split; [auto|]. split; [auto|]. split; [|auto].
  intros j Hj. rewrite M by auto. bool_cases; try lia; reflexivity.
Qed.
End Line.

(* --- specification: x is at least as close to site i as to any other site *)
Definition increasing (l : list Q) : Prop := forall i j, i < j < length l -> (at_ l i < at_ l j)%Q.
Definition dist1 (x y : Q) : Q := qabs (x - y).
Definition nearest_site (l : list Q) (i : nat) (x : Q) : Prop := forall j, j < length l -> (dist1 x (at_ l i) <= dist1 x (at_ l j))%Q.

Lemma qabs_spec x : ((0 <= x /\ qabs x == x) \/ (x < 0 /\ qabs x == - x))%Q.
Proof.
  unfold qabs. destruct (q_lt x 0) eqn:E; [right; apply q_lt_iff in E|left; apply q_lt_false in E]; split; try exact E; reflexivity.
Qed.
Lemma closer x a b : (a < b -> (dist1 x a <= dist1 x b <-> x <= (a + b) / 2))%Q.
Proof.
  intros H. unfold dist1. assert (E: ((a + b) / 2 == a * (1 # 2) + b * (1 # 2))%Q) by field.
  rewrite E. destruct (qabs_spec (x - a)) as [[A A']|[A A']], (qabs_spec (x - b)) as [[B B']|[B B']]; rewrite A', B'; split; intros; lra.
Qed.
Lemma closer' x a b : (a < b -> (dist1 x b <= dist1 x a <-> (a + b) / 2 <= x))%Q.
Proof.
  intros H. unfold dist1. assert (E: ((a + b) / 2 == a * (1 # 2) + b * (1 # 2))%Q) by field.
  rewrite E. destruct (qabs_spec (x - a)) as [[A A']|[A A']], (qabs_spec (x - b)) as [[B B']|[B B']]; rewrite A', B'; split; intros; lra.
Qed.

Definition low (l : list Q) (i : nat) : Q := if i =? 0 then at_ l 0 else ((at_ l (i - 1) + at_ l i) / 2)%Q.
Definition high (l : list Q) (i : nat) : Q := if i =? length l - 1 then at_ l i else ((at_ l i + at_ l (i + 1)) / 2)%Q.
Lemma region l i x : increasing l -> i < length l -> (at_ l 0 <= x <= at_ l (length l - 1))%Q ->
  (nearest_site l i x <-> low l i <= x <= high l i)%Q.
Proof.
  intros Hl Hi Hx. unfold low, high. split.
  - intros H. split.
    + destruct (Nat.eqb_spec i 0); [tauto|]. apply closer'; [apply Hl; lia|]. apply H. lia.
    + destruct (Nat.eqb_spec i (length l - 1)) as [->|]; [tauto|]. apply closer; [apply Hl; lia|]. apply H. lia.
  - intros [H1 H2] j Hj. destruct (Nat.lt_trichotomy i j) as [C|[->|C]]; [| lra|].
    + apply closer; [apply Hl; lia|]. destruct (Nat.eqb_spec i (length l - 1)); [lia|].
      assert (at_ l (i + 1) <= at_ l j)%Q. { destruct (Nat.eq_dec (i + 1) j) as [->|]; [lra|]. pose proof (Hl (i + 1) j ltac:(lia)). lra. }
      assert (E: forall a b, ((a + b) / 2 == a * (1 # 2) + b * (1 # 2))%Q) by (intros; field). rewrite E in *. lra.
    + apply closer'; [apply Hl; lia|]. destruct (Nat.eqb_spec i 0); [lia|].
      assert (at_ l j <= at_ l (i - 1))%Q. { destruct (Nat.eq_dec (i - 1) j) as [->|]; [lra|]. pose proof (Hl j (i - 1) ltac:(lia)). lra. }
      assert (E: forall a b, ((a + b) / 2 == a * (1 # 2) + b * (1 # 2))%Q) by (intros; field). rewrite E in *. lra.
Qed.

(* --- C127 *)
Lemma vertex_row nodes w j x : nth_error (v1_nodes w) j = Some (v1_row nodes (length nodes - 1) j) -> v1_row nodes (length nodes - 1) j = Some x ->
  v1_vertex w j = Ok x.
Proof. intros H H2. unfold v1_vertex, nth_res. rewrite H. cbn [bind]. rewrite H2. reflexivity. Qed.

Lemma v1_bounds nodes t order : interval_ctor nodes = Ok t -> increasing nodes -> Permutation order (seq 0 (length nodes)) ->
  exists w, v1_ctor t order = Ok w /\
    forall i, i < length nodes -> exists a b m,
      v1_at w i 0 = Ok a /\ v1_at w i 1 = Ok b /\
      ((v1_vertex w a = Ok (low nodes i) /\ v1_vertex w b = Ok (high nodes i)) \/ (v1_vertex w b = Ok (low nodes i) /\ v1_vertex w a = Ok (high nodes i))) /\
      v1_measure w i = Ok m /\ (m == high nodes i - low nodes i)%Q /\
      v1_on_boundary w i = Ok ((i =? 0) || (i =? length nodes - 1)).
Proof.
  intros Ht Hinc Hp. destruct (ctor_fields nodes t Ht) as (A & B & Cn & D).
  set (n := length nodes - 1) in *.
  destruct (v1_ctor_ok nodes t Ht order) as (w & Ew & L & R & M & C).
  { intros v Hv. apply (Permutation_in _ Hp) in Hv. apply in_seq in Hv. unfold n. lia. }
  exists w. split; [auto|]. intros i Hi. fold n in L, R, M, C.
  assert (V: forall j x, j < n + 2 -> v1_row nodes n j = Some x -> v1_vertex w j = Ok x).
  { intros j x Hj. apply vertex_row. apply R. auto. }
  assert (HC: v1_cells w i = if i =? 0 then [0; n] else if i =? n then [n - 1; n + 1] else [i - 1; i]).
  { rewrite C. apply (v1_list_end nodes t Ht). fold n. lia. }
  assert (Hlh: (low nodes i <= high nodes i)%Q).
  { unfold low, high. fold n. assert (E: forall a b, ((a + b) / 2 == a * (1 # 2) + b * (1 # 2))%Q) by (intros; field).
    destruct (Nat.eqb_spec i 0) as [E0|], (Nat.eqb_spec i n) as [En|]; rewrite ?E.
    - lia.
    - rewrite E0. pose proof (Hinc 0 1 ltac:(lia)). cbn [Nat.add]. lra.
    - pose proof (Hinc (i - 1) i ltac:(lia)). lra.
    - pose proof (Hinc (i - 1) i ltac:(lia)). pose proof (Hinc i (i + 1) ltac:(lia)). lra. }
  assert (QA: (qabs (high nodes i - low nodes i) == high nodes i - low nodes i)%Q).
  { destruct (qabs_spec (high nodes i - low nodes i)) as [[_ X]|[X _]]; [auto|lra]. }
  assert (QB: (qabs (low nodes i - high nodes i) == high nodes i - low nodes i)%Q).
  { destruct (qabs_spec (low nodes i - high nodes i)) as [[X X']|[_ X]]; [rewrite X'; lra|rewrite X; lra]. }
  assert (Mk: forall j, j < n + 2 -> nth_res (v1_mark w) j = Ok (n <=? j)).
  { intros j Hj. apply nth_res_ok. apply M. auto. }
  unfold v1_measure, v1_on_boundary, v1_at. rewrite HC. unfold low, high in *. fold n in Hlh, QA, QB. fold n.
  destruct (Nat.eqb_spec i 0) as [->|N0].
  - destruct (Nat.eqb_spec 0 n) as [|Nn]; [lia|]. cbn [Nat.add] in *. cbn [nth_res nth_error bind].
    assert (V0: v1_vertex w 0 = Ok ((at_ nodes 0 + at_ nodes 1) / 2)%Q).
    { apply V; [lia|]. unfold v1_row. replace (0 <? n) with true by (symmetry; apply Nat.ltb_lt; lia). reflexivity. }
    assert (V1: v1_vertex w n = Ok (at_ nodes 0)).
    { apply V; [lia|]. unfold v1_row. fold n. rewrite Nat.ltb_irrefl, Nat.eqb_refl. replace (1 <=? n) with true by (symmetry; apply Nat.leb_le; lia). reflexivity. }
    exists 0, n. eexists. split; [reflexivity|]. split; [reflexivity|]. split; [auto|].
    split; [rewrite V0, V1; reflexivity|split].
    + exact QB.
    + rewrite !Mk by lia. cbn [bind]. destruct (n <=? 0); [auto|]. replace (n <=? n) with true by (symmetry; apply Nat.leb_le; lia). reflexivity.
  - destruct (Nat.eqb_spec i n) as [->|Nn].
    + cbn [nth_res nth_error bind].
      assert (V0: v1_vertex w (n - 1) = Ok ((at_ nodes (n - 1) + at_ nodes n) / 2)%Q).
      { apply V; [lia|]. unfold v1_row. replace (n - 1 <? n) with true by (symmetry; apply Nat.ltb_lt; lia). replace (n - 1 + 1) with n by lia. reflexivity. }
      assert (V1: v1_vertex w (n + 1) = Ok (at_ nodes n)).
      { apply V; [lia|]. unfold v1_row. fold n. replace (n + 1 <? n) with false by (symmetry; apply Nat.ltb_ge; lia).
        replace (n + 1 =? n) with false by (symmetry; apply Nat.eqb_neq; lia). rewrite !Nat.eqb_refl. reflexivity. }
      exists (n - 1), (n + 1). eexists. split; [reflexivity|]. split; [reflexivity|]. split; [left; split; [exact V0|exact V1]|].
      split; [rewrite V0, V1; reflexivity|split].
      * exact QA.
      * rewrite !Mk by lia. cbn [bind]. replace (n <=? n - 1) with false by (symmetry; apply Nat.leb_gt; lia).
        replace (n <=? n + 1) with true by (symmetry; apply Nat.leb_le; lia). reflexivity.
    + cbn [nth_res nth_error bind].
      assert (V0: v1_vertex w (i - 1) = Ok ((at_ nodes (i - 1) + at_ nodes i) / 2)%Q).
      { apply V; [lia|]. unfold v1_row. replace (i - 1 <? n) with true by (symmetry; apply Nat.ltb_lt; lia). replace (i - 1 + 1) with i by lia. reflexivity. }
      assert (V1: v1_vertex w i = Ok ((at_ nodes i + at_ nodes (i + 1)) / 2)%Q).
      { apply V; [lia|]. unfold v1_row. replace (i <? n) with true by (symmetry; apply Nat.ltb_lt; lia). reflexivity. }
      exists (i - 1), i. eexists. split; [reflexivity|]. split; [reflexivity|]. split; [left; split; [exact V0|exact V1]|].
      split; [rewrite V0, V1; reflexivity|split].
      * exact QA.
      * rewrite !Mk by lia. cbn [bind]. replace (n <=? i - 1) with false by (symmetry; apply Nat.leb_gt; lia).
        replace (n <=? i) with false by (symmetry; apply Nat.leb_gt; lia). reflexivity.
Qed.

(* every cell is delimited by two vertices, which cut out the points of the interval nearest to its site; its measure is its length; it is on
   the boundary exactly for the first and the last site *)
Theorem C127_cells nodes t order : interval_ctor nodes = Ok t -> increasing nodes -> Permutation order (seq 0 (length nodes)) ->
  exists w, v1_ctor t order = Ok w /\
    forall i, i < length nodes -> exists a b lo hi m,
      v1_at w i 0 = Ok a /\ v1_at w i 1 = Ok b /\
      ((v1_vertex w a = Ok lo /\ v1_vertex w b = Ok hi) \/ (v1_vertex w b = Ok lo /\ v1_vertex w a = Ok hi)) /\
      (forall x, (at_ nodes 0 <= x <= at_ nodes (length nodes - 1) -> (nearest_site nodes i x <-> lo <= x <= hi))%Q) /\
      v1_measure w i = Ok m /\ (m == hi - lo)%Q /\
      v1_on_boundary w i = Ok ((i =? 0) || (i =? length nodes - 1)).
Proof.
  intros Ht Hinc Hp. destruct (v1_bounds nodes t order Ht Hinc Hp) as (w & E & H). exists w. split; [auto|]. intros i Hi.
  destruct (H i Hi) as (a & b & m & A & B & V & M & Em & Bd). exists a, b, (low nodes i), (high nodes i), m.
  repeat (split; [assumption|]). split; [|auto]. intros x Hx. apply region; auto.
Qed.
Print Assumptions C127_cells.

(* the cells tile the interval: their measures add up to its length *)
Fixpoint add_up (l : list Q) : Q := match l with [] => 0 | x :: l' => x + add_up l' end%Q.
Lemma tile nodes k : increasing nodes -> k < length nodes -> (add_up (map (fun i => high nodes i - low nodes i) (seq k (length nodes - k))) ==
  at_ nodes (length nodes - 1) - low nodes k)%Q.
Proof.
  intros Hinc. remember (length nodes - k) as d. revert k Heqd. induction d as [|d IH]; intros k Hd Hk; [lia|].
  cbn [seq map add_up]. destruct d as [|d].
  - cbn [seq map add_up]. unfold high. replace k with (length nodes - 1) by lia. rewrite Nat.eqb_refl. ring.
  - rewrite IH by lia. unfold high, low at 2. replace (k =? length nodes - 1) with false by (symmetry; apply Nat.eqb_neq; lia).
    cbn [Nat.eqb]. replace (S k - 1) with k by lia. replace (k + 1) with (S k) by lia. ring.
Qed.
Theorem C127_total nodes t order w ms : interval_ctor nodes = Ok t -> increasing nodes -> Permutation order (seq 0 (length nodes)) ->
  v1_ctor t order = Ok w -> mapM (v1_measure w) (seq 0 (length nodes)) = Ok ms ->
  (add_up ms == at_ nodes (length nodes - 1) - at_ nodes 0)%Q.
Proof.
  intros Ht Hinc Hp Hw Hm. destruct (ctor_fields nodes t Ht) as (_ & _ & Cn & _).
  destruct (v1_bounds nodes t order Ht Hinc Hp) as (w' & E & H). rewrite Hw in E. injection E as <-.
  pose proof (tile nodes 0 Hinc ltac:(lia)) as T. unfold low at 2 in T. cbn [Nat.eqb] in T. rewrite Nat.sub_0_r in T. rewrite <- T.
  apply mapM_ok in Hm. clear T Hp. assert (G: forall i, In i (seq 0 (length nodes)) -> i < length nodes) by (intros i Hi; apply in_seq in Hi; lia).
  induction Hm as [|i m is ms' Hi Hm IH]; [reflexivity|]. cbn [map add_up].
  destruct (H i (G i (or_introl eq_refl))) as (a & b & m' & _ & _ & _ & M & Em & _). rewrite Hi in M. injection M as <-.
  apply Qplus_comp; [exact Em|]. apply IH. intros; apply G; right; auto.
Qed.
Print Assumptions C127_total.

(* locate returns a nearest site, except at the right end point, where it inherits the out of range read of C38 *)
Theorem C127_locate_partial nodes t x fuel : interval_ctor nodes = Ok t -> increasing nodes -> length nodes <= fuel ->
  ~ (x == at_ nodes (length nodes - 1))%Q ->
  (((x < at_ nodes 0)%Q \/ (at_ nodes (length nodes - 1) < x)%Q) /\ v1_locate t fuel x = Ok (-1)%Z) \/
  ((at_ nodes 0 <= x < at_ nodes (length nodes - 1))%Q /\
   exists i, v1_locate t fuel x = Ok (Z.of_nat i) /\ i < length nodes /\ nearest_site nodes i x).
Proof.
  intros Ht Hinc Hf Hx. destruct (ctor_fields nodes t Ht) as (A & B & Cn & D). destruct (ctor_more nodes t Ht) as [Hnc Hc].
  assert (Hs: sorted nodes). { intros i j Hij. destruct (Nat.eq_dec i j) as [->|]; [lra|]. pose proof (Hinc i j ltac:(lia)). lra. }
  unfold v1_locate. destruct (interval_locate_partial nodes t x fuel Ht Hs Hf Hx) as [(O & E & _)|(i & E & Hi & L & U)]; rewrite E; cbn [bind].
  - left. auto.
  - right. assert (Hr: (at_ nodes 0 <= x <= at_ nodes (length nodes - 1))%Q).
    { pose proof (Hs 0 i ltac:(lia)). pose proof (Hs (i + 1) (length nodes - 1) ltac:(lia)). lra. }
    split. { destruct (Qlt_le_dec x (at_ nodes (length nodes - 1))); [lra|]. exfalso. apply Hx. lra. }
    replace (Z.of_nat i =? -1)%Z with false by (symmetry; apply Z.eqb_neq; lia). rewrite Nat2Z.id, Hc by lia. cbn [bind fst snd].
    rewrite A, !nth_res_at by lia. cbn [bind]. pose proof (Hinc i (i + 1) ltac:(lia)) as Hii.
    assert (E2: forall a b, ((a + b) / 2 == a * (1 # 2) + b * (1 # 2))%Q) by (intros; field).
    destruct (q_lt _ _) eqn:Q; eexists; (split; [reflexivity|]); (split; [lia|]).
    + apply q_lt_iff in Q. apply (proj2 (region nodes (i + 1) x Hinc ltac:(lia) Hr)). unfold low, high. replace (i + 1 - 1) with i by lia.
      replace (i + 1 =? 0) with false by (symmetry; apply Nat.eqb_neq; lia). rewrite E2.
      assert (K: (at_ nodes i * (1 # 2) + at_ nodes (i + 1) * (1 # 2) <= x)%Q) by nra.
      destruct (Nat.eqb_spec (i + 1) (length nodes - 1)); split; try lra. rewrite E2. pose proof (Hinc (i + 1) (i + 1 + 1) ltac:(lia)). lra.
    + apply q_lt_false in Q. apply (proj2 (region nodes i x Hinc ltac:(lia) Hr)). unfold low, high.
      replace (i =? length nodes - 1) with false by (symmetry; apply Nat.eqb_neq; lia).
      assert (K: (x <= at_ nodes i * (1 # 2) + at_ nodes (i + 1) * (1 # 2))%Q) by nra.
      destruct (Nat.eqb_spec i 0); rewrite !E2; [lra|]. pose proof (Hinc (i - 1) i ltac:(lia)). lra.
Qed.
Print Assumptions C127_locate_partial.
(* contains: inside the interval each point (but the right end point) is in exactly one cell, the cell of a nearest site *)
Theorem C127_contains_partial nodes t x fuel : interval_ctor nodes = Ok t -> increasing nodes -> length nodes <= fuel ->
  (at_ nodes 0 <= x < at_ nodes (length nodes - 1))%Q ->
  exists i, i < length nodes /\ nearest_site nodes i x /\ forall j, v1_contains t fuel j x = Ok (j =? i).
Proof.
  intros Ht Hinc Hf Hx. destruct (C127_locate_partial nodes t x fuel Ht Hinc Hf) as [([A|A] & _)|(_ & i & E & Hi & Hn)]; [intros A; lra|lra|lra|].
  exists i. split; [exact Hi|]. split; [exact Hn|]. intros j. unfold v1_contains. rewrite E. cbn [bind]. f_equal.
  destruct (Nat.eqb_spec j i) as [->|N]; [apply Z.eqb_refl|apply Z.eqb_neq; lia].
Qed.
(* outside the interval no cell contains the point *)
Theorem C127_contains_outside nodes t x fuel j : interval_ctor nodes = Ok t -> increasing nodes -> length nodes <= fuel ->
  (x < at_ nodes 0 \/ at_ nodes (length nodes - 1) < x)%Q -> v1_contains t fuel j x = Ok false.
Proof.
  intros Ht Hinc Hf Hx. pose proof (Hinc 0 (length nodes - 1)) as H0. destruct (ctor_fields nodes t Ht) as (_ & _ & Cn & _).
  destruct (C127_locate_partial nodes t x fuel Ht Hinc Hf) as [(_ & E)|(A & _)]; [| |exfalso; lra].
  - intros A. destruct Hx; [specialize (H0 ltac:(lia)); lra|lra].
  - unfold v1_contains. rewrite E. cbn [bind]. f_equal. apply Z.eqb_neq. lia.
Qed.
Theorem C127_locate_refuted nodes t fuel : interval_ctor nodes = Ok t -> increasing nodes -> length nodes <= fuel ->
  v1_locate t fuel (at_ nodes (length nodes - 1)) = UB.
Proof.
  intros Ht Hinc Hf. unfold v1_locate. rewrite (interval_locate_right_end nodes t _ fuel Ht); auto; [|reflexivity].
  intros i j Hij. destruct (Nat.eq_dec i j) as [->|]; [lra|]. pose proof (Hinc i j ltac:(lia)). lra.
Qed.
Print Assumptions C127_locate_refuted.

Definition line4 : list Q := [0; 1; 3; 7 # 2]%Q.
Example C127_example : exists t w, interval_ctor line4 = Ok t /\ increasing line4 /\ v1_ctor t [2; 0; 3; 1] = Ok w /\
  mapM (v1_measure w) [0; 1; 2; 3] = Ok [1 # 2; 6 # 4; 10 # 8; 2 # 8]%Q.
Proof.
  eexists. eexists. split; [reflexivity|]. split; [|split; vm_compute; reflexivity].
  intros i j [H1 H2]. change (length line4) with 4 in H2. destruct i as [|[|[|[|]]]], j as [|[|[|[|]]]]; try lia; vm_compute; reflexivity.
Qed.
