(* Properties C28 and C29: block sparse matrices. *)
From Verif Require Import Base SpBlockModel.

(* ---- specification ------------------------------------------------------------------------ *)
Section Spec.
Variable V : Type.
(* the block arguments tile a matrix with row heights hs and column widths ws *)
Definition tiles (R C : nat) (ms : list (spmat V)) (hs ws : list nat) : Prop :=
  length hs = R /\ length ws = C /\ length ms = R * C /\
  forall r c h w, nth_error hs r = Some h -> nth_error ws c = Some w ->
    exists m, nth_error ms (r * C + c) = Some m /\ sprows m = h /\ spncols m = w.
(* index i falls in the part r of the partition with the given sizes, at offset a *)
Definition falls (sizes : list nat) (i r a : nat) : Prop :=
  exists s, nth_error sizes r = Some s /\ a < s /\ i = list_sum (firstn r sizes) + a.
End Spec.
Arguments tiles {V}.

Section P.
Variable V : Type.
Variable zero : V.
Notation spmat := (spmat V).

Definition offs (l : list nat) : list nat := map (fun k => list_sum (firstn k l)) (seq 0 (S (length l))).
Lemma offs_snoc : forall l x, offs (l ++ [x]) = offs l ++ [x + list_sum l].
Proof.
  intros l x. unfold offs. rewrite app_length. cbn [length]. rewrite Nat.add_1_r, (seq_S (S (length l))), map_app. f_equal.
  - apply map_ext_in. intros k Hk. apply in_seq in Hk. f_equal. rewrite firstn_app. replace (k - length l) with 0 by lia. cbn. apply app_nil_r.
  - cbn [map Nat.add]. f_equal. rewrite firstn_all2 by (rewrite app_length; cbn; lia). rewrite list_sum_app. cbn. lia.
Qed.
Lemma offs_nth : forall l k, k <= length l -> nth_error (offs l) k = Some (list_sum (firstn k l)).
Proof. intros l k H. unfold offs. rewrite nth_error_map', nth_error_seq. replace (k <? S (length l)) with true by lia. auto. Qed.
Lemma offs_last : forall l, nth_error (offs l) (length l) = Some (list_sum l).
Proof. intros l. rewrite offs_nth, firstn_all; auto. Qed.

Lemma offs_cons : forall x l, offs (x :: l) = 0 :: map (Nat.add x) (offs l).
Proof.
  intros. unfold offs. cbn [length]. change (seq 0 (S (S (length l)))) with (0 :: seq 1 (S (length l))).
  rewrite <- seq_shift. cbn [map]. rewrite !map_map. reflexivity.
Qed.
Lemma ub_map : forall l x i, x <= i -> upper_bound (map (Nat.add x) l) i = upper_bound l (i - x).
Proof. induction l as [|a l IH]; intros x i H; cbn; auto. replace (x + a <=? i) with (a <=? i - x) by lia. destruct (_ <=? _); auto. Qed.
Lemma ub_falls : forall sizes i r a, falls sizes i r a -> upper_bound (offs sizes) i = S r.
Proof.
  induction sizes as [|x l IH]; intros i r a [s [E [Ha Hi]]]; [destruct r; discriminate|].
  rewrite offs_cons. cbn [upper_bound]. cbn [Nat.leb]. f_equal. destruct r as [|r]; cbn [nth_error firstn] in E, Hi.
  - inversion E; subst. unfold offs. cbn [seq map upper_bound firstn]. cbn. destruct (Nat.leb_spec (s + 0) a); [lia|auto].
  - change (list_sum (x :: firstn r l)) with (x + list_sum (firstn r l)) in Hi. rewrite ub_map by lia. apply IH with a. exists s. split; auto. split; auto. lia.
Qed.
Lemma falls_exists : forall sizes i, i < list_sum sizes -> exists r a, falls sizes i r a.
Proof.
  induction sizes as [|x l IH]; intros i H; [cbn in H; lia|]. change (list_sum (x :: l)) with (x + list_sum l) in H. destruct (Nat.lt_ge_cases i x) as [Hx|Hx].
  - exists 0, i. exists x. cbn. auto.
  - destruct (IH (i - x)) as [r [a [s [E [Ha Hi]]]]]; [lia|]. exists (S r), a. exists s. cbn [nth_error firstn]. split; auto. split; auto.
    change (list_sum (x :: firstn r l)) with (x + list_sum (firstn r l)). lia.
Qed.
Lemma falls_unique : forall sizes i r a r' a', falls sizes i r a -> falls sizes i r' a' -> r = r' /\ a = a'.
Proof.
  intros sizes i r a r' a' F F'. pose proof (ub_falls _ _ _ _ F). pose proof (ub_falls _ _ _ _ F'). assert (r = r') by congruence. subst.
  destruct F as [s [E [Ha Hi]]], F' as [s' [E' [Ha' Hi']]]. split; auto. lia.
Qed.
Lemma falls_lt : forall sizes i r a, falls sizes i r a -> i < list_sum sizes /\ r < length sizes.
Proof.
  intros sizes i r a [s [E [Ha Hi]]]. split; [|apply nth_error_Some; congruence].
  apply nth_error_split in E. destruct E as [l1 [l2 [-> <-]]]. rewrite firstn_app, Nat.sub_diag, firstn_all in Hi. cbn in Hi. rewrite app_nil_r in Hi.
  rewrite list_sum_app. change (list_sum (s :: l2)) with (s + list_sum l2). lia.
Qed.
Lemma index_falls : forall sizes i r a, falls sizes i r a -> indexToBlock (offs sizes) i = Ok a.
Proof.
  intros sizes i r a F. unfold indexToBlock. rewrite (ub_falls _ _ _ _ F). pose proof (falls_lt _ _ _ _ F) as [_ L].
  unfold nth_res. rewrite offs_nth by lia. cbn. f_equal. destruct F as [s [_ [_ Hi]]]. lia.
Qed.

(* ---- constructor ---- *)
Section Ctor.
Variables (R C : nat) (ms : list spmat).
Hypothesis HC : 0 < C.
Definition cinv (n : nat) (st : nat * list nat * list nat * list nat * list nat * nat * nat) : Prop :=
  let '(i, os, oo, is, io, cl, rw) := st in
  i = n /\ oo = offs os /\ io = offs is /\ cl = list_sum os /\ rw = list_sum is /\
  length os = Nat.min n C /\ (forall c, c < Nat.min n C -> nth_error os c = option_map spncols (nth_error ms c)) /\
  (forall r, r < length is <-> r * C < n) /\ (forall r, r * C < n -> nth_error is r = option_map sprows (nth_error ms (r * C))).
Definition goodblk (i : nat) : Prop :=
  option_map spncols (nth_error ms i) = option_map spncols (nth_error ms (i mod C)) /\
  option_map sprows (nth_error ms i) = option_map sprows (nth_error ms (i / C * C)).

Lemma ctor_step_spec : forall n st m, cinv n st -> nth_error ms n = Some m ->
  (goodblk n -> exists st', ctor_step V C st m = Ok st' /\ cinv (S n) st') /\
  (~ goodblk n -> ctor_step V C st m = Throw).
Proof.
  intros n [[[[[[i os] oo] is] io] cl] rw] m (-> & -> & -> & -> & -> & L1 & N1 & L2 & N2) Em.
  pose proof (Nat.div_mod n C ltac:(lia)) as DM. pose proof (Nat.mod_upper_bound n C ltac:(lia)) as MU.
  set (q := n / C) in *. set (c := n mod C) in *.
  unfold ctor_step. fold q c.
  assert (A1: (if q =? 0 then Ok true else w <- nth_res os c ;; Ok (spncols m =? w)) = Ok (match nth_error ms c with Some m' => spncols m =? spncols m' | None => false end)).
  { destruct (q =? 0) eqn:Eq.
    - apply Nat.eqb_eq in Eq. assert (c = n) by nia. rewrite H, Em, Nat.eqb_refl. auto.
    - apply Nat.eqb_neq in Eq. assert (c < Nat.min n C) by nia. assert (n < length ms) by (apply nth_error_Some; congruence).
      destruct (nth_error ms c) as [mc|] eqn:Ec; [|apply nth_error_None in Ec; nia].
      unfold nth_res. rewrite N1, Ec by auto. auto. }
  assert (A2: (if c =? 0 then Ok true else h <- nth_res is q ;; Ok (sprows m =? h)) = Ok (match nth_error ms (q * C) with Some m' => sprows m =? sprows m' | None => false end)).
  { destruct (c =? 0) eqn:Eq.
    - apply Nat.eqb_eq in Eq. replace (q * C) with n by nia. rewrite Em, Nat.eqb_refl. auto.
    - apply Nat.eqb_neq in Eq. assert (q * C < n) by nia. assert (n < length ms) by (apply nth_error_Some; congruence).
      destruct (nth_error ms (q * C)) as [mc|] eqn:Ec; [|apply nth_error_None in Ec; nia].
      unfold nth_res. rewrite N2, Ec by auto. auto. }
  rewrite A1, A2. cbn [bind]. unfold goodblk. fold q c. rewrite Em. cbn [option_map].
  assert (n < length ms) as LN by (apply nth_error_Some; congruence).
  destruct (nth_error ms c) as [mc|] eqn:Ec; [|apply nth_error_None in Ec; nia].
  destruct (nth_error ms (q * C)) as [mr|] eqn:Er; [|apply nth_error_None in Er; nia]. cbn [option_map].
  split.
  - intros [G1 G2]. inversion G1 as [G1']. inversion G2 as [G2']. rewrite G1', G2', !Nat.eqb_refl. cbn [andb assert_ bind].
    unfold nth_res. rewrite !offs_last. cbn [bind].
    assert (NX: forall r, r * C < S n -> r * C < n \/ (c = 0 /\ r = q)).
    { intros r Hr. destruct (Nat.eq_dec (r * C) n) as [Hq|Hq]; [|left; lia]. right.
      assert (r = q). { unfold q. rewrite <- Hq. rewrite Nat.div_mul; lia. } subst r. split; [nia|auto]. }
    destruct (q =? 0) eqn:Eq; destruct (c =? 0) eqn:Ecz; cbn [bind]; eexists; (split; [reflexivity|]); unfold cinv;
      apply Nat.eqb_eq in Eq || apply Nat.eqb_neq in Eq; apply Nat.eqb_eq in Ecz || apply Nat.eqb_neq in Ecz.
    all: (split; [reflexivity|]); (split; [rewrite ?offs_snoc; reflexivity|]); (split; [rewrite ?offs_snoc; reflexivity|]).
    all: (split; [rewrite ?list_sum_app; cbn; lia|]); (split; [rewrite ?list_sum_app; cbn; lia|]).
    all: (split; [rewrite ?app_length; cbn [length]; nia|]).
    all: (split; [intros c' Hc'|split; [intros r|intros r Hr]]).
    all: try (destruct (Nat.eq_dec c' n) as [->|Hne];
        [rewrite nth_error_app2, L1 by nia; replace (n - Nat.min n C) with 0 by nia; rewrite Em; cbn; congruence
        |rewrite nth_error_app1 by nia; apply N1; nia]).
    all: try (apply N1; nia).
    all: assert (LQ: c = 0 -> length is = q) by
      (intros C0; pose proof (L2 q) as X1; pose proof (L2 (length is)) as X2; destruct (Nat.lt_trichotomy (length is) q) as [Y|[Y|Y]]; [|auto|];
        [exfalso; assert (length is < length is) by (apply L2; nia); lia|assert (q * C < n) by (apply X1; auto); nia]).
    all: try (rewrite app_length; cbn [length]; split; intros X;
       [destruct (Nat.eq_dec r (length is)) as [->|Hne]; [rewrite LQ by auto; nia|assert (r * C < n) by (apply L2; lia); lia]
       |destruct (NX r X) as [Y|[Y Z]]; [apply L2 in Y; lia|rewrite LQ by auto; lia]]).
    all: try (split; intros X; [apply L2 in X; lia|destruct (NX r X) as [Y|[Y Z]]; [apply L2 in Y; lia|lia]]).
    all: destruct (NX r Hr) as [Y|[Y Z]].
    all: try (apply N2; auto); try lia.
    all: try (rewrite nth_error_app1 by (apply L2; auto); apply N2; auto).
    all: try (rewrite nth_error_app2 by (rewrite LQ by auto; lia); rewrite LQ, Z, Nat.sub_diag by auto; rewrite Er; cbn; congruence).
  - intros NG. destruct ((spncols m =? spncols mc) && (sprows m =? sprows mr)) eqn:B; auto.
    exfalso. apply NG. apply andb_true_iff in B. destruct B as [B1 B2]. apply Nat.eqb_eq in B1, B2. split; congruence.
Qed.
Lemma ctor_fold : forall n, n <= length ms ->
  ((forall i, i < n -> goodblk i) -> exists st, foldM (ctor_step V C) (firstn n ms) (0, [], [0], [], [0], 0, 0) = Ok st /\ cinv n st) /\
  (~ (forall i, i < n -> goodblk i) -> foldM (ctor_step V C) (firstn n ms) (0, [], [0], [], [0], 0, 0) = Throw).
Proof.
  induction n as [|n IH]; intros Hn.
  - split; [|intros X; exfalso; apply X; lia]. intros _. eexists; split; [reflexivity|]. cbn. do 5 (split; [reflexivity|]).
    split; [auto|]. split; [lia|]. split; [intros r; split; lia|lia].
  - destruct (nth_error ms n) as [m|] eqn:Em; [|apply nth_error_None in Em; lia].
    assert (FS: firstn (S n) ms = firstn n ms ++ [m]).
    { clear - Em. revert n Em. induction ms as [|a l IH]; intros [|n] Em; try discriminate; cbn in *; [congruence|]. f_equal. auto. }
    rewrite FS, foldM_app. destruct (IH ltac:(lia)) as [IH1 IH2].
    assert (DEC: forall i, goodblk i \/ ~ goodblk i).
    { intros i. unfold goodblk. 
      assert (D: forall a b : option nat, a = b \/ a <> b) by (intros [a|] [b|]; try (right; discriminate); auto; destruct (Nat.eq_dec a b); [left|right]; congruence).
      destruct (D (option_map spncols (nth_error ms i)) (option_map spncols (nth_error ms (i mod C)))); [|tauto].
      destruct (D (option_map sprows (nth_error ms i)) (option_map sprows (nth_error ms (i / C * C)))); tauto. }
    assert (DA: forall k, (forall i, i < k -> goodblk i) \/ ~ (forall i, i < k -> goodblk i)).
    { induction k as [|k [IHk|IHk]]; [left; lia| |right; auto]. destruct (DEC k) as [Dk|Dk]; [left; intros i Hi; destruct (Nat.eq_dec i k); [subst; auto|apply IHk; lia]|right; intros Z; apply Dk, Z; lia].
      intros Z; apply IHk. intros i Hi. apply Z. lia. }
    destruct (DA n) as [G|G].
    + destruct (IH1 G) as [st [E I]]. rewrite E. cbn [bind foldM]. destruct (ctor_step_spec n st m I Em) as [S1 S2]. split.
      * intros G'. destruct S1 as [st' [E' I']]; [apply G'; lia|]. rewrite E'. cbn. eauto.
      * intros NG. rewrite S2; auto. intros Gn. apply NG. intros i Hi. destruct (Nat.eq_dec i n); [subst; auto|apply G; lia].
    + rewrite IH2 by auto. cbn. split; [|auto]. intros G'. exfalso. apply G. intros i Hi. apply G'. lia.
Qed.
End Ctor.

Lemma good_tiles : forall R C ms, 0 < R -> 0 < C -> length ms = R * C ->
  ((forall i, i < R * C -> goodblk C ms i) <-> exists hs ws, tiles R C ms hs ws).
Proof.
  intros R C ms HR HC L. split.
  - intros G.
    assert (EX: forall n (f : nat -> nat), (forall k, k < n -> f k < length ms) -> forall (p : spmat -> nat), exists l, length l = n /\ forall k, k < n -> nth_error l k = option_map p (nth_error ms (f k))).
    { clear. induction n as [|n IH]; intros f Hf p; [exists []; split; auto; lia|].
      destruct (IH f ltac:(intros; apply Hf; lia) p) as [l [E1 E2]]. destruct (nth_error ms (f n)) as [m|] eqn:Em; [|apply nth_error_None in Em; pose proof (Hf n (Nat.lt_succ_diag_r n)); lia].
      exists (l ++ [p m]). split; [rewrite app_length; cbn; lia|]. intros k Hk. destruct (Nat.eq_dec k n) as [->|Hne].
      - rewrite nth_error_app2, E1, Nat.sub_diag, Em by lia. auto.
      - rewrite nth_error_app1 by lia. apply E2. lia. }
    destruct (EX R (fun r => r * C) ltac:(cbv beta; intros; rewrite L; nia) sprows) as [hs [H1 H2]].
    destruct (EX C (fun c => c) ltac:(cbv beta; intros; rewrite L; nia) spncols) as [ws [W1 W2]].
    exists hs, ws. split; [auto|]. split; [auto|]. split; [auto|]. intros r c h w Eh Ew.
    assert (Hr: r < R) by (rewrite <- H1; apply nth_error_Some; congruence). assert (Hc: c < C) by (rewrite <- W1; apply nth_error_Some; congruence).
    destruct (nth_error ms (r * C + c)) as [m|] eqn:Em; [|apply nth_error_None in Em; nia]. exists m. split; auto.
    destruct (G (r * C + c) ltac:(nia)) as [G1 G2].
    replace ((r * C + c) mod C) with c in G1 by (rewrite Nat.add_comm, Nat.mod_add, Nat.mod_small; lia).
    replace ((r * C + c) / C) with r in G2 by (rewrite Nat.add_comm, Nat.div_add, Nat.div_small; lia).
    rewrite H2 in Eh by auto. rewrite W2 in Ew by auto. rewrite Em in G1, G2. rewrite Eh in G2. rewrite Ew in G1. cbn in *. split; congruence.
  - intros [hs [ws [H1 [W1 [_ T]]]]] i Hi.
    pose proof (Nat.div_mod i C ltac:(lia)) as DM. pose proof (Nat.mod_upper_bound i C ltac:(lia)) as MU.
    set (q := i / C) in *. set (c := i mod C) in *. unfold goodblk. fold q c.
    assert (q < R) by nia.
    destruct (nth_error hs q) as [h|] eqn:Eh; [|apply nth_error_None in Eh; lia].
    destruct (nth_error ws c) as [w|] eqn:Ew; [|apply nth_error_None in Ew; lia].
    destruct (nth_error hs 0) as [h0|] eqn:Eh0; [|apply nth_error_None in Eh0; lia].
    destruct (nth_error ws 0) as [w0|] eqn:Ew0; [|apply nth_error_None in Ew0; lia].
    destruct (T _ _ _ _ Eh Ew) as [m [E1 [E2 E3]]]. destruct (T _ _ _ _ Eh0 Ew) as [m' [E1' [E2' E3']]]. destruct (T _ _ _ _ Eh Ew0) as [m'' [E1'' [E2'' E3'']]].
    rewrite Nat.add_0_r in E1''. cbn in E1'. replace i with (q * C + c) by lia. rewrite E1, E1', E1''. cbn. split; congruence.
Qed.

(* ---- C28 ---- *)
(* consistent blocks are accepted, with the total shape; inconsistent ones throw *)
Theorem sbm_make_ok : forall R C ms hs ws, 0 < R -> 0 < C -> tiles R C ms hs ws ->
  exists M, sbm_make V R C ms = Ok M /\ trows M = list_sum hs /\ tcols M = list_sum ws /\
    blocks M = ms /\ sbR M = R /\ sbC M = C /\ outer_offset M = offs ws /\ inner_offset M = offs hs.
Proof.
  intros R C ms hs ws HR HC T. pose proof T as [H1 [W1 [L T']]].
  assert (G: forall i, i < length ms -> goodblk C ms i) by (rewrite L; apply (good_tiles R C ms HR HC L); eauto).
  destruct (proj1 (ctor_fold C ms HC (length ms) (le_n _)) G) as [st [E I]]. rewrite firstn_all in E.
  unfold sbm_make. rewrite E. cbn [bind]. destruct st as [[[[[[i os] oo] is] io] cl] rw]. destruct I as (-> & -> & -> & -> & -> & L1 & N1 & L2 & N2).
  assert (os = ws).
  { apply nth_error_ext. intros c. destruct (Nat.lt_ge_cases c C) as [Hc|Hc].
    - rewrite N1 by nia. destruct (nth_error ws c) as [w|] eqn:Ew; [|apply nth_error_None in Ew; lia].
      destruct (nth_error hs 0) as [h|] eqn:Eh; [|apply nth_error_None in Eh; lia]. destruct (T' 0 c _ _ Eh Ew) as [m [Em [_ X]]]. cbn in Em. rewrite Em. cbn. congruence.
    - rewrite !(proj2 (nth_error_None _ _)); auto; [lia|nia]. }
  assert (is = hs).
  { apply nth_error_ext. intros r. destruct (Nat.lt_ge_cases r R) as [Hr|Hr].
    - rewrite N2 by nia. destruct (nth_error hs r) as [h|] eqn:Eh; [|apply nth_error_None in Eh; lia].
      destruct (nth_error ws 0) as [w|] eqn:Ew; [|apply nth_error_None in Ew; lia]. destruct (T' r 0 _ _ Eh Ew) as [m [Em [X _]]]. rewrite Nat.add_0_r in Em. rewrite Em. cbn. congruence.
    - rewrite !(proj2 (nth_error_None _ _)); auto; [lia|]. destruct (Nat.le_gt_cases (length is) r) as [Y|Y]; auto. apply L2 in Y. nia. }
  subst. eexists; split; [reflexivity|]. cbn. repeat split; auto.
Qed.
Theorem sbm_make_inconsistent_throws : forall R C ms, 0 < R -> 0 < C -> length ms = R * C ->
  ~ (exists hs ws, tiles R C ms hs ws) -> sbm_make V R C ms = Throw.
Proof.
  intros R C ms HR HC L NT. unfold sbm_make. rewrite <- (firstn_all ms).
  rewrite (proj2 (ctor_fold C ms HC (length ms) (le_n _))); auto. rewrite L. rewrite (good_tiles R C ms HR HC L). auto.
Qed.
(* coefficient (i,j) is the coefficient of the block it falls in, at the local offset *)
Theorem sbm_coeff : forall R C ms hs ws M i j r c a b m, 0 < R -> 0 < C -> tiles R C ms hs ws -> sbm_make V R C ms = Ok M ->
  falls hs i r a -> falls ws j c b -> nth_error ms (r * C + c) = Some m ->
  coeff V zero M (Z.of_nat i) (Z.of_nat j) = sp_coeff V zero m a b /\ exists v, sp_coeff V zero m a b = Ok v.
Proof.
  intros R C ms hs ws M i j r c a b m HR HC T E Fi Fj Em.
  destruct (sbm_make_ok R C ms hs ws HR HC T) as [M' [E' [X1 [X2 [X3 [X4 [X5 [X6 X7]]]]]]]]. rewrite E in E'; inversion E'; subst M'.
  pose proof (falls_lt _ _ _ _ Fi) as [Li Lr]. pose proof (falls_lt _ _ _ _ Fj) as [Lj Lc].
  split.
  - unfold coeff. rewrite X1, X2. replace (_ && _) with true by lia. cbn [assert_ bind]. rewrite !Nat2Z.id.
    unfold innerBlockIndex, outerBlockIndex. rewrite X7, X6. rewrite (ub_falls _ _ _ _ Fi), (ub_falls _ _ _ _ Fj).
    replace (_ <? 0)%Z with false by nia. rewrite X3, X5.
    replace (Z.to_nat _) with (r * C + c) by nia.
    unfold nth_res at 1. rewrite Em. cbn [bind]. rewrite (index_falls _ _ _ _ Fi), (index_falls _ _ _ _ Fj). reflexivity.
  - destruct T as [_ [_ [_ T]]]. destruct Fi as [h [Eh [Ha _]]]. destruct Fj as [w [Ew [Hb _]]]. destruct (T _ _ _ _ Eh Ew) as [m' [Em' [Y1 Y2]]].
    rewrite Em in Em'; inversion Em'; subst m'. unfold sp_coeff. replace (a <? sprows m) with true by lia.
    unfold spncols in Y2. destruct (nth_error (spcols m) b) as [cl|] eqn:Ec; [|apply nth_error_None in Ec; lia]. unfold nth_res. rewrite Ec. cbn. eauto.
Qed.
(* every coordinate in range falls in exactly one block; the others throw *)
Theorem sbm_cover : forall sizes i, i < list_sum sizes -> exists! p, falls sizes i (fst p) (snd p).
Proof.
  intros sizes i H. destruct (falls_exists sizes i H) as [r [a F]]. exists (r, a). split; auto. intros [r' a'] F'. cbn in F'.
  destruct (falls_unique _ _ _ _ _ _ F F'). congruence.
Qed.
Theorem sbm_out_of_range_throws : forall M row col, (row < 0 \/ Z.of_nat (trows M) <= row \/ col < 0 \/ Z.of_nat (tcols M) <= col)%Z ->
  coeff V zero M row col = Throw.
Proof. intros M row col H. unfold coeff. replace (_ && _) with false by lia. auto. Qed.

(* ---- C29 ---- *)
(* the stored entries of column b in the block row r, shifted by the given row offset *)
Definition shifted (off : nat) (l : list (nat * V)) : list (nat * V) := map (fun e => (off + fst e, snd e)) l.
(* entries the loop produces from the state (rest of block rst, b, off), given the columns of all blocks *)
Lemma iter_rest : forall M obi oof cols, sbR M = length cols -> length cols <> 0 ->
  (forall b c, nth_error cols b = Some c -> exists blk, block V M (Z.of_nat b) obi = Ok blk /\ nth_error (spcols blk) oof = Some c) ->
  forall h0, (exists b0, block V M 0 obi = Ok b0 /\ sprows b0 = h0) ->
  forall d b rst off fuel fuel2, b + d + 1 = length cols ->
  d < fuel -> length rst + length (concat (skipn (S b) cols)) < fuel2 ->
  exists it, advance V fuel M obi oof rst b off = Ok it /\ iter_collect V fuel2 M obi oof it =
    Ok (shifted off rst ++ flat_map (fun k => match nth_error cols (b + k) with Some c => shifted (off + k * h0) c | None => [] end) (seq 1 d)).
Proof.
  intros M obi oof cols HR HN HB h0 [b0 [HB0 Hh]].
  cut (forall n d b rst off fuel fuel2, length rst + length (concat (skipn (S b) cols)) + d <= n -> b + d + 1 = length cols ->
    d < fuel -> length rst + length (concat (skipn (S b) cols)) < fuel2 ->
    exists it, advance V fuel M obi oof rst b off = Ok it /\ iter_collect V fuel2 M obi oof it =
      Ok (shifted off rst ++ flat_map (fun k => match nth_error cols (b + k) with Some c => shifted (off + k * h0) c | None => [] end) (seq 1 d))).
  { intros K d b rst off fuel fuel2 H1 H2 H3. eapply K; eauto. }
  induction n as [|n IH]; intros d b rst off fuel fuel2 Hn Hd Hf Hf2.
  - assert (d = 0) by lia. subst d. assert (rst = []) by (destruct rst; auto; cbn in Hn; lia). subst rst.
    destruct fuel; [lia|]. cbn [advance]. rewrite HR. replace (b =? length cols - 1) with true by lia. eexists; split; [reflexivity|].
    destruct fuel2; reflexivity.
  - destruct rst as [|[r v] t].
    + destruct fuel; [lia|]. cbn [advance]. rewrite HR. destruct (b =? length cols - 1) eqn:Eb.
      * apply Nat.eqb_eq in Eb. assert (d = 0) by lia. subst d. eexists; split; [reflexivity|]. destruct fuel2; reflexivity.
      * apply Nat.eqb_neq in Eb. destruct d as [|d]; [lia|].
        destruct (nth_error cols (S b)) as [c|] eqn:Ec; [|apply nth_error_None in Ec; lia].
        destruct (HB _ _ Ec) as [blk [B1 B2]]. rewrite B1. cbn [bind]. unfold nth_res. rewrite B2. cbn [bind]. rewrite HB0. cbn [bind]. rewrite Hh.
        assert (SK: skipn (S b) cols = c :: skipn (S (S b)) cols).
        { clear - Ec. revert b Ec. induction cols as [|x l IHl]; intros b Ec; [destruct b; discriminate|]. destruct b; cbn in *; [destruct l; inversion Ec; auto|]. apply IHl; auto. }
        rewrite SK in Hn, Hf2. cbn [concat length] in Hn, Hf2. rewrite app_length in Hn, Hf2.
        destruct (IH d (S b) c (off + h0) fuel fuel2) as [it [E1 E2]]; try lia. exists it. split; [exact E1|]. rewrite E2. f_equal.
        cbn [shifted map app]. cbn [seq flat_map]. rewrite Nat.add_1_r, Ec. f_equal; [f_equal; f_equal; lia|].
        rewrite <- (seq_shift d 1). rewrite !flat_map_concat_map, map_map. f_equal. apply map_ext. intros k.
        replace (b + S k) with (S b + k) by lia. destruct (nth_error cols (S b + k)); auto. f_equal. lia.
    + destruct fuel; [lia|]. cbn [advance]. eexists; split; [reflexivity|]. destruct fuel2; [cbn in Hf2; lia|]. cbn [iter_collect cur rest ibi ioff].
      cbn [length] in Hn, Hf2. destruct (IH d b t off (sbR M) fuel2) as [it [E1 E2]]; try lia.
      rewrite E1. cbn [bind]. rewrite E2. cbn [bind]. reflexivity.
Qed.

(* what is enumerated for column j: block row k's entries at row offset k * (height of block row 0) *)
Theorem sbm_iterate_exact : forall R C ms hs ws M j c b cols h0 fuel, 0 < R -> 0 < C -> tiles R C ms hs ws -> sbm_make V R C ms = Ok M ->
  falls ws j c b -> nth_error hs 0 = Some h0 -> length cols = R ->
  (forall r, r < R -> exists m, nth_error ms (r * C + c) = Some m /\ nth_error (spcols m) b = nth_error cols r) ->
  length (concat cols) < fuel ->
  iterate V fuel M j = Ok (flat_map (fun k => match nth_error cols k with Some l => shifted (k * h0) l | None => [] end) (seq 0 R)).
Proof.
  intros R C ms hs ws M j c b cols h0 fuel HR HC T E Fj Eh LC HCs HF.
  destruct (sbm_make_ok R C ms hs ws HR HC T) as [M' [E' [X1 [X2 [X3 [X4 [X5 [X6 X7]]]]]]]]. rewrite E in E'; inversion E'; subst M'.
  pose proof (falls_lt _ _ _ _ Fj) as [Lj Lc]. destruct T as [TH [TW [TL T]]].
  assert (BK: forall r m, r < R -> nth_error ms (r * C + c) = Some m -> block V M (Z.of_nat r) (Z.of_nat c) = Ok m).
  { intros r m Hr Em. unfold block. rewrite X4, X5. replace (_ && _) with true by lia. cbn [assert_ bind]. rewrite X3.
    replace (Z.to_nat _) with (r * C + c) by nia. unfold nth_res. rewrite Em. auto. }
  unfold iterate, iter_begin. unfold outerBlockIndex. rewrite X6, (index_falls _ _ _ _ Fj), (ub_falls _ _ _ _ Fj). cbn [bind].
  replace (Z.of_nat (S c) - 1)%Z with (Z.of_nat c) by lia.
  destruct (HCs 0 HR) as [m0 [E0 C0]]. cbn [Nat.mul Nat.add] in E0. pose proof (BK 0 m0 HR E0) as BK0. cbn [Z.of_nat] in BK0. rewrite BK0. cbn [bind].
  destruct cols as [|c0 cols']; [cbn in LC; lia|]. cbn in C0. unfold nth_res. rewrite C0. cbn [bind].
  destruct Fj as [w [Ew [Hb Hj]]].
  destruct (iter_rest M (Z.of_nat c) b (c0 :: cols') ltac:(lia) ltac:(cbn; lia)) with (h0 := h0) (d := R - 1) (b := 0) (rst := c0) (off := 0) (fuel := sbR M) (fuel2 := fuel) as [it [I1 I2]].
  - intros k l Ek. assert (Hk: k < R) by (rewrite <- LC; apply nth_error_Some; congruence). destruct (HCs k Hk) as [m [Em Cm]]. exists m. split; [apply BK; auto|congruence].
  - exists m0. split; [exact BK0|]. destruct (T _ _ _ _ Eh Ew) as [m' [Em' [Y _]]]. cbn in Em'. congruence.
  - cbn in *; lia.
  - lia.
  - cbn [skipn] in *. cbn [concat length] in HF. rewrite app_length in HF. auto.
  - rewrite I1. cbn [bind]. rewrite I2. f_equal. replace R with (S (R - 1)) at 2 by lia. cbn [seq flat_map nth_error]. f_equal.
Qed.

(* the stored entries of column b over all block rows, with their global row index *)
Definition column_entries (hs : list nat) (cols : list (list (nat * V))) : list (nat * V) :=
  flat_map (fun r => match nth_error cols r with Some l => shifted (list_sum (firstn r hs)) l | None => [] end) (seq 0 (length hs)).
(* correct if all block rows but the last have the same height (in particular for two block rows) *)
Theorem sbm_iterate_partial : forall R C ms hs ws M j c b cols h0 fuel, 0 < R -> 0 < C -> tiles R C ms hs ws -> sbm_make V R C ms = Ok M ->
  falls ws j c b -> length cols = R ->
  (forall r, S r < R -> nth_error hs r = Some h0) ->
  (forall r, r < R -> exists m, nth_error ms (r * C + c) = Some m /\ nth_error (spcols m) b = nth_error cols r) ->
  length (concat cols) < fuel ->
  iterate V fuel M j = Ok (column_entries hs cols).
Proof.
  intros R C ms hs ws M j c b cols h0 fuel HR HC T E Fj LC HE HCs HF.
  pose proof T as [TH _].
  destruct (nth_error hs 0) as [h|] eqn:Eh; [|apply nth_error_None in Eh; lia].
  rewrite (sbm_iterate_exact R C ms hs ws M j c b cols h fuel); auto. f_equal. unfold column_entries. rewrite TH.
  rewrite !flat_map_concat_map. f_equal. apply map_ext_in. intros k Hk. apply in_seq in Hk.
  destruct (nth_error cols k); auto. f_equal. destruct (Nat.eq_dec R 1) as [->|HR1].
  { replace k with 0 by lia. auto. }
  assert (h = h0) by (rewrite (HE 0) in Eh; [congruence|lia]). subst h. 
  assert (G: forall k, k < R -> list_sum (firstn k hs) = k * h0).
  { induction k0 as [|k0 IHk]; intros H0; auto.
    assert (FS: firstn (S k0) hs = firstn k0 hs ++ [h0]).
    { pose proof (HE k0 H0) as Em. clear - Em. revert k0 Em. induction hs as [|a l IH]; intros [|n] Em; try discriminate; cbn in *; [congruence|]. f_equal. auto. }
    rewrite FS, list_sum_app, IHk by lia. cbn. lia. }
  symmetry. apply G. lia.
Qed.
(* the specification list has each stored entry once, with its global row index *)
Theorem column_entries_spec : forall hs cols i v, length cols = length hs ->
  In (i, v) (column_entries hs cols) <-> exists r a l, nth_error cols r = Some l /\ In (a, v) l /\ i = list_sum (firstn r hs) + a.
Proof.
  intros hs cols i v L. unfold column_entries. rewrite in_flat_map. split.
  - intros [r [Hr H]]. destruct (nth_error cols r) as [l|] eqn:El; [|destruct H]. unfold shifted in H. apply in_map_iff in H.
    destruct H as [[a v'] [E H]]. inversion E; subst. exists r, a, l. auto.
  - intros [r [a [l [El [H ->]]]]]. exists r. split; [apply in_seq; split; [lia|]; cbn; rewrite <- L; apply nth_error_Some; congruence|].
    rewrite El. unfold shifted. apply in_map_iff. exists (a, v). auto.
Qed.
End P.
Print Assumptions sbm_make_ok.
Print Assumptions sbm_make_inconsistent_throws.
Print Assumptions sbm_coeff.
Print Assumptions sbm_cover.
Print Assumptions sbm_out_of_range_throws.
Print Assumptions sbm_iterate_exact.
Print Assumptions sbm_iterate_partial.
Print Assumptions column_entries_spec.

(* three block rows of heights 1, 2, 1: the entry of the last block is reported on row 2 instead of 3 *)
Definition w0 : spmat nat := SpMat 1 [[(0, 7)]].
Definition w1 : spmat nat := SpMat 2 [[(1, 8)]].
Definition w2 : spmat nat := SpMat 1 [[(0, 9)]].
Theorem sbm_iterate_refuted : exists M, sbm_make nat 3 1 [w0; w1; w2] = Ok M /\ tiles 3 1 [w0; w1; w2] [1; 2; 1] [1] /\
  iterate nat 10 M 0 = Ok [(0, 7); (2, 8); (2, 9)] /\ coeff nat 0 M 3 0 = Ok 9 /\ coeff nat 0 M 2 0 = Ok 8.
Proof.
  eexists. split; [reflexivity|]. split; [|split; [reflexivity|split; reflexivity]]. split; [auto|]. split; [auto|]. split; [auto|].
  intros [|[|[|r]]] [|c] h w E1 E2; cbn in *; try (destruct r; discriminate); try (destruct c; discriminate); inversion E1; inversion E2; subst; eexists; split; reflexivity || (split; reflexivity).
Qed.
Print Assumptions sbm_iterate_refuted.
Example sbm_inconsistent : sbm_make nat 1 2 [w0; w1] = Throw.
Proof. reflexivity. Qed.
Example sbm_two_by_two : exists M, sbm_make nat 2 2 [w0; SpMat 1 [[]; [(0, 5)]]; w1; SpMat 2 [[(0, 6)]; []]] = Ok M /\
  coeff nat 0 M 1 1 = Ok 6 /\ coeff nat 0 M 0 2 = Ok 5 /\ iterate nat 10 M 0 = Ok [(0, 7); (2, 8)].
Proof. eexists. split; [reflexivity|]. split; [reflexivity|split; reflexivity]. Qed.
