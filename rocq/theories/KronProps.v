(* Properties C30, C31 (Kronecker products) and C32 (lumping).  Uses the axioms of Coq's reals. *)
From Verif Require Import Base RSum KronModel.
From Coq Require Import Sorting.Sorted.

(* ---- C30 ---- *)
Lemma div_lt_mul : forall i a b, (i < a * b)%nat -> (i / b < a)%nat /\ (i mod b < b)%nat.
Proof.
  intros i a b H. assert (b <> 0)%nat by nia. split; [apply Nat.div_lt_upper_bound; lia|apply Nat.mod_upper_bound; auto].
Qed.
Theorem kron_dense_coeff : forall a b i j, (i < kron_rows a b)%nat -> (j < kron_cols a b)%nat ->
  kron_coeff a b i j = Ok (dent a (i / dr b) (j / dc b) * dent b (i mod dr b) (j mod dc b)).
Proof.
  intros a b i j Hi Hj. unfold kron_rows, kron_cols in *. destruct (div_lt_mul _ _ _ Hi) as [A1 A2]. destruct (div_lt_mul _ _ _ Hj) as [B1 B2].
  unfold kron_coeff, dcoeff.
  rewrite (proj2 (Nat.ltb_lt _ _) A1), (proj2 (Nat.ltb_lt _ _) A2), (proj2 (Nat.ltb_lt _ _) B1), (proj2 (Nat.ltb_lt _ _) B2). reflexivity.
Qed.
(* textbook form: block (p, q) of the product is a(p,q) * B *)
Theorem kron_dense_block : forall a b p q r s, (p < dr a)%nat -> (q < dc a)%nat -> (r < dr b)%nat -> (s < dc b)%nat ->
  kron_coeff a b (p * dr b + r) (q * dc b + s) = Ok (dent a p q * dent b r s).
Proof.
  intros a b p q r s Hp Hq Hr Hs. rewrite kron_dense_coeff by (unfold kron_rows, kron_cols; nia).
  assert (D: forall x y z, (z < y)%nat -> ((x * y + z) / y = x /\ (x * y + z) mod y = z)%nat).
  { intros x y z Hz. split; [rewrite Nat.add_comm, Nat.div_add, Nat.div_small; lia|rewrite Nat.add_comm, Nat.mod_add, Nat.mod_small; lia]. }
  destruct (D p (dr b) r Hr) as [-> ->]. destruct (D q (dc b) s Hs) as [-> ->]. reflexivity.
Qed.
(* matrix product and the dense matrix a Kronecker expression evaluates to *)
Definition mmul (a b : dmat) : dmat := DMat (dr a) (dc b) (fun i j => rsum (dc a) (fun k => dent a i k * dent b k j)).
Definition evaluates (a b k : dmat) : Prop :=
  dr k = kron_rows a b /\ dc k = kron_cols a b /\
  forall i j, (i < dr k)%nat -> (j < dc k)%nat -> kron_coeff a b i j = Ok (dent k i j).
Theorem kron_mixed_product : forall a b c d ab cd e, dc a = dr c -> dc b = dr d ->
  evaluates a b ab -> evaluates c d cd -> evaluates (mmul a c) (mmul b d) e ->
  dr (mmul ab cd) = dr e /\ dc (mmul ab cd) = dc e /\
  forall i j, (i < dr e)%nat -> (j < dc e)%nat -> dent (mmul ab cd) i j = dent e i j.
Proof.
  intros a b c d ab cd e H1 H2 [R1 [C1 E1]] [R2 [C2 E2]] [R3 [C3 E3]]. unfold kron_rows, kron_cols in *. cbn in R3, C3.
  split; [cbn; congruence|]. split; [cbn; congruence|]. intros i j Hi Hj.
  specialize (E3 i j Hi Hj). rewrite kron_dense_coeff in E3 by (unfold kron_rows, kron_cols; cbn; lia). injection E3 as E3'. cbn in E3'. rewrite <- E3'. cbn [mmul dent].
  rewrite C1. rewrite rsum_mul.
  rewrite (rsum_ext (dc a) _ (fun k => (dent a (i / dr b) k * dent c k (j / dc d)) * rsum (dc b) (fun l => dent b (i mod dr b) l * dent d l (j mod dc d)))).
  { rewrite rsum_scal_r. auto. }
  intros k Hk. rewrite <- rsum_scal. apply rsum_ext. intros l Hl.
  assert (X1: kron_coeff a b i (k * dc b + l) = Ok (dent a (i / dr b) k * dent b (i mod dr b) l)).
  { rewrite kron_dense_coeff; unfold kron_rows, kron_cols; [|lia|nia].
    replace ((k * dc b + l) / dc b)%nat with k by (rewrite Nat.add_comm, Nat.div_add, Nat.div_small; lia).
    replace ((k * dc b + l) mod dc b)%nat with l by (rewrite Nat.add_comm, Nat.mod_add, Nat.mod_small; lia). auto. }
  assert (X2: kron_coeff c d (k * dc b + l) j = Ok (dent c k (j / dc d) * dent d l (j mod dc d))).
  { rewrite kron_dense_coeff; unfold kron_rows, kron_cols; [|nia|lia]. rewrite <- H2.
    replace ((k * dc b + l) / dc b)%nat with k by (rewrite Nat.add_comm, Nat.div_add, Nat.div_small; lia).
    replace ((k * dc b + l) mod dc b)%nat with l by (rewrite Nat.add_comm, Nat.mod_add, Nat.mod_small; lia). auto. }
  rewrite E1 in X1 by nia. rewrite E2 in X2 by nia. inversion X1 as [Y1]. inversion X2 as [Y2]. rewrite Y1, Y2. ring.
Qed.

(* ---- C31 ---- *)
Definition kron_column (inner : nat) (l r : list (nat * R)) : list (nat * R) :=
  flat_map (fun a => map (fun b => ((fst a * inner + fst b)%nat, snd a * snd b)) r) l.
Lemma kcollect_ok : forall inner r0 rt, forall n l lt rst fuel e,
  (length rst + length (r0 :: rt) * length lt <= n)%nat -> (n < fuel)%nat ->
  kcollect fuel inner (r0 :: rt) (KIter (l :: lt) rst false (Some e)) =
    Ok (e :: map (kentry inner l) rst ++ kron_column inner lt (r0 :: rt)).
Proof.
  intros inner r0 rt. induction n as [|n IH]; intros l lt rst fuel e Hn Hf; (destruct fuel as [|fuel]; [lia|]).
  - assert (rst = []) by (destruct rst; auto; cbn in Hn; lia). assert (lt = []) by (destruct lt; auto; cbn in Hn; lia). subst. destruct fuel; reflexivity.
  - destruct rst as [|r rst].
    + destruct lt as [|l' lt]; [destruct fuel; reflexivity|]. cbn [kcollect kcur kincr kempty krhs klhs bind].
      rewrite (IH l' lt rt fuel); [|cbn in Hn |- *; lia|lia]. cbn [bind]. reflexivity.
    + cbn [kcollect kcur kincr kempty krhs klhs bind]. rewrite (IH l lt rst fuel); [reflexivity|cbn in Hn |- *; lia|lia].
Qed.
(* iterating column q*cols(B)+s yields, in order, a * b for a stored in column q of A, b in column s of B *)
Theorem kron_sparse_iterate : forall a b q s l r fuel, nth_error (scol a) q = Some l -> nth_error (scol b) s = Some r ->
  (length l * length r < fuel)%nat ->
  kron_iterate fuel a b (q * sc b + s) = Ok (kron_column (sr b) l r).
Proof.
  intros a b q s l r fuel El Er HF. assert (Hs: (s < sc b)%nat) by (unfold sc; apply nth_error_Some; congruence).
  unfold kron_iterate, kbegin.
  replace ((q * sc b + s) / sc b)%nat with q by (rewrite Nat.add_comm, Nat.div_add, Nat.div_small; lia).
  replace ((q * sc b + s) mod sc b)%nat with s by (rewrite Nat.add_comm, Nat.mod_add, Nat.mod_small; lia).
  unfold nth_res. rewrite El, Er. cbn [bind]. destruct r as [|r0 rt].
  - cbn. replace (kron_column (sr b) l []) with (@nil (nat * R)). { destruct fuel; auto. }
    clear. unfold kron_column. induction l; auto.
  - destruct l as [|l0 lt]; [cbn; destruct fuel; auto|]. cbn [kincr kempty krhs klhs bind].
    erewrite (kcollect_ok (sr b) r0 rt); [|apply le_n|]. { cbn. auto. } cbn in HF |- *. lia.
Qed.
(* with sorted operand columns (rows of B below its height) the rows come out strictly increasing *)
Lemma sorted_app : forall a b, StronglySorted lt a -> StronglySorted lt b -> (forall x y, In x a -> In y b -> (x < y)%nat) -> StronglySorted lt (a ++ b).
Proof.
  induction a as [|x a IH]; intros b Ha Hb H; cbn; auto. inversion Ha; subst. constructor; [apply IH; auto; intros; apply H; cbn; auto|].
  rewrite Forall_forall in *. intros y Hy. apply in_app_or in Hy. destruct Hy; auto. apply H; cbn; auto.
Qed.
Theorem kron_sparse_sorted : forall inner l r, StronglySorted lt (map fst l) -> StronglySorted lt (map fst r) ->
  (forall e, In e r -> (fst e < inner)%nat) -> StronglySorted lt (map fst (kron_column inner l r)).
Proof.
  intros inner l r Sl Sr Hr. induction l as [|[i x] l IH]; cbn; [constructor|]. cbn in Sl. inversion Sl as [|? ? S1 F1]; subst.
  rewrite map_app. apply sorted_app; auto.
  - rewrite map_map. cbn. clear - Sr. induction r as [|[k v] r IH]; cbn; [constructor|]. cbn in Sr. inversion Sr; subst. constructor; auto.
    rewrite Forall_forall in *. intros y Hy. apply in_map_iff in Hy. destruct Hy as [e [<- He]]. assert (k < fst e)%nat by (apply H2, in_map; auto). lia.
  - intros u v Hu Hv. rewrite map_map in Hu. apply in_map_iff in Hu. destruct Hu as [e [<- He]]. cbn.
    apply in_map_iff in Hv. destruct Hv as [w [<- Hw]]. unfold kron_column in Hw. apply in_flat_map in Hw. destruct Hw as [[i' x'] [Hi Hw]].
    apply in_map_iff in Hw. destruct Hw as [e' [<- He']]. cbn. rewrite Forall_forall in F1. assert (i < i')%nat by (apply F1; change i' with (fst (i', x')); apply in_map; auto).
    specialize (Hr e He). nia.
Qed.
(* and the coefficients are those of the dense definition *)
Theorem kron_sparse_coefficient : forall inner l r i, (forall e, In e r -> (fst e < inner)%nat) -> (0 < inner)%nat ->
  scoef i (kron_column inner l r) = scoef (i / inner) l * scoef (i mod inner) r.
Proof.
  intros inner l r i Hr HI. induction l as [|[p x] l IH]; cbn [kron_column flat_map scoef]; [lra|].
  assert (AP: forall u v, scoef i (u ++ v) = scoef i u + scoef i v).
  { induction u as [|[? ?] u IHu]; intros; cbn; [lra|]. rewrite IHu. lra. }
  rewrite AP. fold (kron_column inner l r). rewrite IH. rewrite Rmult_plus_distr_r. f_equal. cbn [fst snd].
  pose proof (Nat.div_mod i inner ltac:(lia)) as DM. pose proof (Nat.mod_upper_bound i inner ltac:(lia)) as MU.
  set (d := (i / inner)%nat) in *. set (m := (i mod inner)%nat) in *. clear IH AP.
  induction r as [|[k v] r IHr]; cbn [map scoef]; [lra|]. rewrite IHr by (intros; apply Hr; cbn; auto). cbn [fst snd].
  assert (Hk: (k < inner)%nat) by (apply (Hr (k, v)); cbn; auto).
  destruct (Nat.eqb_spec i (p * inner + k)) as [E|E]; destruct (Nat.eqb_spec d p) as [E1|E1]; destruct (Nat.eqb_spec m k) as [E2|E2]; try lra; exfalso; try nia.
Qed.

(* ---- C32 ---- *)
Theorem lump_sparse_row_sums : forall m i j, sr m = sc m -> (i < sr m)%nat -> (j < sr m)%nat ->
  exists d, lump_sparse m = Ok d /\ sr d = sr m /\ sc d = sr m /\
    sent d i j = if (i =? j)%nat then rsum (sc m) (fun k => sent m i k) else 0.
Proof.
  intros m i j SQ Hi Hj. unfold lump_sparse. rewrite <- SQ, Nat.eqb_refl. cbn [assert_ bind]. eexists; split; [reflexivity|]. cbn [sr scol].
  split; [auto|]. split; [unfold sc; cbn; rewrite map_length, seq_length; auto|].
  unfold sent; cbn [scol]. rewrite nth_error_map', nth_error_seq. rewrite (proj2 (Nat.ltb_lt _ _) Hj). cbn [option_map Nat.add].
  assert (G: forall n (g : nat -> R), (j < n)%nat -> map (fun t : nat * nat * R => (fst (fst t), snd t)) (filter (fun t => (snd (fst t) =? j)%nat) (map (fun i => (i, i, g i)) (seq 0 n))) = [(j, g j)]).
  { intros n g Hn. replace n with (j + (1 + (n - j - 1)))%nat by lia. rewrite !seq_app, !map_app, !filter_app, !map_app. cbn [seq map filter Nat.add fst snd]. rewrite Nat.eqb_refl. cbn [map app fst snd].
    assert (Z: forall a k, (forall x, (a <= x < a + k)%nat -> x <> j) -> filter (fun t : nat * nat * R => (snd (fst t) =? j)%nat) (map (fun i => (i, i, g i)) (seq a k)) = []).
    { intros a k. revert a. induction k; intros a Ha; cbn; auto. destruct (Nat.eqb_spec a j); [exfalso; apply (Ha a); lia|]. apply IHk. intros; apply Ha; lia. }
    rewrite (Z 0%nat) by (intros; lia). rewrite Z by (intros; lia). reflexivity. }
  rewrite (G _ (fun i => lsum (map (scoef i) (scol m)))) by auto. cbn [scoef]. destruct (Nat.eqb_spec i j); [|lra]. subst j.
  rewrite Rplus_0_r, rsum_lsum. unfold sc in *. rewrite SQ. clear. f_equal. apply nth_error_ext. intros k. rewrite !nth_error_map', nth_error_seq.
  destruct (Nat.ltb_spec k (length (scol m))) as [H|H].
  - cbn. destruct (nth_error (scol m) k) eqn:E; auto. exfalso. apply nth_error_None in E. lia.
  - rewrite (proj2 (nth_error_None _ _)); auto.
Qed.
Theorem lump_dense_row_sums : forall m d i, lump_dense m = Ok d -> (i < dr m)%nat ->
  length d = dr m /\ nth_error d i = Some (rsum (dc m) (fun j => dent m i j)).
Proof.
  intros m d i E Hi. unfold lump_dense in E. destruct (dr m =? dc m)%nat; cbn in E; [|discriminate]. inversion E; subst.
  rewrite map_length, seq_length. split; auto. rewrite nth_error_map', nth_error_seq, (proj2 (Nat.ltb_lt _ _) Hi). auto.
Qed.
(* lump(M) * 1 = M * 1 *)
Corollary lump_preserves_ones : forall m d i, sr m = sc m -> lump_sparse m = Ok d -> (i < sr m)%nat ->
  rsum (sc d) (fun j => sent d i j * 1) = rsum (sc m) (fun j => sent m i j * 1).
Proof.
  intros m d i SQ E Hi. destruct (lump_sparse_row_sums m i i SQ Hi Hi) as [d' [E' [_ [Hc _]]]]. rewrite E in E'; inversion E'; subst d'.
  rewrite Hc. rewrite (rsum_single _ _ i Hi).
  - destruct (lump_sparse_row_sums m i i SQ Hi Hi) as [d' [E2 [_ [_ X]]]]. rewrite E in E2; inversion E2; subst d'. rewrite X, Nat.eqb_refl.
    rewrite Rmult_1_r. apply rsum_ext. intros. ring.
  - intros k Hk NE. destruct (lump_sparse_row_sums m i k SQ Hi Hk) as [d' [E2 [_ [_ X]]]]. rewrite E in E2; inversion E2; subst d'. rewrite X.
    destruct (Nat.eqb_spec i k); [congruence|ring].
Qed.
Theorem lump_not_square_throws : (forall m, sr m <> sc m -> lump_sparse m = Throw) /\ (forall m, dr m <> dc m -> lump_dense m = Throw).
Proof.
  split; intros m H; [unfold lump_sparse|unfold lump_dense]; rewrite (proj2 (Nat.eqb_neq _ _) H); reflexivity.
Qed.
Print Assumptions kron_dense_coeff.
Print Assumptions kron_dense_block.
Print Assumptions kron_mixed_product.
Print Assumptions kron_sparse_iterate.
Print Assumptions kron_sparse_sorted.
Print Assumptions kron_sparse_coefficient.
Print Assumptions lump_sparse_row_sums.
Print Assumptions lump_dense_row_sums.
Print Assumptions lump_preserves_ones.
Print Assumptions lump_not_square_throws.

(* 2x2 (x) 2x1 with an empty column; the second column of A has two entries *)
Example kron_witness : kron_iterate 9 (SMat 2 [[]; [(0%nat, 2); (1%nat, 3)]]) (SMat 2 [[(0%nat, 5); (1%nat, 7)]]) 1 =
  Ok [(0%nat, 2 * 5); (1%nat, 2 * 7); (2%nat, 3 * 5); (3%nat, 3 * 7)] /\
  kron_iterate 9 (SMat 2 [[]; [(0%nat, 2)]]) (SMat 2 [[(0%nat, 5)]]) 0 = Ok [].
Proof. split; reflexivity. Qed.
