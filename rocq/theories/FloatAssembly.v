(* C226: the assembled matrix of the Laplacian in double arithmetic. *)
From Coq Require Import Reals Lra Lia List Bool ZArith.
From Flocq Require Import Core IEEE754.BinarySingleNaN Relative Plus_error.
From Verif Require Import Base RSum SimplexModel FloatCellModel FloatPlaneModel FloatMeasureModel FloatFemModel FloatAssemblyModel FloatLinspaceModel SymbolsModel SymbolsProps FloatModel FloatProps FloatSearch FloatSplineModel FloatSpline FloatDiffModel FloatDiff FloatCell FloatPlane FloatMeasure FloatFem.
Import ListNotations.
Open Scope R_scope.

(* ---- specification ---- *)
(* the contributions of all cells to entry (r, s): the local entries (i, j) whose degrees of freedom are r and s *)
Definition contributions (nb : nat) (F : f_cell -> nat -> nat -> R) (mesh : list mesh_cell) (r s : nat) : R :=
  lsum (map (fun e => rsum nb (fun i => rsum nb (fun j => if (snd e i =? r)%nat && (snd e j =? s)%nat then F (fst e) i j else 0))) mesh).
(* the degrees of freedom of a cell are different *)
Definition distinct_dofs (nb : nat) (e : mesh_cell) : Prop := forall i j, (i < nb)%nat -> (j < nb)%nat -> snd e i = snd e j -> i = j.
(* number of cells that have both degrees of freedom *)
Definition has (nb : nat) (e : mesh_cell) (r : nat) : bool := existsb (fun i => (snd e i =? r)%nat) (seq 0 nb).
Definition sharing (nb : nat) (mesh : list mesh_cell) (r s : nat) : nat := length (filter (fun e => has nb e r && has nb e s) mesh).

(* ---- which local entries are added ---- *)
Definition index (nb : nat) (e : mesh_cell) (r : nat) : option nat := find (fun i => (snd e i =? r)%nat) (seq 0 nb).
Definition hit (nb : nat) (e : mesh_cell) (r s : nat) : list (mesh_cell * (nat * nat)) :=
  match index nb e r, index nb e s with Some i, Some j => [(e, (i, j))] | _, _ => [] end.
Lemma index_some nb e r i : index nb e r = Some i -> (i < nb)%nat /\ snd e i = r.
Proof. intros H. apply find_some in H. destruct H as [H1 H2]. apply in_seq in H1. apply Nat.eqb_eq in H2. split; [lia|auto]. Qed.
Lemma index_none nb e r : index nb e r = None -> forall i, (i < nb)%nat -> snd e i <> r.
Proof. intros H i Hi E. assert (X := find_none _ _ H i ltac:(apply in_seq; lia)). cbn in X. apply Nat.eqb_neq in X. auto. Qed.
Lemma has_index nb e r : has nb e r = match index nb e r with Some _ => true | None => false end.
Proof.
  unfold has. destruct (index nb e r) as [i|] eqn:E.
  - apply index_some in E. apply existsb_exists. exists i. split; [apply in_seq; lia|]. now apply Nat.eqb_eq.
  - apply not_true_iff_false. intros X. apply existsb_exists in X. destruct X as (i & Hi & X). apply in_seq in Hi. apply Nat.eqb_eq in X. exact (index_none _ _ _ E i ltac:(lia) X).
Qed.
(* a list made of the contributions of a single index *)
Lemma flat_map_nil X Y (F : X -> list Y) l : (forall x, In x l -> F x = []) -> flat_map F l = [].
Proof. induction l as [|x l IH]; intros H; cbn; auto. rewrite H by (left; auto). apply IH. intros y Hy. apply H. now right. Qed.
Lemma flat_map_one X nb (e : mesh_cell) r (F : nat -> list X) : distinct_dofs nb e -> (forall i, (i < nb)%nat -> snd e i <> r -> F i = []) ->
  flat_map F (seq 0 nb) = match index nb e r with Some i => F i | None => [] end.
Proof.
  intros D H. destruct (index nb e r) as [k|] eqn:E.
  - destruct (index_some _ _ _ _ E) as [Hk Ek]. replace (seq 0 nb) with (seq 0 k ++ k :: seq (S k) (nb - S k)).
    + rewrite flat_map_app. cbn [flat_map]. rewrite !flat_map_nil, app_nil_r; [reflexivity| |]; intros i Hi; apply in_seq in Hi; apply H; try lia; intros Xi; assert (i = k) by (apply D; [lia|lia|congruence]); lia.
    + replace nb with (k + S (nb - S k))%nat at 2 by lia. rewrite seq_app. reflexivity.
  - apply flat_map_nil. intros i Hi. apply in_seq in Hi. apply H; [lia|]. apply (index_none _ _ _ E). lia.
Qed.
Lemma filter_flat_map X Y (p : Y -> bool) (F : X -> list Y) l : filter p (flat_map F l) = flat_map (fun x => filter p (F x)) l.
Proof. induction l as [|x l IH]; cbn; auto. rewrite filter_app, IH. reflexivity. Qed.
Lemma map_flat_map X Y Z (f : Y -> Z) (F : X -> list Y) l : map f (flat_map F l) = flat_map (fun x => map f (F x)) l.
Proof. induction l as [|x l IH]; cbn; auto. rewrite map_app, IH. reflexivity. Qed.
Definition local_at (n : nat) (w : nat -> double) (g : nat -> nat -> nat -> double) (h : mesh_cell * (nat * nat)) : double :=
  f_local n w g (fst (fst h)) (fst (snd h)) (snd (snd h)).
Lemma triplets_hit half nb n w g e r s : distinct_dofs nb e -> (half = true -> (s <= r)%nat) ->
  map snd (filter (fun t => (fst (fst t) =? r)%nat && (snd (fst t) =? s)%nat) (f_triplets half nb n w g e)) = map (local_at n w g) (hit nb e r s).
Proof.
  intros D Hh. destruct e as [c dof]. unfold f_triplets. rewrite filter_flat_map, map_flat_map.
  rewrite (flat_map_one _ nb (c, dof) r _ D).
  - unfold hit. destruct (index nb (c, dof) r) as [i|] eqn:Ei; [|reflexivity]. destruct (index_some _ _ _ _ Ei) as [Hi Di]. cbn [snd] in Di.
    rewrite filter_flat_map, map_flat_map. rewrite (flat_map_one _ nb (c, dof) s _ D).
    + destruct (index nb (c, dof) s) as [j|] eqn:Ej; [|reflexivity]. destruct (index_some _ _ _ _ Ej) as [Hj Dj]. cbn [snd] in Dj. rewrite Di, Dj.
      assert (X : half && negb (s <=? r)%nat = false) by (destruct half; auto; specialize (Hh eq_refl); apply Nat.leb_le in Hh; rewrite Hh; reflexivity). rewrite X. cbn [filter fst snd]. rewrite !Nat.eqb_refl. reflexivity.
    + intros j Hj Nj. cbn [snd] in Nj. destruct (half && negb (dof j <=? dof i)%nat); [reflexivity|]. cbn [filter fst snd]. apply Nat.eqb_neq in Nj. rewrite Nj, andb_false_r. reflexivity.
  - intros i Hi Ni. cbn [snd] in Ni. rewrite filter_flat_map. replace (flat_map _ (seq 0 nb)) with (@nil ((nat * nat) * double)); [reflexivity|]. symmetry. apply flat_map_nil. intros j _.
    destruct (half && negb (dof j <=? dof i)%nat); [reflexivity|]. cbn [filter fst snd]. apply Nat.eqb_neq in Ni. rewrite Ni. reflexivity.
Qed.
Lemma flat_map_ext_in X Y (F G : X -> list Y) l : (forall x, In x l -> F x = G x) -> flat_map F l = flat_map G l.
Proof. induction l as [|x l IH]; intros H; cbn; auto. rewrite (H x (or_introl eq_refl)), IH; auto. intros y Hy. apply H. now right. Qed.
Lemma entry_hits half nb n w g mesh r s : (forall e, In e mesh -> distinct_dofs nb e) -> (half = true -> (s <= r)%nat) ->
  f_entry (flat_map (f_triplets half nb n w g) mesh) r s = f_collapse (map (local_at n w g) (flat_map (fun e => hit nb e r s) mesh)).
Proof.
  intros D Hh. unfold f_entry. f_equal. rewrite filter_flat_map, !map_flat_map. apply flat_map_ext_in. intros e He. apply triplets_hit; auto.
Qed.
Lemma hits_sym nb n w g mesh r s : map (local_at n w g) (flat_map (fun e => hit nb e r s) mesh) = map (local_at n w g) (flat_map (fun e => hit nb e s r) mesh).
Proof.
  rewrite !map_flat_map. apply flat_map_ext_in. intros e _. unfold hit. destruct (index nb e r) as [i|], (index nb e s) as [j|]; try reflexivity. cbn [map]. unfold local_at. cbn [fst snd]. now rewrite C222_symmetric.
Qed.
Lemma assemble_hits half nb n w g mesh r s : (forall e, In e mesh -> distinct_dofs nb e) ->
  f_assemble half nb n w g mesh r s = f_collapse (map (local_at n w g) (flat_map (fun e => hit nb e r s) mesh)).
Proof.
  intros D. unfold f_assemble. destruct (half && negb (s <=? r)%nat) eqn:X.
  - apply andb_prop in X. destruct X as [-> X]. apply negb_true_iff, Nat.leb_gt in X. rewrite entry_hits by (auto; intros; lia). now rewrite hits_sym.
  - apply entry_hits; auto. intros ->. cbn in X. apply negb_false_iff, Nat.leb_le in X. exact X.
Qed.
(* computing half of the matrix gives, bit for bit, the matrix that would have been computed in full *)
Theorem C226_half nb n w g mesh r s : (forall e, In e mesh -> distinct_dofs nb e) ->
  f_assemble true nb n w g mesh r s = f_assemble false nb n w g mesh r s.
Proof. intros D. now rewrite !assemble_hits. Qed.
(* the matrix is exactly symmetric *)
Theorem C226_symmetric half nb n w g mesh r s : (forall e, In e mesh -> distinct_dofs nb e) ->
  f_assemble half nb n w g mesh r s = f_assemble half nb n w g mesh s r.
Proof. intros D. rewrite !assemble_hits by auto. now rewrite hits_sym. Qed.
(* degrees of freedom without a common cell are not coupled *)
Theorem C226_pattern half nb n w g mesh r s : (forall e, In e mesh -> distinct_dofs nb e) ->
  (forall e i j, In e mesh -> (i < nb)%nat -> (j < nb)%nat -> snd e i = r -> snd e j = s -> False) -> f_assemble half nb n w g mesh r s = d0.
Proof.
  intros D H. rewrite assemble_hits by auto. rewrite flat_map_nil; [reflexivity|]. intros e He. unfold hit.
  destruct (index nb e r) as [i|] eqn:Ei; auto. destruct (index nb e s) as [j|] eqn:Ej; auto. apply index_some in Ei as [I1 I2]. apply index_some in Ej as [J1 J2]. exfalso. exact (H e i j He I1 J1 I2 J2).
Qed.
(* ---- sums of lists ---- *)
Lemma collapse_snoc l x : l <> [] -> f_collapse (l ++ [x]) = dadd (f_collapse l) x.
Proof. destruct l as [|y l]; [congruence|]. intros _. cbn [app f_collapse]. now rewrite fold_left_app. Qed.
Lemma lsum_cons x l : lsum (x :: l) = x + lsum l. Proof. reflexivity. Qed.
Lemma lsum_nonneg l : (forall x, In x l -> 0 <= x) -> 0 <= lsum l.
Proof. induction l as [|x l IH]; intros H; [cbn; lra|]. rewrite lsum_cons. assert (A := H x (or_introl eq_refl)). assert (B := IH (fun y Hy => H y (or_intror Hy))). lra. Qed.
Lemma lsum_abs l : Rabs (lsum l) <= lsum (map Rabs l).
Proof. induction l as [|x l IH]; [cbn; rewrite Rabs_R0; lra|]. cbn [map]. rewrite !lsum_cons. apply Rle_trans with (1 := Rabs_triang _ _). lra. Qed.
Lemma lsum_le X (F G : X -> R) l : (forall x, In x l -> F x <= G x) -> lsum (map F l) <= lsum (map G l).
Proof. induction l as [|x l IH]; intros H; [cbn; lra|]. cbn [map]. rewrite !lsum_cons. assert (A := H x (or_introl eq_refl)). assert (B := IH (fun y Hy => H y (or_intror Hy))). lra. Qed.
Lemma lsum_minus X (F G : X -> R) l : lsum (map F l) - lsum (map G l) = lsum (map (fun x => F x - G x) l).
Proof. induction l as [|x l IH]; [cbn; ring|]. cbn [map]. rewrite !lsum_cons, <- IH. ring. Qed.
Lemma lsum_lin X (F : X -> R) a b l : lsum (map (fun x => a * F x + b) l) = a * lsum (map F l) + INR (length l) * b.
Proof. induction l as [|x l IH]; [cbn; ring|]. cbn [map length]. rewrite !lsum_cons, IH, S_INR. ring. Qed.
Lemma lsum_const l P : (forall x, In x l -> x <= P) -> lsum l <= INR (length l) * P.
Proof. induction l as [|x l IH]; intros H; [cbn; lra|]. cbn [length]. rewrite lsum_cons, S_INR. assert (A := H x (or_introl eq_refl)). assert (B := IH (fun y Hy => H y (or_intror Hy))). lra. Qed.
Lemma lsum_flat_map X Y (F : Y -> R) (G : X -> list Y) l : lsum (map F (flat_map G l)) = lsum (map (fun x => lsum (map F (G x))) l).
Proof. induction l as [|x l IH]; [reflexivity|]. cbn [flat_map map]. rewrite map_app, lsum_app, lsum_cons, IH. reflexivity. Qed.
Lemma collapse_ok (l : list double) P : l <> [] -> INR (length l) * (2 * u) <= 1 -> (forall x : double, In x l -> fin x = true /\ Rabs (B2 x) <= P) -> INR (length l) * (3 * P) <= bpow radix2 1000 ->
  fin (f_collapse l) = true /\ Rabs (B2 (f_collapse l) - lsum (map (fun x : double => B2 x) l)) <= ((1 + u) ^ length l - 1) * lsum (map (fun x : double => Rabs (B2 x)) l).
Proof.
  assert (Pu := u_pos). induction l as [|x l IH] using rev_ind; [congruence|]. intros _ L H B. rewrite app_length, plus_INR in L, B. cbn [length INR] in L, B. rewrite app_length. cbn [length].
  destruct (H x ltac:(apply in_or_app; right; left; auto)) as [Fx Px]. rewrite !map_app, !lsum_app. cbn [map]. rewrite !lsum_cons. change (lsum []) with 0. rewrite !Rplus_0_r.
  destruct l as [|y l0]; [cbn [app f_collapse length Nat.add map]; split; auto; change (lsum []) with 0; rewrite !Rplus_0_l, Rminus_diag_eq, Rabs_R0 by reflexivity; apply Rmult_le_pos; [cbn [pow]; lra|apply Rabs_pos]|].
  set (l := y :: l0) in *. assert (NE : l <> []) by discriminate. rewrite collapse_snoc by auto. assert (PN := pos_INR (length l)). assert (PP : 0 <= P) by (apply Rle_trans with (2 := Px); apply Rabs_pos).
  destruct (IH NE) as [F E]; [lra|intros z Hz; apply H; apply in_or_app; auto| |].
  { assert (INR (length l) * (3 * P) <= (INR (length l) + 1) * (3 * P)) by (apply Rmult_le_compat_r; lra). lra. }
  set (s := B2 (f_collapse l)) in *. set (S0 := lsum (map (fun x : double => B2 x) l)) in *. set (A := lsum (map (fun x : double => Rabs (B2 x)) l)) in *. set (N := length l) in *.
  assert (HA : Rabs S0 <= A) by (unfold S0, A; apply Rle_trans with (1 := lsum_abs _); rewrite map_map; apply Rle_refl). assert (A0 : 0 <= A) by (apply Rle_trans with (2 := HA); apply Rabs_pos).
  assert (AP : A <= INR N * P). { unfold A, N. replace (length l) with (length (map (fun x : double => Rabs (B2 x)) l)) by apply map_length. apply lsum_const. intros z Hz. apply in_map_iff in Hz. destruct Hz as (z0 & <- & Hz). apply H. apply in_or_app; auto. }
  assert (Q : (1 + u) ^ N <= 2) by (assert (Y := pow_linear N); assert (INR N * (2 * u) <= 1) by lra; specialize (Y ltac:(lra)); lra). assert (G1 := pow_ge1 N).
  assert (T : Rabs (s + B2 x) <= Rabs (s - S0) + A + Rabs (B2 x)). { replace (s + B2 x) with ((s - S0) + S0 + B2 x) by ring. apply Rle_trans with (1 := Rabs_triang _ _). apply Rplus_le_compat_r. apply Rle_trans with (1 := Rabs_triang _ _). lra. }
  assert (Z : ((1 + u) ^ N - 1) * A <= 1 * A) by (apply Rmult_le_compat_r; lra).
  destruct (dadd_ok (f_collapse l) x 1000 ltac:(lia) F Fx) as [F' E']. { fold s. apply Rle_trans with (1 := T). lra. }
  split; auto. assert (Er := dadd_error _ _ F'). fold s in Er. set (d := B2 (dadd (f_collapse l) x)) in *. set (p := B2 x) in *.
  replace (d - (S0 + p)) with ((d - (s + p)) + (s - S0)) by ring. apply Rle_trans with (1 := Rabs_triang _ _). rewrite Nat.add_1_r. cbn [pow]. set (q := (1 + u) ^ N) in *. assert (Hp := Rabs_pos p). set (e := Rabs (s - S0)) in *.
  assert (u * Rabs (s + p) <= u * (e + A + Rabs p)) by (apply Rmult_le_compat_l; lra).
  assert (0 <= (q - 1) * Rabs p) by (apply Rmult_le_pos; lra). assert (0 <= u * ((q - 1) * Rabs p)) by (apply Rmult_le_pos; lra). assert (u * e <= u * ((q - 1) * A)) by (apply Rmult_le_compat_l; lra). lra.
Qed.

Definition value_at (F : f_cell -> nat -> nat -> R) (h : mesh_cell * (nat * nat)) : R := F (fst (fst h)) (fst (snd h)) (snd (snd h)).
Lemma contributions_hits nb F mesh r s : (forall e, In e mesh -> distinct_dofs nb e) ->
  contributions nb F mesh r s = lsum (map (value_at F) (flat_map (fun e => hit nb e r s) mesh)).
Proof.
  intros D. unfold contributions. rewrite lsum_flat_map. apply lsum_map_ext. intros e He. specialize (D e He). unfold hit.
  destruct (index nb e r) as [i|] eqn:Ei.
  - destruct (index_some _ _ _ _ Ei) as [Hi Di]. rewrite (rsum_single nb _ i Hi).
    + destruct (index nb e s) as [j|] eqn:Ej.
      * destruct (index_some _ _ _ _ Ej) as [Hj Dj]. rewrite (rsum_single nb _ j Hj).
        -- rewrite Di, Dj, !Nat.eqb_refl. cbn [andb map]. rewrite lsum_cons. change (lsum []) with 0. rewrite Rplus_0_r. reflexivity.
        -- intros k Hk Nk. destruct (Nat.eqb_spec (snd e k) s) as [X|X]; [exfalso; apply Nk; apply D; auto; congruence|]. now rewrite andb_false_r.
      * change (lsum (map (value_at F) [])) with 0. apply rsum_zero. intros k Hk. assert (X := index_none _ _ _ Ej k Hk). apply Nat.eqb_neq in X. now rewrite X, andb_false_r.
    + intros k Hk Nk. apply rsum_zero. intros l Hl. destruct (Nat.eqb_spec (snd e k) r) as [X|X]; [exfalso; apply Nk; apply D; auto; congruence|]. reflexivity.
  - change (lsum (map (value_at F) [])) with 0. apply rsum_zero. intros k Hk. apply rsum_zero. intros l Hl. assert (X := index_none _ _ _ Ei k Hk). apply Nat.eqb_neq in X. now rewrite X.
Qed.
Lemma sharing_hits nb mesh r s : sharing nb mesh r s = length (flat_map (fun e => hit nb e r s) mesh).
Proof.
  unfold sharing. induction mesh as [|e mesh IH]; [reflexivity|]. cbn [filter flat_map]. rewrite app_length, <- IH, !has_index. unfold hit.
  destruct (index nb e r), (index nb e s); cbn [andb length]; lia.
Qed.
Lemma hit_in nb mesh r s h : In h (flat_map (fun e => hit nb e r s) mesh) -> In (fst h) mesh.
Proof.
  intros H. apply in_flat_map in H. destruct H as (e & He & H). unfold hit in H. destruct (index nb e r), (index nb e s); try contradiction. destruct H as [<-|[]]. exact He.
Qed.
Lemma stiffness_bound n w g J i j : Rabs (stiffness n w g J i j) <= astiffness n w g J i j.
Proof.
  unfold stiffness, astiffness. assert (V : 0 <= Rabs (volume 2 J) / 2) by (assert (X := Rabs_pos (volume 2 J)); lra). rewrite Rabs_mult, Rabs_Ropp, (Rabs_pos_eq (_ / 2)) by exact V. apply Rmult_le_compat_r; [exact V|].
  apply Rle_trans with (1 := rsum_abs _ _). apply rsum_le. intros q _. rewrite Rabs_mult. apply Rmult_le_compat_r; [apply Rabs_pos|].
  apply Rle_trans with (1 := rsum_abs _ _). apply rsum_le. intros r _. rewrite Rabs_mult.
  assert (G : forall v, Rabs (gradient J v r) <= agradient J v r) by (intros v; unfold gradient, agradient; apply rsum_abs). apply Rmult_le_compat; auto using Rabs_pos.
Qed.
(* the cells of C222: no overflow, not degenerate, conditioning at most kappa *)
Definition good_cell (kappa : R) (c : f_cell) : Prop := cell_ok 2 2 c /\ volume 2 (span c) <> 0 /\ terms 2 (span c) <= kappa * Rabs (volume 2 (span c)).
Section C226.
Variables (nb n : nat) (w : nat -> double) (g : nat -> nat -> nat -> double) (mesh : list mesh_cell) (kappa : R) (half : bool).
Hypothesis D : forall e, In e mesh -> distinct_dofs nb e.
Hypothesis Hc : forall e, In e mesh -> good_cell kappa (fst e).
Hypothesis HK : kappa <= 2 ^ 20.
Hypothesis Hn : (n <= 60)%nat.
Hypothesis Hw : forall q, (q < n)%nat -> fin (w q) = true /\ Rabs (B2 (w q)) <= 1.
Hypothesis Hg : forall q i s, (q < n)%nat -> (s < 2)%nat -> fin (g q i s) = true /\ Rabs (B2 (g q i s)) <= 1024.
Let K (c : f_cell) := stiffness n (fun q => B2 (w q)) (fun q i s => B2 (g q i s)) (span c).
Let A (c : f_cell) := astiffness n (fun q => B2 (w q)) (fun q i s => B2 (g q i s)) (span c).
(* the entries are the sums of the exact local integrals, up to the errors of C222 and of the additions *)
Theorem C226_accuracy r s : (sharing nb mesh r s <= 2 ^ 20)%nat ->
  fin (f_assemble half nb n w g mesh r s) = true /\
  Rabs (B2 (f_assemble half nb n w g mesh r s) - contributions nb K mesh r s) <=
    (3 * INR n + 60 * kappa + 3 * INR (sharing nb mesh r s)) * u * contributions nb A mesh r s + 2 * INR (sharing nb mesh r s) * bpow radix2 (-500).
Proof.
  intros HS. rewrite assemble_hits, !contributions_hits by auto. rewrite sharing_hits in *. set (H := flat_map (fun e => hit nb e r s) mesh) in *.
  assert (L : forall h, In h H -> fin (local_at n w g h) = true /\ Rabs (B2 (local_at n w g h)) <= 3 * bpow radix2 900 /\ Rabs (B2 (local_at n w g h) - value_at K h) <= (3 * INR n + 60 * kappa) * u * value_at A h + bpow radix2 (-500) /\ Rabs (value_at K h) <= value_at A h).
  { intros h Hh. apply hit_in in Hh. destruct (Hc _ Hh) as (C1 & C2 & C3). unfold local_at, value_at, K, A. set (c := fst (fst h)) in *. set (i := fst (snd h)). set (j := snd (snd h)).
    destruct (C222_accuracy n w g c kappa i j C1 C2 C3 HK Hn Hw Hg) as [F E]. split; auto. split; [|split; auto using stiffness_bound].
    eapply cl_size; [|apply (local_cl n w g c kappa C1 C2 C3 ltac:(lra) Hn Hw Hg i j)]. lia. }
  destruct (list_eq_dec (fun x y : unit => left (match x, y with tt, tt => eq_refl end)) (map (fun _ => tt) H) []) as [N|N].
  { apply map_eq_nil in N. rewrite N. cbn [map length INR f_collapse]. change (lsum []) with 0. split; [reflexivity|]. change (B2 d0) with 0. rewrite Rminus_0_r, Rabs_R0. lra. }
  assert (NE : map (local_at n w g) H <> []) by (intros X; apply N; apply map_eq_nil in X; rewrite X; reflexivity). clear N.
  set (M := length H) in *. assert (PM := pos_INR M). assert (M20 : INR M <= 1048576) by (replace 1048576 with (INR (2 ^ 20)) by (rewrite pow_INR; cbn [INR]; lra); now apply le_INR). assert (Pu := u_pos).
  assert (LM : length (map (local_at n w g) H) = M) by apply map_length. assert (B9 := bpow_gt_0 radix2 900).
  destruct (collapse_ok (map (local_at n w g) H) (3 * bpow radix2 900) NE) as [F E].
  { rewrite LM. apply Rle_trans with (1048576 * (2 * u)); [apply Rmult_le_compat_r; lra|rewrite u_small; lra]. }
  { intros x Hx. apply in_map_iff in Hx. destruct Hx as (h & <- & Hh). destruct (L h Hh) as (F & P & _). auto. }
  { rewrite LM. apply Rle_trans with (1048576 * (3 * (3 * bpow radix2 900))); [apply Rmult_le_compat_r; lra|]. apply Rle_trans with (bpow radix2 (900 + 24)); [|apply bpow_le; lia]. rewrite bpow_plus. change (bpow radix2 24) with 16777216. lra. }
  split; auto. rewrite LM, !map_map in E. set (a := B2 (f_collapse (map (local_at n w g) H))) in *. set (X := lsum (map (fun h => B2 (local_at n w g h)) H)) in *. set (Y := lsum (map (fun h => Rabs (B2 (local_at n w g h))) H)) in *.
  set (KK := lsum (map (value_at K) H)). set (AA := lsum (map (value_at A) H)). set (eps := (3 * INR n + 60 * kappa) * u) in *. set (t := bpow radix2 (-500)) in *. assert (Pt : 0 < t) by apply bpow_gt_0.
  assert (E1 : Rabs (X - KK) <= eps * AA + INR M * t). { unfold X, KK, AA, M. rewrite lsum_minus. apply Rle_trans with (1 := lsum_abs _). rewrite map_map, <- lsum_lin. apply lsum_le. intros h Hh. apply (L h Hh). }
  assert (E2 : Y <= (1 + eps) * AA + INR M * t). { unfold Y, AA, M. rewrite <- lsum_lin. apply lsum_le. intros h Hh. destruct (L h Hh) as (_ & _ & P & Q). replace (B2 (local_at n w g h)) with ((B2 (local_at n w g h) - value_at K h) + value_at K h) by ring. apply Rle_trans with (1 := Rabs_triang _ _). lra. }
  assert (PA : 0 <= AA). { unfold AA. apply lsum_nonneg. intros x Hx. apply in_map_iff in Hx. destruct Hx as (h & <- & Hh). destruct (L h Hh) as (_ & _ & _ & Q). apply Rle_trans with (2 := Q). apply Rabs_pos. }
  assert (In : 0 <= INR n <= 60) by (split; [apply pos_INR|]; replace 60 with (INR 60) by (cbn; lra); now apply le_INR).
  assert (Heps : eps <= 1 / 100). { unfold eps. apply Rle_trans with ((3 * 60 + 60 * 1048576) * u); [apply Rmult_le_compat_r; lra|rewrite u_small; lra]. }
  assert (Q := pow_linear M). assert (Mu : INR M * (2 * u) <= 1 / 100) by (apply Rle_trans with (1048576 * (2 * u)); [apply Rmult_le_compat_r; lra|rewrite u_small; lra]). specialize (Q ltac:(lra)). set (p := (1 + u) ^ M) in *. assert (P1 : 1 <= p) by apply pow_ge1.
  assert (Z : (p - 1) * Y <= INR M * (2 * u) * ((1 + 1 / 100) * AA + INR M * t)). { assert (0 <= INR M * t) by (apply Rmult_le_pos; lra). apply Rle_trans with ((p - 1) * ((1 + 1 / 100) * AA + INR M * t)); [apply Rmult_le_compat_l; [lra|]; apply Rle_trans with (1 := E2); apply Rplus_le_compat_r; apply Rmult_le_compat_r; lra|].
    apply Rmult_le_compat_r; [|lra]. apply Rplus_le_le_0_compat; [apply Rmult_le_pos; lra|lra]. }
  replace (a - KK) with ((a - X) + (X - KK)) by ring. apply Rle_trans with (1 := Rabs_triang _ _).
  assert (MA : 0 <= INR M * u * AA) by (apply Rmult_le_pos; [apply Rmult_le_pos; lra|lra]). assert (Mt : 0 <= INR M * t) by (apply Rmult_le_pos; lra).
  assert (Z2 : INR M * (2 * u) * (INR M * t) <= 1 / 100 * (INR M * t)) by (apply Rmult_le_compat_r; lra).
  replace ((3 * INR n + 60 * kappa + 3 * INR M) * u * AA) with (eps * AA + 3 * (INR M * u * AA)) by (unfold eps; ring).
  replace (INR M * (2 * u) * ((1 + 1 / 100) * AA + INR M * t)) with (2 * (1 + 1 / 100) * (INR M * u * AA) + INR M * (2 * u) * (INR M * t)) in Z by ring. lra.
Qed.
(* when the gradients of the basis functions add up to zero, the rows of the matrix add up to zero, up to the same errors *)
Lemma stiffness_rows W G J i : (forall q s, (q < n)%nat -> (s < 2)%nat -> rsum nb (fun j => G q j s) = 0) -> rsum nb (stiffness n W G J i) = 0.
Proof using.
  intros Z. rewrite (rsum_ext nb _ (fun j => rsum n (fun q => rsum 2 (fun r => gradient J (G q i) r * gradient J (G q j) r) * W q) * (- (Rabs (volume 2 J) / 2)))) by (intros j _; unfold stiffness; ring). rewrite rsum_scal_r, rsum_swap. rewrite (rsum_zero n); [ring|]. intros q Hq. rewrite rsum_scal_r, rsum_swap. rewrite (rsum_zero 2); [ring|]. intros r Hr. rewrite rsum_scal.
  replace (rsum nb (fun j => gradient J (G q j) r)) with 0; [ring|]. unfold gradient. rewrite rsum_swap. symmetry. apply rsum_zero. intros s Hs. rewrite rsum_scal. rewrite (Z q s Hq Hs). ring.
Qed.
Theorem C226_rows nd r : (forall s, (s < nd)%nat -> (sharing nb mesh r s <= 2 ^ 20)%nat) -> (forall e j, In e mesh -> (j < nb)%nat -> (snd e j < nd)%nat) ->
  (forall q s, (q < n)%nat -> (s < 2)%nat -> rsum nb (fun j => B2 (g q j s)) = 0) ->
  Rabs (rsum nd (fun s => B2 (f_assemble half nb n w g mesh r s))) <=
    rsum nd (fun s => (3 * INR n + 60 * kappa + 3 * INR (sharing nb mesh r s)) * u * contributions nb A mesh r s + 2 * INR (sharing nb mesh r s) * bpow radix2 (-500)).
Proof.
  intros HS Hd Z. assert (Zs : rsum nd (fun s => contributions nb K mesh r s) = 0).
  { unfold contributions. rewrite (rsum_lsum_swap _ nd (fun s e => rsum nb (fun i => rsum nb (fun j => if (snd e i =? r)%nat && (snd e j =? s)%nat then K (fst e) i j else 0))) mesh). apply lsum_map_0. intros e He. rewrite rsum_swap. apply rsum_zero. intros i Hi. rewrite rsum_swap.
    destruct (snd e i =? r)%nat; [|apply rsum_zero; intros j _; apply rsum_zero; reflexivity].
    rewrite (rsum_ext nb _ (K (fst e) i)); [apply stiffness_rows; exact Z|]. intros j Hj. rewrite (rsum_single nd _ (snd e j) (Hd e j He Hj)); [now rewrite Nat.eqb_refl|]. intros s _ N. destruct (Nat.eqb_spec (snd e j) s); [congruence|reflexivity]. }
  rewrite <- (Rminus_0_r (rsum nd _)), <- Zs, <- rsum_minus. apply Rle_trans with (1 := rsum_abs _ _). apply rsum_le. intros s Hs. apply C226_accuracy. auto.
Qed.
End C226.
(* the entries of the diagonal are not positive *)
Lemma collapse_nonpos (l : list double) : (forall x : double, In x l -> fin x = true -> B2 x <= 0) -> fin (f_collapse l) = true -> B2 (f_collapse l) <= 0.
Proof.
  induction l as [|x l IH] using rev_ind; intros H F; [cbn; lra|]. destruct l as [|y l0]; [apply H; [left; reflexivity|exact F]|]. set (l := y :: l0) in *. rewrite collapse_snoc in F |- * by discriminate.
  destruct (dadd_fin _ _ F) as (F1 & F2 & ->). assert (A := IH (fun z Hz => H z (in_or_app _ _ _ (or_introl Hz))) F1). assert (B := H x ltac:(apply in_or_app; right; left; reflexivity) F2). rewrite <- rnd_0. apply rnd_le. lra.
Qed.
Theorem C226_diagonal half nb n w g mesh r : (forall e, In e mesh -> distinct_dofs nb e) -> (forall q, (q < n)%nat -> 0 <= B2 (w q)) ->
  fin (f_assemble half nb n w g mesh r r) = true -> B2 (f_assemble half nb n w g mesh r r) <= 0.
Proof.
  intros D W. rewrite assemble_hits by auto. apply collapse_nonpos. intros x Hx Fx. apply in_map_iff in Hx. destruct Hx as (h & <- & Hh). apply in_flat_map in Hh. destruct Hh as (e & _ & Hh). unfold hit in Hh.
  destruct (index nb e r) as [i|]; [|contradiction]. destruct Hh as [<-|[]]. unfold local_at in *. cbn [fst snd] in *. now apply C222_diagonal.
Qed.
Print Assumptions C226_half.
Print Assumptions C226_symmetric.
Print Assumptions C226_pattern.
Print Assumptions C226_diagonal.
Print Assumptions C226_accuracy.
Print Assumptions C226_rows.

(* two triangles with a common edge: (0,0) (2,0) (1,3) and (2,0) (3,3) (1,3), numbered 0 1 2 and 1 3 2 *)
Definition tri_right : f_cell := nodes3 (at2 (whole 2) d0) (at2 (whole 3) (whole 3)) (at2 (whole 1) (whole 3)).
Definition two_cells : list mesh_cell := [(tri23, fun i => i); (tri_right, fun i => nth i [1; 3; 2] 9)%nat].
Example C226_example : (forall e, In e two_cells -> distinct_dofs 3 e /\ good_cell 1 (fst e)) /\ sharing 3 two_cells 1 2 = 2%nat /\ sharing 3 two_cells 1 1 = 2%nat /\
  (forall e j, In e two_cells -> (j < 3)%nat -> (snd e j < 4)%nat) /\ (forall half, f_assemble half 3 3 (fun _ => third) hats two_cells 3 0 = d0).
Proof.
  destruct C222_example as (ok & HV & HK & _ & _ & _ & _).
  assert (DD : forall e, In e two_cells -> distinct_dofs 3 e).
  { intros e [<-|[<-|[]]] i j Hi Hj; cbn [snd]; [auto|]. destruct i as [|[|[|i]]], j as [|[|[|j]]]; try lia; cbn; lia. }
  assert (W : forall m, (-4 <= m <= 4)%Z -> fin (whole m) = true /\ B2 (whole m) = IZR m) by (intros m Hm; destruct (B2_dbl m 0) as [F E]; [cbn; lia|lia|]; split; [exact F|]; rewrite <- (Rmult_1_r (IZR m)); exact E).
  destruct (W 1%Z ltac:(lia)) as [F1 E1]. destruct (W 2%Z ltac:(lia)) as [F2 E2]. destruct (W 3%Z ltac:(lia)) as [F3 E3]. assert (Z0 : B2 d0 = 0) by reflexivity.
  assert (M : forall z, 1 <= Rabs z <= 4 -> middling z). { intros z Hz. right. split; [apply Rle_trans with (bpow radix2 0); [apply bpow_le; lia|cbn; lra]|apply Rle_trans with (bpow radix2 2); [cbn; lra|apply bpow_le; lia]]. }
  split; [|split; [reflexivity|split; [reflexivity|split]]].
  - intros e He. split; [auto|]. destruct He as [<-|[<-|[]]]; [split; auto|]. cbn [fst]. split; [|split].
    + split.
      * intros [|[|[|i]]] [|[|r]] Hi Hr; try lia; auto.
      * intros [|[|r]] [|[|k]] Hr Hk; try lia; unfold span, tri_right, nodes3, at2; rewrite ?Z0, ?E1, ?E2, ?E3; apply M.
        -- rewrite Rabs_pos_eq; lra.
        -- rewrite Rabs_left; lra.
        -- rewrite Rabs_pos_eq; lra.
        -- rewrite Rabs_pos_eq; lra.
    + unfold volume, span, tri_right, nodes3, at2. rewrite !Z0, !E1, !E2, !E3. lra.
    + unfold volume, terms, span, tri_right, nodes3, at2. rewrite !Z0, !E1, !E2, !E3, !Rabs_mult. replace (3 - 2) with 1 by ring. replace (1 - 2) with (-1) by ring. replace (3 - 0) with 3 by ring. replace (1 * 3 - -1 * 3) with 6 by ring. rewrite (Rabs_left (-1)), !Rabs_pos_eq by lra. lra.
  - intros e j [<-|[<-|[]]] Hj; cbn [snd]; [lia|]. destruct j as [|[|[|j]]]; cbn; lia.
  - intros half. apply C226_pattern; auto. intros e i j [<-|[<-|[]]] Hi Hj; cbn [snd]; [lia|]. destruct i as [|[|[|i]]], j as [|[|[|j]]]; cbn; lia.
Qed.
