(* C68, C114: evaluation matrices and basis expansions. *)
From Coq Require Import Lia.
From Verif Require Import FieldProps FemProps EvalModel.

(* ------------------------------------------------------------------ specification *)
Section Spec.
Variables (P : problem) (node0 : nat -> vec).
(* the finite element function of coefficients c at point p of cell e *)
Definition fe_value (c : nat -> R) (e : nat) (p : vec) : R :=
  rsum (n_basis P) (fun h => c (dof P e h) * ref_psi P h (pull P node0 e p)).
(* its integral over cell e by the quadrature rule *)
Definition fe_integral (c : nat -> R) (e : nat) : R :=
  rsum (n_nodes P) (fun q => fe_value c e (affine P e (node P q)) * weight P q) * measure P e.
Definition located (locate : vec -> option nat) : Prop := forall p e, locate p = Some e -> (e < n_cells P)%nat.
Definition distinct_dofs (e : nat) : Prop :=
  forall h h', (h < n_basis P)%nat -> (h' < n_basis P)%nat -> dof P e h = dof P e h' -> h = h'.
Definition select (inc : nat -> nat -> bool) (k l : nat) : R := if inc k l then 1 else 0.
End Spec.

(* ------------------------------------------------------------------ proofs *)
Lemma entry_single r c v a b : entry_of [(r, c, v)] a b = hit r a * hit c b * v.
Proof.
  unfold entry_of, hit. cbn. destruct (Nat.eqb_spec r a), (Nat.eq_dec r a), (Nat.eqb_spec c b), (Nat.eq_dec c b); cbn; try contradiction; lra.
Qed.
Lemma entry_of_map {A} (l : list A) (r c : A -> nat) (v : A -> R) a b :
  entry_of (map (fun x => (r x, c x, v x)) l) a b = lsum (map (fun x => hit (r x) a * hit (c x) b * v x) l).
Proof.
  induction l as [|x l IH]; [reflexivity|]. cbn [map lsum]. rewrite <- IH, <- entry_single.
  change ((r x, c x, v x) :: ?t) with ([(r x, c x, v x)] ++ t). apply entry_of_app.
Qed.
Lemma hit_same a : hit a a = 1. Proof. unfold hit. destruct (Nat.eq_dec a a); congruence. Qed.
Lemma hit_other a b : a <> b -> hit a b = 0. Proof. unfold hit. destruct (Nat.eq_dec a b); congruence. Qed.
Lemma rsum_hit n a c : (a < n)%nat -> rsum n (fun b => hit a b * c b) = c a.
Proof.
  intros H. rewrite (rsum_single n _ a H); [rewrite hit_same; lra|]. intros i Hi Hne. rewrite hit_other by auto. lra.
Qed.
(* the entries of row i when every row has its own list of triplets *)
Lemma rows_entry (row : nat -> list triplet) n i b : (forall k t, In t (row k) -> fst (fst t) = k) -> (i < n)%nat ->
  entry_of (flat_map row (seq 0 n)) i b = entry_of (row i) i b.
Proof.
  intros Hr Hi. rewrite entry_of_flat_map, <- rsum_lsum. rewrite (rsum_single n _ i Hi); [reflexivity|]. intros k _ Hne.
  unfold entry_of. apply lsum_map_0. intros [[r c] v] Hin. apply Hr in Hin. cbn in Hin. subst r.
  apply Nat.eqb_neq in Hne. now rewrite Hne.
Qed.
Section Pointwise.
Variables (P : problem) (node0 : nat -> vec) (locate : vec -> option nat).
Hypothesis Hd : dofs_ok P.
Hypothesis Hl : located P locate.
Local Notation N := (n_basis P).
Definition prow (i : nat) (p : vec) : list triplet :=
  match locate p with None => [] | Some e => map (fun h => (i, dof P e h, ref_psi P h (pull P node0 e p))) (seq 0 N) end.
Lemma prow_ok i p : pointwise_triplets P node0 locate i p = Ok (prow i p).
Proof.
  unfold pointwise_triplets, prow. destruct (locate p) as [e|] eqn:E; [|reflexivity]. apply Hl in E. unfold cell.
  apply Nat.ltb_lt in E. rewrite E. reflexivity.
Qed.
Lemma prow_entry i p e a : locate p = Some e -> entry_of (prow i p) i a = rsum N (fun h => hit (dof P e h) a * ref_psi P h (pull P node0 e p)).
Proof.
  intros E. unfold prow. rewrite E, entry_of_map, rsum_lsum. apply lsum_map_ext. intros h _. rewrite hit_same. lra.
Qed.
End Pointwise.

Theorem C68_pointwise P node0 locate locs : dofs_ok P -> located P locate -> locs <> [] ->
  exists Psi D, pointwise_evaluation P node0 locate locs = Ok (Psi, D) /\ (forall i, D i = 1) /\
  forall i p, nth_error locs i = Some p ->
    (* a point outside: an empty row *)
    (locate p = None -> forall a, Psi i a = 0) /\
    (* a point located in cell e: the values of the basis functions of e in their columns *)
    (forall e, locate p = Some e ->
       (distinct_dofs P e -> forall h, (h < n_basis P)%nat -> Psi i (dof P e h) = ref_psi P h (pull P node0 e p)) /\
       (forall a, (forall h, (h < n_basis P)%nat -> dof P e h <> a) -> Psi i a = 0) /\
       (* row i times the coefficients is the value of the function at p *)
       (forall c, rsum (n_dofs P) (fun a => Psi i a * c a) = fe_value P node0 c e p)).
Proof.
  intros Hd Hl Hne. unfold pointwise_evaluation.
  replace (negb (length locs =? 0)%nat) with true by (destruct locs; [contradiction|reflexivity]). cbn [assert_ bind].
  pose (L := combine (seq 0 (length locs)) locs).
  rewrite (foldM_collect _ (fun ip => prow P node0 locate (fst ip) (snd ip))) by (intros; rewrite prow_ok by auto; reflexivity). cbn [bind app]. fold L.
  assert (Hin : forall i p, In (i, p) L <-> nth_error locs i = Some p).
  { intros i p. unfold L. clear. assert (G : forall (l : list vec) k, In (i, p) (combine (seq k (length l)) l) <-> (k <= i)%nat /\ nth_error l (i - k) = Some p).
    { induction l as [|x l IH]; intros k; cbn [length seq combine].
      - split; [intros []|]. intros [_ H]. destruct (i - k)%nat; discriminate.
      - cbn [In]. rewrite IH. split.
        + intros [H|[H1 H2]].
          * injection H as <- <-. split; [lia|]. now rewrite Nat.sub_diag.
          * split; [lia|]. replace (i - k)%nat with (S (i - S k)) by lia. exact H2.
        + intros [H1 H2]. destruct (Nat.eq_dec i k) as [->|N].
          * rewrite Nat.sub_diag in H2. cbn in H2. left. congruence.
          * right. split; [lia|]. replace (i - k)%nat with (S (i - S k)) in H2 by lia. exact H2. }
    rewrite G, Nat.sub_0_r. split; [intros [_ H]; exact H|]. intros H; split; [lia|exact H]. }
  unfold set_triplets.
  match goal with |- context [if ?c then _ else UB] => assert (E : c = true) end.
  { apply forallb_forall. intros t Ht. apply in_flat_map in Ht as ([i p] & Hip & Ht). cbn [fst snd] in Ht. apply Hin in Hip.
    unfold prow in Ht. destruct (locate p) as [e|] eqn:Ee; [|contradiction]. apply in_map_iff in Ht as (h & <- & Hh). apply in_seq in Hh.
    apply andb_true_iff. split; apply Nat.ltb_lt; [apply nth_error_Some; congruence|]. apply Hd; [eapply Hl; eauto|lia]. }
  rewrite E. cbn [bind]. eexists. eexists. split; [reflexivity|]. split; [reflexivity|]. intros i p Hp.
  (* row i *)
  assert (R : forall a, entry_of (flat_map (fun ip => prow P node0 locate (fst ip) (snd ip)) L) i a = entry_of (prow P node0 locate i p) i a).
  { intros a. rewrite entry_of_flat_map. assert (HL : L = map (fun k => (k, nth k locs p)) (seq 0 (length locs))).
    { apply nth_error_ext. intros k. unfold L. rewrite nth_error_map.
      destruct (nth_error locs k) as [q|] eqn:Ek.
      - assert (k < length locs)%nat by (apply nth_error_Some; congruence). rewrite nth_error_seq. apply Nat.ltb_lt in H as H'. rewrite H'. cbn [option_map Nat.add].
        rewrite (nth_error_nth _ _ _ Ek). rewrite (nth_error_nth' _ (k, q)) by (rewrite combine_length, seq_length; lia).
        rewrite combine_nth by (rewrite seq_length; auto). rewrite seq_nth by auto. now rewrite (nth_error_nth _ _ q Ek).
      - apply nth_error_None in Ek. rewrite nth_error_seq. replace (k <? length locs)%nat with false by (symmetry; apply Nat.ltb_ge; lia). cbn.
        apply nth_error_None. rewrite combine_length, seq_length. lia. }
    rewrite HL, map_map, <- rsum_lsum. cbn [fst snd]. assert (Hi : (i < length locs)%nat) by (apply nth_error_Some; congruence).
    rewrite (rsum_single _ _ i Hi); [now rewrite (nth_error_nth _ _ p Hp)|].
    intros k _ Hk. unfold prow. destruct (locate (nth k locs p)) as [e|]; [|reflexivity]. rewrite entry_of_map.
    apply lsum_map_0. intros h _. rewrite hit_other by auto. lra. }
  split.
  - intros En a. rewrite R. unfold prow. rewrite En. reflexivity.
  - intros e Ee. split; [|split].
    + intros Hdist h Hh. rewrite R, (prow_entry _ _ _ _ _ e) by auto. rewrite (rsum_single _ _ h Hh); [rewrite hit_same; lra|].
      intros h' Hh' Hne'. rewrite hit_other; [lra|]. intros Heq. apply Hne'. now apply Hdist.
    + intros a Ha. rewrite R, (prow_entry _ _ _ _ _ e) by auto. apply rsum_zero. intros h Hh. rewrite hit_other by auto. lra.
    + intros c. unfold fe_value.
      rewrite (rsum_ext _ _ (fun a => rsum (n_basis P) (fun h => hit (dof P e h) a * (ref_psi P h (pull P node0 e p) * c a)))).
      * rewrite rsum_swap. apply rsum_ext. intros h Hh. rewrite (rsum_hit (n_dofs P) (dof P e h) (fun a => ref_psi P h (pull P node0 e p) * c a)); [lra|].
        apply Hd; [eapply Hl; eauto|auto].
      * intros a _. rewrite R, (prow_entry _ _ _ _ _ e) by auto. rewrite <- rsum_scal_r. apply rsum_ext. intros; lra.
Qed.

(* integrals of the basis functions *)
Section Areal.
Variables (P : problem) (node0 : nat -> vec) (inc : nat -> nat -> bool).
Hypothesis Hd : dofs_ok P.
Local Notation N := (n_basis P).
Definition psi_int (e h : nat) : R :=
  rsum (n_nodes P) (fun q => ref_psi P h (pull P node0 e (affine P e (node P q))) * weight P q) * measure P e.
Lemma integrate_psi e h : integrate_cell P (FCall (fun q => ref_psi P h (pull P node0 e q))) e = Ok (psi_int e h).
Proof. unfold integrate_cell. rewrite (sum_loop_ok _ (fun q => ref_psi P h (pull P node0 e (affine P e (node P q))) * weight P q)); reflexivity. Qed.
Definition acell (k l : nat) : list triplet := if inc k l then map (fun h => (k, dof P l h, psi_int l h)) (seq 0 N) else [].
Definition subdomain_measure (k n : nat) : R := rsum n (fun l => select inc k l * measure P l).
Lemma areal_loop k n : (n <= n_cells P)%nat ->
  foldM (areal_cell P node0 k inc) (seq 0 n) ([], 0) = Ok (flat_map (acell k) (seq 0 n), subdomain_measure k n).
Proof.
  induction n as [|n IH]; intros Hn; [reflexivity|]. rewrite seq_S, foldM_app, IH by lia. cbn [bind foldM Nat.add].
  unfold subdomain_measure. cbn [rsum]. rewrite flat_map_app. cbn [flat_map]. rewrite app_nil_r. unfold areal_cell.
  destruct (inc k n) eqn:Q; (assert (Qs : select inc k n = if inc k n then 1 else 0) by reflexivity); (assert (Qa : acell k n = if inc k n then map (fun h => (k, dof P n h, psi_int n h)) (seq 0 N) else []) by reflexivity); rewrite Q in Qs, Qa; rewrite Qs, Qa.
  - unfold cell. replace (n <? n_cells P)%nat with true by (symmetry; apply Nat.ltb_lt; lia). cbn [bind fst snd].
    rewrite (foldM_collect _ (fun h => [(k, dof P n h, psi_int n h)])) by (intros; rewrite integrate_psi; reflexivity). cbn [bind].
    rewrite Rmult_1_l. reflexivity.
  - cbn [bind fst snd]. rewrite app_nil_r. f_equal. f_equal. lra.
Qed.
Definition arow (k : nat) : list triplet :=
  map (fun t => let '(r, c, v) := t in (r, c, v / subdomain_measure k (n_cells P))) (flat_map (acell k) (seq 0 (n_cells P))).
Lemma arow_ok k : areal_row P node0 inc (n_cells P) k = Ok (arow k, subdomain_measure k (n_cells P)).
Proof. unfold areal_row. rewrite areal_loop by lia. reflexivity. Qed.
Lemma arow_in k t : In t (arow k) -> fst (fst t) = k /\ exists l h, (l < n_cells P)%nat /\ (h < N)%nat /\ snd (fst t) = dof P l h.
Proof.
  intros H. apply in_map_iff in H as ([[r c] v] & <- & H). apply in_flat_map in H as (l & Hl & H). unfold acell in H. destruct (inc k l); [|contradiction].
  apply in_map_iff in H as (h & Heq & Hh). injection Heq as <- <- <-. apply in_seq in Hl, Hh. cbn. split; [auto|]. exists l, h. split; [lia|split; [lia|auto]].
Qed.
Lemma entry_of_scale s l a b : entry_of (map (fun t : triplet => let '(r, c, v) := t in (r, c, v / s)) l) a b = entry_of l a b / s.
Proof.
  unfold entry_of. rewrite map_map. unfold Rdiv. rewrite Rmult_comm, <- lsum_map_scal. apply lsum_map_ext.
  intros [[r c] v] _. destruct (_ && _); lra.
Qed.
Lemma arow_entry k a : entry_of (arow k) k a =
  rsum (n_cells P) (fun l => select inc k l * rsum N (fun h => hit (dof P l h) a * psi_int l h)) / subdomain_measure k (n_cells P).
Proof.
  unfold arow. rewrite entry_of_scale. f_equal. rewrite entry_of_flat_map, <- rsum_lsum. apply rsum_ext. intros l _. unfold acell, select.
  destruct (inc k l).
  - rewrite entry_of_map, <- rsum_lsum, Rmult_1_l. apply rsum_ext. intros h _. rewrite hit_same. lra.
  - unfold entry_of. cbn. lra.
Qed.
End Areal.

Theorem C68_areal P node0 rows inc : dofs_ok P -> (0 < rows)%nat -> (0 < n_cells P)%nat ->
  exists Psi D, areal_evaluation P node0 rows (n_cells P) inc = Ok (Psi, D) /\
  forall k, (k < rows)%nat ->
    (* D is the measure of the subdomain *)
    D k = rsum (n_cells P) (fun l => select inc k l * measure P l) /\
    (* an empty subdomain: an empty row *)
    ((forall l, (l < n_cells P)%nat -> inc k l = false) -> D k = 0 /\ forall a, Psi k a = 0) /\
    (* row k times the coefficients is the integral of the function over the subdomain divided by its measure *)
    (D k <> 0 -> forall c, rsum (n_dofs P) (fun a => Psi k a * c a) =
       rsum (n_cells P) (fun l => select inc k l * fe_integral P node0 c l) / D k) /\
    (* constants are reproduced *)
    (D k <> 0 -> (forall x, rsum (n_basis P) (fun h => ref_psi P h x) = 1) -> rsum (n_nodes P) (weight P) = 1 ->
       forall c, rsum (n_dofs P) (fun a => Psi k a * c) = c).
Proof.
  intros Hd Hr Hn. unfold areal_evaluation.
  replace (negb (rows * n_cells P =? 0)%nat && (n_cells P =? n_cells P)%nat) with true
    by (symmetry; apply andb_true_iff; split; [apply negb_true_iff, Nat.eqb_neq; nia|apply Nat.eqb_refl]).
  cbn [assert_ bind].
  assert (L : forall n, foldM (fun s k => r <- areal_row P node0 inc (n_cells P) k ;; Ok (fst s ++ fst r, snd s ++ [snd r])) (seq 0 n) ([], []) =
    Ok (flat_map (arow P node0 inc) (seq 0 n), map (fun k => subdomain_measure P inc k (n_cells P)) (seq 0 n))).
  { induction n as [|n IH]; [reflexivity|]. rewrite seq_S, foldM_app, IH. cbn [bind foldM Nat.add fst snd]. rewrite arow_ok. cbn [bind fst snd].
    rewrite flat_map_app, map_app. cbn [flat_map map]. now rewrite app_nil_r. }
  rewrite L. cbn [bind fst snd]. unfold set_triplets.
  match goal with |- context [if ?c then _ else UB] => assert (E : c = true) end.
  { apply forallb_forall. intros [[r c] v] Ht. apply in_flat_map in Ht as (k & Hk & Ht). apply in_seq in Hk. apply arow_in in Ht as (E1 & l & h & Hl & Hh & E2).
    cbn in E1, E2. subst. apply andb_true_iff. split; apply Nat.ltb_lt; [lia|now apply Hd]. }
  rewrite E. cbn [bind]. eexists. eexists. split; [reflexivity|]. intros k Hk.
  assert (Dk : nth k (map (fun k => subdomain_measure P inc k (n_cells P)) (seq 0 rows)) 0 = subdomain_measure P inc k (n_cells P)).
  { apply nth_error_nth. rewrite nth_error_map, nth_error_seq. apply Nat.ltb_lt in Hk. now rewrite Hk. }
  cbv beta. rewrite Dk.
  assert (Ent : forall a, entry_of (flat_map (arow P node0 inc) (seq 0 rows)) k a = entry_of (arow P node0 inc k) k a).
  { intros a. apply rows_entry; [|auto]. intros k' t Ht. now apply arow_in in Ht. }
  assert (Main : forall c, rsum (n_dofs P) (fun a => entry_of (flat_map (arow P node0 inc) (seq 0 rows)) k a * c a) =
       rsum (n_cells P) (fun l => select inc k l * fe_integral P node0 c l) / subdomain_measure P inc k (n_cells P)).
  { intros c. unfold Rdiv. rewrite <- rsum_scal_r.
    rewrite (rsum_ext _ _ (fun a => rsum (n_cells P) (fun l => rsum (n_basis P) (fun h => hit (dof P l h) a * (select inc k l * psi_int P node0 l h * / subdomain_measure P inc k (n_cells P) * c a))))).
    - rewrite rsum_swap. apply rsum_ext. intros l Hl. rewrite rsum_swap.
      rewrite (rsum_ext _ _ (fun h => select inc k l * / subdomain_measure P inc k (n_cells P) * (psi_int P node0 l h * c (dof P l h)))).
      + rewrite rsum_scal. rewrite (Rmult_assoc (select inc k l)), (Rmult_comm (/ _)), <- Rmult_assoc. f_equal. f_equal. unfold fe_integral, psi_int, fe_value.
        rewrite (rsum_ext _ _ (fun h => rsum (n_nodes P) (fun q => c (dof P l h) * ref_psi P h (pull P node0 l (affine P l (node P q))) * weight P q) * measure P l)).
        * rewrite rsum_scal_r. f_equal. rewrite rsum_swap. apply rsum_ext. intros q _. now rewrite rsum_scal_r.
        * intros h _. rewrite (rsum_ext _ (fun q => c (dof P l h) * _ * _) (fun q => c (dof P l h) * (ref_psi P h (pull P node0 l (affine P l (node P q))) * weight P q))) by (intros; lra).
          rewrite rsum_scal. lra.
      + intros h Hh. rewrite (rsum_hit (n_dofs P) (dof P l h) (fun a => select inc k l * psi_int P node0 l h * / subdomain_measure P inc k (n_cells P) * c a)) by (now apply Hd). lra.
    - intros a _. rewrite Ent, arow_entry. unfold Rdiv. rewrite <- !rsum_scal_r. apply rsum_ext. intros l _. rewrite <- rsum_scal, <- !rsum_scal_r. apply rsum_ext. intros h _. lra. }
  split; [reflexivity|]. split; [|split].
  - intros He. split.
    + apply rsum_zero. intros l Hl. unfold select. rewrite (He l Hl). lra.
    + intros a. rewrite Ent, arow_entry. rewrite rsum_zero; [unfold Rdiv; lra|]. intros l Hl. unfold select. rewrite (He l Hl). lra.
  - intros _ c. apply Main.
  - intros Hne Hpu Hw c. rewrite (Main (fun _ => c)).
    rewrite (rsum_ext _ _ (fun l => c * (select inc k l * measure P l))).
    + rewrite rsum_scal. unfold subdomain_measure in *. field. exact Hne.
    + intros l _. unfold fe_integral, fe_value. rewrite (rsum_ext _ _ (fun q => c * weight P q)).
      * rewrite rsum_scal, Hw. lra.
      * intros q _. rewrite rsum_scal, Hpu. lra.
Qed.

(* ------------------------------------------------------------------ C114 *)
(* first order: the dofs of a cell are its vertices *)
Theorem C114_expansion_partial P node0 locate node_ids c locs :
  (forall e, (e < n_cells P)%nat -> node_ids e = map (dof P e) (seq 0 (n_basis P))) -> dofs_ok P ->
  (forall p, In p locs -> exists e, locate p = Some e /\ (e < n_cells P)%nat) ->
  exists v, expansion P node0 locate node_ids (n_dofs P) c (n_dofs P) locs = Ok v /\
    length v = length locs /\
    forall i p e, nth_error locs i = Some p -> locate p = Some e -> nth_error v i = Some (fe_value P node0 c e p).
Proof.
  intros Hn Hd Hloc. unfold expansion. rewrite Nat.eqb_refl. cbn [assert_ bind].
  pose (g := fun p => match locate p with Some e => fe_value P node0 c e p | None => 0 end).
  exists (map g locs).
  rewrite (mapM_fun _ g).
  2: { intros p Hp. destruct (Hloc p Hp) as (e & Ee & He). unfold g. rewrite Ee. unfold cell. apply Nat.ltb_lt in He as He'. rewrite He'. cbn [bind].
    unfold fe_value. apply sum_loop_ok.
    intros h Hh. rewrite Hn by auto. assert (Q : nth_error (map (dof P e) (seq 0 (n_basis P))) h = Some (dof P e h)).
    { rewrite nth_error_map, nth_error_seq. apply Nat.ltb_lt in Hh. now rewrite Hh. }
    apply nth_res_ok in Q. rewrite Q. cbn [bind]. rewrite entry_ok by (now apply Hd). reflexivity. }
  split; [reflexivity|]. split; [apply map_length|]. intros i p e Hp Ee. rewrite nth_error_map, Hp. cbn. unfold g. now rewrite Ee.
Qed.
(* the loop runs over all basis functions of a cell but indexes its vertices: with more basis functions than vertices
   (order 2) it reads out of bounds, whatever the mesh and the coefficients *)
Theorem C114_second_order_refuted P node0 locate node_ids size c p rest e :
  locate p = Some e -> (e < n_cells P)%nat -> (forall v, In v (node_ids e) -> (v < size)%nat) ->
  (length (node_ids e) < n_basis P)%nat -> expansion P node0 locate node_ids size c size (p :: rest) = UB.
Proof.
  intros Ee He Hv Hlen. unfold expansion. rewrite Nat.eqb_refl. cbn [assert_ bind mapM]. rewrite Ee. unfold cell. apply Nat.ltb_lt in He. rewrite He. cbn [bind].
  match goal with |- bind (sum_loop ?n ?f) _ = UB => assert (S : sum_loop n f = UB) end; [|rewrite S; reflexivity].
  unfold sum_loop. set (f := fun (s : R) (i : nat) => _).
  set (k := length (node_ids e)) in *.
  replace (n_basis P) with (k + S (n_basis P - k - 1))%nat by lia. rewrite seq_app, foldM_app. cbn [seq Nat.add].
  assert (G : forall m s, (m <= k)%nat -> exists s', foldM f (seq 0 m) s = Ok s').
  { induction m as [|m IH]; intros s Hm; [exists s; reflexivity|]. rewrite seq_S, foldM_app. destruct (IH s) as (s' & E); [lia|]. rewrite E. cbn [bind foldM Nat.add].
    unfold f at 1. destruct (nth_error (node_ids e) m) as [v|] eqn:Ev; [|apply nth_error_None in Ev; unfold k in *; lia]. apply nth_res_ok in Ev as Ev'. rewrite Ev'. cbn [bind].
    rewrite entry_ok by (apply Hv; eapply nth_error_In; eauto). cbn [bind]. eauto. }
  destruct (G k 0) as (s' & E); [lia|]. rewrite E. cbn [bind foldM]. unfold f at 1.
  assert (Q : nth_res (node_ids e) k = UB). { unfold nth_res. replace (nth_error (node_ids e) k) with (@None nat); [reflexivity|]. symmetry. apply nth_error_None. unfold k. lia. }
  rewrite Q. reflexivity.
Qed.
(* a point outside the domain *)
Theorem C114_outside_refuted P node0 locate node_ids size c p rest :
  locate p = None -> expansion P node0 locate node_ids size c size (p :: rest) = UB.
Proof. intros E. unfold expansion. rewrite Nat.eqb_refl. cbn [assert_ bind mapM]. rewrite E. reflexivity. Qed.

(* ------------------------------------------------------------------ in terms of reference coordinates *)
(* the cells are images of the reference cell under affine maps with Jacobian J and left inverse invJ, and the reference basis only depends on
   the reference coordinates *)
Definition geometry (P : problem) (node0 : nat -> vec) : Prop :=
  (exists J, (forall e x r, (r < edim P)%nat -> affine P e x r = node0 e r + rsum (ldim P) (fun k => J e r k * x k)) /\
     (forall e k l, (e < n_cells P)%nat -> (k < ldim P)%nat -> (l < ldim P)%nat -> rsum (edim P) (fun r => invJ P e k r * J e r l) = if (k =? l)%nat then 1 else 0)) /\
  (forall h x y, (forall k, (k < ldim P)%nat -> x k = y k) -> ref_psi P h x = ref_psi P h y).
(* p is the point of cell e with reference coordinates x *)
Definition maps_to (P : problem) (e : nat) (x p : vec) : Prop := forall r, (r < edim P)%nat -> p r = affine P e x r.
(* the finite element function of coefficients c at reference coordinates x of cell e *)
Definition fe_at (P : problem) (c : nat -> R) (e : nat) (x : vec) : R := rsum (n_basis P) (fun h => c (dof P e h) * ref_psi P h x).

Lemma psi_pull P node0 e x p h : geometry P node0 -> (e < n_cells P)%nat -> maps_to P e x p -> ref_psi P h (pull P node0 e p) = ref_psi P h x.
Proof.
  intros [(J & HA & HJ) Hp] Hce Hm. apply Hp. intros k Hk. unfold pull.
  rewrite (rsum_ext _ _ (fun r => rsum (ldim P) (fun l => invJ P e k r * J e r l * x l))).
  - rewrite rsum_swap. rewrite (rsum_single (ldim P) _ k Hk).
    + rewrite rsum_scal_r, HJ by auto. rewrite Nat.eqb_refl. lra.
    + intros l Hl Hne. rewrite rsum_scal_r, HJ by auto. destruct (Nat.eqb_spec k l); [lia|lra].
  - intros r Hr. rewrite (Hm r Hr), (HA e x r Hr). set (S := rsum (ldim P) _). replace (node0 e r + S - node0 e r) with S by lra. unfold S. rewrite <- rsum_scal. apply rsum_ext. intros; lra.
Qed.
Lemma fe_value_at P node0 c e x p : geometry P node0 -> (e < n_cells P)%nat -> maps_to P e x p -> fe_value P node0 c e p = fe_at P c e x.
Proof. intros G He M. unfold fe_value, fe_at. apply rsum_ext. intros h _. now rewrite (psi_pull P node0 e x p). Qed.

Theorem C68_point_values P node0 locate locs : dofs_ok P -> located P locate -> locs <> [] -> geometry P node0 ->
  exists Psi D, pointwise_evaluation P node0 locate locs = Ok (Psi, D) /\
  forall i p e x, nth_error locs i = Some p -> locate p = Some e -> maps_to P e x p ->
    (distinct_dofs P e -> forall h, (h < n_basis P)%nat -> Psi i (dof P e h) = ref_psi P h x) /\
    (forall c, rsum (n_dofs P) (fun a => Psi i a * c a) = fe_at P c e x).
Proof.
  intros Hd Hl Hne G. destruct (C68_pointwise P node0 locate locs Hd Hl Hne) as (Psi & D & E & _ & H). exists Psi, D. split; [auto|].
  intros i p e x Hp He Hm. destruct (H i p Hp) as [_ H2]. destruct (H2 e He) as (A & _ & B). split.
  - intros Hdi h Hh. rewrite A by auto. apply psi_pull; auto. now apply (Hl p).
  - intros c. rewrite B. apply fe_value_at; auto. now apply (Hl p).
Qed.
Theorem C68_areal_means P node0 rows inc : dofs_ok P -> (0 < rows)%nat -> (0 < n_cells P)%nat -> geometry P node0 ->
  exists Psi D, areal_evaluation P node0 rows (n_cells P) inc = Ok (Psi, D) /\
  forall k, (k < rows)%nat -> D k <> 0 -> forall c, rsum (n_dofs P) (fun a => Psi k a * c a) =
    rsum (n_cells P) (fun l => if inc k l then measure P l * rsum (n_nodes P) (fun q => weight P q * fe_at P c l (node P q)) else 0) /
    rsum (n_cells P) (fun l => if inc k l then measure P l else 0).
Proof.
  intros Hd Hr Hn G. destruct (C68_areal P node0 rows inc Hd Hr Hn) as (Psi & D & E & H). exists Psi, D. split; [auto|].
  intros k Hk HD c. destruct (H k Hk) as (A & _ & B & _). rewrite (B HD c), A. unfold select.
  match goal with |- ?a / ?b = ?x / ?y => assert (E1 : a = x); [|assert (E2 : b = y); [|now rewrite E1, E2]] end; apply rsum_ext; intros l Hlc; destruct (inc k l); try lra.
  unfold fe_integral. rewrite Rmult_1_l, Rmult_comm. f_equal. apply rsum_ext. intros q _.
  rewrite (fe_value_at P node0 c l (node P q)); [lra|auto|auto|]. intros r _. reflexivity.
Qed.
Theorem C114_values_partial P node0 locate node_ids c locs :
  (forall e, (e < n_cells P)%nat -> node_ids e = map (dof P e) (seq 0 (n_basis P))) -> dofs_ok P -> geometry P node0 ->
  (forall p, In p locs -> exists e, locate p = Some e /\ (e < n_cells P)%nat) ->
  exists v, expansion P node0 locate node_ids (n_dofs P) c (n_dofs P) locs = Ok v /\ length v = length locs /\
    forall i p e x, nth_error locs i = Some p -> locate p = Some e -> maps_to P e x p -> nth_error v i = Some (fe_at P c e x).
Proof.
  intros Hn Hd G Hl. destruct (C114_expansion_partial P node0 locate node_ids c locs Hn Hd Hl) as (v & E & L & H). exists v. split; [auto|]. split; [auto|].
  intros i p e x Hp He Hm. rewrite (H i p e Hp He). f_equal. destruct (Hl p (nth_error_In _ _ Hp)) as (e' & Ee' & He'). rewrite He in Ee'. injection Ee' as <-. now apply fe_value_at.
Qed.

(* ------------------------------------------------------------------ the hypotheses are met *)
Definition tri_node0 (_ : nat) : vec := fun _ => 0.
Definition tri_locate (p : vec) : option nat :=
  if Rle_dec 0 (p 0%nat) then if Rle_dec 0 (p 1%nat) then if Rle_dec (p 0%nat + p 1%nat) 1 then Some 0%nat else None else None else None.
Definition quarter : vec := fun r => if (r <? 2)%nat then / 4 else 0.
Example C68_example : dofs_ok one_triangle /\ located one_triangle tri_locate /\ tri_locate quarter = Some 0%nat /\
  distinct_dofs one_triangle 0 /\ (forall x, rsum (n_basis one_triangle) (fun h => ref_psi one_triangle h x) = 1) /\
  fe_value one_triangle tri_node0 (fun a => INR a) 0 quarter = 3 / 4.
Proof.
  split; [|split; [|split; [|split; [|split]]]].
  - intros e i He Hi. cbn in *. lia.
  - intros p e. unfold tri_locate. repeat match goal with |- context [if ?c then _ else _] => destruct c end; try discriminate. intros [= <-]. cbn. lia.
  - unfold tri_locate, quarter. cbn. repeat match goal with |- context [if ?c then _ else _] => destruct c end; try reflexivity; lra.
  - intros h h' _ _ H. cbn in H. exact H.
  - intros x. cbn. unfold tri_psi. lra.
  - unfold fe_value, pull, quarter, tri_node0. cbn. unfold tri_psi. lra.
Qed.
(* a stretched and shifted triangle: x -> 2 x + 1 in both coordinates *)
Definition stretched : problem :=
  {| ldim := 2; edim := 2; n_cells := 1; n_basis := 3; n_dofs := 3; dof := fun _ i => i; measure := fun _ => 2;
     invJ := fun _ k r => if (k =? r)%nat then / 2 else 0; affine := fun _ p r => 1 + 2 * p r; ref_psi := tri_psi; ref_nabla := tri_nabla;
     n_nodes := 1; node := fun _ _ => / 3; weight := fun _ => 1 |}.
Example C68_geometry_example : geometry stretched (fun _ _ => 1) /\ maps_to stretched 0 (fun _ => / 4) (fun _ => 3 / 2) /\
  fe_at stretched (fun a => INR a) 0 (fun _ => / 4) = 3 / 4.
Proof.
  split; [split|split].
  - exists (fun _ r k => if (r =? k)%nat then 2 else 0). split.
    + intros e x [|[|r]] Hr; cbn in *; try lia; lra.
    + intros e [|[|k]] [|[|l]] Hk Hl; cbn in *; try lia; lra.
  - intros [|[|[|h]]] x y H; cbn; unfold tri_psi; rewrite ?(H 0%nat), ?(H 1%nat) by (cbn; lia); reflexivity.
  - intros r Hr. cbn. lra.
  - unfold fe_at. cbn. unfold tri_psi. lra.
Qed.
Print Assumptions C68_point_values.
Print Assumptions C68_areal_means.
Print Assumptions C114_values_partial.
Print Assumptions C68_pointwise.
Print Assumptions C68_areal.
Print Assumptions C114_second_order_refuted.
