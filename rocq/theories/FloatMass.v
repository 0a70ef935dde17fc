(* C228: the matrix of the reaction term and the mass matrix in double arithmetic. *)
From Coq Require Import Reals Lra Lia List Bool ZArith.
From Flocq Require Import Core IEEE754.BinarySingleNaN Relative Plus_error.
From Verif Require Import Base RSum SimplexModel FloatCellModel FloatPlaneModel FloatMeasureModel FloatFemModel FloatAssemblyModel FloatLoadModel FloatMassModel FloatLinspaceModel SymbolsModel SymbolsProps FloatModel FloatProps FloatSearch FloatSplineModel FloatSpline FloatDiffModel FloatDiff FloatCell FloatPlane FloatMeasure FloatFem FloatAssembly FloatLoad.
Import ListNotations.
Open Scope R_scope.

(* ---- specification ---- *)
(* the contributions of all cells to entry (r, s): the local entries (i, j) whose degrees of freedom are r and s *)
Definition gathered (nb : nat) (F : nat -> f_cell -> nat -> nat -> R) (mesh : list mesh_cell) (r s : nat) : R :=
  lsum (map (fun ec : nat * mesh_cell => rsum nb (fun i => rsum nb (fun j => if (snd (snd ec) i =? r)%nat && (snd (snd ec) j =? s)%nat then F (fst ec) (fst (snd ec)) i j else 0))) (numbered mesh)).
(* how many there are *)
Definition meetings (nb : nat) (mesh : list mesh_cell) (r s : nat) : nat :=
  length (flat_map (fun e : mesh_cell => filter (fun ij => (snd e (fst ij) =? r)%nat && (snd e (snd ij) =? s)%nat) (list_prod (seq 0 nb) (seq 0 nb))) mesh).

(* ---- the terms of an entry ---- *)
Definition pairs_at (nb : nat) (dof : nat -> nat) (r s : nat) : list (nat * nat) := flat_map (fun i => flat_map (fun j => if (dof i =? r)%nat && (dof j =? s)%nat then [(i, j)] else []) (seq 0 nb)) (seq 0 nb).
Definition items2 (nb : nat) (mesh : list mesh_cell) (r s : nat) : list ((nat * f_cell) * (nat * nat)) :=
  flat_map (fun ec : nat * mesh_cell => map (fun ij => ((fst ec, fst (snd ec)), ij)) (pairs_at nb (snd (snd ec)) r s)) (numbered mesh).
Definition at2c {X : Type} (F : nat -> f_cell -> nat -> nat -> X) (h : (nat * f_cell) * (nat * nat)) : X := F (fst (fst h)) (snd (fst h)) (fst (snd h)) (snd (snd h)).
Lemma flat_map_ext' X Y (F G : X -> list Y) l : (forall x, F x = G x) -> flat_map F l = flat_map G l.
Proof. intros H. induction l as [|x l IH]; [reflexivity|]. cbn. now rewrite H, IH. Qed.
Lemma pairs_filter nb dof r s : pairs_at nb dof r s = filter (fun ij => (dof (fst ij) =? r)%nat && (dof (snd ij) =? s)%nat) (list_prod (seq 0 nb) (seq 0 nb)).
Proof.
  unfold pairs_at. enough (G : forall l l0 : list nat, flat_map (fun i => flat_map (fun j => if (dof i =? r)%nat && (dof j =? s)%nat then [(i, j)] else []) l) l0 = filter (fun ij => (dof (fst ij) =? r)%nat && (dof (snd ij) =? s)%nat) (list_prod l0 l)) by apply G. intros l l0. induction l0 as [|i l0 IH]; [reflexivity|]. cbn [flat_map list_prod]. rewrite filter_app, IH. f_equal. clear IH. induction l as [|j l IH]; [reflexivity|]. cbn [flat_map map filter fst snd]. rewrite IH. destruct (_ && _); reflexivity.
Qed.
Lemma pairs_in nb dof r s i j : In (i, j) (pairs_at nb dof r s) <-> (i < nb)%nat /\ (j < nb)%nat /\ dof i = r /\ dof j = s.
Proof.
  rewrite pairs_filter, filter_In, in_prod_iff, !in_seq. cbn [fst snd]. rewrite andb_true_iff, !Nat.eqb_eq. lia.
Qed.
Lemma items2_in nb mesh r s h : In h (items2 nb mesh r s) -> exists dof, In (fst (fst h), (snd (fst h), dof)) (numbered mesh) /\ (fst (snd h) < nb)%nat /\ (snd (snd h) < nb)%nat /\ dof (fst (snd h)) = r /\ dof (snd (snd h)) = s.
Proof. intros H. apply in_flat_map in H. destruct H as ((e & c & dof) & Hi & H). apply in_map_iff in H. destruct H as ((i & j) & <- & H). apply pairs_in in H. exists dof. cbn in *. tauto. Qed.
Lemma items2_length nb mesh r s : length (items2 nb mesh r s) = meetings nb mesh r s.
Proof.
  unfold items2, meetings. rewrite <- (numbered_snd mesh) at 2. induction (numbered mesh) as [|x l IH]; [reflexivity|]. cbn [flat_map map]. rewrite !app_length, map_length, IH, pairs_filter. reflexivity.
Qed.
Lemma gathered_items nb F mesh r s : gathered nb F mesh r s = lsum (map (at2c F) (items2 nb mesh r s)).
Proof.
  unfold gathered, items2. rewrite lsum_flat_map. f_equal. apply map_ext. intros (e & c & dof). cbn [fst snd]. rewrite map_map. unfold at2c. cbn [fst snd]. unfold pairs_at. rewrite lsum_flat_map.
  assert (G : forall (f : nat -> R) m, lsum (map f (seq 0 m)) = rsum m f) by (intros f m; induction m as [|m IH]; [reflexivity|]; rewrite seq_S, map_app, lsum_app, IH; cbn [rsum map Nat.add]; rewrite lsum_cons; change (lsum []) with 0; ring).
  rewrite G. apply rsum_ext. intros i _. rewrite lsum_flat_map, G. apply rsum_ext. intros j _. destruct (_ && _); cbn [map]; rewrite ?lsum_cons; change (lsum []) with 0; cbn [fst snd]; ring.
Qed.
Lemma gathered_sym nb F mesh r s : (forall e c i j, F e c i j = F e c j i) -> gathered nb F mesh r s = gathered nb F mesh s r.
Proof.
  intros S. unfold gathered. f_equal. apply map_ext. intros (e & c & dof). cbn [fst snd]. rewrite rsum_swap. apply rsum_ext. intros j _. apply rsum_ext. intros i _. rewrite andb_comm, S. reflexivity.
Qed.
Lemma entry_items half nb loc mesh r s : (half = true -> (s <= r)%nat) -> f_entry (flat_map (f_cell_triplets half nb loc) (numbered mesh)) r s = f_collapse (map (at2c loc) (items2 nb mesh r s)).
Proof.
  intros Hh. unfold f_entry, items2. rewrite filter_flat_map, !map_flat_map. f_equal. apply flat_map_ext'. intros (e & c & dof). unfold f_cell_triplets, pairs_at. cbn [fst snd]. rewrite map_map, filter_flat_map, !map_flat_map. apply flat_map_ext'. intros i. rewrite filter_flat_map, !map_flat_map. apply flat_map_ext'. intros j.
  destruct (half && negb (dof j <=? dof i)%nat) eqn:E.
  - apply andb_true_iff in E. destruct E as [E1 E2]. apply negb_true_iff, Nat.leb_gt in E2. specialize (Hh E1). destruct (Nat.eqb_spec (dof i) r), (Nat.eqb_spec (dof j) s); cbn; auto; lia.
  - clear E. cbn [filter fst snd]. destruct ((dof i =? r)%nat && (dof j =? s)%nat); reflexivity.
Qed.
Lemma matrix_items half nb loc mesh r s : f_matrix half nb loc mesh r s = f_collapse (map (at2c loc) (if half && negb (s <=? r)%nat then items2 nb mesh s r else items2 nb mesh r s)).
Proof.
  unfold f_matrix. destruct (half && negb (s <=? r)%nat) eqn:E.
  - apply andb_true_iff in E. destruct E as [E1 E2]. apply negb_true_iff, Nat.leb_gt in E2. apply entry_items. lia.
  - apply entry_items. intros ->. cbn in E. apply negb_false_iff, Nat.leb_le in E. exact E.
Qed.
(* the matrix of the Laplacian of C226 is assembled by the same function *)
Lemma matrix_of_laplacian half nb n w g mesh r s : f_assemble half nb n w g mesh r s = f_matrix half nb (fun _ => f_local n w g) mesh r s.
Proof.
  unfold f_assemble, f_matrix. replace (flat_map (f_cell_triplets half nb (fun _ => f_local n w g)) (numbered mesh)) with (flat_map (f_triplets half nb n w g) mesh); [reflexivity|].
  rewrite <- (numbered_snd mesh) at 1. induction (numbered mesh) as [|(e & c & dof) l IH]; [reflexivity|]. cbn [map flat_map snd]. rewrite IH. reflexivity.
Qed.

(* C228: the matrix of the reaction term is exactly symmetric *)
Theorem C228_symmetric d nb n w phi cf mesh r s : f_reaction_matrix d nb n w phi cf mesh r s = f_reaction_matrix d nb n w phi cf mesh s r.
Proof.
  unfold f_reaction_matrix. rewrite !matrix_items. cbn [andb]. destruct (Nat.leb_spec s r), (Nat.leb_spec r s); cbn [negb]; try lia; auto. now replace s with r by lia.
Qed.
(* C228: degrees of freedom without a common cell have a zero entry *)
Theorem C228_pattern d nb n w phi cf mesh r s : (forall c dof i j, In (c, dof) mesh -> (i < nb)%nat -> (j < nb)%nat -> dof i = r -> dof j <> s) -> f_reaction_matrix d nb n w phi cf mesh r s = d0.
Proof.
  intros H. unfold f_reaction_matrix. rewrite matrix_items. replace (if true && negb (s <=? r)%nat then items2 nb mesh s r else items2 nb mesh r s) with (@nil ((nat * f_cell) * (nat * nat))); [reflexivity|].
  destruct (true && _); match goal with |- [] = ?l => destruct l as [|h l0] eqn:E; [reflexivity|exfalso] end.
  - destruct (items2_in nb mesh s r h ltac:(rewrite E; now left)) as (dof & Hi & Hn & Hm & Hr & Hs). apply numbered_in in Hi. now apply (H _ _ _ _ (proj2 Hi) Hm Hn Hs).
  - destruct (items2_in nb mesh r s h ltac:(rewrite E; now left)) as (dof & Hi & Hn & Hm & Hr & Hs). apply numbered_in in Hi. now apply (H _ _ _ _ (proj2 Hi) Hn Hm Hr).
Qed.
(* C228: for the mass matrix (coefficient 1) computing the lower half only changes nothing *)
Lemma dmul_1 a : fin a = true -> dmul (dbl 1 0) a = a.
Proof.
  intros F. destruct (B2_dbl 1 0) as [F1 E1]; [cbn; lia|lia|]. assert (E : B2 (dbl 1 0) = 1) by (change (B2 (dbl 1 0)) with (B2R (dbl 1 0)); rewrite E1; cbn; lra). clear E1.
  assert (C := @Bmult_correct 53 1024 prec64 emax64 mode_NE (dbl 1 0) a). fold (dmul (dbl 1 0) a) in C. change (B2R (dbl 1 0)) with (B2 (dbl 1 0)) in C. rewrite E, Rmult_1_l in C. rewrite round_generic in C; [|apply valid_rnd_N|apply generic_format_B2R]. rewrite Rlt_bool_true in C by apply abs_B2R_lt_emax.
  destruct C as (C1 & C2 & C3). rewrite F, F1 in C2. change (true && true) with true in C2. assert (N : forall x : double, fin x = true -> is_nan x = false) by (intros x; destruct x; cbn; congruence). apply B2R_Bsign_inj; auto. rewrite (C3 (N _ C2)). replace (Bsign (dbl 1 0)) with false by (vm_compute; reflexivity). now destruct (Bsign a).
Qed.
Lemma pairs_one nb (e : mesh_cell) r s : distinct_dofs nb e -> pairs_at nb (snd e) r s = match index nb e r, index nb e s with Some i, Some j => [(i, j)] | _, _ => [] end.
Proof.
  intros D. unfold pairs_at. rewrite (flat_map_one _ nb e r _ D).
  2:{ intros i _ N. apply flat_map_nil. intros j _. destruct (Nat.eqb_spec (snd e i) r); [contradiction|reflexivity]. }
  destruct (index nb e r) as [i|] eqn:E; [|reflexivity]. apply index_some in E. destruct E as [_ E]. rewrite (flat_map_one _ nb e s _ D).
  2:{ intros j _ N. destruct (Nat.eqb_spec (snd e j) s); [contradiction|]. now rewrite andb_false_r. }
  destruct (index nb e s) as [j|] eqn:E'; [|reflexivity]. apply index_some in E'. destruct E' as [_ E']. now rewrite E, E', !Nat.eqb_refl.
Qed.
Theorem C228_half d nb n w phi mesh r s : (forall e, In e mesh -> distinct_dofs nb e) -> (forall i q, (i < nb)%nat -> (q < n)%nat -> fin (phi i q) = true) ->
  f_reaction_matrix d nb n w phi (fun _ => dbl 1 0) mesh r s = f_matrix false nb (f_reaction d n w phi (fun _ => dbl 1 0)) mesh r s.
Proof.
  intros D F. unfold f_reaction_matrix. rewrite !matrix_items. cbn [andb]. destruct (negb (s <=? r)%nat); [|reflexivity]. f_equal. unfold items2. rewrite !map_flat_map. apply flat_map_ext_in. intros (e & cd) He. apply numbered_in in He. cbn [fst snd]. rewrite !map_map. unfold at2c. cbn [fst snd]. rewrite !(pairs_one nb cd) by (apply D; apply He).
  destruct (index nb cd r) as [i|] eqn:E, (index nb cd s) as [j|] eqn:E'; try reflexivity. apply index_some in E. apply index_some in E'. cbn [map fst snd]. f_equal. unfold f_reaction. f_equal. apply fsum_ext. intros q Hq. rewrite !dmul_1 by (apply F; tauto). now rewrite (dmul_comm (phi i q)).
Qed.

(* ---- sign ---- *)
Lemma collapse_nonneg (l : list double) : (forall x : double, In x l -> fin x = true -> 0 <= B2 x) -> fin (f_collapse l) = true -> 0 <= B2 (f_collapse l).
Proof.
  induction l as [|x l IH] using rev_ind; intros H F; [cbn; lra|]. destruct l as [|y l0]; [apply H; [left; reflexivity|exact F]|]. set (l := y :: l0) in *. rewrite collapse_snoc in F |- * by discriminate.
  destruct (dadd_fin _ _ F) as (F1 & F2 & ->). assert (A := IH (fun z Hz => H z (in_or_app _ _ _ (or_introl Hz))) F1). assert (B := H x ltac:(apply in_or_app; right; left; reflexivity) F2). apply rnd_pos. lra.
Qed.
Lemma reaction_nonneg d n w phi cf e c i j : (1 <= d <= 3)%nat -> (forall q, (q < n)%nat -> 0 <= B2 (w q)) -> (forall q, (q < n)%nat -> 0 <= B2 (cf (n * e + q)%nat)) -> (forall q, (q < n)%nat -> 0 <= B2 (phi i q) * B2 (phi j q)) -> fin (f_reaction d n w phi cf e c i j) = true -> 0 <= B2 (f_reaction d n w phi cf e c i j).
Proof.
  intros Hd W C P F. unfold f_reaction in *. destruct (dmul_fin' _ _ F) as (F1 & Fm & ->). apply rnd_pos. apply Rmult_le_pos; [|now apply measure_nonneg_d]. apply FloatFem.fsum_nonneg; auto. intros q Hq Fq. destruct (dmul_fin' _ _ Fq) as (F2 & _ & ->). apply rnd_pos. apply Rmult_le_pos; auto. destruct (dmul_fin' _ _ F2) as (F3 & _ & ->). apply rnd_pos. destruct (dmul_fin' _ _ F3) as (_ & _ & ->).
  specialize (C q Hq). specialize (P q Hq). set (a := B2 (cf (n * e + q)%nat)) in *. set (x := B2 (phi i q)) in *. set (y := B2 (phi j q)) in *. destruct (Rlt_or_le x 0) as [N|N].
  - assert (y <= 0) by (destruct (Rle_or_lt y 0); auto; exfalso; assert (x * y < 0 * y) by (apply Rmult_lt_compat_r; lra); lra). assert (rnd (a * x) <= 0) by (rewrite <- rnd_0; apply rnd_le; assert (0 <= a * - x) by (apply Rmult_le_pos; lra); lra). assert (0 <= - rnd (a * x) * - y) by (apply Rmult_le_pos; lra). lra.
  - destruct (Req_dec x 0) as [->|NZ]; [rewrite Rmult_0_r, rnd_0; lra|]. assert (0 <= y) by (apply Rmult_le_reg_l with x; lra). apply Rmult_le_pos; auto. apply rnd_pos. now apply Rmult_le_pos.
Qed.
(* C228: with weights and coefficient that are not negative, the diagonal is not negative, and neither is an entry when the basis functions are not *)
Theorem C228_nonneg d nb n w phi cf mesh r s : (1 <= d <= 3)%nat -> (forall q, (q < n)%nat -> 0 <= B2 (w q)) -> (forall k, (k < length mesh * n)%nat -> 0 <= B2 (cf k)) ->
  (r = s /\ (forall e, In e mesh -> distinct_dofs nb e)) \/ (forall i q, (i < nb)%nat -> (q < n)%nat -> 0 <= B2 (phi i q)) ->
  fin (f_reaction_matrix d nb n w phi cf mesh r s) = true -> 0 <= B2 (f_reaction_matrix d nb n w phi cf mesh r s).
Proof.
  intros Hd W C P. unfold f_reaction_matrix. rewrite matrix_items. apply collapse_nonneg. intros x Hx Fx. apply in_map_iff in Hx. destruct Hx as (((e & c) & (i & j)) & <- & Hh).
  assert (G : exists dof, In (e, (c, dof)) (numbered mesh) /\ (i < nb)%nat /\ (j < nb)%nat /\ (r = s -> dof i = dof j)).
  { destruct (true && _); apply items2_in in Hh; destruct Hh as (dof & Hi & H1 & H2 & H3 & H4); exists dof; cbn [fst snd] in *; repeat split; auto; congruence. }
  destruct G as (dof & Hi & H1 & H2 & H3). apply numbered_in in Hi. destruct Hi as [Hi Hm]. unfold at2c in *. cbn [fst snd] in *. apply reaction_nonneg; auto; [intros q Hq; apply C; nia|]. intros q Hq. destruct P as [[E D]|P]; [|apply Rmult_le_pos; auto]. assert (X := D _ Hm i j H1 H2 (H3 E)). subst j. apply Rle_0_sqr.
Qed.

(* ---- accuracy ---- *)
Section Gather.
Variables (half : bool) (nb : nat) (loc : nat -> f_cell -> nat -> nat -> double) (K A : nat -> f_cell -> nat -> nat -> R) (mesh : list mesh_cell) (eps t : R).
Hypothesis SK : forall e c i j, K e c i j = K e c j i.
Hypothesis SA : forall e c i j, A e c i j = A e c j i.
Hypothesis Heps : 0 <= eps <= 1 / 100.
Hypothesis Ht : 0 < t.
Hypothesis L : forall e c dof i j, In (e, (c, dof)) (numbered mesh) -> (i < nb)%nat -> (j < nb)%nat ->
  fin (loc e c i j) = true /\ Rabs (B2 (loc e c i j)) <= 3 * bpow radix2 900 /\ Rabs (B2 (loc e c i j) - K e c i j) <= eps * A e c i j + t /\ Rabs (K e c i j) <= A e c i j.
Lemma entry_accuracy r s : (meetings nb mesh r s <= 2 ^ 20)%nat -> let H := items2 nb mesh r s in
  fin (f_collapse (map (at2c loc) H)) = true /\ Rabs (B2 (f_collapse (map (at2c loc) H)) - gathered nb K mesh r s) <= (eps + 3 * INR (meetings nb mesh r s) * u) * gathered nb A mesh r s + 2 * INR (meetings nb mesh r s) * t.
Proof using Heps Ht L.
  clear SK SA. intros HS H. rewrite !gathered_items. rewrite <- items2_length in *. fold H. fold H in HS. set (ld := at2c loc).
  assert (LH : forall h, In h H -> fin (ld h) = true /\ Rabs (B2 (ld h)) <= 3 * bpow radix2 900 /\ Rabs (B2 (ld h) - at2c K h) <= eps * at2c A h + t /\ Rabs (at2c K h) <= at2c A h).
  { intros h Hh. apply items2_in in Hh. destruct Hh as (dof & Hi & H1 & H2 & _). exact (L _ _ _ _ _ Hi H1 H2). }
  set (M := length H) in *. assert (PM := pos_INR M). assert (M20 : INR M <= 1048576) by (replace 1048576 with (INR (2 ^ 20)) by (rewrite pow_INR; cbn [INR]; lra); now apply le_INR). assert (Pu := u_pos). assert (B9 := bpow_gt_0 radix2 900).
  assert (LM : length (map ld H) = M) by apply map_length.
  destruct (map ld H) as [|x0 l0] eqn:EL.
  { apply map_eq_nil in EL. assert (M0 : M = 0%nat) by (unfold M; now rewrite EL). rewrite EL, M0. cbn [map INR f_collapse]. change (lsum []) with 0. split; [reflexivity|]. change (B2 d0) with 0. rewrite Rminus_0_r, Rabs_R0. lra. }
  assert (NE : map ld H <> []) by (rewrite EL; discriminate). rewrite <- EL in *. clear x0 l0 EL.
  destruct (collapse_ok (map ld H) (3 * bpow radix2 900) NE) as [F E].
  { rewrite LM. apply Rle_trans with (1048576 * (2 * u)); [apply Rmult_le_compat_r; lra|rewrite u_small; lra]. }
  { intros x Hx. apply in_map_iff in Hx. destruct Hx as (h & <- & Hh). destruct (LH h Hh) as (F & P & _). auto. }
  { rewrite LM. apply Rle_trans with (1048576 * (3 * (3 * bpow radix2 900))); [apply Rmult_le_compat_r; lra|]. apply Rle_trans with (bpow radix2 (900 + 24)); [|apply bpow_le; lia]. rewrite bpow_plus. change (bpow radix2 24) with 16777216. lra. }
  split; auto. rewrite LM, !map_map in E. set (a := B2 (f_collapse (map ld H))) in *. set (X := lsum (map (fun h => B2 (ld h)) H)) in *. set (Y := lsum (map (fun h => Rabs (B2 (ld h))) H)) in *.
  set (KK := lsum (map (at2c K) H)). set (AA := lsum (map (at2c A) H)).
  assert (E1 : Rabs (X - KK) <= eps * AA + INR M * t). { unfold X, KK, AA, M. rewrite lsum_minus. apply Rle_trans with (1 := lsum_abs _). rewrite map_map, <- lsum_lin. apply lsum_le. intros h Hh. apply (LH h Hh). }
  assert (E2 : Y <= (1 + eps) * AA + INR M * t). { unfold Y, AA, M. rewrite <- lsum_lin. apply lsum_le. intros h Hh. destruct (LH h Hh) as (_ & _ & P & R). replace (B2 (ld h)) with ((B2 (ld h) - at2c K h) + at2c K h) by ring. apply Rle_trans with (1 := Rabs_triang _ _). lra. }
  assert (PA : 0 <= AA). { unfold AA. apply lsum_nonneg. intros x Hx. apply in_map_iff in Hx. destruct Hx as (h & <- & Hh). destruct (LH h Hh) as (_ & _ & _ & R). apply Rle_trans with (2 := R). apply Rabs_pos. }
  assert (Q := pow_linear M). assert (Mu : INR M * (2 * u) <= 1 / 100) by (apply Rle_trans with (1048576 * (2 * u)); [apply Rmult_le_compat_r; lra|rewrite u_small; lra]). specialize (Q ltac:(lra)). set (p := (1 + u) ^ M) in *. assert (P1 : 1 <= p) by apply pow_ge1.
  assert (Mt : 0 <= INR M * t) by (apply Rmult_le_pos; lra).
  assert (Z : (p - 1) * Y <= INR M * (2 * u) * ((1 + 1 / 100) * AA + INR M * t)). { apply Rle_trans with ((p - 1) * ((1 + 1 / 100) * AA + INR M * t)); [apply Rmult_le_compat_l; [lra|]; apply Rle_trans with (1 := E2); apply Rplus_le_compat_r; apply Rmult_le_compat_r; lra|].
    apply Rmult_le_compat_r; [|lra]. apply Rplus_le_le_0_compat; [apply Rmult_le_pos; lra|lra]. }
  replace (a - KK) with ((a - X) + (X - KK)) by ring. apply Rle_trans with (1 := Rabs_triang _ _).
  assert (MA : 0 <= INR M * u * AA) by (apply Rmult_le_pos; [apply Rmult_le_pos; lra|lra]).
  assert (Z2 : INR M * (2 * u) * (INR M * t) <= 1 / 100 * (INR M * t)) by (apply Rmult_le_compat_r; lra).
  replace ((eps + 3 * INR M * u) * AA) with (eps * AA + 3 * (INR M * u * AA)) by ring.
  replace (INR M * (2 * u) * ((1 + 1 / 100) * AA + INR M * t)) with (2 * (1 + 1 / 100) * (INR M * u * AA) + INR M * (2 * u) * (INR M * t)) in Z by ring. lra.
Qed.
Lemma meetings_sym r s : meetings nb mesh r s = meetings nb mesh s r.
Proof using.
  assert (G : forall a b, INR (meetings nb mesh a b) = gathered nb (fun _ _ _ _ => 1) mesh a b). { intros a b. rewrite <- items2_length, gathered_items. induction (items2 nb mesh a b) as [|h l IH]; [reflexivity|]. cbn [length map]. rewrite S_INR, lsum_cons, IH. unfold at2c. ring. }
  apply INR_eq. rewrite !G. apply gathered_sym. reflexivity.
Qed.
Lemma matrix_accuracy r s : (meetings nb mesh r s <= 2 ^ 20)%nat ->
  fin (f_matrix half nb loc mesh r s) = true /\ Rabs (B2 (f_matrix half nb loc mesh r s) - gathered nb K mesh r s) <= (eps + 3 * INR (meetings nb mesh r s) * u) * gathered nb A mesh r s + 2 * INR (meetings nb mesh r s) * t.
Proof using SK SA Heps Ht L.
  intros HS. rewrite matrix_items. destruct (half && negb (s <=? r)%nat); [|now apply entry_accuracy].
  rewrite (gathered_sym nb K), (gathered_sym nb A), (meetings_sym r s) by auto. apply entry_accuracy. now rewrite meetings_sym.
Qed.
End Gather.

Section C228.
Variables (d nb n : nat) (w : nat -> double) (phi : nat -> nat -> double) (cf : nat -> double) (mesh : list mesh_cell) (kappa : R).
Hypothesis Hd : (1 <= d <= 3)%nat.
Hypothesis Hc : forall e, In e mesh -> cell_ok d d (fst e) /\ volume d (span (fst e)) <> 0 /\ terms d (span (fst e)) <= kappa * Rabs (volume d (span (fst e))).
Hypothesis HK : 1 <= kappa <= 2 ^ 20.
Hypothesis Hn : (n <= 60)%nat.
Hypothesis Hw : forall q, (q < n)%nat -> fin (w q) = true /\ Rabs (B2 (w q)) <= 1.
Hypothesis Hp : forall i q, (i < nb)%nat -> (q < n)%nat -> fin (phi i q) = true /\ Rabs (B2 (phi i q)) <= 1024.
Hypothesis Hv : forall k, (k < length mesh * n)%nat -> fin (cf k) = true /\ Rabs (B2 (cf k)) <= 2 ^ 300.
(* the exact quadrature of the coefficient times the two functions *)
Let Q (e : nat) (c : f_cell) (i j : nat) := quadrature d n (fun q => B2 (w q)) (fun q => B2 (phi i q) * B2 (phi j q)) (fun k => B2 (cf k)) e (span c).
Let A (e : nat) (c : f_cell) (i j : nat) := quadrature d n (fun q => Rabs (B2 (w q))) (fun q => Rabs (B2 (phi i q)) * Rabs (B2 (phi j q))) (fun k => Rabs (B2 (cf k))) e (span c).
Lemma reaction_ok e c dof i j : In (e, (c, dof)) (numbered mesh) -> (i < nb)%nat -> (j < nb)%nat ->
  fin (f_reaction d n w phi cf e c i j) = true /\ Rabs (B2 (f_reaction d n w phi cf e c i j)) <= 3 * bpow radix2 900 /\
  Rabs (B2 (f_reaction d n w phi cf e c i j) - Q e c i j) <= (3 * INR n + 20 * kappa) * u * A e c i j + bpow radix2 (-700) /\ Rabs (Q e c i j) <= A e c i j.
Proof using Hd Hc HK Hn Hw Hp Hv.
  intros He Hi Hj. apply numbered_in in He. destruct He as [He Hm]. destruct (Hc _ Hm) as (C1 & C2 & C3). cbn [fst] in *. destruct (measure_ok d kappa c Hd ltac:(lra) C1 C2 C3) as (_ & V0 & Fm & Bm & Em). set (V := Rabs (volume d (span c)) / INR (fact d)) in *. assert (Pu := u_pos).
  assert (T : forall q, (q < n)%nat -> cl 3 (dmul (dmul (dmul (cf (n * e + q)%nat) (phi i q)) (phi j q)) (w q)) (B2 (cf (n * e + q)%nat) * B2 (phi i q) * B2 (phi j q) * B2 (w q)) (Rabs (B2 (cf (n * e + q)%nat)) * Rabs (B2 (phi i q)) * Rabs (B2 (phi j q)) * Rabs (B2 (w q))) (bpow radix2 (-1059)) (bpow radix2 320)).
  { intros q Hq. destruct (Hw q Hq) as [Fw Bw]. destruct (Hp i q Hi Hq) as [Fp Bp]. destruct (Hp j q Hj Hq) as [Fj Bj]. destruct (Hv (n * e + q)%nat ltac:(nia)) as [Fv Bv]. assert (B300 : 2 ^ 300 = bpow radix2 300) by (rewrite bpow_powerRZ; reflexivity). rewrite B300 in Bv. clear B300.
    assert (E1 : bpow radix2 300 * 1024 = bpow radix2 310) by (change 1024 with (bpow radix2 10); rewrite <- bpow_plus; reflexivity). assert (E2 : bpow radix2 310 * 1024 = bpow radix2 320) by (change 1024 with (bpow radix2 10); rewrite <- bpow_plus; reflexivity). assert (P3 := bpow_gt_0 radix2 310). assert (P4 := bpow_gt_0 radix2 320).
    assert (L : 9 * bpow radix2 310 <= bpow radix2 1000) by (apply Rle_trans with (bpow radix2 (310 + 4)); [rewrite bpow_plus; change (bpow radix2 4) with 16; lra|apply bpow_le; lia]). assert (L' : 9 * bpow radix2 320 <= bpow radix2 1000) by (apply Rle_trans with (bpow radix2 (320 + 4)); [rewrite bpow_plus; change (bpow radix2 4) with 16; lra|apply bpow_le; lia]).
    assert (Y := cl_mul 0 0 _ _ _ _ _ _ _ _ _ _ eta ltac:(lia) (cl_exact _ (bpow radix2 300) Fv Bv) (cl_exact _ 1024 Fp Bp)). rewrite E1 in Y. assert (Le : eta <= bpow radix2 310) by (rewrite eta_bp; apply bpow_le; lia). assert (Pe := eta_pos). specialize (Y L ltac:(lra) Le). cbn [Nat.add] in Y.
    assert (Y' := cl_mul 1 0 _ _ _ _ _ _ _ _ _ _ (bpow radix2 (-1062)) ltac:(lia) Y (cl_exact _ 1024 Fj Bj)). rewrite E2 in Y'. assert (L2 : bpow radix2 (-1062) <= bpow radix2 320) by (apply bpow_le; lia). assert (E3 : bpow radix2 (-1062) = 8192 * eta) by (rewrite eta_bp; change (-1062)%Z with (13 + -1075)%Z; rewrite bpow_plus; reflexivity). specialize (Y' L' ltac:(lra) L2). cbn [Nat.add] in Y'.
    replace (bpow radix2 320) with (bpow radix2 320 * 1) by ring. apply (cl_mul 2 0 _ _ _ _ _ _ _ _ _ _ _ ltac:(lia) Y' (cl_exact _ 1 Fw Bw)); rewrite Rmult_1_r; auto.
    - assert (E4 : bpow radix2 (-1059) = 8 * bpow radix2 (-1062)) by (change (-1059)%Z with (3 + -1062)%Z; rewrite bpow_plus; reflexivity). lra.
    - apply bpow_le. lia. }
  assert (P1 := bpow_gt_0 radix2 (-1059)). assert (P3 := bpow_gt_0 radix2 320). assert (L0 : bpow radix2 (-1059) <= bpow radix2 320) by (apply bpow_le; lia). assert (L2 : 240 * bpow radix2 320 <= bpow radix2 1000) by (apply Rle_trans with (bpow radix2 (320 + 8)); [rewrite bpow_plus; change (bpow radix2 8) with 256; lra|apply bpow_le; lia]).
  assert (C := cl_sum n 3 _ _ _ _ _ Hn ltac:(lia) T ltac:(lra) L2). assert (In : 0 <= INR n <= 60) by (split; [apply pos_INR|]; replace 60 with (INR 60) by (cbn; lra); now apply le_INR).
  assert (Q1 : bpow radix2 327 = 128 * bpow radix2 320) by (change 327%Z with (7 + 320)%Z; rewrite bpow_plus; reflexivity). assert (Q2 : bpow radix2 (-1052) = 128 * bpow radix2 (-1059)) by (change (-1052)%Z with (7 + -1059)%Z; rewrite bpow_plus; reflexivity).
  assert (Y1 : INR n * bpow radix2 (-1059) <= 60 * bpow radix2 (-1059)) by (apply Rmult_le_compat_r; lra). assert (Y2 : INR n * bpow radix2 320 <= 60 * bpow radix2 320) by (apply Rmult_le_compat_r; lra). assert (L1 : bpow radix2 (-1052) <= bpow radix2 327) by (apply bpow_le; lia).
  assert (C' := cl_weak (3 + n) (3 + n) _ _ _ (2 * (INR n * bpow radix2 (-1059))) (bpow radix2 (-1052)) (2 * (INR n * bpow radix2 320)) (bpow radix2 327) ltac:(lia) ltac:(lra) ltac:(lra) L1 C).
  assert (X := cl_mul (3 + n) 0 _ _ _ _ _ _ _ _ _ _ (bpow radix2 (-736)) ltac:(lia) C' (cl_exact _ (bpow radix2 313) Fm ltac:(rewrite Rabs_pos_eq; lra))). fold (f_reaction d n w phi cf e c i j) in X.
  assert (E1 : bpow radix2 327 * bpow radix2 313 = bpow radix2 640) by (rewrite <- bpow_plus; reflexivity). assert (E2 : bpow radix2 (-1052) * bpow radix2 313 = bpow radix2 (-739)) by (rewrite <- bpow_plus; reflexivity). rewrite E1, E2 in X.
  assert (X1 : 9 * bpow radix2 640 <= bpow radix2 1000). { apply Rle_trans with (bpow radix2 (640 + 4)); [|apply bpow_le; lia]. rewrite (bpow_plus radix2 640 4). change (bpow radix2 4) with 16. assert (P := bpow_gt_0 radix2 640). lra. }
  assert (X2 : 4 * (bpow radix2 (-739) + 0 * bpow radix2 327) + eta <= bpow radix2 (-736)). { rewrite eta_bp. assert (bpow radix2 (-1075) <= bpow radix2 (-739)) by (apply bpow_le; lia). assert (Q0 : bpow radix2 (-736) = 8 * bpow radix2 (-739)) by (change (-736)%Z with (3 + -739)%Z; rewrite bpow_plus; reflexivity). assert (P := bpow_gt_0 radix2 (-739)). lra. }
  specialize (X X1 X2 ltac:(apply bpow_le; lia)). assert (SZ : Rabs (B2 (f_reaction d n w phi cf e c i j)) <= 3 * bpow radix2 640) by (eapply cl_size; [|exact X]; lia). destruct X as (F & E & HA & _). rewrite Nat.add_0_r, (Rabs_pos_eq (B2 (f_measure d c))) in * by lra.
  set (s := rsum n (fun q => B2 (cf (n * e + q)%nat) * B2 (phi i q) * B2 (phi j q) * B2 (w q))) in *. set (S := rsum n (fun q => Rabs (B2 (cf (n * e + q)%nat)) * Rabs (B2 (phi i q)) * Rabs (B2 (phi j q)) * Rabs (B2 (w q)))) in *.
  assert (EQ : Q e c i j = s * V) by (unfold Q, quadrature; fold V; f_equal; apply rsum_ext; intros; ring). assert (EA : A e c i j = S * V) by (unfold A, quadrature; fold V; f_equal; apply rsum_ext; intros; ring). rewrite EQ, EA. set (a := B2 (f_reaction d n w phi cf e c i j)) in *. set (m := B2 (f_measure d c)) in *.
  assert (sS : Rabs s <= S). { unfold s, S. apply Rle_trans with (1 := rsum_abs _ _). apply rsum_le. intros q _. rewrite !Rabs_mult. lra. } assert (Ps := Rabs_pos s).
  split; auto. split. { apply Rle_trans with (1 := SZ). apply Rmult_le_compat_l; [lra|]. apply bpow_le. lia. } split. 2:{ rewrite Rabs_mult, (Rabs_pos_eq V) by lra. apply Rmult_le_compat_r; lra. }
  set (x := kappa * u) in *. assert (KU : x <= / 1000000). { unfold x. apply Rle_trans with (1048576 * u); [apply Rmult_le_compat_r; lra|rewrite u_small; lra]. } assert (KU0 : 0 <= x) by (unfold x; apply Rmult_le_pos; lra).
  assert (I : INR (3 + n + 1) = 4 + INR n) by (rewrite !plus_INR; cbn [INR]; lra).
  assert (L : (1 + u) ^ (3 + n + 1) - 1 <= (4 + INR n) * (2 * u)) by (assert (Y := pow_linear (3 + n + 1)); rewrite I in Y; assert (Q' : (4 + INR n) * (2 * u) <= 1) by (apply Rle_trans with (64 * (2 * u)); [apply Rmult_le_compat_r; lra|rewrite u_small; lra]); specialize (Y Q'); lra).
  assert (G0 := pow_ge1 (3 + n + 1)). set (p := (1 + u) ^ (3 + n + 1)) in *. apply Rabs_le_inv in Em as M1. assert (xV : x * V <= / 1000000 * V) by (apply Rmult_le_compat_r; lra). assert (SV : 0 <= S * V) by (apply Rmult_le_pos; lra).
  assert (mS : S * m <= 1001 / 1000 * (S * V)) by (replace (1001 / 1000 * (S * V)) with (S * (1001 / 1000 * V)) by ring; apply Rmult_le_compat_l; lra). assert (Sm0 : 0 <= S * m) by (apply Rmult_le_pos; lra).
  assert (Z1 : (p - 1) * (S * m) <= (4 + INR n) * (2 * u) * (1001 / 1000 * (S * V))) by (apply Rmult_le_compat; lra).
  assert (Z2 : Rabs (s * m - s * V) <= 10 * x * (S * V)). { replace (s * m - s * V) with (s * (m - V)) by ring. rewrite Rabs_mult. replace (10 * x * (S * V)) with (S * (10 * x * V)) by ring. apply Rmult_le_compat; auto using Rabs_pos. }
  replace (a - s * V) with ((a - s * m) + (s * m - s * V)) by ring. apply Rle_trans with (1 := Rabs_triang _ _). assert (L7 : bpow radix2 (-736) <= bpow radix2 (-700)) by (apply bpow_le; lia).
  assert (uSV : 0 <= u * (S * V)) by (apply Rmult_le_pos; lra). assert (Z3 : ((4 + INR n) * 2 * (1001 / 1000) + 10 * kappa) * (u * (S * V)) <= (3 * INR n + 20 * kappa) * (u * (S * V))) by (apply Rmult_le_compat_r; lra). unfold x in Z2. set (t := bpow radix2 (-700)) in *. set (t' := bpow radix2 (-736)) in *. clearbody t t'. lra.
Qed.
(* C228: every entry is finite, and it is the sum of the exact quadratures up to the errors of C221 and of the additions *)
Theorem C228_accuracy r s : (meetings nb mesh r s <= 2 ^ 20)%nat ->
  fin (f_reaction_matrix d nb n w phi cf mesh r s) = true /\
  Rabs (B2 (f_reaction_matrix d nb n w phi cf mesh r s) - gathered nb Q mesh r s) <=
    (3 * INR n + 20 * kappa + 3 * INR (meetings nb mesh r s)) * u * gathered nb A mesh r s + 2 * INR (meetings nb mesh r s) * bpow radix2 (-700).
Proof using Hd Hc HK Hn Hw Hp Hv.
  intros HS. replace ((3 * INR n + 20 * kappa + 3 * INR (meetings nb mesh r s)) * u) with ((3 * INR n + 20 * kappa) * u + 3 * INR (meetings nb mesh r s) * u) by ring.
  unfold f_reaction_matrix. apply (matrix_accuracy true nb (f_reaction d n w phi cf) Q A); auto.
  - intros e c i j. unfold Q, quadrature. f_equal. apply rsum_ext. intros; ring.
  - intros e c i j. unfold A, quadrature. f_equal. apply rsum_ext. intros; ring.
  - assert (Pu := u_pos). assert (In : 0 <= INR n <= 60) by (split; [apply pos_INR|]; replace 60 with (INR 60) by (cbn; lra); now apply le_INR). split; [apply Rmult_le_pos; lra|]. apply Rle_trans with ((3 * 60 + 20 * 1048576) * u); [apply Rmult_le_compat_r; lra|rewrite u_small; lra].
  - apply bpow_gt_0.
  - exact reaction_ok.
Qed.
(* C228: when the basis functions add up to one, up to delta, row r adds up to the entry r of the forcing vector of the coefficient *)
Theorem C228_rows nd r delta : (forall s, (s < nd)%nat -> (meetings nb mesh r s <= 2 ^ 20)%nat) -> (forall e j, In e mesh -> (j < nb)%nat -> (snd e j < nd)%nat) ->
  (forall q, (q < n)%nat -> Rabs (rsum nb (fun j => B2 (phi j q)) - 1) <= delta) ->
  Rabs (rsum nd (fun s => B2 (f_reaction_matrix d nb n w phi cf mesh r s)) - assembled nb (fun e c i => quadrature d n (fun q => B2 (w q)) (fun q => B2 (phi i q)) (fun k => B2 (cf k)) e (span c)) mesh r) <=
    rsum nd (fun s => (3 * INR n + 20 * kappa + 3 * INR (meetings nb mesh r s)) * u * gathered nb A mesh r s + 2 * INR (meetings nb mesh r s) * bpow radix2 (-700))
    + delta * assembled nb (fun e c i => quadrature d n (fun q => Rabs (B2 (w q))) (fun q => Rabs (B2 (phi i q))) (fun k => Rabs (B2 (cf k))) e (span c)) mesh r.
Proof using Hd Hc HK Hn Hw Hp Hv.
  intros HS Hdof Hsum. set (Q1 := fun e c i => quadrature d n (fun q => B2 (w q)) (fun q => B2 (phi i q)) (fun k => B2 (cf k)) e (span c)). set (A1 := fun e c i => quadrature d n (fun q => Rabs (B2 (w q))) (fun q => Rabs (B2 (phi i q))) (fun k => Rabs (B2 (cf k))) e (span c)).
  assert (ES : rsum nd (fun s => gathered nb Q mesh r s) = assembled nb (fun e c i => rsum nb (fun j => Q e c i j)) mesh r).
  { unfold gathered, assembled. rewrite (rsum_lsum_swap _ nd (fun s (ec : nat * mesh_cell) => rsum nb (fun i => rsum nb (fun j => if (snd (snd ec) i =? r)%nat && (snd (snd ec) j =? s)%nat then Q (fst ec) (fst (snd ec)) i j else 0))) (numbered mesh)). f_equal. apply map_ext_in. intros (e & c & dof) He. apply numbered_in in He. cbn [fst snd]. rewrite rsum_swap. apply rsum_ext. intros i Hi. rewrite rsum_swap.
    destruct (dof i =? r)%nat; [|apply rsum_zero; intros j _; apply rsum_zero; reflexivity]. apply rsum_ext. intros j Hj. cbn [andb].
    rewrite (rsum_single nd _ (dof j) (Hdof _ j (proj2 He) Hj)); [now rewrite Nat.eqb_refl|]. intros s _ N. destruct (Nat.eqb_spec (dof j) s); [congruence|reflexivity]. }
  assert (D1 : Rabs (rsum nd (fun s => gathered nb Q mesh r s) - assembled nb Q1 mesh r) <= delta * assembled nb A1 mesh r).
  { rewrite ES, !assembled_items, lsum_minus. apply Rle_trans with (1 := lsum_abs _). rewrite map_map. replace (delta * lsum (map (term_at A1) (items nb mesh r))) with (delta * lsum (map (term_at A1) (items nb mesh r)) + INR (length (items nb mesh r)) * 0) by ring. rewrite <- lsum_lin. apply lsum_le. intros ((e & c) & i) Hh. apply items_in in Hh. destruct Hh as (dof & He & Hi & _). unfold term_at. cbn [fst snd] in *.
    apply numbered_in in He. destruct He as [_ He]. destruct (Hc _ He) as (C1 & C2 & C3). destruct (measure_ok d kappa _ Hd ltac:(lra) C1 C2 C3) as (_ & V0 & _). cbn [fst] in V0. unfold Q, Q1, A1, quadrature. set (V := Rabs (volume d (span c)) / INR (fact d)) in *. rewrite rsum_scal_r, rsum_swap, Rplus_0_r.
    match goal with |- Rabs (?x * V - ?y * V) <= _ => replace (x * V - y * V) with ((x - y) * V) by ring end. rewrite Rabs_mult, (Rabs_pos_eq V), <- Rmult_assoc by lra. apply Rmult_le_compat_r; [lra|]. rewrite <- rsum_minus, <- rsum_scal. apply Rle_trans with (1 := rsum_abs _ _). apply rsum_le. intros q Hq.
    rewrite (rsum_ext nb _ (fun j => (B2 (cf (n * e + q)%nat) * B2 (phi i q) * B2 (w q)) * B2 (phi j q))) by (intros; ring). rewrite rsum_scal. set (z := B2 (cf (n * e + q)%nat) * B2 (phi i q) * B2 (w q)). replace (z * rsum nb (fun j => B2 (phi j q)) - z) with ((rsum nb (fun j => B2 (phi j q)) - 1) * z) by ring.
    rewrite Rabs_mult. unfold z. rewrite !Rabs_mult. apply Rmult_le_compat_r; [repeat apply Rmult_le_pos; apply Rabs_pos|]. now apply Hsum. }
  replace (rsum nd (fun s => B2 (f_reaction_matrix d nb n w phi cf mesh r s)) - assembled nb Q1 mesh r) with ((rsum nd (fun s => B2 (f_reaction_matrix d nb n w phi cf mesh r s)) - rsum nd (fun s => gathered nb Q mesh r s)) + (rsum nd (fun s => gathered nb Q mesh r s) - assembled nb Q1 mesh r)) by ring. apply Rle_trans with (1 := Rabs_triang _ _). apply Rplus_le_compat; auto.
  rewrite <- rsum_minus. apply Rle_trans with (1 := rsum_abs _ _). apply rsum_le. intros s Hs. apply C228_accuracy. auto.
Qed.
End C228.
Print Assumptions C228_symmetric.
Print Assumptions C228_pattern.
Print Assumptions C228_half.
Print Assumptions C228_nonneg.
Print Assumptions C228_accuracy.
Print Assumptions C228_rows.

(* the case of C227, as a mass matrix: two triangles, linear functions at the midpoints of the edges, coefficient 1 *)
Example C228_example : (forall e, In e two_cells -> distinct_dofs 3 e /\ cell_ok 2 2 (fst e) /\ volume 2 (span (fst e)) <> 0 /\ terms 2 (span (fst e)) <= 1 * Rabs (volume 2 (span (fst e)))) /\ 1 <= 1 <= 2 ^ 20 /\
  (forall q, (q < 3)%nat -> fin FloatFem.third = true /\ 0 <= B2 FloatFem.third /\ Rabs (B2 FloatFem.third) <= 1) /\ (forall i q, (i < 3)%nat -> (q < 3)%nat -> fin (midpoint_hats i q) = true /\ 0 <= B2 (midpoint_hats i q) /\ Rabs (B2 (midpoint_hats i q)) <= 1024) /\
  (forall k, (k < length two_cells * 3)%nat -> fin (dbl 1 0) = true /\ Rabs (B2 (dbl 1 0)) <= 2 ^ 300) /\ (forall r s, (r < 4)%nat -> (s < 4)%nat -> (meetings 3 two_cells r s <= 2)%nat) /\ meetings 3 two_cells 1 2 = 2%nat /\ meetings 3 two_cells 3 0 = 0%nat /\
  (forall e j, In e two_cells -> (j < 3)%nat -> (snd e j < 4)%nat) /\ (forall q, (q < 3)%nat -> Rabs (rsum 3 (fun i => B2 (midpoint_hats i q)) - 1) <= 0).
Proof.
  destruct C227_example as (G & K & W & P & V & _ & _ & D & S & _). destruct C226_example as (G' & _). split; [intros e He; split; [apply G'; exact He|apply G; exact He]|]. split; [lra|]. split; [exact W|]. split; [exact P|]. split; [exact V|].
  split. { intros [|[|[|[|r]]]] [|[|[|[|s]]]] Hr Hs; try lia; apply Nat.leb_le; vm_compute; reflexivity. } split; [reflexivity|]. split; [reflexivity|]. split; [exact D|exact S].
Qed.
