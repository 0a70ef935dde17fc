(* C227: the forcing vector of a finite element problem in double arithmetic. *)
From Coq Require Import Reals Lra Lia List Bool ZArith.
From Flocq Require Import Core IEEE754.BinarySingleNaN Relative Plus_error.
From Verif Require Import Base RSum SimplexModel FloatCellModel FloatPlaneModel FloatMeasureModel FloatFemModel FloatAssemblyModel FloatLoadModel FloatLinspaceModel SymbolsModel SymbolsProps FloatModel FloatProps FloatSearch FloatSplineModel FloatSpline FloatDiffModel FloatDiff FloatCell FloatPlane FloatMeasure FloatFem FloatAssembly.
Import ListNotations.
Open Scope R_scope.

(* ---- specification ---- *)
(* what every cell (number, nodes) and every local function i contribute to the entries: the sum over those whose degree of freedom is r *)
Definition assembled (nb : nat) (F : nat -> f_cell -> nat -> R) (mesh : list mesh_cell) (r : nat) : R :=
  lsum (map (fun ec : nat * mesh_cell => rsum nb (fun i => if (snd (snd ec) i =? r)%nat then F (fst ec) (fst (snd ec)) i else 0)) (numbered mesh)).
(* how many terms entry r has *)
Definition incidences (nb : nat) (mesh : list mesh_cell) (r : nat) : nat := length (flat_map (fun e : mesh_cell => filter (fun i => (snd e i =? r)%nat) (seq 0 nb)) mesh).
(* quadrature of the forcing term times a function with values p at the nodes, over a cell of the given shape *)
Definition quadrature (d n : nat) (w : nat -> R) (p : nat -> R) (v : nat -> R) (e : nat) (J : nat -> nat -> R) : R :=
  rsum n (fun q => v (n * e + q)%nat * p q * w q) * (Rabs (volume d J) / INR (fact d)).

(* ---- the terms of an entry ---- *)
Definition items (nb : nat) (mesh : list mesh_cell) (r : nat) : list ((nat * f_cell) * nat) :=
  flat_map (fun ec : nat * mesh_cell => map (fun i => ((fst ec, fst (snd ec)), i)) (filter (fun i => (snd (snd ec) i =? r)%nat) (seq 0 nb))) (numbered mesh).
Definition load_at (d n : nat) (w : nat -> double) (phi : nat -> nat -> double) (v : nat -> double) (h : (nat * f_cell) * nat) : double := f_load d n w phi v (fst (fst h)) (snd (fst h)) (snd h).
Definition term_at (F : nat -> f_cell -> nat -> R) (h : (nat * f_cell) * nat) : R := F (fst (fst h)) (snd (fst h)) (snd h).
Lemma numbered_in mesh e cd : In (e, cd) (numbered mesh) -> (e < length mesh)%nat /\ In cd mesh.
Proof. intros H. split; [apply in_combine_l in H; apply in_seq in H; lia|now apply in_combine_r in H]. Qed.
Lemma numbered_snd mesh : map snd (numbered mesh) = mesh.
Proof. unfold numbered. generalize 0%nat. induction mesh as [|x l IH]; intros k; [reflexivity|]. cbn. now rewrite IH. Qed.
Lemma items_in nb mesh r h : In h (items nb mesh r) -> exists dof, In (fst (fst h), (snd (fst h), dof)) (numbered mesh) /\ (snd h < nb)%nat /\ dof (snd h) = r.
Proof.
  intros H. apply in_flat_map in H. destruct H as ((e & c & dof) & Hi & H). apply in_map_iff in H. destruct H as (i & <- & H). apply filter_In in H. destruct H as [H1 H2]. apply in_seq in H1. apply Nat.eqb_eq in H2. exists dof. cbn in *. repeat split; auto; lia.
Qed.
Lemma items_length nb mesh r : length (items nb mesh r) = incidences nb mesh r.
Proof.
  unfold items, incidences. rewrite <- (numbered_snd mesh) at 2. induction (numbered mesh) as [|x l IH]; [reflexivity|]. cbn [flat_map map]. rewrite !app_length, map_length, IH. reflexivity.
Qed.
Lemma forcing_items d nb n w phi v mesh r : f_forcing d nb n w phi v mesh r = fold_left dadd (map (load_at d n w phi v) (items nb mesh r)) d0.
Proof.
  unfold f_forcing, items. set (z := fun _ : nat => d0). change d0 with (z r). generalize z. clear z. induction (numbered mesh) as [|(e & c & dof) l IH]; intros vec; [reflexivity|]. cbn [fold_left flat_map]. rewrite IH, map_app, fold_left_app. f_equal. clear IH. cbn [fst snd]. rewrite map_map. unfold load_at. cbn [fst snd].
  revert vec. induction (seq 0 nb) as [|i s IH]; intros vec; [reflexivity|]. cbn [fold_left filter]. rewrite IH. unfold f_add_at. rewrite (Nat.eqb_sym r). destruct (Nat.eqb_spec (dof i) r) as [->|]; reflexivity.
Qed.
Lemma lsum_filter (F : nat -> R) p nb : lsum (map F (filter p (seq 0 nb))) = rsum nb (fun i => if p i then F i else 0).
Proof.
  induction nb as [|nb IH]; [reflexivity|]. rewrite seq_S, filter_app, map_app, lsum_app, IH. cbn [rsum Nat.add filter]. destruct (p nb); cbn [map]; rewrite ?lsum_cons; change (lsum []) with 0; lra.
Qed.
Lemma assembled_items nb F mesh r : assembled nb F mesh r = lsum (map (term_at F) (items nb mesh r)).
Proof.
  unfold assembled, items. rewrite lsum_flat_map. f_equal. apply map_ext. intros (e & c & dof). cbn [fst snd]. rewrite map_map. unfold term_at. cbn [fst snd]. now rewrite lsum_filter.
Qed.
Lemma fold_collapse l : fold_left dadd l d0 = f_collapse (d0 :: l). Proof. reflexivity. Qed.

(* C227: an entry depends only on the values of the forcing term in the cells that have its degree of freedom; without such a cell it is zero *)
Theorem C227_local d nb n w phi v v' mesh r :
  (forall e c dof i q, nth_error mesh e = Some (c, dof) -> (i < nb)%nat -> dof i = r -> (q < n)%nat -> v (n * e + q)%nat = v' (n * e + q)%nat) ->
  f_forcing d nb n w phi v mesh r = f_forcing d nb n w phi v' mesh r.
Proof.
  intros H. rewrite !forcing_items. f_equal. apply map_ext_in. intros ((e & c) & i) Hh. apply items_in in Hh. destruct Hh as (dof & Hi & Hn & Hr). cbn [fst snd] in *. unfold load_at, f_load. cbn [fst snd]. f_equal. apply fsum_ext. intros q Hq. rewrite (H e c dof i q); auto.
  clear - Hi. unfold numbered in Hi. assert (G : forall k, In (e, (c, dof)) (List.combine (seq k (length mesh)) mesh) -> nth_error mesh (e - k) = Some (c, dof) /\ (k <= e)%nat).
  { clear Hi. induction mesh as [|x l IH]; intros k Hi; [contradiction|]. cbn in Hi. destruct Hi as [E|Hi]; [injection E as <- ->; rewrite Nat.sub_diag; auto|]. destruct (IH _ Hi) as [A B]. split; [|lia]. replace (e - k)%nat with (S (e - S k)) by lia. exact A. }
  destruct (G _ Hi) as [A _]. now rewrite Nat.sub_0_r in A.
Qed.
Theorem C227_absent d nb n w phi v mesh r : (forall c dof i, In (c, dof) mesh -> (i < nb)%nat -> dof i <> r) -> f_forcing d nb n w phi v mesh r = d0.
Proof.
  intros H. rewrite forcing_items. destruct (items nb mesh r) as [|h l] eqn:E; [reflexivity|]. exfalso. destruct (items_in nb mesh r h ltac:(rewrite E; now left)) as (dof & Hi & Hn & Hr). apply numbered_in in Hi. now apply (H _ _ _ (proj2 Hi) Hn).
Qed.

(* ---- order ---- *)
Lemma fold_mono (X : Type) (f g : X -> double) l : forall a b, B2 a <= B2 b -> (forall x, In x l -> fin (f x) = true -> fin (g x) = true -> B2 (f x) <= B2 (g x)) -> fin (fold_left dadd (map f l) a) = true -> fin (fold_left dadd (map g l) b) = true -> B2 (fold_left dadd (map f l) a) <= B2 (fold_left dadd (map g l) b).
Proof.
  induction l as [|x l IH] using rev_ind; intros a b Hab H F G; [exact Hab|]. rewrite !map_app in *. cbn [map] in *. rewrite !fold_left_app in *. cbn [fold_left] in *. destruct (dadd_fin _ _ F) as (F1 & F2 & ->). destruct (dadd_fin _ _ G) as (G1 & G2 & ->). apply rnd_le.
  apply Rplus_le_compat; [apply IH; auto; intros y Hy; apply H; apply in_or_app; auto|apply H; auto; apply in_or_app; right; now left].
Qed.
Lemma measure_nonneg_d d c : (1 <= d <= 3)%nat -> fin (f_measure d c) = true -> 0 <= B2 (f_measure d c).
Proof.
  intros Hd F. unfold f_measure in *. set (D := f_determinant d (f_jac c)) in *. assert (Pd := INR_fact_lt_0 d). assert (Nq := FloatLinspace.d_index_near (fact d) ltac:(destruct d as [|[|[|[|d]]]]; try lia; reflexivity)). assert (Zf : INR (fact d) <> 0) by lra. assert (Zq := near_nz _ _ _ Zf Nq). destruct Nq as (Fq & f & Eq & Hf). assert (Pf := fac_pos _ _ Hf). set (q := d_index (fact d)) in *.
  assert (Pq : 0 < B2 q) by (rewrite Eq; apply Rmult_lt_0_compat; auto). assert (C := @Bdiv_correct 53 1024 prec64 emax64 mode_NE (Babs D) q Zq). fold (ddiv (Babs D) q) in C. rewrite B2R_Babs in C.
  destruct (Rlt_bool _ _) in C.
  - destruct C as (C1 & _). change (B2 (ddiv (Babs D) q) = rnd (Rabs (B2 D) / B2 q)) in C1. rewrite C1. apply rnd_pos. unfold Rdiv. apply Rmult_le_pos; [apply Rabs_pos|left; now apply Rinv_0_lt_compat].
  - exfalso. assert (X : is_finite_SF (B2SF (ddiv (Babs D) q)) = true) by (now rewrite is_finite_SF_B2SF). rewrite C in X. unfold binary_overflow in X. destruct (overflow_to_inf mode_NE _) eqn:O in X; [discriminate|]. discriminate.
Qed.
Lemma load_mono d n w phi v v' e c i : (1 <= d <= 3)%nat -> (forall q, (q < n)%nat -> 0 <= B2 (w q)) -> (forall q, (q < n)%nat -> 0 <= B2 (phi i q)) -> (forall q, (q < n)%nat -> B2 (v (n * e + q)%nat) <= B2 (v' (n * e + q)%nat)) ->
  fin (f_load d n w phi v e c i) = true -> fin (f_load d n w phi v' e c i) = true -> B2 (f_load d n w phi v e c i) <= B2 (f_load d n w phi v' e c i).
Proof.
  intros Hd W P V F G. unfold f_load in *. destruct (dmul_fin' _ _ F) as (F1 & Fm & ->). destruct (dmul_fin' _ _ G) as (G1 & _ & ->). apply rnd_le. apply Rmult_le_compat_r; [now apply measure_nonneg_d|].
  apply fsum_mono; auto. intros q Hq. assert (Fq := fsum_fin _ _ F1 q Hq). assert (Gq := fsum_fin _ _ G1 q Hq). cbv beta in *. destruct (dmul_fin' _ _ Fq) as (F2 & _ & ->). destruct (dmul_fin' _ _ Gq) as (G2 & _ & ->). apply rnd_le. apply Rmult_le_compat_r; [now apply W|].
  destruct (dmul_fin' _ _ F2) as (_ & _ & ->). destruct (dmul_fin' _ _ G2) as (_ & _ & ->). apply rnd_le. apply Rmult_le_compat_r; auto.
Qed.
(* C227: with weights and basis functions that are not negative, a larger forcing term does not make an entry smaller *)
Theorem C227_monotone d nb n w phi v v' mesh r : (1 <= d <= 3)%nat -> (forall q, (q < n)%nat -> 0 <= B2 (w q)) -> (forall i q, (i < nb)%nat -> (q < n)%nat -> 0 <= B2 (phi i q)) -> (forall k, (k < length mesh * n)%nat -> B2 (v k) <= B2 (v' k)) ->
  fin (f_forcing d nb n w phi v mesh r) = true -> fin (f_forcing d nb n w phi v' mesh r) = true -> B2 (f_forcing d nb n w phi v mesh r) <= B2 (f_forcing d nb n w phi v' mesh r).
Proof.
  intros Hd W P V. rewrite !forcing_items. apply fold_mono; [apply Rle_refl|]. intros ((e & c) & i) Hh. apply items_in in Hh. destruct Hh as (dof & Hi & Hn & _). cbn [fst snd] in *. apply numbered_in in Hi. destruct Hi as [Hi _]. unfold load_at. cbn [fst snd]. apply load_mono; auto. intros q Hq. apply V. nia.
Qed.
(* C227: and an entry is not negative when the forcing term is not negative, zero when it is zero *)
Lemma fold_nonneg l : forall a, 0 <= B2 a -> (forall x : double, In x l -> fin x = true -> 0 <= B2 x) -> fin (fold_left dadd l a) = true -> 0 <= B2 (fold_left dadd l a).
Proof.
  induction l as [|x l IH] using rev_ind; intros a Ha H F; [exact Ha|]. rewrite fold_left_app in *. cbn [fold_left] in *. destruct (dadd_fin _ _ F) as (F1 & F2 & ->). apply rnd_pos. apply Rplus_le_le_0_compat; [apply IH; auto; intros y Hy; apply H; apply in_or_app; auto|apply H; auto; apply in_or_app; right; now left].
Qed.
Theorem C227_nonneg d nb n w phi v mesh r : (1 <= d <= 3)%nat -> (forall q, (q < n)%nat -> 0 <= B2 (w q)) -> (forall i q, (i < nb)%nat -> (q < n)%nat -> 0 <= B2 (phi i q)) -> (forall k, (k < length mesh * n)%nat -> 0 <= B2 (v k)) ->
  fin (f_forcing d nb n w phi v mesh r) = true -> 0 <= B2 (f_forcing d nb n w phi v mesh r).
Proof.
  intros Hd W P V. rewrite !forcing_items. apply fold_nonneg; [cbn; lra|]. intros x Hx Fx. apply in_map_iff in Hx. destruct Hx as (((e & c) & i) & <- & Hh). apply items_in in Hh. destruct Hh as (dof & Hi & Hn & _). cbn [fst snd] in *. apply numbered_in in Hi. destruct Hi as [Hi _]. unfold load_at, f_load in *. cbn [fst snd] in *.
  destruct (dmul_fin' _ _ Fx) as (F1 & Fm & ->). apply rnd_pos. apply Rmult_le_pos; [|now apply measure_nonneg_d]. apply FloatFem.fsum_nonneg; auto. intros q Hq Fq. destruct (dmul_fin' _ _ Fq) as (F2 & _ & ->). apply rnd_pos. apply Rmult_le_pos; auto. destruct (dmul_fin' _ _ F2) as (_ & _ & ->). apply rnd_pos. apply Rmult_le_pos; auto. apply V. nia.
Qed.
Theorem C227_zero d nb n w phi v mesh r : (forall k, (k < length mesh * n)%nat -> B2 (v k) = 0) -> fin (f_forcing d nb n w phi v mesh r) = true -> B2 (f_forcing d nb n w phi v mesh r) = 0.
Proof.
  intros V. rewrite forcing_items. assert (Z : forall x : double, In x (map (load_at d n w phi v) (items nb mesh r)) -> fin x = true -> B2 x = 0).
  { intros x Hx Fx. apply in_map_iff in Hx. destruct Hx as (((e & c) & i) & <- & Hh). apply items_in in Hh. destruct Hh as (dof & Hi & Hn & _). cbn [fst snd] in *. apply numbered_in in Hi. destruct Hi as [Hi _]. unfold load_at, f_load in *. cbn [fst snd] in *. destruct (dmul_fin' _ _ Fx) as (F1 & Fm & ->).
    replace (B2 (fsum n (fun q => dmul (dmul (v (n * e + q)%nat) (phi i q)) (w q)))) with 0; [rewrite Rmult_0_l; apply rnd_0|]. symmetry. clear Fx Fm.
    assert (K : forall m, (m <= n)%nat -> fin (fsum m (fun q => dmul (dmul (v (n * e + q)%nat) (phi i q)) (w q))) = true -> B2 (fsum m (fun q => dmul (dmul (v (n * e + q)%nat) (phi i q)) (w q))) = 0); [|apply K; auto].
    induction m as [|m IH]; intros Hm F; [reflexivity|]. rewrite fsum_S in *. destruct (dadd_fin _ _ F) as (A & B & ->). rewrite (IH ltac:(lia) A). destruct (dmul_fin' _ _ B) as (B1 & _ & ->). destruct (dmul_fin' _ _ B1) as (_ & _ & ->). rewrite V by nia. rewrite Rmult_0_l, rnd_0, Rmult_0_l, rnd_0, Rplus_0_l. apply rnd_0. }
  revert Z. generalize (map (load_at d n w phi v) (items nb mesh r)). intros l Z. revert Z. induction l as [|x l IH] using rev_ind; intros Z F; [reflexivity|]. rewrite fold_left_app in *. cbn [fold_left] in *. destruct (dadd_fin _ _ F) as (A & B & ->). rewrite IH, Z, Rplus_0_l; auto using rnd_0; [apply in_or_app; right; now left|]. intros y Hy. apply Z. apply in_or_app. auto.
Qed.

(* ---- accuracy ---- *)
Lemma measure_ok d kappa c : (1 <= d <= 3)%nat -> kappa <= 2 ^ 20 -> cell_ok d d c -> volume d (span c) <> 0 -> terms d (span c) <= kappa * Rabs (volume d (span c)) ->
  let V := Rabs (volume d (span c)) / INR (fact d) in 1 <= kappa /\ 0 < V /\ fin (f_measure d c) = true /\ 0 <= B2 (f_measure d c) <= bpow radix2 313 /\ Rabs (B2 (f_measure d c) - V) <= 10 * (kappa * u) * V.
Proof.
  intros Hd HK ok NV HT V. assert (PV := Rabs_pos_lt _ NV). assert (VT := volume_le d (span c) Hd). assert (Pf := INR_fact_lt_0 d). assert (F1 : 1 <= INR (fact d)) by (replace 1 with (INR 1) by reflexivity; apply le_INR; apply lt_O_fact). assert (Pu := u_pos).
  destruct (C221_measure_partial d c Hd ok NV) as (F & P & _). destruct (C221_relative_partial d c kappa Hd ok NV HT) as (E & _). fold V in E. set (v0 := Rabs (volume d (span c))) in *. set (T := terms d (span c)) in *.
  assert (K1 : 1 <= kappa) by (destruct (Rle_dec 1 kappa) as [|N]; auto; exfalso; assert (kappa * v0 < 1 * v0) by (apply Rmult_lt_compat_r; lra); lra).
  assert (KU : kappa * u <= / 1000000). { apply Rle_trans with (1048576 * u); [apply Rmult_le_compat_r; lra|rewrite u_small; lra]. } assert (KU0 : 0 <= kappa * u) by (apply Rmult_le_pos; lra).
  assert (V0 : 0 < V) by (unfold V; apply Rdiv_lt_0_compat; lra). split; auto. split; auto. split; auto. split; [split; auto|lra].
  destruct (determinant_error d c Hd ok) as (_ & D1 & D2). fold T in D1. assert (P8 : (1 + u) ^ 8 - 1 <= 16 * u) by (assert (Y := pow_linear 8); cbn [INR] in Y; rewrite u_small in Y |- *; specialize (Y ltac:(lra)); lra).
  set (D := B2 (f_determinant d (f_jac c))) in *. assert (Pe : 4 * eta <= bpow radix2 310). { rewrite eta_bp. replace (4 * bpow radix2 (-1075)) with (bpow radix2 (-1073)) by (change (-1073)%Z with (2 + -1075)%Z; rewrite bpow_plus; reflexivity). apply bpow_le. lia. }
  assert (P0 : 0 <= T) by lra. assert (P8' := pow_ge1 8). assert (X1 : ((1 + u) ^ 8 - 1) * T <= 16 * u * (kappa * v0)) by (apply Rmult_le_compat; lra). assert (X2 : kappa * u * v0 <= / 1000000 * v0) by (apply Rmult_le_compat_r; lra).
  assert (X3 : v0 <= Rabs (D - volume d (span c)) + Rabs D). { unfold v0. replace (volume d (span c)) with (- (D - volume d (span c)) + D) at 1 by ring. apply Rle_trans with (1 := Rabs_triang _ _). rewrite Rabs_Ropp. lra. }
  assert (V1 : V <= v0). { unfold V, Rdiv. rewrite <- (Rmult_1_r v0) at 2. apply Rmult_le_compat_l; [lra|]. rewrite <- Rinv_1. apply Rinv_le_contravar; lra. }
  assert (Q1 : bpow radix2 313 = 8 * bpow radix2 310) by (change 313%Z with (3 + 310)%Z; rewrite bpow_plus; reflexivity). apply Rabs_le_inv in E. assert (X4 : kappa * u * V <= / 1000000 * V) by (apply Rmult_le_compat_r; lra). set (B := bpow radix2 310) in *. lra.
Qed.
Section C227.
Variables (d nb n : nat) (w : nat -> double) (phi : nat -> nat -> double) (v : nat -> double) (mesh : list mesh_cell) (kappa : R).
Hypothesis Hd : (1 <= d <= 3)%nat.
(* the cells of C221: no overflow, not degenerate, conditioning at most kappa *)
Hypothesis Hc : forall e, In e mesh -> cell_ok d d (fst e) /\ volume d (span (fst e)) <> 0 /\ terms d (span (fst e)) <= kappa * Rabs (volume d (span (fst e))).
Hypothesis HK : kappa <= 2 ^ 20.
Hypothesis Hn : (n <= 60)%nat.
Hypothesis Hw : forall q, (q < n)%nat -> fin (w q) = true /\ Rabs (B2 (w q)) <= 1.
Hypothesis Hp : forall i q, (i < nb)%nat -> (q < n)%nat -> fin (phi i q) = true /\ Rabs (B2 (phi i q)) <= 1024.
Hypothesis Hv : forall k, (k < length mesh * n)%nat -> fin (v k) = true /\ Rabs (B2 (v k)) <= 2 ^ 300.
Let Q (e : nat) (c : f_cell) (i : nat) := quadrature d n (fun q => B2 (w q)) (fun q => B2 (phi i q)) (fun k => B2 (v k)) e (span c).
Let A (e : nat) (c : f_cell) (i : nat) := quadrature d n (fun q => Rabs (B2 (w q))) (fun q => Rabs (B2 (phi i q))) (fun k => Rabs (B2 (v k))) e (span c).
Lemma load_ok e c dof i : In (e, (c, dof)) (numbered mesh) -> (i < nb)%nat ->
  fin (f_load d n w phi v e c i) = true /\ Rabs (B2 (f_load d n w phi v e c i)) <= 3 * bpow radix2 900 /\
  Rabs (B2 (f_load d n w phi v e c i) - Q e c i) <= (3 * INR n + 20 * kappa) * u * A e c i + bpow radix2 (-700) /\ Rabs (Q e c i) <= A e c i.
Proof using Hd Hc HK Hn Hw Hp Hv.
  intros He Hi. apply numbered_in in He. destruct He as [He Hm]. destruct (Hc _ Hm) as (C1 & C2 & C3). cbn [fst] in *. destruct (measure_ok d kappa c Hd HK C1 C2 C3) as (K1 & V0 & Fm & Bm & Em). set (V := Rabs (volume d (span c)) / INR (fact d)) in *. assert (Pu := u_pos).
  assert (T : forall q, (q < n)%nat -> cl 2 (dmul (dmul (v (n * e + q)%nat) (phi i q)) (w q)) (B2 (v (n * e + q)%nat) * B2 (phi i q) * B2 (w q)) (Rabs (B2 (v (n * e + q)%nat)) * Rabs (B2 (phi i q)) * Rabs (B2 (w q))) (bpow radix2 (-1072)) (bpow radix2 310)).
  { intros q Hq. destruct (Hw q Hq) as [Fw Bw]. destruct (Hp i q Hi Hq) as [Fp Bp]. destruct (Hv (n * e + q)%nat ltac:(nia)) as [Fv Bv]. assert (B300 : 2 ^ 300 = bpow radix2 300) by (rewrite bpow_powerRZ; reflexivity). rewrite B300 in Bv. clear B300.
    assert (E1 : bpow radix2 300 * 1024 = bpow radix2 310) by (change 1024 with (bpow radix2 10); rewrite <- bpow_plus; reflexivity). assert (P3 := bpow_gt_0 radix2 310). assert (L : 9 * bpow radix2 310 <= bpow radix2 1000) by (apply Rle_trans with (bpow radix2 (310 + 4)); [rewrite bpow_plus; change (bpow radix2 4) with 16; lra|apply bpow_le; lia]).
    assert (Y := cl_mul 0 0 _ _ _ _ _ _ _ _ _ _ eta ltac:(lia) (cl_exact _ (bpow radix2 300) Fv Bv) (cl_exact _ 1024 Fp Bp)). rewrite E1 in Y. assert (Le : eta <= bpow radix2 310) by (rewrite eta_bp; apply bpow_le; lia). assert (Pe := eta_pos). specialize (Y L ltac:(lra) Le). cbn [Nat.add] in Y.
    replace (bpow radix2 310) with (bpow radix2 310 * 1) by ring. apply (cl_mul 1 0 _ _ _ _ _ _ _ _ _ _ _ ltac:(lia) Y (cl_exact _ 1 Fw Bw)); rewrite Rmult_1_r; auto.
    - rewrite eta_bp. assert (Q0 : bpow radix2 (-1072) = 8 * bpow radix2 (-1075)) by (change (-1072)%Z with (3 + -1075)%Z; rewrite bpow_plus; reflexivity). assert (P := bpow_gt_0 radix2 (-1075)). lra.
    - apply bpow_le. lia. }
  assert (P1 := bpow_gt_0 radix2 (-1072)). assert (P3 := bpow_gt_0 radix2 310). assert (L0 : bpow radix2 (-1072) <= bpow radix2 310) by (apply bpow_le; lia). assert (L2 : 240 * bpow radix2 310 <= bpow radix2 1000) by (apply Rle_trans with (bpow radix2 (310 + 8)); [rewrite bpow_plus; change (bpow radix2 8) with 256; lra|apply bpow_le; lia]).
  assert (C := cl_sum n 2 _ _ _ _ _ Hn ltac:(lia) T ltac:(lra) L2). assert (In : 0 <= INR n <= 60) by (split; [apply pos_INR|]; replace 60 with (INR 60) by (cbn; lra); now apply le_INR).
  assert (Q1 : bpow radix2 317 = 128 * bpow radix2 310) by (change 317%Z with (7 + 310)%Z; rewrite bpow_plus; reflexivity). assert (Q2 : bpow radix2 (-1065) = 128 * bpow radix2 (-1072)) by (change (-1065)%Z with (7 + -1072)%Z; rewrite bpow_plus; reflexivity).
  assert (Y1 : INR n * bpow radix2 (-1072) <= 60 * bpow radix2 (-1072)) by (apply Rmult_le_compat_r; lra). assert (Y2 : INR n * bpow radix2 310 <= 60 * bpow radix2 310) by (apply Rmult_le_compat_r; lra). assert (L1 : bpow radix2 (-1065) <= bpow radix2 317) by (apply bpow_le; lia).
  assert (C' := cl_weak (2 + n) (2 + n) _ _ _ (2 * (INR n * bpow radix2 (-1072))) (bpow radix2 (-1065)) (2 * (INR n * bpow radix2 310)) (bpow radix2 317) ltac:(lia) ltac:(lra) ltac:(lra) L1 C).
  assert (X := cl_mul (2 + n) 0 _ _ _ _ _ _ _ _ _ _ (bpow radix2 (-749)) ltac:(lia) C' (cl_exact _ (bpow radix2 313) Fm ltac:(rewrite Rabs_pos_eq; lra))). fold (f_load d n w phi v e c i) in X.
  assert (E1 : bpow radix2 317 * bpow radix2 313 = bpow radix2 630) by (rewrite <- bpow_plus; reflexivity). assert (E2 : bpow radix2 (-1065) * bpow radix2 313 = bpow radix2 (-752)) by (rewrite <- bpow_plus; reflexivity). rewrite E1, E2 in X.
  assert (X1 : 9 * bpow radix2 630 <= bpow radix2 1000). { apply Rle_trans with (bpow radix2 (630 + 4)); [|apply bpow_le; lia]. rewrite (bpow_plus radix2 630 4). change (bpow radix2 4) with 16. assert (P := bpow_gt_0 radix2 630). lra. }
  assert (X2 : 4 * (bpow radix2 (-752) + 0 * bpow radix2 317) + eta <= bpow radix2 (-749)). { rewrite eta_bp. assert (bpow radix2 (-1075) <= bpow radix2 (-752)) by (apply bpow_le; lia). assert (Q0 : bpow radix2 (-749) = 8 * bpow radix2 (-752)) by (change (-749)%Z with (3 + -752)%Z; rewrite bpow_plus; reflexivity). assert (P := bpow_gt_0 radix2 (-752)). lra. }
  specialize (X X1 X2 ltac:(apply bpow_le; lia)). assert (SZ : Rabs (B2 (f_load d n w phi v e c i)) <= 3 * bpow radix2 630) by (eapply cl_size; [|exact X]; lia). destruct X as (F & E & HA & _). rewrite Nat.add_0_r, (Rabs_pos_eq (B2 (f_measure d c))) in * by lra.
  set (s := rsum n (fun q => B2 (v (n * e + q)%nat) * B2 (phi i q) * B2 (w q))) in *. set (S := rsum n (fun q => Rabs (B2 (v (n * e + q)%nat)) * Rabs (B2 (phi i q)) * Rabs (B2 (w q)))) in *.
  assert (EQ : Q e c i = s * V) by reflexivity. assert (EA : A e c i = S * V) by reflexivity. rewrite EQ, EA. set (a := B2 (f_load d n w phi v e c i)) in *. set (m := B2 (f_measure d c)) in *.
  assert (sS : Rabs s <= S). { unfold s, S. apply Rle_trans with (1 := rsum_abs _ _). apply rsum_le. intros q _. rewrite !Rabs_mult. lra. } assert (Ps := Rabs_pos s).
  split; auto. split. { apply Rle_trans with (1 := SZ). apply Rmult_le_compat_l; [lra|]. apply bpow_le. lia. } split. 2:{ rewrite Rabs_mult, (Rabs_pos_eq V) by lra. apply Rmult_le_compat_r; lra. }
  set (x := kappa * u) in *. assert (KU : x <= / 1000000). { unfold x. apply Rle_trans with (1048576 * u); [apply Rmult_le_compat_r; lra|rewrite u_small; lra]. } assert (KU0 : 0 <= x) by (unfold x; apply Rmult_le_pos; lra).
  assert (I : INR (2 + n + 1) = 3 + INR n) by (rewrite !plus_INR; cbn [INR]; lra).
  assert (L : (1 + u) ^ (2 + n + 1) - 1 <= (3 + INR n) * (2 * u)) by (assert (Y := pow_linear (2 + n + 1)); rewrite I in Y; assert (Q' : (3 + INR n) * (2 * u) <= 1) by (apply Rle_trans with (63 * (2 * u)); [apply Rmult_le_compat_r; lra|rewrite u_small; lra]); specialize (Y Q'); lra).
  assert (G0 := pow_ge1 (2 + n + 1)). set (p := (1 + u) ^ (2 + n + 1)) in *. apply Rabs_le_inv in Em as M1. assert (xV : x * V <= / 1000000 * V) by (apply Rmult_le_compat_r; lra). assert (SV : 0 <= S * V) by (apply Rmult_le_pos; lra).
  assert (mS : S * m <= 1001 / 1000 * (S * V)) by (replace (1001 / 1000 * (S * V)) with (S * (1001 / 1000 * V)) by ring; apply Rmult_le_compat_l; lra). assert (Sm0 : 0 <= S * m) by (apply Rmult_le_pos; lra).
  assert (Z1 : (p - 1) * (S * m) <= (3 + INR n) * (2 * u) * (1001 / 1000 * (S * V))) by (apply Rmult_le_compat; lra).
  assert (Z2 : Rabs (s * m - s * V) <= 10 * x * (S * V)). { replace (s * m - s * V) with (s * (m - V)) by ring. rewrite Rabs_mult. replace (10 * x * (S * V)) with (S * (10 * x * V)) by ring. apply Rmult_le_compat; auto using Rabs_pos. }
  replace (a - s * V) with ((a - s * m) + (s * m - s * V)) by ring. apply Rle_trans with (1 := Rabs_triang _ _). assert (L7 : bpow radix2 (-749) <= bpow radix2 (-700)) by (apply bpow_le; lia).
  assert (uSV : 0 <= u * (S * V)) by (apply Rmult_le_pos; lra). assert (Z3 : ((3 + INR n) * 2 * (1001 / 1000) + 10 * kappa) * (u * (S * V)) <= (3 * INR n + 20 * kappa) * (u * (S * V))) by (apply Rmult_le_compat_r; lra). unfold x in Z2. set (t := bpow radix2 (-700)) in *. set (t' := bpow radix2 (-749)) in *. clearbody t t'. lra.
Qed.
(* C227: every entry is finite, and it is the sum of the quadratures over the cells of its degree of freedom up to the errors of C221 and of the additions *)
Theorem C227_accuracy r : (incidences nb mesh r <= 2 ^ 20)%nat ->
  fin (f_forcing d nb n w phi v mesh r) = true /\
  Rabs (B2 (f_forcing d nb n w phi v mesh r) - assembled nb Q mesh r) <=
    (3 * INR n + 20 * kappa + 3 * INR (incidences nb mesh r) + 3) * u * assembled nb A mesh r + 2 * INR (incidences nb mesh r) * bpow radix2 (-700).
Proof using Hd Hc HK Hn Hw Hp Hv.
  intros HS. rewrite forcing_items, fold_collapse, !assembled_items. rewrite <- items_length in *. set (H := items nb mesh r) in *. set (ld := load_at d n w phi v).
  assert (L : forall h, In h H -> fin (ld h) = true /\ Rabs (B2 (ld h)) <= 3 * bpow radix2 900 /\ Rabs (B2 (ld h) - term_at Q h) <= (3 * INR n + 20 * kappa) * u * term_at A h + bpow radix2 (-700) /\ Rabs (term_at Q h) <= term_at A h).
  { intros h Hh. apply items_in in Hh. destruct Hh as (dof & Hi & Hb & _). exact (load_ok _ _ _ _ Hi Hb). }
  assert (Kb : H <> [] -> 1 <= kappa). { intros NE. destruct H as [|h l] eqn:EH; [congruence|]. destruct (items_in nb mesh r h) as (dof & Hi & _); [fold H; rewrite EH; now left|]. apply numbered_in in Hi. destruct (Hc _ (proj2 Hi)) as (C1 & C2 & C3). now destruct (measure_ok _ _ _ Hd HK C1 C2 C3). }
  set (M := length H) in *. assert (PM := pos_INR M). assert (M20 : INR M <= 1048576) by (replace 1048576 with (INR (2 ^ 20)) by (rewrite pow_INR; cbn [INR]; lra); now apply le_INR). assert (Pu := u_pos). assert (B9 := bpow_gt_0 radix2 900).
  assert (LM : length (d0 :: map ld H) = S M) by (cbn [length]; now rewrite map_length).
  destruct (collapse_ok (d0 :: map ld H) (3 * bpow radix2 900) ltac:(discriminate)) as [F E].
  { rewrite LM, S_INR. apply Rle_trans with (1048577 * (2 * u)); [apply Rmult_le_compat_r; lra|rewrite u_small; lra]. }
  { intros x [<-|Hx]; [split; [reflexivity|change (B2 d0) with 0; rewrite Rabs_R0; lra]|]. apply in_map_iff in Hx. destruct Hx as (h & <- & Hh). destruct (L h Hh) as (F & P & _). auto. }
  { rewrite LM, S_INR. apply Rle_trans with (1048577 * (3 * (3 * bpow radix2 900))); [apply Rmult_le_compat_r; lra|]. apply Rle_trans with (bpow radix2 (900 + 24)); [|apply bpow_le; lia]. rewrite bpow_plus. change (bpow radix2 24) with 16777216. lra. }
  split; auto. rewrite LM in E. cbn [map] in E. rewrite !lsum_cons, !map_map in E. change (B2 d0) with 0 in E. rewrite Rabs_R0, !Rplus_0_l in E. set (a := B2 (f_collapse (d0 :: map ld H))) in *. set (X := lsum (map (fun h => B2 (ld h)) H)) in *. set (Y := lsum (map (fun h => Rabs (B2 (ld h))) H)) in *.
  set (KK := lsum (map (term_at Q) H)). set (AA := lsum (map (term_at A) H)). set (eps := (3 * INR n + 20 * kappa) * u) in *. set (t := bpow radix2 (-700)) in *. assert (Pt : 0 < t) by apply bpow_gt_0.
  assert (E1 : Rabs (X - KK) <= eps * AA + INR M * t). { unfold X, KK, AA, M. rewrite lsum_minus. apply Rle_trans with (1 := lsum_abs _). rewrite map_map, <- lsum_lin. apply lsum_le. intros h Hh. apply (L h Hh). }
  assert (E2 : Y <= (1 + eps) * AA + INR M * t). { unfold Y, AA, M. rewrite <- lsum_lin. apply lsum_le. intros h Hh. destruct (L h Hh) as (_ & _ & P & R). replace (B2 (ld h)) with ((B2 (ld h) - term_at Q h) + term_at Q h) by ring. apply Rle_trans with (1 := Rabs_triang _ _). lra. }
  assert (PA : 0 <= AA). { unfold AA. apply lsum_nonneg. intros x Hx. apply in_map_iff in Hx. destruct Hx as (h & <- & Hh). destruct (L h Hh) as (_ & _ & _ & R). apply Rle_trans with (2 := R). apply Rabs_pos. }
  assert (In : 0 <= INR n <= 60) by (split; [apply pos_INR|]; replace 60 with (INR 60) by (cbn; lra); now apply le_INR).
  assert (Heps : eps <= 1 / 100). { unfold eps. apply Rle_trans with ((3 * 60 + 20 * 1048576) * u); [apply Rmult_le_compat_r; lra|rewrite u_small; lra]. }
  assert (PW := pow_linear (S M)). rewrite S_INR in PW. assert (Mu : (INR M + 1) * (2 * u) <= 1 / 100) by (apply Rle_trans with (1048577 * (2 * u)); [apply Rmult_le_compat_r; lra|rewrite u_small; lra]). specialize (PW ltac:(lra)). set (p := (1 + u) ^ S M) in *. assert (P1 : 1 <= p) by apply pow_ge1.
  assert (Mt : 0 <= INR M * t) by (apply Rmult_le_pos; lra).
  assert (Z : (p - 1) * Y <= (INR M + 1) * (2 * u) * ((1 + 1 / 100) * AA + INR M * t)). { apply Rle_trans with ((p - 1) * ((1 + 1 / 100) * AA + INR M * t)); [apply Rmult_le_compat_l; [lra|]; apply Rle_trans with (1 := E2); apply Rplus_le_compat_r; apply Rmult_le_compat_r; lra|].
    apply Rmult_le_compat_r; [|lra]. apply Rplus_le_le_0_compat; [apply Rmult_le_pos; lra|lra]. }
  replace (a - KK) with ((a - X) + (X - KK)) by ring. apply Rle_trans with (1 := Rabs_triang _ _).
  assert (MA : 0 <= (INR M + 1) * u * AA) by (apply Rmult_le_pos; [apply Rmult_le_pos; lra|lra]).
  assert (Z2 : (INR M + 1) * (2 * u) * (INR M * t) <= 1 / 100 * (INR M * t)) by (apply Rmult_le_compat_r; lra).
  replace ((3 * INR n + 20 * kappa + 3 * INR M + 3) * u * AA) with (eps * AA + 3 * ((INR M + 1) * u * AA)) by (unfold eps; ring).
  replace ((INR M + 1) * (2 * u) * ((1 + 1 / 100) * AA + INR M * t)) with (2 * (1 + 1 / 100) * ((INR M + 1) * u * AA) + (INR M + 1) * (2 * u) * (INR M * t)) in Z by ring. lra.
Qed.
(* C227: when the basis functions add up to one, up to delta, the entries add up to the quadrature of the forcing term over the domain, up to
   the same errors and delta times its quadrature in absolute value *)
Theorem C227_total nd delta : (forall r, (r < nd)%nat -> (incidences nb mesh r <= 2 ^ 20)%nat) -> (forall e j, In e mesh -> (j < nb)%nat -> (snd e j < nd)%nat) ->
  (forall q, (q < n)%nat -> Rabs (rsum nb (fun i => B2 (phi i q)) - 1) <= delta) ->
  Rabs (rsum nd (fun r => B2 (f_forcing d nb n w phi v mesh r)) - lsum (map (fun ec : nat * mesh_cell => quadrature d n (fun q => B2 (w q)) (fun _ => 1) (fun k => B2 (v k)) (fst ec) (span (fst (snd ec)))) (numbered mesh))) <=
    rsum nd (fun r => (3 * INR n + 20 * kappa + 3 * INR (incidences nb mesh r) + 3) * u * assembled nb A mesh r + 2 * INR (incidences nb mesh r) * bpow radix2 (-700))
    + delta * lsum (map (fun ec : nat * mesh_cell => quadrature d n (fun q => Rabs (B2 (w q))) (fun _ => 1) (fun k => Rabs (B2 (v k))) (fst ec) (span (fst (snd ec)))) (numbered mesh)).
Proof using Hd Hc HK Hn Hw Hp Hv.
  intros HS Hdof Hsum. set (W := fun q => B2 (w q)) in *. set (vv := fun k => B2 (v k)) in *.
  assert (ES : rsum nd (fun r => assembled nb Q mesh r) = lsum (map (fun ec : nat * mesh_cell => rsum nb (fun i => Q (fst ec) (fst (snd ec)) i)) (numbered mesh))).
  { unfold assembled. rewrite (rsum_lsum_swap _ nd (fun r (ec : nat * mesh_cell) => rsum nb (fun i => if (snd (snd ec) i =? r)%nat then Q (fst ec) (fst (snd ec)) i else 0)) (numbered mesh)). f_equal. apply map_ext_in. intros (e & c & dof) He. apply numbered_in in He. cbn [fst snd]. rewrite rsum_swap. apply rsum_ext. intros i Hi.
    rewrite (rsum_single nd _ (dof i) (Hdof _ i (proj2 He) Hi)); [now rewrite Nat.eqb_refl|]. intros s _ N. destruct (Nat.eqb_spec (dof i) s); [congruence|reflexivity]. }
  set (I := lsum (map _ (numbered mesh))). set (IA := lsum (map _ (numbered mesh))).
  assert (D1 : Rabs (rsum nd (fun r => assembled nb Q mesh r) - I) <= delta * IA).
  { rewrite ES. unfold I. rewrite lsum_minus. apply Rle_trans with (1 := lsum_abs _). rewrite map_map. unfold IA. replace (delta * lsum _) with (delta * lsum (map (fun ec : nat * mesh_cell => quadrature d n (fun q => Rabs (B2 (w q))) (fun _ => 1) (fun k => Rabs (B2 (v k))) (fst ec) (span (fst (snd ec)))) (numbered mesh)) + INR (length (numbered mesh)) * 0) by ring. rewrite <- lsum_lin. apply lsum_le. intros (e & c & dof) He. cbn [fst snd].
    apply numbered_in in He. destruct He as [_ He]. destruct (Hc _ He) as (C1 & C2 & C3). destruct (measure_ok _ _ _ Hd HK C1 C2 C3) as (_ & V0 & _). cbn [fst] in V0. unfold Q, quadrature. set (V := Rabs (volume d (span c)) / INR (fact d)) in *. rewrite rsum_scal_r, rsum_swap, Rplus_0_r.
    match goal with |- Rabs (?x * V - ?y * V) <= _ => replace (x * V - y * V) with ((x - y) * V) by ring end. rewrite Rabs_mult, (Rabs_pos_eq V), <- Rmult_assoc by lra. apply Rmult_le_compat_r; [lra|]. rewrite <- rsum_minus, <- rsum_scal. apply Rle_trans with (1 := rsum_abs _ _). apply rsum_le. intros q Hq.
    rewrite (rsum_ext nb _ (fun i => (vv (n * e + q)%nat * W q) * B2 (phi i q))) by (intros; ring). rewrite rsum_scal. replace (vv (n * e + q)%nat * W q * rsum nb (fun i => B2 (phi i q)) - vv (n * e + q)%nat * 1 * W q) with ((rsum nb (fun i => B2 (phi i q)) - 1) * (vv (n * e + q)%nat * W q)) by ring.
    rewrite !Rabs_mult. rewrite Rmult_1_r. apply Rmult_le_compat_r; [apply Rmult_le_pos; apply Rabs_pos|]. now apply Hsum. }
  replace (rsum nd (fun r => B2 (f_forcing d nb n w phi v mesh r)) - I) with ((rsum nd (fun r => B2 (f_forcing d nb n w phi v mesh r)) - rsum nd (fun r => assembled nb Q mesh r)) + (rsum nd (fun r => assembled nb Q mesh r) - I)) by ring. apply Rle_trans with (1 := Rabs_triang _ _). apply Rplus_le_compat; auto.
  rewrite <- rsum_minus. apply Rle_trans with (1 := rsum_abs _ _). apply rsum_le. intros r Hr. apply C227_accuracy. auto.
Qed.
End C227.
Print Assumptions C227_local.
Print Assumptions C227_absent.
Print Assumptions C227_monotone.
Print Assumptions C227_nonneg.
Print Assumptions C227_zero.
Print Assumptions C227_accuracy.
Print Assumptions C227_total.

(* the two triangles of C226, the linear functions at the midpoints of the edges (where they are 0 or 1/2), a forcing term equal to 1 *)
Definition midpoint_hats (i q : nat) : double := if (i =? q)%nat then d0 else dbl 1 (-1).
Example C227_example : (forall e, In e two_cells -> cell_ok 2 2 (fst e) /\ volume 2 (span (fst e)) <> 0 /\ terms 2 (span (fst e)) <= 1 * Rabs (volume 2 (span (fst e)))) /\ 1 <= 2 ^ 20 /\
  (forall q, (q < 3)%nat -> fin third = true /\ 0 <= B2 third /\ Rabs (B2 third) <= 1) /\ (forall i q, (i < 3)%nat -> (q < 3)%nat -> fin (midpoint_hats i q) = true /\ 0 <= B2 (midpoint_hats i q) /\ Rabs (B2 (midpoint_hats i q)) <= 1024) /\
  (forall k, (k < length two_cells * 3)%nat -> fin (whole 1) = true /\ Rabs (B2 (whole 1)) <= 2 ^ 300) /\ (forall r, (r < 4)%nat -> (incidences 3 two_cells r <= 2 ^ 20)%nat) /\ incidences 3 two_cells 1 = 2%nat /\
  (forall e j, In e two_cells -> (j < 3)%nat -> (snd e j < 4)%nat) /\ (forall q, (q < 3)%nat -> Rabs (rsum 3 (fun i => B2 (midpoint_hats i q)) - 1) <= 0) /\
  f_forcing 2 3 3 (fun _ => third) midpoint_hats (fun _ => whole 1) two_cells 7 = d0.
Proof.
  destruct C226_example as (G & _ & _ & DD & _). destruct C222_example as (_ & _ & _ & HT & _).
  assert (H1 : fin (whole 1) = true /\ B2 (whole 1) = 1). { destruct (B2_dbl 1 0) as [F E]; [cbn; lia|lia|]. split; [exact F|]. rewrite <- (Rmult_1_r 1). exact E. }
  assert (H2 : fin (dbl 1 (-1)) = true /\ B2 (dbl 1 (-1)) = / 2). { destruct (B2_dbl 1 (-1)) as [F E]; [cbn; lia|lia|]. split; [exact F|]. change (B2 (dbl 1 (-1))) with (B2R (dbl 1 (-1))). rewrite E. cbn. lra. }
  assert (Z0 : B2 d0 = 0) by reflexivity. destruct H2 as [F2 E2].
  split; [intros e He; destruct (G e He) as [_ X]; exact X|]. split; [lra|]. split; [intros q Hq|split; [|split; [|split; [|split; [reflexivity|split; [exact DD|split]]]]]].
  - exact (HT q Hq).
  - intros i q _ _. unfold midpoint_hats. destruct (i =? q)%nat; [rewrite Z0, Rabs_R0; repeat split; lra|rewrite E2, Rabs_pos_eq by lra; repeat split; auto; lra].
  - intros k _. destruct H1 as [F E]. rewrite E, Rabs_R1. split; auto. rewrite <- (pow1 300). apply pow_incr. lra.
  - intros [|[|[|[|r]]]] Hr; try lia; apply Nat.leb_le; vm_compute; reflexivity.
  - intros [|[|[|q]]] Hq; try lia; unfold midpoint_hats; cbn [rsum Nat.eqb]; rewrite Z0, E2; rewrite Rabs_pos_eq; lra.
  - apply C227_absent. intros c dof i [E|[E|[]]] Hi; injection E as <- <-; [lia|]. destruct i as [|[|[|i]]]; cbn; lia.
Qed.
