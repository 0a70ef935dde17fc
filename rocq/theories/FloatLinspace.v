(* C220: the nodes of an interval divided into equal cells, in double arithmetic. *)
From Coq Require Import Reals Lra Lia List Bool ZArith QArith Qreals.
From Flocq Require Import Core IEEE754.BinarySingleNaN Relative Plus_error.
From Verif Require Import Base RSum IntervalModel IntervalProps SymbolsModel SymbolsProps FloatModel FloatProps FloatSearch FloatSplineModel FloatSpline FloatDiffModel FloatDiff FloatPlane FloatLinspaceModel FloatKd.
Import ListNotations.
Close Scope Q_scope.
Close Scope nat_scope.
Open Scope R_scope.

(* ---- specification ---- *)
(* the length of the cells is above 16 u times the largest coordinate; no overflow or underflow *)
Definition divisible (n : nat) (a b : double) : Prop :=
  fin a = true /\ fin b = true /\ (1 <= n)%nat /\ (Z.of_nat n < 2 ^ 31)%Z /\ Rabs (B2 a) <= bpow radix2 900 /\ Rabs (B2 b) <= bpow radix2 900 /\
  bpow radix2 (-900) <= (B2 b - B2 a) / INR n /\ 16 * u * Rmax (Rabs (B2 a)) (Rabs (B2 b)) < (B2 b - B2 a) / INR n.
(* the i-th node in exact arithmetic *)
Definition exact_node (n : nat) (a b : double) (i : nat) : R := B2 a + INR i * ((B2 b - B2 a) / INR n).

Lemma d_index_near i : (Z.of_nat i < 2 ^ 53)%Z -> near 0 (d_index i) (INR i).
Proof.
  intros H. destruct (B2_dbl (Z.of_nat i) 0) as [F E]; try lia. split; [exact F|]. exists 1. split; [|unfold fac; cbn [pow]; rewrite Rinv_1; lra].
  change (B2 (d_index i)) with (B2 (dbl (Z.of_nat i) 0)). rewrite E. change (bpow radix2 0) with 1. rewrite INR_IZR_INZ. reflexivity.
Qed.
Lemma pow3 : (1 + u) ^ 3 - 1 <= 301 / 100 * u. Proof. rewrite u_small. cbn [pow]. lra. Qed.
Section Nodes.
Variables (n : nat) (a b : double).
Hypothesis ok : divisible n a b.
Let A := B2 a.
Let C := B2 b.
Let H := (C - A) / INR n.
Let W := Rmax (Rabs A) (Rabs C).
Lemma n_pos : 1 <= INR n. Proof. destruct ok as (_ & _ & K & _). apply le_INR in K. exact K. Qed.
Lemma H_pos : 0 < H. Proof. destruct ok as (_ & _ & _ & _ & _ & _ & K & _). apply Rlt_le_trans with (2 := K). apply bpow_gt_0. Qed.
Lemma nH : INR n * H = C - A. Proof. unfold H. assert (P := n_pos). field. lra. Qed.
Lemma W_le : Rabs A <= W /\ Rabs C <= W. Proof. split; [apply Rmax_l|apply Rmax_r]. Qed.
Lemma between i : (i <= n)%nat -> A <= A + INR i * H <= C.
Proof. intros Hi. apply le_INR in Hi. assert (P := H_pos). assert (E := nH). assert (P2 := pos_INR i). assert (INR i * H <= INR n * H) by (apply Rmult_le_compat_r; lra). assert (0 <= INR i * H) by (apply Rmult_le_pos; lra). lra. Qed.
Lemma exact_le i : (i <= n)%nat -> Rabs (A + INR i * H) <= W.
Proof. intros Hi. destruct (between i Hi) as [B1 B2']. destruct W_le as [W1 W2]. apply Rabs_le_inv in W1. apply Rabs_le_inv in W2. apply Rabs_le. lra. Qed.
Lemma len_le : 0 < C - A <= 2 * W.
Proof. destruct W_le as [W1 W2]. apply Rabs_le_inv in W1. apply Rabs_le_inv in W2. assert (E := nH). assert (P := H_pos). assert (P1 := n_pos). assert (0 < INR n * H) by (apply Rmult_lt_0_compat; lra). lra. Qed.
Lemma part_rng i : (i <= n)%nat -> rng 1000 (INR i * H).
Proof.
  intros Hi. destruct (Nat.eq_dec i 0) as [->|N]; [left; cbn; ring|]. right. assert (P := H_pos). assert (I1 : 1 <= INR i) by (replace 1 with (INR 1) by reflexivity; apply le_INR; lia). apply le_INR in Hi. destruct ok as (_ & _ & _ & _ & K1 & K2 & K3 & _). fold A C H in K1, K2, K3.
  assert (E := nH). assert (L1 : 1 * H <= INR i * H) by (apply Rmult_le_compat_r; lra). assert (L2 : INR i * H <= INR n * H) by (apply Rmult_le_compat_r; lra). rewrite Rabs_pos_eq by lra. apply Rabs_le_inv in K1. apply Rabs_le_inv in K2. split.
  - apply Rle_trans with (bpow radix2 (-900)); [apply bpow_le; lia|lra].
  - apply Rle_trans with (bpow radix2 901); [change 901%Z with (900 + 1)%Z; rewrite bpow_plus; change (bpow radix2 1) with 2; lra|apply bpow_le; lia].
Qed.
Let step := ddiv (dsub b a) (d_index n).
Lemma step_near : near 2 step H.
Proof.
  destruct ok as (Fa & Fb & N1 & N2 & _). assert (P := n_pos). apply (near_div 1 0); [lia|lra| | |].
  - apply near_sub; auto. assert (R := part_rng n ltac:(lia)). rewrite nH in R. exact R.
  - apply d_index_near. lia.
  - assert (R := part_rng 1 ltac:(lia)). rewrite Rmult_1_l in R. exact R.
Qed.
Lemma part_error i : (i <= n)%nat -> fin (dmul (d_index i) step) = true /\ Rabs (B2 (dmul (d_index i) step) - INR i * H) <= 603 / 100 * u * W.
Proof.
  intros Hi. destruct ok as (_ & _ & N1 & N2 & _). assert (N := near_mul 0 2 _ _ _ _ ltac:(lia) (d_index_near i ltac:(lia)) step_near (part_rng i Hi)). split; [now apply near_fin with (1 := N)|]. apply Rle_trans with (1 := near_error _ _ _ N).
  assert (Pu := u_pos). assert (P3 := pow3). cbn [Nat.add]. assert (B := between i Hi). assert (L := len_le). rewrite Rabs_pos_eq by lra. apply Rle_trans with (301 / 100 * u * (2 * W)); [|assert (0 <= u * W) by (apply Rmult_le_pos; lra); lra].
  apply Rmult_le_compat; try lra. assert (Q := pow_ge1 3). lra.
Qed.
Lemma node_error i : (i <= n)%nat -> fin (f_linspaced n a b i) = true /\ Rabs (B2 (f_linspaced n a b i) - (A + INR i * H)) <= 8 * u * W.
Proof.
  intros Hi. assert (Pu := u_pos). assert (Su : u <= / 10000) by (rewrite u_small; lra). assert (L := len_le). assert (PW : 0 <= u * W) by (apply Rmult_le_pos; lra). destruct ok as (Fa & Fb & N1 & N2 & Ba & Bb & _). fold A in Ba. fold C in Bb.
  assert (BW : W <= bpow radix2 900) by (apply Rmax_lub; auto). assert (PW2 : u * (u * W) <= / 10000 * (u * W)) by (apply Rmult_le_compat_r; auto). assert (PW3 : u * W <= / 10000 * W) by (apply Rmult_le_compat_r; lra).
  assert (Sum : forall E Y z, Rabs E <= W -> Rabs (z - E) <= 603 / 100 * u * W -> Rabs (Y - z) <= u * Rabs z -> Rabs (Y - E) <= 8 * u * W).
  { intros E Y z HE Hz HY. assert (Zb : Rabs z <= W + 603 / 100 * u * W). { replace z with ((z - E) + E) by ring. apply Rle_trans with (1 := Rabs_triang _ _). lra. } assert (M : u * Rabs z <= u * (W + 603 / 100 * u * W)) by (apply Rmult_le_compat_l; lra).
    replace (Y - E) with ((Y - z) + (z - E)) by ring. apply Rle_trans with (1 := Rabs_triang _ _). lra. }
  assert (Big : forall E z, Rabs E <= W -> Rabs (z - E) <= 603 / 100 * u * W -> Rabs z <= bpow radix2 901).
  { intros E z HE Hz. change 901%Z with (900 + 1)%Z. rewrite bpow_plus. change (bpow radix2 1) with 2. replace z with ((z - E) + E) by ring. apply Rle_trans with (1 := Rabs_triang _ _). lra. }
  assert (EL := exact_le i Hi). unfold f_linspaced. fold step. destruct (dlt (Babs b) (Babs a)).
  - destruct (Nat.eqb_spec i 0) as [->|N]; [split; auto; fold A; replace (A - (A + INR 0 * H)) with 0 by (cbn; ring); rewrite Rabs_R0; lra|].
    destruct (part_error (n - i) ltac:(lia)) as [Fp Ep]. rewrite minus_INR in Ep by lia. set (p := dmul (d_index (n - i)) step) in *. assert (Ez : Rabs (C - B2 p - (A + INR i * H)) <= 603 / 100 * u * W).
    { rewrite <- Rabs_Ropp. replace (- (C - B2 p - (A + INR i * H))) with (B2 p - (INR n - INR i) * H) by (assert (E := nH); lra). exact Ep. }
    destruct (dsub_ok b p 901) as (F & E & D); auto; try lia; [fold C; now apply Big with (2 := Ez)|]. change uu with u in D. fold C in D. split; auto. now apply Sum with (2 := Ez).
  - destruct (Nat.eqb_spec i n) as [->|N]; [split; auto; fold C; rewrite nH; replace (C - (A + (C - A))) with 0 by ring; rewrite Rabs_R0; lra|].
    destruct (part_error i Hi) as [Fp Ep]. set (p := dmul (d_index i) step) in *. assert (Ez : Rabs (A + B2 p - (A + INR i * H)) <= 603 / 100 * u * W) by (replace (A + B2 p - (A + INR i * H)) with (B2 p - INR i * H) by ring; exact Ep).
    destruct (dadd_ok a p 901) as (F & E); auto; try lia; [fold A; now apply Big with (2 := Ez)|]. split; auto. assert (D := dadd_error _ _ F). fold A in D. now apply Sum with (2 := Ez).
Qed.
Lemma first_last : B2 (f_linspaced n a b 0) = A /\ B2 (f_linspaced n a b n) = C.
Proof.
  destruct ok as (Fa & Fb & N1 & N2 & Ba & Bb & _). assert (N := near_mul 0 2 _ _ _ _ ltac:(lia) (d_index_near 0 ltac:(lia)) step_near (part_rng 0 ltac:(lia))). destruct N as (Fz & f & Ez & _). change (INR 0) with 0 in Ez. rewrite !Rmult_0_l in Ez.
  assert (G : forall z : double, rnd (B2 z) = B2 z) by (intros z; apply round_generic; [typeclasses eauto|apply generic_format_B2R]).
  unfold f_linspaced. fold step. rewrite !Nat.eqb_refl, Nat.sub_diag, (proj2 (Nat.eqb_neq n 0)), (proj2 (Nat.eqb_neq 0 n)) by lia. set (p := dmul (d_index 0) step) in *. destruct (dlt (Babs b) (Babs a)).
  - split; auto. destruct (dsub_ok b p 900) as (F & E & _); auto; try lia; [now rewrite Ez, Rminus_0_r|]. now rewrite Ez, Rminus_0_r, G in E.
  - split; auto. destruct (dadd_ok a p 900) as (F & E); auto; try lia; [now rewrite Ez, Rplus_0_r|]. now rewrite Ez, Rplus_0_r, G in E.
Qed.
Lemma increasing i j : (i < j <= n)%nat -> B2 (f_linspaced n a b i) < B2 (f_linspaced n a b j).
Proof.
  intros Hij. destruct (node_error i ltac:(lia)) as [_ Ei]. destruct (node_error j ltac:(lia)) as [_ Ej]. assert (P := H_pos). assert (I : INR i + 1 <= INR j) by (rewrite <- S_INR; apply le_INR; lia).
  assert (L : (INR i + 1) * H <= INR j * H) by (apply Rmult_le_compat_r; lra). destruct ok as (_ & _ & _ & _ & _ & _ & _ & K). fold A C W H in K. apply Rabs_le_inv in Ei. apply Rabs_le_inv in Ej. lra.
Qed.
End Nodes.
(* C220: the nodes are finite, run from a to b, increase strictly and are close to the exact ones *)
Theorem C220_nodes_partial n a b : divisible n a b ->
  length (f_interval_nodes n a b) = S n /\ B2 (nth 0 (f_interval_nodes n a b) d0) = B2 a /\ B2 (nth n (f_interval_nodes n a b) d0) = B2 b /\
  (forall i, (i <= n)%nat -> fin (nth i (f_interval_nodes n a b) d0) = true /\ Rabs (B2 (nth i (f_interval_nodes n a b) d0) - exact_node n a b i) <= 8 * u * Rmax (Rabs (B2 a)) (Rabs (B2 b))) /\
  (forall i j, (i < j <= n)%nat -> B2 (nth i (f_interval_nodes n a b) d0) < B2 (nth j (f_interval_nodes n a b) d0)).
Proof.
  intros ok. assert (E : forall i, (i <= n)%nat -> nth i (f_interval_nodes n a b) d0 = f_linspaced n a b i).
  { intros i Hi. unfold f_interval_nodes. rewrite (nth_indep _ d0 (f_linspaced n a b 0)) by (rewrite map_length, seq_length; lia). now rewrite map_nth, seq_nth by lia. }
  split; [unfold f_interval_nodes; now rewrite map_length, seq_length|]. destruct (first_last n a b ok) as [E0 En]. split; [now rewrite E by lia|]. split; [now rewrite E by lia|]. split.
  - intros i Hi. rewrite E by auto. now apply node_error.
  - intros i j Hij. rewrite !E by lia. now apply increasing.
Qed.
(* C220: hence every point of the interval but its right end is located in a cell which has it (C38 on the computed nodes) *)
Theorem C220_locate_partial n a b x t fuel : divisible n a b -> fin x = true -> B2 a <= B2 x < B2 b -> interval_ctor (map toQ (f_interval_nodes n a b)) = Ok t -> (S n <= fuel)%nat ->
  exists i, locate_point t fuel (toQ x) = Ok (Z.of_nat i) /\ (i < n)%nat /\ B2 (nth i (f_interval_nodes n a b) d0) <= B2 x <= B2 (nth (S i) (f_interval_nodes n a b) d0).
Proof.
  intros ok Fx Hx Ht Hf. destruct (C220_nodes_partial n a b ok) as (Len & E0 & En & Ef & Inc). set (l := f_interval_nodes n a b) in *.
  assert (At : forall i, (i <= n)%nat -> Q2R (at_ (map toQ l) i) = B2 (nth i l d0)). { intros i Hi. unfold at_. rewrite (nth_indep _ 0%Q (toQ d0)) by (rewrite map_length, Len; lia). rewrite map_nth, toQ_val. apply val_fin. now apply Ef. }
  assert (Len' : length (map toQ l) = S n) by now rewrite map_length. assert (Sx : Q2R (toQ x) = B2 x) by (rewrite toQ_val; now apply val_fin).
  assert (Srt : sorted (map toQ l)). { intros i j Hij. rewrite Len' in Hij. apply Rle_Qle. rewrite !At by lia. destruct (Nat.eq_dec i j) as [->|N]; [lra|]. left. apply Inc. lia. }
  destruct (interval_locate_partial (map toQ l) t (toQ x) fuel Ht Srt) as [(Out & _)|(i & Loc & Hi & L1 & L2)].
  - now rewrite Len'.
  - rewrite Len'. cbn [Nat.sub]. rewrite Nat.sub_0_r. intros Q. apply Qeq_eqR in Q. rewrite Sx, At, En in Q by lia. lra.
  - exfalso. rewrite Len' in Out. cbn [Nat.sub] in Out. rewrite Nat.sub_0_r in Out. destruct Out as [O|O]; apply Qlt_Rlt in O; rewrite Sx, At in O by lia; [rewrite E0 in O|rewrite En in O]; lra.
  - exists i. rewrite Len' in Hi. split; auto. split; [lia|]. apply Qle_Rle in L1. apply Qle_Rle in L2. rewrite Nat.add_1_r in L2. rewrite Sx, At in L1, L2 by lia. lra.
Qed.
Print Assumptions C220_nodes_partial.
Print Assumptions C220_locate_partial.

(* C220 refuted: four cells between 1 and the next double: the first three nodes coincide *)
Theorem C220_refuted : let a := dbl 1 0 in let b := dbl 4503599627370497 (-52) in
  B2 a < B2 b /\ B2 (nth 0 (f_interval_nodes 4 a b) d0) = B2 (nth 1 (f_interval_nodes 4 a b) d0) /\ B2 (nth 1 (f_interval_nodes 4 a b) d0) = B2 (nth 2 (f_interval_nodes 4 a b) d0).
Proof.
  cbv zeta. split; [|split].
  - rewrite (proj2 (B2_dbl 1 0 ltac:(cbn; lia) ltac:(lia))), (proj2 (B2_dbl 4503599627370497 (-52) ltac:(cbn; lia) ltac:(lia))). cbn. lra.
  - assert (E : forall x y : double, B2SF x = B2SF y -> B2 x = B2 y) by (intros x y K; f_equal; now apply B2SF_inj). apply E. vm_compute. reflexivity.
  - assert (E : forall x y : double, B2SF x = B2SF y -> B2 x = B2 y) by (intros x y K; f_equal; now apply B2SF_inj). apply E. vm_compute. reflexivity.
Qed.
Print Assumptions C220_refuted.
(* the unit interval can be divided into any number of cells an int can count *)
Theorem C220_unit n : (1 <= n)%nat -> (Z.of_nat n < 2 ^ 31)%Z -> divisible n d0 (dbl 1 0).
Proof.
  intros H1 H2. destruct (B2_dbl 1 0 ltac:(cbn; lia) ltac:(lia)) as [F E]. change (bpow radix2 0) with 1 in E. rewrite Rmult_1_l in E. assert (N : 1 <= INR n) by (replace 1 with (INR 1) by reflexivity; now apply le_INR).
  assert (N2 : INR n <= IZR (2 ^ 31)) by (rewrite INR_IZR_INZ; apply IZR_le; lia). assert (N3 : / IZR (2 ^ 31) <= / INR n) by (apply Rinv_le_contravar; lra). change (B2 d0) with 0. assert (B : 1 <= bpow radix2 900) by (change 1 with (bpow radix2 0); apply bpow_le; lia).
  unfold divisible. rewrite E. change (B2 d0) with 0. rewrite Rabs_R0, Rabs_R1, Rmax_right by lra. unfold Rdiv. rewrite Rminus_0_r, Rmult_1_l. split; [reflexivity|]. do 3 (split; [auto|]). split; [lra|]. split; [lra|]. split.
  - apply Rle_trans with (2 := N3). apply Rle_trans with (bpow radix2 (-31)); [apply bpow_le; lia|cbn; lra].
  - apply Rlt_le_trans with (2 := N3). rewrite u_small. cbn. lra.
Qed.
Print Assumptions C220_unit.
Example C220_example : forall i j, (i < j <= 10)%nat -> B2 (nth i (f_interval_nodes 10 d0 (dbl 1 0)) d0) < B2 (nth j (f_interval_nodes 10 d0 (dbl 1 0)) d0).
Proof. apply C220_nodes_partial. apply C220_unit; [lia|reflexivity]. Qed.
