(* C230: the matrix of any operator on a mesh of triangles or tetrahedra in double arithmetic. *)
From Coq Require Import Reals Lra Lia List Bool ZArith.
From Flocq Require Import Core IEEE754.BinarySingleNaN Relative Plus_error.
From Verif Require Import Base RSum SimplexModel FloatCellModel FloatPlaneModel FloatMeasureModel FloatFemModel FloatAssemblyModel FloatLoadModel FloatMassModel FloatFem3Model FloatOperModel FloatLinspaceModel SymbolsModel SymbolsProps FloatModel FloatProps FloatSearch FloatSplineModel FloatSpline FloatDiffModel FloatDiff FloatCell FloatPlane FloatMeasure FloatFem FloatAssembly FloatLoad FloatMass FloatFem3.
Import ListNotations.
Open Scope R_scope.

(* ---- specification ---- *)
(* the weak form of the operator at quadrature node number k, for functions with gradients gi, gj and values si, sj *)
Fixpoint form (d : nat) (op : f_op) (k : nat) (gi gj : nat -> R) (si sj : R) : R :=
  match op with
  | FLap => - rsum d (fun r => gi r * gj r)
  | FDiff K => - rsum d (fun r => gi r * rsum d (fun s => B2 (K k r s) * gj s))
  | FAdv b => si * rsum d (fun r => gj r * B2 (b k r))
  | FRea c => B2 (c k) * si * sj
  | FDt => 0
  | FAdd a b => form d a k gi gj si sj + form d b k gi gj si sj
  | FSub a b => form d a k gi gj si sj - form d b k gi gj si sj
  | FScal x a => B2 x * form d a k gi gj si sj
  | FNeg a => - form d a k gi gj si sj
  end.
(* the same with absolute values; gi, gj, si, sj are not negative *)
Fixpoint aform (d : nat) (op : f_op) (k : nat) (gi gj : nat -> R) (si sj : R) : R :=
  match op with
  | FLap => rsum d (fun r => gi r * gj r)
  | FDiff K => rsum d (fun r => gi r * rsum d (fun s => Rabs (B2 (K k r s)) * gj s))
  | FAdv b => si * rsum d (fun r => gj r * Rabs (B2 (b k r)))
  | FRea c => Rabs (B2 (c k)) * si * sj
  | FDt => 0
  | FAdd a b | FSub a b => aform d a k gi gj si sj + aform d b k gi gj si sj
  | FScal x a => Rabs (B2 x) * aform d a k gi gj si sj
  | FNeg a => aform d a k gi gj si sj
  end.
(* gradient on a triangle (d = 2) or tetrahedron of a function with gradient g on the reference cell (C222, C229_inverse) *)
Definition cell_gradient (d : nat) (J : nat -> nat -> R) (g : nat -> R) (r : nat) : R := if (d =? 2)%nat then gradient J g r else gradient3 J g r.
Definition cell_agradient (d : nat) (J : nat -> nat -> R) (g : nat -> R) (r : nat) : R := if (d =? 2)%nat then agradient J g r else agradient3 J g r.
(* the integral of the weak form over cell number e by the quadrature rule *)
Definition integral (d n : nat) (w : nat -> R) (g : nat -> nat -> nat -> R) (phi : nat -> nat -> R) (op : f_op) (e : nat) (J : nat -> nat -> R) (i j : nat) : R :=
  rsum n (fun q => form d op (n * e + q) (cell_gradient d J (g q i)) (cell_gradient d J (g q j)) (phi i q) (phi j q) * w q) * (Rabs (volume d J) / INR (fact d)).
Definition aintegral (d n : nat) (w : nat -> R) (g : nat -> nat -> nat -> R) (phi : nat -> nat -> R) (op : f_op) (e : nat) (J : nat -> nat -> R) (i j : nat) : R :=
  rsum n (fun q => aform d op (n * e + q) (cell_agradient d J (g q i)) (cell_agradient d J (g q j)) (Rabs (phi i q)) (Rabs (phi j q)) * Rabs (w q)) * (Rabs (volume d J) / INR (fact d)).
(* nodes of the expression *)
Fixpoint op_size (op : f_op) : nat := match op with FAdd a b | FSub a b => S (op_size a + op_size b) | FScal _ a | FNeg a => S (op_size a) | _ => 1%nat end.
(* coefficients finite and at most 2^20 at the nodes k < N *)
Definition small (x : double) : Prop := fin x = true /\ Rabs (B2 x) <= 2 ^ 20.
Fixpoint small_coefficients (d N : nat) (op : f_op) : Prop :=
  match op with
  | FDiff K => forall k r s, (k < N)%nat -> (r < d)%nat -> (s < d)%nat -> small (K k r s)
  | FAdv b => forall k r, (k < N)%nat -> (r < d)%nat -> small (b k r)
  | FRea c => forall k, (k < N)%nat -> small (c k)
  | FAdd a b | FSub a b => small_coefficients d N a /\ small_coefficients d N b
  | FScal x a => small x /\ small_coefficients d N a
  | FNeg a => small_coefficients d N a
  | _ => True
  end.
(* every diffusion tensor is symmetric *)
Fixpoint symmetric_tensors (op : f_op) : Prop :=
  match op with
  | FDiff K => forall k r s, B2 (K k r s) = B2 (K k s r)
  | FAdd a b | FSub a b => symmetric_tensors a /\ symmetric_tensors b
  | FScal _ a | FNeg a => symmetric_tensors a
  | _ => True
  end.
Fixpoint no_reaction (op : f_op) : Prop :=
  match op with FRea _ => False | FAdd a b | FSub a b => no_reaction a /\ no_reaction b | FScal _ a | FNeg a => no_reaction a | _ => True end.
(* cells with finite coordinates, not degenerate, distortion at most kappa, and edges in the range of C222 and C229 *)
Definition good_cell (d : nat) (kappa : R) (c : f_cell) : Prop :=
  if (d =? 2)%nat then cell_ok 2 2 c /\ volume 2 (span c) <> 0 /\ terms 2 (span c) <= kappa * Rabs (volume 2 (span c)) else good_tetrahedron kappa c.

(* ---- errors relative to a factor E ---- *)
Definition cr (E : R) (a : double) (A S e P : R) : Prop := fin a = true /\ Rabs (B2 a - A) <= E * S + e /\ Rabs A <= S /\ S <= P /\ 0 <= e <= P.
Lemma cr_size E a A S e P : E <= 1 -> cr E a A S e P -> Rabs (B2 a) <= 3 * P.
Proof.
  intros HE (F & X & HA & HS & He). replace (B2 a) with ((B2 a - A) + A) by ring. apply Rle_trans with (1 := Rabs_triang _ _). assert (PA := Rabs_pos A). assert (E * S <= 1 * S) by (apply Rmult_le_compat_r; lra). lra.
Qed.
Lemma cr_weak E E' a A S e e' P P' : E <= E' -> e <= e' -> P <= P' -> e' <= P' -> cr E a A S e P -> cr E' a A S e' P'.
Proof. intros H1 H2 H3 H4 (F & X & HA & HS & He). assert (PA := Rabs_pos A). assert (E * S <= E' * S) by (apply Rmult_le_compat_r; lra). repeat split; auto; lra. Qed.
Lemma cr_eq E a A A' S S' e P : A = A' -> S = S' -> cr E a A S e P -> cr E a A' S' e P. Proof. now intros -> ->. Qed.
Lemma cr_opp E a A S e P : cr E a A S e P -> cr E (Bopp a) (- A) S e P.
Proof. intros (F & X & HA & HS & He). split; [now rewrite is_finite_Bopp|]. split; [|rewrite Rabs_Ropp; auto]. rewrite B2R_Bopp. replace (- B2R a - - A) with (- (B2 a - A)) by ring. now rewrite Rabs_Ropp. Qed.
Lemma cr_add E a b A B S T e f P Q : 0 <= E <= 1 / 2 -> cr E a A S e P -> cr E b B T f Q -> 3 * (P + Q) <= bpow radix2 1000 -> cr (E + 2 * u) (dadd a b) (A + B) (S + T) ((1 + u) * (e + f)) (2 * (P + Q)).
Proof.
  intros HE Ca Cb HB. assert (Sa := cr_size E a A S e P ltac:(lra) Ca). assert (Sb := cr_size E b B T f Q ltac:(lra) Cb). destruct Ca as (Fa & Ea & HA & HS & He). destruct Cb as (Fb & Eb & HBB & HT & Hf). assert (PA := Rabs_pos A). assert (PB := Rabs_pos B). assert (Pu := u_pos). assert (Su : u <= 1) by (rewrite u_small; lra).
  destruct (dadd_ok a b 1000 ltac:(lia) Fa Fb) as [F _]; [apply Rle_trans with (1 := Rabs_triang _ _); lra|]. split; auto. assert (uef : 0 <= u * (e + f) <= 1 * (e + f)) by (split; [apply Rmult_le_pos; lra|apply Rmult_le_compat_r; lra]). split; [|split; [apply Rle_trans with (1 := Rabs_triang _ _); lra|split; lra]].
  assert (X := dadd_error _ _ F). assert (D : Rabs (B2 a + B2 b - (A + B)) <= E * (S + T) + (e + f)) by (replace (B2 a + B2 b - (A + B)) with ((B2 a - A) + (B2 b - B)) by ring; apply Rle_trans with (1 := Rabs_triang _ _); lra).
  assert (M : Rabs (B2 a + B2 b) <= 3 / 2 * (S + T) + (e + f)). { replace (B2 a + B2 b) with ((B2 a + B2 b - (A + B)) + (A + B)) by ring. apply Rle_trans with (1 := Rabs_triang _ _). assert (Rabs (A + B) <= S + T) by (apply Rle_trans with (1 := Rabs_triang _ _); lra). assert (E * (S + T) <= 1 / 2 * (S + T)) by (apply Rmult_le_compat_r; lra). lra. }
  assert (Y : u * Rabs (B2 a + B2 b) <= u * (3 / 2 * (S + T) + (e + f))) by (apply Rmult_le_compat_l; lra). assert (Z : 0 <= u * (S + T)) by (apply Rmult_le_pos; lra).
  replace (B2 (dadd a b) - (A + B)) with ((B2 (dadd a b) - (B2 a + B2 b)) + (B2 a + B2 b - (A + B))) by ring. apply Rle_trans with (1 := Rabs_triang _ _). lra.
Qed.
Lemma cr_scale E a b A S e P Q h : 0 <= E <= 1 / 2 -> cr E a A S e P -> fin b = true -> Rabs (B2 b) <= Q -> 3 * (P * Q) <= bpow radix2 1000 -> 2 * (e * Q) + eta <= h -> h <= P * Q -> cr (E + 2 * u) (dmul a b) (A * B2 b) (S * Rabs (B2 b)) h (P * Q).
Proof.
  intros HE Ca Fb HQ HB Hh Hh2. assert (Sa := cr_size E a A S e P ltac:(lra) Ca). destruct Ca as (Fa & Ea & HA & HS & He). assert (PA := Rabs_pos A). assert (Pb := Rabs_pos (B2 b)). assert (Pu := u_pos). assert (Su : u <= 1) by (rewrite u_small; lra). assert (Pe := eta_pos).
  assert (F : fin (dmul a b) = true). { apply (dmul_ok a b 1000); auto; try lia. rewrite Rabs_mult. apply Rle_trans with (2 := HB). replace (3 * (P * Q)) with ((3 * P) * Q) by ring. apply Rmult_le_compat; auto using Rabs_pos. }
  split; auto. split; [|split; [rewrite Rabs_mult; apply Rmult_le_compat_r; lra|split; [apply Rmult_le_compat; lra|split; auto; assert (0 <= e * Q) by (apply Rmult_le_pos; lra); lra]]].
  assert (X := dmul_error _ _ F). set (y := Rabs (B2 b)) in *. assert (D : Rabs (B2 a * B2 b - A * B2 b) <= E * (S * y) + e * y) by (replace (B2 a * B2 b - A * B2 b) with ((B2 a - A) * B2 b) by ring; rewrite Rabs_mult; fold y; replace (E * (S * y) + e * y) with ((E * S + e) * y) by ring; apply Rmult_le_compat_r; lra).
  assert (SY : 0 <= S * y) by (apply Rmult_le_pos; lra). assert (EY : 0 <= e * y <= e * Q) by (split; [apply Rmult_le_pos; lra|apply Rmult_le_compat_l; lra]).
  assert (M : Rabs (B2 a * B2 b) <= 3 / 2 * (S * y) + e * y). { replace (B2 a * B2 b) with ((B2 a * B2 b - A * B2 b) + A * B2 b) by ring. apply Rle_trans with (1 := Rabs_triang _ _). rewrite (Rabs_mult A). fold y. assert (Rabs A * y <= S * y) by (apply Rmult_le_compat_r; lra). assert (E * (S * y) <= 1 / 2 * (S * y)) by (apply Rmult_le_compat_r; lra). lra. }
  assert (Y : u * Rabs (B2 a * B2 b) <= u * (3 / 2 * (S * y) + e * y)) by (apply Rmult_le_compat_l; lra). assert (Z : 0 <= u * (S * y)) by (apply Rmult_le_pos; lra). assert (Z2 : u * (e * y) <= 1 * (e * y)) by (apply Rmult_le_compat_r; lra).
  replace (B2 (dmul a b) - A * B2 b) with ((B2 (dmul a b) - B2 a * B2 b) + (B2 a * B2 b - A * B2 b)) by ring. apply Rle_trans with (1 := Rabs_triang _ _). lra.
Qed.
Lemma cr_sum n E f A S e P : (n <= 60)%nat -> 0 <= E <= 1 / 4 -> (forall i, (i < n)%nat -> cr E (f i) (A i) (S i) e P) -> 0 <= e <= P -> 1000 * P <= bpow radix2 1000 ->
  cr (E + 2 * INR n * u) (fsum n f) (rsum n A) (rsum n S) (2 * (INR n * e)) (2 * (INR n * P)).
Proof.
  intros Hn HE H He HP. assert (Pu := u_pos). assert (Us := u_small).
  assert (G : forall m, (m <= n)%nat -> fin (fsum m f) = true /\ Rabs (B2 (fsum m f) - rsum m A) <= (E + 2 * INR m * u) * rsum m S + (1 + u) ^ m * (INR m * e) /\ Rabs (rsum m A) <= rsum m S /\ rsum m S <= INR m * P).
  { induction m as [|m IH]; intros Hm; [cbn; rewrite Rminus_0_r, Rabs_R0; repeat split; lra|]. destruct (IH ltac:(lia)) as (F & D & HA & HS). clear IH. specialize (H m ltac:(lia)). destruct H as (Fm & Dm & HAm & HSm & _). assert (Im : 0 <= INR m <= 60) by (split; [apply pos_INR|]; replace 60 with (INR 60) by (cbn; lra); apply le_INR; lia).
    assert (PA := Rabs_pos (rsum m A)). assert (PAm := Rabs_pos (A m)). destruct (pow_le2 m ltac:(lia)) as [G1 G2]. set (p := (1 + u) ^ m) in *. assert (Ime : 0 <= INR m * e <= 60 * P) by (split; [apply Rmult_le_pos; lra|apply Rmult_le_compat; lra]). assert (pe : 0 <= p * (INR m * e) <= 2 * (60 * P)) by (split; [apply Rmult_le_pos; lra|apply Rmult_le_compat; lra]). assert (ImP : INR m * P <= 60 * P) by (apply Rmult_le_compat_r; lra).
    assert (E0 : 0 <= 2 * INR m * u) by (apply Rmult_le_pos; lra). assert (E2 : E + 2 * INR m * u <= 1 / 2) by (assert (2 * INR m * u <= 120 * u) by (apply Rmult_le_compat_r; lra); lra).
    assert (ES : (E + 2 * INR m * u) * rsum m S <= 1 / 2 * rsum m S) by (apply Rmult_le_compat_r; lra).
    assert (Ca : cr (E + 2 * INR m * u) (fsum m f) (rsum m A) (rsum m S) (p * (INR m * e)) (120 * P)) by (repeat split; auto; lra).
    assert (Cb : cr (E + 2 * INR m * u) (f m) (A m) (S m) e P) by (apply (cr_weak E _ _ _ _ e _ P); try lra; repeat split; auto; lra).
    assert (X := cr_add (E + 2 * INR m * u) _ _ _ _ _ _ _ _ _ _ ltac:(lra) Ca Cb ltac:(lra)). destruct X as (FX & DX & AX & _). rewrite fsum_S. split; auto. rewrite S_INR. cbn [rsum]. split; [|split; [auto|lra]]. apply Rle_trans with (1 := DX). apply Rplus_le_compat; [apply Req_le; ring|]. cbn [pow]. fold p. assert (e * 1 <= e * p) by (apply Rmult_le_compat_l; lra). assert (0 <= u * e) by (apply Rmult_le_pos; lra).
    replace ((1 + u) * p * ((INR m + 1) * e)) with ((1 + u) * (p * (INR m * e) + e * p)) by ring. apply Rmult_le_compat_l; lra. }
  destruct (G n (le_n n)) as (F & D & HA & HS). destruct (pow_le2 n ltac:(lia)) as [G1 G2]. assert (In := pos_INR n). assert (Ie : 0 <= INR n * e <= INR n * P) by (split; [apply Rmult_le_pos; lra|apply Rmult_le_compat_l; lra]). assert ((1 + u) ^ n * (INR n * e) <= 2 * (INR n * e)) by (apply Rmult_le_compat_r; lra). repeat split; auto; lra.
Qed.
(* ---- the same calculus with powers of two ---- *)
Lemma cl_mulz m k a b A B S T e f P Q h : (m + k <= 79)%nat -> (P + Q <= 990)%Z -> (e + Q + 4 <= h)%Z -> (f + P + 4 <= h)%Z -> (-1074 <= h)%Z -> (h <= P + Q)%Z ->
  cl m a A S (bpow radix2 e) (bpow radix2 P) -> cl k b B T (bpow radix2 f) (bpow radix2 Q) -> cl (m + k + 1) (dmul a b) (A * B) (S * T) (bpow radix2 h) (bpow radix2 (P + Q)).
Proof.
  intros Hm HP H1 H2 H3 H4 Ca Cb. rewrite bpow_plus. apply (cl_mul m k _ _ _ _ _ _ _ _ _ _ _ Hm Ca Cb); rewrite <- !bpow_plus; [| |now apply bpow_le].
  - apply Rle_trans with (bpow radix2 (4 + (P + Q))); [|apply bpow_le; lia]. rewrite (bpow_plus radix2 4). change (bpow radix2 4) with 16. assert (X := bpow_gt_0 radix2 (P + Q)). lra.
  - assert (X1 : bpow radix2 (e + Q) <= bpow radix2 (h - 4)) by (apply bpow_le; lia). assert (X2 : bpow radix2 (f + P) <= bpow radix2 (h - 4)) by (apply bpow_le; lia). assert (X3 : eta <= bpow radix2 (h - 1)) by (rewrite eta_bp; apply bpow_le; lia). assert (Q1 : bpow radix2 h = 16 * bpow radix2 (h - 4)) by (replace h with (4 + (h - 4))%Z at 1 by lia; rewrite bpow_plus; reflexivity). assert (Q2 : bpow radix2 h = 2 * bpow radix2 (h - 1)) by (replace h with (1 + (h - 1))%Z at 1 by lia; rewrite bpow_plus; reflexivity). lra.
Qed.
Lemma cl_sumz d m f A S e P : (d <= 3)%nat -> (m <= 70)%nat -> (e <= P)%Z -> (P <= 900)%Z -> (forall i, (i < d)%nat -> cl m (f i) (A i) (S i) (bpow radix2 e) (bpow radix2 P)) -> cl (m + 3) (fsum d f) (rsum d A) (rsum d S) (bpow radix2 (e + 3)) (bpow radix2 (P + 3)).
Proof.
  intros Hd Hm He HP H. assert (X1 := bpow_gt_0 radix2 e). assert (X2 := bpow_gt_0 radix2 P). assert (X3 : bpow radix2 e <= bpow radix2 P) by now apply bpow_le. assert (I : 0 <= INR d <= 3) by (split; [apply pos_INR|]; replace 3 with (INR 3) by (cbn; lra); now apply le_INR).
  assert (C := cl_sum d m f A S _ _ ltac:(lia) ltac:(lia) H ltac:(lra)). assert (Y1 : INR d * bpow radix2 e <= 3 * bpow radix2 e) by (apply Rmult_le_compat_r; lra). assert (Y2 : INR d * bpow radix2 P <= 3 * bpow radix2 P) by (apply Rmult_le_compat_r; lra).
  specialize (C ltac:(apply Rle_trans with (bpow radix2 (8 + P)); [rewrite bpow_plus; change (bpow radix2 8) with 256; lra|apply bpow_le; lia])).
  apply (cl_weak (m + d) (m + 3) _ _ _ (2 * (INR d * bpow radix2 e)) _ (2 * (INR d * bpow radix2 P)) _ ltac:(lia)); [| | |exact C]; rewrite ?(bpow_plus radix2 _ 3); change (bpow radix2 3) with 8; lra.
Qed.
Lemma cl_exactz a Q : (-3000 <= Q)%Z -> fin a = true -> Rabs (B2 a) <= bpow radix2 Q -> cl 0 a (B2 a) (Rabs (B2 a)) (bpow radix2 (-3000)) (bpow radix2 Q).
Proof. intros H F B. apply (cl_weak 0 0 _ _ _ 0 _ (bpow radix2 Q)); try lia; [apply bpow_ge_0|lra|now apply bpow_le|now apply cl_exact]. Qed.
Lemma leaf_cr m a A S t x e P : (m <= 28)%nat -> u <= x <= / 1000000 -> Rabs (t - 1) <= 23 * x -> cl m a (t * A) (Rabs t * S) e P -> cr (90 * x) a A S e (2 * P).
Proof.
  intros Hm Hx Ht (F & D & HA & HS & He). assert (Pu := u_pos). apply Rabs_le_inv in Ht as T1. assert (Pt : 999 / 1000 <= t <= 1001 / 1000) by lra. rewrite (Rabs_pos_eq t) in * by lra. rewrite Rabs_mult, (Rabs_pos_eq t) in HA by lra. assert (HAS : Rabs A <= S) by (apply Rmult_le_reg_l with t; lra). assert (PA := Rabs_pos A).
  assert (ts : 999 / 1000 * S <= t * S <= 1001 / 1000 * S) by (split; apply Rmult_le_compat_r; lra). split; auto. split; [|split; [auto|split; lra]].
  assert (I : 0 <= INR m <= 28) by (split; [apply pos_INR|]; replace 28 with (INR 28) by (cbn; lra); now apply le_INR). assert (M : INR m * (2 * u) <= 28 * (2 * u)) by (apply Rmult_le_compat_r; lra). assert (L := pow_linear m ltac:(apply Rle_trans with (1 := M); rewrite u_small; lra)). assert (G := pow_ge1 m).
  assert (Z1 : ((1 + u) ^ m - 1) * (t * S) <= 56 * x * (1001 / 1000 * S)) by (apply Rmult_le_compat; lra). replace (B2 a - A) with ((B2 a - t * A) + (t - 1) * A) by ring. apply Rle_trans with (1 := Rabs_triang _ _). rewrite (Rabs_mult (t - 1)).
  assert (Z2 : Rabs (t - 1) * Rabs A <= 23 * x * S) by (apply Rmult_le_compat; auto using Rabs_pos). assert (0 <= x * S) by (apply Rmult_le_pos; lra). lra.
Qed.
Section Form.
Variables (d N k : nat) (x rho : R) (pi pj : nat -> double) (gi gj agi agj : nat -> R) (si sj : double).
Hypothesis Hd : (d <= 3)%nat.
Hypothesis Hk : (k < N)%nat.
Hypothesis Hx : u <= x <= / 1000000.
Hypothesis Hrho : Rabs (rho - 1) <= 11 * x.
Hypothesis Hpi : forall r, (r < d)%nat -> cl 10 (pi r) (rho * gi r) (Rabs rho * agi r) (bpow radix2 (-1059)) (bpow radix2 151).
Hypothesis Hpj : forall r, (r < d)%nat -> cl 10 (pj r) (rho * gj r) (Rabs rho * agj r) (bpow radix2 (-1059)) (bpow radix2 151).
Hypothesis Hsi : fin si = true /\ Rabs (B2 si) <= 1024.
Hypothesis Hsj : fin sj = true /\ Rabs (B2 sj) <= 1024.
Lemma rho2 : Rabs (rho * rho - 1) <= 23 * x.
Proof. replace (rho * rho - 1) with ((rho - 1) * (rho + 1)) by ring. rewrite Rabs_mult. apply Rabs_le_inv in Hrho as R1. rewrite (Rabs_pos_eq (rho + 1)) by lra. apply Rle_trans with (11 * x * (2001 / 1000)); [apply Rmult_le_compat; try lra; apply Rabs_pos|lra]. Qed.
Lemma b20 : 2 ^ 20 = bpow radix2 20. Proof. cbn. lra. Qed.
Lemma leafz m a A S t e P : (m <= 28)%nat -> Rabs (t - 1) <= 23 * x -> (e <= -820)%Z -> (P <= 330)%Z -> cl m a (t * A) (Rabs t * S) (bpow radix2 e) (bpow radix2 P) -> cr (90 * x + 2 * INR 1 * u) a A S (bpow radix2 (-798)) (bpow radix2 354).
Proof.
  intros Hm Ht He HP C. assert (Pu := u_pos). apply (cr_weak (90 * x) _ _ _ _ (bpow radix2 e) _ (2 * bpow radix2 P)); [cbn [INR]; lra|apply bpow_le; lia| |apply bpow_le; lia|apply (leaf_cr m _ _ _ t); auto]. rewrite <- bp. apply bpow_le. lia.
Qed.
Lemma node_add s t a b A B S T : (s + t <= 9)%nat -> cr (90 * x + 2 * INR s * u) a A S (bpow radix2 (-820 + 22 * Z.of_nat s)) (bpow radix2 (332 + 22 * Z.of_nat s)) -> cr (90 * x + 2 * INR t * u) b B T (bpow radix2 (-820 + 22 * Z.of_nat t)) (bpow radix2 (332 + 22 * Z.of_nat t)) ->
  cr (90 * x + 2 * INR (Datatypes.S (s + t)) * u) (dadd a b) (A + B) (S + T) (bpow radix2 (-820 + 22 * Z.of_nat (Datatypes.S (s + t)))) (bpow radix2 (332 + 22 * Z.of_nat (Datatypes.S (s + t)))).
Proof.
  intros Hst Ca Cb. assert (Pu := u_pos). assert (Us := u_small). assert (Is := pos_INR s). assert (It := pos_INR t). assert (I9 : INR (s + t) <= 9) by (replace 9 with (INR 9) by (cbn; lra); now apply le_INR). rewrite S_INR, plus_INR in *. assert (us : 0 <= INR s * u) by (apply Rmult_le_pos; lra). assert (ut : 0 <= INR t * u) by (apply Rmult_le_pos; lra). assert (u9 : (INR s + INR t) * u <= 9 * u) by (apply Rmult_le_compat_r; lra).
  set (E := 90 * x + 2 * (INR s + INR t) * u). set (e := bpow radix2 (-820 + 22 * Z.of_nat (s + t))). set (P := bpow radix2 (332 + 22 * Z.of_nat (s + t))).
  assert (eP : e <= P) by (apply bpow_le; lia). assert (Ca' : cr E a A S e P) by (apply (cr_weak (90 * x + 2 * INR s * u) _ _ _ _ (bpow radix2 (-820 + 22 * Z.of_nat s)) _ (bpow radix2 (332 + 22 * Z.of_nat s))); auto; [unfold E; lra|apply bpow_le; lia|apply bpow_le; lia]).
  assert (Cb' : cr E b B T e P) by (apply (cr_weak (90 * x + 2 * INR t * u) _ _ _ _ (bpow radix2 (-820 + 22 * Z.of_nat t)) _ (bpow radix2 (332 + 22 * Z.of_nat t))); auto; [unfold E; lra|apply bpow_le; lia|apply bpow_le; lia]).
  assert (PP : 0 < P) by apply bpow_gt_0. assert (Pe : 0 < e) by apply bpow_gt_0. assert (B9 : 6 * P <= bpow radix2 1000) by (apply Rle_trans with (bpow radix2 (3 + (332 + 22 * Z.of_nat (s + t)))); [rewrite bpow_plus; change (bpow radix2 3) with 8; fold P; lra|apply bpow_le; lia]).
  assert (X := cr_add E a b A B S T e e P P ltac:(unfold E; lra) Ca' Cb' ltac:(lra)).
  replace (-820 + 22 * Z.of_nat (Datatypes.S (s + t)))%Z with (22 + (-820 + 22 * Z.of_nat (s + t)))%Z by lia. replace (332 + 22 * Z.of_nat (Datatypes.S (s + t)))%Z with (22 + (332 + 22 * Z.of_nat (s + t)))%Z by lia. rewrite (bpow_plus radix2 22 (-820 + _)), (bpow_plus radix2 22 (332 + _)). fold e P. change (bpow radix2 22) with 4194304.
  assert (ue : u * (e + e) <= 1 * (e + e)) by (apply Rmult_le_compat_r; lra). eapply cr_weak; [| | | |exact X]; unfold E; lra.
Qed.
Lemma node_scale s y a A S : (s <= 9)%nat -> small y -> cr (90 * x + 2 * INR s * u) a A S (bpow radix2 (-820 + 22 * Z.of_nat s)) (bpow radix2 (332 + 22 * Z.of_nat s)) ->
  cr (90 * x + 2 * INR (Datatypes.S s) * u) (dmul y a) (B2 y * A) (Rabs (B2 y) * S) (bpow radix2 (-820 + 22 * Z.of_nat (Datatypes.S s))) (bpow radix2 (332 + 22 * Z.of_nat (Datatypes.S s))).
Proof.
  intros Hs [Fy By] C. rewrite b20 in By. assert (Pu := u_pos). assert (Us := u_small). assert (I9 : 0 <= INR s <= 9) by (split; [apply pos_INR|]; replace 9 with (INR 9) by (cbn; lra); now apply le_INR). assert (us : 0 <= INR s * u <= 9 * u) by (split; [apply Rmult_le_pos; lra|apply Rmult_le_compat_r; lra]). rewrite dmul_comm, S_INR, (Rmult_comm (B2 y)), (Rmult_comm (Rabs (B2 y))).
  set (e := (-820 + 22 * Z.of_nat s)%Z) in *. set (P := (332 + 22 * Z.of_nat s)%Z) in *. assert (X := cr_scale (90 * x + 2 * INR s * u) a y A S _ _ (bpow radix2 20) (bpow radix2 (e + 22)) ltac:(lra) C Fy By). rewrite <- !bpow_plus in X.
  assert (X1 : 3 * bpow radix2 (P + 20) <= bpow radix2 1000) by (apply Rle_trans with (bpow radix2 (2 + (P + 20))); [rewrite (bpow_plus radix2 2); change (bpow radix2 2) with 4; assert (0 < bpow radix2 (P + 20)) by apply bpow_gt_0; lra|apply bpow_le; lia]).
  assert (X2 : 2 * bpow radix2 (e + 20) + eta <= bpow radix2 (e + 22)). { assert (eta <= bpow radix2 (e + 20)) by (rewrite eta_bp; apply bpow_le; lia). replace (e + 22)%Z with (2 + (e + 20))%Z by lia. rewrite (bpow_plus radix2 2). change (bpow radix2 2) with 4. assert (0 < bpow radix2 (e + 20)) by apply bpow_gt_0. lra. }
  specialize (X X1 X2 ltac:(apply bpow_le; lia)). eapply cr_weak; [| | | |exact X]; [lra|apply bpow_le; lia|apply bpow_le; lia|apply bpow_le; lia].
Qed.
Lemma form_cr op : small_coefficients d N op -> (op_size op <= 10)%nat ->
  cr (90 * x + 2 * INR (op_size op) * u) (f_form d op k pi pj si sj) (form d op k gi gj (B2 si) (B2 sj)) (aform d op k agi agj (Rabs (B2 si)) (Rabs (B2 sj)))
     (bpow radix2 (-820 + 22 * Z.of_nat (op_size op))) (bpow radix2 (332 + 22 * Z.of_nat (op_size op))).
Proof.
  assert (Pu := u_pos). assert (Us := u_small). destruct Hsi as [Fi Bi]. destruct Hsj as [Fj Bj]. assert (Rr : Rabs rho * Rabs rho = Rabs (rho * rho)) by now rewrite Rabs_mult. assert (R1 : Rabs (rho - 1) <= 23 * x) by lra.
  induction op as [|K|b|c| |a IHa b IHb|a IHa b IHb|y a IHa|a IHa]; cbn [small_coefficients op_size f_form form aform]; intros HC HS.
  - (* FLap *) assert (C := cl_sumz d 21 _ _ _ (-904) 302 Hd ltac:(lia) ltac:(lia) ltac:(lia) (fun r Hr => cl_mulz 10 10 _ _ _ _ _ _ (-1059) (-1059) 151 151 (-904) ltac:(lia) ltac:(lia) ltac:(lia) ltac:(lia) ltac:(lia) ltac:(lia) (Hpi r Hr) (Hpj r Hr))). apply cl_opp in C.
    apply (leafz 24 _ _ _ (rho * rho) (-901) 305); [lia|exact rho2|lia|lia|]. eapply cl_eq; [| |exact C]; [rewrite Ropp_mult_distr_r_reverse; f_equal|rewrite <- Rr]; rewrite <- rsum_scal; apply rsum_ext; intros; ring.
  - (* FDiff *) assert (I : forall r, (r < d)%nat -> cl 14 (fsum d (fun s => dmul (K k r s) (pj s))) (rsum d (fun s => B2 (K k r s) * (rho * gj s))) (rsum d (fun s => Rabs (B2 (K k r s)) * (Rabs rho * agj s))) (bpow radix2 (-1030)) (bpow radix2 174)).
    { intros r Hr. apply (cl_sumz d 11 _ _ _ (-1033) 171); try lia. intros s Hs. destruct (HC k r s Hk Hr Hs) as [F B]. rewrite b20 in B. apply (cl_mulz 0 10 _ _ _ _ _ _ (-3000) (-1059) 20 151); try lia; [apply cl_exactz; auto; lia|auto]. }
    assert (C := cl_sumz d 25 _ _ _ (-870) 325 Hd ltac:(lia) ltac:(lia) ltac:(lia) (fun r Hr => cl_mulz 10 14 _ _ _ _ _ _ (-1059) (-1030) 151 174 (-870) ltac:(lia) ltac:(lia) ltac:(lia) ltac:(lia) ltac:(lia) ltac:(lia) (Hpi r Hr) (I r Hr))). apply cl_opp in C.
    apply (leafz 28 _ _ _ (rho * rho) (-867) 328); [lia|exact rho2|lia|lia|]. eapply cl_eq; [| |exact C].
    + rewrite Ropp_mult_distr_r_reverse. f_equal. rewrite <- rsum_scal. apply rsum_ext. intros r _. rewrite (rsum_ext d (fun s => B2 (K k r s) * (rho * gj s)) (fun s => rho * (B2 (K k r s) * gj s))) by (intros; ring). rewrite rsum_scal. ring.
    + rewrite <- Rr, <- rsum_scal. apply rsum_ext. intros r _. rewrite (rsum_ext d (fun s => Rabs (B2 (K k r s)) * (Rabs rho * agj s)) (fun s => Rabs rho * (Rabs (B2 (K k r s)) * agj s))) by (intros; ring). rewrite rsum_scal. ring.
  - (* FAdv *) assert (I : cl 14 (fsum d (fun r => dmul (pj r) (b k r))) (rsum d (fun r => rho * gj r * B2 (b k r))) (rsum d (fun r => Rabs rho * agj r * Rabs (B2 (b k r)))) (bpow radix2 (-1030)) (bpow radix2 174)).
    { apply (cl_sumz d 11 _ _ _ (-1033) 171); try lia. intros r Hr. destruct (HC k r Hk Hr) as [F B]. rewrite b20 in B. apply (cl_mulz 10 0 _ _ _ _ _ _ (-1059) (-3000) 151 20); try lia; [auto|apply cl_exactz; auto; lia]. }
    assert (C := cl_mulz 0 14 _ _ _ _ _ _ (-3000) (-1030) 10 174 (-1000) ltac:(lia) ltac:(lia) ltac:(lia) ltac:(lia) ltac:(lia) ltac:(lia) (cl_exactz si 10 ltac:(lia) Fi Bi) I).
    apply (leafz 15 _ _ _ rho (-1000) 184); [lia|exact R1|lia|lia|]. eapply cl_eq; [| |exact C].
    + rewrite (rsum_ext d _ (fun r => rho * (gj r * B2 (b k r)))) by (intros; ring). rewrite rsum_scal. ring.
    + rewrite (rsum_ext d _ (fun r => Rabs rho * (agj r * Rabs (B2 (b k r))))) by (intros; ring). rewrite rsum_scal. ring.
  - (* FRea *) destruct (HC k Hk) as [F B]. rewrite b20 in B. assert (C := cl_mulz 0 0 _ _ _ _ _ _ (-3000) (-3000) 20 10 (-1074) ltac:(lia) ltac:(lia) ltac:(lia) ltac:(lia) ltac:(lia) ltac:(lia) (cl_exactz (c k) 20 ltac:(lia) F B) (cl_exactz si 10 ltac:(lia) Fi Bi)).
    assert (C2 := cl_mulz 1 0 _ _ _ _ _ _ (-1074) (-3000) 30 10 (-1000) ltac:(lia) ltac:(lia) ltac:(lia) ltac:(lia) ltac:(lia) ltac:(lia) C (cl_exactz sj 10 ltac:(lia) Fj Bj)).
    apply (leafz 2 _ _ _ 1 (-1000) 40); [lia|rewrite Rminus_diag_eq, Rabs_R0 by reflexivity; lra|lia|lia|]. eapply cl_eq; [| |exact C2]; rewrite ?Rabs_R1; ring.
  - (* FDt *) split; [reflexivity|]. change (B2 d0) with 0. rewrite Rminus_0_r, Rabs_R0, Rmult_0_r, Rplus_0_l. split; [apply bpow_ge_0|]. split; [lra|]. split; [apply bpow_ge_0|]. split; [apply bpow_ge_0|apply bpow_le; lia].
  - apply node_add; [lia|apply IHa; [tauto|lia]|apply IHb; [tauto|lia]].
  - rewrite dsub_add. apply node_add; [lia|apply IHa; [tauto|lia]|apply cr_opp, IHb; [tauto|lia]].
  - apply node_scale; [lia|tauto|apply IHa; [tauto|lia]].
  - assert (X := cr_opp _ _ _ _ _ _ (IHa HC ltac:(lia))). eapply cr_weak; [| | | |exact X]; [rewrite S_INR; lra|apply bpow_le; lia|apply bpow_le; lia|apply bpow_le; lia].
Qed.
End Form.
(* ---- symmetry, pattern and rows of the form ---- *)
Lemma form_sym d op k gi gj si sj : f_symmetric op = true -> symmetric_tensors op -> form d op k gi gj si sj = form d op k gj gi sj si.
Proof.
  induction op as [|K|b|c| |a IHa b IHb|a IHa b IHb|y a IHa|a IHa]; cbn [f_symmetric symmetric_tensors form]; intros HS HT; try discriminate; try apply andb_true_iff in HS.
  - f_equal. apply rsum_ext. intros; ring.
  - f_equal. rewrite (rsum_ext d (fun r => gi r * _) (fun r => rsum d (fun s => gi r * (B2 (K k r s) * gj s)))) by (intros; now rewrite rsum_scal). rewrite rsum_swap. apply rsum_ext. intros s _. rewrite <- rsum_scal. apply rsum_ext. intros r _. rewrite (HT k r s). ring.
  - ring.
  - reflexivity.
  - now rewrite IHa, IHb by tauto.
  - now rewrite IHa, IHb by tauto.
  - now rewrite IHa by tauto.
  - now rewrite IHa by tauto.
Qed.
Lemma aform_sym d op k gi gj si sj : f_symmetric op = true -> symmetric_tensors op -> aform d op k gi gj si sj = aform d op k gj gi sj si.
Proof.
  induction op as [|K|b|c| |a IHa b IHb|a IHa b IHb|y a IHa|a IHa]; cbn [f_symmetric symmetric_tensors aform]; intros HS HT; try discriminate; try apply andb_true_iff in HS.
  - apply rsum_ext. intros; ring.
  - rewrite (rsum_ext d (fun r => gi r * _) (fun r => rsum d (fun s => gi r * (Rabs (B2 (K k r s)) * gj s)))) by (intros; now rewrite rsum_scal). rewrite rsum_swap. apply rsum_ext. intros s _. rewrite <- rsum_scal. apply rsum_ext. intros r _. rewrite (HT k r s). ring.
  - ring.
  - reflexivity.
  - now rewrite IHa, IHb by tauto.
  - now rewrite IHa, IHb by tauto.
  - now rewrite IHa by tauto.
  - now rewrite IHa by tauto.
Qed.
Lemma form_rows d op k nb gi (G : nat -> nat -> R) si (sj : nat -> R) : no_reaction op -> (forall r, (r < d)%nat -> rsum nb (fun j => G j r) = 0) -> rsum nb (fun j => form d op k gi (G j) si (sj j)) = 0.
Proof.
  intros NR Z. induction op as [|K|b|c| |a IHa b IHb|a IHa b IHb|y a IHa|a IHa]; cbn [no_reaction form] in *; try contradiction.
  - rewrite (rsum_ext nb _ (fun j => -1 * rsum d (fun r => gi r * G j r))) by (intros; ring). rewrite rsum_scal, rsum_swap, rsum_zero; [ring|]. intros r Hr. rewrite rsum_scal, Z by auto. ring.
  - rewrite (rsum_ext nb _ (fun j => -1 * rsum d (fun r => gi r * rsum d (fun s => B2 (K k r s) * G j s)))) by (intros; ring). rewrite rsum_scal, rsum_swap, rsum_zero; [ring|]. intros r Hr. rewrite rsum_scal, rsum_swap, rsum_zero; [ring|]. intros s Hs. rewrite rsum_scal, Z by auto. ring.
  - rewrite rsum_scal, rsum_swap, rsum_zero; [ring|]. intros r Hr. rewrite rsum_scal_r, Z by auto. ring.
  - now apply rsum_zero.
  - rewrite rsum_plus, IHa, IHb by tauto. ring.
  - rewrite rsum_minus, IHa, IHb by tauto. ring.
  - rewrite rsum_scal, IHa by tauto. ring.
  - rewrite (rsum_ext nb _ (fun j => -1 * form d a k gi (G j) si (sj j))) by (intros; ring). rewrite rsum_scal, IHa by tauto. ring.
Qed.
Lemma gradient_rows d J nb (G : nat -> nat -> R) r : (d = 2 \/ d = 3)%nat -> (forall s, (s < d)%nat -> rsum nb (fun j => G j s) = 0) -> rsum nb (fun j => cell_gradient d J (G j) r) = 0.
Proof.
  intros [-> | ->] Z; unfold cell_gradient; cbn [Nat.eqb]; [unfold gradient|unfold gradient3]; rewrite rsum_swap; apply rsum_zero; intros s Hs; rewrite rsum_scal, Z by auto; ring.
Qed.
(* C230: operators declared symmetric have exactly symmetric matrices; degrees of freedom without a common cell have a zero entry *)
Theorem C230_symmetric left d nb n w g phi op mesh r s : f_symmetric op = true -> f_operator left d nb n w g phi op mesh r s = f_operator left d nb n w g phi op mesh s r.
Proof.
  intros H. unfold f_operator. rewrite H, !matrix_items. cbn [andb]. destruct (Nat.leb_spec s r), (Nat.leb_spec r s); cbn [negb]; try lia; auto. now replace s with r by lia.
Qed.
Theorem C230_pattern left d nb n w g phi op mesh r s : (forall c dof i j, In (c, dof) mesh -> (i < nb)%nat -> (j < nb)%nat -> dof i = r -> dof j <> s) -> f_operator left d nb n w g phi op mesh r s = d0.
Proof.
  intros H. unfold f_operator. rewrite matrix_items. match goal with |- f_collapse (map _ ?l) = _ => replace l with (@nil ((nat * f_cell) * (nat * nat))); [reflexivity|] end.
  destruct (f_symmetric op && _); match goal with |- [] = ?l => destruct l as [|h l0] eqn:E; [reflexivity|exfalso] end.
  - destruct (items2_in nb mesh s r h ltac:(rewrite E; now left)) as (dof & Hi & Hn & Hm & Hr & Hs). apply numbered_in in Hi. now apply (H _ _ _ _ (proj2 Hi) Hm Hn Hs).
  - destruct (items2_in nb mesh r s h ltac:(rewrite E; now left)) as (dof & Hi & Hn & Hm & Hr & Hs). apply numbered_in in Hi. now apply (H _ _ _ _ (proj2 Hi) Hn Hm Hr).
Qed.
(* ---- accuracy ---- *)
Section Oper.
Variables (left : bool) (d nb n : nat) (w : nat -> double) (g : nat -> nat -> nat -> double) (phi : nat -> nat -> double) (op : f_op) (mesh : list mesh_cell) (kappa : R).
Hypothesis Hd : (d = 2 \/ d = 3)%nat.
Hypothesis Hc : forall e, In e mesh -> good_cell d kappa (fst e) /\ forall q i r, (q < n)%nat -> (i < nb)%nat -> (r < d)%nat -> cell_agradient d (span (fst e)) (fun s => B2 (g q i s)) r <= bpow radix2 150.
Hypothesis HK : 1 <= kappa <= 2 ^ 20.
Hypothesis Hn : (n <= 50)%nat.
Hypothesis Hw : forall q, (q < n)%nat -> fin (w q) = true /\ Rabs (B2 (w q)) <= 1.
Hypothesis Hg : forall q i s, (q < n)%nat -> (s < d)%nat -> fin (g q i s) = true /\ Rabs (B2 (g q i s)) <= 1024.
Hypothesis Hphi : forall i q, (i < nb)%nat -> (q < n)%nat -> fin (phi i q) = true /\ Rabs (B2 (phi i q)) <= 1024.
Hypothesis Hop : small_coefficients d (length mesh * n) op.
Hypothesis Hsize : (op_size op <= 10)%nat.
Let I := fun e (c : f_cell) i j => integral d n (fun q => B2 (w q)) (fun q i s => B2 (g q i s)) (fun i q => B2 (phi i q)) op e (span c) i j.
Let AI := fun e (c : f_cell) i j => aintegral d n (fun q => B2 (w q)) (fun q i s => B2 (g q i s)) (fun i q => B2 (phi i q)) op e (span c) i j.
Lemma push_any e : In e mesh -> exists rho, Rabs (rho - 1) <= 11 * (kappa * u) /\ forall q i r, (q < n)%nat -> (i < nb)%nat -> (r < d)%nat ->
  cl 10 (f_pushd left d (fst e) (g q i) r) (rho * cell_gradient d (span (fst e)) (fun s => B2 (g q i s)) r) (Rabs rho * cell_agradient d (span (fst e)) (fun s => B2 (g q i s)) r) (bpow radix2 (-1059)) (bpow radix2 151).
Proof using All.
  intros He. destruct (Hc e He) as [GC AG]. assert (Pu := u_pos). assert (Us := u_small). assert (KU : 0 < kappa * u <= / 1000000) by (split; [apply Rmult_lt_0_compat; lra|apply Rle_trans with (1048576 * u); [apply Rmult_le_compat_r; lra|lra]]).
  assert (Sh : forall rho a A S P, Rabs (rho - 1) <= 11 * (kappa * u) -> S <= bpow radix2 150 -> cl 10 a (rho * A) (Rabs rho * S) (bpow radix2 (-1059)) P -> cl 10 a (rho * A) (Rabs rho * S) (bpow radix2 (-1059)) (bpow radix2 151)).
  { intros rho a A S P Hr HS (F & D & HA & _). split; auto. split; auto. split; auto. apply Rabs_le_inv in Hr. assert (R2 : Rabs rho <= 2) by (rewrite Rabs_pos_eq; lra). split; [|split; [apply bpow_ge_0|apply bpow_le; lia]]. change 151%Z with (150 + 1)%Z. rewrite bp. apply Rle_trans with (Rabs rho * bpow radix2 150); [apply Rmult_le_compat_l; auto using Rabs_pos|apply Rmult_le_compat_r; auto; apply bpow_ge_0]. }
  destruct Hd as [E|E]; subst d; unfold good_cell, cell_agradient, cell_gradient, f_pushd in *; cbn [Nat.eqb] in *.
  - destruct GC as (ok & NV & HT). eexists. split; [eapply Rle_trans; [apply (rho_error n w g (fst e) kappa ok NV HT ltac:(lra) ltac:(lia) Hw Hg)|lra]|]. intros q i r Hq Hi Hr. apply Sh with (bpow radix2 339); [eapply Rle_trans; [apply (rho_error n w g (fst e) kappa ok NV HT ltac:(lra) ltac:(lia) Hw Hg)|lra]|auto|].
    apply (cl_weak 6 10 _ _ _ (bpow radix2 (-1073)) _ (bpow radix2 333)); try lia; try (apply bpow_le; lia). now apply (push_cl n w g (fst e) kappa ok NV HT ltac:(lra) ltac:(lia) Hw Hg).
  - eexists. split; [apply (rho3_error left n w g (fst e) kappa GC ltac:(lra) Hn Hw Hg)|]. intros q i r Hq Hi Hr. apply Sh with (bpow radix2 339); [apply (rho3_error left n w g (fst e) kappa GC ltac:(lra) Hn Hw Hg)|auto|]. now apply (push3_cl left n w g (fst e) kappa GC ltac:(lra) Hn Hw Hg).
Qed.
Lemma measure_any c : good_cell d kappa c -> let V := Rabs (volume d (span c)) / INR (fact d) in 0 < V /\ fin (f_measure d c) = true /\ 0 <= B2 (f_measure d c) <= bpow radix2 313 /\ Rabs (B2 (f_measure d c) - V) <= 10 * (kappa * u) * V.
Proof using All.
  intros GC. destruct Hd as [E|E]; subst d; unfold good_cell in GC; cbn [Nat.eqb] in GC.
  - destruct GC as (ok & NV & HT). apply (measure_ok 2 kappa c ltac:(lia) ltac:(lra) ok NV HT).
  - assert (ok := ok3 n w g c kappa GC Hn Hw Hg). destruct GC as (_ & _ & NV & HT). apply (measure_ok 3 kappa c ltac:(lia) ltac:(lra) ok NV HT).
Qed.
Lemma local_op_ok e c dof i j : In (e, (c, dof)) (numbered mesh) -> (i < nb)%nat -> (j < nb)%nat ->
  fin (f_local_op left d n w g phi op e c i j) = true /\ Rabs (B2 (f_local_op left d n w g phi op e c i j)) <= 3 * bpow radix2 900 /\
  Rabs (B2 (f_local_op left d n w g phi op e c i j) - I e c i j) <= (3 * INR n + 140 * kappa) * u * AI e c i j + bpow radix2 (-250) /\ Rabs (I e c i j) <= AI e c i j.
Proof using Hd Hc HK Hn Hw Hg Hphi Hop Hsize.
  intros Hin Hi Hj. apply numbered_in in Hin. destruct Hin as [He Hin]. assert (Pu := u_pos). assert (Us := u_small). set (x := kappa * u). assert (KU : u <= x <= / 1000000) by (unfold x; split; [assert (1 * u <= kappa * u) by (apply Rmult_le_compat_r; lra); lra|apply Rle_trans with (1048576 * u); [apply Rmult_le_compat_r; lra|lra]]).
  destruct (push_any _ Hin) as (rho & Hrho & Hpush). fold x in Hrho. cbn [fst] in Hpush. destruct (measure_any c (proj1 (Hc _ Hin))) as (PV & Fm & Bm & Em). set (V := Rabs (volume d (span c)) / INR (fact d)) in *. fold x in Em.
  assert (In50 : 0 <= INR n <= 50) by (split; [apply pos_INR|]; replace 50 with (INR 50) by (cbn; lra); now apply le_INR). assert (I10 : 0 <= INR (op_size op) <= 10) by (split; [apply pos_INR|]; replace 10 with (INR 10) by (cbn; lra); now apply le_INR). assert (nu : 0 <= INR n * u <= 50 * u) by (split; [apply Rmult_le_pos; lra|apply Rmult_le_compat_r; lra]). assert (su : 0 <= INR (op_size op) * u <= 10 * u) by (split; [apply Rmult_le_pos; lra|apply Rmult_le_compat_r; lra]).
  set (F := fun q => form d op (n * e + q) (cell_gradient d (span c) (fun s => B2 (g q i s))) (cell_gradient d (span c) (fun s => B2 (g q j s))) (B2 (phi i q)) (B2 (phi j q))). set (AF := fun q => aform d op (n * e + q) (cell_agradient d (span c) (fun s => B2 (g q i s))) (cell_agradient d (span c) (fun s => B2 (g q j s))) (Rabs (B2 (phi i q))) (Rabs (B2 (phi j q)))).
  assert (X : forall q, (q < n)%nat -> cr (90 * x + 22 * u) (dmul (f_form d op (n * e + q) (f_pushd left d c (g q i)) (f_pushd left d c (g q j)) (phi i q) (phi j q)) (w q)) (F q * B2 (w q)) (AF q * Rabs (B2 (w q))) (bpow radix2 (-598)) (bpow radix2 552)).
  { intros q Hq. destruct (Hw q Hq) as [Fw Bw]. assert (C := form_cr d (length mesh * n) (n * e + q) x rho _ _ _ _ _ _ (phi i q) (phi j q) ltac:(lia) ltac:(nia) KU Hrho (fun r Hr => Hpush q i r Hq Hi Hr) (fun r Hr => Hpush q j r Hq Hj Hr) (Hphi i q Hi Hq) (Hphi j q Hj Hq) op Hop Hsize). fold (F q) (AF q) in C.
    assert (C' : cr (90 * x + 20 * u) (f_form d op (n * e + q) (f_pushd left d c (g q i)) (f_pushd left d c (g q j)) (phi i q) (phi j q)) (F q) (AF q) (bpow radix2 (-600)) (bpow radix2 552)) by (eapply cr_weak; [| | | |exact C]; [lra|apply bpow_le; lia|apply bpow_le; lia|apply bpow_le; lia]).
    assert (Y := cr_scale (90 * x + 20 * u) _ (w q) _ _ _ _ 1 (bpow radix2 (-598)) ltac:(lra) C' Fw Bw). rewrite !Rmult_1_r in Y. assert (P6 := bpow_gt_0 radix2 (-600)). assert (P5 := bpow_gt_0 radix2 552). assert (Q1 : bpow radix2 (-598) = 4 * bpow radix2 (-600)) by (change (-598)%Z with (2 + -600)%Z; rewrite bpow_plus; reflexivity). assert (Q2 : eta <= bpow radix2 (-600)) by (rewrite eta_bp; apply bpow_le; lia).
    specialize (Y ltac:(apply Rle_trans with (bpow radix2 (2 + 552)); [rewrite (bpow_plus radix2 2); change (bpow radix2 2) with 4; lra|apply bpow_le; lia]) ltac:(lra) ltac:(apply bpow_le; lia)). eapply cr_weak; [| | | |exact Y]; [lra|lra|lra|apply bpow_le; lia]. }
  assert (P6 := bpow_gt_0 radix2 (-598)). assert (P5 := bpow_gt_0 radix2 552). assert (L0 : bpow radix2 (-598) <= bpow radix2 552) by (apply bpow_le; lia).
  assert (C := cr_sum n (90 * x + 22 * u) _ _ _ _ _ ltac:(lia) ltac:(lra) X ltac:(lra) ltac:(apply Rle_trans with (bpow radix2 (10 + 552)); [rewrite (bpow_plus radix2 10); change (bpow radix2 10) with 1024; lra|apply bpow_le; lia])).
  assert (Q1 : bpow radix2 (-591) = 128 * bpow radix2 (-598)) by (change (-591)%Z with (7 + -598)%Z; rewrite bpow_plus; reflexivity). assert (Q2 : bpow radix2 559 = 128 * bpow radix2 552) by (change 559%Z with (7 + 552)%Z; rewrite bpow_plus; reflexivity). assert (Y1 : INR n * bpow radix2 (-598) <= 50 * bpow radix2 (-598)) by (apply Rmult_le_compat_r; lra). assert (Y2 : INR n * bpow radix2 552 <= 50 * bpow radix2 552) by (apply Rmult_le_compat_r; lra).
  apply (cr_weak _ (90 * x + 22 * u + 2 * INR n * u) _ _ _ _ (bpow radix2 (-591)) _ (bpow radix2 559)) in C; [|lra|lra|lra|apply bpow_le; lia].
  assert (Z := cr_scale (90 * x + 22 * u + 2 * INR n * u) _ (f_measure d c) _ _ _ _ (bpow radix2 313) (bpow radix2 (-276)) ltac:(lra) C Fm ltac:(rewrite Rabs_pos_eq; lra)). rewrite <- !bpow_plus in Z. change (559 + 313)%Z with 872%Z in Z. change (-591 + 313)%Z with (-278)%Z in Z. assert (P7 := bpow_gt_0 radix2 (-278)). assert (P8 := bpow_gt_0 radix2 872). assert (Q3 : bpow radix2 (-276) = 4 * bpow radix2 (-278)) by (change (-276)%Z with (2 + -278)%Z; rewrite bpow_plus; reflexivity). assert (Q4 : eta <= bpow radix2 (-278)) by (rewrite eta_bp; apply bpow_le; lia).
  specialize (Z ltac:(apply Rle_trans with (bpow radix2 (2 + 872)); [rewrite (bpow_plus radix2 2); change (bpow radix2 2) with 4; lra|apply bpow_le; lia]) ltac:(lra) ltac:(apply bpow_le; lia)). fold (f_local_op left d n w g phi op e c i j) in Z. rewrite (Rabs_pos_eq (B2 (f_measure d c))) in Z by lra.
  assert (SZ : Rabs (B2 (f_local_op left d n w g phi op e c i j)) <= 3 * bpow radix2 872) by (eapply cr_size; [|exact Z]; lra). assert (L9 : bpow radix2 872 <= bpow radix2 900) by (apply bpow_le; lia).
  destruct C as (_ & _ & HA & _). destruct Z as (FZ & DZ & _). split; [exact FZ|]. split; [lra|]. change (I e c i j) with (rsum n (fun q => F q * B2 (w q)) * V). change (AI e c i j) with (rsum n (fun q => AF q * Rabs (B2 (w q))) * V).
  set (A := rsum n (fun q => F q * B2 (w q))) in *. set (S := rsum n (fun q => AF q * Rabs (B2 (w q)))) in *. set (a := B2 (f_local_op left d n w g phi op e c i j)) in *. set (mm := B2 (f_measure d c)) in *. assert (PA := Rabs_pos A). assert (SV : 0 <= S * V) by (apply Rmult_le_pos; lra).
  split; [|rewrite Rabs_mult, (Rabs_pos_eq V) by lra; apply Rmult_le_compat_r; lra].
  assert (M1 : mm <= 1001 / 1000 * V) by (apply Rabs_le_inv in Em; assert (10 * x * V <= / 1000 * V) by (apply Rmult_le_compat_r; lra); lra).
  assert (Z1 : (90 * x + 22 * u + 2 * INR n * u + 2 * u) * (S * mm) <= (90 * x + 24 * u + 2 * INR n * u) * (1001 / 1000 * (S * V))) by (replace (90 * x + 22 * u + 2 * INR n * u + 2 * u) with (90 * x + 24 * u + 2 * INR n * u) by ring; apply Rmult_le_compat_l; [lra|]; replace (1001 / 1000 * (S * V)) with (S * (1001 / 1000 * V)) by ring; apply Rmult_le_compat_l; lra).
  assert (Z2 : Rabs (A * mm - A * V) <= 10 * x * (S * V)) by (replace (A * mm - A * V) with (A * (mm - V)) by ring; rewrite Rabs_mult; apply Rle_trans with (S * (10 * x * V)); [apply Rmult_le_compat; auto using Rabs_pos|apply Req_le; ring]).
  replace (a - A * V) with ((a - A * mm) + (A * mm - A * V)) by ring. apply Rle_trans with (1 := Rabs_triang _ _).
  assert (T : bpow radix2 (-276) <= bpow radix2 (-250)) by (apply bpow_le; lia). assert (uSV : 0 <= u * (S * V)) by (apply Rmult_le_pos; lra). assert (xSV : u * (S * V) <= x * (S * V)) by (apply Rmult_le_compat_r; lra). assert (nSV : 0 <= INR n * u * (S * V)) by (apply Rmult_le_pos; lra).
  replace ((3 * INR n + 140 * kappa) * u * (S * V)) with (3 * (INR n * u * (S * V)) + 140 * (x * (S * V))) by (unfold x; ring). lra.
Qed.
(* C230: every entry is finite and close to the sum over the cells of the exact integrals of the weak form *)
Theorem C230_accuracy r s : (f_symmetric op = true -> symmetric_tensors op) -> (meetings nb mesh r s <= 2 ^ 20)%nat ->
  fin (f_operator left d nb n w g phi op mesh r s) = true /\
  Rabs (B2 (f_operator left d nb n w g phi op mesh r s) - gathered nb I mesh r s) <=
    (3 * INR n + 140 * kappa + 3 * INR (meetings nb mesh r s)) * u * gathered nb AI mesh r s + 2 * INR (meetings nb mesh r s) * bpow radix2 (-250).
Proof using Hd Hc HK Hn Hw Hg Hphi Hop Hsize.
  intros HT HS. replace ((3 * INR n + 140 * kappa + 3 * INR (meetings nb mesh r s)) * u) with ((3 * INR n + 140 * kappa) * u + 3 * INR (meetings nb mesh r s) * u) by ring.
  assert (Heps : 0 <= (3 * INR n + 140 * kappa) * u <= 1 / 100). { assert (Pu := u_pos). assert (In60 : 0 <= INR n <= 60) by (split; [apply pos_INR|]; replace 60 with (INR 60) by (cbn; lra); apply le_INR; lia). split; [apply Rmult_le_pos; lra|]. apply Rle_trans with ((3 * 60 + 140 * 1048576) * u); [apply Rmult_le_compat_r; lra|rewrite u_small; lra]. }
  unfold f_operator. destruct (f_symmetric op) eqn:SY.
  - apply (matrix_accuracy true nb (f_local_op left d n w g phi op) I AI); auto; [| |apply bpow_gt_0|exact local_op_ok].
    + intros e c i j. unfold I, integral. f_equal. apply rsum_ext. intros q _. f_equal. apply form_sym; auto.
    + intros e c i j. unfold AI, aintegral. f_equal. apply rsum_ext. intros q _. f_equal. apply aform_sym; auto.
  - rewrite matrix_items. cbn [andb]. apply (entry_accuracy nb (f_local_op left d n w g phi op) I AI); auto; [apply bpow_gt_0|exact local_op_ok].
Qed.
(* C230: without reaction, when the gradients of the basis functions add up to zero, so do the rows, up to the same errors *)
Theorem C230_rows nd r : (f_symmetric op = true -> symmetric_tensors op) -> no_reaction op -> (forall s, (s < nd)%nat -> (meetings nb mesh r s <= 2 ^ 20)%nat) -> (forall e j, In e mesh -> (j < nb)%nat -> (snd e j < nd)%nat) ->
  (forall q s, (q < n)%nat -> (s < d)%nat -> rsum nb (fun j => B2 (g q j s)) = 0) ->
  Rabs (rsum nd (fun s => B2 (f_operator left d nb n w g phi op mesh r s))) <=
    rsum nd (fun s => (3 * INR n + 140 * kappa + 3 * INR (meetings nb mesh r s)) * u * gathered nb AI mesh r s + 2 * INR (meetings nb mesh r s) * bpow radix2 (-250)).
Proof using Hd Hc HK Hn Hw Hg Hphi Hop Hsize.
  intros HT NR HS Hdof Z. assert (Zs : rsum nd (fun s => gathered nb I mesh r s) = 0).
  { unfold gathered. rewrite (rsum_lsum_swap _ nd (fun s (ec : nat * mesh_cell) => rsum nb (fun i => rsum nb (fun j => if (snd (snd ec) i =? r)%nat && (snd (snd ec) j =? s)%nat then I (fst ec) (fst (snd ec)) i j else 0))) (numbered mesh)). apply lsum_map_0. intros (e & c & dof) He. apply numbered_in in He. cbn [fst snd]. rewrite rsum_swap. apply rsum_zero. intros i Hi. rewrite rsum_swap.
    destruct (dof i =? r)%nat; [|apply rsum_zero; intros j _; apply rsum_zero; reflexivity]. cbn [andb].
    rewrite (rsum_ext nb _ (I e c i)). 2:{ intros j Hj. rewrite (rsum_single nd _ (dof j) (Hdof _ j (proj2 He) Hj)); [now rewrite Nat.eqb_refl|]. intros s _ N. destruct (Nat.eqb_spec (dof j) s); [congruence|reflexivity]. }
    unfold I, integral. rewrite rsum_scal_r, rsum_swap, rsum_zero; [ring|]. intros q Hq. rewrite rsum_scal_r. rewrite (form_rows d op (n * e + q) nb _ (fun j => cell_gradient d (span c) (fun s => B2 (g q j s))) _ (fun j => B2 (phi j q)) NR); [ring|]. intros r' Hr. apply (gradient_rows d (span c) nb (fun j s => B2 (g q j s))); auto. }
  rewrite <- (Rminus_0_r (rsum nd _)), <- Zs, <- rsum_minus. apply Rle_trans with (1 := rsum_abs _ _). apply rsum_le. intros s Hs. apply C230_accuracy; auto.
Qed.
End Oper.
Print Assumptions C230_symmetric.
Print Assumptions C230_pattern.
Print Assumptions C230_accuracy.
Print Assumptions C230_rows.
(* two tetrahedra, the operator - laplacian + b . grad + c with b zero on the first cell: all hypotheses hold, and the exact integral of two basis functions over the second cell *)
Lemma acof_le J i j m : 0 <= m -> (forall r k, (r < 3)%nat -> (k < 3)%nat -> Rabs (J r k) <= m) -> acof J i j <= 2 * (m * m).
Proof.
  intros Pm H. unfold acof. cbv zeta. assert (M : forall k, (k mod 3 < 3)%nat) by (intros; apply Nat.mod_upper_bound; lia). rewrite !Rabs_mult.
  assert (X : forall a b a' b', Rabs (J (a mod 3)%nat (b mod 3)%nat) * Rabs (J (a' mod 3)%nat (b' mod 3)%nat) <= m * m) by (intros; apply Rmult_le_compat; auto using Rabs_pos). assert (X1 := X (i + 1)%nat (j + 1)%nat (i + 2)%nat (j + 2)%nat). assert (X2 := X (i + 1)%nat (j + 2)%nat (i + 2)%nat (j + 1)%nat). lra.
Qed.
Definition wind (k r : nat) : double := if (k <? 4)%nat then d0 else match r with O => whole 2 | S O => whole 3 | _ => whole 1 end.
Definition adr : f_op := FAdd (FNeg FLap) (FAdd (FAdv wind) (FRea (fun _ => whole 2))).
Example C230_example : (forall e, In e two_tetra -> good_cell 3 2 (fst e) /\ forall q i r, (q < 4)%nat -> (i < 4)%nat -> (r < 3)%nat -> cell_agradient 3 (span (fst e)) (fun s => B2 (hats3 q i s)) r <= bpow radix2 150) /\
  (forall i q, (i < 4)%nat -> (q < 4)%nat -> fin (dbl 1 (-2)) = true /\ Rabs (B2 (dbl 1 (-2))) <= 1024) /\ small_coefficients 3 (length two_tetra * 4) adr /\ (op_size adr <= 10)%nat /\
  f_symmetric adr = false /\ f_symmetric (FAdd (FNeg FLap) (FRea (fun _ => whole 2))) = true /\ no_reaction (FAdd (FNeg FLap) (FAdv wind)) /\
  integral 3 4 (fun _ => B2 (dbl 1 (-2))) (fun q i s => B2 (hats3 q i s)) (fun _ _ => B2 (dbl 1 (-2))) adr 1 (span tetra2) 1 1 = 35 / 144 /\
  integral 3 4 (fun _ => B2 (dbl 1 (-2))) (fun q i s => B2 (hats3 q i s)) (fun _ _ => B2 (dbl 1 (-2))) adr 0 (span tetra2) 1 1 = 17 / 144.
Proof.
  assert (W : forall m, (-4 <= m <= 4)%Z -> fin (whole m) = true /\ B2 (whole m) = IZR m) by (intros m Hm; destruct (B2_dbl m 0) as [F E]; [cbn; lia|lia|]; split; [exact F|]; rewrite <- (Rmult_1_r (IZR m)); exact E).
  destruct (W 1%Z ltac:(lia)) as [F1 E1]. destruct (W 2%Z ltac:(lia)) as [F2 E2]. destruct (W 3%Z ltac:(lia)) as [F3 E3]. destruct (W 4%Z ltac:(lia)) as [F4 E4]. destruct (W (-1)%Z ltac:(lia)) as [Fm Em]. assert (Z0 : B2 d0 = 0) by reflexivity.
  destruct (B2_dbl 1 (-2) ltac:(cbn; lia) ltac:(lia)) as [Ft Et]. change (bpow radix2 (-2)) with (/ 4) in Et. change (B2R (dbl 1 (-2))) with (B2 (dbl 1 (-2))) in Et. destruct C229_example as (GT & _).
  assert (V2 : volume 3 (span tetra2) = -3) by (unfold volume, minor, span, tetra2, at3; rewrite !Z0, !E1, !E3, !E4; ring).
  split. { intros e He. split; [now apply GT|]. intros q i r _ _ _. change (agradient3 (span (fst e)) (fun s => B2 (hats3 q i s)) r <= bpow radix2 150).
    assert (A4 : forall a b, (r < 3)%nat \/ True -> (a < 3)%nat -> (b < 3)%nat -> Rabs (span (fst e) a b) <= 4). { intros a b _ Ha Hb. destruct He as [<-|[<-|[]]]; cbn [fst]; destruct a as [|[|[|a]]], b as [|[|[|b]]]; try lia; unfold span, tetra, tetra2, at3; rewrite ?Z0, ?E1, ?E2, ?E3, ?E4, Rminus_0_r, Rabs_pos_eq; lra. }
    assert (V1 : 1 <= Rabs (volume 3 (span (fst e)))). { destruct He as [<-|[<-|[]]]; cbn [fst]; [rewrite (proj1 (proj2 tetra_ok)), Rabs_pos_eq; lra|rewrite V2, Rabs_left; lra]. }
    apply Rle_trans with (rsum 3 (fun _ => 32)); [|apply Rle_trans with (bpow radix2 7); [cbn; lra|apply bpow_le; lia]]. unfold agradient3. apply rsum_le. intros s Hs. unfold ainverse3.
    assert (AC := acof_le (span (fst e)) r s 4 ltac:(lra) (fun a b => A4 a b (or_intror Logic.I))). assert (PC : 0 <= acof (span (fst e)) r s) by (unfold acof; cbv zeta; apply Rplus_le_le_0_compat; apply Rabs_pos).
    assert (H1 : Rabs (B2 (hats3 q i s)) <= 1) by (destruct i as [|i]; cbn [hats3]; [rewrite Em, Rabs_left; lra|destruct (i =? s)%nat; rewrite ?E1, ?Z0, ?Rabs_R0, ?Rabs_R1; lra]).
    rewrite <- (Rmult_1_r 32). apply Rmult_le_compat; auto using Rabs_pos; [apply Rmult_le_pos; auto; apply Rlt_le, Rinv_0_lt_compat; lra|]. apply Rmult_le_reg_r with (Rabs (volume 3 (span (fst e)))); [lra|]. replace (acof (span (fst e)) r s / Rabs (volume 3 (span (fst e))) * Rabs (volume 3 (span (fst e)))) with (acof (span (fst e)) r s) by (field; lra). lra. }
  split; [intros; split; auto; rewrite Et, Rabs_pos_eq; lra|]. split.
  { cbn [small_coefficients adr]. split; auto. split; [|intros; split; auto; rewrite E2, Rabs_pos_eq; lra]. intros k r _ _. unfold wind. destruct (k <? 4)%nat; [split; [reflexivity|rewrite Z0, Rabs_R0; lra]|]. destruct r as [|[|r]]; split; auto; rewrite ?E1, ?E2, ?E3, Rabs_pos_eq; lra. }
  split; [cbn; lia|]. split; [reflexivity|]. split; [reflexivity|]. split; [cbn; tauto|].
  assert (S1 : forall r, cell_gradient 3 (span tetra2) (fun s => B2 (hats3 0 1 s)) r = inverse3 (span tetra2) 0 r) by (intros r; unfold cell_gradient; cbn [Nat.eqb]; unfold gradient3; cbn [rsum hats3 Nat.eqb]; rewrite E1, Z0; ring).
  assert (I : inverse3 (span tetra2) 0 0 = 0 /\ inverse3 (span tetra2) 0 1 = / 3 /\ inverse3 (span tetra2) 0 2 = 0) by (unfold inverse3; rewrite V2; unfold cof, span, tetra2, at3; cbn [Nat.add Nat.modulo Nat.divmod snd Nat.sub]; rewrite ?Z0, ?E1, ?E3, ?E4; repeat split; field).
  destruct I as (I0 & I1 & I2). assert (F6 : INR (fact 3) = 6) by (cbn [fact Nat.mul Nat.add]; cbn [INR]; lra). unfold integral. rewrite V2, Rabs_left, F6 by lra.
  split.
  - rewrite (rsum_ext 4 _ (fun _ => 35 / 72 * / 4)); [cbn [rsum]; field|]. intros q Hq. change (fun s => B2 (hats3 q 1 s)) with (fun s => B2 (hats3 0 1 s)). cbn [form adr rsum]. rewrite !S1, I0, I1, I2, Et. unfold wind. destruct (Nat.ltb_spec (4 * 1 + q) 4); [lia|]. rewrite E1, E2, E3. field.
  - rewrite (rsum_ext 4 _ (fun _ => 17 / 72 * / 4)); [cbn [rsum]; field|]. intros q Hq. change (fun s => B2 (hats3 q 1 s)) with (fun s => B2 (hats3 0 1 s)). cbn [form adr rsum]. rewrite !S1, I0, I1, I2, Et. unfold wind. destruct (Nat.ltb_spec (4 * 0 + q) 4); [|lia]. rewrite Z0, E2. field.
Qed.
