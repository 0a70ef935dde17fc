(* C191-C192: the rounding error of the quadrature over a mesh and of row sums, for all doubles. *)
From Coq Require Import Reals Lra Lia List Bool ZArith Permutation.
From Flocq Require Import Core IEEE754.BinarySingleNaN Relative Plus_error.
From Verif Require Import Base RSum FieldModel FieldProps FemModel SymbolsModel SymbolsProps FloatModel.
Import ListNotations.
Open Scope R_scope.

(* ---- specification ---- *)
(* unit roundoff and half the smallest positive double *)
Definition u : R := / 2 * bpow radix2 (-52).
Definition eta : R := / 2 * bpow radix2 (-1074).

Lemma u_pos : 0 < u. Proof. unfold u. assert (H := bpow_gt_0 radix2 (-52)). lra. Qed.
Lemma eta_pos : 0 < eta. Proof. unfold eta. assert (H := bpow_gt_0 radix2 (-1074)). lra. Qed.
Lemma u_small : u = / 9007199254740992. Proof. unfold u. cbn. lra. Qed.

#[local] Instance vfexp' : Valid_exp (SpecFloat.fexp 53 1024) := @fexp_correct 53 1024 prec64.
Lemma overflow_nan (x : double) s : B2SF x = binary_overflow 53 1024 mode_NE s -> fin x = false.
Proof. destruct x; cbn; auto; discriminate. Qed.
Lemma dadd_fin a b : fin (dadd a b) = true -> fin a = true /\ fin b = true /\ B2 (dadd a b) = rnd (B2 a + B2 b).
Proof.
  intros H. assert (F : fin a = true /\ fin b = true).
  { unfold dadd in H. destruct a as [sa|[|]| |sa ma ea Ha], b as [sb|[|]| |sb mb eb Hb]; cbn in H |- *; auto; discriminate. }
  destruct F as [Fa Fb]. split; auto. split; auto. assert (C := @Bplus_correct 53 1024 prec64 emax64 mode_NE a b Fa Fb). fold (dadd a b) in C.
  destruct (Rlt_bool _ _); [exact (proj1 C)|]. rewrite (overflow_nan _ _ (proj1 C)) in H. discriminate.
Qed.
Lemma dmul_fin' a b : fin (dmul a b) = true -> fin a = true /\ fin b = true /\ B2 (dmul a b) = rnd (B2 a * B2 b).
Proof.
  intros H. assert (F : fin a = true /\ fin b = true).
  { unfold dmul in H. destruct a as [sa|[|]| |sa ma ea Ha], b as [sb|[|]| |sb mb eb Hb]; cbn in H |- *; auto; discriminate. }
  destruct F as [Fa Fb]. split; auto. split; auto. assert (C := @Bmult_correct 53 1024 prec64 emax64 mode_NE a b). fold (dmul a b) in C.
  destruct (Rlt_bool _ _); [exact (proj1 C)|]. rewrite (overflow_nan _ _ C) in H. discriminate.
Qed.
Lemma rnd_0 : rnd 0 = 0. Proof. apply round_0. typeclasses eauto. Qed.
Lemma rnd_pos x : 0 <= x -> 0 <= rnd x. Proof. intros H. rewrite <- rnd_0. now apply rnd_le. Qed.

(* one addition and one multiplication *)
Lemma u_ro_u e : Rabs e <= u_ro radix2 53 / (1 + u_ro radix2 53) -> Rabs e <= u.
Proof. intros H. apply Rle_trans with (1 := H). exact (u_rod1pu_ro_le_u_ro radix2 53). Qed.
Lemma dadd_error a b : fin (dadd a b) = true -> Rabs (B2 (dadd a b) - (B2 a + B2 b)) <= u * Rabs (B2 a + B2 b).
Proof.
  intros H. destruct (dadd_fin a b H) as (Fa & Fb & ->). destruct (@FLT_plus_error_N_ex radix2 (-1074) 53 prec64 (fun x => negb (Z.even x)) (B2 a) (B2 b) (generic_format_B2R 53 1024 a) (generic_format_B2R 53 1024 b)) as (e & Be & Ee).
  change (round radix2 (FLT_exp (-1074) 53) (Znearest (fun x => negb (Z.even x)))) with rnd in Ee. rewrite Ee. replace ((B2 a + B2 b) * (1 + e) - (B2 a + B2 b)) with (e * (B2 a + B2 b)) by ring. rewrite Rabs_mult.
  apply Rmult_le_compat_r; [apply Rabs_pos|]. now apply u_ro_u.
Qed.
Lemma dmul_error a b : fin (dmul a b) = true -> Rabs (B2 (dmul a b) - B2 a * B2 b) <= u * Rabs (B2 a * B2 b) + eta.
Proof.
  intros H. destruct (dmul_fin' a b H) as (Fa & Fb & ->). destruct (@relative_error_N_FLT'_ex radix2 (-1074) 53 prec64 (fun x => negb (Z.even x)) (B2 a * B2 b)) as (e & t & Be & Bt & _ & Ee).
  change (round radix2 (FLT_exp (-1074) 53) (Znearest (fun x => negb (Z.even x)))) with rnd in Ee. rewrite Ee. replace (B2 a * B2 b * (1 + e) + t - B2 a * B2 b) with (e * (B2 a * B2 b) + t) by ring.
  apply Rle_trans with (1 := Rabs_triang _ _). rewrite Rabs_mult. apply Rplus_le_compat; [|exact Bt]. apply Rmult_le_compat_r; [apply Rabs_pos|]. now apply u_ro_u.
Qed.

(* ---- sums in a loop ---- *)
Lemma fsum_S n f : fsum (S n) f = dadd (fsum n f) (f n).
Proof. unfold fsum. rewrite seq_S, fold_left_app. reflexivity. Qed.
Lemma fsum_fin n f : fin (fsum n f) = true -> forall i, (i < n)%nat -> fin (f i) = true.
Proof. induction n as [|n IH]; intros H i Hi; [lia|]. rewrite fsum_S in H. destruct (dadd_fin _ _ H) as (A & B & _). destruct (Nat.eq_dec i n) as [->|]; auto. apply IH; auto. lia. Qed.
Lemma pow_ge1 n : 1 <= (1 + u) ^ n.
Proof. apply pow_R1_Rle. assert (H := u_pos). lra. Qed.
Lemma rsum_abs n f : Rabs (rsum n f) <= rsum n (fun i => Rabs (f i)).
Proof. induction n as [|n IH]; cbn [rsum]; [rewrite Rabs_R0; lra|]. apply Rle_trans with (1 := Rabs_triang _ _). lra. Qed.
Lemma fsum_error n f : fin (fsum n f) = true ->
  Rabs (B2 (fsum n f) - rsum n (fun i => B2 (f i))) <= ((1 + u) ^ n - 1) * rsum n (fun i => Rabs (B2 (f i))).
Proof.
  induction n as [|n IH]; intros H; cbn [rsum]. { unfold fsum. cbn. rewrite Rminus_0_r, Rabs_R0. lra. }
  rewrite fsum_S in H |- *. destruct (dadd_fin _ _ H) as (F & _ & _). specialize (IH F). assert (E := dadd_error _ _ H). set (s := B2 (fsum n f)) in *. set (p := B2 (f n)) in *.
  set (S0 := rsum n (fun i => B2 (f i))) in *. set (A := rsum n (fun i => Rabs (B2 (f i)))) in *. assert (HA : Rabs S0 <= A) by apply rsum_abs. assert (Hp := Rabs_pos p). assert (HU := u_pos). assert (P1 := pow_ge1 n).
  assert (T : Rabs (s + p) <= Rabs (s - S0) + A + Rabs p). { replace (s + p) with ((s - S0) + S0 + p) by ring. apply Rle_trans with (1 := Rabs_triang _ _). apply Rplus_le_compat_r. apply Rle_trans with (1 := Rabs_triang _ _). lra. }
  replace (B2 (dadd (fsum n f) (f n)) - (S0 + p)) with ((B2 (dadd (fsum n f) (f n)) - (s + p)) + (s - S0)) by ring. apply Rle_trans with (1 := Rabs_triang _ _).
  cbn [pow]. assert (0 <= Rabs S0) by apply Rabs_pos. set (q := (1 + u) ^ n) in *. set (d := Rabs (s - S0)) in *. assert (u * Rabs (s + p) <= u * (d + A + Rabs p)) by (apply Rmult_le_compat_l; lra).
  assert (0 <= (q - 1) * Rabs p) by (apply Rmult_le_pos; lra). assert (0 <= u * ((q - 1) * Rabs p)) by (apply Rmult_le_pos; lra). assert (u * d <= u * ((q - 1) * A)) by (apply Rmult_le_compat_l; lra). lra.
Qed.
Lemma dot_error n (v w : nat -> double) : fin (fsum n (fun q => dmul (v q) (w q))) = true ->
  Rabs (B2 (fsum n (fun q => dmul (v q) (w q))) - rsum n (fun q => B2 (v q) * B2 (w q))) <= ((1 + u) ^ S n - 1) * rsum n (fun q => Rabs (B2 (v q) * B2 (w q))) + (1 + u) ^ n * (INR n * eta).
Proof.
  intros H. assert (E := fsum_error _ _ H). assert (F := fsum_fin _ _ H). assert (HU := u_pos). assert (HE := eta_pos). set (p := fun q => B2 (dmul (v q) (w q))).
  change (Rabs (B2 (fsum n (fun q => dmul (v q) (w q))) - rsum n p) <= ((1 + u) ^ n - 1) * rsum n (fun i => Rabs (p i))) in E.
  set (A := rsum n (fun q => Rabs (B2 (v q) * B2 (w q)))) in *. assert (P1 := pow_ge1 n). set (s := B2 (fsum n _)) in *.
  assert (D : Rabs (rsum n p - rsum n (fun q => B2 (v q) * B2 (w q))) <= u * A + INR n * eta).
  { rewrite <- rsum_minus. apply Rle_trans with (1 := rsum_abs _ _). unfold A. rewrite <- rsum_scal. replace (INR n * eta) with (rsum n (fun _ => eta)). 2:{ clear. induction n as [|n IH]; cbn [rsum]; [cbn; ring|]. rewrite IH, S_INR. ring. }
    rewrite <- rsum_plus. apply rsum_le. intros q Hq. apply dmul_error. now apply F. }
  assert (B : rsum n (fun i => Rabs (p i)) <= (1 + u) * A + INR n * eta).
  { replace ((1 + u) * A + INR n * eta) with (A + (u * A + INR n * eta)) by ring. unfold A. rewrite <- rsum_scal. replace (INR n * eta) with (rsum n (fun _ => eta)). 2:{ clear. induction n as [|n IH]; cbn [rsum]; [cbn; ring|]. rewrite IH, S_INR. ring. }
    rewrite <- !rsum_plus. apply rsum_le. intros q Hq. assert (K := dmul_error _ _ (F q Hq)). fold (p q) in K. replace (p q) with (B2 (v q) * B2 (w q) + (p q - B2 (v q) * B2 (w q))) by ring. apply Rle_trans with (1 := Rabs_triang _ _). lra. }
  replace (s - rsum n (fun q => B2 (v q) * B2 (w q))) with ((s - rsum n p) + (rsum n p - rsum n (fun q => B2 (v q) * B2 (w q)))) by ring. apply Rle_trans with (1 := Rabs_triang _ _).
  cbn [pow]. set (q := (1 + u) ^ n) in *. assert ((q - 1) * rsum n (fun i => Rabs (p i)) <= (q - 1) * ((1 + u) * A + INR n * eta)) by (apply Rmult_le_compat_l; lra). lra.
Qed.
Lemma cell_error n (v w : nat -> double) m : fin (f_integrate_cell n v w m) = true ->
  Rabs (B2 (f_integrate_cell n v w m) - rsum n (fun q => B2 (v q) * B2 (w q)) * B2 m) <=
    ((1 + u) ^ (n + 2) - 1) * (rsum n (fun q => Rabs (B2 (v q) * B2 (w q))) * Rabs (B2 m)) + ((1 + u) ^ S n * INR n * Rabs (B2 m) + 1) * eta.
Proof.
  intros H. unfold f_integrate_cell in *. destruct (dmul_fin' _ _ H) as (F & _ & _). assert (E := dmul_error _ _ H). assert (D := dot_error n v w F). set (s := B2 (fsum n _)) in *. set (x := rsum n (fun q => B2 (v q) * B2 (w q))) in *.
  set (A := rsum n (fun q => Rabs (B2 (v q) * B2 (w q)))) in *. assert (HA : Rabs x <= A) by apply rsum_abs. set (r := B2 (dmul _ m)) in *. set (b := B2 m) in *. assert (HU := u_pos). assert (HE := eta_pos). assert (P1 := pow_ge1 n).
  replace (r - x * b) with ((r - s * b) + (s - x) * b) by ring. apply Rle_trans with (1 := Rabs_triang _ _). rewrite Rabs_mult. assert (Hb := Rabs_pos b).
  assert (T : Rabs (s * b) <= (Rabs (s - x) + A) * Rabs b). { rewrite Rabs_mult. apply Rmult_le_compat_r; auto. assert (Z := Rabs_triang (s - x) x). replace (s - x + x) with s in Z by ring. lra. }
  replace (n + 2)%nat with (S (S n)) by lia. cbn [pow] in *. set (q := (1 + u) ^ n) in *. set (d := Rabs (s - x)) in *. set (B := Rabs b) in *. assert (HN := pos_INR n).
  assert (Td : d * B <= (((1 + u) * q - 1) * A + q * (INR n * eta)) * B) by (apply Rmult_le_compat_r; auto).
  assert (u * Rabs (s * b) <= u * ((d + A) * B)) by (apply Rmult_le_compat_l; lra). assert (u * (d * B) <= u * ((((1 + u) * q - 1) * A + q * (INR n * eta)) * B)) by (apply Rmult_le_compat_l; lra). lra.
Qed.

(* ---- C191: the quadrature over a mesh ---- *)
(* the exact value for the same data, and the sum of the absolute contributions *)
Definition exact_integral (n_cells n : nat) (v w m : nat -> double) : R := rsum n_cells (fun e => rsum n (fun q => B2 (v (n * e + q)%nat) * B2 (w q)) * B2 (m e)).
Definition absolute_integral (n_cells n : nat) (v w m : nat -> double) : R := rsum n_cells (fun e => rsum n (fun q => Rabs (B2 (v (n * e + q)%nat) * B2 (w q))) * Rabs (B2 (m e))).
Theorem C191_error n_cells n v w m : fin (f_integrate_mesh n_cells n v w m) = true ->
  Rabs (B2 (f_integrate_mesh n_cells n v w m) - exact_integral n_cells n v w m) <=
    ((1 + u) ^ (n_cells + n + 2) - 1) * absolute_integral n_cells n v w m + (1 + u) ^ (n_cells + n + 1) * rsum n_cells (fun e => INR n * Rabs (B2 (m e)) + 1) * eta.
Proof.
  intros H. unfold f_integrate_mesh in *. assert (E := fsum_error _ _ H). assert (F := fsum_fin _ _ H). set (c := fun e => f_integrate_cell n (fun q => v (n * e + q)%nat) w (m e)) in *.
  assert (HU := u_pos). assert (HE := eta_pos). assert (P1 := pow_ge1 n_cells). assert (Q1 := pow_ge1 n). set (X := exact_integral n_cells n v w m). set (A := absolute_integral n_cells n v w m).
  set (G := rsum n_cells (fun e => INR n * Rabs (B2 (m e)) + 1)). set (K := ((1 + u) ^ (n + 2) - 1)) in *. set (T := (1 + u) ^ S n * G * eta).
  assert (C : forall e, (e < n_cells)%nat -> Rabs (B2 (c e) - rsum n (fun q => B2 (v (n * e + q)%nat) * B2 (w q)) * B2 (m e)) <= K * (rsum n (fun q => Rabs (B2 (v (n * e + q)%nat) * B2 (w q))) * Rabs (B2 (m e))) + (1 + u) ^ S n * (INR n * Rabs (B2 (m e)) + 1) * eta).
  { intros e He. apply Rle_trans with (1 := cell_error _ _ _ _ (F e He)). fold K. apply Rplus_le_compat_l. assert (P2 := pow_ge1 (S n)). set (q := (1 + u) ^ S n) in *. apply Rmult_le_compat_r; [lra|]. lra. }
  assert (D : Rabs (rsum n_cells (fun e => B2 (c e)) - X) <= K * A + T).
  { unfold X, exact_integral. rewrite <- rsum_minus. apply Rle_trans with (1 := rsum_abs _ _). unfold T, A, G, absolute_integral. rewrite <- rsum_scal. rewrite (Rmult_comm ((1 + u) ^ S n)), Rmult_assoc, (Rmult_comm (rsum _ _)), <- rsum_scal, <- rsum_plus. apply rsum_le. intros e He. apply Rle_trans with (1 := C e He). right. ring. }
  assert (B : rsum n_cells (fun e => Rabs (B2 (c e))) <= (1 + K) * A + T).
  { replace ((1 + K) * A + T) with (A + (K * A + T)) by ring. unfold T, A, G, absolute_integral. rewrite <- (rsum_scal n_cells K). rewrite (Rmult_comm ((1 + u) ^ S n)), Rmult_assoc, (Rmult_comm (rsum _ (fun e => INR n * _ + 1))), <- rsum_scal, <- !rsum_plus. apply rsum_le. intros e He. specialize (C e He).
    set (x := rsum n (fun q => B2 (v (n * e + q)%nat) * B2 (w q)) * B2 (m e)) in *. replace (B2 (c e)) with (x + (B2 (c e) - x)) by ring. apply Rle_trans with (1 := Rabs_triang _ _). apply Rplus_le_compat; [|apply Rle_trans with (1 := C); right; ring].
    unfold x. rewrite Rabs_mult. apply Rmult_le_compat_r; [apply Rabs_pos|apply rsum_abs]. }
  replace (B2 (fsum n_cells c) - X) with ((B2 (fsum n_cells c) - rsum n_cells (fun e => B2 (c e))) + (rsum n_cells (fun e => B2 (c e)) - X)) by ring. apply Rle_trans with (1 := Rabs_triang _ _).
  replace (n_cells + n + 2)%nat with (n_cells + (n + 2))%nat by lia. replace (n_cells + n + 1)%nat with (n_cells + S n)%nat by lia. rewrite !pow_add.
  set (p := (1 + u) ^ n_cells) in *. change (Rabs (B2 (fsum n_cells c) - rsum n_cells (fun e => B2 (c e))) <= (p - 1) * rsum n_cells (fun e => Rabs (B2 (c e)))) in E.
  assert ((p - 1) * rsum n_cells (fun e => Rabs (B2 (c e))) <= (p - 1) * ((1 + K) * A + T)) by (apply Rmult_le_compat_l; lra). unfold K in *. unfold T in *. rewrite pow_add in *. lra.
Qed.

(* the exact value is the integral of the model over the reals (C69, C137 and others) for the same data *)
Theorem C191_model (P : problem) n v w m : n_nodes P = n -> (forall q, (q < n)%nat -> weight P q = B2 (w q)) -> (forall e, (e < n_cells P)%nat -> measure P e = B2 (m e)) ->
  integrate_mesh P (FData (n_cells P * n) (fun k => B2 (v k))) = Ok (exact_integral (n_cells P) n v w m).
Proof.
  intros Hn Hw Hm. unfold integrate_mesh, exact_integral. apply sum_loop_ok. intros e He. unfold integrate_cell. rewrite Hn, (sum_loop_ok _ (fun q => B2 (v (n * e + q)%nat) * B2 (w q))).
  - cbn [bind]. now rewrite Hm.
  - intros q Hq. unfold entry. rewrite (proj2 (Nat.ltb_lt _ _)) by nia. cbn [bind]. now rewrite Hw.
Qed.
(* up to 2^51 terms the factor is at most twice the number of terms times the unit roundoff *)
Lemma pow_linear k : INR k * (2 * u) <= 1 -> (1 + u) ^ k <= 1 + INR k * (2 * u).
Proof.
  induction k as [|k IH]; intros H; [cbn; lra|]. rewrite S_INR in *. assert (HU := u_pos). assert (HK := pos_INR k). specialize (IH ltac:(lra)). cbn [pow].
  apply Rle_trans with ((1 + u) * (1 + INR k * (2 * u))); [apply Rmult_le_compat_l; lra|]. assert (u * (INR k * (2 * u)) <= u * 1) by (apply Rmult_le_compat_l; lra). lra.
Qed.
Theorem C191_linear n_cells n v w m : INR (n_cells + n + 2) * (2 * u) <= 1 -> fin (f_integrate_mesh n_cells n v w m) = true ->
  Rabs (B2 (f_integrate_mesh n_cells n v w m) - exact_integral n_cells n v w m) <=
    INR (n_cells + n + 2) * (2 * u) * absolute_integral n_cells n v w m + rsum n_cells (fun e => INR n * Rabs (B2 (m e)) + 1) * (2 * eta).
Proof.
  intros HN H. apply Rle_trans with (1 := C191_error n_cells n v w m H). assert (HU := u_pos). assert (HE := eta_pos). assert (L := pow_linear _ HN).
  assert (LA : 0 <= absolute_integral n_cells n v w m).
  { unfold absolute_integral. rewrite <- (rsum_zero n_cells (fun _ => 0)) by auto. apply rsum_le. intros e He. apply Rmult_le_pos; [|apply Rabs_pos]. rewrite <- (rsum_zero n (fun _ => 0)) by auto. apply rsum_le. intros. apply Rabs_pos. }
  assert (LG : 0 <= rsum n_cells (fun e => INR n * Rabs (B2 (m e)) + 1)).
  { rewrite <- (rsum_zero n_cells (fun _ => 0)) by auto. apply rsum_le. intros e He. assert (Q := Rmult_le_pos _ _ (pos_INR n) (Rabs_pos (B2 (m e)))). lra. }
  apply Rplus_le_compat; [apply Rmult_le_compat_r; lra|]. assert (L2 : (1 + u) ^ (n_cells + n + 1) <= 2).
  { apply Rle_trans with ((1 + u) ^ (n_cells + n + 2)); [apply Rle_pow; [lra|lia]|lra]. }
  rewrite (Rmult_comm ((1 + u) ^ _)), Rmult_assoc. apply Rmult_le_compat_l; auto. apply Rmult_le_compat_r; lra.
Qed.

(* sums and products of nonnegative numbers are monotone and nonnegative *)
Lemma fsum_mono n f g : (forall i, (i < n)%nat -> B2 (f i) <= B2 (g i)) -> fin (fsum n f) = true -> fin (fsum n g) = true -> B2 (fsum n f) <= B2 (fsum n g).
Proof.
  induction n as [|n IH]; intros H F G; [unfold fsum; cbn; lra|]. rewrite !fsum_S. rewrite fsum_S in F, G. destruct (dadd_fin _ _ F) as (F1 & _ & ->). destruct (dadd_fin _ _ G) as (G1 & _ & ->).
  apply rnd_le. apply Rplus_le_compat; [apply IH; auto|apply H; lia].
Qed.
Lemma fsum_zero n : fsum n (fun _ => d0) = d0.
Proof. induction n as [|n IH]; [reflexivity|]. rewrite fsum_S, IH. reflexivity. Qed.
Lemma fsum_nonneg n f : (forall i, (i < n)%nat -> 0 <= B2 (f i)) -> fin (fsum n f) = true -> 0 <= B2 (fsum n f).
Proof. intros H F. assert (Q := fsum_mono n (fun _ => d0) f). rewrite fsum_zero in Q. cbn in Q. apply Q; auto. Qed.
Theorem C191_monotone n_cells n v v' w m : (forall q, (q < n)%nat -> 0 <= B2 (w q)) -> (forall e, (e < n_cells)%nat -> 0 <= B2 (m e)) -> (forall k, (k < n_cells * n)%nat -> B2 (v k) <= B2 (v' k)) ->
  fin (f_integrate_mesh n_cells n v w m) = true -> fin (f_integrate_mesh n_cells n v' w m) = true -> B2 (f_integrate_mesh n_cells n v w m) <= B2 (f_integrate_mesh n_cells n v' w m).
Proof.
  intros Hw Hm Hv F G. unfold f_integrate_mesh in *. apply fsum_mono; auto. intros e He. assert (Fe := fsum_fin _ _ F e He). assert (Ge := fsum_fin _ _ G e He). cbv beta in *. unfold f_integrate_cell in *.
  destruct (dmul_fin' _ _ Fe) as (Fs & _ & ->). destruct (dmul_fin' _ _ Ge) as (Gs & _ & ->). apply rnd_le. apply Rmult_le_compat_r; [now apply Hm|]. apply fsum_mono; auto. intros q Hq.
  destruct (dmul_fin' _ _ (fsum_fin _ _ Fs q Hq)) as (_ & _ & ->). destruct (dmul_fin' _ _ (fsum_fin _ _ Gs q Hq)) as (_ & _ & ->). apply rnd_le. apply Rmult_le_compat_r; [now apply Hw|]. apply Hv. nia.
Qed.
Theorem C191_nonneg n_cells n v w m : (forall q, (q < n)%nat -> 0 <= B2 (w q)) -> (forall e, (e < n_cells)%nat -> 0 <= B2 (m e)) -> (forall k, (k < n_cells * n)%nat -> 0 <= B2 (v k)) ->
  fin (f_integrate_mesh n_cells n v w m) = true -> 0 <= B2 (f_integrate_mesh n_cells n v w m).
Proof.
  intros Hw Hm Hv F. unfold f_integrate_mesh in *. apply fsum_nonneg; auto. intros e He. assert (Fe := fsum_fin _ _ F e He). cbv beta in *. unfold f_integrate_cell in *. destruct (dmul_fin' _ _ Fe) as (Fs & _ & ->). apply rnd_pos.
  apply Rmult_le_pos; [|now apply Hm]. apply fsum_nonneg; auto. intros q Hq. destruct (dmul_fin' _ _ (fsum_fin _ _ Fs q Hq)) as (_ & _ & ->). apply rnd_pos. apply Rmult_le_pos; [apply Hv; nia|now apply Hw].
Qed.

(* ---- C192: row sums, in any order ---- *)
Lemma tval_fin t : fin (tval t) = true -> Forall (fun x => fin x = true) (leaves t).
Proof. induction t as [x|l IHl r IHr]; cbn [tval leaves]; intros H; [now constructor|]. destruct (dadd_fin _ _ H) as (A & B & _). apply Forall_app. auto. Qed.
Definition total (l : list double) : R := lsum (map B2 l).
Definition absolute (l : list double) : R := lsum (map (fun x => Rabs (B2 x)) l).
Lemma total_app a b : total (a ++ b) = total a + total b. Proof. unfold total. now rewrite map_app, lsum_app. Qed.
Lemma absolute_app a b : absolute (a ++ b) = absolute a + absolute b. Proof. unfold absolute. now rewrite map_app, lsum_app. Qed.
Lemma absolute_pos l : 0 <= absolute l.
Proof. unfold absolute. induction l as [|x l IH]; cbn; [lra|]. assert (Q := Rabs_pos (B2 x)). lra. Qed.
Lemma total_abs l : Rabs (total l) <= absolute l.
Proof. unfold total, absolute. induction l as [|x l IH]; cbn; [rewrite Rabs_R0; lra|]. apply Rle_trans with (1 := Rabs_triang _ _). lra. Qed.
Lemma total_perm a b : Permutation a b -> total a = total b.
Proof. unfold total. induction 1; cbn; lra. Qed.
Lemma absolute_perm a b : Permutation a b -> absolute a = absolute b.
Proof. unfold absolute. induction 1; cbn; lra. Qed.
Lemma leaves_pos t : (0 < length (leaves t))%nat.
Proof. induction t; cbn [leaves]; [cbn; lia|]. rewrite app_length. lia. Qed.
Lemma tree_error t : fin (tval t) = true -> Rabs (B2 (tval t) - total (leaves t)) <= ((1 + u) ^ (length (leaves t) - 1) - 1) * absolute (leaves t).
Proof.
  assert (HU := u_pos). induction t as [x|l IHl r IHr]; cbn [tval leaves]; intros H.
  - unfold total. cbn. replace (B2 x - (B2 x + 0)) with 0 by ring. rewrite Rabs_R0. lra.
  - destruct (dadd_fin _ _ H) as (A & B & _). specialize (IHl A). specialize (IHr B). assert (E := dadd_error _ _ H). rewrite total_app, absolute_app, app_length. assert (Pl := leaves_pos l). assert (Pr := leaves_pos r).
    set (nl := length (leaves l)) in *. set (nr := length (leaves r)) in *. set (a := B2 (tval l)) in *. set (b := B2 (tval r)) in *. set (s := B2 (dadd _ _)) in *.
    assert (Tl := total_abs (leaves l)). assert (Tr := total_abs (leaves r)). assert (Al := absolute_pos (leaves l)). assert (Ar := absolute_pos (leaves r)).
    set (Sl := total (leaves l)) in *. set (Sr := total (leaves r)) in *. set (xl := absolute (leaves l)) in *. set (xr := absolute (leaves r)) in *.
    set (N := (nl + nr - 2)%nat). assert (Ml : (1 + u) ^ (nl - 1) <= (1 + u) ^ N) by (apply Rle_pow; [lra|unfold N; lia]). assert (Mr : (1 + u) ^ (nr - 1) <= (1 + u) ^ N) by (apply Rle_pow; [lra|unfold N; lia]).
    replace (nl + nr - 1)%nat with (S N) by (unfold N; lia). cbn [pow]. assert (P1 := pow_ge1 N). set (q := (1 + u) ^ N) in *.
    assert (Dl : Rabs (a - Sl) <= (q - 1) * xl) by (apply Rle_trans with (1 := IHl); apply Rmult_le_compat_r; lra). assert (Dr : Rabs (b - Sr) <= (q - 1) * xr) by (apply Rle_trans with (1 := IHr); apply Rmult_le_compat_r; lra).
    assert (Z : Rabs (a + b) <= Rabs (a - Sl) + Rabs (b - Sr) + xl + xr).
    { replace (a + b) with ((a - Sl) + (b - Sr) + (Sl + Sr)) by ring. apply Rle_trans with (1 := Rabs_triang _ _). assert (Q1 := Rabs_triang (a - Sl) (b - Sr)). assert (Q2 := Rabs_triang Sl Sr). lra. }
    replace (s - (Sl + Sr)) with ((s - (a + b)) + ((a - Sl) + (b - Sr))) by ring. apply Rle_trans with (1 := Rabs_triang _ _). assert (Q1 := Rabs_triang (a - Sl) (b - Sr)).
    assert (u * Rabs (a + b) <= u * (q * (xl + xr))) by (apply Rmult_le_compat_l; lra). lra.
Qed.
Lemma total_zeros k : total (repeat d0 k) = 0.
Proof. unfold total. induction k as [|k IH]; cbn; [reflexivity|]. rewrite IH. cbn. lra. Qed.
Lemma absolute_zeros k : absolute (repeat d0 k) = 0.
Proof. unfold absolute. induction k as [|k IH]; cbn; [reflexivity|]. rewrite IH, Rabs_R0. lra. Qed.
(* whatever the order of the additions *)
Theorem C192_error l k r : reduces l k r -> fin r = true -> Rabs (B2 r - total l) <= ((1 + u) ^ (length l + k - 1) - 1) * absolute l.
Proof.
  intros (t & HP & ->) F. assert (E := tree_error t F). rewrite (total_perm _ _ HP), (absolute_perm _ _ HP), (Permutation_length HP), total_app, absolute_app, total_zeros, absolute_zeros, app_length, repeat_length, !Rplus_0_r in E. exact E.
Qed.
Lemma tree_ge t : fin (tval t) = true -> Forall (fun x => 0 <= B2 x) (leaves t) -> 0 <= B2 (tval t) /\ Forall (fun x => B2 x <= B2 (tval t)) (leaves t).
Proof.
  induction t as [x|l IHl r IHr]; cbn [tval leaves]; intros F H.
  - inversion H; subst. split; auto. constructor; [lra|constructor].
  - apply Forall_app in H. destruct H as [Hl Hr]. destruct (dadd_fin _ _ F) as (A & B & E). destruct (IHl A Hl) as [Pl Gl]. destruct (IHr B Hr) as [Pr Gr].
    assert (L1 : B2 (tval l) <= B2 (dadd (tval l) (tval r))) by (rewrite E, <- (rnd_id (tval l)) at 1; apply rnd_le; lra).
    assert (L2 : B2 (tval r) <= B2 (dadd (tval l) (tval r))) by (rewrite E, <- (rnd_id (tval r)) at 1; apply rnd_le; lra).
    split; [lra|]. apply Forall_app. split; [apply Forall_impl with (2 := Gl)|apply Forall_impl with (2 := Gr)]; intros x Hx; lra.
Qed.
(* a row of nonnegative entries: the lumped entry is at least each of them, so it is positive as soon as one is *)
Theorem C192_dominates l k r x : reduces l k r -> fin r = true -> (forall y, In y l -> 0 <= B2 y) -> In x l -> B2 x <= B2 r.
Proof.
  intros (t & HP & ->) F Hl Hx. destruct (tree_ge t F) as [_ G].
  - apply Forall_forall. intros y Hy. apply (Permutation_in _ HP) in Hy. apply in_app_or in Hy. destruct Hy as [Hy|Hy]; [now apply Hl|]. apply repeat_spec in Hy. subst y. cbn. lra.
  - rewrite Forall_forall in G. apply G. apply (Permutation_in _ (Permutation_sym HP)). apply in_or_app. now left.
Qed.

(* non-vacuity: three equal weights 1/3 on two cells; the order of the additions matters *)
Definition dbl (m e : Z) : double := @binary_normalize 53 1024 prec64 emax64 mode_NE m e false.
Definition third : double := dbl 6004799503160661 (-54).
Lemma sign_nonneg (x : double) : Bsign x = false -> 0 <= B2 x.
Proof. destruct x as [s|s| |[|] m e H]; cbn [Bsign B2R]; intros E; try discriminate; try lra. apply F2R_ge_0. cbn. lia. Qed.
Example C191_example : let r := f_integrate_mesh 2 3 (fun k => dbl (Z.of_nat k) (-1)) (fun _ => third) (fun _ => dbl 3 (-2)) in
  fin r = true /\ (forall q, (q < 3)%nat -> 0 <= B2 third) /\ INR (2 + 3 + 2) * (2 * u) <= 1.
Proof. split; [vm_compute; reflexivity|]. split; [intros q _; apply sign_nonneg; vm_compute; reflexivity|]. rewrite u_small. cbn. lra. Qed.
Example C192_example : let l := [dbl 1 0; dbl 1 (-53); dbl 1 (-53)] in reduces l 0 (dbl 1 0) /\ reduces l 0 (dbl 4503599627370497 (-52)) /\ dbl 1 0 <> dbl 4503599627370497 (-52).
Proof.
  cbv zeta. split; [|split].
  - exists (Node (Node (Leaf (dbl 1 0)) (Leaf (dbl 1 (-53)))) (Leaf (dbl 1 (-53)))). split; [apply Permutation_refl|]. apply B2SF_inj. vm_compute. reflexivity.
  - exists (Node (Leaf (dbl 1 0)) (Node (Leaf (dbl 1 (-53))) (Leaf (dbl 1 (-53))))). split; [apply Permutation_refl|]. apply B2SF_inj. vm_compute. reflexivity.
  - intros H. apply (f_equal B2SF) in H. vm_compute in H. discriminate.
Qed.
Print Assumptions C191_error.
Print Assumptions C191_linear.
Print Assumptions C191_monotone.
Print Assumptions C192_error.
Print Assumptions C192_dominates.
