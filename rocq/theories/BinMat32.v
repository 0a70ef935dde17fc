(* C204: binary matrices with the ints and doubles of the machine. *)
From Coq Require Import Reals Lra Lia List Bool ZArith NArith.
From Flocq Require Import Core IEEE754.BinarySingleNaN.
From Verif Require Import Base BinMatModel BinMatSpec BinMatProofs BinMatProofs2 SymbolsModel SymbolsProps FloatModel FloatProps FloatSearch FloatSplineModel FloatSpline FloatDiffModel FloatDiff BinMat32Model.
Import ListNotations.

(* ---- the row at which a bitpack starts ---- *)
Section Row.
Open Scope R_scope.
Lemma ddiv_ok a b e : (-1074 <= e < 1024)%Z -> fin a = true -> B2 b <> 0 -> Rabs (B2 a / B2 b) <= bpow radix2 e -> fin (ddiv a b) = true /\ B2 (ddiv a b) = rnd (B2 a / B2 b).
Proof.
  intros He Fa Nb H. assert (C := Bdiv_correct 53 1024 prec64 emax64 mode_NE a b Nb). rewrite Rlt_bool_true in C.
  - destruct C as (C1 & C2 & _). unfold ddiv. split; [now rewrite C2|exact C1].
  - apply Rle_lt_trans with (bpow radix2 e); [now apply (rnd_bound _ e)|apply bpow_lt; lia].
Qed.
Lemma trunc_between (a : SymbolsModel.double) n : (0 <= n)%Z -> IZR n <= B2 a < IZR n + 1 -> Btrunc a = n.
Proof.
  intros Hn H. assert (C := Btrunc_correct 53 1024 emax64 a). unfold round, F2R, scaled_mantissa, cexp, FIX_exp in C. cbn [Fnum Fexp] in C. change (bpow radix2 0) with 1 in C. change (- 0)%Z with 0%Z in C. change (bpow radix2 0) with 1 in C.
  rewrite !Rmult_1_r in C. apply eq_IZR in C. rewrite C. apply IZR_le in Hn. rewrite Ztrunc_floor by lra. apply Zfloor_imp. rewrite plus_IZR. lra.
Qed.
Definition quot (k c : Z) : SymbolsModel.double := dmul (lit k) (ddiv (lit 64) (lit c)).
Lemma quot_fin k c : (0 <= k)%Z -> (64 * k <= int_max)%Z -> (1 <= c <= int_max)%Z -> fin (ddiv (lit 64) (lit c)) = true /\ fin (quot k c) = true /\ B2 (quot k c) = rnd (IZR k * B2 (ddiv (lit 64) (lit c))) /\ B2 (ddiv (lit 64) (lit c)) = rnd (64 / IZR c) /\ 0 <= B2 (quot k c).
Proof.
  unfold int_max. intros Hk Hk' Hc. destruct (lit_ok k) as [Fk Ek]; [lia|]. destruct (lit_ok c) as [Fc Ec]; [lia|]. destruct (lit_ok 64) as [F6 E6]; [lia|].
  assert (C1 : 1 <= IZR c) by (apply IZR_le; lia). assert (K0 : 0 <= IZR k) by (apply IZR_le; lia). assert (K1 : IZR k <= bpow radix2 31) by (change (bpow radix2 31) with (IZR 2147483648); apply IZR_le; lia).
  assert (Q : 0 <= 64 / IZR c <= bpow radix2 6). { change (bpow radix2 6) with 64. split; [apply Rmult_le_pos; [lra|]; left; apply Rinv_0_lt_compat; lra|]. apply Rmult_le_reg_r with (IZR c); [lra|]. unfold Rdiv. rewrite Rmult_assoc, Rinv_l by lra. nra. }
  destruct (ddiv_ok (lit 64) (lit c) 6) as [Fd Ed]; auto; try lia; try (rewrite Ec; lra). { rewrite E6, Ec, Rabs_pos_eq by lra. lra. }
  rewrite E6, Ec in Ed. assert (R0 : rnd 0 = 0) by apply rnd_0. assert (R6 : rnd (bpow radix2 6) = bpow radix2 6) by (apply rnd_bpow; lia).
  destruct (rnd_between 0 (bpow radix2 6) (64 / IZR c) R0 R6) as [D0 D1]; [lra|]. rewrite <- Ed in D0, D1.
  destruct (dmul_ok (lit k) (ddiv (lit 64) (lit c)) 37) as [Fq Eq]; auto; try lia.
  { rewrite Ek, Rabs_pos_eq by (apply Rmult_le_pos; lra). change 37%Z with (31 + 6)%Z. rewrite bpow_plus. apply Rmult_le_compat; lra. }
  rewrite Ek in Eq. split; [exact Fd|]. split; [exact Fq|]. split; [exact Eq|]. split; [exact Ed|]. unfold quot. rewrite Eq.
  assert (R37 : rnd (bpow radix2 37) = bpow radix2 37) by (apply rnd_bpow; lia). apply (rnd_between 0 (bpow radix2 37)); auto. split; [apply Rmult_le_pos; lra|]. change 37%Z with (31 + 6)%Z. rewrite bpow_plus. apply Rmult_le_compat; lra.
Qed.
Lemma quot_close k c : (0 <= k)%Z -> (64 * k <= int_max)%Z -> (1 <= c <= int_max)%Z -> Rabs (IZR c * B2 (quot k c) - 64 * IZR k) < / 2.
Proof.
  intros Hk Hk' Hc. destruct (quot_fin k c Hk Hk' Hc) as (Fd & Fq & Eq & Ed & P). unfold int_max in *. destruct (lit_ok c) as [Fc Ec]; [lia|]. destruct (lit_ok 64) as [F6 E6]; [lia|]. destruct (lit_ok k) as [Fk Ek]; [lia|].
  assert (C1 : 1 <= IZR c <= 2147483647) by (split; apply IZR_le; lia). assert (K0 : 0 <= IZR k) by (apply IZR_le; lia). assert (K1 : IZR 64 * IZR k <= 2147483647) by (rewrite <- mult_IZR; apply IZR_le; lia).
  destruct (ddiv_error (lit 64) (lit c) Fd Fc) as [_ D]; [rewrite Ec; lra|]. rewrite E6, Ec in D. assert (M := dmul_error (lit k) (ddiv (lit 64) (lit c)) Fq). fold (quot k c) in M. rewrite Ek in M.
  set (d := B2 (ddiv (lit 64) (lit c))) in *. set (v := B2 (quot k c)) in *. set (C := IZR c) in *. set (K := IZR k) in *. clearbody d v C K.
  assert (U : 0 < u < / 1000000000000000). { split; [apply u_pos|]. rewrite u_small. lra. }
  assert (T : 0 <= eta <= u) by (split; [left; apply eta_pos|apply eta_u]). assert (T2 : eta * 5000000000000000000 < / 8).
  { unfold eta. apply Rle_lt_trans with (/ 2 * bpow radix2 (-100) * 5000000000000000000). apply Rmult_le_compat_r; [lra|]. apply Rmult_le_compat_l; [lra|]. apply bpow_le; lia. change (bpow radix2 (-100)) with (/ IZR (Z.pow_pos 2 100)). replace (Z.pow_pos 2 100) with 1267650600228229401496703205376%Z by reflexivity. lra. }
  set (w := u) in *. set (t := eta) in *. clearbody w t.
  assert (CD : Rabs (C * d - 64) <= w * 64 + C * t).
  { replace (C * d - 64) with (C * (d - 64 / C)) by (field; lra). rewrite Rabs_mult, (Rabs_pos_eq C) by lra. apply Rle_trans with (C * (w * Rabs (64 / C) + t)); [apply Rmult_le_compat_l; lra|]. rewrite Rabs_pos_eq by (apply Rmult_le_pos; [lra|left; apply Rinv_0_lt_compat; lra]). right. field. lra. }
  assert (X : Rabs (C * v - C * (K * d)) <= w * (K * Rabs (C * d)) + C * t).
  { replace (C * v - C * (K * d)) with (C * (v - K * d)) by ring. rewrite Rabs_mult, (Rabs_pos_eq C) by lra. apply Rle_trans with (C * (w * Rabs (K * d) + t)); [apply Rmult_le_compat_l; lra|]. rewrite !Rabs_mult, (Rabs_pos_eq K), (Rabs_pos_eq C) by lra. right. ring. }
  assert (CT : 0 <= C * t <= 2147483647 * t) by (split; [apply Rmult_le_pos; lra|apply Rmult_le_compat_r; lra]).
  assert (KCT : 0 <= K * (C * t) <= 33554432 * (2147483647 * t)) by (split; [apply Rmult_le_pos; lra|apply Rmult_le_compat; lra]).
  assert (KW : 0 <= 64 * K * w <= / 100000) by (split; [apply Rmult_le_pos; lra|]; apply Rle_trans with (2147483647 * / 1000000000000000); [apply Rmult_le_compat; lra|lra]).
  assert (KD : Rabs (K * (C * d) - 64 * K) <= 64 * K * w + K * (C * t)).
  { replace (K * (C * d) - 64 * K) with (K * (C * d - 64)) by ring. rewrite Rabs_mult, (Rabs_pos_eq K) by lra. apply Rle_trans with (K * (w * 64 + C * t)); [apply Rmult_le_compat_l; lra|right; ring]. }
  assert (AD : K * Rabs (C * d) <= 64 * K + (64 * K * w + K * (C * t))).
  { rewrite <- (Rabs_pos_eq K) at 1 by lra. rewrite <- Rabs_mult. replace (K * (C * d)) with ((K * (C * d) - 64 * K) + 64 * K) by ring. eapply Rle_trans; [apply Rabs_triang|]. rewrite (Rabs_pos_eq (64 * K)) by lra. lra. }
  assert (WA : w * (K * Rabs (C * d)) <= 64 * K * w + w * (64 * K * w + K * (C * t))) by (apply Rle_trans with (w * (64 * K + (64 * K * w + K * (C * t)))); [apply Rmult_le_compat_l; lra|right; ring]).
  assert (WB : w * (64 * K * w + K * (C * t)) <= 64 * K * w + K * (C * t)) by (rewrite <- (Rmult_1_l (64 * K * w + K * (C * t))) at 2; apply Rmult_le_compat_r; lra).
  replace (C * v - 64 * K) with ((C * v - C * (K * d)) + (K * (C * d) - 64 * K)) by ring. eapply Rle_lt_trans; [apply Rabs_triang|]. lra.
Qed.
(* the computed quotient is 64 k / c, rounded down, unless c divides 64 k; then it may be one less *)
Lemma quot_trunc k c : (0 <= k)%Z -> (64 * k <= int_max)%Z -> (1 <= c <= int_max)%Z ->
  Btrunc (quot k c) = (64 * k / c)%Z \/ ((64 * k) mod c = 0 /\ 0 < k /\ Btrunc (quot k c) = 64 * k / c - 1)%Z.
Proof.
  intros Hk Hk' Hc. assert (Q := quot_close k c Hk Hk' Hc). destruct (quot_fin k c Hk Hk' Hc) as (_ & _ & Eq & _ & P). set (v := B2 (quot k c)) in *. assert (Dm := Z.div_mod (64 * k) c ltac:(lia)). assert (Mb := Z.mod_pos_bound (64 * k) c ltac:(lia)).
  assert (Q0 : (0 <= 64 * k / c)%Z) by (apply Z.div_pos; lia). set (q := (64 * k / c)%Z) in *. set (r := ((64 * k) mod c)%Z) in *. apply Rabs_def2 in Q. assert (C1 : 1 <= IZR c) by (apply IZR_le; lia).
  assert (E : 64 * IZR k = IZR c * IZR q + IZR r) by (rewrite <- !mult_IZR, <- plus_IZR; f_equal; lia). rewrite E in Q.
  destruct (Z.eq_dec r 0) as [R0|R0].
  - rewrite R0 in Q. destruct (Rle_dec (IZR q) v) as [L|L].
    + left. apply trunc_between; [lia|]. fold v. split; auto. apply Rmult_lt_reg_l with (IZR c); [lra|]. lra.
    + right. split; [auto|]. assert (K : (0 < k)%Z). { destruct (Z.eq_dec k 0) as [K|K]; [|lia]. exfalso. apply L. replace q with 0%Z; [exact P|]. unfold q. rewrite K. now rewrite Z.mul_0_r, Z.div_0_l by lia. } split; auto.
      assert (Q1 : (1 <= q)%Z) by (destruct (Z.eq_dec q 0); [nia|lia]). apply trunc_between; [lia|]. fold v. rewrite minus_IZR. split; [|lra]. apply Rmult_le_reg_l with (IZR c); [lra|]. lra.
  - left. assert (R1 : 1 <= IZR r) by (apply IZR_le; lia). assert (R2 : IZR r <= IZR c - 1) by (rewrite <- minus_IZR; apply IZR_le; lia). apply trunc_between; [lia|]. fold v. split.
    + apply Rmult_le_reg_l with (IZR c); [lra|]. lra.
    + apply Rmult_lt_reg_l with (IZR c); [lra|]. lra.
Qed.
Lemma rnd_int z : (Z.abs z < 2 ^ 53)%Z -> rnd (IZR z) = IZR z.
Proof. intros H. destruct (lit_ok z H) as [F E]. rewrite <- E. apply round_generic; [apply valid_rnd_round_mode|apply generic_format_B2R]. Qed.
Lemma quot_pow2 k c : (0 <= k)%Z -> (64 * k <= int_max)%Z -> (1 <= c)%Z -> (64 mod c = 0)%Z -> Btrunc (quot k c) = (64 * k / c)%Z.
Proof.
  intros Hk Hk' Hc Hd. assert (Dm := Z.div_mod 64 c ltac:(lia)). rewrite Hd in Dm. set (d := (64 / c)%Z) in *. assert (D : (1 <= d <= 64)%Z) by nia. assert (C6 : (c <= 64)%Z) by nia.
  destruct (quot_fin k c Hk Hk') as (_ & _ & Eq & Ed & _); [unfold int_max; lia|]. assert (C1 : 1 <= IZR c) by (apply IZR_le; lia).
  assert (E : 64 / IZR c = IZR d). { replace 64 with (IZR c * IZR d) by (rewrite <- mult_IZR; f_equal; lia). field. lra. }
  rewrite E, rnd_int in Ed by lia. rewrite Ed, <- mult_IZR, rnd_int in Eq by (unfold int_max in *; nia). replace (64 * k / c)%Z with (k * d)%Z.
  - apply trunc_between; [nia|]. rewrite Eq. lra.
  - apply Z.div_unique_exact; [lia|nia].
Qed.
End Row.

(* ---- int arithmetic which stays in range ---- *)
Open Scope nat_scope.
Notation zn := Z.of_nat.
Lemma ck_ok n : (zn n <= int_max)%Z -> ck n = Ok n.
Proof. intros H. unfold ck. now rewrite (proj2 (Z.leb_le _ _) H). Qed.
Lemma ck_ub n : (int_max < zn n)%Z -> ck n = UB.
Proof. intros H. unfold ck. now rewrite (proj2 (Z.leb_gt _ _) H). Qed.
Lemma packs_le r c : 64 * (r * c / 64) <= r * c. Proof. apply Nat.mul_div_le. lia. Qed.
Lemma n_packs32_ok r c : (zn (r * c) <= int_max)%Z -> n_packs32 r c = Ok (n_packs r c).
Proof. intros H. unfold n_packs32, size32. rewrite ck_ok by auto. cbn [bind]. apply ck_ok. assert (L := packs_le r c). unfold int_max in *. unfold n_packs. generalize dependent (r * c / 64). generalize dependent (r * c). intros s H q L.
  lia. Qed.
Lemma flat32_ok m i j : i < nr m -> j < nc m -> (zn (nr m * nc m) <= int_max)%Z -> flat32 m (zn i) (zn j) = Ok (flat m (zn i) (zn j)).
Proof.
  intros Hi Hj H. unfold flat32, ckz, flat. assert (L := flat_lt (nr m) (nc m) i j Hi Hj). rewrite <- Nat2Z.inj_mul, <- Nat2Z.inj_add. unfold int_min, int_max in *.
  replace ((-2147483648 <=? zn (i * nc m)) && (zn (i * nc m) <=? 2147483647))%Z with true by (symmetry; lia). cbn [bind]. rewrite <- Nat2Z.inj_add.
  now replace ((-2147483648 <=? zn (i * nc m + j)) && (zn (i * nc m + j) <=? 2147483647))%Z with true by (symmetry; lia).
Qed.
(* every size that an expression needs is an int *)
Fixpoint fits (e : xpr) : Prop :=
  (zn (size e) <= int_max)%Z /\ (zn (rows e) <= int_max)%Z /\ (zn (cols e) <= int_max)%Z /\
  match e with
  | XMat _ => True
  | XNot e | XBlock e _ _ _ _ | XRepeat e _ _ | XReshape e _ _ => fits e
  | XBin _ e1 e2 => fits e1 /\ fits e2
  end.
Lemma fits_size e : fits e -> (zn (size e) <= int_max)%Z /\ (zn (rows e) <= int_max)%Z /\ (zn (cols e) <= int_max)%Z.
Proof. destruct e; cbn [fits]; tauto. Qed.
Lemma wf_not e : wf (XNot e) -> wf e. Proof. intros [L B]. split; auto. Qed.
Lemma wf_block e sr sc br bc : wf (XBlock e sr sc br bc) -> wf e /\ sr + br <= rows e /\ sc + bc <= cols e.
Proof. intros [L B]. cbn [build] in B. apply bind_ok in B. destruct B as (v & B1 & B2). destruct v. apply assert_ok in B2. apply andb_prop in B2. destruct B2 as [X Y]. apply Nat.leb_le in X, Y. split; [split; auto|auto]. Qed.
Lemma wf_repeat e rr rc : wf (XRepeat e rr rc) -> wf e. Proof. intros [L B]. split; auto. Qed.
Lemma wf_reshape e r c : wf (XReshape e r c) -> wf e /\ r * c = rows e * cols e.
Proof. intros [L B]. cbn [build] in B. apply bind_ok in B. destruct B as (v & B1 & B2). destruct v. apply assert_ok in B2. apply Nat.eqb_eq in B2. split; [split; auto|auto]. Qed.
Lemma div_in p r c : p < r * c -> p / c < r /\ p mod c < c.
Proof. exact (size_block_pos_div p r c). Qed.

Lemma build32_ok e : wf e -> fits e -> build32 e = Ok tt.
Proof.
  induction e as [m|e IH|o e1 IH1 e2 IH2|e IH sr sc br bc|e IH rr rc|e IH r c]; intros W F; cbn [build32 fits] in *.
  - reflexivity.
  - destruct F as (F0 & F1 & F2 & F). rewrite IH by (auto using wf_not). cbn [bind]. change (size (XNot e)) with (rows e * cols e) in F0. rewrite n_packs32_ok by auto. reflexivity.
  - destruct F as (F0 & F1 & F2 & Fa & Fb). destruct (build_bin _ _ _ W) as (W1 & W2 & E1 & E2). rewrite IH1, IH2 by auto. cbn [bind]. change (size (XBin o e1 e2)) with (rows e1 * cols e1) in F0. rewrite n_packs32_ok by auto. cbn [bind]. rewrite E1, E2, !Nat.eqb_refl. reflexivity.
  - destruct F as (F0 & F1 & F2 & F). destruct (wf_block _ _ _ _ _ W) as (W' & R & C). destruct (fits_size e F) as (_ & Fr & Fc). rewrite IH by auto. cbn [bind]. change (size (XBlock e sr sc br bc)) with (br * bc) in F0. rewrite n_packs32_ok by auto. cbn [bind].
    rewrite !ck_ok by lia. cbn [bind]. rewrite (proj2 (Nat.leb_le _ _) R). cbn [bind assert_]. now rewrite (proj2 (Nat.leb_le _ _) C).
  - destruct F as (F0 & F1 & F2 & F). rewrite IH by (eauto using wf_repeat). cbn [bind]. cbn [rows cols] in F1, F2. rewrite (ck_ok _ F1), (ck_ok _ F2). cbn [bind]. change (size (XRepeat e rr rc)) with (rows e * rr * (cols e * rc)) in F0. rewrite n_packs32_ok by auto. reflexivity.
  - destruct F as (F0 & F1 & F2 & F). destruct (wf_reshape _ _ _ W) as (W' & E). rewrite IH by auto. cbn [bind]. change (size (XReshape e r c)) with (r * c) in F0. rewrite n_packs32_ok by auto. cbn [bind]. rewrite <- E, !ck_ok by auto. cbn [bind]. now rewrite Nat.eqb_refl.
Qed.
Lemma coeff32_ok e : wf e -> fits e -> forall i j, i < rows e -> j < cols e -> coeff32 e i j = coeff e i j.
Proof.
  induction e as [m|e IH|o e1 IH1 e2 IH2|e IH sr sc br bc|e IH rr rc|e IH r c]; intros W F i j Hi Hj; cbn [coeff32 coeff fits rows cols] in *.
  - unfold get32. rewrite flat32_ok by tauto. reflexivity.
  - destruct F as (F0 & F1 & F2 & F). rewrite IH by (auto using wf_not). reflexivity.
  - destruct F as (F0 & F1 & F2 & Fa & Fb). destruct (build_bin _ _ _ W) as (W1 & W2 & E1 & E2). rewrite IH1, IH2 by (auto; lia). reflexivity.
  - destruct F as (F0 & F1 & F2 & F). destruct (wf_block _ _ _ _ _ W) as (W' & R & C). destruct (fits_size e F) as (_ & Fr & Fc). destruct (assert_ _); cbn [bind]; auto. rewrite !ck_ok by lia. cbn [bind]. apply IH; auto; lia.
  - destruct F as (F0 & F1 & F2 & F). destruct (assert_ _); cbn [bind]; auto. apply IH; eauto using wf_repeat, mod_lt_size.
  - destruct F as (F0 & F1 & F2 & F). destruct (wf_reshape _ _ _ W) as (W' & E). destruct (assert_ _); cbn [bind]; auto. change (size (XReshape e r c)) with (r * c) in F0. assert (L := flat_lt r c i j Hi Hj). rewrite (ck_ok (i * c)) by lia. cbn [bind]. rewrite ck_ok by lia. cbn [bind].
    destruct (cols e =? 0) eqn:Z; auto. rewrite E in L. apply div_in in L. destruct L. apply IH; auto.
Qed.
(* the loop over the bits of a pack stops at the end of the matrix *)
Lemma foldM_ext {A B} (f g : A -> B -> Res A) l : (forall a b, In b l -> f a b = g a b) -> forall a, foldM f l a = foldM g l a.
Proof. induction l as [|b l IH]; intros H a; cbn [foldM]; auto. rewrite H by now left. destruct (g a b); cbn [bind]; auto. apply IH. intros; apply H; now right. Qed.
Lemma foldM_skip {A B} (f : A -> B -> Res A) l : (forall a b, In b l -> f a b = Ok a) -> forall a, foldM f l a = Ok a.
Proof. induction l as [|b l IH]; intros H a; cbn [foldM]; auto. rewrite H by now left. cbn [bind]. apply IH. intros; apply H; now right. Qed.
Lemma assemble32_eq r c k f g : (zn (r * c) <= int_max)%Z -> k * 64 <= r * c -> (forall j, j < 64 -> k * 64 + j < r * c -> f j = g j) ->
  assemble32 r c k f 64 0 0%N = assemble_pack (r * c) k g.
Proof.
  intros H Hk Hf. unfold assemble_pack. change (seq 0 64) with (seq 0 (0 + 64 - 0)).
  assert (G : forall todo j out, j + todo = 64 -> k * 64 + j <= r * c -> assemble32 r c k f todo j out =
    foldM (fun out j => if k * 64 + j <? r * c then b <- g j ;; Ok (N.lor out (N.shiftl (b2w b) (N.of_nat j))) else Ok out) (seq j todo) out).
  { induction todo as [|todo IH]; intros j out E L; cbn [assemble32 seq foldM]; auto. rewrite (ck_ok (k * 64)) by lia. cbn [bind]. rewrite (ck_ok (k * 64 + j)) by lia. cbn [bind]. unfold size32. rewrite ck_ok by auto. cbn [bind].
    destruct (k * 64 + j <? r * c) eqn:Q.
    - apply Nat.ltb_lt in Q. rewrite <- Hf by lia. destruct (f j) as [b| | |]; cbn [bind]; auto. apply IH; lia.
    - apply Nat.ltb_ge in Q. cbn [bind]. symmetry. apply foldM_skip. intros a b Hb. apply in_seq in Hb. now rewrite (proj2 (Nat.ltb_ge _ _)) by lia. }
  apply (G 64 0 0%N); lia.
Qed.
Lemma row_offset_range sr k bc : (zn (64 * k) <= int_max)%Z -> 1 <= bc -> (zn bc <= int_max)%Z -> (zn (sr + 64 * k / bc) <= int_max)%Z -> exists r, row_offset sr k bc = Ok r.
Proof.
  intros Hk H1 H2 H. unfold row_offset. fold (quot (zn k) (zn bc)). assert (T := quot_trunc (zn k) (zn bc) ltac:(lia) ltac:(lia) ltac:(lia)).
  change (64 * zn k)%Z with (zn 64 * zn k)%Z in T. rewrite <- Nat2Z.inj_mul, <- Nat2Z.inj_div, <- Nat2Z.inj_mod in T. assert (M := Nat.div_mod (64 * k) bc ltac:(lia)).
  set (z := (zn sr + Btrunc (quot (zn k) (zn bc)))%Z). assert (Z0 : (0 <= z <= int_max)%Z).
  { unfold z. destruct T as [-> |(T1 & T2 & ->)]; generalize dependent (64 * k / bc); intros q; [intros; lia|]. intros H M. replace ((64 * k) mod bc) with 0 in M by lia. destruct q; lia. }
  replace ((0 <=? z) && (z <=? int_max))%Z with true by (symmetry; lia). eauto.
Qed.
Lemma row_offset_exact sr k bc : (zn (64 * k) <= int_max)%Z -> 1 <= bc -> (zn bc <= int_max)%Z -> (zn (sr + 64 * k / bc) <= int_max)%Z ->
  k = 0 \/ 64 mod bc = 0 \/ (64 * k) mod bc <> 0 -> row_offset sr k bc = Ok (sr + 64 * k / bc).
Proof.
  intros Hk H1 H2 H C. unfold row_offset. fold (quot (zn k) (zn bc)). replace (Btrunc (quot (zn k) (zn bc))) with (zn (64 * k / bc)).
  - rewrite <- Nat2Z.inj_add. generalize dependent (sr + 64 * k / bc). intros q H. replace ((0 <=? zn q) && (zn q <=? int_max))%Z with true by (symmetry; lia). now rewrite Nat2Z.id.
  - rewrite Nat2Z.inj_div, Nat2Z.inj_mul. change (zn 64) with 64%Z. clear H. destruct (Nat.eq_dec (64 mod bc) 0) as [D|D].
    + symmetry. assert (D' : (64 mod zn bc = 0)%Z) by (change 64%Z with (zn 64); now rewrite <- Nat2Z.inj_mod, D). apply quot_pow2; auto; clear D' D C; lia.
    + destruct (quot_trunc (zn k) (zn bc) ltac:(lia) ltac:(lia) ltac:(lia)) as [E|(E & K & _)]; auto. exfalso. change (64 * zn k)%Z with (zn 64 * zn k)%Z in E. rewrite <- Nat2Z.inj_mul, <- Nat2Z.inj_mod in E. destruct C as [C|[C|C]]; [lia|auto|]. apply C. apply Nat2Z.inj. exact E.
Qed.
Lemma bitpack32_ok e : wf e -> fits e -> blocks_good e -> forall k, k * 64 <= size e -> bitpack32 e k = bitpack e k.
Proof.
  induction e as [m|e IH|o e1 IH1 e2 IH2|e IH sr sc br bc|e IH rr rc|e IH r c]; intros W F G k Hk; cbn [bitpack32 bitpack fits blocks_good] in *.
  - reflexivity.
  - destruct F as (F0 & F1 & F2 & F). rewrite IH; auto using wf_not.
  - destruct F as (F0 & F1 & F2 & Fa & Fb). destruct (build_bin _ _ _ W) as (W1 & W2 & E1 & E2). destruct G as [G1 G2]. assert (S : size e2 = size e1) by (unfold size; congruence). rewrite IH1, IH2; auto. rewrite S. exact Hk.
  - destruct F as (F0 & F1 & F2 & F). destruct (wf_block _ _ _ _ _ W) as (W' & R & C). destruct (fits_size e F) as (_ & Fr & Fc). change (size (XBlock e sr sc br bc)) with (br * bc) in *. cbn [rows cols] in F1, F2. assert (Hb : bc <> 0) by apply G. destruct (bc =? 0) eqn:Z; auto. clear Z.
    rewrite (ck_ok (k * 64)) by lia. set (o := if k =? 0 then 0 else bc - (bc - (k * 64) mod bc)).
    assert (Eo : (if k =? 0 then Ok 0 else p <- Ok (k * 64) ;; Ok (bc - (bc - p mod bc))) = Ok o) by (unfold o; destruct (k =? 0); reflexivity). rewrite Eo. cbn [bind].
    assert (Lo : o < bc). { assert (M := Nat.mod_upper_bound (k * 64) bc Hb). unfold o. destruct (k =? 0); lia. }
    rewrite (ck_ok (sc + o)) by lia. cbn [bind]. assert (Q : 64 * k / bc <= br) by (apply Nat.div_le_upper_bound; lia).
    destruct (Nat.eq_dec (k * 64) (br * bc)) as [E|E].
    + (* nothing but padding *)
      destruct (row_offset_range sr k bc) as (row & ->); try lia. cbn [bind]. apply assemble32_eq; auto. intros j Hj L. lia.
    + rewrite row_offset_exact; try lia.
      * cbn [bind]. rewrite (Nat.mul_comm 64 k). apply assemble32_eq; auto. intros j Hj L. destruct (block_index sr sc br bc k j G Hj L) as [I1 I2]. fold o in I2. rewrite I1, I2. destruct (div_in _ _ _ L) as [L1 L2].
        rewrite !ck_ok by lia. cbn [bind]. apply coeff32_ok; auto; lia.
      * destruct G as (_ & [G|[G|G]]); auto.
        -- left. nia.
        -- subst br. destruct (Nat.eq_dec k 0); auto. right; right. rewrite Nat.mod_small; lia.
  - destruct F as (F0 & F1 & F2 & F). change (size (XRepeat e rr rc)) with (rows e * rr * (cols e * rc)) in *. apply assemble32_eq; auto. intros j Hj L. assert (We := wf_repeat _ _ _ W).
    assert (rows e <> 0) by (intros Z; rewrite Z in L; lia). assert (cols e <> 0) by (intros Z; rewrite Z in L; lia). apply coeff32_ok; auto; apply Nat.mod_upper_bound; auto.
  - destruct F as (F0 & F1 & F2 & F). destruct (wf_reshape _ _ _ W) as (W' & E). apply IH; auto. change (size (XReshape e r c)) with (r * c) in Hk. rewrite E in Hk. exact Hk.
Qed.
Lemma bitpacks_le e k : wf e -> k < bitpacks e -> k * 64 <= size e.
Proof.
  intros W H. assert (B : bitpacks e = n_packs (rows e) (cols e)). { destruct e; auto. destruct W as [V _]. exact (proj1 V). } rewrite B in H. unfold n_packs in H. fold (size e) in H. assert (L := Nat.mul_div_le (size e) 64 ltac:(lia)). lia.
Qed.
Lemma mapM_ext {A B} (f g : A -> Res B) l : (forall a, In a l -> f a = g a) -> mapM f l = mapM g l.
Proof. induction l as [|a l IH]; intros H; cbn [mapM]; auto. rewrite H by now left. rewrite IH; auto. intros; apply H; now right. Qed.
Lemma materialize32_eq e : wf e -> fits e -> blocks_good e -> materialize32 e = materialize e.
Proof.
  intros W F G. unfold materialize32, materialize, copy_packs. rewrite (mapM_ext (bitpack32 e) (bitpack e)); auto. intros k Hk. apply in_seq in Hk. apply bitpack32_ok; auto. apply bitpacks_le; auto; lia.
Qed.
(* C204: expressions *)
Theorem C204_expressions e : wf e -> fits e -> build32 e = Ok tt /\ (forall i j, i < rows e -> j < cols e -> coeff32 e i j = Ok (den e i j)) /\
  (blocks_good e -> exists m, materialize32 e = Ok m /\ valid m /\ shows m (rows e) (cols e) (den e)).
Proof.
  intros W F. split; [now apply build32_ok|]. split.
  - intros i j Hi Hj. rewrite coeff32_ok by auto. now apply coeff_den.
  - intros G. rewrite materialize32_eq by auto. now apply materialize_ok.
Qed.

(* ---- histories of calls ---- *)
Lemma foldM_ext_inv {A B} (P : A -> Prop) (f g : A -> B -> Res A) l : (forall a b, P a -> In b l -> f a b = g a b) -> (forall a b a', P a -> In b l -> g a b = Ok a' -> P a') -> forall a, P a -> foldM f l a = foldM g l a.
Proof.
  induction l as [|b l IH]; intros H1 H2 a Pa; cbn [foldM]; auto. rewrite H1 by (auto; now left). destruct (g a b) as [a'| | |] eqn:E; cbn [bind]; auto.
  apply IH; [intros; apply H1; auto; now right|intros; eapply H2; eauto; now right|]. eapply H2; eauto. now left.
Qed.
Lemma set_shape m i j m' : set m i j = Ok m' -> nr m' = nr m /\ nc m' = nc m.
Proof. unfold set. destruct (assert_ _); cbn [bind]; try discriminate. destruct (_ <? 0)%Z; try discriminate. destruct (nth_res _ _); cbn [bind]; try discriminate. intros E. inversion E. split; reflexivity. Qed.
Lemma clear_shape m i j m' : clear m i j = Ok m' -> nr m' = nr m /\ nc m' = nc m.
Proof. unfold clear. destruct (assert_ _); cbn [bind]; try discriminate. destruct (_ <? 0)%Z; try discriminate. destruct (nth_res _ _); cbn [bind]; try discriminate. intros E. inversion E. split; reflexivity. Qed.
Lemma set32_eq m i j : (zn (nr m * nc m) <= int_max)%Z -> (0 <= i)%Z -> (0 <= j)%Z -> set32 m i j = set m i j /\ clear32 m i j = clear m i j.
Proof.
  intros H Hi Hj. unfold set32, clear32, set, clear. destruct ((i <? zn (nr m)) && (j <? zn (nc m)))%Z eqn:E; cbn [assert_ bind]; auto. apply andb_prop in E. destruct E as [E1 E2].
  replace i with (zn (Z.to_nat i)) by lia. replace j with (zn (Z.to_nat j)) by lia. rewrite flat32_ok by lia. split; reflexivity.
Qed.
(* the arguments of a call are ints which are not negative, and so is the size of the block it names *)
Definition op_fits (o : mop) : Prop :=
  match o with
  | MSet i j | MClear i j => (0 <= i <= int_max /\ 0 <= j <= int_max)%Z
  | MBlockSet sr sc br bc | MBlockClear sr sc br bc => (zn (sr + br) <= int_max /\ zn (sc + bc) <= int_max /\ zn (br * bc) <= int_max)%Z
  end.
Lemma block32_eq m sr sc br bc : (zn (nr m * nc m) <= int_max)%Z -> (zn (sr + br) <= int_max)%Z -> (zn (sc + bc) <= int_max)%Z ->
  block_set32 m sr sc br bc = block_set m sr sc br bc /\ block_clear32 m sr sc br bc = block_clear m sr sc br bc.
Proof.
  intros H H1 H2. unfold block_set32, block_set, block_clear32, block_clear. split; (apply foldM_ext_inv with (P := fun m' => nr m' = nr m /\ nc m' = nc m); [| |split; reflexivity]).
  - intros a [x y] [E1 E2] Hxy. apply in_coords in Hxy. cbn [fst snd]. rewrite !ck_ok by lia. cbn [bind]. assert (Z : (zn (nr a * nc a) <= int_max)%Z) by (cbn beta in *; congruence). apply set32_eq; auto; lia.
  - intros a b a' [E1 E2] _ E. apply set_shape in E. lia.
  - intros a [x y] [E1 E2] Hxy. apply in_coords in Hxy. cbn [fst snd]. rewrite !ck_ok by lia. cbn [bind]. assert (Z : (zn (nr a * nc a) <= int_max)%Z) by (cbn beta in *; congruence). apply set32_eq; auto; lia.
  - intros a b a' [E1 E2] _ E. apply clear_shape in E. lia.
Qed.
Lemma mcall32_eq m o : (zn (nr m * nc m) <= int_max)%Z -> op_fits o -> mcall32 m o = mcall m o.
Proof.
  intros H F. destruct o as [i j|i j|sr sc br bc|sr sc br bc]; cbn [mcall32 mcall op_fits] in *.
  - apply set32_eq; lia.
  - apply set32_eq; lia.
  - destruct F as (F1 & F2 & F3). cbn [build32]. rewrite n_packs32_ok by auto. cbn [bind]. rewrite !ck_ok by auto. cbn [bind rows cols]. destruct (sr + br <=? nr m) eqn:E1; cbn [assert_ bind andb]; auto. destruct (sc + bc <=? nc m) eqn:E2; cbn [assert_ bind]; auto. apply block32_eq; auto.
  - destruct F as (F1 & F2 & F3). cbn [build32]. rewrite n_packs32_ok by auto. cbn [bind]. rewrite !ck_ok by auto. cbn [bind rows cols]. destruct (sr + br <=? nr m) eqn:E1; cbn [assert_ bind andb]; auto. destruct (sc + bc <=? nc m) eqn:E2; cbn [assert_ bind]; auto. apply block32_eq; auto.
Qed.
Lemma op_fits_nonneg o : op_fits o -> nonneg_op o. Proof. destruct o; cbn; lia. Qed.
(* C204: any history of calls on a matrix whose size is an int *)
Theorem C204_history_partial r c ops : (zn (r * c) <= int_max)%Z -> Forall op_fits ops ->
  exists m0 m, zero32 r c = Ok m0 /\ mrun32 m0 ops = Ok m /\ valid m /\ shows m r c (fold_left (spec_op r c) ops (fun _ _ => false)).
Proof.
  intros H Ho. exists (bm_zero r c). assert (G : forall ops m f, valid m -> shows m r c f -> Forall op_fits ops -> mrun32 m ops = mrun m ops).
  { clear ops Ho. induction ops as [|o ops IH]; intros m f V S Ho; cbn [mrun32 mrun]; auto. inversion Ho as [|? ? O1 O2]; subst. assert (S' := S). destruct S' as (Er & Ec & _). rewrite mcall32_eq by (auto; now rewrite Er, Ec).
    assert (M := mcall_spec m o r c f V S (op_fits_nonneg o O1)). destruct (mcall m o) as [m'| | |]; auto; destruct M; eauto. }
  destruct (mrun_spec ops (bm_zero r c) r c _ (bm_zero_valid r c) (bm_zero_shows r c)) as (m & E & V & S). { eapply Forall_impl; [|exact Ho]. apply op_fits_nonneg. }
  exists m. split; [unfold zero32; now rewrite n_packs32_ok|]. split; auto. erewrite G; eauto using bm_zero_valid, bm_zero_shows.
Qed.
(* C204 refuted: a matrix whose dimensions are ints, but whose size is not, cannot be built *)
Theorem C204_size_refuted : (forall r c, (int_max < zn r * zn c)%Z -> zero32 r c = UB) /\ exists r, (zn r = 46341 /\ zn r <= int_max)%Z /\ zero32 r r = UB.
Proof.
  assert (G : forall r c, (int_max < zn r * zn c)%Z -> zero32 r c = UB). { intros r c H. unfold zero32, n_packs32, size32. rewrite ck_ub; [reflexivity|]. lia. }
  split; auto. exists (Z.to_nat 46341). rewrite Z2Nat.id by lia. split; [unfold int_max; lia|]. apply G. rewrite Z2Nat.id by lia. reflexivity.
Qed.

(* ---- all, any and count ---- *)
Lemma visit32_eq V e : wf e -> fits e -> blocks_good e -> (zn (size e) + 64 <= int_max)%Z -> forall fuel k res, k * 64 <= size e -> visit32 V e (size e) fuel k (k * 64) res = visit_packs V e fuel k (k * 64) res.
Proof.
  intros W F G Hs. induction fuel as [|fuel IH]; intros k res Hk; cbn [visit32 visit_packs]; rewrite ck_ok by lia; cbn [bind]; (destruct (k * 64 + 64 - 1 <? size e) eqn:E; auto).
  - rewrite bitpack32_ok; auto.
  - rewrite bitpack32_ok by auto. destruct (bitpack e k) as [w| | |]; cbn [bind]; auto. destruct (v_stop V _); auto. apply Nat.ltb_lt in E. replace (k * 64 + 64) with (S k * 64) by lia. apply IH. lia.
  - rewrite bitpack32_ok; auto.
Qed.
Lemma pack_visit32_eq V e res : wf e -> fits e -> blocks_good e -> (zn (size e) + 64 <= int_max)%Z -> pack_visit32 V e res = pack_visit V e res.
Proof.
  intros W F G Hs. unfold pack_visit32, pack_visit, size32. fold (size e). rewrite ck_ok by lia. cbn [bind]. destruct (size e =? 0) eqn:Z; auto. destruct (size e <? 64) eqn:Z'.
  - rewrite bitpack32_ok by (auto; lia). reflexivity.
  - apply (visit32_eq V e W F G Hs (size e) 0 res). lia.
Qed.
Lemma count32_eq e : wf e -> fits e -> blocks_good e -> (zn (size e) + 64 <= int_max)%Z -> count32 e = count e.
Proof.
  intros W F G Hs. unfold count32, count, size32. fold (size e). rewrite ck_ok by lia. cbn [bind]. destruct (size e =? 0) eqn:Z; auto. f_equal.
  apply foldM_ext_inv with (P := fun st => fst st <= size e); [| |cbn; lia].
  - intros [i acc] k Hi Hk. cbn [fst] in Hi. apply in_seq in Hk. rewrite bitpack32_ok by (auto; apply bitpacks_le; auto; lia). destruct (bitpack e k); cbn [bind]; auto. rewrite ck_ok by lia. reflexivity.
  - intros [i acc] k [i' acc'] Hi Hk E. cbn [fst] in *. destruct (bitpack e k); cbn [bind] in E; try discriminate. destruct (i + 64 <? size e) eqn:L; apply (f_equal (fun r => match r with Ok st => fst st | _ => 0 end)) in E; cbn [fst] in E; [apply Nat.ltb_lt in L|]; lia.
Qed.
(* C204: all(), any() and count() find what they find with unbounded ints (C05, C06, C07), if the size leaves room for one more pack *)
Theorem C204_visitors_partial e : wf e -> fits e -> blocks_good e -> (zn (size e) + 64 <= int_max)%Z ->
  all32 e = all_ e /\ any32 e = any_ e /\ count32 e = Ok (count_occ Bool.bool_dec (coeffs e) true).
Proof.
  intros W F G Hs. split; [now apply pack_visit32_eq|]. split; [now apply pack_visit32_eq|]. rewrite count32_eq by auto. rewrite (count_ok e (packs_ok e W G)). f_equal. apply count_coeffs.
Qed.
(* C204 refuted: with a size within 64 of the largest int count() overflows *)
Theorem C204_count_refuted e : wf e -> fits e -> blocks_good e -> (int_max < zn (size e / 64 * 64) + 64)%Z -> count32 e = UB.
Proof.
  intros W F G Hs. destruct (fits_size e F) as (F0 & _). unfold count32, size32. fold (size e). rewrite ck_ok by auto. cbn [bind]. assert (Z : size e <> 0). { intros Z. rewrite Z in Hs. cbn in Hs. unfold int_max in Hs. lia. } rewrite (proj2 (Nat.eqb_neq _ _) Z).
  assert (B := packs_ok e W G). destruct B as (B1 & B2). assert (EB : bitpacks e = size e / 64 + 1) by (rewrite B1; unfold n_packs; fold (size e); lia). rewrite EB. assert (DM := Nat.div_mod (size e) 64 ltac:(lia)). assert (MB := Nat.mod_upper_bound (size e) 64 ltac:(lia)).
  rewrite seq_app. set (step := fun (st : nat * nat) (k : nat) => _).
  assert (H : forall k, k <= size e / 64 -> exists acc, foldM step (seq 0 k) (0, 0) = Ok (k * 64, acc)).
  { induction k as [|k IH]; intros Hk; [exists 0; reflexivity|]. destruct IH as (acc & E); [lia|]. rewrite seq_S, foldM_app, E. cbn [bind foldM plus]. unfold step at 1. destruct (B2 k) as (w & Ew & _); [lia|]. rewrite bitpack32_ok by (auto; lia). rewrite Ew. cbn [bind]. rewrite ck_ok by lia. cbn [bind].
    destruct (k * 64 + 64 <? size e) eqn:L; cbn [bind].
    - eexists. f_equal. f_equal. lia.
    - eexists. f_equal. f_equal. apply Nat.ltb_ge in L. lia. }
  destruct (H (size e / 64)) as (acc & E); [lia|]. rewrite foldM_app, E. cbn [bind seq foldM plus]. unfold step. destruct (B2 (size e / 64)) as (w & Ew & _); [lia|]. rewrite bitpack32_ok by (auto; lia). rewrite Ew. cbn [bind]. rewrite ck_ub by lia. reflexivity.
Qed.
(* where the row of a bitpack is off: 49 columns, pack 49 *)
Theorem C204_row_offset_refuted : exists k bc, (64 * k) mod bc = 0 /\ row_offset 0 k bc = Ok 63 /\ 64 * k / bc = 64.
Proof. exists 49, 49. split; [reflexivity|]. split; vm_compute; reflexivity. Qed.
(* a large matrix, its column and its complement *)
Example C204_example : forall m, valid m -> nr m = 1000 -> (zn (nc m) = 2000000)%Z -> let e := XNot (XBlock (XMat m) 0 7 1000 1) in wf e /\ fits e /\ blocks_good e /\ (zn (size e) + 64 <= int_max)%Z /\ fits (XMat m).
Proof.
  intros m V Er Ec. cbv zeta. assert (Fm : fits (XMat m)). { cbn [fits]. unfold size. cbn [rows cols]. rewrite Nat2Z.inj_mul, Ec, Er. unfold int_max. split; [|split; [|split]]; auto; lia. }
  assert (S1 : size (XNot (XBlock (XMat m) 0 7 1000 1)) = 1000 * 1) by reflexivity.
  split; [split; [exact V|]|]. { cbn [build bind rows cols]. apply assert_ok. rewrite Er. apply andb_true_intro. split; apply Nat.leb_le; lia. }
  split; [|split; [|split; [|exact Fm]]].
  - cbn [fits]. unfold int_max. change (size (XNot (XBlock (XMat m) 0 7 1000 1))) with (1000 * 1). change (size (XBlock (XMat m) 0 7 1000 1)) with (1000 * 1). cbn [rows cols]. repeat (split; [lia|]). exact Fm.
  - cbn [blocks_good]. split; [lia|]. right; right. reflexivity.
  - rewrite S1. unfold int_max. lia.
Qed.
Print Assumptions C204_expressions.
Print Assumptions C204_history_partial.
Print Assumptions C204_visitors_partial.
Print Assumptions C204_count_refuted.
