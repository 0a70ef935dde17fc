(* C218: point location through the k-d tree (TreeSearch) in double precision. *)
From Coq Require Import Reals Lra Lia List Bool ZArith QArith Qreals Permutation FunctionalExtensionality.
From Flocq Require Import Core IEEE754.BinarySingleNaN.
From Verif Require TreeProofs SimplexModel FloatCellModel FloatCell.
From Verif Require Import Base TreeModel TreeSpec KdModel KdSpec KdProofs KdProps SymbolsModel SymbolsProps FloatModel FloatProps FloatSearch FloatSplineModel FloatSpline FloatKdModel.
Import ListNotations.
Open Scope R_scope.

#[local] Instance vfexp8 : Valid_exp (SpecFloat.fexp 53 1024) := @fexp_correct 53 1024 prec64.

(* ------------------------------------------------------------------ the order of the doubles other than NaN, in the rationals *)
Definition num (x : double) : bool := negb (is_nan x).
Definition val (x : double) : R := match x with B754_infinity s => if s then - bpow radix2 1024 else bpow radix2 1024 | _ => B2 x end.
Definition toQ (x : double) : Q :=
  match x with
  | B754_infinity s => inject_Z (if s then - 2 ^ 1024 else 2 ^ 1024)
  | B754_finite s m e _ => if (0 <=? e)%Z then inject_Z (cond_Zopp s (Zpos m) * 2 ^ e) else Qmake (cond_Zopp s (Zpos m)) (Z.to_pos (2 ^ (- e)))
  | _ => 0%Q
  end.
Lemma pow_bpow e : (0 <= e)%Z -> IZR (2 ^ e) = bpow radix2 e.
Proof. intros H. rewrite <- IZR_Zpower by lia. reflexivity. Qed.
Lemma Q2R_inject z : Q2R (inject_Z z) = IZR z.
Proof. unfold Q2R, inject_Z. cbn. field. Qed.
Lemma toQ_val x : Q2R (toQ x) = val x.
Proof.
  destruct x as [s|s| |s m e H]; cbn [toQ val].
  - unfold Q2R; cbn; lra.
  - rewrite Q2R_inject. destruct s; [rewrite opp_IZR|]; rewrite pow_bpow by lia; reflexivity.
  - unfold Q2R; cbn; lra.
  - destruct (Z.leb_spec 0 e) as [L|L].
    + rewrite Q2R_inject, mult_IZR, pow_bpow by lia. reflexivity.
    + unfold Q2R. cbn [Qnum Qden]. rewrite Z2Pos.id by (apply Z.pow_pos_nonneg; lia). rewrite pow_bpow by lia. rewrite bpow_opp, Rinv_inv. reflexivity.
Qed.
Lemma val_fin x : fin x = true -> val x = B2 x. Proof. destruct x; try reflexivity; discriminate. Qed.
Lemma fin_range (x : double) : fin x = true -> - bpow radix2 1024 < B2 x < bpow radix2 1024.
Proof. intros _. assert (H := abs_B2R_lt_emax 53 1024 x). apply Rabs_lt_inv in H. exact H. Qed.
Lemma big_pos : 0 < bpow radix2 1024. Proof. apply bpow_gt_0. Qed.
Lemma dlt_val x y : num x = true -> num y = true -> dlt x y = true <-> val x < val y.
Proof.
  intros Nx Ny. assert (P := big_pos). destruct (fin x) eqn:Fx, (fin y) eqn:Fy.
  - rewrite dlt_fin, !val_fin by auto. tauto.
  - rewrite (val_fin x) by auto. assert (Hx := fin_range x Fx). destruct y as [|s| |]; try discriminate; cbn [val]. set (b := bpow radix2 1024) in *. clearbody b. set (r := B2 x) in *. clearbody r.
    destruct s; split; intros H; try lra; destruct x as [?|?| |[] ? ? ?]; discriminate || reflexivity.
  - rewrite (val_fin y) by auto. assert (Hy := fin_range y Fy). destruct x as [|s| |]; try discriminate; cbn [val]. set (b := bpow radix2 1024) in *. clearbody b. set (r := B2 y) in *. clearbody r.
    destruct s; split; intros H; try lra; destruct y as [?|?| |[] ? ? ?]; discriminate || reflexivity.
  - destruct x as [|s| |]; try discriminate; destruct y as [|s'| |]; try discriminate; cbn [val]. set (b := bpow radix2 1024) in *. clearbody b. destruct s, s'; split; intros H; try lra; discriminate || reflexivity.
Qed.
Lemma dle_val x y : num x = true -> num y = true -> dle x y = true <-> val x <= val y.
Proof.
  intros Nx Ny. assert (P := big_pos). destruct (fin x) eqn:Fx, (fin y) eqn:Fy.
  - rewrite dle_fin, !val_fin by auto. tauto.
  - rewrite (val_fin x) by auto. assert (Hx := fin_range x Fx). destruct y as [|s| |]; try discriminate; cbn [val]. set (b := bpow radix2 1024) in *. clearbody b. set (r := B2 x) in *. clearbody r.
    destruct s; split; intros H; try lra; destruct x as [?|?| |[] ? ? ?]; discriminate || reflexivity.
  - rewrite (val_fin y) by auto. assert (Hy := fin_range y Fy). destruct x as [|s| |]; try discriminate; cbn [val]. set (b := bpow radix2 1024) in *. clearbody b. set (r := B2 y) in *. clearbody r.
    destruct s; split; intros H; try lra; destruct y as [?|?| |[] ? ? ?]; discriminate || reflexivity.
  - destruct x as [|s| |]; try discriminate; destruct y as [|s'| |]; try discriminate; cbn [val]. set (b := bpow radix2 1024) in *. clearbody b. destruct s, s'; split; intros H; try lra; discriminate || reflexivity.
Qed.
Lemma dlt_Q x y : num x = true -> num y = true -> dlt x y = qlt (toQ x) (toQ y).
Proof.
  intros Nx Ny. apply eq_iff_eq_true. rewrite dlt_val, qlt_iff, <- !toQ_val by auto. split; [apply Rlt_Qlt|apply Qlt_Rlt].
Qed.
Lemma dle_Q x y : num x = true -> num y = true -> dle x y = qle (toQ x) (toQ y).
Proof.
  intros Nx Ny. apply eq_iff_eq_true. rewrite dle_val, <- !toQ_val by auto. unfold qle. rewrite Qle_bool_iff. split; [apply Rle_Qle|apply Qle_Rle].
Qed.

(* ------------------------------------------------------------------ transfer of the tree and of the range search *)
Section Transfer.
Variables (K : nat) (data : nat -> dvec) (q : nat -> KdModel.point).
Hypothesis HK : (0 < K)%nat.
Hypothesis Hq : forall i j d, (d < K)%nat -> dlt (data i d) (data j d) = qlt (q i d) (q j d).
Lemma less_transfer : f_kd_less K data = kd_less K q.
Proof. extensionality i. extensionality d. extensionality j. unfold f_kd_less, kd_less. apply Hq. apply Nat.mod_upper_bound. lia. Qed.
Lemma build_transfer ne : forall fuel h o ids dim stack, f_build_loop K data ne fuel h o ids dim stack = build_loop K q ne fuel h o ids dim stack.
Proof.
  induction fuel as [|fuel IH]; intros h o ids dim [|ps stack]; try reflexivity. cbn [f_build_loop build_loop]. rewrite less_transfer.
  destruct (nth_res _ _); cbn [bind]; auto. destruct (push _ _ _ _ _); cbn [bind]; auto.
Qed.
Lemma kd_build_transfer ne n h : f_kd_build K data ne n h = kd_build K q ne n h.
Proof. apply build_transfer. Qed.
Variables (ll ur : dvec) (lq uq : KdModel.point).
Hypothesis Hll : forall i d, (d < K)%nat -> dlt (data i d) (ll d) = qlt (q i d) (lq d) /\ dle (ll d) (data i d) = qle (lq d) (q i d).
Hypothesis Hur : forall i d, (d < K)%nat -> dlt (ur d) (data i d) = qlt (uq d) (q i d) /\ dle (data i d) (ur d) = qle (q i d) (uq d).
Lemma contained_transfer i : forall k d, (d + k <= K)%nat -> f_contained_from k d ll ur (data i) = contained_from k d lq uq (q i).
Proof.
  induction k as [|k IH]; intros d Hd; [reflexivity|]. cbn [f_contained_from contained_from]. rewrite (proj1 (Hll i d ltac:(lia))), (proj1 (Hur i d ltac:(lia))), IH by lia. reflexivity.
Qed.
Lemma range_transfer h : forall fuel stack res, f_range_loop K data h ll ur fuel stack res = range_loop K q h lq uq fuel stack res.
Proof.
  induction fuel as [|fuel IH]; intros [|it stack] res; try reflexivity. cbn [f_range_loop range_loop]. destruct (deref h it) as [n| | |]; cbn [bind]; auto.
  assert (D : (ndepth n mod K < K)%nat) by (apply Nat.mod_upper_bound; lia). unfold f_contained, contained. rewrite contained_transfer by lia. rewrite (proj2 (Hll (ndata n) _ D)), (proj2 (Hur (ndata n) _ D)). apply IH.
Qed.
End Transfer.
(* the doubles in every row, of the box and of the query, are numbers: candidates are the rows in the query box *)
Lemma f_range_ok K (data : nat -> dvec) ne n h (ll ur : dvec) fuel : (0 < K)%nat -> (0 < n)%nat -> (n <= fuel)%nat -> rearranges ne -> sane h ->
  (forall i d, (d < K)%nat -> num (data i d) = true) -> (forall d, (d < K)%nat -> num (ll d) = true /\ num (ur d) = true) ->
  exists h' o ids, f_kd_build K data ne n h = Ok (h', o) /\ f_range_search K data h' o fuel ll ur = Ok ids /\ NoDup ids /\
    (forall i, In i ids <-> (i < n)%nat /\ forall d, (d < K)%nat -> dle (ll d) (data i d) = true /\ dle (data i d) (ur d) = true).
Proof.
  intros HK Hn Hf Hne Hs Hd Hb. set (q := fun i d => toQ (data i d)). set (lq := fun d => toQ (ll d)). set (uq := fun d => toQ (ur d)).
  assert (T1 : forall i j d, (d < K)%nat -> dlt (data i d) (data j d) = qlt (q i d) (q j d)) by (intros; apply dlt_Q; auto).
  assert (T2 : forall i d, (d < K)%nat -> dlt (data i d) (ll d) = qlt (q i d) (lq d) /\ dle (ll d) (data i d) = qle (lq d) (q i d)) by (intros i d H; destruct (Hb d H); split; [apply dlt_Q|apply dle_Q]; auto).
  assert (T3 : forall i d, (d < K)%nat -> dlt (ur d) (data i d) = qlt (uq d) (q i d) /\ dle (data i d) (ur d) = qle (q i d) (uq d)) by (intros i d H; destruct (Hb d H); split; [apply dlt_Q|apply dle_Q]; auto).
  destruct (kd_range_search K q ne n h lq uq fuel) as (h' & o & ids & A & B & C & D); auto.
  exists h', o, ids. rewrite (kd_build_transfer K data q HK T1). unfold f_range_search. rewrite (range_transfer K data q HK T1 ll ur lq uq T2 T3). split; [exact A|]. split; [exact B|]. split; [exact C|].
  intros i. rewrite D. apply and_iff_compat_l. unfold in_box. split; intros H d L.
  - rewrite (proj2 (T2 i d L)), (proj2 (T3 i d L)). unfold qle. rewrite !Qle_bool_iff. now apply H.
  - destruct (H d L) as [X Y]. rewrite (proj2 (T2 i d L)) in X. rewrite (proj2 (T3 i d L)) in Y. unfold qle in X, Y. rewrite Qle_bool_iff in X, Y. auto.
Qed.

(* ------------------------------------------------------------------ the scaling *)
Definition half_ulp : double := dbl 1 (-53).
Lemma rnd_tie : rnd (1 + u) = 1.
Proof.
  destruct (B2_dbl 1 (-53)) as [F E]; [reflexivity|lia|]. destruct d1_ok as [F1 E1].
  assert (A : dadd d1 half_ulp = d1) by (apply B2SF_inj; vm_compute; reflexivity). assert (G : fin (dadd d1 half_ulp) = true) by now rewrite A.
  destruct (dadd_fin d1 half_ulp G) as (_ & _ & H). rewrite A in H. rewrite E1 in H. change (B2 half_ulp) with (B2 (dbl 1 (-53))) in H. rewrite E in H. etransitivity; [|symmetry; exact H]. f_equal. f_equal. rewrite u_small. cbn. lra.
Qed.
Definition wide (lo hi : double) : Prop := fin lo = true /\ fin hi = true /\ Rabs (B2 lo) <= bpow radix2 500 /\ Rabs (B2 hi) <= bpow radix2 500 /\ bpow radix2 (-500) <= B2 hi - B2 lo.
Lemma bpow_dbl e : bpow radix2 e + bpow radix2 e = bpow radix2 (e + 1).
Proof. rewrite bpow_plus. change (bpow radix2 1) with 2. lra. Qed.
Lemma dsub_range lo hi x : wide lo hi -> fin x = true -> B2 lo <= B2 x <= B2 hi -> fin (dsub x lo) = true /\ B2 (dsub x lo) = rnd (B2 x - B2 lo).
Proof.
  intros (F1 & F2 & A & B & C) Fx H. destruct (dsub_ok x lo 501 ltac:(lia) Fx F1) as (G & E & _); [|auto]. apply Rabs_le_inv in A. apply Rabs_le_inv in B. change 501%Z with (500 + 1)%Z. rewrite <- bpow_dbl. apply Rabs_le. lra.
Qed.
Lemma gap_ok lo hi : wide lo hi -> fin (dsub hi lo) = true /\ B2 (dsub hi lo) = rnd (B2 hi - B2 lo) /\ bpow radix2 (-501) <= B2 (dsub hi lo) <= bpow radix2 501.
Proof.
  intros W. assert (W' := W). destruct W' as (F1 & F2 & A & B & C). assert (P := bpow_gt_0 radix2 (-500)). destruct (dsub_range lo hi hi W F2 ltac:(lra)) as [F E]. split; auto. split; auto. rewrite E. split.
  - apply Rle_trans with (rnd (bpow radix2 (-501))); [rewrite rnd_bpow by lia; lra|]. apply rnd_le. apply Rle_trans with (2 := C). apply bpow_le. lia.
  - rewrite <- (rnd_bpow 501) by lia. apply rnd_le. apply Rabs_le_inv in A. apply Rabs_le_inv in B. change 501%Z with (500 + 1)%Z. rewrite <- bpow_dbl. lra.
Qed.
Definition scale1 (lo hi x : double) : double := dmul (dsub x lo) (ddiv d1 (dsub hi lo)).
Lemma scale_ok lo hi x : wide lo hi -> fin x = true -> B2 lo <= B2 x <= B2 hi ->
  fin (scale1 lo hi x) = true /\ B2 (scale1 lo hi x) = rnd (rnd (B2 x - B2 lo) * B2 (ddiv d1 (dsub hi lo))) /\ 0 <= B2 (scale1 lo hi x) <= 1.
Proof.
  intros W Fx H. destruct (dsub_range lo hi x W Fx H) as [F E]. destruct (gap_ok lo hi W) as (Fg & Eg & Rg). destruct (recip_fin _ Fg Rg) as (Fc & Rc & Dc).
  set (c := ddiv d1 (dsub hi lo)) in *. set (g := B2 (dsub hi lo)) in *. assert (P := bpow_gt_0 radix2 (-501)). assert (Pg : 0 < g) by lra.
  assert (Px : 0 <= rnd (B2 x - B2 lo)) by (apply rnd_pos; lra). assert (Lx : rnd (B2 x - B2 lo) <= g) by (rewrite Eg; apply rnd_le; lra).
  assert (Pc : rnd (B2 x - B2 lo) * B2 c <= 1 + u).
  { apply Rle_trans with (g * B2 c); [apply Rmult_le_compat_r; lra|]. apply Rle_trans with (g * (/ g + u * / g)); [apply Rmult_le_compat_l; [lra|]|right; field; lra]. apply Rabs_le_inv in Dc. lra. }
  assert (Qc : 0 <= rnd (B2 x - B2 lo) * B2 c) by (apply Rmult_le_pos; lra).
  destruct (dmul_ok (dsub x lo) c 1 ltac:(lia) F Fc) as [Fm Em]. { rewrite E, Rabs_pos_eq by auto. change (bpow radix2 1) with 2. assert (U := u_small). lra. }
  rewrite E in Em. unfold scale1. fold c. split; [exact Fm|]. split; [exact Em|]. rewrite Em. split; [now apply rnd_pos|]. rewrite <- rnd_tie. now apply rnd_le.
Qed.
Lemma scale_mono lo hi x y : wide lo hi -> fin x = true -> fin y = true -> B2 lo <= B2 x -> B2 x <= B2 y -> B2 y <= B2 hi -> B2 (scale1 lo hi x) <= B2 (scale1 lo hi y).
Proof.
  intros W Fx Fy A B C. destruct (scale_ok lo hi x W Fx ltac:(lra)) as (_ & -> & _). destruct (scale_ok lo hi y W Fy ltac:(lra)) as (_ & -> & _). destruct (gap_ok lo hi W) as (Fg & Eg & Rg). destruct (recip_fin _ Fg Rg) as (Fc & Rc & Dc).
  apply rnd_le. apply Rmult_le_compat_r; [lra|]. apply rnd_le. lra.
Qed.
Lemma overflow_notnan (x : double) s : B2SF x = binary_overflow 53 1024 mode_NE s -> negb (is_nan x) = true.
Proof. destruct x; intros H; [reflexivity|reflexivity|destruct s; discriminate|reflexivity]. Qed.
Lemma num_fin x : fin x = true -> num x = true. Proof. destruct x; auto; discriminate. Qed.
Lemma scale_num lo hi x : wide lo hi -> num x = true -> num (scale1 lo hi x) = true.
Proof.
  intros W Nx. destruct (gap_ok lo hi W) as (Fg & Eg & Rg). destruct (recip_fin _ Fg Rg) as (Fc & Rc & _). unfold scale1. set (c := ddiv d1 (dsub hi lo)) in *. destruct W as (Fl & _).
  assert (Nd : num (dsub x lo) = true).
  { destruct x as [s|s| |s m e Hx], lo as [s'|s'| |s' m' e' Hl]; try discriminate; try reflexivity.
    - destruct s, s'; reflexivity.
    - unfold num. assert (H := @Bminus_correct 53 1024 prec64 emax64 mode_NE (B754_finite s m e Hx) (B754_finite s' m' e' Hl) eq_refl eq_refl). fold (dsub (B754_finite s m e Hx) (B754_finite s' m' e' Hl)) in H. destruct (Rlt_bool _ _).
      + destruct H as (_ & H & _). now apply num_fin in H.
      + destruct H as (H & _). apply overflow_notnan in H. exact H. }
  destruct (fin (dsub x lo)) eqn:Fd.
  - unfold num. assert (H := @Bmult_correct 53 1024 prec64 emax64 mode_NE (dsub x lo) c). fold (dmul (dsub x lo) c) in H. destruct (Rlt_bool _ _).
    + destruct H as (_ & H & _). rewrite Fd, Fc in H. now apply num_fin in H.
    + apply overflow_notnan in H. exact H.
  - destruct (dsub x lo) as [|s| |]; try discriminate. destruct c as [s'| | |s' m' e' Hc]; try discriminate; [cbn in Rc; lra|reflexivity].
Qed.

(* ------------------------------------------------------------------ bounding boxes *)
Lemma fmin_ok (l : list double) : forall x : double, fin x = true -> Forall (fun y : double => fin y = true) l ->
  fin (f_fold_min x l) = true /\ In (f_fold_min x l) (x :: l) /\ forall y : double, In y (x :: l) -> B2 (f_fold_min x l) <= B2 y.
Proof.
  induction l as [|y l IH]; intros x Fx Hl; cbn [f_fold_min].
  - split; [exact Fx|]. split; [now left|]. intros y [<-|[]]. lra.
  - inversion Hl as [|? ? Fy Hl']; subst. assert (Fm : fin (if dlt y x then y else x) = true) by (destruct (dlt y x); auto). destruct (IH _ Fm Hl') as (A & B & C). split; [exact A|]. split.
    + destruct B as [B|B]; [destruct (dlt y x); [right; left|left]; exact B|right; right; exact B].
    + assert (L : B2 (f_fold_min (if dlt y x then y else x) l) <= B2 x /\ B2 (f_fold_min (if dlt y x then y else x) l) <= B2 y).
      { assert (C0 := C _ (or_introl eq_refl)). destruct (dlt y x) eqn:E. - apply dlt_fin in E; auto. lra. - assert (N : ~ B2 y < B2 x) by (intros N; apply dlt_fin in N; auto; congruence). lra. }
      intros z [<-|[<-|Hz]]; [apply L|apply L|apply C; now right].
Qed.
Lemma fmax_ok (l : list double) : forall x : double, fin x = true -> Forall (fun y : double => fin y = true) l ->
  fin (f_fold_max x l) = true /\ In (f_fold_max x l) (x :: l) /\ forall y : double, In y (x :: l) -> B2 y <= B2 (f_fold_max x l).
Proof.
  induction l as [|y l IH]; intros x Fx Hl; cbn [f_fold_max].
  - split; [exact Fx|]. split; [now left|]. intros y [<-|[]]. lra.
  - inversion Hl as [|? ? Fy Hl']; subst. assert (Fm : fin (if dlt x y then y else x) = true) by (destruct (dlt x y); auto). destruct (IH _ Fm Hl') as (A & B & C). split; [exact A|]. split.
    + destruct B as [B|B]; [destruct (dlt x y); [right; left|left]; exact B|right; right; exact B].
    + assert (L : B2 x <= B2 (f_fold_max (if dlt x y then y else x) l) /\ B2 y <= B2 (f_fold_max (if dlt x y then y else x) l)).
      { assert (C0 := C _ (or_introl eq_refl)). destruct (dlt x y) eqn:E. - apply dlt_fin in E; auto. lra. - assert (N : ~ B2 x < B2 y) by (intros N; apply dlt_fin in N; auto; congruence). lra. }
      intros z [<-|[<-|Hz]]; [apply L|apply L|apply C; now right].
Qed.
(* along every axis, p is between the coordinates of two vertices: p is in the smallest box around them *)
Definition spans (N : nat) (vs : list dvec) (p : dvec) : Prop :=
  forall d, (d < N)%nat -> fin (p d) = true /\ exists v w, In v vs /\ In w vs /\ B2 (v d) <= B2 (p d) <= B2 (w d).
Definition finite_on (d : nat) (vs : list dvec) : Prop := forall v, In v vs -> fin (v d) = true.
Lemma box_ok d v0 vs : finite_on d (v0 :: vs) -> let b := f_bounding_box v0 vs in
  fin (fst b d) = true /\ fin (snd b d) = true /\ (exists v, In v (v0 :: vs) /\ fst b d = v d) /\ (exists v, In v (v0 :: vs) /\ snd b d = v d) /\
  forall v, In v (v0 :: vs) -> B2 (fst b d) <= B2 (v d) <= B2 (snd b d).
Proof.
  intros F b. assert (Fl : Forall (fun y : double => fin y = true) (map (fun v : dvec => v d) vs)). { apply Forall_forall. intros y Hy. apply in_map_iff in Hy as (v & <- & Hv). apply F. now right. }
  assert (F0 : fin (v0 d) = true) by (apply F; now left). destruct (fmin_ok _ _ F0 Fl) as (A & B & C). destruct (fmax_ok _ _ F0 Fl) as (A' & B' & C').
  assert (M : forall y, In y (v0 d :: map (fun v : dvec => v d) vs) <-> exists v, In v (v0 :: vs) /\ y = v d).
  { intros y. change (v0 d :: map (fun v : dvec => v d) vs) with (map (fun v : dvec => v d) (v0 :: vs)). rewrite in_map_iff. split; intros (v & X & Y); exists v; auto. }
  cbn [b f_bounding_box fst snd]. split; [exact A|]. split; [exact A'|]. split; [now apply M|]. split; [now apply M|]. intros v Hv. split; [apply C|apply C']; apply M; eauto.
Qed.
(* ------------------------------------------------------------------ meshes *)
Definition cell := (dvec * list dvec)%type.
Definition vertices (c : cell) : list dvec := fst c :: snd c.
Definition mesh_lo (nodes : cell) : dvec := fst (f_bounding_box (fst nodes) (snd nodes)).
Definition mesh_hi (nodes : cell) : dvec := snd (f_bounding_box (fst nodes) (snd nodes)).
Definition boxes (cells : list cell) : list (dvec * dvec) := map (fun c => f_bounding_box (fst c) (snd c)) cells.
(* coordinates of moderate size; cells made of nodes *)
Definition mesh_ok (N : nat) (nodes : cell) (cells : list cell) : Prop :=
  (forall v d, In v (vertices nodes) -> (d < N)%nat -> fin (v d) = true /\ Rabs (B2 (v d)) <= bpow radix2 500) /\
  (forall c v, In c cells -> In v (vertices c) -> In v (vertices nodes)).
(* the mesh is not flat along axis d: two nodes at distance at least 2^-500 *)
Definition thick (nodes : cell) (d : nat) : Prop := exists v w, In v (vertices nodes) /\ In w (vertices nodes) /\ bpow radix2 (-500) <= B2 (w d) - B2 (v d).
(* all the nodes have the same d-th coordinate *)
Definition flat (nodes : cell) (d : nat) : Prop := forall v w, In v (vertices nodes) -> In w (vertices nodes) -> B2 (v d) = B2 (w d).

Lemma mesh_range N nodes cells d : mesh_ok N nodes cells -> (d < N)%nat -> fin (mesh_lo nodes d) = true /\ fin (mesh_hi nodes d) = true /\
  Rabs (B2 (mesh_lo nodes d)) <= bpow radix2 500 /\ Rabs (B2 (mesh_hi nodes d)) <= bpow radix2 500 /\ forall v, In v (vertices nodes) -> B2 (mesh_lo nodes d) <= B2 (v d) <= B2 (mesh_hi nodes d).
Proof.
  intros [M1 M2] Hd. destruct (box_ok d (fst nodes) (snd nodes)) as (A & B & (v & V & Ev) & (w & W & Ew) & C). { intros v Hv. now apply M1. }
  unfold mesh_lo, mesh_hi. split; [exact A|]. split; [exact B|]. split; [rewrite Ev; now apply M1|]. split; [rewrite Ew; now apply M1|exact C].
Qed.
Lemma mesh_wide N nodes cells d : mesh_ok N nodes cells -> (d < N)%nat -> thick nodes d -> wide (mesh_lo nodes d) (mesh_hi nodes d).
Proof.
  intros M Hd (v & w & V & W & T). destruct (mesh_range N nodes cells d M Hd) as (A & B & C & D & E). repeat split; auto. assert (Ev := E v V). assert (Ew := E w W). lra.
Qed.
Lemma cell_box N nodes cells c d : mesh_ok N nodes cells -> In c cells -> (d < N)%nat -> let b := f_bounding_box (fst c) (snd c) in
  fin (fst b d) = true /\ fin (snd b d) = true /\ B2 (mesh_lo nodes d) <= B2 (fst b d) /\ B2 (fst b d) <= B2 (snd b d) /\ B2 (snd b d) <= B2 (mesh_hi nodes d) /\
  forall v, In v (vertices c) -> B2 (fst b d) <= B2 (v d) <= B2 (snd b d).
Proof.
  intros M Hc Hd b. destruct (mesh_range N nodes cells d M Hd) as (_ & _ & _ & _ & E). destruct M as [M1 M2].
  destruct (box_ok d (fst c) (snd c)) as (A & B & (v & V & Ev) & (w & W & Ew) & C). { intros v Hv. apply M1; auto. now apply (M2 c). }
  fold b in A, B, Ev, Ew, C. split; [exact A|]. split; [exact B|]. rewrite Ev. rewrite Ew at 2. split; [apply E; now apply (M2 c)|]. split; [rewrite <- Ev; assert (X := C w W); assert (Y := C (fst c) (or_introl eq_refl)); lra|]. split; [apply E; now apply (M2 c)|]. intros z Hz. rewrite <- Ev. now apply C.
Qed.

(* C218: if the mesh is not flat along any axis, then for every point p (of numbers, possibly infinite) the cells examined are distinct
   cells of the mesh, and every cell whose bounding box has p is among them *)
Theorem C218_candidates_partial N (nodes : cell) (cells : list cell) ne h fuel (p : dvec) :
  (0 < N)%nat -> (0 < length cells)%nat -> (length cells <= fuel)%nat -> rearranges ne -> sane h ->
  mesh_ok N nodes cells -> (forall d, (d < N)%nat -> thick nodes d) -> (forall d, (d < N)%nat -> is_nan (p d) = false) ->
  exists h' o ids, f_ts_build N (mesh_lo nodes) (mesh_hi nodes) (boxes cells) ne h = Ok (h', o) /\
    f_ts_query N (mesh_lo nodes) (mesh_hi nodes) (boxes cells) h' o fuel p = Ok ids /\
    NoDup ids /\ (forall i, In i ids -> (i < length cells)%nat) /\
    (forall i c, nth_error cells i = Some c -> spans N (vertices c) p -> In i ids).
Proof.
  intros HN Hn Hf Hne Hs M T Hp. set (lo := mesh_lo nodes). set (hi := mesh_hi nodes).
  assert (W : forall d, (d < N)%nat -> wide (lo d) (hi d)) by (intros d Hd; apply (mesh_wide N nodes cells); auto).
  assert (Len : length (boxes cells) = length cells) by apply map_length.
  assert (Dat : forall i c, nth_error cells i = Some c -> f_ts_data N lo hi (boxes cells) i = f_row N lo hi (f_bounding_box (fst c) (snd c))).
  { intros i c Hi. unfold f_ts_data, boxes. rewrite map_map. apply nth_error_nth. exact (map_nth_error (fun c : cell => f_row N lo hi (f_bounding_box (fst c) (snd c))) i cells Hi). }
  assert (Out : forall i, nth_error cells i = None -> f_ts_data N lo hi (boxes cells) i = fun _ => d0).
  { intros i Hi. apply nth_overflow. rewrite map_length, Len. now apply nth_error_None. }
  assert (Box : forall c d, In c cells -> (d < N)%nat -> let b := f_bounding_box (fst c) (snd c) in
     num (f_scale lo hi (fst b) d) = true /\ num (f_scale lo hi (snd b) d) = true).
  { intros c d Hc Hd b. destruct (cell_box N nodes cells c d M Hc Hd) as (A & B & _). split; apply scale_num; auto; now apply num_fin. }
  destruct (f_range_ok (2 * N) (f_ts_data N lo hi (boxes cells)) ne (length cells) h (f_query_ll N lo hi p) (f_query_ur N lo hi p) fuel) as (h' & o & ids & A & B & C & D); auto; try lia.
  { intros i d Hd. destruct (nth_error cells i) as [c|] eqn:Ei; [|rewrite (Out i Ei); reflexivity]. rewrite (Dat i c Ei). apply nth_error_In in Ei. unfold f_row. destruct (Nat.ltb_spec d N); apply Box; auto; lia. }
  { assert (Np : forall d, (d < N)%nat -> num (p d) = true) by (intros d Hd; unfold num; now rewrite Hp).
    intros d Hd. unfold f_query_ll, f_query_ur. destruct (Nat.ltb_spec d N); split; try reflexivity; apply scale_num; auto; try (apply W; lia); apply Np; lia. }
  exists h', o, ids. unfold f_ts_build. rewrite Len. split; [exact A|]. split; [exact B|]. split; [exact C|]. split; [intros i Hi; now apply D|].
  intros i c Ei Sp. apply D. split; [now apply nth_error_Some, (fun X => eq_ind_r (fun o => o <> None) X Ei)|]. rewrite (Dat i c Ei). apply nth_error_In in Ei.
  assert (Key : forall d, (d < N)%nat -> let b := f_bounding_box (fst c) (snd c) in
    (dle d0 (f_scale lo hi (fst b) d) = true /\ dle (f_scale lo hi (fst b) d) (f_scale lo hi p d) = true) /\ (dle (f_scale lo hi p d) (f_scale lo hi (snd b) d) = true /\ dle (f_scale lo hi (snd b) d) d1 = true)).
  { intros d Hd b. destruct (cell_box N nodes cells c d M Ei Hd) as (Fb & Fb' & L1 & L2 & L3 & L4). fold b in Fb, Fb', L1, L2, L3, L4. fold lo hi in L1, L3. destruct (Sp d Hd) as (Fp & v & w & Hv & Hw & Hvw). assert (Lv := L4 v Hv). assert (Lw := L4 w Hw). destruct d1_ok as [F1 E1].
    destruct (scale_ok _ _ _ (W d Hd) Fb ltac:(lra)) as (S1 & _ & S2). destruct (scale_ok _ _ _ (W d Hd) Fb' ltac:(lra)) as (S3 & _ & S4). destruct (scale_ok _ _ _ (W d Hd) Fp ltac:(lra)) as (S5 & _ & S6).
    assert (M1 := scale_mono _ _ _ _ (W d Hd) Fb Fp ltac:(lra) ltac:(lra) ltac:(lra)). assert (M2 := scale_mono _ _ _ _ (W d Hd) Fp Fb' ltac:(lra) ltac:(lra) ltac:(lra)).
    change (f_scale lo hi (fst b) d) with (scale1 (lo d) (hi d) (fst b d)). change (f_scale lo hi (snd b) d) with (scale1 (lo d) (hi d) (snd b d)). change (f_scale lo hi p d) with (scale1 (lo d) (hi d) (p d)).
    rewrite !dle_fin by auto. change (B2 d0) with 0. rewrite E1. lra. }
  intros d Hd. unfold f_row, f_query_ll, f_query_ur. destruct (Nat.ltb_spec d N) as [L|L]; apply Key; lia.
Qed.
Print Assumptions C218_candidates_partial.
(* C218: locate and all_locate, whatever the cells' own test; ids' is any iteration order of the set of candidates *)
Theorem C218_locate_partial N (nodes : cell) (cells : list cell) (contains : nat -> dvec -> bool) ne h fuel (p : dvec) :
  (0 < N)%nat -> (0 < length cells)%nat -> (length cells <= fuel)%nat -> rearranges ne -> sane h ->
  mesh_ok N nodes cells -> (forall d, (d < N)%nat -> thick nodes d) -> (forall d, (d < N)%nat -> is_nan (p d) = false) ->
  exists h' o ids, f_ts_build N (mesh_lo nodes) (mesh_hi nodes) (boxes cells) ne h = Ok (h', o) /\
    f_ts_query N (mesh_lo nodes) (mesh_hi nodes) (boxes cells) h' o fuel p = Ok ids /\
    forall ids', Permutation ids' ids ->
      NoDup (f_all_locate contains ids' p) /\
      (forall i, In i (f_all_locate contains ids' p) -> (i < length cells)%nat /\ contains i p = true) /\
      (forall i c, nth_error cells i = Some c -> spans N (vertices c) p -> contains i p = true -> In i (f_all_locate contains ids' p)) /\
      match f_ts_locate contains ids' p with
      | Some i => (i < length cells)%nat /\ contains i p = true
      | None => forall i c, nth_error cells i = Some c -> spans N (vertices c) p -> contains i p = false
      end.
Proof.
  intros HN Hn Hf Hne Hs M T Hp. destruct (C218_candidates_partial N nodes cells ne h fuel p) as (h' & o & ids & A & B & C & D & E); auto.
  exists h', o, ids. split; [exact A|]. split; [exact B|]. intros ids' P.
  assert (D' : forall i, In i ids' -> (i < length cells)%nat) by (intros i Hi; apply D; now apply (Permutation_in _ P)).
  assert (E' : forall i c, nth_error cells i = Some c -> spans N (vertices c) p -> In i ids') by (intros i c Hi Hc; apply (Permutation_in _ (Permutation_sym P)); now apply (E i c)).
  split; [apply NoDup_filter; now apply (Permutation_NoDup (Permutation_sym P))|]. split; [|split].
  - intros i Hi. apply filter_In in Hi. split; [now apply D'|apply Hi].
  - intros i c Hi Hc Hx. apply filter_In. split; [now apply (E' i c)|exact Hx].
  - unfold f_ts_locate. destruct (List.find (fun id => contains id p) ids') as [i|] eqn:Ef.
    + apply find_some in Ef. split; [now apply D'|apply Ef].
    + intros i c Hi Hc. exact (find_none _ _ Ef i (E' i c Hi Hc)).
Qed.
Print Assumptions C218_locate_partial.

(* ------------------------------------------------------------------ triangles of the plane, with the test of C200 *)
Definition tri_of (c : cell) : FloatCellModel.f_cell := fun i => nth i (vertices c) (fun _ => d0).
(* c.contains(p) used as a condition: OUTSIDE is 0 *)
Definition tri_contains (cells : list cell) (i : nat) (p : dvec) : bool :=
  match nth_error cells i with
  | Some c => match FloatCellModel.f_contains (tri_of c) p with SimplexModel.OUTSIDE => false | _ => true end
  | None => false
  end.
(* C218: a point of a triangle, with the margin of C200 (none for a right triangle with legs along the axes), is found *)
Theorem C218_triangles_partial (nodes : cell) (cells : list cell) ne h fuel (p : dvec) i c v1 v2 Z kappa :
  (length cells <= fuel)%nat -> rearranges ne -> sane h ->
  mesh_ok 2 nodes cells -> (forall d, (d < 2)%nat -> thick nodes d) ->
  nth_error cells i = Some c -> snd c = [v1; v2] ->
  FloatCell.sized (tri_of c) p -> FloatCell.barycentric (tri_of c) p Z -> FloatCell.shape kappa (tri_of c) -> kappa <= 2 ^ 20 ->
  (forall k, (k < 3)%nat -> 20 * (kappa - 1) * u <= Z k) ->
  exists h' o ids, f_ts_build 2 (mesh_lo nodes) (mesh_hi nodes) (boxes cells) ne h = Ok (h', o) /\
    f_ts_query 2 (mesh_lo nodes) (mesh_hi nodes) (boxes cells) h' o fuel p = Ok ids /\
    forall ids', Permutation ids' ids -> In i (f_all_locate (tri_contains cells) ids' p) /\
      exists j, f_ts_locate (tri_contains cells) ids' p = Some j /\ (j < length cells)%nat /\ tri_contains cells j p = true.
Proof.
  intros Hf Hne Hs M T Hi Hc Sz Ba Sh Hk Hz.
  assert (Ct : tri_contains cells i p = true). { unfold tri_contains. rewrite Hi. assert (X := FloatCell.C200_contains_partial _ _ _ _ Sz Ba Sh Hk Hz). destruct (FloatCellModel.f_contains (tri_of c) p); congruence. }
  assert (Hp : forall d, (d < 2)%nat -> fin (p d) = true) by (intros d Hd; now apply (proj1 (proj2 Sz))).
  assert (Zp : forall k, (k < 3)%nat -> 0 <= Z k).
  { intros k Hk'. apply Rle_trans with (2 := Hz k Hk'). assert (K1 := FloatCell.shape_ge1 _ _ _ Sz Sh). assert (Pu := u_pos). apply Rmult_le_pos; [apply Rmult_le_pos|]; lra. }
  assert (Sp : spans 2 (vertices c) p).
  { intros d Hd. split; [now apply Hp|]. destruct Ba as (S1 & B1). specialize (B1 d Hd). unfold tri_of, vertices in B1. rewrite Hc in B1. cbn [nth] in B1. unfold vertices. rewrite Hc.
    assert (Z0 := Zp 0%nat ltac:(lia)). assert (Z1 := Zp 1%nat ltac:(lia)). assert (Z2 := Zp 2%nat ltac:(lia)).
    set (a := B2 (fst c d)) in *. set (b := B2 (v1 d)) in *. set (e := B2 (v2 d)) in *. set (q := B2 (p d)) in *. set (z0 := Z 0%nat) in *. set (z1 := Z 1%nat) in *. set (z2 := Z 2%nat) in *.
    assert (Lo : exists v, In v [fst c; v1; v2] /\ B2 (v d) <= q).
    { destruct (Rle_dec a q) as [L|L]; [exists (fst c); cbn; auto|]. destruct (Rle_dec b q) as [L'|L']; [exists v1; cbn; auto|]. destruct (Rle_dec e q) as [L''|L'']; [exists v2; cbn; auto|]. exfalso.
      assert (H0 : z0 * (a - q) + z1 * (b - q) + z2 * (e - q) = 0) by nra. assert (P0 : 0 <= z0 * (a - q)) by (apply Rmult_le_pos; lra). assert (P1 : 0 <= z1 * (b - q)) by (apply Rmult_le_pos; lra). assert (P2 : 0 <= z2 * (e - q)) by (apply Rmult_le_pos; lra).
      assert (E0 : z0 = 0) by (apply (Rmult_eq_reg_r (a - q)); lra). assert (E1 : z1 = 0) by (apply (Rmult_eq_reg_r (b - q)); lra). assert (E2 : z2 = 0) by (apply (Rmult_eq_reg_r (e - q)); lra). lra. }
    assert (Hi' : exists v, In v [fst c; v1; v2] /\ q <= B2 (v d)).
    { destruct (Rle_dec q a) as [L|L]; [exists (fst c); cbn; auto|]. destruct (Rle_dec q b) as [L'|L']; [exists v1; cbn; auto|]. destruct (Rle_dec q e) as [L''|L'']; [exists v2; cbn; auto|]. exfalso.
      assert (H0 : z0 * (q - a) + z1 * (q - b) + z2 * (q - e) = 0) by nra. assert (P0 : 0 <= z0 * (q - a)) by (apply Rmult_le_pos; lra). assert (P1 : 0 <= z1 * (q - b)) by (apply Rmult_le_pos; lra). assert (P2 : 0 <= z2 * (q - e)) by (apply Rmult_le_pos; lra).
      assert (E0 : z0 = 0) by (apply (Rmult_eq_reg_r (q - a)); lra). assert (E1 : z1 = 0) by (apply (Rmult_eq_reg_r (q - b)); lra). assert (E2 : z2 = 0) by (apply (Rmult_eq_reg_r (q - e)); lra). lra. }
    destruct Lo as (v & V & Lv). destruct Hi' as (w & Wv & Lw). exists v, w. auto. }
  assert (Hn : (0 < length cells)%nat). { assert (X : nth_error cells i <> None) by congruence. apply nth_error_Some in X. lia. }
  destruct (C218_locate_partial 2 nodes cells (tri_contains cells) ne h fuel p) as (h' & o & ids & A & B & C); auto; try lia. { intros d Hd. apply Hp in Hd. destruct (p d); auto; discriminate. }
  exists h', o, ids. split; [exact A|]. split; [exact B|]. intros ids' P. destruct (C ids' P) as (_ & _ & C2 & C3). split; [now apply (C2 i c)|].
  destruct (f_ts_locate (tri_contains cells) ids' p) as [j|]; [exists j; tauto|]. rewrite (C3 i c Hi Sp) in Ct. discriminate.
Qed.
Print Assumptions C218_triangles_partial.

(* ------------------------------------------------------------------ flat meshes *)
(* the elements of the first k levels *)
Fixpoint top (k : nat) (t : mtree nat) : list nat :=
  match k, t with S k', MNode _ x l r => x :: top k' l ++ top k' r | _, _ => [] end.
Lemma top_length : forall k t, (S (length (top k t)) <= 2 ^ k)%nat.
Proof.
  induction k as [|k IH]; intros t; [cbn; lia|]. destruct t as [|a x l r]; [cbn [top length]; assert (H := Nat.pow_nonzero 2 (S k)); lia|].
  cbn [top length]. rewrite app_length, Nat.pow_succ_r'. assert (L := IH l). assert (Rr := IH r). lia.
Qed.
Definition nan_column (data : nat -> dvec) (n d : nat) : Prop := forall i, (i < n)%nat -> is_nan (data i d) = true.
Lemma dle_nan_r x y : is_nan y = true -> dle x y = false. Proof. destruct y; try discriminate. destruct x as [|[]| |[]]; reflexivity. Qed.
Lemma dle_nan_l x y : is_nan x = true -> dle x y = false. Proof. destruct x; try discriminate. destruct y as [|[]| |[]]; reflexivity. Qed.
Lemma shallow_search K data h n d ll ur : (d < K)%nat -> nan_column data n d -> forall fuel es res ids,
  Forall (fun e : nat * mtree nat => (fst e <= d)%nat /\ snd e <> MLeaf /\ TreeSpec.holds h (fst e) (snd e) /\ Forall (fun x => (x < n)%nat) (TreeSpec.preorder (snd e))) es ->
  f_range_loop K data h ll ur fuel (map (fun e => raddr (snd e)) es) res = Ok ids ->
  forall i, In i ids -> In i res \/ exists e, In e es /\ In i (top (S d - fst e) (snd e)).
Proof.
  intros Hd Hn. induction fuel as [|fuel IH]; intros es res ids HF E i Hi.
  - destruct es as [|e es]; [injection E as <-; now left|discriminate].
  - destruct es as [|[k t] es]; [injection E as <-; now left|]. inversion HF as [|? ? (Hk & Ht & Hh & Hp) HF']; subst. cbn [fst snd] in *.
    destruct t as [|a x l r]; [congruence|]. cbn [map snd raddr f_range_loop] in E. cbn [TreeSpec.holds] in Hh. destruct Hh as ((par & Ea) & Hl & Hr).
    rewrite (TreeProofs.deref_ok _ _ _ Ea) in E. cbn [bind ndata ndepth nleft nright] in E. rewrite (Nat.mod_small k K) in E by lia.
    cbn [TreeSpec.preorder] in Hp. inversion Hp as [|? ? Hx Hp']; subst. apply Forall_app in Hp' as [Hpl Hpr].
    set (es1 := (if dle (ll k) (data x k) then match l with MLeaf => [] | _ => [(S k, l)] end else []) ++ es).
    set (es2 := (if dle (data x k) (ur k) then match r with MLeaf => [] | _ => [(S k, r)] end else []) ++ es1).
    assert (E1: match raddr l with Some b => if dle (ll k) (data x k) then Some b :: map (fun e => raddr (snd e)) es else map (fun e => raddr (snd e)) es
                 | None => map (fun e => raddr (snd e)) es end = map (fun e => raddr (snd e)) es1).
    { unfold es1. destruct l; cbn; destruct (dle (ll k) (data x k)); auto. }
    rewrite E1 in E.
    assert (E2: match raddr r with Some b => if dle (data x k) (ur k) then Some b :: map (fun e => raddr (snd e)) es1 else map (fun e => raddr (snd e)) es1
                 | None => map (fun e => raddr (snd e)) es1 end = map (fun e => raddr (snd e)) es2).
    { unfold es2. destruct r; cbn; destruct (dle (data x k) (ur k)); auto. }
    rewrite E2 in E. clear E1 E2.
    assert (Dk : k = d -> dle (ll k) (data x k) = false /\ dle (data x k) (ur k) = false) by (intros ->; split; [apply dle_nan_r|apply dle_nan_l]; now apply Hn).
    assert (HF2 : Forall (fun e : nat * mtree nat => (fst e <= d)%nat /\ snd e <> MLeaf /\ TreeSpec.holds h (fst e) (snd e) /\ Forall (fun x => (x < n)%nat) (TreeSpec.preorder (snd e))) es2).
    { unfold es2, es1. apply Forall_app; split; [|apply Forall_app; split; [|exact HF']].
      - destruct (dle (data x k) (ur k)) eqn:Eq; [|constructor]. assert (k <> d) by (intros X; destruct (Dk X); congruence). destruct r; constructor; [|constructor]. cbn [fst snd]. repeat split; auto; try lia; try discriminate; apply Hr.
      - destruct (dle (ll k) (data x k)) eqn:Eq; [|constructor]. assert (k <> d) by (intros X; destruct (Dk X); congruence). destruct l; constructor; [|constructor]. cbn [fst snd]. repeat split; auto; try lia; try discriminate; apply Hl. }
    replace (S d - k)%nat with (S (d - k)) in * by lia.
    assert (Here : forall e, e = (k, MNode a x l r) -> In e ((k, MNode a x l r) :: es)) by (intros e ->; now left).
    destruct (IH es2 _ ids HF2 E i Hi) as [Hres|(e & He & Htop)].
    + assert (Hres' : i = x \/ In i res). { destruct (f_contained K ll ur (data x)); [|now right]. now apply set_insert_in in Hres. }
      destruct Hres' as [->|Hres']; [right|now left]. exists (k, MNode a x l r). split; [now left|]. cbn [fst snd]. replace (S d - k)%nat with (S (d - k)) by lia. now left.
    + right. unfold es2, es1 in He. apply in_app_or in He. destruct He as [He|He]; [|apply in_app_or in He; destruct He as [He|He]].
      * destruct (dle (data x k) (ur k)) eqn:Eq; [|destruct He]. assert (k <> d) by (intros X; destruct (Dk X); congruence). exists (k, MNode a x l r). split; [now left|]. cbn [fst snd]. replace (S d - k)%nat with (S (d - k)) by lia. cbn [top]. right. apply in_or_app. right.
        destruct r; [destruct He|]. destruct He as [<-|[]]. cbn [fst snd] in Htop. replace (d - k)%nat with (S d - S k)%nat by lia. exact Htop.
      * destruct (dle (ll k) (data x k)) eqn:Eq; [|destruct He]. assert (k <> d) by (intros X; destruct (Dk X); congruence). exists (k, MNode a x l r). split; [now left|]. cbn [fst snd]. replace (S d - k)%nat with (S (d - k)) by lia. cbn [top]. right. apply in_or_app. left.
        destruct l; [destruct He|]. destruct He as [<-|[]]. cbn [fst snd] in Htop. replace (d - k)%nat with (S d - S k)%nat by lia. exact Htop.
      * exists e. split; [now right|exact Htop].
Qed.
Lemma search_total K data h ll ur : forall fuel es res,
  Forall (fun e : nat * mtree nat => snd e <> MLeaf /\ TreeSpec.holds h (fst e) (snd e)) es -> (entries_size es <= fuel)%nat ->
  exists ids, f_range_loop K data h ll ur fuel (map (fun e => raddr (snd e)) es) res = Ok ids.
Proof.
  induction fuel as [|fuel IH]; intros es res HF Sz.
  - destruct es as [|[k t] es]; [eexists; reflexivity|]. inversion HF as [|? ? (Ht & _) _]; subst. cbn [snd] in Ht. destruct t; [congruence|]. cbn in Sz. lia.
  - destruct es as [|[k t] es]; [eexists; reflexivity|]. inversion HF as [|? ? (Ht & Hh) HF']; subst. cbn [fst snd] in *. destruct t as [|a x l r]; [congruence|].
    cbn [map snd raddr f_range_loop]. cbn [TreeSpec.holds] in Hh. destruct Hh as ((par & Ea) & Hl & Hr). rewrite (TreeProofs.deref_ok _ _ _ Ea). cbn [bind ndata ndepth nleft nright].
    set (D := (k mod K)%nat). set (es1 := (if dle (ll D) (data x D) then match l with MLeaf => [] | _ => [(S k, l)] end else []) ++ es).
    set (es2 := (if dle (data x D) (ur D) then match r with MLeaf => [] | _ => [(S k, r)] end else []) ++ es1).
    assert (E1: match raddr l with Some b => if dle (ll D) (data x D) then Some b :: map (fun e => raddr (snd e)) es else map (fun e => raddr (snd e)) es
                 | None => map (fun e => raddr (snd e)) es end = map (fun e => raddr (snd e)) es1).
    { unfold es1. destruct l; cbn; destruct (dle (ll D) (data x D)); auto. }
    rewrite E1.
    assert (E2: match raddr r with Some b => if dle (data x D) (ur D) then Some b :: map (fun e => raddr (snd e)) es1 else map (fun e => raddr (snd e)) es1
                 | None => map (fun e => raddr (snd e)) es1 end = map (fun e => raddr (snd e)) es2).
    { unfold es2. destruct r; cbn; destruct (dle (data x D) (ur D)); auto. }
    rewrite E2. apply IH.
    + unfold es2, es1. apply Forall_app; split; [|apply Forall_app; split; [|exact HF']].
      * destruct (dle (data x D) (ur D)); [|constructor]. destruct r; constructor; [|constructor]. cbn [fst snd]. split; [discriminate|exact Hr].
      * destruct (dle (ll D) (data x D)); [|constructor]. destruct l; constructor; [|constructor]. cbn [fst snd]. split; [discriminate|exact Hl].
    + assert (Sr : (entries_size (if dle (data x D) (ur D) then match r with MLeaf => [] | _ => [(S k, r)] end else []) <= msize r)%nat) by (destruct (dle (data x D) (ur D)); [destruct r; cbn; lia|cbn; lia]).
      assert (Sl : (entries_size (if dle (ll D) (data x D) then match l with MLeaf => [] | _ => [(S k, l)] end else []) <= msize l)%nat) by (destruct (dle (ll D) (data x D)); [destruct l; cbn; lia|cbn; lia]).
      unfold es2, es1, entries_size in *. rewrite !map_app, !list_sum_app. cbn [map snd] in Sz.
      change (list_sum (msize (MNode a x l r) :: map (fun e => msize (snd e)) es)) with (msize (MNode a x l r) + list_sum (map (fun e => msize (snd e)) es))%nat in Sz. cbn [msize] in Sz. lia.
Qed.
Lemma flat_nan N nodes cells d x : mesh_ok N nodes cells -> (d < N)%nat -> flat nodes d -> fin x = true -> (exists v, In v (vertices nodes) /\ B2 x = B2 (v d)) -> is_nan (scale1 (mesh_lo nodes d) (mesh_hi nodes d) x) = true.
Proof.
  intros [M1 M2] Hd F Fx (v & Hv & Ev). destruct (box_ok d (fst nodes) (snd nodes)) as (A & B & (w & Hw & Ew) & (z & Hz & Ez) & _). { intros y Hy. now apply M1. }
  fold (mesh_lo nodes) in A, Ew. fold (mesh_hi nodes) in B, Ez. set (lo := mesh_lo nodes d) in *. set (hi := mesh_hi nodes d) in *.
  assert (Ezero : forall y : double, fin y = true -> B2 y = B2 lo -> exists s, dsub y lo = B754_zero s).
  { intros y Fy Ey. destruct (dsub_ok y lo 0 ltac:(lia) Fy A) as (G & E & _). { rewrite Ey. replace (B2 lo - B2 lo) with 0 by ring. rewrite Rabs_R0. apply bpow_ge_0. } apply fin_zero; auto. rewrite E, Ey. replace (B2 lo - B2 lo) with 0 by ring. apply rnd_0. }
  destruct (Ezero x Fx) as [s Es]. { rewrite Ev, Ew. now apply F. } destruct (Ezero hi B) as [s' Es']. { rewrite Ez, Ew. now apply F. }
  unfold scale1. rewrite Es, Es'. destruct s'; reflexivity.
Qed.
Lemma missing n l : (length l < n)%nat -> exists i, (i < n)%nat /\ ~ In i l.
Proof.
  intros H. destruct (Exists_dec (fun i => ~ In i l) (seq 0 n)) as [E|E].
  - intros i. destruct (in_dec Nat.eq_dec i l); [right; tauto|now left].
  - apply Exists_exists in E as (i & Hi & N). exists i. apply in_seq in Hi. split; [lia|exact N].
  - exfalso. assert (I : incl (seq 0 n) l). { intros i Hi. destruct (in_dec Nat.eq_dec i l) as [|N]; auto. exfalso. apply E. apply Exists_exists. eauto. }
    apply (NoDup_incl_length (seq_NoDup n 0)) in I. rewrite seq_length in I. lia.
Qed.
(* C218: if the mesh is flat along axis d and has at least 2^(d+1) cells, then some cell is never examined, whatever the point *)
Theorem C218_flat_refuted N (nodes : cell) (cells : list cell) ne h d :
  (d < N)%nat -> rearranges ne -> sane h -> mesh_ok N nodes cells ->
  (forall e, (e < N)%nat -> thick nodes e \/ flat nodes e) -> flat nodes d -> (2 ^ (d + 1) <= length cells)%nat ->
  exists h' o i, f_ts_build N (mesh_lo nodes) (mesh_hi nodes) (boxes cells) ne h = Ok (h', o) /\ (i < length cells)%nat /\
    forall p fuel, (length cells <= fuel)%nat -> exists ids, f_ts_query N (mesh_lo nodes) (mesh_hi nodes) (boxes cells) h' o fuel p = Ok ids /\ ~ In i ids.
Proof.
  intros Hd Hne Hs M TF F Hn. set (lo := mesh_lo nodes). set (hi := mesh_hi nodes). assert (HN : (0 < 2 * N)%nat) by lia.
  assert (Len : length (boxes cells) = length cells) by apply map_length.
  assert (Dat : forall i c, nth_error cells i = Some c -> f_ts_data N lo hi (boxes cells) i = f_row N lo hi (f_bounding_box (fst c) (snd c))).
  { intros i c Hi. unfold f_ts_data, boxes. rewrite map_map. apply nth_error_nth. exact (map_nth_error (fun c : cell => f_row N lo hi (f_bounding_box (fst c) (snd c))) i cells Hi). }
  assert (Out : forall i, nth_error cells i = None -> f_ts_data N lo hi (boxes cells) i = fun _ => d0).
  { intros i Hi. apply nth_overflow. rewrite map_length, Len. now apply nth_error_None. }
  set (data := f_ts_data N lo hi (boxes cells)) in *.
  assert (Nan : forall i e, (i < length cells)%nat -> (e < N)%nat -> flat nodes e -> is_nan (data i e) = true /\ is_nan (data i (e + N)%nat) = true).
  { intros i e Hi He Fe. destruct (nth_error cells i) as [c|] eqn:Ei; [|apply nth_error_None in Ei; lia]. rewrite (Dat i c Ei). apply nth_error_In in Ei.
    destruct (box_ok e (fst c) (snd c)) as (A & B & (v & Hv & Ev) & (w & Hw & Ew) & _). { intros y Hy. apply (proj1 M); auto. now apply (proj2 M c). }
    unfold f_row. rewrite (proj2 (Nat.ltb_lt e N) He), (proj2 (Nat.ltb_ge (e + N) N)) by lia. replace (e + N - N)%nat with e by lia.
    split; apply (flat_nan N nodes cells); auto; [exists v|exists w]; (split; [now apply (proj2 M c)|]); [now rewrite Ev|now rewrite Ew]. }
  assert (Col : forall e, (e < 2 * N)%nat -> (forall i, num (data i e) = true) \/ (forall i, is_nan (data i e) = true \/ data i e = d0)).
  { intros e He. set (a := if (e <? N)%nat then e else (e - N)%nat). assert (Ha : (a < N)%nat) by (unfold a; destruct (Nat.ltb_spec e N); lia). destruct (TF a Ha) as [T|T].
    - left. intros i. destruct (nth_error cells i) as [c|] eqn:Ei; [|rewrite (Out i Ei); reflexivity]. rewrite (Dat i c Ei). apply nth_error_In in Ei. assert (W := mesh_wide N nodes cells a M Ha T). fold lo hi in W.
      destruct (cell_box N nodes cells c a M Ei Ha) as (A & B & _). unfold f_row. unfold a in *. destruct (e <? N)%nat; apply scale_num; auto; now apply num_fin.
    - right. intros i. destruct (nth_error cells i) as [c|] eqn:Ei; [left|right; rewrite (Out i Ei); reflexivity]. assert (Hi : (i < length cells)%nat) by (apply nth_error_Some; congruence). destruct (Nan i a Hi Ha T) as [X Y]. unfold a in X, Y. destruct (Nat.ltb_spec e N); [exact X|]. now replace (e - N + N)%nat with e in Y by lia. }
  assert (T1 : forall i j e, (e < 2 * N)%nat -> dlt (data i e) (data j e) = qlt (toQ (data i e)) (toQ (data j e))).
  { intros i j e He. destruct (Col e He) as [C|C]; [now apply dlt_Q|]. destruct (C i) as [Ci|Ci]; [destruct (data i e); try discriminate|rewrite Ci]; (destruct (C j) as [Cj|Cj]; [destruct (data j e); try discriminate|rewrite Cj]); reflexivity. }
  assert (P2 := Nat.pow_nonzero 2 (d + 1)).
  destruct (kd_build_ok (2 * N) (fun i e => toQ (data i e)) ne (length cells) h Hne ltac:(lia) Hs) as (h' & o & t & A & B & C & _ & _ & G).
  rewrite <- (kd_build_transfer (2 * N) data _ HN T1) in A.
  assert (Lt := top_length (S d) t). replace (S d) with (d + 1)%nat in Lt by lia. destruct (missing (length cells) (top (d + 1) t) ltac:(lia)) as (i & Hi & Ni).
  exists h', o, i. unfold f_ts_build. rewrite Len. split; [exact A|]. split; [exact Hi|]. intros p fuel Hf. destruct C as (C1 & C2 & C3 & C4).
  assert (Pl := Permutation_length G). rewrite seq_length in Pl.
  assert (Tn : t <> MLeaf) by (intros ->; cbn in Pl; lia). assert (Sz : msize t = length cells) by (rewrite <- Pl; clear; induction t as [|a x l IHl r IHr]; [reflexivity|cbn; rewrite app_length; lia]).
  unfold f_ts_query, f_range_search. fold data. change [root o] with (map (fun e : nat * mtree nat => root o) [(0%nat, t)]). rewrite C1. change (map (fun _ : nat * mtree nat => raddr t) [(0%nat, t)]) with (map (fun e : nat * mtree nat => raddr (snd e)) [(0%nat, t)]).
  destruct (search_total (2 * N) data h' (f_query_ll N lo hi p) (f_query_ur N lo hi p) fuel [(0%nat, t)] []) as (ids & E). { constructor; [split; [exact Tn|exact C4]|constructor]. } { unfold entries_size. cbn. lia. }
  exists ids. split; [exact E|]. intros Hin.
  destruct (shallow_search (2 * N) data h' (length cells) d (f_query_ll N lo hi p) (f_query_ur N lo hi p) ltac:(lia) ltac:(intros k Hk; now apply (Nan k d)) fuel [(0%nat, t)] [] ids) with (i := i) as [X|(e & [<-|[]] & X)]; auto.
  { constructor; [|constructor]. cbn [fst snd]. split; [lia|]. split; [exact Tn|]. split; [exact C4|]. apply Forall_forall. intros x Hx. apply (Permutation_in _ G) in Hx. apply in_seq in Hx. lia. }
  cbn [fst snd] in X. replace (S d - 0)%nat with (d + 1)%nat in X by lia. auto.
Qed.
Print Assumptions C218_flat_refuted.

(* ------------------------------------------------------------------ instances *)
Definition pnt (x y z : Z) : dvec := fun d => match d with 0%nat => dbl x 0 | 1%nat => dbl y 0 | _ => dbl z 0 end.
Definition keep (b m e dim : nat) (ids : list nat) : list nat := ids.
Lemma keep_ok : rearranges keep. Proof. intros b m e dim ids _ _. unfold keep. auto. Qed.
Lemma pnt_ok x y z d : (Z.abs x < 10 /\ Z.abs y < 10 /\ Z.abs z < 10)%Z -> fin (pnt x y z d) = true /\ Rabs (B2 (pnt x y z d)) <= bpow radix2 500.
Proof.
  intros (Hx & Hy & Hz). assert (P : forall k, (Z.abs k < 10)%Z -> fin (dbl k 0) = true /\ Rabs (B2 (dbl k 0)) <= bpow radix2 500).
  { intros k Hk. destruct (B2_dbl k 0) as [F E]; [change (2 ^ 53)%Z with 9007199254740992%Z; lia|lia|]. split; [exact F|]. rewrite E. change (bpow radix2 0) with 1. rewrite Rmult_1_r, <- abs_IZR. apply Rle_trans with (bpow radix2 4); [change (bpow radix2 4) with (IZR 16); apply IZR_le; lia|apply bpow_le; lia]. }
  destruct d as [|[|d]]; cbn [pnt]; auto.
Qed.
Lemma pnt_val x y z d : (Z.abs x < 10 /\ Z.abs y < 10 /\ Z.abs z < 10)%Z -> B2 (pnt x y z d) = IZR match d with 0%nat => x | 1%nat => y | _ => z end.
Proof.
  intros (Hx & Hy & Hz). assert (P : forall k, (Z.abs k < 10)%Z -> B2 (dbl k 0) = IZR k).
  { intros k Hk. destruct (B2_dbl k 0) as [F E]; [change (2 ^ 53)%Z with 9007199254740992%Z; lia|lia|]. rewrite E. change (bpow radix2 0) with 1. ring. }
  destruct d as [|[|d]]; cbn [pnt]; auto.
Qed.
Definition sq_nodes : cell := (pnt 0 0 0, [pnt 1 0 0; pnt 0 1 0; pnt 1 1 0]).
Definition sq_cells : list cell := [(pnt 0 0 0, [pnt 1 0 0; pnt 0 1 0]); (pnt 1 1 0, [pnt 1 0 0; pnt 0 1 0])].
Definition run (N : nat) (nodes : cell) (cells : list cell) (p : dvec) : Res (list nat) :=
  r <- f_ts_build N (mesh_lo nodes) (mesh_hi nodes) (boxes cells) keep empty_heap ;; f_ts_query N (mesh_lo nodes) (mesh_hi nodes) (boxes cells) (fst r) (snd r) (length cells) p.
Lemma below_1 : bpow radix2 (-500) <= 1. Proof. change 1 with (bpow radix2 0). apply bpow_le. lia. Qed.
Example C218_example : rearranges keep /\ mesh_ok 2 sq_nodes sq_cells /\ (forall d, (d < 2)%nat -> thick sq_nodes d) /\
  spans 2 (vertices (pnt 0 0 0, [pnt 1 0 0; pnt 0 1 0])) (fun _ => dbl 1 (-2)) /\
  run 2 sq_nodes sq_cells (fun _ => dbl 1 (-2)) = Ok [0; 1]%nat /\
  f_ts_locate (tri_contains sq_cells) [0; 1]%nat (fun _ => dbl 1 (-2)) = Some 0%nat /\ f_ts_locate (tri_contains sq_cells) [0; 1]%nat (fun _ => dbl 3 (-2)) = Some 1%nat.
Proof.
  split; [apply keep_ok|]. split; [|split; [|split; [|split; [vm_compute; reflexivity|split; vm_compute; reflexivity]]]].
  - split.
    + intros v d Hv _. cbn in Hv. destruct Hv as [<-|[<-|[<-|[<-|[]]]]]; apply pnt_ok; lia.
    + intros c v Hc Hv. cbn in Hc. destruct Hc as [<-|[<-|[]]]; cbn in Hv |- *; tauto.
  - intros d Hd. exists (pnt 0 0 0), (pnt 1 1 0). split; [cbn; tauto|]. split; [cbn; tauto|]. rewrite !pnt_val by lia. assert (B := below_1). destruct d as [|[|d]]; [lra|lra|lia].
  - intros d Hd. destruct (B2_dbl 1 (-2)) as [F E]; [reflexivity|lia|]. split; [exact F|]. rewrite E. exists (pnt 0 0 0), (match d with 0%nat => pnt 1 0 0 | _ => pnt 0 1 0 end).
    split; [cbn; tauto|]. split; [destruct d; cbn; tauto|]. change (bpow radix2 (-2)) with (/ 4). destruct d as [|[|d]]; [| |lia]; rewrite !pnt_val by lia; lra.
Qed.
(* a strip of eight triangles in the plane z = 0 of the space *)
Definition strip_nodes : cell := (pnt 0 0 0, [pnt 1 0 0; pnt 2 0 0; pnt 3 0 0; pnt 4 0 0; pnt 0 1 0; pnt 1 1 0; pnt 2 1 0; pnt 3 1 0; pnt 4 1 0]).
Definition strip_cells : list cell := flat_map (fun i : Z => [(pnt i 0 0, [pnt (i + 1) 0 0; pnt i 1 0]); (pnt (i + 1) 1 0, [pnt (i + 1) 0 0; pnt i 1 0])]) [0; 1; 2; 3]%Z.
(* the hypotheses hold, and no triangle is examined for the point (1/4, 1/4, 0) of the first one *)
Example C218_flat_example : mesh_ok 3 strip_nodes strip_cells /\ (forall d, (d < 3)%nat -> thick strip_nodes d \/ flat strip_nodes d) /\ flat strip_nodes 2 /\ (2 ^ (2 + 1) <= length strip_cells)%nat /\
  run 3 strip_nodes strip_cells (fun d => match d with 2%nat => d0 | _ => dbl 1 (-2) end) = Ok [].
Proof.
  assert (V : forall v, In v (vertices strip_nodes) -> exists x y, (Z.abs x < 10 /\ Z.abs y < 10)%Z /\ v = pnt x y 0).
  { intros v Hv. cbn in Hv. repeat (destruct Hv as [<-|Hv]; [eexists; eexists; split; [|reflexivity]; lia|]). destruct Hv. }
  assert (Fl : flat strip_nodes 2). { intros v w Hv Hw. destruct (V v Hv) as (x & y & B & ->). destruct (V w Hw) as (x' & y' & B' & ->). rewrite !pnt_val by lia. reflexivity. }
  split; [split|split; [|split; [exact Fl|split; [vm_compute; lia|]]]].
  - intros v d Hv _. destruct (V v Hv) as (x & y & B & ->). apply pnt_ok. lia.
  - intros c v Hc Hv. cbn in Hc. repeat (destruct Hc as [<-|Hc]; [cbn in Hv |- *; tauto|]). destruct Hc.
  - intros d Hd. destruct (Nat.eq_dec d 2) as [->|]; [now right|left]. exists (pnt 0 0 0), (pnt 1 1 0). split; [cbn; tauto|]. split; [cbn; tauto|]. rewrite !pnt_val by lia. assert (B := below_1). destruct d as [|[|d]]; [lra|lra|lia].
  - vm_compute. reflexivity.
Qed.
