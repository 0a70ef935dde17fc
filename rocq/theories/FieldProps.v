(* C71-C73, C108: field expressions evaluate pointwise, forward reaches the discretised fields,
   numerical derivatives. *)
From Verif Require Import Base RSum SimplexModel FieldModel PolyProps.
From Coq Require Import FunctionalExtensionality.

Scheme sexp_ind' := Induction for sexp Sort Prop
  with vexp_ind' := Induction for vexp Sort Prop
  with mexp_ind' := Induction for mexp Sort Prop.
Combined Scheme field_ind from sexp_ind', vexp_ind', mexp_ind'.

(* ------------------------------------------------------------------ specification *)
(* the number of entries of a vector expression: a row of an r x c matrix has c of them *)
Fixpoint vdim (v : vexp) : nat :=
  match v with
  | VConst n _ | VScal n _ | VField n _ | VDisc n _ _ _ | VGrad n _ _ => n
  | VBin _ a _ => vdim a | VNeg a => vdim a
  | VMul m _ => mrows m | VRow m _ => mcols m | VCol m _ => mrows m
  end.
(* the point moved by t along axis i *)
Definition move (x : vec) (i : nat) (t : R) : vec := fun k => if (k =? i)%nat then x k + t else x k.
(* the row of data a discretised leaf stands for *)
Definition row_of (cur : option nat) (d : nat -> R) : R := match cur with None => 0 | Some k => d k end.

(* the central second differences *)
Definition second_difference (f : vec -> R) (h : R) (i j : nat) (x : vec) : R :=
  if (i =? j)%nat then
    (- f (move x i (2 * h)) + 16 * f (move x i h) - 30 * f x + 16 * f (move x i (- h)) - f (move x i (- (2 * h))))
      / (12 * h * h)
  else
    (f (move (move x i h) j h) - f (move (move x i h) j (- h))
      + f (move (move x i (- h)) j (- h)) - f (move (move x i (- h)) j h)) / (4 * h * h).

(* the four operations *)
Definition arith (o : binop) (a b : R) : R :=
  match o with OAdd => a + b | OSub => a - b | OMul => a * b | ODiv => a / b end.
(* mathematical value of an expression at a point: the arithmetic of the operands' values *)
Fixpoint sval (e : sexp) (x : vec) {struct e} : R :=
  match e with
  | SConst c => c
  | SField f => f x
  | SWrap e => sval e x
  | SDisc _ d cur => row_of cur d
  | SBin o a b => arith o (sval a x) (sval b x)
  | SUn f a => f (sval a x)
  | SNeg a => - sval a x
  | SDot u v => rsum (vdim u) (fun i => vval u i x * vval v i x)
  | SAt v i => vval v i x
  | SCoeff m i j => mval m i j x
  | SProd m1 m2 i j => rsum (mcols m1) (fun k => mval m1 i k x * mval m2 k j x)
  | SDer1 h i a => (sval a (move x i h) - sval a (move x i (- h))) / (2 * h)
  | SDer2 h i j a => second_difference (sval a) h i j x
  end
with vval (v : vexp) (i : nat) (x : vec) {struct v} : R :=
  match v with
  | VConst _ c => c i
  | VScal _ c => c
  | VField _ f => f i x
  | VDisc _ _ d cur => row_of cur (fun k => d k i)
  | VBin o a b => arith o (vval a i x) (vval b i x)
  | VNeg a => - vval a i x
  | VMul m v => rsum (mcols m) (fun k => mval m i k x * vval v k x)
  | VRow m r => mval m r i x
  | VCol m c => mval m i c x
  | VGrad _ h a => (sval a (move x i h) - sval a (move x i (- h))) / (2 * h)
  end
with mval (m : mexp) (i j : nat) (x : vec) {struct m} : R :=
  match m with
  | MConst _ _ a => a i j
  | MScal _ _ a => a
  | MField _ c f => nth (j + i * c) f (fun _ => 0) x
  | MDisc r _ _ d cur => row_of cur (fun k => d k (j * r + i)%nat)
  | MBin o a b => arith o (mval a i j x) (mval b i j x)
  | MNeg a => - mval a i j x
  | MHess _ h a => second_difference (sval a) h i j x
  end.

(* the sizes of the operands agree and every subscript is in range; data rows exist *)
Definition selected (rows : nat) (cur : option nat) : Prop :=
  match cur with None => False | Some k => (k < rows)%nat end.
Fixpoint sshaped (e : sexp) : Prop :=
  match e with
  | SConst _ | SField _ => True
  | SWrap e => sshaped e
  | SDisc n _ cur => match cur with None => True | Some k => (k < n)%nat end
  | SBin _ a b => sshaped a /\ sshaped b
  | SUn _ a | SNeg a | SDer1 _ _ a | SDer2 _ _ _ a => sshaped a
  | SDot u v => vshaped u /\ vshaped v /\ vdim u = vdim v
  | SAt v i => vshaped v /\ (i < vdim v)%nat
  | SCoeff m i j => mshaped m /\ (i < mrows m)%nat /\ (j < mcols m)%nat
  | SProd a b i j => mshaped a /\ mshaped b /\ mcols a = mrows b /\ (i < mrows a)%nat /\ (j < mcols b)%nat
  end
with vshaped (v : vexp) : Prop :=
  match v with
  | VConst _ _ | VScal _ _ | VField _ _ => True
  | VDisc _ rows _ cur => selected rows cur
  | VBin _ a b => vshaped a /\ vshaped b /\ vdim a = vdim b
  | VNeg a => vshaped a
  | VMul m v => mshaped m /\ vshaped v /\ mcols m = vdim v
  | VRow m i => mshaped m /\ (i < mrows m)%nat
  | VCol m j => mshaped m /\ (j < mcols m)%nat
  | VGrad _ _ a => sshaped a
  end
with mshaped (m : mexp) : Prop :=
  match m with
  | MConst _ _ _ | MScal _ _ _ => True
  | MField r c f => length f = (r * c)%nat
  | MDisc _ _ rows _ cur => selected rows cur
  | MBin _ a b => mshaped a /\ mshaped b /\ mrows a = mrows b /\ mcols a = mcols b
  | MNeg a => mshaped a
  | MHess _ _ a => sshaped a
  end.
(* what the library handles: row(i) is taken of square matrices only, and is never the right operand of
   dot or of a matrix-vector product *)
Definition is_row (v : vexp) : bool := match v with VRow _ _ => true | _ => false end.
Fixpoint srows_ok (e : sexp) : Prop :=
  match e with
  | SConst _ | SField _ | SDisc _ _ _ => True
  | SWrap a | SUn _ a | SNeg a | SDer1 _ _ a | SDer2 _ _ _ a => srows_ok a
  | SBin _ a b => srows_ok a /\ srows_ok b
  | SDot u v => vrows_ok u /\ vrows_ok v /\ is_row v = false
  | SAt v i => vrows_ok v
  | SCoeff m i j => mrows_ok m
  | SProd a b i j => mrows_ok a /\ mrows_ok b
  end
with vrows_ok (v : vexp) : Prop :=
  match v with
  | VConst _ _ | VScal _ _ | VField _ _ | VDisc _ _ _ _ => True
  | VBin _ a b => vrows_ok a /\ vrows_ok b
  | VNeg a => vrows_ok a
  | VMul m v => mrows_ok m /\ vrows_ok v /\ is_row v = false
  | VRow m i => mrows_ok m /\ mrows m = mcols m
  | VCol m j => mrows_ok m
  | VGrad _ _ a => srows_ok a
  end
with mrows_ok (m : mexp) : Prop :=
  match m with
  | MConst _ _ _ | MScal _ _ _ | MField _ _ _ | MDisc _ _ _ _ _ => True
  | MBin _ a b => mrows_ok a /\ mrows_ok b
  | MNeg a => mrows_ok a
  | MHess _ _ a => srows_ok a
  end.

(* ------------------------------------------------------------------ C71 *)
Lemma foldM_sum : forall (f : nat -> Res R) (g : nat -> R) n k s, (forall i, (i < k + n)%nat -> f i = Ok (g i)) ->
  foldM (fun s i => t <- f i ;; Ok (s + t)) (seq k n) s = Ok (s + rsum n (fun i => g (k + i)%nat)).
Proof.
  intros f g n. induction n as [|n IH]; intros k s H; cbn [seq foldM rsum]; [f_equal; lra|].
  rewrite H by lia. cbn [bind]. rewrite IH by (intros i Hi; apply H; lia). f_equal.
  assert (E : forall m, rsum (S m) (fun i => g (k + i)%nat) = g k + rsum m (fun i => g (S k + i)%nat)).
  { induction m as [|m IHm]; [cbn; rewrite Nat.add_0_r; lra|].
    change (rsum (S m) (fun i => g (k + i)%nat) + g (k + S m)%nat = g k + (rsum m (fun i => g (S k + i)%nat) + g (S k + m)%nat)).
    rewrite IHm. replace (k + S m)%nat with (S k + m)%nat by lia. lra. }
  specialize (E n). cbn [rsum] in E. lra.
Qed.
Lemma sum_loop_ok (f : nat -> Res R) (g : nat -> R) n : (forall i, (i < n)%nat -> f i = Ok (g i)) -> sum_loop n f = Ok (rsum n g).
Proof.
  intros H. unfold sum_loop. rewrite (foldM_sum f g n 0 0) by (intros; apply H; lia). f_equal.
  rewrite Rplus_0_l. apply rsum_ext. reflexivity.
Qed.
Lemma mapM_fun {A B} (f : A -> Res B) g (l : list A) : (forall a, In a l -> f a = Ok (g a)) -> mapM f l = Ok (map g l).
Proof.
  induction l as [|a l IH]; intros H; cbn; auto. rewrite H by (left; auto). cbn [bind].
  rewrite IH by (intros; apply H; right; auto). reflexivity.
Qed.

Lemma vec_ext (x y : vec) : (forall k, x k = y k) -> x = y.
Proof. intros. apply functional_extensionality; auto. Qed.
Ltac veq := apply vec_ext; intros ?k; unfold set, move;
  repeat (match goal with |- context [Nat.eqb ?a ?b] => destruct (Nat.eqb_spec a b) end; subst; try congruence); try lra.
Lemma diff1_ok f g h i x : (forall y, f y = Ok (g y)) ->
  diff1 f h i x = Ok ((g (move x i h) - g (move x i (- h))) / (2 * h)).
Proof.
  intros H. unfold diff1. rewrite !H. cbn [bind].
  match goal with |- Ok ((g ?a - g ?b) / _) = _ =>
    replace b with (move x i (- h)) by veq; replace a with (move x i h) by veq end. reflexivity.
Qed.
Lemma diff2_ok f g h i j x : (forall y, f y = Ok (g y)) -> diff2 f h i j x = Ok (second_difference g h i j x).
Proof.
  intros H. unfold diff2, second_difference. destruct (Nat.eqb_spec i j) as [->|Hij]; rewrite !H; cbn [bind].
  - match goal with |- Ok ((- g ?a + 16 * g ?b - 30 * g ?c + 16 * g ?d - g ?e) / _) = _ =>
      replace e with (move x j (- (2 * h))) by veq; replace d with (move x j (- h)) by veq;
      replace c with x by veq; replace b with (move x j h) by veq; replace a with (move x j (2 * h)) by veq end. reflexivity.
  - match goal with |- Ok ((g ?a - g ?b + g ?c - g ?d) / _) = _ =>
      replace d with (move (move x i (- h)) j h) by veq; replace c with (move (move x i (- h)) j (- h)) by veq;
      replace b with (move (move x i h) j (- h)) by veq; replace a with (move (move x i h) j h) by veq end. reflexivity.
Qed.

Lemma entry_ok n c i : (i < n)%nat -> entry n c i = Ok (c i).
Proof. intros H. unfold entry. apply Nat.ltb_lt in H. rewrite H. auto. Qed.
Lemma vdim_outer : forall v, vrows_ok v -> vdim v = vouter v.
Proof.
  induction v; cbn [vrows_ok vdim vouter]; intros H; auto.
  - apply IHv1, H.
  - symmetry; apply H.
Qed.
(* the number of terms of the loop is the number of entries, when the right operand is not a row *)
Lemma dot_outer_ok u v : vrows_ok u -> vrows_ok v -> is_row v = false -> vdim u = vdim v ->
  dot_outer (vrows u) (vcols u) (vrows v) (vcols v) = vdim u.
Proof.
  intros Hu Hv Hr Hd.
  assert (Ev : vrows v = vdim v /\ vcols v = 1%nat).
  { rewrite (vdim_outer v Hv). destruct v; cbn in *; auto; discriminate. }
  destruct Ev as [E1 E2]. rewrite E1, E2. destruct u as [| | | | | | | m i | |]; unfold dot_outer;
    try (cbn [vcols vrows]; rewrite Nat.eqb_refl, <- vdim_outer by auto; reflexivity).
  cbn [vcols vrows] in *. cbn [vdim] in *. rewrite Hd.
  destruct (Nat.eqb_spec (vdim v) 1); [lia|]. rewrite Nat.eqb_refl. reflexivity.
Qed.
Lemma matvec_outer_ok K v : vrows_ok v -> is_row v = false -> K = vdim v ->
  dot_outer 1 K (vrows v) (vcols v) = K.
Proof.
  intros Hv Hr Hd.
  assert (Ev : vrows v = vdim v /\ vcols v = 1%nat).
  { rewrite (vdim_outer v Hv). destruct v; cbn in *; auto; discriminate. }
  destruct Ev as [E1 E2]. rewrite E1, E2. unfold dot_outer. destruct (Nat.eqb_spec K 1); [lia|].
  rewrite <- Hd, Nat.eqb_refl. reflexivity.
Qed.
Lemma matmat_outer_ok a b : a = b -> dot_outer 1 a b 1 = a.
Proof. intros ->. unfold dot_outer. destruct (Nat.eqb_spec b 1); [lia|]. rewrite Nat.eqb_refl. auto. Qed.

Lemma C71_mutual :
  (forall e, sshaped e -> srows_ok e -> forall x, seval e x = Ok (sval e x)) /\
  (forall v, vshaped v -> vrows_ok v -> forall i x, (i < vdim v)%nat -> velem v i x = Ok (vval v i x)) /\
  (forall m, mshaped m -> mrows_ok m -> forall i j x, (i < mrows m)%nat -> (j < mcols m)%nat ->
     mcoeff m i j x = Ok (mval m i j x)).
Proof.
  apply field_ind; intros; cbn [sshaped vshaped mshaped srows_ok vrows_ok mrows_ok] in *;
    cbn [seval velem mcoeff sval vval mval vdim mrows mcols] in *; auto.
  - (* disc *) destruct cur as [k|]; cbn [row_of]; auto. apply Nat.ltb_lt in H. rewrite H. auto.
  - rewrite H, H0 by tauto. reflexivity.
  - rewrite H by tauto. reflexivity.
  - rewrite H by tauto. reflexivity.
  - rewrite dot_outer_ok by tauto. apply sum_loop_ok. intros i Hi.
    rewrite H, H0 by (try tauto; destruct H1 as (_ & _ & <-); auto). reflexivity.
  - apply H; tauto.
  - apply H; tauto.
  - rewrite matmat_outer_ok by tauto. apply sum_loop_ok. intros k Hk.
    destruct H1 as (A & B & C & D & E). rewrite H, H0 by (try tauto; lia). reflexivity.
  - apply diff1_ok. auto.
  - apply diff2_ok. auto.
  - apply entry_ok; auto.
  - apply entry_ok; auto.
  - destruct cur as [k|]; cbn in H; [|contradiction]. apply Nat.ltb_lt in H. rewrite H. apply entry_ok; auto.
  - destruct H1 as (A & B & C). rewrite H, H0 by (try tauto; lia). reflexivity.
  - rewrite H by tauto. reflexivity.
  - destruct H1 as (A & B & C), H2 as (D & E & F).
    rewrite matvec_outer_ok by auto. apply sum_loop_ok. intros k Hk. rewrite H, H0 by (auto; lia). reflexivity.
  - apply H; tauto.
  - apply H; tauto.
  - apply Nat.ltb_lt in H2. rewrite H2. apply diff1_ok. auto.
  - apply Nat.ltb_lt in H1. rewrite H1. apply entry_ok; auto.
  - unfold nth_res. destruct (nth_error f (j + i * c)) as [g|] eqn:E.
    + rewrite (nth_error_nth _ _ _ E). reflexivity.
    + exfalso. apply nth_error_None in E. rewrite H in E. nia.
  - destruct cur as [k|]; cbn in H; [|contradiction]. apply Nat.ltb_lt in H, H1, H2. rewrite H, H1, H2. reflexivity.
  - destruct H1 as (A & B & C & D). rewrite H, H0 by (try tauto; lia). reflexivity.
  - rewrite H by tauto. reflexivity.
  - apply Nat.ltb_lt in H2, H3. rewrite H2, H3. apply diff2_ok. auto.
Qed.

(* every well-shaped expression whose rows are used as above evaluates, without undefined behaviour, to
   the arithmetic of the operands' values *)
Theorem C71_eval_partial :
  (forall e x, sshaped e -> srows_ok e -> seval e x = Ok (sval e x)) /\
  (forall v x, vshaped v -> vrows_ok v -> veval v x = Ok (map (fun i => vval v i x) (seq 0 (vdim v)))) /\
  (forall m x, mshaped m -> mrows_ok m ->
     meval m x = Ok (map (fun i => map (fun j => mval m i j x) (seq 0 (mcols m))) (seq 0 (mrows m)))).
Proof.
  destruct C71_mutual as (HS & HV & HM). split; [|split].
  - intros. apply HS; auto.
  - intros v x H1 H2. unfold veval. rewrite <- vdim_outer by auto. apply mapM_fun.
    intros i Hi. apply in_seq in Hi. apply HV; auto; lia.
  - intros m x H1 H2. unfold meval. apply mapM_fun. intros i Hi. apply in_seq in Hi.
    apply mapM_fun. intros j Hj. apply in_seq in Hj. apply HM; auto; lia.
Qed.
(* the same restriction does not touch expressions without row(i): matrix products, dot products,
   arithmetic, columns, gradients and Hessians are all covered *)
Fixpoint sno_row (e : sexp) : Prop :=
  match e with
  | SConst _ | SField _ | SDisc _ _ _ => True
  | SWrap a | SUn _ a | SNeg a | SDer1 _ _ a | SDer2 _ _ _ a => sno_row a
  | SBin _ a b => sno_row a /\ sno_row b
  | SDot u v => vno_row u /\ vno_row v
  | SAt v i => vno_row v
  | SCoeff m i j => mno_row m
  | SProd a b i j => mno_row a /\ mno_row b
  end
with vno_row (v : vexp) : Prop :=
  match v with
  | VConst _ _ | VScal _ _ | VField _ _ | VDisc _ _ _ _ => True
  | VBin _ a b => vno_row a /\ vno_row b
  | VNeg a => vno_row a
  | VMul m v => mno_row m /\ vno_row v
  | VRow m i => False
  | VCol m j => mno_row m
  | VGrad _ _ a => sno_row a
  end
with mno_row (m : mexp) : Prop :=
  match m with
  | MConst _ _ _ | MScal _ _ _ | MField _ _ _ | MDisc _ _ _ _ _ => True
  | MBin _ a b => mno_row a /\ mno_row b
  | MNeg a => mno_row a
  | MHess _ _ a => sno_row a
  end.
Lemma no_row_ok : (forall e, sno_row e -> srows_ok e) /\ (forall v, vno_row v -> vrows_ok v /\ is_row v = false) /\
  (forall m, mno_row m -> mrows_ok m).
Proof. apply field_ind; intros; cbn in *; intuition. Qed.
Theorem C71_eval_without_rows e x : sshaped e -> sno_row e -> seval e x = Ok (sval e x).
Proof. intros H1 H2. apply C71_eval_partial; auto. apply no_row_ok; auto. Qed.

(* a row as right operand of dot: only the first product is taken; a row of a 2 x 3 matrix evaluates to two
   entries instead of three; a row of a 3 x 2 matrix is read out of bounds *)
Definition ones2 : vexp := VConst 2 (fun _ => 1).
Definition mat (r c : nat) : mexp := MConst r c (fun i j => INR (i + j) + 1).
Theorem C71_eval_refuted :
  (exists e x, sshaped e /\ seval e x = Ok 1 /\ sval e x = 3) /\
  (exists v x l, vshaped v /\ veval v x = Ok l /\ length l = 2%nat /\ vdim v = 3%nat) /\
  (exists v x, vshaped v /\ veval v x = UB).
Proof.
  split; [|split].
  - exists (SDot ones2 (VRow (mat 2 2) 0)), (fun _ => 0). split; [|split].
    + cbn. repeat split; lia.
    + cbn. f_equal. lra.
    + cbn. lra.
  - exists (VRow (mat 2 3) 0), (fun _ => 0), [INR 0 + 1; INR 1 + 1]. split; [|split; [|split]]; auto.
    cbn; split; auto; lia.
  - exists (VRow (mat 3 2) 0), (fun _ => 0). split; auto. cbn; split; auto; lia.
Qed.
(* non-vacuity: (A u) . (u - g) + 3 / f with A varying in space *)
Example C71_example : exists e, sshaped e /\ sno_row e /\
  e = SBin OAdd (SDot (VMul (MField 2 2 [(fun x => x 0%nat); (fun _ => 2); (fun _ => 0); (fun x => x 1%nat)]) ones2)
                      (VBin OSub ones2 (VGrad 2 1 (SField (fun x => x 0%nat * x 1%nat)))))
                (SBin ODiv (SConst 3) (SUn exp (SField (fun x => x 0%nat)))).
Proof. eexists. split; [|split]; [| |reflexivity]; cbn; repeat split. Qed.

(* ------------------------------------------------------------------ C72 *)
(* the expression in which every discretised field has been replaced by its k-th datum *)
Fixpoint sat (k : nat) (e : sexp) : sexp :=
  match e with
  | SDisc n d _ => SConst (d k)
  | SConst _ | SField _ => e
  | SWrap a => SWrap (sat k a)
  | SBin o a b => SBin o (sat k a) (sat k b)
  | SUn f a => SUn f (sat k a)
  | SNeg a => SNeg (sat k a)
  | SDot u v => SDot (vat k u) (vat k v)
  | SAt v i => SAt (vat k v) i
  | SCoeff m i j => SCoeff (mat_ k m) i j
  | SProd a b i j => SProd (mat_ k a) (mat_ k b) i j
  | SDer1 h i a => SDer1 h i (sat k a)
  | SDer2 h i j a => SDer2 h i j (sat k a)
  end
with vat (k : nat) (v : vexp) : vexp :=
  match v with
  | VDisc n _ d _ => VConst n (d k)
  | VConst _ _ | VScal _ _ | VField _ _ => v
  | VBin o a b => VBin o (vat k a) (vat k b)
  | VNeg a => VNeg (vat k a)
  | VMul m v => VMul (mat_ k m) (vat k v)
  | VRow m i => VRow (mat_ k m) i
  | VCol m j => VCol (mat_ k m) j
  | VGrad n h a => VGrad n h (sat k a)
  end
with mat_ (k : nat) (m : mexp) : mexp :=
  match m with
  | MDisc r c _ d _ => MConst r c (fun i j => d k (j * r + i)%nat)
  | MConst _ _ _ | MScal _ _ _ | MField _ _ _ => m
  | MBin o a b => MBin o (mat_ k a) (mat_ k b)
  | MNeg a => MNeg (mat_ k a)
  | MHess n h a => MHess n h (sat k a)
  end.
(* every discretised field has a k-th datum *)
Fixpoint shas (k : nat) (e : sexp) : Prop :=
  match e with
  | SDisc n _ _ => (k < n)%nat
  | SConst _ | SField _ => True
  | SWrap a | SUn _ a | SNeg a | SDer1 _ _ a | SDer2 _ _ _ a => shas k a
  | SBin _ a b => shas k a /\ shas k b
  | SDot u v => vhas k u /\ vhas k v
  | SAt v i => vhas k v
  | SCoeff m i j => mhas k m
  | SProd a b i j => mhas k a /\ mhas k b
  end
with vhas (k : nat) (v : vexp) : Prop :=
  match v with
  | VDisc _ rows _ _ => (k < rows)%nat
  | VConst _ _ | VScal _ _ | VField _ _ => True
  | VBin _ a b => vhas k a /\ vhas k b
  | VNeg a => vhas k a
  | VMul m v => mhas k m /\ vhas k v
  | VRow m i => mhas k m
  | VCol m j => mhas k m
  | VGrad _ _ a => shas k a
  end
with mhas (k : nat) (m : mexp) : Prop :=
  match m with
  | MDisc _ _ rows _ _ => (k < rows)%nat
  | MConst _ _ _ | MScal _ _ _ | MField _ _ _ => True
  | MBin _ a b => mhas k a /\ mhas k b
  | MNeg a => mhas k a
  | MHess _ _ a => shas k a
  end.
(* no discretised field below a unary function, a derivative or an expression wrapped in a ScalarField *)
Fixpoint sclosed (e : sexp) : Prop :=
  match e with
  | SDisc _ _ _ => False
  | SConst _ | SField _ => True
  | SWrap a | SUn _ a | SNeg a | SDer1 _ _ a | SDer2 _ _ _ a => sclosed a
  | SBin _ a b => sclosed a /\ sclosed b
  | SDot u v => vclosed u /\ vclosed v
  | SAt v i => vclosed v
  | SCoeff m i j => mclosed m
  | SProd a b i j => mclosed a /\ mclosed b
  end
with vclosed (v : vexp) : Prop :=
  match v with
  | VDisc _ _ _ _ => False
  | VConst _ _ | VScal _ _ | VField _ _ => True
  | VBin _ a b => vclosed a /\ vclosed b
  | VNeg a => vclosed a
  | VMul m v => mclosed m /\ vclosed v
  | VRow m i => mclosed m
  | VCol m j => mclosed m
  | VGrad _ _ a => sclosed a
  end
with mclosed (m : mexp) : Prop :=
  match m with
  | MDisc _ _ _ _ _ => False
  | MConst _ _ _ | MScal _ _ _ | MField _ _ _ => True
  | MBin _ a b => mclosed a /\ mclosed b
  | MNeg a => mclosed a
  | MHess _ _ a => sclosed a
  end.
Fixpoint sreach (e : sexp) : Prop :=
  match e with
  | SDisc _ _ _ | SConst _ | SField _ => True
  | SWrap a | SUn _ a | SDer1 _ _ a | SDer2 _ _ _ a => sclosed a
  | SNeg a => sreach a
  | SBin _ a b => sreach a /\ sreach b
  | SDot u v => vreach u /\ vreach v
  | SAt v i => vreach v
  | SCoeff m i j => mreach m
  | SProd a b i j => mreach a /\ mreach b
  end
with vreach (v : vexp) : Prop :=
  match v with
  | VDisc _ _ _ _ | VConst _ _ | VScal _ _ | VField _ _ => True
  | VBin _ a b => vreach a /\ vreach b
  | VNeg a => vreach a
  | VMul m v => mreach m /\ vreach v
  | VRow m i => mreach m
  | VCol m j => mreach m
  | VGrad _ _ a => sclosed a
  end
with mreach (m : mexp) : Prop :=
  match m with
  | MDisc _ _ _ _ _ | MConst _ _ _ | MScal _ _ _ | MField _ _ _ => True
  | MBin _ a b => mreach a /\ mreach b
  | MNeg a => mreach a
  | MHess _ _ a => sclosed a
  end.

Lemma closed_at k : (forall e, sclosed e -> sat k e = e) /\ (forall v, vclosed v -> vat k v = v) /\
  (forall m, mclosed m -> mat_ k m = m).
Proof.
  apply field_ind; intros; cbn in *; try contradiction; auto;
    try (rewrite H by tauto; auto); try (rewrite H0 by tauto; auto).
Qed.
Lemma dims_forward k : (forall e : sexp, True) /\
  (forall v, vouter (vforward k v) = vouter (vat k v) /\ vrows (vforward k v) = vrows (vat k v) /\ vcols (vforward k v) = vcols (vat k v)) /\
  (forall m, mrows (mforward k m) = mrows (mat_ k m) /\ mcols (mforward k m) = mcols (mat_ k m)).
Proof. apply field_ind; intros; unfold vrows, vcols in *; cbn in *; intuition congruence. Qed.
Lemma sum_loop_ext n f g : (forall i, f i = g i) -> sum_loop n f = sum_loop n g.
Proof. intros H. replace g with f; auto. apply functional_extensionality; auto. Qed.

Theorem C72_forward_partial k :
  (forall e, sreach e -> shas k e -> forall x, seval (sforward k e) x = seval (sat k e) x) /\
  (forall v, vreach v -> vhas k v -> forall i x, velem (vforward k v) i x = velem (vat k v) i x) /\
  (forall m, mreach m -> mhas k m -> forall i j x, mcoeff (mforward k m) i j x = mcoeff (mat_ k m) i j x).
Proof.
  destruct (closed_at k) as (CS & CV & CM). destruct (dims_forward k) as (_ & DV & DM).
  apply field_ind; intros; cbn [sreach vreach mreach shas vhas mhas sforward vforward mforward sat vat mat_] in *; auto;
    try (rewrite CS by assumption; reflexivity); cbn [seval velem mcoeff]; try (apply H; tauto).
  - apply Nat.ltb_lt in H0. rewrite H0. reflexivity.
  - rewrite H, H0 by tauto. reflexivity.
  - rewrite H by tauto. reflexivity.
  - destruct (DV u) as (_ & -> & ->), (DV v) as (_ & -> & ->). apply sum_loop_ext. intros i. rewrite H, H0 by tauto. reflexivity.
  - destruct (DM m1) as (_ & ->), (DM m2) as (-> & _). apply sum_loop_ext. intros q. rewrite H, H0 by tauto. reflexivity.
  - apply Nat.ltb_lt in H0. rewrite H0. reflexivity.
  - rewrite H, H0 by tauto. reflexivity.
  - rewrite H by tauto. reflexivity.
  - destruct (DM m) as (_ & ->), (DV v) as (_ & -> & ->). apply sum_loop_ext. intros q. rewrite H, H0 by tauto. reflexivity.
  - apply Nat.ltb_lt in H0. rewrite H0. unfold entry. destruct (i <? r), (j <? c); reflexivity.
  - rewrite H, H0 by tauto. reflexivity.
  - rewrite H by tauto. reflexivity.
Qed.
(* forwarding again selects the new row: nothing of the previous one survives *)
Theorem C72_forward_again k k' :
  (forall e, sforward k' (sforward k e) = sforward k' e) /\ (forall v, vforward k' (vforward k v) = vforward k' v) /\
  (forall m, mforward k' (mforward k m) = mforward k' m).
Proof. apply field_ind; intros; cbn; f_equal; auto. Qed.
(* below exp (any unary function), a derivative or a wrapped expression the field keeps its initial value *)
Theorem C72_forward_refuted : exists e k, shas k e /\ (forall x, seval (sforward k e) x = Ok 1) /\
  (forall x, seval (sat k e) x = Ok (exp 1)) /\ exp 1 <> 1.
Proof.
  exists (SUn exp (SDisc 2 (fun _ => 1) None)), 1%nat. cbn. split; [lia|]. split; [|split]; auto.
  - intros _. rewrite exp_0. reflexivity.
  - generalize (exp_ineq1 1). intros H. assert (1 <> 0) by lra. specialize (H H0). lra.
Qed.
Theorem C72_forward_wrapped_refuted : exists e k, shas k e /\ (forall x, seval (sforward k e) x = Ok 0) /\
  (forall x, seval (sat k e) x = Ok 1).
Proof. exists (SWrap (SNeg (SDisc 2 (fun _ => -1) None))), 1%nat. cbn. split; [lia|]. split; intros; f_equal; lra. Qed.
(* non-vacuity: K(x) g . g + c(x) with K and c discretised *)
Example C72_example : exists e, sreach e /\ shas 1 e /\
  e = SBin OAdd (SDot (VMul (MDisc 2 2 3 (fun k q => INR (k + q)) None) ones2) ones2) (SDisc 3 INR None).
Proof. eexists. split; [|split]; [| |reflexivity]; cbn; repeat split; lia. Qed.

(* ------------------------------------------------------------------ C73 *)
(* the field along axis i through x, as a function of the coordinate *)
Definition along (f : vec -> R) (x : vec) (i : nat) (t : R) : R := f (set x i t).
Definition poly (a : nat -> R) (n : nat) (t : R) : R := rsum (S n) (fun k => a k * t ^ k).

Lemma move_set x i t : move x i t = set x i (x i + t).
Proof. veq. Qed.
Lemma set_self x i : x = set x i (x i).
Proof. veq. Qed.
Lemma pow_deriv k t : derivable_pt_lim (fun t => t ^ k) t (INR k * t ^ (k - 1)).
Proof. replace (k - 1)%nat with (pred k) by lia. apply derivable_pt_lim_pow. Qed.
Lemma poly_deriv a n t : derivable_pt_lim (poly a n) t (rsum (S n) (fun k => a k * (INR k * t ^ (k - 1)))).
Proof.
  unfold poly. induction n as [|n IH].
  - cbn. replace (0 + a 0%nat * (0 * 1)) with (0 + 0) by lra.
    apply (derivable_pt_lim_plus (fun _ => 0) (fun _ => a 0%nat * 1)); apply derivable_pt_lim_const.
  - change (derivable_pt_lim (fun t => rsum (S n) (fun k => a k * t ^ k) + a (S n) * t ^ (S n)) t
      (rsum (S n) (fun k => a k * (INR k * t ^ (k - 1))) + a (S n) * (INR (S n) * t ^ (S n - 1)))).
    apply (derivable_pt_lim_plus (fun t => rsum (S n) (fun k => a k * t ^ k)) (fun t => a (S n) * t ^ (S n))); auto.
    apply (derivable_pt_lim_scal (fun t => t ^ S n)), pow_deriv.
Qed.
Lemma dlim_ext f g t d : (forall s, f s = g s) -> derivable_pt_lim f t d -> derivable_pt_lim g t d.
Proof. intros H D. replace g with f; auto. apply functional_extensionality; auto. Qed.

Theorem C73_gradient f x i h a : h <> 0 -> (forall t, along f x i t = poly a 2 t) ->
  exists d, seval (SDer1 h i (SField f)) x = Ok d /\ derivable_pt_lim (along f x i) (x i) d.
Proof.
  intros Hh Hf. eexists. split.
  - cbn [seval]. apply (diff1_ok _ f). reflexivity.
  - rewrite !move_set. fold (along f x i (x i + h)) (along f x i (x i + - h)). rewrite !Hf.
    eapply dlim_ext; [intros s; symmetry; apply Hf|].
    replace ((poly a 2 (x i + h) - poly a 2 (x i + - h)) / (2 * h))
      with (rsum 3 (fun k => a k * (INR k * (x i) ^ (k - 1)))) by (unfold poly; cbn; field; auto).
    apply poly_deriv.
Qed.
(* the same difference is what derive() (the gradient expression) holds in its i-th component *)
Theorem C73_gradient_component n h a i x : (i < n)%nat -> velem (VGrad n h a) i x = seval (SDer1 h i a) x.
Proof. intros H. cbn [velem seval]. apply Nat.ltb_lt in H. rewrite H. reflexivity. Qed.

Theorem C73_second f x i h a : h <> 0 -> (forall t, along f x i t = poly a 5 t) ->
  exists d g, seval (SDer2 h i i (SField f)) x = Ok d /\
    (forall t, derivable_pt_lim (along f x i) t (g t)) /\ derivable_pt_lim g (x i) d.
Proof.
  intros Hh Hf. eexists. exists (poly (fun k => a (S k) * INR (S k)) 4). split; [|split].
  - cbn [seval]. apply (diff2_ok _ f). reflexivity.
  - intros t. eapply dlim_ext; [intros s; symmetry; apply Hf|].
    replace (poly (fun k => a (S k) * INR (S k)) 4 t) with (rsum 6 (fun k => a k * (INR k * t ^ (k - 1))))
      by (unfold poly; cbn; ring).
    apply poly_deriv.
  - unfold second_difference. rewrite Nat.eqb_refl, !move_set.
    replace (f x) with (along f x i (x i)) by (unfold along; rewrite <- set_self; reflexivity).
    fold (along f x i (x i + 2 * h)) (along f x i (x i + h)) (along f x i (x i + - h)) (along f x i (x i + - (2 * h))).
    rewrite !Hf.
    match goal with |- derivable_pt_lim _ _ ?d =>
      replace d with (rsum 5 (fun k => a (S k) * INR (S k) * (INR k * (x i) ^ (k - 1)))) by (unfold poly; cbn; field; auto) end.
    apply (poly_deriv (fun k => a (S k) * INR (S k)) 4).
Qed.

(* two coordinates, degree at most two in each *)
Definition along2 (f : vec -> R) (x : vec) (i j : nat) (s t : R) : R := f (set (set x i s) j t).
Definition poly2 (a : nat -> nat -> R) (s t : R) : R := poly (fun k => poly (a k) 2 t) 2 s.
Theorem C73_mixed f x i j h a : h <> 0 -> i <> j -> (forall s t, along2 f x i j s t = poly2 a s t) ->
  exists d g, seval (SDer2 h i j (SField f)) x = Ok d /\
    (forall s t, derivable_pt_lim (along2 f x i j s) t (g s t)) /\ derivable_pt_lim (fun s => g s (x j)) (x i) d.
Proof.
  intros Hh Hij Hf. eexists.
  exists (fun s t => rsum 3 (fun l => rsum 3 (fun k => a k l * s ^ k) * (INR l * t ^ (l - 1)))). split; [|split].
  - cbn [seval]. apply (diff2_ok _ f). reflexivity.
  - intros s t. eapply dlim_ext; [intros t'; symmetry; apply Hf|].
    eapply dlim_ext; [|apply (poly_deriv (fun l => rsum 3 (fun k => a k l * s ^ k)) 2)].
    intros t'. unfold poly2, poly. cbn. ring.
  - unfold second_difference. destruct (Nat.eqb_spec i j) as [|_]; [contradiction|].
    assert (E : forall s t, move (move x i s) j t = set (set x i (x i + s)) j (x j + t)) by (intros; veq).
    rewrite !E. fold (along2 f x i j (x i + h) (x j + h)) (along2 f x i j (x i + h) (x j + - h))
      (along2 f x i j (x i + - h) (x j + h)) (along2 f x i j (x i + - h) (x j + - h)). rewrite !Hf.
    match goal with |- derivable_pt_lim _ _ ?d =>
      replace d with (rsum 3 (fun k => rsum 3 (fun l => a k l * (INR l * x j ^ (l - 1))) * (INR k * x i ^ (k - 1))))
        by (unfold poly2, poly; cbn; field; auto) end.
    eapply dlim_ext; [|apply (poly_deriv (fun k => rsum 3 (fun l => a k l * (INR l * x j ^ (l - 1)))) 2)].
    intros s. unfold poly. cbn. ring.
Qed.
Theorem C73_hessian_component n h a i j x : (i < n)%nat -> (j < n)%nat ->
  mcoeff (MHess n h a) i j x = seval (SDer2 h i j a) x.
Proof. intros H1 H2. cbn [mcoeff seval]. apply Nat.ltb_lt in H1, H2. rewrite H1, H2. reflexivity. Qed.
(* non-vacuity: x0^2 x1 - 3 x0 is quadratic along axis 0 and biquadratic in (x0, x1) *)
Example C73_example : let f := fun x : vec => x 0%nat * x 0%nat * x 1%nat - 3 * x 0%nat in
  (forall x, exists a, forall t, along f x 0 t = poly a 2 t) /\
  (forall x, exists a, forall s t, along2 f x 0 1 s t = poly2 a s t).
Proof.
  intros f. split; intros x.
  - exists (fun k => match k with O => 0 | 1%nat => -3 | _ => x 1%nat end). intros t. unfold along, f, set, poly. cbn. ring.
  - exists (fun k l => match k, l with 1%nat, O => -3 | 2%nat, 1%nat => 1 | _, _ => 0 end). intros s t.
    unfold along2, f, set, poly2, poly. cbn. ring.
Qed.

(* ------------------------------------------------------------------ C108 *)
(* the numerical Hessian of any field whatsoever is a symmetric matrix *)
Theorem C108_hessian_symmetric n h f x : exists H : nat -> nat -> R,
  meval (MHess n h (SField f)) x = Ok (map (fun i => map (fun j => H i j) (seq 0 n)) (seq 0 n)) /\
  forall i j, H i j = H j i.
Proof.
  exists (fun i j => second_difference f h i j x). split.
  - unfold meval. cbn [mrows mcols]. apply mapM_fun. intros i Hi. apply in_seq in Hi. apply mapM_fun. intros j Hj.
    apply in_seq in Hj. rewrite C73_hessian_component by lia. cbn [seval]. apply diff2_ok. reflexivity.
  - intros i j. unfold second_difference. rewrite (Nat.eqb_sym j i).
    destruct (Nat.eqb_spec i j) as [->|Hij]; [reflexivity|].
    assert (E : forall s t, move (move x j s) i t = move (move x i t) j s) by (intros; veq).
    rewrite !E. f_equal. lra.
Qed.
