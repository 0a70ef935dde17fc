(* C155-C158: the spline PDE solver. *)
From Coq Require Import Lia Lra Psatz.
From Verif Require Import SimplexProps FieldProps FemProps EvalProps QuadProps SolverProps LinAlg SplineSolverModel SplineModel SplineProps.
Local Close Scope Q_scope.
Local Open Scope R_scope.

(* ------------------------------------------------------------------ specification *)
(* the affine map of the domain onto [-1, 1] *)
Definition to_reference (u : list R) (x : R) : R := (2 * x - (first_knot u + last_knot u)) / (last_knot u - first_knot u).
(* the tolerance at the right end treats x and its image alike: both are outside it, or x is the right end itself *)
Definition clear_of_end (u : list R) (x : R) : Prop :=
  x = last_knot u \/ (tol <= last_knot u - x /\ tol <= 1 - to_reference u x).

(* ------------------------------------------------------------------ proofs *)
Lemma last_pos u : knots_ok u -> first_knot u < last_knot u.
Proof.
  intros (L & M & G). pose proof tol_pos. unfold first_knot, last_knot.
  specialize (M 0%nat (length u - 2)%nat ltac:(lia)). lra.
Qed.
Section Map.
Variables (t t' : nat -> R) (s c : R).
Hypothesis (Hs : 0 < s).
Local Notation f := (fun x => s * x + c).
Lemma rc_map r i : t' i = f (t i) -> t' (i + r)%nat = f (t (i + r)%nat) -> rc t' r i = rc t r i / s.
Proof.
  intros E1 E2. unfold rc. rewrite E1, E2. destruct (Req_EM_T (s * t (i + r)%nat + c - (s * t i + c)) 0) as [Z|Z], (Req_EM_T (t (i + r)%nat - t i) 0) as [Z'|Z'].
  - field. lra.
  - exfalso. apply Z'. replace (s * t (i + r)%nat + c - (s * t i + c)) with (s * (t (i + r)%nat - t i)) in Z by ring. apply Rmult_integral in Z. lra.
  - exfalso. apply Z. replace (s * t (i + r)%nat + c - (s * t i + c)) with (s * (t (i + r)%nat - t i)) by ring. rewrite Z'. ring.
  - replace (s * t (i + r)%nat + c - (s * t i + c)) with (s * (t (i + r)%nat - t i)) by ring. field. lra.
Qed.
Lemma cox_map B x r : forall i, (forall k, (i <= k <= i + r + 1)%nat -> t' k = f (t k)) -> cox t' B r i (f x) = cox t B r i x.
Proof.
  induction r as [|r IH]; intros i H; cbn [cox]; [reflexivity|].
  rewrite (rc_map (S r) i), (rc_map (S r) (i + 1)) by (apply H; lia). rewrite (IH i), (IH (i + 1)%nat) by (intros; apply H; lia).
  rewrite (H i), (H (i + S r + 1)%nat) by lia. field. lra.
Qed.
Lemma dcox_map B x K : forall r i, (forall k, (i <= k <= i + r + 1)%nat -> t' k = f (t k)) -> dcox t' B K r i (f x) = (/ s) ^ K * dcox t B K r i x.
Proof.
  induction K as [|K IH]; intros r i H.
  - cbn [dcox pow]. rewrite cox_map by auto. ring.
  - cbn [dcox pow]. destruct r as [|r]; [ring|]. rewrite (rc_map (S r) i), (rc_map (S r) (i + 1)) by (apply H; lia).
    rewrite (IH r i), (IH r (i + 1)%nat) by (intros; apply H; lia). field. lra.
Qed.
End Map.
Section Reference.
Variables (r : nat) (u : list R).
Hypothesis Hu : knots_ok u.
Let a := first_knot u.
Let b := last_knot u.
Let sc := 2 / (b - a).
Let of_ := - (b + a) / (b - a).
Lemma sc_pos : 0 < sc.
Proof. unfold sc. pose proof (last_pos u Hu). apply Rdiv_lt_0_compat; unfold a, b; lra. Qed.
Lemma ref_form x : to_reference u x = sc * x + of_.
Proof. unfold to_reference, sc, of_. fold a b. pose proof (last_pos u Hu). fold a b in H. field. lra. Qed.
Lemma ref_nodes_ok : reference_nodes u = Ok (map (to_reference u) u).
Proof.
  pose proof Hu as (L & _ & _). unfold reference_nodes. rewrite (nth_res_kn u 0), (nth_res_kn u (length u - 1)) by lia. cbn [bind]. unfold kn. fold (first_knot u) (last_knot u).
  pose proof (last_pos u Hu). destruct (Req_EM_T (last_knot u) (first_knot u)); [lra|]. f_equal. apply map_ext. intros x. unfold to_reference. field. lra.
Qed.
Lemma ref_nth i : (i < length u)%nat -> nth i (map (to_reference u) u) 0 = to_reference u (nth i u 0).
Proof. intros Hi. rewrite (nth_indep _ 0 (to_reference u 0)) by (rewrite map_length; auto). apply map_nth. Qed.
Lemma ref_pad : pad_knots r (map (to_reference u) u) = Ok (map (to_reference u) (padded r u)).
Proof.
  pose proof Hu as (L & _ & _). unfold pad_knots. rewrite map_length. unfold padded. rewrite map_map. apply mapM_fun. intros i Hi. apply in_seq in Hi.
  assert (G : forall k, (k < length u)%nat -> nth_res (map (to_reference u) u) k = Ok (to_reference u (nth k u 0))).
  { intros k Hk. rewrite nth_res_kn by (rewrite map_length; auto). unfold kn. now rewrite ref_nth. }
  destruct (Nat.ltb_spec i r); [|destruct (Nat.ltb_spec i (length u + r))]; rewrite G by lia; do 3 f_equal; lia.
Qed.
Lemma ref_kn i : (i < length (padded r u))%nat -> kn (map (to_reference u) (padded r u)) i = sc * kn (padded r u) i + of_.
Proof.
  intros Hi. unfold kn. rewrite (nth_indep _ 0 (to_reference u 0)) by (rewrite map_length; auto). rewrite map_nth. apply ref_form.
Qed.
Lemma ind_map j x : (j + 1 < length (padded r u))%nat -> x <= b -> clear_of_end u x ->
  ind (kn (map (to_reference u) (padded r u))) (length (map (to_reference u) (padded r u))) r j (to_reference u x) = ind (kn (padded r u)) (length (padded r u)) r j x.
Proof.
  intros Hj Hx Hc. unfold ind. rewrite map_length. rewrite !ref_kn by lia. pose proof sc_pos as SP. pose proof tol_pos as TP.
  rewrite (p_last r u Hu). fold b. rewrite ref_form.
  assert (E1 : Rleb (sc * kn (padded r u) j + of_) (sc * x + of_) = Rleb (kn (padded r u) j) x).
  { unfold Rleb. destruct (Rle_dec (sc * _ + of_) _), (Rle_dec (kn _ j) x); try reflexivity; exfalso.
    - apply n. apply Rmult_le_reg_l with sc; lra.
    - apply n. apply Rplus_le_compat_r. apply Rmult_le_compat_l; lra. }
  assert (E2 : Rltb (sc * x + of_) (sc * kn (padded r u) (S j) + of_) = Rltb x (kn (padded r u) (S j))).
  { unfold Rltb. destruct (Rlt_dec (sc * x + of_) _), (Rlt_dec x _); try reflexivity; exfalso.
    - apply n. apply Rmult_lt_reg_l with sc; lra.
    - apply n. apply Rplus_lt_compat_r. apply Rmult_lt_compat_l; lra. }
  assert (E3 : Rltb (Rabs (sc * x + of_ - (sc * b + of_))) tol = Rltb (Rabs (x - b)) tol).
  { replace (sc * x + of_ - (sc * b + of_)) with (sc * (x - b)) by ring. unfold Rltb. destruct Hc as [->|[C1 C2]].
    - fold b. rewrite !Rminus_diag_eq, Rmult_0_r, Rabs_R0 by reflexivity. destruct (Rlt_dec 0 tol); lra.
    - fold b in C1. assert (T : 1 - to_reference u x = sc * (b - x)).
      { rewrite ref_form. unfold sc, of_. pose proof (last_pos u Hu). fold a b in H. field. lra. }
      rewrite T in C2. rewrite (Rabs_left1 (sc * (x - b))), (Rabs_left1 (x - b)) by nra.
      destruct (Rlt_dec (- (sc * (x - b))) tol), (Rlt_dec (- (x - b)) tol); try reflexivity; exfalso; lra. }
  rewrite E1, E2, E3. reflexivity.
Qed.
End Reference.

(* C155: the reference basis is the basis of the domain carried to [-1, 1] *)
Theorem C155_reference r u op f : knots_ok u -> exists s, spline_pde r u op f = Ok s /\
  basis_size r (sp_ref_knots s) = basis_size r (sp_knots s) /\
  (* its knots: sorted, from -1 to 1 *)
  (length (sp_ref_knots s) = length (sp_knots s)) /\ nth 0 (sp_ref_knots s) 0 = -1 /\ nth (length (sp_ref_knots s) - 1) (sp_ref_knots s) 0 = 1 /\
  (forall i j, (i <= j < length (sp_ref_knots s))%nat -> nth i (sp_ref_knots s) 0 <= nth j (sp_ref_knots s) 0) /\
  (* its functions and their derivatives at the image of x *)
  forall i x K, (i < basis_size r (sp_knots s))%nat -> (K <= r)%nat -> x <= last_knot u -> clear_of_end u x ->
    spline r (sp_ref_knots s) r i (to_reference u x) = spline r (sp_knots s) r i x /\
    exists d, derive r (sp_knots s) K r i x = Ok d /\
      derive r (sp_ref_knots s) K r i (to_reference u x) = Ok (((last_knot u - first_knot u) / 2) ^ K * d).
Proof.
  intros Hu. unfold spline_pde. rewrite (pad_ok r u Hu), (ref_nodes_ok u Hu). cbn [bind]. rewrite (ref_pad r u Hu). cbn [bind]. eexists. split; [reflexivity|].
  cbn [sp_knots sp_ref_knots]. pose proof (p_len r u Hu) as PL. pose proof (last_pos u Hu) as LP. rewrite map_length.
  assert (N : forall i, (i < length (padded r u))%nat -> nth i (map (to_reference u) (padded r u)) 0 = to_reference u (nth i (padded r u) 0)).
  { intros i Hi. rewrite (nth_indep _ 0 (to_reference u 0)) by (rewrite map_length; auto). apply map_nth. }
  split; [unfold basis_size; now rewrite map_length|]. split; [reflexivity|]. split; [|split; [|split]].
  - rewrite N by lia. change (nth 0 (padded r u) 0) with (kn (padded r u) 0). rewrite (p_first r u Hu). unfold to_reference. field. lra.
  - rewrite N by lia. change (nth (length (padded r u) - 1) (padded r u) 0) with (kn (padded r u) (length (padded r u) - 1)). rewrite (p_last r u Hu). unfold to_reference. field. lra.
  - intros i j Hij. rewrite !N by lia. rewrite !(ref_form u Hu). pose proof (sc_pos u Hu) as SP. assert (M := p_mono r u Hu i j Hij). unfold kn in M.
    apply Rplus_le_compat_r. apply Rmult_le_compat_l; lra.
  - intros i x K Hi HK Hx Hc. unfold basis_size in Hi.
    assert (D : forall K, (K <= r)%nat -> derive r (map (to_reference u) (padded r u)) K r i (to_reference u x) =
       Ok (((last_knot u - first_knot u) / 2) ^ K * dcox (kn (padded r u)) (fun j => ind (kn (padded r u)) (length (padded r u)) r j x) K r i x)).
    { intros K' HK'. rewrite derive_ok by (rewrite ?map_length; lia). f_equal. rewrite (ref_form u Hu).
      rewrite (dcox_map (kn (padded r u)) _ _ _ (sc_pos u Hu) _ x K' r i) by (intros k Hk; apply (ref_kn r u Hu); lia).
      f_equal.
      - f_equal. field. lra.
      - rewrite <- (ref_form u Hu). apply dcox_ext. intros j Hj. apply (ind_map r u Hu); auto; lia. }
    split.
    + specialize (D 0%nat ltac:(lia)). cbn [derive pow] in D. rewrite D. rewrite spline_ok by lia. cbn [dcox]. f_equal. ring.
    + eexists. split; [apply derive_ok; lia|]. apply D. exact HK.
Qed.
(* a domain with fewer than two nodes, or of length zero, has no reference basis *)
Theorem C155_degenerate u : (length u <= 1)%nat \/ first_knot u = last_knot u -> reference_nodes u = UB.
Proof.
  intros H. unfold reference_nodes. destruct u as [|x u]; [reflexivity|]. rewrite (nth_res_kn _ 0), (nth_res_kn _ (length (x :: u) - 1)) by (cbn [length]; lia). cbn [bind].
  destruct (Req_EM_T _ _) as [|N]; [reflexivity|exfalso]. apply N. destruct H as [H|H].
  - destruct u; [reflexivity|cbn in H; lia].
  - unfold kn. symmetry. exact H.
Qed.

(* every way of using the object: the constructor, then any calls *)
Definition reachable (r : nat) (lu : nat -> mat -> option (vec -> vec)) (u : list R) (s : spde) : Prop :=
  exists op f s0 l, spline_pde r u op f = Ok s0 /\ srun r lu s0 l = Ok s.
Lemma reachable_inv r lu u s : knots_ok u -> reachable r lu u s ->
  sp_nodes s = u /\ sp_knots s = padded r u /\ sp_force s = empty_dmat /\ sp_success s = false /\ sp_solution s = empty_dmat.
Proof.
  intros Hu (op & f & s0 & l & E & H). unfold spline_pde in E. rewrite (pad_ok r u Hu), (ref_nodes_ok u Hu) in E. cbn [bind] in E. rewrite (ref_pad r u Hu) in E. cbn [bind] in E. injection E as <-.
  set (Inv := fun s => sp_nodes s = u /\ sp_knots s = padded r u /\ sp_force s = empty_dmat /\ sp_success s = false /\ sp_solution s = empty_dmat).
  assert (Step : forall b c b', Inv b -> sapply r lu b c = Ok b' -> Inv b').
  2:{ revert H. unfold srun. match goal with |- foldM _ _ ?q = _ -> _ => assert (J : Inv q) by (unfold Inv; cbn; auto); revert J; generalize q end. clear - Step.
      induction l as [|c l IH]; cbn [foldM]; intros q J H; [injection H as <-; exact J|]. apply bind_ok in H as (q' & H1 & H2). apply (IH q'); [now apply (Step q c)|exact H2]. }
  unfold Inv. clear H.
  intros b c b' (I1 & I2 & I3 & I4 & I5) Hc. destruct c; cbn [sapply] in Hc.
  - injection Hc as <-. cbn. auto.
  - injection Hc as <-. cbn. auto.
  - injection Hc as <-. cbn. auto.
  - unfold spline_init in Hc. apply bind_ok in Hc as (A & _ & Hc). apply bind_ok in Hc as (M & _ & Hc). injection Hc as <-. cbn. auto.
  - unfold spline_solve in Hc. assert (Hc' : spline_elliptic r lu b = Ok b') by (destruct (_ =? 0)%nat; exact Hc). clear Hc. unfold spline_elliptic in Hc'.
    destruct (sp_init b); [cbn [negb] in Hc'|discriminate]. destruct (lu _ _) as [solver|].
    + rewrite I3 in Hc'. cbn [empty_dmat drows] in Hc'. unfold spline_dofs in Hc'. rewrite I2, p_size in Hc'. destruct Hu as (L & _ & _). destruct (Nat.eqb_spec 0 (length u + r - 1)); [lia|discriminate].
    + injection Hc' as <-. cbn. auto.
Qed.
(* C156: after any history, init assembles the operator now in force and the mass matrix *)
Theorem C156_init r lu u s : knots_ok u -> reachable r lu u s -> op_ok r (sp_op s) -> exists s1, spline_init r s = Ok s1 /\
  sp_init s1 = true /\ spline_dofs r s1 = (length u + r - 1)%nat /\ sp_op s1 = sp_op s /\ sp_forcing s1 = sp_forcing s /\ sp_boundary s1 = sp_boundary s /\
  exists t, pad_knots r u = Ok t /\
  forall a b, (a < length u + r - 1)%nat -> (b < length u + r - 1)%nat ->
    (sp_stiff s1 a b = sp_stiff s1 b a /\ exists g, (forall x, sform r t (sp_op s) a b x = Ok (g x)) /\
       sp_stiff s1 a b = rsum (length t - 1) (fun k => spline_integrate (nth k t 0) (nth (S k) t 0) g)) /\
    (sp_mass s1 a b = sp_mass s1 b a /\ exists p q, (forall x, spline r t r a x = Ok (p x)) /\ (forall x, spline r t r b x = Ok (q x)) /\
       sp_mass s1 a b = rsum (length t - 1) (fun k => spline_integrate (nth k t 0) (nth (S k) t 0) (fun x => p x * q x))).
Proof.
  intros Hu Hr Ho. destruct (reachable_inv r lu u s Hu Hr) as (_ & EK & _).
  destruct (C78_assembly_partial r u (sp_op s) Hu Ho) as (t & A & Et & EA & HA). destruct (C78_assembly_partial r u mass Hu I) as (t' & M & Et' & EM & HM).
  rewrite (pad_ok r u Hu) in Et, Et'. injection Et as <-. injection Et' as <-.
  unfold spline_init. rewrite EK, EA. cbn [bind]. unfold mass in EM. rewrite EM. cbn [bind]. eexists. split; [reflexivity|].
  cbn [sp_init sp_op sp_knots sp_stiff sp_mass sp_forcing sp_boundary]. unfold spline_dofs. cbn [sp_knots]. split; [reflexivity|]. split; [apply p_size|]. do 3 (split; [reflexivity|]).
  exists (padded r u). split; [now apply pad_ok|]. pose proof (p_len r u Hu) as PL. pose proof (padded_length r u) as PL'. destruct Hu as (L & Hu2). assert (Hu : knots_ok u) by (split; auto).
  intros a b Ha Hb. rewrite <- (p_size r u) in Ha, Hb. split; [now apply HA|]. destruct (HM a b Ha Hb) as (S1 & g & Hg & E). split; [exact S1|].
  unfold basis_size in Ha, Hb.
  set (N := fun a x => cox (kn (padded r u)) (fun j => ind (kn (padded r u)) (length (padded r u)) r j x) r a x).
  exists (N a), (N b). split; [intros x; apply spline_ok; lia|]. split; [intros x; apply spline_ok; lia|]. rewrite E. apply rsum_ext. intros k _.
  assert (X : forall x, g x = N a x * N b x).
  { intros x. specialize (Hg x). cbn [sform mass] in Hg. rewrite !spline_ok in Hg by lia. cbn [bind] in Hg. injection Hg as <-. fold (N a x) (N b x). ring. }
  unfold spline_integrate, quadrature. do 2 f_equal. apply map_ext. intros p. now rewrite X.
Qed.
(* solve is refused until init has been called, and changing the problem afterwards leaves the assembled matrices alone *)
Theorem C156_order r lu u op f s0 l s : spline_pde r u op f = Ok s0 -> srun r lu s0 l = Ok s ->
  (~ In SInit l -> spline_solve r lu s = Throw) /\
  (forall c, match c with SInit => False | _ => True end -> forall s', sapply r lu s c = Ok s' -> sp_stiff s' = sp_stiff s /\ sp_mass s' = sp_mass s).
Proof.
  intros E H. split.
  - intros HI. assert (J : sp_init s = false).
    { unfold spline_pde in E. apply bind_ok in E as (t & _ & E). apply bind_ok in E as (v & _ & E). apply bind_ok in E as (k & _ & E). injection E as <-.
      revert H HI. generalize (eq_refl false). match goal with |- context [srun _ _ ?q l] => change (false = false) with (sp_init q = false); generalize q end.
      unfold srun. induction l as [|c l IH]; intros q Hq; cbn [foldM].
      - intros X _. injection X as <-. exact Hq.
      - intros X HI. apply bind_ok in X as (q' & X1 & X2). apply (IH q'); [|exact X2|intros Z; apply HI; now right].
        destruct c; cbn [sapply] in X1; try (injection X1 as <-; exact Hq).
        + exfalso. apply HI. now left.
        + unfold spline_solve, spline_dirichlet in X1. assert (Y : spline_elliptic r lu q = Ok q') by (destruct (_ =? 0)%nat; exact X1). unfold spline_elliptic in Y. rewrite Hq in Y. discriminate. }
    unfold spline_solve, spline_dirichlet. destruct (_ =? 0)%nat; cbn [bind]; unfold spline_elliptic; now rewrite J.
  - intros c Hc s' X. destruct c; cbn [sapply] in X; try (injection X as <-; now split); [contradiction|].
    unfold spline_solve, spline_dirichlet in X. assert (Y : spline_elliptic r lu s = Ok s') by (destruct (_ =? 0)%nat; exact X). unfold spline_elliptic in Y.
    clear X. destruct (sp_init s); [cbn [negb] in Y|discriminate]. destruct (lu _ _); [destruct (Nat.eqb _ _); cbn [negb] in Y; [|discriminate]|]; injection Y as <-; now split.
Qed.

(* what the setters store, and that they need no init *)
Theorem C156_setters r lu s : 
  (forall op, exists s', sapply r lu s (SSetOperator op) = Ok s' /\ sp_op s' = op /\ sp_forcing s' = sp_forcing s /\ sp_boundary s' = sp_boundary s /\ sp_init s' = sp_init s) /\
  (forall f, exists s', sapply r lu s (SSetForcing f) = Ok s' /\ sp_op s' = sp_op s /\ sp_forcing s' = f /\ sp_boundary s' = sp_boundary s /\ sp_init s' = sp_init s) /\
  (forall g, exists s', sapply r lu s (SSetBoundary g) = Ok s' /\ sp_op s' = sp_op s /\ sp_forcing s' = sp_forcing s /\ sp_boundary s' = g /\ sp_init s' = sp_init s).
Proof. repeat split; intros; eexists; cbn; repeat split. Qed.

(* C157: whatever the calls, the elliptic solver never produces a solution: with a non-singular matrix the call is undefined, with a singular one it reports failure *)
Theorem C157_never_partial r lu u s : knots_ok u -> reachable r lu u s ->
  drows (sp_solution s) = 0%nat /\ sp_success s = false /\
  (sp_init s = true -> match lu (length u + r - 1)%nat (sp_stiff s) with
                       | Some _ => spline_solve r lu s = UB
                       | None => exists s', spline_solve r lu s = Ok s' /\ sp_success s' = false /\ drows (sp_solution s') = 0%nat
                       end).
Proof.
  intros Hu Hr. destruct (reachable_inv r lu u s Hu Hr) as (I1 & I2 & I3 & I4 & I5). split; [now rewrite I5|]. split; [exact I4|]. intros HI.
  assert (Y : spline_solve r lu s = spline_elliptic r lu s) by (unfold spline_solve, spline_dirichlet; now destruct (_ =? 0)%nat). rewrite Y. unfold spline_elliptic. rewrite HI. cbn [negb].
  unfold spline_dofs. rewrite I2, p_size. destruct (lu _ _).
  - rewrite I3. cbn [empty_dmat drows]. destruct Hu as (L & _ & _). destruct (Nat.eqb_spec 0 (length u + r - 1)); [lia|reflexivity].
  - eexists. split; [reflexivity|]. cbn. rewrite I5. auto.
Qed.
(* the smallest problem: u = f on [0, 1] with hat functions.  The matrix is non-singular, the discrete problem has exactly one solution, solve is undefined *)
Lemma hat_first x : 0 < x < 1 - tol -> phi 1 [0; 1] 0 x 0 = 1 - x /\ phi 1 [0; 1] 1 x 0 = x.
Proof.
  intros Hx. pose proof tol_pos as TP. set (t := padded 1 [0; 1]).
  assert (B : forall j, (j < 3)%nat -> ind (kn t) (length t) 1 j x = one_at 1 j).
  { intros j Hj. destruct j as [|[|[|j]]]; [| | |lia].
    - unfold one_at. cbn [Nat.eqb]. apply ind_false; cbn; [lra|intros [_ K]; lia].
    - unfold one_at. cbn [Nat.eqb]. apply ind_true. left. cbn. lra.
    - unfold one_at. cbn [Nat.eqb]. apply ind_false; cbn; [lra|intros [_ K]; lia]. }
  unfold phi. fold t. cbn [dcox cox Nat.add]. rewrite !B by lia. unfold rc, kn, t, one_at. cbn [padded map seq length Nat.add Nat.mul Nat.sub Nat.min nth Nat.eqb].
  split; repeat match goal with |- context [Req_EM_T ?a ?b] => destruct (Req_EM_T a b); try lra end.
Qed.
Lemma hat_mass i j : (i < 2)%nat -> (j < 2)%nat -> whole 1 [0; 1] mass i j = 1 / 2 * (
   let f := fun x => (if (i =? 0)%nat then 1 - x else x) * (if (j =? 0)%nat then 1 - x else x) in
   quadrature table_gl_1_3 (fun x => f (1 / 2 * nth 0 x 0 + 1 / 2))).
Proof.
  intros Hi Hj. unfold whole. rewrite (rsum_single (length (padded 1 [0; 1]) - 1) _ 1 ltac:(cbn; lia)).
  - unfold piece, spline_integrate, quadrature, table_gl_1_3. cbn [combine q_nodes q_weights map fst snd lsum nth].
    unfold form, mass. cbn [weak]. change (kn (padded 1 [0; 1]) 1) with 0. change (kn (padded 1 [0; 1]) 2) with 1.
    assert (H : forall k x, (k < 2)%nat -> 0 < x < 1 - tol -> phi 1 [0; 1] k x 0 = if (k =? 0)%nat then 1 - x else x).
    { intros k x Hk Hx. destruct (hat_first x Hx). destruct k as [|[|k]]; [auto|auto|lia]. }
    unfold tol in H. rewrite !(H i), !(H j) by (auto || (unfold Q2R; cbn; lra)). destruct (i =? 0)%nat, (j =? 0)%nat; unfold Q2R; cbn; lra.
  - intros k Hk Hne. unfold piece. replace (kn (padded 1 [0; 1]) (S k)) with (kn (padded 1 [0; 1]) k); [unfold spline_integrate; lra|].
    cbn in Hk. destruct k as [|[|[|k]]]; cbn; try reflexivity; lia.
Qed.
Theorem C157_refuted : exists s0 s1, spline_pde 1 [0; 1] mass (Callable (fun _ => 1)) = Ok s0 /\ srun 1 some_lu s0 [SInit] = Ok s1 /\
  (exists B, inverse_of 2 (sp_stiff s1) B) /\ spline_dofs 1 s1 = 2%nat /\ spline_solve 1 some_lu s1 = UB.
Proof.
  unfold spline_pde. rewrite (pad_ok 1 _ unit_knots), (ref_nodes_ok _ unit_knots). cbn [bind]. rewrite (ref_pad 1 _ unit_knots). cbn [bind].
  destruct (discretize_ok 1 [0; 1] unit_knots mass I) as (A & E & H). eexists. eexists. split; [reflexivity|].
  assert (R1 : srun 1 some_lu {| sp_op := mass; sp_forcing := Callable (fun _ => 1); sp_boundary := empty_dmat; sp_nodes := [0; 1]; sp_knots := padded 1 [0; 1];
      sp_ref_knots := map (to_reference [0; 1]) (padded 1 [0; 1]); sp_init := false; sp_success := false; sp_stiff := fun _ _ => 0; sp_mass := fun _ _ => 0; sp_force := empty_dmat; sp_solution := empty_dmat |} [SInit]
    = Ok {| sp_op := mass; sp_forcing := Callable (fun _ => 1); sp_boundary := empty_dmat; sp_nodes := [0; 1]; sp_knots := padded 1 [0; 1];
      sp_ref_knots := map (to_reference [0; 1]) (padded 1 [0; 1]); sp_init := true; sp_success := false; sp_stiff := A; sp_mass := A; sp_force := empty_dmat; sp_solution := empty_dmat |}).
  { unfold srun. cbn [foldM sapply]. unfold spline_init. cbn [sp_op sp_knots sp_forcing sp_boundary sp_nodes sp_ref_knots sp_success sp_force sp_solution]. unfold mass in E |- *. rewrite E. reflexivity. }
  split; [exact R1|]. cbn [sp_stiff].
  assert (Inv : exists B, inverse_of 2 A B).
  { set (D := A 0%nat 0%nat * A 1%nat 1%nat - A 0%nat 1%nat * A 1%nat 0%nat).
    assert (HD : D > 0).
    { unfold D. rewrite !H by (cbn; lia). rewrite !hat_mass by lia. unfold quadrature, table_gl_1_3. cbn [combine q_nodes q_weights map fst snd lsum nth Nat.eqb]. unfold Q2R. cbn. lra. }
    exists (fun i j => (match i, j with 0, 0 => A 1%nat 1%nat | 0, _ => - A 0%nat 1%nat | _, 0 => - A 1%nat 0%nat | _, _ => A 0%nat 0%nat end)%nat / D).
    intros i j Hi Hj. cbn [rsum]. unfold delta. destruct i as [|[|i]], j as [|[|j]]; try lia; cbn [Nat.eqb]; unfold D in *; field; lra. }
  split; [exact Inv|]. split; [reflexivity|].
  unfold spline_solve. cbn [sp_boundary empty_dmat drows dcols Nat.mul Nat.eqb bind]. unfold spline_elliptic. cbn [sp_init negb sp_stiff]. unfold spline_dofs. cbn [sp_knots].
  change (basis_size 1 (padded 1 [0; 1])) with 2%nat. destruct (some_lu 2 A) eqn:El; [reflexivity|]. destruct Inv as [B HB]. now destruct (some_lu_complete 2 A B HB).
Qed.

(* C158: with hat functions the degrees of freedom are the values at the nodes *)
Definition strictly_increasing (u : list R) : Prop := forall i j, (i < j < length u)%nat -> nth i u 0 < nth j u 0.
Theorem C158_nodal_partial u t i j : knots_ok u -> strictly_increasing u -> pad_knots 1 u = Ok t -> basis_size 1 t = length u /\
  ((i < length u)%nat -> (j < length u)%nat -> spline 1 t 1 i (nth j u 0) = Ok (if (i =? j)%nat then 1 else 0)).
Proof.
  intros Hu SI Ht. assert (E : t = padded 1 u) by (pose proof (pad_ok 1 u Hu) as E; rewrite Ht in E; congruence).
  assert (SZ : basis_size 1 t = length u) by (rewrite E, p_size; lia). split; [exact SZ|]. intros Hi Hj.
  destruct (Nat.eq_dec j (length u - 1)) as [->|Hne].
  - change (nth (length u - 1) u 0) with (last_knot u). rewrite (C76_right_end 1 u t i Hu Ht) by lia. now rewrite SZ.
  - subst t. rewrite spline_ok by (unfold basis_size in SZ; lia). f_equal. pose proof (padded_length 1 u) as PL. set (t := padded 1 u) in *. set (x := nth j u 0).
    pose proof tol_pos as TP.
    assert (K : forall k, (k < length t)%nat -> kn t k = nth (Nat.min (k - 1) (length u - 1)) u 0) by (intros; now apply padded_kn).
    assert (B : forall k, (k + 1 < length t)%nat -> ind (kn t) (length t) 1 k x = one_at (j + 1) k).
    { intros k Hk. unfold one_at. destruct (Nat.eqb_spec k (j + 1)) as [->|Hkj].
      - apply ind_true. left. rewrite !K by lia. replace (Nat.min (j + 1 - 1) (length u - 1)) with j by lia. replace (Nat.min (S (j + 1) - 1) (length u - 1)) with (j + 1)%nat by lia.
        fold x. specialize (SI j (j + 1)%nat ltac:(lia)). fold x in SI. lra.
      - apply ind_false.
        + rewrite !K by lia. intros [X Y]. assert (C : (k < j + 1 \/ j + 1 < k)%nat) by lia. destruct C as [C|C].
          * destruct Hu as (_ & M & _). specialize (M (Nat.min (S k - 1) (length u - 1)) j ltac:(lia)). unfold x in *. lra.
          * specialize (SI j (Nat.min (k - 1) (length u - 1)) ltac:(lia)). fold x in SI. lra.
        + intros [X Y]. pose proof (p_last 1 u Hu) as PLast. fold t in PLast. rewrite PLast in X. destruct Hu as (L & M & G). specialize (M j (length u - 2)%nat ltac:(lia)). fold x (last_knot u) in M, G.
          rewrite Rabs_left1 in X by lra. lra. }
    cbn [cox]. rewrite !B by lia. unfold one_at. destruct (Nat.eqb_spec i (j + 1)) as [->|H1].
    + destruct (Nat.eqb_spec (j + 1 + 1) (j + 1)); [lia|]. destruct (Nat.eqb_spec (j + 1) j); [lia|]. rewrite K by lia. replace (Nat.min (j + 1 - 1) (length u - 1)) with j by lia. fold x. ring.
    + destruct (Nat.eqb_spec (i + 1) (j + 1)) as [H2|H2], (Nat.eqb_spec i j) as [H3|H3]; try lia; [|ring]. subst i.
      generalize (rc (kn t) 1 j). intros z. unfold rc. rewrite !K by lia. replace (Nat.min (j + 1 - 1) (length u - 1)) with j by lia. replace (Nat.min (j + 1 + 1 - 1) (length u - 1)) with (j + 1)%nat by lia. fold x.
      specialize (SI j (j + 1)%nat ltac:(lia)). fold x in SI. destruct (Req_EM_T _ _); [lra|]. field. lra.
Qed.
Theorem C158_values_partial u t c j : knots_ok u -> strictly_increasing u -> pad_knots 1 u = Ok t -> length c = length u -> (j < length u)%nat ->
  spline_expansion 1 t c [nth j u 0] = Ok [nth j c 0].
Proof.
  intros Hu SI Ht Hc Hj. destruct (C116_expansion 1 u c [nth j u 0] Hu ltac:(lia)) as (t' & Et & N & HN & E). rewrite Ht in Et. injection Et as <-. rewrite E. cbn [map]. do 2 f_equal.
  destruct (C158_nodal_partial u t 0 0 Hu SI Ht) as [SZ _].
  rewrite (rsum_single (length c) _ j) by (lia || (intros k Hk Hne; destruct (C158_nodal_partial u t k j Hu SI Ht) as [_ X]; specialize (X ltac:(lia) Hj);
     rewrite HN in X by lia; injection X as ->; destruct (Nat.eqb_spec k j); [lia|ring])).
  destruct (C158_nodal_partial u t j j Hu SI Ht) as [_ X]. specialize (X Hj Hj). rewrite HN in X by lia. injection X as ->. rewrite Nat.eqb_refl. ring.
Qed.
(* for every other order there are not as many coordinates as degrees of freedom *)
Theorem C158_refuted r lu u s : knots_ok u -> reachable r lu u s -> r <> 1%nat -> length (spline_coords s) <> spline_dofs r s.
Proof.
  intros Hu Hr H. destruct (reachable_inv r lu u s Hu Hr) as (I1 & I2 & _). unfold spline_coords, spline_dofs. rewrite I1, I2, p_size. destruct Hu as (L & _). lia.
Qed.
(* cubic splines on [0, 1]: the object exists, has four degrees of freedom and two coordinates *)
Example C155_example : exists s, spline_pde 3 [0; 1] (SPlus mass SBilap) (Callable (fun _ => 1)) = Ok s /\ reachable 3 some_lu [0; 1] s /\ op_ok 3 (sp_op s) /\
  spline_dofs 3 s = 4%nat /\ length (spline_coords s) = 2%nat /\ sp_ref_knots s = map (to_reference [0; 1]) [0; 0; 0; 0; 1; 1; 1; 1] /\ clear_of_end [0; 1] (1 / 2).
Proof.
  unfold spline_pde. rewrite (pad_ok 3 _ unit_knots), (ref_nodes_ok _ unit_knots). cbn [bind]. rewrite (ref_pad 3 _ unit_knots). cbn [bind]. eexists. split; [reflexivity|].
  split. { eexists (SPlus mass SBilap), (Callable (fun _ => 1)), _, []. split; [|reflexivity]. unfold spline_pde. rewrite (pad_ok 3 _ unit_knots), (ref_nodes_ok _ unit_knots). cbn [bind]. rewrite (ref_pad 3 _ unit_knots). reflexivity. }
  split; [cbn; lia|]. split; [reflexivity|]. split; [reflexivity|]. split; [reflexivity|]. right. unfold tol, to_reference, first_knot, last_knot. cbn. lra.
Qed.
Print Assumptions C155_reference.
Print Assumptions C156_init.
Print Assumptions C157_refuted.
Print Assumptions C158_values_partial.
