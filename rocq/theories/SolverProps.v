(* C66, C79, C80, C111: boundary conditions, elliptic and parabolic solves, life cycle of the solver. *)
From Verif Require Import Base RSum SimplexModel SimplexProps FieldModel FieldProps FemModel FemProps LinAlg SolverModel.
Local Open Scope R_scope.

(* ------------------------------------------------------------------ the loop over the boundary dofs *)
Section Loop.
Variables (P : problem) (bdy : nat -> bool).
Local Notation n := (n_dofs P).
Definition visited_list : list nat :=
  match n with O => [] | S k => O :: filter bdy (seq 1 k) end.
Lemma scan_spec fuel i : (n - i <= fuel)%nat -> (i <= n)%nat ->
  let j := scan P bdy fuel i in
  (i <= j <= n)%nat /\ filter bdy (seq i (n - i)) = if (j =? n)%nat then [] else j :: filter bdy (seq (S j) (n - S j)).
Proof.
  revert i. induction fuel as [|k IH]; intros i Hf Hi.
  - cbn. split; [lia|]. replace (n - i)%nat with O by lia. cbn. replace (i =? n)%nat with true by (symmetry; apply Nat.eqb_eq; lia). reflexivity.
  - cbn [scan]. destruct (Nat.ltb_spec i n) as [Hin|Hin]; cbn [andb].
    + destruct (bdy i) eqn:Eb; cbn [negb].
      * split; [lia|]. replace (i =? n)%nat with false by (symmetry; apply Nat.eqb_neq; lia).
        replace (n - i)%nat with (S (n - S i)) by lia. cbn [seq filter]. rewrite Eb. reflexivity.
      * destruct (IH (S i)) as [A B]; [lia|lia|]. split; [lia|]. rewrite <- B.
        replace (n - i)%nat with (S (n - S i)) by lia. cbn [seq filter]. rewrite Eb. reflexivity.
    + split; [lia|]. replace (n - i)%nat with O by lia. cbn. replace (i =? n)%nat with true by (symmetry; apply Nat.eqb_eq; lia). reflexivity.
Qed.
Lemma boundary_loop_eq {S : Type} (body : S -> nat -> Res S) fuel : forall i s, (i <= n)%nat -> (n - i <= fuel)%nat ->
  boundary_loop P bdy body fuel i s = foldM body (if (i =? n)%nat then [] else i :: filter bdy (seq (Datatypes.S i) (n - Datatypes.S i))) s.
Proof.
  induction fuel as [|k IH]; intros i s Hi Hf.
  - cbn. replace (i =? n)%nat with true by (symmetry; apply Nat.eqb_eq; lia). reflexivity.
  - cbn [boundary_loop]. destruct (Nat.eqb_spec i n) as [E|E]; [reflexivity|]. cbn [foldM].
    destruct (body s i) as [s'| | |]; cbn [bind]; try reflexivity.
    unfold next. destruct (scan_spec n (Datatypes.S i)) as [A B]; [lia|lia|].
    rewrite B. apply IH; lia.
Qed.
Lemma on_boundary_eq {S : Type} (body : S -> nat -> Res S) s : on_boundary P bdy body s = foldM body visited_list s.
Proof.
  unfold on_boundary, visited_list. rewrite boundary_loop_eq by lia. destruct n as [|k]; [reflexivity|].
  cbn [Nat.eqb]. replace (Datatypes.S k - 1)%nat with k by lia. reflexivity.
Qed.
(* the dofs the loop treats as boundary dofs: dof 0 always is *)
Definition visited (a : nat) : Prop := (a < n)%nat /\ (a = O \/ bdy a = true).
Lemma visited_in a : In a visited_list <-> visited a.
Proof.
  unfold visited, visited_list. destruct n as [|k]; [cbn; lia|]. cbn [In]. rewrite filter_In, in_seq. 
  destruct a as [|a]; split; intros H; try lia; intuition (try discriminate; try lia).
Qed.
Lemma visited_dec a : {visited a} + {~ visited a}.
Proof.
  unfold visited. destruct (lt_dec a n); [|right; tauto].
  destruct (Nat.eq_dec a 0); [left; tauto|]. destruct (bdy a) eqn:E; [left; tauto|right; intuition congruence].
Qed.
End Loop.

(* ------------------------------------------------------------------ vectors *)
Lemma read_block_some v off n x : read_block v off n = Ok x ->
  (off + n <= dsize v)%nat /\ forall a, (a < n)%nat -> dcoef v (off + a) = Some (x a).
Proof.
  unfold read_block. destruct (Nat.leb_spec (off + n) (dsize v)); cbn [andb]; [|discriminate].
  match goal with |- context [if ?c then _ else UB] => destruct c eqn:E end; [|discriminate].
  intros Hx. injection Hx as <-. split; [lia|]. intros a Ha. rewrite forallb_forall in E. specialize (E a).
  rewrite in_seq in E. specialize (E ltac:(lia)). destruct (dcoef v (off + a)); congruence.
Qed.
Lemma read_block_ok v off n y : (off + n <= dsize v)%nat -> (forall a, (a < n)%nat -> dcoef v (off + a) = Some (y a)) ->
  exists x, read_block v off n = Ok x /\ forall a, (a < n)%nat -> x a = y a.
Proof.
  intros H1 H2. unfold read_block. apply Nat.leb_le in H1. rewrite H1. cbn [andb].
  match goal with |- context [if ?c then _ else UB] => assert (E : c = true) end.
  { apply forallb_forall. intros a Ha. apply in_seq in Ha. rewrite H2 by lia. reflexivity. }
  rewrite E. eexists. split; [reflexivity|]. intros a Ha. cbn beta. rewrite H2 by auto. reflexivity.
Qed.

(* ------------------------------------------------------------------ C66 *)
Definition delta_ (a b : nat) : R := if Nat.eq_dec a b then 1 else 0.
Section Dirichlet.
Variables (P : problem) (bdy : nat -> bool).
Local Notation n := (n_dofs P).
(* the boundary datum has a value for each dof *)
Definition has_datum (g : dmat) : Prop := (n <= drows g)%nat /\ (1 <= dcols g)%nat.
(* rows of [R] are identity rows, and the right-hand side holds the datum there; the others are those of (A, F) *)
Definition imposed (on : nat -> Prop) (g : dmat) (A A' : mat) (F F' : dvec) : Prop :=
  dsize F' = dsize F /\
  (forall a, on a -> (forall b, A' a b = delta_ a b) /\ dcoef F' a = Some (dval g a 0%nat)) /\
  (forall a, ~ on a -> (forall b, A' a b = A a b) /\ dcoef F' a = dcoef F a).
Lemma foldM_dirichlet g l : has_datum g -> (forall a, In a l -> (a < n)%nat) -> forall A F, (n <= dsize F)%nat ->
  exists A' F', foldM (dirichlet_body g) l (A, F) = Ok (A', F') /\ imposed (fun a => In a l) g A A' F F'.
Proof.
  intros [Hg1 Hg2]. induction l as [|i l IH]; intros Hl A F HF.
  - exists A, F. split; [reflexivity|]. split; [auto|]. split; cbn; [tauto|auto].
  - cbn [foldM]. unfold dirichlet_body at 1. unfold dget, write_coef. assert (Hi := Hl i (or_introl eq_refl)).
    replace ((i <? drows g)%nat && (0 <? dcols g)%nat) with true by (symmetry; apply andb_true_iff; split; apply Nat.ltb_lt; lia).
    cbn [bind]. replace (i <? dsize F)%nat with true by (symmetry; apply Nat.ltb_lt; lia). cbn [bind].
    match goal with |- context [foldM _ l (?A1, ?F1)] => destruct (IH (fun a Ha => Hl a (or_intror Ha)) A1 F1 HF) as (A' & F' & E & H1 & H2 & H3) end.
    exists A', F'. split; [exact E|]. split; [auto|]. split.
    + intros a Ha. destruct (in_dec Nat.eq_dec a l) as [Hin|Hin]; [auto|]. destruct Ha as [<-|Ha]; [|contradiction].
      destruct (H3 i Hin) as [B C]. cbn [dcoef] in C. rewrite Nat.eqb_refl in C. split; [|auto].
      intros b. rewrite B. unfold identity_row, delta_. rewrite Nat.eqb_refl. destruct (Nat.eqb_spec b i), (Nat.eq_dec i b); congruence.
    + intros a Ha. destruct (H3 a) as [B C]; [cbn in Ha; tauto|]. cbn [dcoef] in C.
      replace (a =? i)%nat with false in C by (symmetry; apply Nat.eqb_neq; cbn in Ha; intuition).
      split; [|auto]. intros b. rewrite B. unfold identity_row. 
      replace (a =? i)%nat with false by (symmetry; apply Nat.eqb_neq; cbn in Ha; intuition). reflexivity.
Qed.
Lemma imposed_iff on on' g A A' F F' : (forall a, on a <-> on' a) -> imposed on g A A' F F' -> imposed on' g A A' F F'.
Proof. intros H (H1 & H2 & H3). split; [auto|]. split; intros a Ha; [apply H2|apply H3]; rewrite H; auto. Qed.
(* what set_dirichlet_bc does: the rows of the boundary dofs, and always row 0 *)
Theorem C66_imposed s : is_init s = true -> has_datum (boundary_data s) -> (n <= dsize (force s))%nat ->
  exists s', set_dirichlet_bc P bdy s = Ok s' /\ mass s' = mass s /\ solution s' = solution s /\
    imposed (fun a => (a < n)%nat /\ (a = O \/ bdy a = true)) (boundary_data s) (stiff s) (stiff s') (force s) (force s').
Proof.
  intros Hi Hg HF. unfold set_dirichlet_bc. rewrite Hi. cbn [negb]. rewrite on_boundary_eq.
  destruct (foldM_dirichlet (boundary_data s) (visited_list P bdy)) with (A := stiff s) (F := force s) as (A' & F' & E & H); auto.
  { intros a Ha. apply visited_in in Ha. apply Ha. }
  rewrite E. cbn [bind fst snd]. eexists. split; [reflexivity|]. cbn. split; [auto|]. split; [auto|].
  eapply imposed_iff; [|exact H]. intros a. apply visited_in.
Qed.
(* exactly the boundary rows, when dof 0 is on the boundary *)
Theorem C66_boundary_rows_partial s : bdy 0%nat = true ->
  is_init s = true -> has_datum (boundary_data s) -> (n <= dsize (force s))%nat ->
  exists s', set_dirichlet_bc P bdy s = Ok s' /\ mass s' = mass s /\ solution s' = solution s /\
    imposed (fun a => (a < n)%nat /\ bdy a = true) (boundary_data s) (stiff s) (stiff s') (force s) (force s').
Proof.
  intros H0 Hi Hg HF. destruct (C66_imposed s Hi Hg HF) as (s' & E & H1 & H2 & H). exists s'. split; [auto|]. split; [auto|]. split; [auto|].
  eapply imposed_iff; [|exact H]. intros a. cbn. split; intros [A B]; split; auto. destruct B; subst; auto.
Qed.
(* imposing conditions again overwrites the earlier data and does nothing else; in particular it is idempotent *)
Theorem C66_again s g s1 s2 : is_init s = true -> has_datum (boundary_data s) -> has_datum g -> (n <= dsize (force s))%nat ->
  set_dirichlet_bc P bdy s = Ok s1 ->
  apply P bdy false (fun _ _ => None) s1 (SetBoundary g) = Ok s2 ->
  exists s3 t0 t3, set_dirichlet_bc P bdy s2 = Ok s3 /\
    apply P bdy false (fun _ _ => None) s (SetBoundary g) = Ok t0 /\ set_dirichlet_bc P bdy t0 = Ok t3 /\
    (forall a b, stiff s3 a b = stiff t3 a b) /\ dsize (force s3) = dsize (force t3) /\ (forall a, dcoef (force s3) a = dcoef (force t3) a).
Proof.
  intros Hi Hg Hg2 HF E1 E2. destruct (C66_imposed s Hi Hg HF) as (s1' & E1' & _ & _ & H1 & H2 & H3).
  rewrite E1 in E1'. injection E1' as <-. assert (Hi1 : is_init s1 = true).
  { revert E1. unfold set_dirichlet_bc. rewrite Hi. cbn [negb]. intros E1. apply bind_ok in E1. destruct E1 as (AF & _ & E1). injection E1 as <-. auto. }
  cbn [apply] in E2. injection E2 as <-.
  match goal with |- context [set_dirichlet_bc P bdy ?x] => destruct (C66_imposed x) as (s3 & E3 & _ & _ & K1 & K2 & K3) end; cbn; auto; [lia|].
  cbn [apply]. exists s3. eexists. 
  match goal with |- exists t3, _ /\ Ok ?x = Ok _ /\ _ => destruct (C66_imposed x) as (t3 & E4 & _ & _ & L1 & L2 & L3) end; cbn; auto.
  exists t3. split; [exact E3|]. split; [reflexivity|]. split; [exact E4|]. cbn in *.
  split; [|split; [congruence|]].
  - intros a b. destruct (visited_dec P bdy a) as [V|V].
    + rewrite (proj1 (K2 a V)), (proj1 (L2 a V)). auto.
    + rewrite (proj1 (K3 a V)), (proj1 (L3 a V)), (proj1 (H3 a V)). auto.
  - intros a. destruct (visited_dec P bdy a) as [V|V].
    + rewrite (proj2 (K2 a V)), (proj2 (L2 a V)). auto.
    + rewrite (proj2 (K3 a V)), (proj2 (L3 a V)), (proj2 (H3 a V)). auto.
Qed.
(* every exact solution of the system takes the datum on the boundary *)
Theorem C66_solution s s' u f : is_init s = true -> has_datum (boundary_data s) -> (n <= dsize (force s))%nat ->
  set_dirichlet_bc P bdy s = Ok s' -> (forall a, (a < n)%nat -> dcoef (force s') a = Some (f a)) ->
  (forall a, (a < n)%nat -> rsum n (fun b => stiff s' a b * u b) = f a) ->
  forall a, (a < n)%nat -> bdy a = true -> u a = dval (boundary_data s) a 0%nat.
Proof.
  intros Hi Hg HF E Hf Hu a Ha Hb. destruct (C66_imposed s Hi Hg HF) as (s1 & E1 & _ & _ & H1 & H2 & H3).
  rewrite E in E1. injection E1 as <-. destruct (H2 a) as [A B]; [tauto|]. rewrite Hf in B by auto. injection B as B.
  rewrite <- B, <- Hu by auto. rewrite (rsum_ext n _ (fun b => delta_ a b * u b)) by (intros; rewrite A; auto).
  rewrite (rsum_single _ _ a); [unfold delta_; destruct (Nat.eq_dec a a); [lra|congruence]|auto|].
  intros b Hb' Hne. unfold delta_. destruct (Nat.eq_dec a b); [congruence|lra].
Qed.
End Dirichlet.

(* ------------------------------------------------------------------ init *)
Section Init.
Variables (P : problem) (par : bool).
Local Notation n := (n_dofs P).
(* the forcing at time point i *)
Definition at_time (f : source) (i : nat) : forcing :=
  match f with Callable f => FCall f | Sampled d => FData (drows d) (fun k => dval d k i) end.
Definition n_times (f : source) : nat := match f with Callable _ => 1%nat | Sampled d => dcols d end.
(* the load vector: integral of the forcing against each basis function, by quadrature *)
Definition load_vector (f : forcing) (a : nat) : R :=
  rsum (n_cells P) (fun e => rsum (n_basis P) (fun i => hit (dof P e i) a * load P f e i)).
Definition source_ok (f : source) : Prop := (1 <= n_times f)%nat /\ forcing_ok P (at_time f 0).
Definition mass_entry : mat := assembled P (Reac (SConst 1)).
(* everything needed for assembly to be meaningful *)
Definition well_posed (s : pde) : Prop :=
  coef_ok P (diff_op s) /\ dofs_ok P /\ (is_symmetric (diff_op s) = true -> locally_symmetric P (diff_op s)) /\ source_ok (forcing_data s).
Lemma forcing_ok_time f i j : forcing_ok P (at_time f i) -> forcing_ok P (at_time f j).
Proof. destruct f; auto. Qed.
Lemma mass_ok : dofs_ok P -> exists M, discretize_operator P (Reac (SConst 1)) = Ok M /\ forall a b, M a b = mass_entry a b.
Proof.
  intros H. apply C64_assembly; auto.
  - cbn. auto.
  - intros _ e i j He Hi Hj. unfold quad. f_equal. apply rsum_ext. intros q _. rewrite wf_symmetric; auto. cbn. auto.
Qed.
Lemma write_block_ok v off x : (off + n <= dsize v)%nat -> exists v', write_block v off n x = Ok v' /\ dsize v' = dsize v /\
  (forall a, (a < n)%nat -> dcoef v' (off + a) = Some (x a)) /\ (forall a, (a < off)%nat -> dcoef v' a = dcoef v a).
Proof.
  intros H. unfold write_block. assert (H' := H). apply Nat.leb_le in H'. rewrite H'. eexists. split; [reflexivity|]. cbn [dsize dcoef].
  split; [auto|]. split; intros a Ha.
  - replace ((off <=? off + a) && (off + a <? off + n))%nat%bool with true.
    + do 2 f_equal. lia.
    + symmetry. apply andb_true_iff. split; [apply Nat.leb_le|apply Nat.ltb_lt]; lia.
  - replace (off <=? a)%nat with false by (symmetry; apply Nat.leb_gt; lia). reflexivity.
Qed.
Lemma init_force_ok s : dofs_ok P -> source_ok (forcing_data s) ->
  exists F, init_force P par s = Ok F /\ dsize F = (n * n_times (forcing_data s))%nat /\
    forall i a, (i < if par then n_times (forcing_data s) else 1)%nat -> (a < n)%nat ->
      dcoef F (n * i + a) = Some (load_vector (at_time (forcing_data s) i) a).
Proof.
  intros Hd [Hm Hf]. unfold init_force. destruct (forcing_data s) as [f|d] eqn:Ef.
  - destruct (C64_forcing P (FCall f) Hf Hd) as (v & Ev & Hv). rewrite Ev. cbn [bind].
    destruct (write_block_ok {| dsize := n; dcoef := fun _ => None |} 0 v) as (F & E & H1 & H2 & _); [cbn; lia|].
    exists F. split; [exact E|]. split; [cbn in *; lia|]. intros i a Hi Ha. cbn [n_times] in Hi.
    assert (i = O) by (destruct par; lia). subst. replace (n * 0 + a)%nat with (0 + a)%nat by lia. rewrite H2 by auto. cbn [at_time]. rewrite Hv. reflexivity.
  - cbn [n_times] in *. replace (dcols d =? 0)%nat with false by (symmetry; apply Nat.eqb_neq; lia).
    assert (Hcol : forall i, exists v, discretize_forcing P (at_time (Sampled d) i) = Ok v /\ forall a, v a = load_vector (at_time (Sampled d) i) a).
    { intros i. apply C64_forcing; auto. }
    destruct (Hcol O) as (v & Ev & Hv). cbn [at_time] in Ev. rewrite Ev. cbn [bind].
    destruct (write_block_ok {| dsize := n * dcols d; dcoef := fun _ => None |} 0 v) as (F & E & H1 & H2 & _); [cbn; nia|].
    rewrite E. cbn [bind]. cbn [dsize] in H1. destruct par.
    + assert (G : forall k, (k <= dcols d - 1)%nat -> exists F', 
        foldM (fun F i => v <- discretize_forcing P (FData (drows d) (fun k => dval d k i)) ;; write_block F (n * i) n v) (seq 1 k) F = Ok F' /\
        dsize F' = (n * dcols d)%nat /\
        forall i a, (i < S k)%nat -> (a < n)%nat -> dcoef F' (n * i + a) = Some (load_vector (at_time (Sampled d) i) a)).
      { induction k as [|k IH]; intros Hk.
        - exists F. split; [reflexivity|]. split; [auto|]. intros i a Hi Ha. assert (i = O) by lia. subst.
          replace (n * 0 + a)%nat with (0 + a)%nat by lia. rewrite H2, Hv by auto. reflexivity.
        - destruct IH as (F' & E' & S' & H'); [lia|]. rewrite seq_S, foldM_app, E'. cbn [bind foldM].
          replace (1 + k)%nat with (S k) by lia. destruct (Hcol (S k)) as (w & Ew & Hw). cbn [at_time] in Ew. rewrite Ew. cbn [bind].
          destruct (write_block_ok F' (n * S k) w) as (F'' & E'' & S'' & A'' & B''); [nia|]. rewrite E''. cbn [bind].
          exists F''. split; [reflexivity|]. split; [congruence|]. intros i a Hi Ha. destruct (Nat.eq_dec i (S k)) as [->|Hne].
          + rewrite A'', Hw by auto. reflexivity.
          + rewrite B'' by nia. apply H'; auto; lia. }
      destruct (G (dcols d - 1)%nat) as (F' & E' & S' & H'); [lia|]. exists F'. split; [exact E'|]. split; [auto|].
      intros i a Hi Ha. apply H'; auto; lia.
    + exists F. split; [reflexivity|]. split; [auto|]. intros i a Hi Ha. assert (i = O) by lia. subst.
      replace (n * 0 + a)%nat with (0 + a)%nat by lia. rewrite H2, Hv by auto. reflexivity.
Qed.
(* init() assembles the operator, the mass matrix and the load vectors *)
Lemma init_ok s : well_posed s -> exists s1, init P par s = Ok s1 /\ is_init s1 = true /\
  diff_op s1 = diff_op s /\ forcing_data s1 = forcing_data s /\ time_domain s1 = time_domain s /\
  initial_condition s1 = initial_condition s /\ boundary_data s1 = boundary_data s /\ success s1 = success s /\ solution s1 = solution s /\
  (forall a b, stiff s1 a b = assembled P (diff_op s) a b) /\ (forall a b, mass s1 a b = mass_entry a b) /\
  dsize (force s1) = (n * n_times (forcing_data s))%nat /\
  (forall i a, (i < if par then n_times (forcing_data s) else 1)%nat -> (a < n)%nat ->
      dcoef (force s1) (n * i + a) = Some (load_vector (at_time (forcing_data s) i) a)).
Proof.
  intros (H1 & H2 & H3 & H4). destruct (C64_assembly P (diff_op s) H1 H2 H3) as (A & EA & HA).
  destruct (init_force_ok s H2 H4) as (F & EF & SF & HF). destruct (mass_ok H2) as (M & EM & HM).
  unfold init. rewrite EA. cbn [bind]. rewrite EF. cbn [bind]. rewrite EM. cbn [bind]. eexists. split; [reflexivity|]. cbn.
  tauto.
Qed.
End Init.

(* ------------------------------------------------------------------ exact factorisation *)
Definition exact (lu : nat -> mat -> option (vec -> vec)) : Prop :=
  forall n A slv, lu n A = Some slv -> forall b a, (a < n)%nat -> rsum n (fun j => A a j * slv b j) = b a.

(* ------------------------------------------------------------------ C111: elliptic problems *)
Section Elliptic.
Variables (P : problem) (bdy : nat -> bool) (lu : nat -> mat -> option (vec -> vec)).
Local Notation n := (n_dofs P).
Definition no_datum (g : dmat) : Prop := (drows g * dcols g = 0)%nat.
(* the discrete problem: the datum on the dofs [on], the assembled equations on the others *)
Definition discrete_solution (on : nat -> Prop) (op : dop) (f : source) (g : dmat) (u : vec) : Prop :=
  forall a, (a < n)%nat ->
    (on a -> u a = dval g a 0%nat) /\
    (~ on a -> rsum n (fun b => assembled P op a b * u b) = load_vector P (at_time f 0) a).
(* its matrix *)
Definition system (on : nat -> Prop) (op : dop) (K : mat) : Prop :=
  forall a b, (a < n)%nat -> (on a -> K a b = delta_ a b) /\ (~ on a -> K a b = assembled P op a b).
Lemma delta_sum u a : (a < n)%nat -> rsum n (fun b => delta_ a b * u b) = u a.
Proof.
  intros Ha. rewrite (rsum_single _ _ a); [unfold delta_; destruct (Nat.eq_dec a a); [lra|congruence]|auto|].
  intros b Hb' Hne. unfold delta_. destruct (Nat.eq_dec a b); [congruence|lra].
Qed.
Lemma elliptic s on : exact lu -> well_posed P s -> n_times (forcing_data s) = 1%nat ->
  (no_datum (boundary_data s) /\ (forall a, ~ on a) \/ has_datum P (boundary_data s) /\ (0 < n)%nat /\ forall a, on a <-> visited P bdy a) ->
  exists s1 s2, init P false s = Ok s1 /\ solve P bdy false lu s1 = Ok s2 /\
    ((success s2 = true /\ exists u, solution s2 = [u] /\ discrete_solution on (diff_op s) (forcing_data s) (boundary_data s) u) \/
     (success s2 = false /\ solution s2 = solution s /\ lu n (stiff s2) = None /\ system on (diff_op s) (stiff s2))).
Proof.
  intros Hlu Hw Hm Hg. destruct (init_ok P false s Hw) as (s1 & E1 & I1 & I2 & I3 & I4 & I5 & I6 & I7 & I8 & I9 & I10 & I11 & I12).
  exists s1. assert (Hf : dsize (force s1) = n) by (rewrite I11, Hm; lia).
  assert (HF : forall a, (a < n)%nat -> dcoef (force s1) a = Some (load_vector P (at_time (forcing_data s) 0) a)).
  { intros a Ha. rewrite <- (I12 0%nat a); auto. f_equal. lia. }
  (* the system after set_dirichlet_bc, if any *)
  assert (G : exists s1', (if (drows (boundary_data s1) * dcols (boundary_data s1) =? 0)%nat then Ok s1 else set_dirichlet_bc P bdy s1) = Ok s1' /\
    is_init s1' = true /\ solution s1' = solution s1 /\
    imposed on (boundary_data s) (stiff s1) (stiff s1') (force s1) (force s1')).
  { rewrite I6. destruct Hg as [[Hg Hon]|(Hg & Hn & Hon)].
    - unfold no_datum in Hg. rewrite Hg. cbn [Nat.eqb]. exists s1. split; [auto|]. split; [auto|]. split; [auto|]. split; [auto|]. split; [|auto].
      intros a Ha. exfalso. eapply Hon; eauto.
    - replace (drows (boundary_data s) * dcols (boundary_data s) =? 0)%nat with false by (symmetry; apply Nat.eqb_neq; destruct Hg; nia).
      destruct (C66_imposed P bdy s1) as (s1' & E & _ & Es & Hi); [auto|rewrite I6; auto|lia|]. exists s1'. split; [auto|]. split; [|split; [auto|]].
      + revert E. unfold set_dirichlet_bc. rewrite I1. cbn [negb]. intros E. apply bind_ok in E. destruct E as (AF & _ & E). injection E as <-. auto.
      + rewrite I6 in Hi. eapply imposed_iff; [|exact Hi]. intros a. rewrite Hon. reflexivity. }
  destruct G as (s1' & E1' & Ii & Es & H1 & H2 & H3).
  unfold solve. rewrite E1'. cbn [bind]. unfold solve_elliptic. rewrite Ii. cbn [negb].
  destruct (lu n (stiff s1')) as [slv|] eqn:El.
  - replace (dsize (force s1') =? n)%nat with true by (symmetry; apply Nat.eqb_eq; congruence). cbn [negb].
    assert (Hdec : forall a, on a \/ ~ on a).
    { intros a. destruct Hg as [[_ Hon]|(_ & _ & Hon)]; [right; apply Hon|]. destruct (visited_dec P bdy a); rewrite Hon; tauto. }
    destruct (read_block_ok (force s1') 0 n (fun a => match dcoef (force s1') a with Some x => x | None => 0 end)) as (b & Eb & Hb).
    { lia. }
    { intros a Ha. cbn [Nat.add]. destruct (Hdec a) as [Y|N]; [rewrite (proj2 (H2 a Y))|rewrite (proj2 (H3 a N)), HF by auto]; reflexivity. }
    rewrite Eb. cbn [bind]. eexists. split; [auto|]. split; [reflexivity|]. left. split; [reflexivity|]. cbn [set_result solution].
    eexists. split; [reflexivity|]. intros a Ha. assert (Q := Hlu n _ _ El b a Ha). rewrite Hb in Q by auto. split; intros Y.
    + destruct (H2 a Y) as [Ra Rf]. rewrite Rf in Q. rewrite <- Q. rewrite (rsum_ext n (fun j => stiff s1' a j * slv b j) (fun j => delta_ a j * slv b j)) by (intros; rewrite Ra; auto).
      rewrite delta_sum; auto.
    + destruct (H3 a Y) as [Ra Rf]. rewrite Rf, HF in Q by auto. rewrite <- Q. apply rsum_ext. intros j _. rewrite Ra, I9. auto.
  - eexists. split; [auto|]. split; [reflexivity|]. right. cbn. split; [auto|]. split; [congruence|]. split; [auto|].
    intros a b Ha. split; intros Y; [apply (H2 a Y)|rewrite (proj1 (H3 a Y)), I9; auto].
Qed.
(* without boundary data *)
Theorem C111_elliptic_free s : exact lu -> well_posed P s -> n_times (forcing_data s) = 1%nat -> no_datum (boundary_data s) ->
  exists s1 s2, init P false s = Ok s1 /\ solve P bdy false lu s1 = Ok s2 /\
    ((success s2 = true /\ exists u, solution s2 = [u] /\
        forall a, (a < n)%nat -> rsum n (fun b => assembled P (diff_op s) a b * u b) = load_vector P (at_time (forcing_data s) 0) a) \/
     (success s2 = false /\ solution s2 = solution s /\ lu n (stiff s2) = None /\ system (fun _ => False) (diff_op s) (stiff s2))).
Proof.
  intros Hlu Hw Hm Hg. destruct (elliptic s (fun _ => False) Hlu Hw Hm) as (s1 & s2 & E1 & E2 & H); [left; auto|].
  exists s1, s2. split; [auto|]. split; [auto|]. destruct H as [(H1 & u & H2 & H3)|H]; [left|right; auto].
  split; [auto|]. exists u. split; [auto|]. intros a Ha. apply (H3 a Ha). tauto.
Qed.
(* with boundary data, when dof 0 is a boundary dof (C66) *)
Theorem C111_elliptic_dirichlet_partial s : bdy 0%nat = true -> (0 < n)%nat ->
  exact lu -> well_posed P s -> n_times (forcing_data s) = 1%nat -> has_datum P (boundary_data s) ->
  exists s1 s2, init P false s = Ok s1 /\ solve P bdy false lu s1 = Ok s2 /\
    ((success s2 = true /\ exists u, solution s2 = [u] /\
        discrete_solution (fun a => bdy a = true) (diff_op s) (forcing_data s) (boundary_data s) u) \/
     (success s2 = false /\ solution s2 = solution s /\ lu n (stiff s2) = None /\ system (fun a => bdy a = true) (diff_op s) (stiff s2))).
Proof.
  intros H0 Hn Hlu Hw Hm Hg. destruct (elliptic s (visited P bdy) Hlu Hw Hm) as (s1 & s2 & E1 & E2 & H); [right; split; [auto|split; [auto|tauto]]|].
  exists s1, s2. split; [auto|]. split; [auto|]. destruct H as [(H1 & u & H2 & H3)|(A1 & A2 & A3 & A4)].
  - left. split; [auto|]. exists u. split; [auto|]. intros a Ha. destruct (H3 a Ha) as [A B].
    unfold visited in *. split; intros Y; [apply A; auto|apply B; intros [_ [->|W]]; auto].
  - right. split; [auto|]. split; [auto|]. split; [auto|]. intros a b Ha. destruct (A4 a b Ha) as [A B].
    unfold visited in *. split; intros Y; [apply A; auto|apply B; intros [_ [->|W]]; auto].
Qed.
End Elliptic.

(* ------------------------------------------------------------------ C79 *)
Lemma foldM_identity l : forall (K : mat), foldM (fun K i => Ok (identity_row K i)) l K = Ok (fold_left identity_row l K) /\
  forall a b, fold_left identity_row l K a b = if in_dec Nat.eq_dec a l then delta_ a b else K a b.
Proof.
  induction l as [|i l IH]; intros K; [split; auto|]. cbn [foldM fold_left bind]. destruct (IH (identity_row K i)) as [E H].
  split; [exact E|]. intros a b. rewrite H. unfold identity_row, delta_.
  destruct (in_dec Nat.eq_dec a l) as [Y|N], (in_dec Nat.eq_dec a (i :: l)) as [Y'|N']; auto; cbn in *.
  - exfalso. tauto.
  - destruct (Nat.eqb_spec a i) as [->|]; [|intuition congruence]. destruct (Nat.eqb_spec b i), (Nat.eq_dec i b); congruence.
  - destruct (Nat.eqb_spec a i) as [->|]; [tauto|auto].
Qed.
Lemma foldM_rhs (g : dmat) c l : (forall a, In a l -> (a < drows g)%nat) -> (c < dcols g)%nat -> forall (r : vec), exists r',
  foldM (fun r k => x <- dget g k c ;; Ok (fun a => if (a =? k)%nat then x else r a)) l r = Ok r' /\
  forall a, r' a = if in_dec Nat.eq_dec a l then dval g a c else r a.
Proof.
  intros Hl Hc. induction l as [|i l IH]; intros r; [exists r; split; auto|]. cbn [foldM]. unfold dget at 1.
  replace ((i <? drows g) && (c <? dcols g))%nat%bool with true
    by (symmetry; apply andb_true_iff; split; apply Nat.ltb_lt; [apply Hl; now left|auto]).
  cbn [bind]. destruct (IH (fun a Ha => Hl a (or_intror Ha)) (fun a => if (a =? i)%nat then dval g i c else r a)) as (r' & E & H).
  exists r'. split; [exact E|]. intros a. rewrite H.
  destruct (in_dec Nat.eq_dec a l) as [Y|N], (in_dec Nat.eq_dec a (i :: l)) as [Y'|N']; auto; cbn in *.
  - exfalso; tauto.
  - destruct (Nat.eqb_spec a i) as [->|]; [auto|intuition congruence].
  - destruct (Nat.eqb_spec a i) as [->|]; [tauto|auto].
Qed.
Section Parabolic.
Variables (P : problem) (bdy : nat -> bool) (lu : nat -> mat -> option (vec -> vec)).
Local Notation n := (n_dofs P).
Definition enough_data (g : dmat) (m : nat) : Prop := (n <= drows g)%nat /\ (m <= dcols g)%nat.
(* one step of implicit Euler of length dt from u to u': mass (u' - u) / dt + A u' = F off the dofs [on] *)
Definition euler_step (on : nat -> Prop) (op : dop) (dt : R) (F : nat -> R) (g : nat -> R) (u u' : vec) : Prop :=
  forall a, (a < n)%nat ->
    (on a -> u' a = g a) /\
    (~ on a -> rsum n (fun b => mass_entry P a b * ((u' b - u b) / dt)) + rsum n (fun b => assembled P op a b * u' b) = F a).
(* its system matrix *)
Definition euler_matrix (on : nat -> Prop) (op : dop) (dt : R) (K : mat) : Prop :=
  forall a b, (a < n)%nat -> (on a -> K a b = delta_ a b) /\ (~ on a -> K a b = mass_entry P a b / dt + assembled P op a b).
Lemma parabolic_steps s g (slv : vec -> vec) (K : mat) op d dt u0 : exact lu -> lu n K = Some slv -> dt <> 0 ->
  boundary_data s = g -> enough_data g (dcols d) ->
  (forall a b, ~ visited P bdy a -> stiff s a b = assembled P op a b) -> (forall a b, mass s a b = mass_entry P a b) ->
  (forall a b, K a b = if in_dec Nat.eq_dec a (visited_list P bdy) then delta_ a b else mass s a b / dt + stiff s a b) ->
  dsize (force s) = (n * dcols d)%nat ->
  (forall i a, (0 < i < dcols d)%nat -> (a < n)%nat -> dcoef (force s) (n * i + a) = Some (load_vector P (at_time (Sampled d) i) a)) ->
  forall k, (k <= dcols d - 1)%nat -> exists us, foldM (step P bdy dt slv s) (seq 0 k) [u0] = Ok us /\ length us = S k /\
    nth_error us 0 = Some u0 /\
    forall i, (S i < S k)%nat -> exists u u', nth_error us i = Some u /\ nth_error us (S i) = Some u' /\
      euler_step (visited P bdy) op dt (load_vector P (at_time (Sampled d) (S i))) (fun a => dval g a (S i)) u u'.
Proof.
  intros Hlu El Hdt Hg [Hg1 Hg2] HA HM HK HS HF. induction k as [|k IH]; intros Hk.
  - exists [u0]. cbn. split; [auto|]. split; [auto|]. split; [auto|]. intros; lia.
  - destruct IH as (us & E & L & H0 & H); [lia|]. rewrite seq_S, foldM_app, E. cbn [bind foldM Nat.add].
    destruct (nth_error us k) as [u|] eqn:Eu; [|apply nth_error_None in Eu; lia].
    unfold step. unfold nth_res. rewrite Eu. cbn [bind].
    destruct (read_block_ok (force s) (n * (k + 1)) n (load_vector P (at_time (Sampled d) (S k)))) as (f & Ef & Hf).
    { rewrite HS. nia. } { intros a Ha. replace (k + 1)%nat with (S k) by lia. apply HF; [lia|auto]. }
    rewrite Ef. cbn [bind]. rewrite on_boundary_eq, Hg.
    match goal with |- context [foldM ?h (visited_list P bdy) ?r] => destruct (foldM_rhs g (k + 1) (visited_list P bdy) (fun a Ha => Nat.lt_le_trans _ _ _ (proj1 (proj1 (visited_in P bdy a) Ha)) Hg1) ltac:(lia) r) as (r' & Er & Hr) end.
    rewrite Er. cbn [bind]. eexists. split; [reflexivity|]. split; [rewrite app_length, L; cbn; lia|]. split.
    { rewrite nth_error_app1 by lia. auto. }
    intros i Hi. destruct (Nat.eq_dec i k) as [->|Hne].
    + exists u, (slv r'). rewrite nth_error_app1 by lia. rewrite nth_error_app2 by lia. rewrite L, Nat.sub_diag. split; [auto|]. split; [auto|].
      intros a Ha. assert (Q := Hlu n K slv El r' a Ha). rewrite Hr in Q. 
      rewrite (rsum_ext n (fun j => K a j * slv r' j) (fun j => (if in_dec Nat.eq_dec a (visited_list P bdy) then delta_ a j else mass s a j / dt + stiff s a j) * slv r' j)) in Q
        by (intros; rewrite HK; auto).
      destruct (in_dec Nat.eq_dec a (visited_list P bdy)) as [Y|N].
      * split; intros V; [|exfalso; apply V; now apply visited_in]. rewrite delta_sum in Q by auto. rewrite Q. f_equal. lia.
      * split; intros V; [exfalso; apply N; now apply visited_in|]. rewrite Hf in Q by auto. unfold mulmv in Q.
        rewrite (rsum_ext n (fun j => (mass s a j / dt + stiff s a j) * slv r' j)
                 (fun j => mass_entry P a j * ((slv r' j - u j) / dt) + (assembled P op a j * slv r' j + mass s a j / dt * u j))) in Q
          by (intros; rewrite HM, HA by auto; field; auto).
        rewrite !rsum_plus in Q. lra.
    + destruct (H i) as (v & v' & A & B & C); [lia|]. exists v, v'. rewrite !nth_error_app1 by lia. auto.
Qed.
Lemma parabolic_solve s d t0 t1 ts : exact lu -> well_posed P s -> forcing_data s = Sampled d ->
  time_domain s = t0 :: t1 :: ts -> t1 - t0 <> 0 -> fst (initial_condition s) = n -> (0 < n)%nat -> enough_data (boundary_data s) (dcols d) ->
  exists s1 s2, init P true s = Ok s1 /\ solve P bdy true lu s1 = Ok s2 /\
   (success s2 = true \/ success s2 = false /\ exists K, euler_matrix (visited P bdy) (diff_op s) (t1 - t0) K /\ lu n K = None) /\
   (success s2 = true -> length (solution s2) = dcols d /\ nth_error (solution s2) 0 = Some (snd (initial_condition s)) /\
    forall i, (S i < dcols d)%nat -> exists u u', nth_error (solution s2) i = Some u /\ nth_error (solution s2) (S i) = Some u' /\
      euler_step (visited P bdy) (diff_op s) (t1 - t0) (load_vector P (at_time (Sampled d) (S i))) (fun a => dval (boundary_data s) a (S i)) u u').
Proof.
  intros Hlu Hw Ed Et Hdt Hic Hn Hg. destruct (init_ok P true s Hw) as (s1 & E1 & I1 & I2 & I3 & I4 & I5 & I6 & I7 & I8 & I9 & I10 & I11 & I12).
  assert (Hm : (1 <= dcols d)%nat) by (destruct Hw as (_ & _ & _ & Hm & _); rewrite Ed in Hm; auto).
  exists s1. assert (Hd : has_datum P (boundary_data s1)) by (rewrite I6; destruct Hg; split; lia).
  rewrite Ed in *. cbn [n_times] in *.
  destruct (C66_imposed P bdy s1) as (s1' & E & Em & Es & Him); [auto|auto|rewrite I11; nia|].
  unfold solve. replace (drows (boundary_data s1) * dcols (boundary_data s1) =? 0)%nat with false by (symmetry; apply Nat.eqb_neq; destruct Hd; nia).
  rewrite E. cbn [bind]. unfold solve_parabolic.
  assert (Hs : is_init s1' = true /\ time_domain s1' = time_domain s /\ forcing_data s1' = Sampled d /\ initial_condition s1' = initial_condition s /\ boundary_data s1' = boundary_data s).
  { revert E. unfold set_dirichlet_bc. rewrite I1. cbn [negb]. intros E. apply bind_ok in E. destruct E as (AF & _ & E). injection E as <-. cbn. 
    split; [auto|]. split; [auto|]. split; [auto|]. split; auto. }
  destruct Hs as (J1 & J2 & J3 & J4 & J5). rewrite J1, J2, J3, J4, Et. cbn [negb nth_res nth_error bind].
  replace (dcols d =? 0)%nat with false by (symmetry; apply Nat.eqb_neq; lia). rewrite Hic, Nat.eqb_refl. cbn [negb orb].
  rewrite on_boundary_eq. destruct (foldM_identity (visited_list P bdy) (fun a b => mass s1' a b / (t1 - t0) + stiff s1' a b)) as [EK HK].
  rewrite EK. cbn [bind]. destruct Him as (F1 & F2 & F3).
  match goal with |- context [lu n ?k] => destruct (lu n k) as [slv|] eqn:El end.
  - destruct (parabolic_steps s1' (boundary_data s) slv _ (diff_op s) d (t1 - t0) (snd (initial_condition s)) Hlu El Hdt J5 Hg) with (k := (dcols d - 1)%nat) as (us & Eu & Lu & H0 & H).
    { intros a b V. rewrite (proj1 (F3 a V)), I9. auto. }
    { intros a b. rewrite Em, I10. auto. }
    { exact HK. }
    { rewrite F1, I11. auto. }
    { intros i a Hi Ha. rewrite <- (I12 i a) by (auto; lia). apply (proj2 (F3 (n * i + a)%nat ltac:(intros [V _]; nia))). }
    { lia. }
    rewrite Eu. cbn [bind]. eexists. split; [auto|]. split; [reflexivity|]. cbn [set_result success solution]. split; [auto|].
    intros _. split; [lia|]. split; [auto|]. intros i Hi. apply H. lia.
  - eexists. split; [auto|]. split; [reflexivity|]. cbn [set_result success]. split; [|discriminate]. right. split; [auto|].
    eexists. split; [|exact El]. intros a b Ha. rewrite HK. rewrite <- visited_in.
    destruct (in_dec Nat.eq_dec a (visited_list P bdy)) as [Y|N]; split; intros V; try contradiction; auto.
    rewrite visited_in in V. rewrite (proj1 (F3 a V)), Em, I9, I10. auto.
Qed.
(* implicit Euler on the whole time grid: uniform grid, dof 0 on the boundary, boundary data at every time *)
Theorem C79_implicit_euler_partial s d : bdy 0%nat = true -> (0 < n)%nat ->
  exact lu -> well_posed P s -> forcing_data s = Sampled d -> (dcols d = length (time_domain s))%nat -> (2 <= dcols d)%nat ->
  (forall i t t', nth_error (time_domain s) i = Some t -> nth_error (time_domain s) (S i) = Some t' ->
     t < t' /\ forall s0 s1, nth_error (time_domain s) 0 = Some s0 -> nth_error (time_domain s) 1 = Some s1 -> t' - t = s1 - s0) ->
  fst (initial_condition s) = n -> enough_data (boundary_data s) (dcols d) ->
  exists s1 s2, init P true s = Ok s1 /\ solve P bdy true lu s1 = Ok s2 /\
   (success s2 = true \/ success s2 = false /\ exists K t t', nth_error (time_domain s) 0 = Some t /\ nth_error (time_domain s) 1 = Some t' /\
      euler_matrix (fun a => bdy a = true) (diff_op s) (t' - t) K /\ lu n K = None) /\
   (success s2 = true -> length (solution s2) = length (time_domain s) /\ nth_error (solution s2) 0 = Some (snd (initial_condition s)) /\
    forall i t t' u u', nth_error (time_domain s) i = Some t -> nth_error (time_domain s) (S i) = Some t' ->
      nth_error (solution s2) i = Some u -> nth_error (solution s2) (S i) = Some u' ->
      euler_step (fun a => bdy a = true) (diff_op s) (t' - t) (load_vector P (at_time (Sampled d) (S i))) (fun a => dval (boundary_data s) a (S i)) u u').
Proof.
  intros H0 Hn Hlu Hw Ed Em Hm Ht Hic Hg. destruct (time_domain s) as [|t0 [|t1 ts]] eqn:Et; [cbn in Em; lia|cbn in Em; lia|].
  destruct (parabolic_solve s d t0 t1 ts Hlu Hw Ed Et) as (s1 & s2 & E1 & E2 & Hf & H); auto.
  { destruct (Ht 0%nat t0 t1 eq_refl eq_refl). lra. }
  exists s1, s2. split; [auto|]. split; [auto|]. split.
  { destruct Hf as [Hf|(Hf & K & HK & El)]; [auto|]. right. split; [auto|]. exists K, t0, t1. split; [reflexivity|]. split; [reflexivity|]. split; [|auto]. intros a b Ha. destruct (HK a b Ha) as [A B].
    unfold visited in *. split; intros Y; [apply A; auto|apply B; intros [_ [->|W]]; auto]. }
  intros Hs. destruct (H Hs) as (A & B & C). split; [congruence|]. split; [auto|].
  intros i t t' u u' Hti Hti' Hui Hui'. assert (Hi : (S i < dcols d)%nat) by (rewrite Em; apply nth_error_Some; congruence).
  destruct (C i Hi) as (v & v' & Hv & Hv' & Hst). rewrite Hui in Hv. rewrite Hui' in Hv'. injection Hv as <-. injection Hv' as <-.
  destruct (Ht i t t' Hti Hti') as [_ Hu]. rewrite (Hu t0 t1 eq_refl eq_refl).
  intros a Ha. destruct (Hst a Ha) as [X Y]. unfold visited in *. split; intros V; [apply X; auto|apply Y; intros [_ [->|W]]; auto].
Qed.
(* a time-dependent problem without Dirichlet data reads boundary_data() out of bounds *)
Theorem C79_no_boundary_data_refuted s d t0 t1 ts slv : (0 < n)%nat -> (2 <= dcols d)%nat -> well_posed P s -> forcing_data s = Sampled d ->
  time_domain s = t0 :: t1 :: ts -> fst (initial_condition s) = n -> no_datum (boundary_data s) ->
  exists s1, init P true s = Ok s1 /\ ((forall K, lu n K = Some slv) -> solve P bdy true lu s1 = UB).
Proof.
  intros Hn Hm Hw Ed Et Hic Hg. destruct (init_ok P true s Hw) as (s1 & E1 & I1 & I2 & I3 & I4 & I5 & I6 & I7 & I8 & I9 & I10 & I11 & I12).
  exists s1. split; [auto|]. intros Hlu. unfold solve. rewrite I6. unfold no_datum in Hg. rewrite Hg. cbn [Nat.eqb bind].
  unfold solve_parabolic. rewrite I1, I4, I3, I5, Et, Ed. cbn [negb nth_res nth_error bind].
  replace (dcols d =? 0)%nat with false by (symmetry; apply Nat.eqb_neq; lia). rewrite Hic, Nat.eqb_refl. cbn [negb orb].
  rewrite on_boundary_eq. rewrite (proj1 (foldM_identity _ _)). cbn [bind]. rewrite Hlu. 
  destruct (dcols d - 1)%nat as [|k] eqn:Ek; [lia|]. cbn [seq foldM]. unfold step at 1. cbn [nth_res nth_error bind].
  destruct (read_block (force s1) (n * (0 + 1)) n) eqn:Er; cbn [bind]; auto.
  - rewrite on_boundary_eq. unfold visited_list. destruct n as [|k']; [lia|]. cbn [foldM]. unfold dget at 1. rewrite I6.
    match goal with |- context [if ?c then _ else UB] => assert (Ec : c = false) end.
    { apply andb_false_iff. rewrite !Nat.ltb_ge. nia. }
    rewrite Ec. reflexivity.
  - exfalso. unfold read_block in Er. destruct (_ && _); discriminate.
  - exfalso. unfold read_block in Er. destruct (_ && _); discriminate.
Qed.
End Parabolic.

(* ------------------------------------------------------------------ C80 *)
Section Lifecycle.
Variables (P : problem) (bdy : nat -> bool) (par : bool) (lu : nat -> mat -> option (vec -> vec)).
Local Notation apply := (apply P bdy par lu).
Local Notation run := (run P bdy par lu).
Lemma foldM_not_throw {S I : Type} (f : S -> I -> Res S) l : (forall s i, f s i <> Throw) -> forall s, foldM f l s <> Throw.
Proof.
  intros H. induction l as [|x l IH]; intros s; cbn; [discriminate|]. specialize (H s x). destruct (f s x); cbn; auto; discriminate.
Qed.
Lemma dget_not_throw g i j : dget g i j <> Throw.
Proof. unfold dget. destruct (_ && _); discriminate. Qed.
Lemma dirichlet_init s s' : set_dirichlet_bc P bdy s = Ok s' -> is_init s = true /\ is_init s' = true.
Proof.
  unfold set_dirichlet_bc. destruct (is_init s) eqn:E; cbn [negb]; [|discriminate]. intros H. apply bind_ok in H.
  destruct H as (AF & _ & H). injection H as <-. auto.
Qed.
Lemma dirichlet_throw s : set_dirichlet_bc P bdy s = Throw <-> is_init s = false.
Proof.
  unfold set_dirichlet_bc. destruct (is_init s); cbn [negb]; [|tauto]. split; [|discriminate]. intros H. exfalso.
  rewrite on_boundary_eq in H. assert (G := foldM_not_throw (dirichlet_body (boundary_data s)) (visited_list P bdy)).
  match type of H with bind ?r _ = _ => destruct r eqn:E end; try discriminate. eapply G; [|exact E].
  intros [A F] i. unfold dirichlet_body, dget, write_coef. destruct (_ && _); cbn [bind]; [|discriminate]. match goal with |- context [if ?c then _ else UB] => destruct c end; discriminate.
Qed.
Lemma step_not_throw dt slv s u i : step P bdy dt slv s u i <> Throw.
Proof.
  unfold step. unfold nth_res. destruct (nth_error u i); cbn; [|discriminate]. unfold read_block at 1.
  destruct (_ && _); cbn; [|discriminate]. rewrite on_boundary_eq.
  match goal with |- context [foldM ?f ?l ?s] => assert (G := foldM_not_throw f l); destruct (foldM f l s) eqn:E end; cbn; try discriminate.
  exfalso. eapply G; [|exact E]. intros r k. cbn beta. destruct (dget _ _ _) eqn:Ed; cbn; try discriminate. exfalso; eapply dget_not_throw; eauto.
Qed.
(* solve() throws if and only if the solver is not initialised *)
Lemma solve_throw s : solve P bdy par lu s = Throw <-> is_init s = false.
Proof.
  unfold solve. set (r := if (drows (boundary_data s) * dcols (boundary_data s) =? 0)%nat then Ok s else set_dirichlet_bc P bdy s).
  assert (Hr : (is_init s = false -> r = Throw \/ r = Ok s) /\ (is_init s = true -> r <> Throw /\ forall s', r = Ok s' -> is_init s' = true)).
  { unfold r. destruct (drows _ * dcols _ =? 0)%nat.
    - split; [auto|]. intros H. split; [discriminate|]. intros s' E. injection E as <-. auto.
    - split; [intros H; left; now apply dirichlet_throw|]. intros H. split; [intros E; apply dirichlet_throw in E; congruence|].
      intros s' E. apply dirichlet_init in E. tauto. }
  destruct (is_init s) eqn:Ei.
  - split; [|discriminate]. intros H. exfalso. destruct Hr as [_ Hr]. destruct (Hr eq_refl) as [A B]. destruct r as [s'| | |]; try discriminate; try congruence.
    specialize (B s' eq_refl). cbn [bind] in H. destruct par.
    + unfold solve_parabolic in H. rewrite B in H. cbn [negb] in H. unfold nth_res in H.
      destruct (nth_error (time_domain s') 1); cbn [bind] in H; [|discriminate]. destruct (nth_error (time_domain s') 0); cbn [bind] in H; [|discriminate].
      destruct (forcing_data s'); [discriminate|]. destruct (_ || _); [discriminate|]. rewrite on_boundary_eq, (proj1 (foldM_identity _ _)) in H. cbn [bind] in H.
      destruct (lu _ _); [|discriminate].
      match type of H with context [foldM ?f ?l ?s] => assert (G := foldM_not_throw f l); destruct (foldM f l s) eqn:E end; cbn in H; try discriminate.
      eapply G; [|exact E]. intros; apply step_not_throw.
    + unfold solve_elliptic in H. rewrite B in H. cbn [negb] in H. destruct (lu _ _); [|discriminate]. destruct (negb _); [discriminate|].
      unfold read_block in H. destruct (_ && _); discriminate.
  - split; [auto|]. intros _. destruct Hr as [Hr _]. destruct (Hr eq_refl) as [->| ->]; [reflexivity|]. cbn [bind].
    destruct par; [unfold solve_parabolic|unfold solve_elliptic]; rewrite Ei; reflexivity.
Qed.
Lemma solve_init s s' : solve P bdy par lu s = Ok s' -> is_init s' = true.
Proof.
  intros H. destruct (is_init s) eqn:Ei; [|apply solve_throw in Ei; congruence]. unfold solve in H. apply bind_ok in H. destruct H as (s1 & E & H).
  assert (H1 : is_init s1 = true). { destruct (drows _ * dcols _ =? 0)%nat; [congruence|]. apply dirichlet_init in E. tauto. }
  destruct par.
  - unfold solve_parabolic in H. rewrite H1 in H. cbn [negb] in H. apply bind_ok in H. destruct H as (t1 & _ & H). apply bind_ok in H. destruct H as (t0 & _ & H).
    destruct (forcing_data s1); [discriminate|]. destruct (_ || _); [discriminate|]. apply bind_ok in H. destruct H as (K & _ & H). destruct (lu _ _).
    + apply bind_ok in H. destruct H as (u & _ & H). injection H as <-. auto.
    + injection H as <-. auto.
  - unfold solve_elliptic in H. rewrite H1 in H. cbn [negb] in H. destruct (lu _ _).
    + destruct (negb _); [discriminate|]. apply bind_ok in H. destruct H as (u & _ & H). injection H as <-. auto.
    + injection H as <-. auto.
Qed.
Lemma run_app s cs cs' : run s (cs ++ cs') = match run s cs with Ok s' => run s' cs' | r => r end.
Proof. revert s. induction cs as [|c cs IH]; intros s; [reflexivity|]. cbn. destruct (apply s c); auto. Qed.
(* before init() every solve() throws, whatever was set *)
Theorem C80_throws_before_init op f t cs s : ~ In Init cs -> run (make_pde op f t) cs = Ok s -> apply s Solve = Throw.
Proof.
  intros Hn Hr. apply solve_throw. assert (G : forall cs s0 s, ~ In Init cs -> is_init s0 = false -> run s0 cs = Ok s -> is_init s = false).
  { clear. induction cs as [|c cs IH]; intros s0 s Hn Hi Hr; cbn in Hr; [congruence|].
    assert (Hn' : ~ In Init cs) by (cbn in Hn; tauto).
    destruct (apply s0 c) as [s'| | |] eqn:E; try discriminate; [|eauto].
    apply (IH s' s Hn'); [|auto]. destruct c; cbn in E; try (injection E as <-; auto).
    - exfalso. apply Hn. now left.
    - apply solve_throw in Hi. congruence. }
  eapply G; [exact Hn| |exact Hr]. reflexivity.
Qed.
(* once init() has succeeded no solve() throws, whatever is called in between *)
Theorem C80_never_throws_after_init s0 s1 cs s : apply s0 Init = Ok s1 -> run s1 cs = Ok s -> apply s Solve <> Throw.
Proof.
  intros Hi Hr H. apply solve_throw in H. assert (G : forall cs s1 s, is_init s1 = true -> run s1 cs = Ok s -> is_init s = true).
  { clear. induction cs as [|c cs IH]; intros s0 s Hi Hr; cbn in Hr; [congruence|].
    destruct (apply s0 c) as [s'| | |] eqn:E; try discriminate; [|eauto].
    apply (IH s' s); [|auto]. destruct c; cbn in E; try (injection E as <-; auto).
    - unfold init in E. apply bind_ok in E. destruct E as (A & _ & E). apply bind_ok in E. destruct E as (F & _ & E).
      apply bind_ok in E. destruct E as (M & _ & E). injection E as <-. reflexivity.
    - eapply solve_init; eauto. }
  cbn in Hi. assert (is_init s1 = true); [|erewrite G in H; eauto; discriminate].
  unfold init in Hi. apply bind_ok in Hi. destruct Hi as (A & _ & E). apply bind_ok in E. destruct E as (F & _ & E).
  apply bind_ok in E. destruct E as (M & _ & E). injection E as <-. reflexivity.
Qed.
(* ---------------------------------------------------------------- C112 *)
(* the data given last by the caller *)
Definition last_operator (op0 : dop) (cs : list call) : dop := fold_left (fun op c => match c with SetOperator op' => op' | _ => op end) cs op0.
Definition last_forcing (f0 : source) (cs : list call) : source := fold_left (fun f c => match c with SetForcing f' => f' | _ => f end) cs f0.
Definition last_boundary (g0 : dmat) (cs : list call) : dmat := fold_left (fun g c => match c with SetBoundary g' => g' | _ => g end) cs g0.
Definition last_initial (u0 : nat * vec) (cs : list call) : nat * vec := fold_left (fun u c => match c with SetInitial u' => u' | _ => u end) cs u0.
Definition data_of (s : pde) := (diff_op s, forcing_data s, boundary_data s, initial_condition s, time_domain s).
Lemma init_data s s' : init P par s = Ok s' -> data_of s' = data_of s.
Proof.
  unfold init. intros E. apply bind_ok in E. destruct E as (A & _ & E). apply bind_ok in E. destruct E as (F & _ & E).
  apply bind_ok in E. destruct E as (M & _ & E). injection E as <-. reflexivity.
Qed.
Lemma solve_data s s' : solve P bdy par lu s = Ok s' -> data_of s' = data_of s.
Proof.
  unfold solve. intros E. apply bind_ok in E. destruct E as (sx & E0 & H).
  assert (H0 : data_of sx = data_of s).
  { destruct (drows _ * dcols _ =? 0)%nat; [congruence|]. unfold set_dirichlet_bc in E0. destruct (negb _); [discriminate|]. apply bind_ok in E0. destruct E0 as (AF & _ & E0). injection E0 as <-. auto. }
  rewrite <- H0. destruct par.
  + unfold solve_parabolic in H. destruct (negb (is_init sx)); [discriminate|]. apply bind_ok in H. destruct H as (t1 & _ & H). apply bind_ok in H. destruct H as (tt0 & _ & H).
    destruct (forcing_data sx); [discriminate|]. destruct (_ || _); [discriminate|]. apply bind_ok in H. destruct H as (K & _ & H). destruct (lu _ _).
    * apply bind_ok in H. destruct H as (u & _ & H). injection H as <-. auto.
    * injection H as <-. auto.
  + unfold solve_elliptic in H. destruct (negb (is_init sx)); [discriminate|]. destruct (lu _ _).
    * destruct (negb _); [discriminate|]. apply bind_ok in H. destruct H as (u & _ & H). injection H as <-. auto.
    * injection H as <-. auto.
Qed.
(* after any history the object holds the data given last *)
Theorem C112_last_data cs : forall s0 s, run s0 cs = Ok s ->
  diff_op s = last_operator (diff_op s0) cs /\ forcing_data s = last_forcing (forcing_data s0) cs /\
  boundary_data s = last_boundary (boundary_data s0) cs /\ initial_condition s = last_initial (initial_condition s0) cs /\
  time_domain s = time_domain s0.
Proof.
  induction cs as [|c cs IH]; intros s0 s Hr; cbn [SolverModel.run] in Hr; [injection Hr as ->; cbn; auto|].
  assert (K : forall s', data_of s' = data_of s0 -> run s' cs = Ok s -> match c with Init | Solve => True | _ => False end ->
    diff_op s = last_operator (diff_op s0) (c :: cs) /\ forcing_data s = last_forcing (forcing_data s0) (c :: cs) /\
    boundary_data s = last_boundary (boundary_data s0) (c :: cs) /\ initial_condition s = last_initial (initial_condition s0) (c :: cs) /\
    time_domain s = time_domain s0).
  { intros s' Ed Hr' Hc. specialize (IH s' s Hr'). unfold data_of in Ed. injection Ed as E1 E2 E3 E4 E5. rewrite E1, E2, E3, E4, E5 in IH. destruct c; tauto. }
  destruct c; cbn [SolverModel.apply] in Hr.
  - destruct (init P par s0) as [s'| | |] eqn:E; try discriminate; [|apply (K s0); auto]. apply (K s'); auto. eapply init_data; eauto.
  - destruct (solve P bdy par lu s0) as [s'| | |] eqn:E; try discriminate; [|apply (K s0); auto]. apply (K s'); auto. eapply solve_data; eauto.
  - apply (IH _ _ Hr).
  - apply (IH _ _ Hr).
  - apply (IH _ _ Hr).
  - apply (IH _ _ Hr).
Qed.
(* init() forgets the history: what it computes depends only on the operator and the forcing given last *)
Theorem C112_init_forgets_history op0 f0 t0 cs s s1 : run (make_pde op0 f0 t0) cs = Ok s -> apply s Init = Ok s1 ->
  exists s2, apply (make_pde (last_operator op0 cs) (last_forcing f0 cs) t0) Init = Ok s2 /\
    stiff s1 = stiff s2 /\ mass s1 = mass s2 /\ force s1 = force s2 /\ time_domain s1 = time_domain s2.
Proof.
  intros Hr Hi. destruct (C112_last_data cs _ _ Hr) as (Ho & Hf & _ & _ & Ht). cbn [diff_op forcing_data time_domain make_pde] in Ho, Hf, Ht.
  cbn [SolverModel.apply] in *. unfold init in *. apply bind_ok in Hi. destruct Hi as (A & EA & E). apply bind_ok in E. destruct E as (F & EF & E).
  apply bind_ok in E. destruct E as (M & EM & E). injection E as <-. cbn [diff_op make_pde]. rewrite <- Ho, EA. cbn [bind].
  assert (EF' : init_force P par (make_pde (diff_op s) (last_forcing f0 cs) t0) = Ok F).
  { unfold init_force in *. cbn [forcing_data make_pde]. rewrite <- Hf. exact EF. }
  rewrite EF'. cbn [bind]. rewrite EM. cbn [bind]. eexists. split; [reflexivity|]. cbn. auto.
Qed.
End Lifecycle.

(* ------------------------------------------------------------------ witnesses *)
From Coq Require Import ClassicalEpsilon.
(* there is an exact solver that succeeds on every invertible matrix *)
Definition some_lu (n : nat) (A : mat) : option (vec -> vec) :=
  match excluded_middle_informative (exists B, inverse_of n A B) with
  | left H => let B := proj1_sig (constructive_indefinite_description _ H) in Some (fun b i => rsum n (fun j => B i j * b j))
  | right _ => None
  end.
Lemma some_lu_exact : exact some_lu.
Proof.
  intros n A slv. unfold some_lu. destruct (excluded_middle_informative _) as [H|H]; [|discriminate].
  destruct (constructive_indefinite_description _ H) as [B HB]. cbn [proj1_sig]. intros E b a Ha. injection E as <-.
  rewrite (rsum_ext n _ (fun k => rsum n (fun j => A a k * B k j * b j))) by (intros; rewrite <- rsum_scal; apply rsum_ext; intros; ring).
  rewrite rsum_swap. rewrite (rsum_ext n _ (fun j => delta a j * b j)); [now apply rsum_delta_l|].
  intros j Hj. rewrite rsum_scal_r. now rewrite HB.
Qed.
Lemma some_lu_complete n A B : inverse_of n A B -> some_lu n A <> None.
Proof. intros H. unfold some_lu. destruct (excluded_middle_informative _) as [Y|N]; [discriminate|]. exfalso. eauto. Qed.

Definition heat : dop := DBin OAdd Dt (Reac (SConst 1)).
Lemma tri_reac a b : (a < 3)%nat -> (b < 3)%nat -> assembled one_triangle (Reac (SConst 1)) a b = / 18.
Proof.
  intros Ha Hb. destruct a as [|[|[|a]]], b as [|[|[|b]]]; try lia; unfold assembled, quad; cbn; unfold hit; cbn; lra.
Qed.
Lemma tri_heat a b : (a < 3)%nat -> (b < 3)%nat -> assembled one_triangle heat a b = / 18.
Proof.
  intros Ha Hb. destruct a as [|[|[|a]]], b as [|[|[|b]]]; try lia; unfold assembled, quad; cbn; unfold hit; cbn; lra.
Qed.
Lemma tri_load i rows cols a : load_vector one_triangle (at_time (Sampled {| drows := rows; dcols := cols; dval := fun _ _ => 0 |}) i) a = 0.
Proof. unfold load_vector. apply rsum_zero. intros e _. apply rsum_zero. intros k _. unfold load. cbn. lra. Qed.
Lemma tri_posed op f t : coef_ok one_triangle op -> is_symmetric op = true -> tensors_symmetric one_triangle op -> source_ok one_triangle f ->
  well_posed one_triangle (make_pde op f t).
Proof.
  intros H1 H2 H3 H4. split; [auto|]. split; [intros e i; cbn; lia|]. split; [|auto]. cbn [make_pde diff_op]. intros _ e i j _ _ _. unfold quad. f_equal.
  apply rsum_ext. intros q _. rewrite wf_symmetric; auto.
Qed.

(* dof 0 is treated as a boundary dof even in the interior: its equation is lost *)
Theorem C66_interior_refuted : exists P bdy s1 s2, (0 < n_dofs P)%nat /\ bdy 0%nat = false /\ bdy 1%nat = true /\
  run P bdy false some_lu (make_pde (Reac (SConst 1)) (Callable (fun _ => 0)) [])
    [SetBoundary {| drows := 3; dcols := 1; dval := fun _ _ => 7 |}; Init] = Ok s1 /\
  set_dirichlet_bc P bdy s1 = Ok s2 /\ stiff s1 0%nat 1%nat <> 0 /\ stiff s2 0%nat 1%nat = 0 /\ dcoef (force s2) 0%nat = Some 7.
Proof.
  exists one_triangle, (fun a => negb (a =? 0)%nat).
  pose (s0 := {| diff_op := Reac (SConst 1); forcing_data := Callable (fun _ => 0); time_domain := []; initial_condition := (0%nat, fun _ => 0);
    boundary_data := {| drows := 3; dcols := 1; dval := fun _ _ => 7 |}; is_init := false; success := false;
    stiff := fun _ _ => 0; mass := fun _ _ => 0; force := {| dsize := 0; dcoef := fun _ => None |}; solution := [] |}).
  assert (Hw : well_posed one_triangle s0).
  { apply (tri_posed (Reac (SConst 1)) (Callable (fun _ => 0)) []); cbn; auto. split; cbn; auto. }
  destruct (init_ok one_triangle false s0 Hw) as (s1 & E1 & I1 & I2 & I3 & I4 & I5 & I6 & I7 & I8 & I9 & I10 & I11 & I12).
  destruct (C66_imposed one_triangle (fun a => negb (a =? 0)%nat) s1) as (s2 & E2 & _ & _ & H1 & H2 & H3); [auto| |rewrite I11; cbn; lia|].
  { rewrite I6. split; cbn; lia. }
  exists s1, s2. split; [cbn; lia|]. split; [reflexivity|]. split; [reflexivity|]. split.
  { cbn [run apply]. change (init one_triangle false _) with (init one_triangle false s0). rewrite E1. reflexivity. }
  split; [auto|]. destruct (H2 0%nat) as [A B]; [cbn; split; [lia|auto]|]. split; [|split].
  - rewrite I9. cbn [s0 diff_op]. rewrite tri_reac by lia. lra.
  - rewrite A. reflexivity.
  - rewrite B, I6. reflexivity.
Qed.
Definition heat_pde (t : list R) (u0 : vec) (g : mat) : pde :=
  {| diff_op := heat; forcing_data := Sampled {| drows := 1; dcols := length t; dval := fun _ _ => 0 |}; time_domain := t;
     initial_condition := (3%nat, u0); boundary_data := {| drows := 3; dcols := length t; dval := g |}; is_init := false; success := false;
     stiff := fun _ _ => 0; mass := fun _ _ => 0; force := {| dsize := 0; dcoef := fun _ => None |}; solution := [] |}.
Lemma heat_posed t u0 g : t <> [] -> well_posed one_triangle (heat_pde t u0 g).
Proof.
  intros Ht. apply (tri_posed heat (Sampled {| drows := 1; dcols := length t; dval := fun _ _ => 0 |}) t); cbn; auto.
  split; cbn; [destruct t; [congruence|cbn; lia]|lia].
Qed.
(* with dof 0 in the interior: its value is taken from the boundary data and its equation does not hold *)
Theorem C79_interior_refuted : exists bdy s1 s2 u u', bdy 0%nat = false /\ bdy 1%nat = true /\
  let s := heat_pde [0; 1] (fun _ => 0) (fun a _ => if (a =? 0)%nat then 5 else 0) in
  well_posed one_triangle s /\
  init one_triangle true s = Ok s1 /\ solve one_triangle bdy true some_lu s1 = Ok s2 /\ success s2 = true /\ solution s2 = [u; u'] /\
  ~ euler_step one_triangle (fun a => bdy a = true) heat 1 (fun _ => 0) (fun a => if (a =? 0)%nat then 5 else 0) u u'.
Proof.
  set (s := heat_pde [0; 1] (fun _ => 0) (fun a _ => if (a =? 0)%nat then 5 else 0)).
  assert (Hw : well_posed one_triangle s) by (apply heat_posed; discriminate).
  destruct (parabolic_solve one_triangle (fun a => negb (a =? 0)%nat) some_lu s _ 0 1 [] some_lu_exact Hw eq_refl eq_refl)
    as (s1 & s2 & E1 & E2 & Hf & H); [lra|reflexivity|cbn; lia|split; cbn; lia|].
  destruct Hf as [Hs|(_ & K & HK & El)].
  - destruct (H Hs) as (L & U0 & U). destruct (U 0%nat) as (u & u' & A & B & C); [cbn; lia|].
    exists (fun a => negb (a =? 0)%nat), s1, s2, u, u'. split; [reflexivity|]. split; [reflexivity|]. cbv zeta. split; [auto|]. split; [auto|]. split; [auto|].
    split; [auto|]. split.
    { cbn in L. destruct (solution s2) as [|x [|y [|z l]]]; cbn in L; try lia. cbn in A, B. congruence. }
    assert (V : forall a, (a < 3)%nat -> u' a = if (a =? 0)%nat then 5 else 0).
    { intros a Ha. apply (C a Ha). unfold visited. cbn. split; [lia|]. destruct a; cbn; auto. }
    rewrite A in U0. injection U0 as ->. intros HE. destruct (HE 0%nat) as [_ HE0]; [cbn; lia|].
    specialize (HE0 ltac:(cbn; discriminate)). cbn [n_dofs one_triangle rsum] in HE0.
    unfold mass_entry in HE0. rewrite !V, !tri_reac, !tri_heat in HE0 by lia. cbn in HE0. lra.
  - exfalso. apply (some_lu_complete 3 K (fun a b => delta a b)); [|exact El]. intros i j Hi Hj.
    rewrite (rsum_ext 3 _ (fun k => delta i k * delta k j)); [now rewrite rsum_delta_l|]. intros k Hk. f_equal.
    destruct (HK i k Hi) as [X _]. rewrite X; [|unfold visited; cbn; split; [lia|]; destruct i; cbn; auto].
    unfold delta_, delta. destruct (Nat.eq_dec i k), (Nat.eqb_spec i k); auto; congruence.
Qed.
(* the elliptic solve with dof 0 in the interior: the solution reported does not satisfy the equation of dof 0 *)
Definition reac_pde : pde :=
  {| diff_op := Reac (SConst 1); forcing_data := Callable (fun _ => 0); time_domain := []; initial_condition := (0%nat, fun _ => 0);
     boundary_data := {| drows := 3; dcols := 1; dval := fun _ _ => 7 |}; is_init := false; success := false;
     stiff := fun _ _ => 0; mass := fun _ _ => 0; force := {| dsize := 0; dcoef := fun _ => None |}; solution := [] |}.
Theorem C111_interior_refuted : exists bdy s1 s2 u, bdy 0%nat = false /\ bdy 1%nat = true /\ well_posed one_triangle reac_pde /\
  init one_triangle false reac_pde = Ok s1 /\ solve one_triangle bdy false some_lu s1 = Ok s2 /\ success s2 = true /\ solution s2 = [u] /\
  ~ discrete_solution one_triangle (fun a => bdy a = true) (diff_op reac_pde) (forcing_data reac_pde) (boundary_data reac_pde) u.
Proof.
  set (bdy := fun a => negb (a =? 0)%nat). assert (Hw : well_posed one_triangle reac_pde).
  { apply (tri_posed (Reac (SConst 1)) (Callable (fun _ => 0)) []); cbn; auto. split; cbn; auto. }
  destruct (elliptic one_triangle bdy some_lu reac_pde (visited one_triangle bdy) some_lu_exact Hw eq_refl) as (s1 & s2 & E1 & E2 & H).
  { right. split; [split; cbn; lia|]. split; [cbn; lia|tauto]. }
  assert (All : forall a, (a < 3)%nat -> visited one_triangle bdy a) by (intros a Ha; unfold visited, bdy; cbn; split; [lia|]; destruct a; cbn; auto).
  destruct H as [(H1 & u & H2 & H3)|(_ & _ & El & HK)].
  - exists bdy, s1, s2, u. split; [reflexivity|]. split; [reflexivity|]. do 5 (split; [auto|]). intros HE.
    assert (V : forall a, (a < 3)%nat -> u a = 7) by (intros a Ha; apply (H3 a Ha); auto).
    destruct (HE 0%nat) as [_ HE0]; [cbn; lia|]. specialize (HE0 ltac:(cbn; discriminate)). cbn [n_dofs one_triangle rsum diff_op reac_pde] in HE0.
    rewrite !V, !tri_reac in HE0 by lia. replace (load_vector _ _ _) with 0 in HE0; [lra|].
    symmetry. unfold load_vector. apply rsum_zero. intros e _. apply rsum_zero. intros k _. unfold load. cbn. lra.
  - exfalso. apply (some_lu_complete 3 (stiff s2) (fun a b => delta a b)); [|exact El]. intros i j Hi Hj.
    rewrite (rsum_ext 3 _ (fun k => delta i k * delta k j)); [now rewrite rsum_delta_l|]. intros k Hk. f_equal.
    destruct (HK i k Hi) as [X _]. rewrite X by auto. unfold delta_, delta. destruct (Nat.eq_dec i k), (Nat.eqb_spec i k); auto; congruence.
Qed.
(* only the first time interval is used: on a grid that is not uniform the later steps have the wrong length *)
Theorem C79_nonuniform_refuted : exists bdy s1 s2 u u' u'', bdy 0%nat = true /\
  let s := heat_pde [0; 1; 3] (fun a => if (a =? 2)%nat then 1 else 0) (fun _ _ => 0) in
  well_posed one_triangle s /\
  init one_triangle true s = Ok s1 /\ solve one_triangle bdy true some_lu s1 = Ok s2 /\ success s2 = true /\ solution s2 = [u; u'; u''] /\
  ~ euler_step one_triangle (fun a => bdy a = true) heat (3 - 1) (fun _ => 0) (fun _ => 0) u' u''.
Proof.
  set (s := heat_pde [0; 1; 3] (fun a => if (a =? 2)%nat then 1 else 0) (fun _ _ => 0)).
  assert (Hw : well_posed one_triangle s) by (apply heat_posed; discriminate).
  pose (bdy := fun a : nat => (a <? 2)%nat).
  destruct (parabolic_solve one_triangle bdy some_lu s _ 0 1 [3] some_lu_exact Hw eq_refl eq_refl)
    as (s1 & s2 & E1 & E2 & Hf & H); [lra|reflexivity|cbn; lia|split; cbn; lia|].
  assert (NV : ~ visited one_triangle bdy 2) by (unfold visited, bdy; cbn; intuition discriminate).
  destruct Hf as [Hs|(_ & K & HK & El)].
  - destruct (H Hs) as (L & U0 & U). destruct (U 0%nat) as (u & u' & A & B & C); [cbn; lia|]. destruct (U 1%nat) as (v & u'' & A' & B' & C'); [cbn; lia|].
    rewrite B in A'. injection A' as <-.
    exists bdy, s1, s2, u, u', u''. split; [reflexivity|]. cbv zeta. split; [auto|]. split; [auto|]. split; [auto|]. split; [auto|]. split.
    { cbn in L. destruct (solution s2) as [|x [|y [|z [|w l]]]]; cbn in L; try lia. cbn in A, B, B'. congruence. }
    rewrite A in U0. injection U0 as ->. intros HE.
    destruct (C 2%nat ltac:(cbn; lia)) as [_ X1]. specialize (X1 NV). rewrite tri_load in X1.
    destruct (C' 2%nat ltac:(cbn; lia)) as [_ X2]. specialize (X2 NV). rewrite tri_load in X2.
    destruct (HE 2%nat ltac:(cbn; lia)) as [_ X3]. specialize (X3 ltac:(cbn; discriminate)).
    cbn [n_dofs one_triangle rsum s heat_pde initial_condition snd diff_op] in X1, X2, X3. unfold mass_entry in X1, X2, X3.
    rewrite !tri_reac, !tri_heat in X1, X2, X3 by lia. cbn [Nat.eqb] in X1. lra.
  - exfalso.
    apply (some_lu_complete 3 K (fun i j => match i with 2%nat => match j with 2%nat => 9 | _ => -1 end | _ => delta i j end)); [|exact El].
    assert (K2 : forall b, (b < 3)%nat -> K 2%nat b = / 9).
    { intros b Hb. destruct (HK 2%nat b ltac:(cbn; lia)) as [_ X]. rewrite X by auto. unfold mass_entry. cbn [diff_op s heat_pde]. rewrite tri_reac, tri_heat by lia. lra. }
    assert (K01 : forall a b, (a < 2)%nat -> K a b = delta_ a b).
    { intros a b Ha. destruct (HK a b ltac:(cbn; lia)) as [X _]. apply X. unfold visited, bdy. split; [cbn; lia|]. right. apply Nat.ltb_lt; auto. }
    intros i j Hi Hj. cbn [rsum]. destruct i as [|[|[|i]]]; try lia; rewrite ?K01, ?K2 by lia;
      destruct j as [|[|[|j]]]; try lia; cbn; unfold delta; cbn; lra.
Qed.
Example C111_example : exact some_lu /\ well_posed one_triangle (heat_pde [0; 1] (fun _ => 0) (fun _ _ => 1)) /\
  enough_data one_triangle {| drows := 3; dcols := 2; dval := fun _ _ => 1 |} 2.
Proof. split; [apply some_lu_exact|]. split; [apply heat_posed; discriminate|]. split; cbn; lia. Qed.
