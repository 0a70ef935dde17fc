(* C150-C153: time-dependent problems (unique solvability, stability, steady states) and the variational principle. *)
From Verif Require Import Base RSum SimplexModel SimplexProps LinAlg FieldModel FieldProps MeasureModel MeasureProps FemModel FemProps EvalModel EvalProps
  SolverModel SolverProps FemEnergy FemKernel FemMesh.
From Verif Require PolyModel QuadModel TriSpec TriProps.
Local Open Scope R_scope.

(* ------------------------------------------------------------------ specification *)
(* a time grid with equal increasing steps *)
Definition uniform (t : list R) : Prop :=
  forall i a b, nth_error t i = Some a -> nth_error t (S i) = Some b ->
    a < b /\ forall x y, nth_error t 0 = Some x -> nth_error t 1 = Some y -> b - a = y - x.
Section Spec.
Variable P : problem.
(* the square of the discrete L2 norm: quadrature of the square of a finite element function *)
Definition l2 (v : vec) : R := mesh_quadrature P (fun e q => fe_at P v e (node P q) * fe_at P v e (node P q)).
(* one vector of coefficients per time point, each obtained from the previous one by a step of implicit Euler *)
Definition trajectory (on : nat -> Prop) (op : dop) (f : source) (g : dmat) (t : list R) (us : list vec) : Prop :=
  length us = length t /\
  forall i a b u u', nth_error t i = Some a -> nth_error t (S i) = Some b -> nth_error us i = Some u -> nth_error us (S i) = Some u' ->
    euler_step P on op (b - a) (load_vector P (at_time f (S i))) (fun x => dval g x (S i)) u u'.
(* the energy functional of a symmetric problem: half the quadratic form minus the load *)
Definition energy (op : dop) (F : nat -> R) (v : vec) : R := pairing P (assembled P op) v v / 2 - rsum (n_dofs P) (fun a => F a * v a).
End Spec.
Definition same_problem (s s' : pde) : Prop :=
  diff_op s' = diff_op s /\ forcing_data s' = forcing_data s /\ time_domain s' = time_domain s /\ boundary_data s' = boundary_data s.

(* ------------------------------------------------------------------ proofs *)
Lemma rsum_opp n f : rsum n (fun i => - f i) = - rsum n f.
Proof. induction n as [|n IH]; cbn [rsum]; [ring|rewrite IH; ring]. Qed.
Section Forms.
Variable P : problem.
Local Notation n := (n_dofs P).
Lemma assembled_form op : coef_ok P op -> dofs_ok P -> proper op -> (is_symmetric op = true -> tensors_symmetric P op) ->
  forall u v, pairing P (assembled P op) u v = mesh_quadrature P (fun e q => bform P op e q u v).
Proof.
  intros Hc Hd Hp Hs u v. destruct (C137_bilinear_form P op Hc Hd Hp Hs) as (A & E & HA).
  assert (HL : is_symmetric op = true -> locally_symmetric P op) by (intros Es; apply (C65_symmetric_partial P op Hc Hd Es (Hs Es))).
  destruct (C64_assembly P op Hc Hd HL) as (A' & E' & HA'). rewrite E in E'. injection E' as <-.
  rewrite <- HA. unfold pairing. apply rsum_ext. intros a _. apply rsum_ext. intros b _. now rewrite HA'.
Qed.
Lemma assembled_nonneg op : coef_ok P op -> dofs_ok P -> elliptic P op -> tensors_symmetric P op -> positive_quadrature P ->
  forall v, 0 <= pairing P (assembled P op) v v.
Proof.
  intros Hc Hd He Ht [Hm Hw] v. destruct (elliptic_proper P op He) as [Hp Hs]. rewrite assembled_form by auto.
  apply rsum_nonneg. intros e Hce. apply Rmult_le_pos; [left; auto|].
  apply rsum_nonneg. intros q Hq. apply Rmult_le_pos; [left; auto|]. now apply elliptic_nonneg.
Qed.
Lemma mass_pairing : dofs_ok P -> forall u v, pairing P (mass_entry P) u v = mesh_quadrature P (fun e q => fe_at P u e (node P q) * fe_at P v e (node P q)).
Proof.
  intros Hd u v. unfold mass_entry. rewrite (assembled_form FemEnergy.mass (FemEnergy.mass_ok P) Hd I (fun _ => I)).
  unfold mesh_quadrature. apply rsum_ext. intros e _. f_equal. apply rsum_ext. intros q _. rewrite mass_form. reflexivity.
Qed.
Lemma fe_minus u v e p : fe_at P (fun a => u a - v a) e p = fe_at P u e p - fe_at P v e p.
Proof. unfold fe_at. rewrite <- rsum_minus. apply rsum_ext. intros; ring. Qed.
Lemma l2_nonneg v : positive_quadrature P -> 0 <= l2 P v.
Proof.
  intros [Hm Hw]. apply rsum_nonneg. intros e He. apply Rmult_le_pos; [left; auto|]. apply rsum_nonneg. intros q Hq.
  apply Rmult_le_pos; [left; auto|apply Rle_0_sqr].
Qed.
Lemma l2_zero v : positive_quadrature P -> unisolvent P -> covered P -> dofs_ok P -> l2 P v <= 0 -> forall a, (a < n)%nat -> v a = 0.
Proof.
  intros [Hm Hw] Hu Hc Hd HL a Ha. destruct (Req_dec (v a) 0) as [|Hne]; [auto|exfalso]. destruct (Hc a Ha) as (e & h & He & Hh & <-).
  destruct (C140_mass P Hd) as (A & EA & _ & Q & _ & Pos). specialize (Pos Hu Hm Hw v e h He Hh Hne). rewrite Q in Pos. unfold l2 in HL. lra.
Qed.
Lemma l2_ext u v : dofs_ok P -> (forall a, (a < n)%nat -> u a = v a) -> l2 P u = l2 P v.
Proof.
  intros Hd H. unfold l2. unfold mesh_quadrature. apply rsum_ext. intros e He. f_equal. apply rsum_ext. intros q _.
  assert (E : fe_at P u e (node P q) = fe_at P v e (node P q)).
  { unfold fe_at. apply rsum_ext. intros h Hh. rewrite (H (dof P e h)) by (now apply Hd). reflexivity. }
  rewrite E. reflexivity.
Qed.
(* Young: (u, v) <= (|u|^2 + |v|^2) / 2 *)
Lemma mass_young u v : dofs_ok P -> positive_quadrature P -> pairing P (mass_entry P) u v <= (l2 P u + l2 P v) / 2.
Proof.
  intros Hd Hp. assert (N := l2_nonneg (fun a => u a - v a) Hp). rewrite mass_pairing by auto.
  assert (E : l2 P (fun a => u a - v a) = l2 P u + l2 P v - 2 * mesh_quadrature P (fun e q => fe_at P u e (node P q) * fe_at P v e (node P q))).
  { unfold l2, mesh_quadrature. rewrite <- rsum_scal, <- rsum_plus, <- rsum_minus. apply rsum_ext. intros e _.
    transitivity (measure P e * (rsum (n_nodes P) (fun q => weight P q * (fe_at P u e (node P q) * fe_at P u e (node P q))) +
      rsum (n_nodes P) (fun q => weight P q * (fe_at P v e (node P q) * fe_at P v e (node P q))) -
      2 * rsum (n_nodes P) (fun q => weight P q * (fe_at P u e (node P q) * fe_at P v e (node P q))))); [|ring].
    f_equal. rewrite <- rsum_scal, <- rsum_plus, <- rsum_minus. apply rsum_ext. intros q _. rewrite fe_minus. ring. }
  lra.
Qed.
Lemma pairing_minus_r A u v w : pairing P A u (fun a => v a - w a) = pairing P A u v - pairing P A u w.
Proof. unfold pairing. rewrite <- rsum_minus. apply rsum_ext. intros a _. rewrite <- rsum_minus. apply rsum_ext. intros; ring. Qed.
Lemma pairing_row A u v : pairing P A u v = rsum n (fun a => u a * rsum n (fun b => A a b * v b)).
Proof. unfold pairing. apply rsum_ext. intros a _. rewrite <- rsum_scal. apply rsum_ext. intros; ring. Qed.
(* the difference of two steps with the same data *)
Lemma step_contraction on (Hdec : forall a, {on a} + {~ on a}) op dt F g u u' v v' : coef_ok P op -> dofs_ok P -> elliptic P op -> tensors_symmetric P op -> positive_quadrature P ->
  0 < dt -> euler_step P on op dt F g u u' -> euler_step P on op dt F g v v' ->
  l2 P (fun a => u' a - v' a) <= l2 P (fun a => u a - v a).
Proof.
  intros Hc Hd He Ht Hq Hdt Hu Hv. set (x := fun a => u' a - v' a). set (y := fun a => u a - v a).
  assert (Z : pairing P (mass_entry P) x x - pairing P (mass_entry P) x y + dt * pairing P (assembled P op) x x = 0).
  { rewrite <- pairing_minus_r. rewrite !pairing_row, <- rsum_scal, <- rsum_plus. apply rsum_zero. intros a Ha.
    destruct (Hdec a) as [Y|N].
    - unfold x at 1 3. rewrite (proj1 (Hu a Ha) Y), (proj1 (Hv a Ha) Y). ring.
    - assert (A := proj2 (Hu a Ha) N). assert (B := proj2 (Hv a Ha) N).
      transitivity (x a * (dt * (rsum n (fun b => mass_entry P a b * ((u' b - u b) / dt)) + rsum n (fun b => assembled P op a b * u' b)
        - (rsum n (fun b => mass_entry P a b * ((v' b - v b) / dt)) + rsum n (fun b => assembled P op a b * v' b))))).
      2:{ rewrite A, B. ring. }
      transitivity (x a * (rsum n (fun b => mass_entry P a b * (x b - y b)) + dt * rsum n (fun b => assembled P op a b * x b))); [ring|].
      f_equal.
      replace (rsum n (fun b => mass_entry P a b * (x b - y b))) with (dt * (rsum n (fun b => mass_entry P a b * ((u' b - u b) / dt)) - rsum n (fun b => mass_entry P a b * ((v' b - v b) / dt)))).
      2:{ rewrite <- rsum_minus, <- rsum_scal. apply rsum_ext. intros b _. unfold x, y. field. lra. }
      replace (rsum n (fun b => assembled P op a b * x b)) with (rsum n (fun b => assembled P op a b * u' b) - rsum n (fun b => assembled P op a b * v' b)).
      2:{ rewrite <- rsum_minus. apply rsum_ext. intros b _. unfold x. ring. }
      ring. }
  assert (N := assembled_nonneg op Hc Hd He Ht Hq x). assert (Y := mass_young x y Hd Hq).
  assert (E : pairing P (mass_entry P) x x = l2 P x) by (rewrite mass_pairing by auto; reflexivity).
  assert (0 <= dt * pairing P (assembled P op) x x) by (apply Rmult_le_pos; lra). lra.
Qed.
(* the system matrix of a step is invertible *)
Lemma euler_invertible (on : nat -> bool) op dt K : coef_ok P op -> dofs_ok P -> elliptic P op -> tensors_symmetric P op -> positive_quadrature P ->
  unisolvent P -> covered P -> 0 < dt -> euler_matrix P (fun a => on a = true) op dt K -> exists B, inverse_of n K B.
Proof.
  intros Hc Hd He Ht Hq Hu Hcov Hdt HK. apply MeasureProps.injective_inverse. intros x Hx.
  assert (S : forall z, (forall a, (a < n)%nat -> rsum n (fun j => K a j * z j) = 0) -> euler_step P (fun a => on a = true) op dt (fun _ => 0) (fun _ => 0) (fun _ => 0) z).
  { intros z Hz a Ha. split; intros Ho; specialize (Hz a Ha).
    - rewrite (rsum_ext _ _ (fun b => delta_ a b * z b)) in Hz by (intros b _; rewrite (proj1 (HK a b Ha) Ho); reflexivity). rewrite delta_sum in Hz; auto.
    - rewrite (rsum_ext _ _ (fun b => mass_entry P a b * ((z b - 0) / dt) + assembled P op a b * z b)) in Hz
        by (intros b _; rewrite (proj2 (HK a b Ha) Ho); field; lra).
      rewrite rsum_plus in Hz. exact Hz. }
  assert (S0 := S (fun _ => 0) (fun a _ => rsum_zero n _ (fun j _ => Rmult_0_r _))).
  assert (L := step_contraction (fun a => on a = true) (fun a => Bool.bool_dec (on a) true) op dt _ _ _ _ _ _ Hc Hd He Ht Hq Hdt (S x Hx) S0). cbv beta in L.
  assert (Z : l2 P (fun _ => 0 - 0) = 0).
  { unfold l2, mesh_quadrature. apply rsum_zero. intros e _. rewrite rsum_zero; [ring|]. intros q _. rewrite fe_minus. ring. }
  rewrite Z in L. intros j Hj. assert (V := l2_zero _ Hq Hu Hcov Hd L j Hj). cbv beta in V. lra.
Qed.
End Forms.

Section Parabolic.
Variables (P : problem) (bdy : nat -> bool) (lu : nat -> mat -> option (vec -> vec)).
Local Notation n := (n_dofs P).
Local Notation on := (fun a => bdy a = true).
Hypotheses (Hlu : exact lu) (Hco : complete lu) (H0 : bdy 0%nat = true) (Hn : (0 < n)%nat).
Hypotheses (Hd : dofs_ok P) (Hq : positive_quadrature P).
(* two trajectories of the same problem: each step brings them closer *)
Lemma trajectories_contract op f g t us vs : coef_ok P op -> elliptic P op -> tensors_symmetric P op -> uniform t ->
  trajectory P on op f g t us -> trajectory P on op f g t vs ->
  forall i j u u' v v', (i <= j)%nat -> nth_error us i = Some u -> nth_error vs i = Some v -> nth_error us j = Some u' -> nth_error vs j = Some v' ->
    l2 P (fun a => u' a - v' a) <= l2 P (fun a => u a - v a).
Proof.
  intros Hc He Ht Hun [Lu Su] [Lv Sv] i j. remember (j - i)%nat as k eqn:Ek. revert j Ek.
  induction k as [|k IH]; intros j Ek u u' v v' Hij Eu Ev Eu' Ev'.
  - replace j with i in * by lia. rewrite Eu in Eu'. rewrite Ev in Ev'. injection Eu' as <-. injection Ev' as <-. lra.
  - destruct j as [|j]; [lia|]. assert (Lj : (S j < length t)%nat) by (rewrite <- Lu; apply nth_error_Some; congruence).
    destruct (nth_error us j) as [w|] eqn:Ew; [|apply nth_error_None in Ew; lia].
    destruct (nth_error vs j) as [z|] eqn:Ez; [|apply nth_error_None in Ez; lia].
    destruct (nth_error t j) as [a|] eqn:Ea; [|apply nth_error_None in Ea; lia].
    destruct (nth_error t (S j)) as [b|] eqn:Eb; [|apply nth_error_None in Eb; lia].
    apply Rle_trans with (l2 P (fun a => w a - z a)); [|apply (IH j ltac:(lia)); auto; lia].
    eapply (step_contraction P on (fun a => Bool.bool_dec (bdy a) true) op (b - a)); eauto.
    destruct (Hun j a b Ea Eb). lra.
Qed.

(* C150: a diffusion-reaction problem in time has exactly one discrete trajectory, and solve() returns it *)
Theorem C150_parabolic s d : well_posed P s -> forcing_data s = Sampled d -> (dcols d = length (time_domain s))%nat -> (2 <= dcols d)%nat ->
  uniform (time_domain s) -> fst (initial_condition s) = n -> enough_data P (boundary_data s) (dcols d) ->
  elliptic P (diff_op s) -> tensors_symmetric P (diff_op s) -> unisolvent P -> covered P ->
  exists s1 s2, init P true s = Ok s1 /\ solve P bdy true lu s1 = Ok s2 /\ success s2 = true /\
    nth_error (solution s2) 0 = Some (snd (initial_condition s)) /\
    trajectory P on (diff_op s) (Sampled d) (boundary_data s) (time_domain s) (solution s2) /\
    forall us, trajectory P on (diff_op s) (Sampled d) (boundary_data s) (time_domain s) us -> nth_error us 0 = Some (snd (initial_condition s)) ->
      forall i u u', nth_error (solution s2) i = Some u -> nth_error us i = Some u' -> forall a, (a < n)%nat -> u' a = u a.
Proof.
  intros Hw Ed Em Hm Hun Hic Hg He Ht Hu Hcov. assert (Hc := proj1 Hw).
  destruct (C79_implicit_euler_partial P bdy lu s d H0 Hn Hlu Hw Ed Em Hm Hun Hic Hg) as (s1 & s2 & E1 & E2 & Hs & HT).
  exists s1, s2. split; [auto|]. split; [auto|].
  assert (Hok : success s2 = true).
  { destruct Hs as [|(_ & K & t & t' & E0 & E1' & HK & El)]; [auto|exfalso]. destruct (Hun 0%nat t t' E0 E1') as [Hlt _].
    destruct (euler_invertible P bdy (diff_op s) (t' - t) K Hc Hd He Ht Hq Hu Hcov ltac:(lra) HK) as (B & HB). exact (Hco _ _ _ HB El). }
  destruct (HT Hok) as (L & U0 & Ust). assert (HTr : trajectory P on (diff_op s) (Sampled d) (boundary_data s) (time_domain s) (solution s2)) by (split; auto).
  split; [auto|]. split; [auto|]. split; [auto|]. intros us Hus Hus0 i u u' Eu Eu' a Ha.
  assert (C := trajectories_contract _ _ _ _ _ _ Hc He Ht Hun Hus HTr 0 i _ u' _ u ltac:(lia) Hus0 U0 Eu' Eu).
  assert (Z : l2 P (fun a => snd (initial_condition s) a - snd (initial_condition s) a) = 0).
  { unfold l2, mesh_quadrature. apply rsum_zero. intros e _. rewrite rsum_zero; [ring|]. intros q _. rewrite fe_minus. ring. }
  rewrite Z in C. assert (V := l2_zero P _ Hq Hu Hcov Hd C a Ha). cbv beta in V. lra.
Qed.

(* C151: the distance of two solutions which differ in the initial condition never grows, whatever the time step *)
Theorem C151_contraction s s' d : same_problem s s' -> well_posed P s -> forcing_data s = Sampled d -> (dcols d = length (time_domain s))%nat -> (2 <= dcols d)%nat ->
  uniform (time_domain s) -> fst (initial_condition s) = n -> fst (initial_condition s') = n -> enough_data P (boundary_data s) (dcols d) ->
  elliptic P (diff_op s) -> tensors_symmetric P (diff_op s) -> unisolvent P -> covered P ->
  exists s1 s2 s1' s2', init P true s = Ok s1 /\ solve P bdy true lu s1 = Ok s2 /\ init P true s' = Ok s1' /\ solve P bdy true lu s1' = Ok s2' /\
    length (solution s2) = length (time_domain s) /\ length (solution s2') = length (time_domain s) /\
    nth_error (solution s2) 0 = Some (snd (initial_condition s)) /\ nth_error (solution s2') 0 = Some (snd (initial_condition s')) /\
    forall i j u u' v v', (i <= j)%nat -> nth_error (solution s2) i = Some u -> nth_error (solution s2') i = Some v ->
      nth_error (solution s2) j = Some u' -> nth_error (solution s2') j = Some v' ->
      l2 P (fun a => u' a - v' a) <= l2 P (fun a => u a - v a).
Proof.
  intros (S1 & S2 & S3 & S4) Hw Ed Em Hm Hun Hic Hic' Hg He Ht Hu Hcov.
  destruct (C150_parabolic s d Hw Ed Em Hm Hun Hic Hg He Ht Hu Hcov) as (s1 & s2 & E1 & E2 & K1 & K2 & K3 & _).
  assert (Hw' : well_posed P s') by (unfold well_posed; rewrite S1, S2; exact Hw).
  destruct (C150_parabolic s' d) as (s1' & s2' & E1' & E2' & K1' & K2' & K3' & _); rewrite ?S1, ?S2, ?S3, ?S4; auto.
  rewrite S1, S3, S4 in K3'. exists s1, s2, s1', s2'. split; [auto|]. split; [auto|]. split; [auto|]. split; [auto|].
  split; [apply K3|]. split; [apply K3'|]. split; [auto|]. split; [auto|]. intros i j u u' v v' Hij Eu Ev Eu' Ev'.
  apply (trajectories_contract _ _ _ _ _ _ (proj1 Hw) He Ht Hun K3 K3' i j); auto.
Qed.
(* with no source and zero boundary values the solution itself never grows *)
Theorem C151_decay s d : well_posed P s -> forcing_data s = Sampled d -> (dcols d = length (time_domain s))%nat -> (2 <= dcols d)%nat ->
  uniform (time_domain s) -> fst (initial_condition s) = n -> enough_data P (boundary_data s) (dcols d) ->
  elliptic P (diff_op s) -> tensors_symmetric P (diff_op s) -> unisolvent P -> covered P ->
  (forall k i, dval d k i = 0) -> (forall a i, dval (boundary_data s) a i = 0) ->
  exists s1 s2, init P true s = Ok s1 /\ solve P bdy true lu s1 = Ok s2 /\ length (solution s2) = length (time_domain s) /\
    nth_error (solution s2) 0 = Some (snd (initial_condition s)) /\
    forall i j u u', (i <= j)%nat -> nth_error (solution s2) i = Some u -> nth_error (solution s2) j = Some u' -> l2 P u' <= l2 P u.
Proof.
  intros Hw Ed Em Hm Hun Hic Hg He Ht Hu Hcov Hz Hz'.
  destruct (C150_parabolic s d Hw Ed Em Hm Hun Hic Hg He Ht Hu Hcov) as (s1 & s2 & E1 & E2 & K1 & K2 & K3 & _).
  exists s1, s2. split; [auto|]. split; [auto|]. split; [apply K3|]. split; [auto|]. intros i j u u' Hij Eu Eu'.
  assert (LV : forall k a, load_vector P (at_time (Sampled d) k) a = 0).
  { intros k a. apply rsum_zero. intros e _. apply rsum_zero. intros h _. unfold load. rewrite rsum_zero; [ring|]. intros q _. cbn. rewrite Hz. ring. }
  assert (KZ : trajectory P on (diff_op s) (Sampled d) (boundary_data s) (time_domain s) (repeat (fun _ => 0) (length (time_domain s)))).
  { split; [apply repeat_length|]. intros k x y w w' Ex Ey Ew Ew'. apply nth_error_In, repeat_spec in Ew. apply nth_error_In, repeat_spec in Ew'. subst w w'.
    destruct (Hun k x y Ex Ey) as [Hlt _]. intros a Ha. split; intros _; [now rewrite Hz'|]. rewrite LV.
    rewrite (rsum_zero n (fun b => mass_entry P a b * _)) by (intros; field; lra). rewrite rsum_zero by (intros; ring). ring. }
  assert (Li : (i < length (time_domain s))%nat) by (rewrite <- (proj1 K3); apply nth_error_Some; congruence).
  assert (Lj : (j < length (time_domain s))%nat) by (rewrite <- (proj1 K3); apply nth_error_Some; congruence).
  assert (C := trajectories_contract _ _ _ _ _ _ (proj1 Hw) He Ht Hun K3 KZ i j u u' (fun _ => 0) (fun _ => 0) Hij Eu
    (nth_error_repeat _ Li) Eu' (nth_error_repeat _ Lj)). cbv beta in C.
  rewrite (l2_ext P (fun a => u' a - 0) u'), (l2_ext P (fun a => u a - 0) u) in C; auto; intros; ring.
Qed.

(* C152: a stationary discrete solution taken as initial condition is kept for ever *)
Theorem C152_steady s d f u0 : well_posed P s -> forcing_data s = Sampled d -> (dcols d = length (time_domain s))%nat -> (2 <= dcols d)%nat ->
  uniform (time_domain s) -> initial_condition s = (n, u0) -> enough_data P (boundary_data s) (dcols d) ->
  elliptic P (diff_op s) -> tensors_symmetric P (diff_op s) -> unisolvent P -> covered P ->
  (forall k i, dval d k i = dval f k 0%nat) -> drows f = drows d -> (forall a i, dval (boundary_data s) a i = dval (boundary_data s) a 0%nat) ->
  discrete_solution P on (diff_op s) (Sampled f) (boundary_data s) u0 ->
  exists s1 s2, init P true s = Ok s1 /\ solve P bdy true lu s1 = Ok s2 /\ success s2 = true /\ length (solution s2) = length (time_domain s) /\
    forall i u, nth_error (solution s2) i = Some u -> forall a, (a < n)%nat -> u a = u0 a.
Proof.
  intros Hw Ed Em Hm Hun Hic Hg He Ht Hu Hcov Hf Hrows Hb Hst.
  destruct (C150_parabolic s d Hw Ed Em Hm Hun) as (s1 & s2 & E1 & E2 & K1 & K2 & K3 & K4); auto; [now rewrite Hic|].
  exists s1, s2. split; [auto|]. split; [auto|]. split; [auto|]. split; [apply K3|]. intros i u Eu a Ha.
  assert (KZ : trajectory P on (diff_op s) (Sampled d) (boundary_data s) (time_domain s) (repeat u0 (length (time_domain s)))).
  { split; [apply repeat_length|]. intros k x y w w' Ex Ey Ew Ew'. apply nth_error_In, repeat_spec in Ew. apply nth_error_In, repeat_spec in Ew'. subst w w'.
    destruct (Hun k x y Ex Ey) as [Hlt _]. intros b Hb'. destruct (Hst b Hb') as [A B]. split; intros Ho; [rewrite Hb; auto|].
    rewrite (rsum_zero n (fun b0 => mass_entry P b b0 * _)) by (intros; field; lra). rewrite (B Ho). rewrite Rplus_0_l.
    unfold load_vector. apply rsum_ext. intros e _. apply rsum_ext. intros h _. f_equal. unfold load. f_equal. apply rsum_ext. intros q _. cbn. now rewrite Hf. }
  assert (Li : (i < length (time_domain s))%nat) by (rewrite <- (proj1 K3); apply nth_error_Some; congruence).
  symmetry. apply (K4 _ KZ) with i; auto.
  - rewrite Hic. cbn [snd]. apply nth_error_repeat. lia.
  - now apply nth_error_repeat.
Qed.
End Parabolic.

(* ------------------------------------------------------------------ C153: the variational principle *)
Section Minimum.
Variables (P : problem) (bdy : nat -> bool) (lu : nat -> mat -> option (vec -> vec)).
Local Notation n := (n_dofs P).
Local Notation on := (fun a => bdy a = true).
Lemma symmetric_assembled op : coef_ok P op -> dofs_ok P -> elliptic P op -> tensors_symmetric P op -> forall a b, assembled P op a b = assembled P op b a.
Proof.
  intros Hc Hd He Ht a b. destruct (elliptic_proper P op He) as [_ Hs]. destruct (C65_symmetric_partial P op Hc Hd Hs Ht) as (_ & A & _ & HA & S).
  rewrite <- !HA. apply S.
Qed.
Lemma energy_gap op F u v : coef_ok P op -> dofs_ok P -> elliptic P op -> tensors_symmetric P op ->
  (forall a, (a < n)%nat -> bdy a = true -> v a = u a) ->
  (forall a, (a < n)%nat -> bdy a <> true -> rsum n (fun b => assembled P op a b * u b) = F a) ->
  energy P op F v = energy P op F u + pairing P (assembled P op) (fun a => v a - u a) (fun a => v a - u a) / 2.
Proof.
  intros Hc Hd He Ht Hb Hu. set (A := assembled P op). set (w := fun a => v a - u a).
  assert (Z : pairing P A w u = rsum n (fun a => F a * w a)).
  { rewrite pairing_row. apply rsum_ext. intros a Ha. destruct (Bool.bool_dec (bdy a) true) as [Y|N].
    - unfold w. rewrite (Hb a Ha Y). ring.
    - unfold A. rewrite (Hu a Ha N). ring. }
  assert (S : pairing P A u w = pairing P A w u).
  { unfold pairing. rewrite rsum_swap. apply rsum_ext. intros a _. apply rsum_ext. intros b _. unfold A. rewrite (symmetric_assembled op Hc Hd He Ht b a). ring. }
  assert (E : pairing P A v v = pairing P A u u + pairing P A u w + pairing P A w u + pairing P A w w).
  { unfold pairing. rewrite <- !rsum_plus. apply rsum_ext. intros a _. rewrite <- !rsum_plus. apply rsum_ext. intros b _. unfold w. ring. }
  assert (EF : rsum n (fun a => F a * v a) = rsum n (fun a => F a * u a) + rsum n (fun a => F a * w a)).
  { rewrite <- rsum_plus. apply rsum_ext. intros a _. unfold w. ring. }
  unfold energy. fold A. rewrite E, EF, S, Z. lra.
Qed.
(* the solution computed by solve() minimises the energy among the functions with the same boundary values *)
Theorem C153_minimum s : exact lu -> complete lu -> bdy 0%nat = true -> (0 < n)%nat ->
  well_posed P s -> n_times (forcing_data s) = 1%nat -> has_datum P (boundary_data s) ->
  tensors_symmetric P (diff_op s) -> coercive P (diff_op s) -> positive_quadrature P -> regular_cells P -> gradient_unisolvent P ->
  (forall a, (a < n)%nat -> exists b, (b < n)%nat /\ bdy b = true /\ linked P a b) ->
  exists s1 s2 u, init P false s = Ok s1 /\ solve P bdy false lu s1 = Ok s2 /\ success s2 = true /\ solution s2 = [u] /\
    (forall a, (a < n)%nat -> bdy a = true -> u a = dval (boundary_data s) a 0%nat) /\
    forall v, (forall a, (a < n)%nat -> bdy a = true -> v a = dval (boundary_data s) a 0%nat) ->
      let F := load_vector P (at_time (forcing_data s) 0) in
      energy P (diff_op s) F u <= energy P (diff_op s) F v /\
      (energy P (diff_op s) F v = energy P (diff_op s) F u -> forall a, (a < n)%nat -> v a = u a).
Proof.
  intros Hlu Hco H0 Hn Hw Hf Hg Ht Hc Hq Hr Hgu Hl.
  destruct (C144_dirichlet P bdy lu Hlu Hco s H0 Hn Hw Hf Hg Ht Hc Hq Hr Hgu Hl) as (s1 & s2 & u & E1 & E2 & K1 & K2 & K3 & _).
  exists s1, s2, u. split; [auto|]. split; [auto|]. split; [auto|]. split; [auto|]. split; [intros a Ha; apply (K3 a Ha)|].
  intros v Hv F. destruct Hw as (Hcoef & Hd & _ & _). assert (He := coercive_elliptic P _ Hc).
  assert (G := energy_gap (diff_op s) F u v Hcoef Hd He Ht). rewrite G.
  2:{ intros a Ha Y. rewrite Hv by auto. symmetry. now apply (K3 a Ha). }
  2:{ intros a Ha N. now apply (K3 a Ha). }
  assert (N := assembled_nonneg P (diff_op s) Hcoef Hd He Ht Hq (fun a => v a - u a)). split; [lra|]. intros Eq a Ha.
  assert (Z : pairing P (assembled P (diff_op s)) (fun a => v a - u a) (fun a => v a - u a) = 0) by lra.
  destruct (C143_kernel P (diff_op s) Hcoef Hd Ht Hc Hq Hr Hgu) as (A & EA & HK).
  assert (HA : forall x, pairing P A x x = pairing P (assembled P (diff_op s)) x x).
  { intros x. destruct (elliptic_proper P _ He) as [Hp Hs]. destruct (C65_symmetric_partial P _ Hcoef Hd Hs Ht) as (_ & A' & EA' & HA & _).
    rewrite EA in EA'. injection EA' as <-. unfold pairing. apply rsum_ext. intros i _. apply rsum_ext. intros j _. now rewrite HA. }
  destruct (HK (fun a => v a - u a)) as [KC _]. rewrite HA in KC. specialize (KC Z).
  destruct (Hl a Ha) as (b & Hb & Hbb & Hab). assert (W := linked_value P (fun a => v a - u a) a b KC Hab). cbv beta in W.
  rewrite (Hv b Hb Hbb), (proj1 (K3 b Hb) Hbb) in W. lra.
Qed.
End Minimum.

(* ------------------------------------------------------------------ on meshes *)
Section Mesh.
Variables (M N : nat) (nodes : list vec) (cells : list (list nat)) (pt : list (list nat)) (slv : (nat -> R) -> nat -> R) (rule : QuadModel.rule).
Hypotheses (HG : good_mesh M N nodes cells) (HR : reference M 1 pt slv rule).
Local Notation P := (problem1 M N nodes cells pt slv rule).
(* linear elements on any mesh without isolated nodes: one trajectory, computed by solve() *)
Theorem C150_mesh bdy lu s d : exact lu -> complete lu -> bdy 0%nat = true -> nodes <> [] ->
  (forall a, (a < length nodes)%nat -> exists c, In c cells /\ In a c) ->
  coef_ok P (diff_op s) -> tensors_symmetric P (diff_op s) -> elliptic P (diff_op s) -> source_ok P (forcing_data s) ->
  forcing_data s = Sampled d -> (dcols d = length (time_domain s))%nat -> (2 <= dcols d)%nat ->
  uniform (time_domain s) -> fst (initial_condition s) = length nodes -> enough_data P (boundary_data s) (dcols d) ->
  exists s1 s2, init P true s = Ok s1 /\ solve P bdy true lu s1 = Ok s2 /\ success s2 = true /\
    nth_error (solution s2) 0 = Some (snd (initial_condition s)) /\
    trajectory P (fun a => bdy a = true) (diff_op s) (Sampled d) (boundary_data s) (time_domain s) (solution s2) /\
    (forall us, trajectory P (fun a => bdy a = true) (diff_op s) (Sampled d) (boundary_data s) (time_domain s) us -> nth_error us 0 = Some (snd (initial_condition s)) ->
      forall i u u', nth_error (solution s2) i = Some u -> nth_error us i = Some u' -> forall a, (a < length nodes)%nat -> u' a = u a) /\
    (* no source, no boundary values: the solution never grows *)
    ((forall k i, dval d k i = 0) -> (forall a i, dval (boundary_data s) a i = 0) ->
      forall i j u u', (i <= j)%nat -> nth_error (solution s2) i = Some u -> nth_error (solution s2) j = Some u' -> l2 P u' <= l2 P u).
Proof.
  intros Hlu Hco Hb Hne Hcov Hc Ht He Hs Ed Em Hm Hun Hic Hg.
  destruct (C146_first_order M N nodes cells pt slv rule HG HR) as (A1 & A2 & A3 & A4 & A5 & A6 & A7 & A8).
  assert (Hn : (0 < n_dofs P)%nat) by (cbn; destruct nodes; [congruence|cbn; lia]).
  assert (Hcv : covered P).
  { intros a Ha. cbn in Ha. destruct (Hcov a Ha) as (c & Hcc & Hac). destruct (In_nth _ _ [] Hcc) as (e & Hee & Ece). destruct (In_nth _ _ 0%nat Hac) as (h & Hh & Eh).
    exists e, h. split; [exact Hee|]. split; [|cbn; unfold dofs1; rewrite Ece; exact Eh].
    rewrite (first_basis M N nodes cells pt slv rule HG HR). destruct (gm_simplicial _ _ _ _ HG c Hcc) as [L _]. lia. }
  assert (Hw : well_posed P s).
  { split; [auto|]. split; [auto|]. split; [|auto]. intros Es. apply (C65_symmetric_partial P _ Hc A1 Es Ht). }
  destruct (C150_parabolic P bdy lu Hlu Hco Hb Hn A1 A6 s d Hw Ed Em Hm Hun Hic Hg He Ht A4 Hcv) as (s1 & s2 & E1 & E2 & K1 & K2 & K3 & K4).
  exists s1, s2. split; [auto|]. split; [auto|]. split; [auto|]. split; [auto|]. split; [auto|]. split; [exact K4|].
  intros Hz Hz'. destruct (C151_decay P bdy lu Hlu Hco Hb Hn A1 A6 s d Hw Ed Em Hm Hun Hic Hg He Ht A4 Hcv Hz Hz') as (s1' & s2' & E1' & E2' & _ & _ & K).
  rewrite E1 in E1'. injection E1' as <-. rewrite E2 in E2'. injection E2' as <-. exact K.
Qed.
End Mesh.

(* the heat equation on the mesh of six nodes *)
Definition heat_problem : pde :=
  {| diff_op := DBin OAdd Dt (DNeg Lap); forcing_data := Sampled {| drows := 15; dcols := 3; dval := fun _ _ => 0 |}; time_domain := [0; 1 / 2; 1];
     initial_condition := (6%nat, fun a => if (a =? 4)%nat then 1 else 0); boundary_data := {| drows := 6; dcols := 3; dval := fun _ _ => 0 |};
     is_init := false; success := false; stiff := fun _ _ => 0; SolverModel.mass := fun _ _ => 0; force := {| dsize := 0; dcoef := fun _ => None |}; solution := [] |}.
Example C150_example : exists pt slv rule, reference 2 1 pt slv rule /\ good_mesh 2 2 mesh2_nodes TriProps.mesh2 /\
  let P := problem1 2 2 mesh2_nodes TriProps.mesh2 pt slv rule in let s := heat_problem in
  (forall a, (a < length mesh2_nodes)%nat -> exists c, In c TriProps.mesh2 /\ In a c) /\
  coef_ok P (diff_op s) /\ tensors_symmetric P (diff_op s) /\ elliptic P (diff_op s) /\ source_ok P (forcing_data s) /\
  uniform (time_domain s) /\ fst (initial_condition s) = length mesh2_nodes /\ enough_data P (boundary_data s) 3.
Proof.
  destruct (reference_exists 2 1) as (pt & slv & rule & H); [cbn; tauto|]. exists pt, slv, rule. split; [auto|]. split; [exact mesh2_good|].
  cbv zeta. split; [|split; [cbn; auto|split; [cbn; auto|split; [constructor; constructor|split; [|split; [|split; [reflexivity|split; cbn; lia]]]]]]].
  - intros a Ha. cbn in Ha. destruct (Nat.eq_dec a 0) as [->|]; [exists [0; 1; 4]%nat; cbn; tauto|]. destruct (Nat.eq_dec a 5) as [->|]; [exists [5; 3; 2]%nat; cbn; tauto|].
    destruct (Nat.eq_dec a 3) as [->|]; [exists [3; 4; 2]%nat; cbn; tauto|]. exists [4; 2; 1]%nat. split; [cbn; tauto|]. cbn. lia.
  - split; [cbn; lia|]. destruct H as (_ & _ & Hr). vm_compute in Hr. injection Hr as <-. cbn. lia.
  - intros i a b Ea Eb. destruct i as [|[|[|i]]]; cbn in Ea, Eb; try discriminate; injection Ea as <-; injection Eb as <-; split; try lra;
      intros x y Ex Ey; injection Ex as <-; injection Ey as <-; lra.
Qed.
Print Assumptions C150_parabolic.
Print Assumptions C151_contraction.
Print Assumptions C151_decay.
Print Assumptions C152_steady.
Print Assumptions C153_minimum.
Print Assumptions C150_mesh.
