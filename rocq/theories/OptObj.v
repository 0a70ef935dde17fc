(* C201: optimizer objects, reused, copied and assigned. *)
From Coq Require Import Reals Lra Lia List Bool.
From Verif Require Import Base RSum SimplexModel OptModel OptObjModel.
Import ListNotations.
Open Scope R_scope.

Section Reuse.
Variables (N : nat) (M : Type) (cbs : list (callback (pub * M))) (solve : (nat -> nat -> R) -> vec -> vec).
Notation optimizer := (optimizer M). Notation objective := (objective M).

(* ---- specification: an object is its settings and what it last reported; optimize is a function of the settings and the arguments ---- *)
Record settings := Settings { s_max : nat; s_tol : R; s_step : R; s_mem : M }.
Definition of (o : optimizer) : settings := Settings (o_max M o) (o_tol M o) (o_step M o) (o_mem M o).
Definition reported (o : optimizer) : option vec * option R * nat := (o_optimum M o, o_value M o, o_iter M o).
(* a callback reads the members assigned during the current call only: before the update those are x_old, x_new, update, grad_old, h, after it
   also grad_new; it does not write the others *)
Definition agree (post : bool) (p q : pub) : Prop :=
  x_old p = x_old q /\ x_new p = x_new q /\ update p = update q /\ grad_old p = grad_old q /\ h_ p = h_ q /\ (post = true -> grad_new p = grad_new q).
Definition untouched (p q : pub) : Prop := grad_new p = grad_new q /\ hess_ p = hess_ q /\ inv_hess p = inv_hess q.
Definition blind (post : bool) (h : option (pub * M -> (pub * M) * bool)) : Prop :=
  match h with
  | None => True
  | Some h => (forall p q m, agree post p q -> agree post (fst (fst (h (p, m)))) (fst (fst (h (q, m)))) /\ snd (fst (h (p, m))) = snd (fst (h (q, m))) /\ snd (h (p, m)) = snd (h (q, m))) /\
              (forall p m, untouched (fst (fst (h (p, m)))) p)
  end.
Definition blind_callbacks : Prop := forall c, In c cbs -> blind false (pre_hook c) /\ blind true (post_hook c).

(* ---- runs of the hooks on two states which agree ---- *)
Definition same (post : bool) (a b : (pub * M) * bool) : Prop := agree post (fst (fst a)) (fst (fst b)) /\ snd (fst a) = snd (fst b) /\ snd a = snd b.
Lemma exec_same post hs a b : (forall h, In h hs -> blind post h) -> same post a b ->
  same post (fold_left exec_hook hs a) (fold_left exec_hook hs b) /\ untouched (fst (fst (fold_left exec_hook hs a))) (fst (fst a)) /\ untouched (fst (fst (fold_left exec_hook hs b))) (fst (fst b)).
Proof.
  revert a b. induction hs as [|h hs IH]; intros a b H S; cbn [fold_left]; [repeat split; apply S || auto|].
  assert (Hh := H h (or_introl eq_refl)). assert (Hs : forall h, In h hs -> blind post h) by (intros; apply H; now right).
  destruct h as [h|]; cbn [exec_hook]; [|now apply IH]. destruct Hh as [H1 H2]. destruct a as [[p m] b1], b as [[q m'] b2]. destruct S as (S1 & S2 & S3). cbn in S1, S2, S3. subst m' b2. cbn [fst snd].
  destruct (H1 p q m S1) as (A1 & A2 & A3). assert (U1 := H2 p m). assert (U2 := H2 q m).
  destruct (h (p, m)) as [[p' m1] c1], (h (q, m)) as [[q' m2] c2]. cbn [fst snd] in *. subst m2 c2.
  assert (S' : same post ((p', m1), orb b1 c1) ((q', m1), orb b1 c1)) by (repeat split; auto; apply A1).
  destruct (IH _ _ Hs S') as (G1 & G2 & G3). split; auto. unfold untouched in *. cbn [fst snd] in G2, G3. intuition congruence.
Qed.
Lemma agree_weak p q : agree true p q -> agree false p q.
Proof. unfold agree. intuition discriminate. Qed.

(* the states at the head of the loop: ga when grad_old is used by the next pass, iv when inv_hess is *)
Definition head (ga iv : bool) (v w : pub * M) : Prop :=
  x_old (fst v) = x_old (fst w) /\ x_new (fst v) = x_new (fst w) /\ h_ (fst v) = h_ (fst w) /\ snd v = snd w /\
  (ga = true -> grad_old (fst v) = grad_old (fst w)) /\ (iv = true -> inv_hess (fst v) = inv_hess (fst w)).
Definition matched (ga iv : bool) (a b : pass M) : Prop :=
  match a, b with
  | Next v e s, Next w e' s' => head ga iv v w /\ e = e' /\ s = s'
  | Return v, Return w => head ga iv v w
  | _, _ => False
  end.
Variable f : objective.
Definition blind_objective : Prop := blind true (f_crit M f).
Hypothesis HC : blind_callbacks.
Hypothesis HF : blind_objective.

Lemma pre_same p q m : agree false p q -> same false (execute_pre cbs (p, m)) (execute_pre cbs (q, m)) /\ untouched (fst (fst (execute_pre cbs (p, m)))) p /\ untouched (fst (fst (execute_pre cbs (q, m)))) q.
Proof.
  intros H. apply (exec_same false (map pre_hook cbs) ((p, m), false) ((q, m), false)); [|repeat split; apply H || discriminate].
  intros h Hh. apply in_map_iff in Hh. destruct Hh as (c & <- & Hc). now apply HC.
Qed.
Lemma finish_same ga iv v w e s : agree true (fst v) (fst w) -> snd v = snd w -> (iv = true -> inv_hess (fst v) = inv_hess (fst w)) ->
  matched ga iv (finish M cbs (f_crit M f) v e s) (finish M cbs (f_crit M f) w e s).
Proof.
  intros H Hm Hi. destruct v as [p m], w as [q m']. cbn in H, Hm, Hi. subst m'. unfold finish.
  assert (E : same true (execute_post cbs (p, m)) (execute_post cbs (q, m)) /\ untouched (fst (fst (execute_post cbs (p, m)))) p /\ untouched (fst (fst (execute_post cbs (q, m)))) q).
  { apply (exec_same true (map post_hook cbs) ((p, m), false) ((q, m), false)); [|repeat split; apply H || auto]. intros h Hh. apply in_map_iff in Hh. destruct Hh as (c & <- & Hc). now apply HC. }
  destruct (execute_post cbs (p, m)) as [[p1 m1] b1], (execute_post cbs (q, m)) as [[q1 m2] b2]. destruct E as ((A & Em & Eb) & U1 & U2). cbn [fst snd] in *. subst m2 b2.
  assert (K : forall p2 q2 m2 b, agree true p2 q2 -> untouched p2 p1 -> untouched q2 q1 ->
    matched ga iv (Next (on_pub M shift (p2, m2)) e (s || b)) (Next (on_pub M shift (q2, m2)) e (s || b))).
  { intros p2 q2 m2 b (A1 & A2 & A3 & A4 & A5 & A6) (_ & _ & V1) (_ & _ & V2). destruct U1 as (_ & _ & U1), U2 as (_ & _ & U2). cbn. unfold head. cbn. repeat split; auto. intros I. rewrite V1, V2, U1, U2. auto. }
  destruct b1; [apply K; auto; repeat split|]. unfold execute_criterion.
  destruct (exec_same true [f_crit M f] ((p1, m1), false) ((q1, m1), false)) as (S & V1 & V2); [intros h [<-|[]]; exact HF|repeat split; apply A || auto|].
  cbn [fold_left] in S, V1, V2. destruct (exec_hook (p1, m1, false) (f_crit M f)) as [[p2 m2] b2], (exec_hook (q1, m1, false) (f_crit M f)) as [[q2 m3] b3]. destruct S as (S1 & S2 & S3). cbn [fst snd] in *. subst m3 b3. now apply K.
Qed.
Lemma moved p q : agree false p q -> agree true (move (f_grad M f) p) (move (f_grad M f) q).
Proof. intros (A1 & A2 & A3 & A4 & A5 & _). unfold agree, move. cbn. rewrite A1, A3, A5. repeat split; auto. Qed.

(* one pass from two states which agree at the head of the loop *)
Lemma gd_same v w : head true false v w -> matched true false (gd_body N M (f_grad M f) cbs (f_crit M f) v) (gd_body N M (f_grad M f) cbs (f_crit M f) w).
Proof.
  destruct v as [p m], w as [q m']. intros (H1 & H2 & H3 & H4 & H5 & _). cbn in H1, H2, H3, H4, H5. specialize (H5 eq_refl). subst m'. unfold gd_body, on_pub. cbn [fst snd].
  set (p0 := set_update p _). set (q0 := set_update q _).
  assert (A : agree false p0 q0) by (unfold agree, p0, q0; cbn; rewrite H5; repeat split; auto; discriminate).
  destruct (pre_same _ _ m A) as ((B1 & B2 & B3) & _ & _). destruct (execute_pre cbs (p0, m)) as [[p1 m1] b1], (execute_pre cbs (q0, m)) as [[q1 m2] b2]. cbn [fst snd] in *. subst m2 b2.
  assert (C := moved _ _ B1). cbn [fst snd]. replace (grad_new (move (f_grad M f) q1)) with (grad_new (move (f_grad M f) p1)) by (apply C; auto). apply finish_same; [exact C|reflexivity|discriminate].
Qed.
Lemma nw_same v w : head false false v w -> matched false false (newton_body N M (f_grad M f) cbs (f_crit M f) (f_hess M f) solve v) (newton_body N M (f_grad M f) cbs (f_crit M f) (f_hess M f) solve w).
Proof.
  destruct v as [p m], w as [q m']. intros (H1 & H2 & H3 & H4 & _). cbn in H1, H2, H3, H4. subst m'. unfold newton_body, on_pub. cbn [fst snd].
  set (p0 := set_update (set_old p _ _) _). set (q0 := set_update (set_old q _ _) _).
  assert (A : agree false p0 q0) by (unfold agree, p0, q0; cbn; rewrite H1; repeat split; auto; discriminate).
  destruct (pre_same _ _ m A) as ((B1 & B2 & B3) & _ & _). destruct (execute_pre cbs (p0, m)) as [[p1 m1] b1], (execute_pre cbs (q0, m)) as [[q1 m2] b2]. cbn [fst snd] in *. subst m2 b2.
  assert (C := moved _ _ B1). cbn [fst snd]. replace (grad_new (move (f_grad M f) q1)) with (grad_new (move (f_grad M f) p1)) by (apply C; auto). apply finish_same; [exact C|reflexivity|discriminate].
Qed.
Lemma bf_same v w : head true true v w -> matched true true (bfgs_body N M (f_grad M f) cbs (f_crit M f) v) (bfgs_body N M (f_grad M f) cbs (f_crit M f) w).
Proof.
  destruct v as [p m], w as [q m']. intros (H1 & H2 & H3 & H4 & H5 & H6). cbn in H1, H2, H3, H4, H5, H6. specialize (H5 eq_refl). specialize (H6 eq_refl). subst m'. unfold bfgs_body, on_pub. cbn [fst snd].
  set (p0 := set_update p _). set (q0 := set_update q _).
  assert (A : agree false p0 q0) by (unfold agree, p0, q0; cbn; rewrite H5, H6; repeat split; auto; discriminate).
  destruct (pre_same _ _ m A) as ((B1 & B2 & B3) & (_ & _ & U1) & (_ & _ & U2)). destruct (execute_pre cbs (p0, m)) as [[p1 m1] b1], (execute_pre cbs (q0, m)) as [[q1 m2] b2]. cbn [fst snd] in *. subst m2 b2.
  assert (C := moved _ _ B1). assert (I : inv_hess p1 = inv_hess q1) by (rewrite U1, U2; exact H6).
  assert (G : grad_new (move (f_grad M f) p1) = grad_new (move (f_grad M f) q1)) by (apply C; auto). destruct C as (C1 & C2 & C3 & C4 & C5 & C6).
  cbn [fst snd]. rewrite <- G. destruct (is_zero N _).
  - unfold matched, head. cbn [fst snd]. repeat split; auto.
  - cbn in C1, C2, C4, G. set (p2 := set_inv (move (f_grad M f) p1) _). set (q2 := set_inv (move (f_grad M f) q1) _).
    assert (I2 : inv_hess p2 = inv_hess q2). { unfold p2, q2. cbn. cbn in C2. now rewrite I, G, C2, C1, C4. }
    replace (grad_new q2) with (grad_new p2) by exact G. apply finish_same; [|reflexivity|intros _; exact I2]. repeat split; auto.
Qed.
Lemma loop_same ga iv tol body rem : (forall v w, head ga iv v w -> matched ga iv (body v) (body w)) -> forall n v w e s, head ga iv v w ->
  let a := loop M tol body rem n v e s in let b := loop M tol body rem n w e s in head ga iv (fst (fst (fst a))) (fst (fst (fst b))) /\ snd (fst (fst a)) = snd (fst (fst b)).
Proof.
  intros HB. induction rem as [|rem IH]; intros n v w e s H; cbn [loop]; [now split|].
  destruct (_ && _); [|now split]. assert (X := HB v w H). destruct (body v) as [v' e1 s1|v'], (body w) as [w' e2 s2|w']; cbn in X; try contradiction; [|now split].
  destruct X as (X & -> & ->). now apply IH.
Qed.
Lemma optimize_same k o o' x0 : of o = of o' ->
  reported (optimize N M cbs solve k o f x0) = reported (optimize N M cbs solve k o' f x0) /\ of (optimize N M cbs solve k o f x0) = of (optimize N M cbs solve k o' f x0).
Proof.
  intros E. destruct o as [mx tl st mm pb op vl it], o' as [mx' tl' st' mm' pb' op' vl' it']. unfold of in E. cbn in E. injection E as <- <- <- <-.
  assert (Fin : forall ga iv (r r' : (pub * M) * nat * option R * bool), head ga iv (fst (fst (fst r))) (fst (fst (fst r'))) /\ snd (fst (fst r)) = snd (fst (fst r')) ->
     let ob (r : (pub * M) * nat * option R * bool) := let '(w, n, _, _) := r in Obj M mx tl st (snd w) (fst w) (Some (x_old (fst w))) (Some (f_val M f (x_old (fst w)))) n in
     reported (ob r) = reported (ob r') /\ of (ob r) = of (ob r')).
  { intros ga iv [[[w n] e] s] [[[w' n'] e'] s'] [H1 H2]. cbn in H1, H2. subst n'. destruct H1 as (H1 & _ & _ & H2 & _). cbn. unfold reported, of. cbn. now rewrite H1, H2. }
  unfold optimize. cbn [o_max o_tol o_step o_mem o_pub]. destruct k.
  - apply (Fin true false). apply loop_same; [apply gd_same|]. unfold head. cbn. repeat split; auto. discriminate.
  - apply (Fin false false). apply loop_same; [apply nw_same|]. unfold head. cbn. repeat split; auto; discriminate.
  - cbn [grad_old set_old]. destruct (is_zero N (f_grad M f x0)); [split; reflexivity|].
    apply (Fin true true). apply loop_same; [apply bf_same|]. unfold head. cbn. repeat split; auto.
Qed.
End Reuse.
Arguments of {M}. Arguments reported {M}.

(* C201: whatever was done before with the object, and whatever its uninitialised members hold, a call of optimize() reports what a newly made
   object with the same parameters and callbacks would report *)
Theorem C201_reuse N M cbs solve junk k ops s i o f x0 : blind_callbacks M cbs -> blind_objective M f ->
  exec N M cbs solve junk k ops = Ok s -> nth_error s i = Some o -> forall fresh,
  exists s' o', exec N M cbs solve junk k (ops ++ [Optimize M i f x0]) = Ok s' /\ nth_error s' i = Some o' /\
    reported o' = reported (optimize N M cbs solve k (construct M fresh (o_max M o) (o_tol M o) (o_step M o) (o_mem M o)) f x0) /\
    (forall j, j <> i -> nth_error s' j = nth_error s j).
Proof.
  intros HC HF HE HO fresh. exists (upd s i (optimize N M cbs solve k o f x0)), (optimize N M cbs solve k o f x0). repeat split.
  - unfold exec in *. rewrite foldM_app, HE. cbn. apply nth_res_ok in HO. now rewrite HO.
  - apply nth_error_upd_same. apply nth_error_Some. now rewrite HO.
  - apply (optimize_same N M cbs solve f HC HF). reflexivity.
  - intros j Hj. apply nth_error_upd_other. auto.
Qed.
Print Assumptions C201_reuse.

(* C201: what optimize() reports is the result described by C53 and the following properties *)
Theorem C201_report N M cbs solve k (o : optimizer M) f x0 : let r := match k with
    | GD => gradient_descent N M (f_val M f) (f_grad M f) cbs (f_crit M f) (o_max M o) (o_tol M o) (o_pub M o) (o_step M o) (o_mem M o) x0
    | NW => newton N M (f_val M f) (f_grad M f) cbs (f_crit M f) (o_max M o) (o_tol M o) (f_hess M f) solve (o_pub M o) (o_step M o) (o_mem M o) x0
    | BF => bfgs N M (f_val M f) (f_grad M f) cbs (f_crit M f) (o_max M o) (o_tol M o) (o_pub M o) (o_step M o) (o_mem M o) x0 end in
  reported (optimize N M cbs solve k o f x0) = (Some (optimum r), Some (value r), n_iter r).
Proof.
  unfold reported, optimize. destruct k; cbv zeta; unfold gradient_descent, newton, bfgs, close.
  - destruct (loop _ _ _ _ _ _ _ _) as [[[w n] e] s]. reflexivity.
  - destruct (loop _ _ _ _ _ _ _ _) as [[[w n] e] s]. reflexivity.
  - destruct (is_zero _ _); [reflexivity|]. destruct (loop _ _ _ _ _ _ _ _) as [[[w n] e] s]. reflexivity.
Qed.
Print Assumptions C201_report.

(* ---- copies ---- *)
Definition zero_pub : pub := Pub (fun _ => 0) (fun _ => 0) (fun _ => 0) (fun _ => 0) (fun _ => 0) (fun _ _ => 0) (fun _ _ => 0) 0.
(* C201: a copy and an assigned object have the parameters and the callbacks of the source, hence behave as it does from then on *)
Theorem C201_copy_behaves N M cbs solve junk k (o d : optimizer M) f x0 : blind_callbacks M cbs -> blind_objective M f ->
  reported (optimize N M cbs solve k (copy M junk o) f x0) = reported (optimize N M cbs solve k o f x0) /\
  reported (optimize N M cbs solve k (assign M d o) f x0) = reported (optimize N M cbs solve k o f x0).
Proof. intros HC HF. split; apply (optimize_same N M cbs solve f HC HF); reflexivity. Qed.
(* C201 refuted: optimum() of a copy is indeterminate although the source has one *)
Theorem C201_copy_refuted N M cbs solve junk k max tol st mem f x0 :
  exists s a b, exec N M cbs solve junk k [New M max tol st mem; Optimize M 0 f x0; Copy M 0] = Ok s /\ nth_error s 0 = Some a /\ nth_error s 1 = Some b /\
    (exists x, get_optimum M a = Ok x) /\ (exists v, get_value M a = Ok v) /\ get_optimum M b = UB /\ get_value M b = UB.
Proof.
  eexists. eexists. eexists. split; [reflexivity|]. split; [reflexivity|]. split; [reflexivity|]. unfold optimize. destruct (match k with GD => _ | NW => _ | BF => _ end) as [[[w n] e] s0]. cbn. repeat split; eauto.
Qed.
(* C201 refuted: an assigned object goes on reporting its own optimum, not that of the source *)
Theorem C201_assign_refuted N M cbs solve junk k tol st mem f x0 y0 : (forall x, f_val M f x = x 0%nat) -> x0 0%nat <> y0 0%nat -> 
  exists s a b va vb, exec N M cbs solve junk k [New M 0 tol st mem; New M 0 tol st mem; Optimize M 0 f x0; Optimize M 1 f y0; Assign M 0 1] = Ok s /\ nth_error s 0 = Some a /\ nth_error s 1 = Some b /\
    of a = of b /\ get_value M a = Ok va /\ get_value M b = Ok vb /\ va <> vb.
Proof.
  intros Hf Hn.
  assert (P : forall o z, o_max M o = 0%nat -> o_optimum M (optimize N M cbs solve k o f z) = Some z /\ o_value M (optimize N M cbs solve k o f z) = Some (z 0%nat) /\ of (optimize N M cbs solve k o f z) = of o).
  { intros o z E. unfold optimize, of. rewrite E. destruct k; cbn; rewrite ?Hf; auto. destruct (is_zero _ _); cbn; rewrite ?Hf, ?E; auto. }
  set (a := construct M (junk 0%nat) 0 tol st mem). set (b := construct M (junk 1%nat) 0 tol st mem).
  destruct (P a x0 eq_refl) as (_ & P1 & P2). destruct (P b y0 eq_refl) as (_ & P3 & P4).
  exists [assign M (optimize N M cbs solve k a f x0) (optimize N M cbs solve k b f y0); optimize N M cbs solve k b f y0]. eexists. eexists. exists (x0 0%nat), (y0 0%nat).
  split; [reflexivity|]. split; [reflexivity|]. split; [reflexivity|]. split; [reflexivity|]. unfold get_value. cbn [assign o_value]. rewrite P1, P3. auto.
Qed.
Print Assumptions C201_copy_behaves.
Print Assumptions C201_copy_refuted.
Print Assumptions C201_assign_refuted.

(* C201: optimum() and value() of an object are defined exactly when optimize() was called on that very object *)
Theorem C201_defined N M cbs solve junk k ops s : exec N M cbs solve junk k ops = Ok s -> forall i o, nth_error s i = Some o ->
  ((exists x, get_optimum M o = Ok x) <-> exists f x0, In (Optimize M i f x0) ops) /\ ((exists v, get_value M o = Ok v) <-> exists f x0, In (Optimize M i f x0) ops).
Proof.
  assert (Inv : forall ops s, exec N M cbs solve junk k ops = Ok s -> (forall i f x0, In (Optimize M i f x0) ops -> (i < length s)%nat) /\ forall i o, nth_error s i = Some o ->
    ((o_optimum M o <> None) <-> exists f x0, In (Optimize M i f x0) ops) /\ ((o_value M o <> None) <-> exists f x0, In (Optimize M i f x0) ops)).
  { clear ops s. induction ops as [|p ops IH] using rev_ind; intros s E.
    - cbn in E. injection E as <-. split; [intros i f x0 []|]. intros [|i] o H; discriminate.
    - unfold exec in E. rewrite foldM_app in E. apply bind_ok in E. destruct E as (s1 & E1 & E2). cbn in E2. apply bind_ok in E2. destruct E2 as (s2 & E2 & E3). injection E3 as <-.
      destruct (IH s1 E1) as (L & I). clear IH.
      assert (Old : forall i, (forall f x0, p <> Optimize M i f x0) -> (exists f x0, In (Optimize M i f x0) (ops ++ [p])) <-> exists f x0, In (Optimize M i f x0) ops).
      { intros i Hp. split; intros (f & x0 & H); exists f, x0; [apply in_app_iff in H; destruct H as [H|[H|[]]]; auto; exfalso; eapply Hp; eauto|apply in_app_iff; now left]. }
      destruct p as [mx tl st mm|j|j j'|j f x0]; cbn in E2.
      + injection E2 as <-. rewrite app_length. cbn. split.
        * intros i f x0 H. apply in_app_iff in H. destruct H as [H|[H|[]]]; [apply L in H; lia|discriminate].
        * intros i o H. rewrite Old by discriminate. destruct (Nat.lt_ge_cases i (length s1)) as [Hi|Hi]; [rewrite nth_error_app1 in H by auto; now apply I|].
          rewrite nth_error_app2 in H by auto. destruct (i - length s1)%nat as [|n] eqn:En; [|destruct n; discriminate]. cbn in H. injection H as <-. cbn.
          split; (split; [intros X; now elim X|intros (f & x0 & H); apply L in H; lia]).
      + apply bind_ok in E2. destruct E2 as (y & _ & E2). injection E2 as <-. rewrite app_length. cbn. split.
        * intros i f x0 H. apply in_app_iff in H. destruct H as [H|[H|[]]]; [apply L in H; lia|discriminate].
        * intros i o H. rewrite Old by discriminate. destruct (Nat.lt_ge_cases i (length s1)) as [Hi|Hi]; [rewrite nth_error_app1 in H by auto; now apply I|].
          rewrite nth_error_app2 in H by auto. destruct (i - length s1)%nat as [|n] eqn:En; [|destruct n; discriminate]. cbn in H. injection H as <-. cbn.
          split; (split; [intros X; now elim X|intros (f & x0 & H); apply L in H; lia]).
      + apply bind_ok in E2. destruct E2 as (y & Hy & E2). apply bind_ok in E2. destruct E2 as (z & _ & E2). injection E2 as <-. apply nth_res_ok in Hy. rewrite upd_length. split.
        * intros i f x0 H. apply in_app_iff in H. destruct H as [H|[H|[]]]; [now apply L in H|discriminate].
        * intros i o H. rewrite Old by discriminate. destruct (Nat.eq_dec j i) as [<-|Ne].
          -- rewrite nth_error_upd_same in H by (apply nth_error_Some; now rewrite Hy). injection H as <-. cbn. now apply I.
          -- rewrite nth_error_upd_other in H by auto. now apply I.
      + apply bind_ok in E2. destruct E2 as (y & Hy & E2). injection E2 as <-. apply nth_res_ok in Hy. rewrite upd_length. assert (Lj : (j < length s1)%nat) by (apply nth_error_Some; now rewrite Hy). split.
        * intros i g z H. apply in_app_iff in H. destruct H as [H|[H|[]]]; [now apply L in H|]. injection H as <- _ _. auto.
        * intros i o H. destruct (Nat.eq_dec j i) as [<-|Ne].
          -- rewrite nth_error_upd_same in H by auto. injection H as <-. assert (X : exists g z, In (Optimize M j g z) (ops ++ [Optimize M j f x0])) by (exists f, x0; apply in_app_iff; right; now left).
             unfold optimize. destruct (match k with GD => _ | NW => _ | BF => _ end) as [[[w n] e] q]. cbn. split; (split; [auto|intros _ Hx; discriminate]).
          -- rewrite nth_error_upd_other in H by auto. rewrite Old; [now apply I|]. intros g z Hx. injection Hx as Hx _ _. auto. }
  intros E i o H. destruct (Inv ops s E) as (_ & I). destruct (I i o H) as (I1 & I2). unfold get_optimum, get_value. split.
  - rewrite <- I1. destruct (o_optimum M o) as [x|]; split; [discriminate|eauto|intros [x X]; discriminate|now intros []].
  - rewrite <- I2. destruct (o_value M o) as [x|]; split; [discriminate|eauto|intros [x X]; discriminate|now intros []].
Qed.
Print Assumptions C201_defined.

(* ---- the line searches of the library read nothing else ---- *)
Lemma line_search_blind M search : (forall p q, agree false p q -> search p = search q) -> blind M false (pre_hook (line_search M search)) /\ blind M true (post_hook (line_search M search)).
Proof.
  intros H. split; [|exact I]. cbn. split.
  - intros p q m A. rewrite <- (H p q A). destruct (search p); cbn; repeat split; auto; try apply A; discriminate.
  - intros p m. destruct (search p); cbn; repeat split; auto.
Qed.
Theorem C201_line_searches N M obj grad fuel a b c : blind_callbacks M [line_search M (backtracking_search N obj fuel a b c)] /\ blind_callbacks M [line_search M (wolfe_search N obj grad fuel a b c)] /\ blind_callbacks M [].
Proof.
  split; [|split; [|intros x []]]; intros x [<-|[]]; apply line_search_blind; intros p q (A1 & A2 & A3 & A4 & _); unfold backtracking_search, wolfe_search; now rewrite A1, A3, A4.
Qed.
Print Assumptions C201_line_searches.

(* ---- non-vacuity: x^2 on the line, gradient descent with step 1/4, a second call from another point ---- *)
Definition sq : objective unit := Objective unit (fun x => x 0%nat * x 0%nat) (fun x _ => 2 * x 0%nat) (fun _ _ _ => 2) None.
Example C201_reuse_ex : let dv := (fun _ _ _ => 0) : (nat -> nat -> R) -> vec -> vec in exists s o, exec 1 unit [] dv (fun _ => zero_pub) GD [New unit 1 (1 / 2) (1 / 4) tt; Optimize unit 0 sq (fun _ => 8); Optimize unit 0 sq (fun _ => 4)] = Ok s /\ nth_error s 0 = Some o /\
  (exists x, get_optimum unit o = Ok x /\ x 0%nat = 2) /\ get_value unit o = Ok 4 /\ o_iter unit o = 1%nat.
Proof.
  cbv zeta. eexists. eexists. split; [reflexivity|]. split; [reflexivity|]. unfold get_optimum, get_value, optimize. cbn. split; [eexists; split; [reflexivity|cbn; unfold vadd, vscale; lra]|]. split; auto. f_equal. unfold vadd, vscale. lra.
Qed.
