(* C189-C190: fields with user-supplied derivatives return them, and gradient descent on a field without them, driven by the
   centred differences of derive(), reaches the tolerance up to the error of the differences. *)
From Coq Require Import Lia Lra Psatz.
From Verif Require Import Base RSum SimplexModel SimplexProps HyperProps FieldModel FieldProps FieldErr OptModel OptProps LineSearchProps OptConv DiffModel.

(* ---- C189 ---- *)
(* the matrix with these rows holds, in row i and column j, the value at x of the function number i * n + j of the list *)
Definition row_major (n : nat) (fs : list (vec -> R)) (x : vec) (m : list (list R)) : Prop :=
  length m = n /\ forall i j, (i < n)%nat -> (j < n)%nat -> exists row, nth_error m i = Some row /\ length row = n /\
    nth_error row j = option_map (fun f => f x) (nth_error fs (i * n + j)).

Lemma mapM_seq {B} (f : nat -> Res B) (g : nat -> B) n : (forall i, (i < n)%nat -> f i = Ok (g i)) -> mapM f (seq 0 n) = Ok (map g (seq 0 n)).
Proof.
  intros H. apply mapM_ok. assert (K : forall i, In i (seq 0 n) -> f i = Ok (g i)) by (intros i Hi; apply in_seq in Hi; apply H; lia). clear H. induction (seq 0 n) as [|a l IH]; constructor.
  - apply K. now left.
  - apply IH. intros i Hi. apply K. now right.
Qed.
Lemma vector_field_of_ok n v : length v = n -> exists g, vector_field_of n v = Ok g /\ forall x, veval g x = Ok (map (fun f => f x) v).
Proof.
  intros H. unfold vector_field_of. rewrite (proj2 (Nat.eqb_eq _ _) H). cbn [assert_ bind]. eexists. split; [reflexivity|]. intros x. unfold veval. cbn [vouter].
  rewrite (mapM_seq _ (fun i => nth i v (fun _ => 0) x)).
  - f_equal. apply nth_error_ext. intros i. rewrite !nth_error_map', nth_error_seq. destruct (Nat.ltb_spec i n) as [Hi|Hi].
    + cbn. destruct (nth_error v i) as [f|] eqn:E; [|apply nth_error_None in E; lia]. cbn. now rewrite (nth_error_nth _ _ _ E).
    + cbn. rewrite (proj2 (nth_error_None v i)) by lia. reflexivity.
  - intros i Hi. cbn [velem]. unfold entry. now rewrite (proj2 (Nat.ltb_lt _ _) Hi).
Qed.
Lemma matrix_field_of_ok n v : length v = (n * n)%nat -> exists H, matrix_field_of n n v = Ok H /\ forall x, exists m, meval H x = Ok m /\ row_major n v x m.
Proof.
  intros H. unfold matrix_field_of. rewrite (proj2 (Nat.eqb_eq _ _) H). cbn [assert_ bind]. eexists. split; [reflexivity|]. intros x. unfold meval. cbn [mrows mcols].
  exists (map (fun i => map (fun j => nth (j + i * n) v (fun _ => 0) x) (seq 0 n)) (seq 0 n)). split.
  - apply mapM_seq. intros i Hi. apply mapM_seq. intros j Hj. cbn [mcoeff]. assert (L : (j + i * n < length v)%nat) by (rewrite H; nia).
    destruct (nth_error v (j + i * n)) as [f|] eqn:E; [|apply nth_error_None in E; lia]. rewrite (proj2 (nth_res_ok _ _ _) E). cbn [bind]. now rewrite (nth_error_nth _ _ _ E).
  - split; [now rewrite map_length, seq_length|]. intros i j Hi Hj. exists (map (fun j => nth (j + i * n) v (fun _ => 0) x) (seq 0 n)). split; [|split].
    + rewrite nth_error_map', nth_error_seq. now rewrite (proj2 (Nat.ltb_lt _ _) Hi).
    + now rewrite map_length, seq_length.
    + rewrite nth_error_map', nth_error_seq, (proj2 (Nat.ltb_lt _ _) Hj). cbn [option_map Nat.add]. replace (i * n + j)%nat with (j + i * n)%nat by lia.
      destruct (nth_error v (j + i * n)) as [f|] eqn:E; [|apply nth_error_None in E; nia]. cbn. now rewrite (nth_error_nth _ _ _ E).
Qed.

(* the value is that of the function and the derivatives are the functions supplied, whatever the step; lists of another length are refused *)
Theorem C189_differentiable n f df : if (length df =? n)%nat
  then exists o, differentiable n f df = Ok o /\ forall h x, obj_value (set_step o h) x = f x /\ veval (obj_derive n (set_step o h)) x = Ok (map (fun g => g x) df) /\
         meval (obj_derive_twice n (set_step o h)) x = meval (MHess n h (SField f)) x
  else differentiable n f df = Throw.
Proof.
  destruct (Nat.eqb_spec (length df) n) as [E|E].
  - destruct (vector_field_of_ok n df E) as (g & Hg & Hv). unfold differentiable. rewrite Hg. cbn [bind]. eexists. split; [reflexivity|]. intros h x. cbn [set_step obj_value obj_derive obj_derive_twice]. auto.
  - unfold differentiable, vector_field_of. rewrite (proj2 (Nat.eqb_neq _ _) E). reflexivity.
Qed.
Theorem C189_twice_differentiable n f df ddf : if ((length df =? n) && (length ddf =? n * n))%nat%bool
  then exists o, twice_differentiable n f df ddf = Ok o /\ forall h x, obj_value (set_step o h) x = f x /\ veval (obj_derive n (set_step o h)) x = Ok (map (fun g => g x) df) /\
         exists m, meval (obj_derive_twice n (set_step o h)) x = Ok m /\ row_major n ddf x m
  else twice_differentiable n f df ddf = Throw.
Proof.
  destruct (Nat.eqb_spec (length df) n) as [E|E]; [destruct (Nat.eqb_spec (length ddf) (n * n)) as [E'|E']|]; cbn [andb]; unfold twice_differentiable.
  - destruct (vector_field_of_ok n df E) as (g & Hg & Hv). destruct (matrix_field_of_ok n ddf E') as (H & HH & Hm). rewrite HH, Hg. cbn [bind]. eexists. split; [reflexivity|]. intros h x. cbn [set_step obj_value obj_derive obj_derive_twice]. auto.
  - unfold matrix_field_of. rewrite (proj2 (Nat.eqb_neq _ _) E'). reflexivity.
  - destruct (matrix_field_of n n ddf) as [H| | |] eqn:EH; unfold matrix_field_of in EH; destruct (_ =? _)%nat in EH; try discriminate; cbn [bind]; [|reflexivity].
    unfold vector_field_of. rewrite (proj2 (Nat.eqb_neq _ _) E). reflexivity.
Qed.

(* the gradient the optimiser works with: the components of derive() at each point *)
Definition computes (n : nat) (v : vexp) (g : vec -> vec) : Prop := forall x, exists l, veval v x = Ok l /\ length l = n /\ forall i, (i < n)%nat -> nth_error l i = Some (g x i).
(* two gradients with the same components: smoothness carries over *)
Lemma smooth_ext N obj g g' L : smooth N obj g L -> (forall x i, (i < N)%nat -> g' x i = g x i) -> smooth N obj g' L.
Proof. intros H E x u a Ha. specialize (H x u a Ha). replace (dot N (g' x) u) with (dot N (g x) u); auto. apply rsum_ext. intros i Hi. now rewrite E. Qed.

(* gradient descent on a field with analytic gradient reaches the tolerance, the gradient being the one supplied *)
Theorem C189_descent N M f df o g0 g L low step tol max_iter w0 m0 x0 : differentiable N f df = Ok o -> computes N (obj_derive N o) g ->
  (forall x i d, nth_error df i = Some d -> d x = g0 x i) -> smooth N f g0 L -> (forall x, low <= f x) -> 0 < L -> 0 < step < 2 / L -> 0 < tol ->
  f x0 - low <= INR max_iter * (step * (1 - L * step / 2) * (tol * tol)) ->
  norm N (g0 (optimum (gradient_descent N M (obj_value o) g [] None max_iter tol w0 step m0 x0))) <= tol.
Proof.
  intros Eo Hc Hd HS Hl HL Hst Ht Hm. assert (Hlen : length df = N).
  { unfold differentiable, vector_field_of in Eo. destruct (Nat.eqb_spec (length df) N); auto. discriminate. }
  assert (K := C189_differentiable N f df). rewrite (proj2 (Nat.eqb_eq _ _) Hlen) in K. destruct K as (o' & Eo' & K). rewrite Eo in Eo'. injection Eo' as <-.
  assert (Eg : forall x i, (i < N)%nat -> g x i = g0 x i).
  { intros x i Hi. destruct (Hc x) as (l & E1 & E2 & E3). specialize (E3 i Hi). assert (EV : veval (obj_derive N o) x = Ok (map (fun g => g x) df)).
    { destruct (K 0 x) as (_ & A & _). destruct o; exact A || idtac. exfalso. clear - Eo. unfold differentiable, vector_field_of in Eo. destruct (_ =? _)%nat; discriminate. }
    rewrite E1 in EV. injection EV as ->. rewrite nth_error_map' in E3. destruct (nth_error df i) as [d|] eqn:Ed; [|discriminate]. cbn in E3. injection E3 as E3. rewrite <- E3. now apply Hd. }
  assert (Ev : obj_value o = f). { clear - Eo. unfold differentiable, vector_field_of in Eo. destruct (_ =? _)%nat; [|discriminate]. cbn in Eo. injection Eo as <-. reflexivity. }
  rewrite Ev. replace (norm N (g0 _)) with (norm N (g (optimum (gradient_descent N M f g [] None max_iter tol w0 step m0 x0)))).
  - apply (C183_fixed_step N M f g L low); auto. now apply (smooth_ext N f g0).
  - unfold norm, dot. f_equal. apply rsum_ext. intros i Hi. now rewrite Eg.
Qed.

(* ---- C190 ---- *)
Lemma cauchy N a b d : 0 <= d -> dot N a a <= d * d -> dot N a b <= d * norm N b.
Proof.
  intros Hd Ha. unfold norm. assert (P := dot_pos N b). assert (Pa := dot_pos N a). set (nb := sqrt (dot N b b)). assert (Hnb : 0 <= nb) by apply sqrt_pos. assert (Eb : nb * nb = dot N b b) by now apply sqrt_sqrt.
  destruct Hnb as [Hnb|Z].
  - destruct Hd as [Hd|<-].
    + assert (Y := young N a b (nb / d) ltac:(now apply Rdiv_lt_0_compat)). rewrite <- Eb in Y. replace (nb * nb / (nb / d)) with (d * nb) in Y by (field; lra).
      assert (nb / d * dot N a a <= nb / d * (d * d)) by (apply Rmult_le_compat_l; [left; now apply Rdiv_lt_0_compat|auto]). replace (nb / d * (d * d)) with (d * nb) in H by (field; lra). lra.
    + rewrite Rmult_0_l. right. apply rsum_zero. intros i Hi. rewrite (dot_zero N a) by (auto; lra). ring.
  - rewrite <- Z, Rmult_0_r. right. apply rsum_zero. intros i Hi. rewrite (dot_zero N b) by (auto; rewrite <- Eb, <- Z; ring). ring.
Qed.
Lemma cauchy_abs N a b d : 0 <= d -> dot N a a <= d * d -> Rabs (dot N a b) <= d * norm N b.
Proof.
  intros Hd Ha. apply Rabs_le. split; [|now apply cauchy]. assert (Q := cauchy N (vscale (-1) a) b d Hd). rewrite !dot_scale_l, dot_scale_r in Q. specialize (Q ltac:(lra)). lra.
Qed.

(* the gradient g used by the loop differs from the true gradient by at most d *)
Definition close_to (N : nat) (g grad : vec -> vec) (d : R) : Prop := forall x, norm N (vsub (g x) (grad x)) <= d.
Lemma close_sqr N g grad d x : close_to N g grad d -> 0 <= d /\ dot N (vsub (g x) (grad x)) (vsub (g x) (grad x)) <= d * d.
Proof.
  intros H. specialize (H x). unfold norm in H. assert (P := sqrt_pos (dot N (vsub (g x) (grad x)) (vsub (g x) (grad x)))). assert (Q := sqrt_sqrt _ (dot_pos N (vsub (g x) (grad x)))). split; [lra|]. rewrite <- Q. nra.
Qed.
Lemma norm_split N g grad d x : close_to N g grad d -> norm N (grad x) <= norm N (g x) + d.
Proof.
  intros H. destruct (close_sqr N g grad d x H) as [Hd He]. assert (C := cauchy_abs N _ (g x) d Hd He). assert (E : dot N (grad x) (grad x) = dot N (g x) (g x) - 2 * dot N (vsub (g x) (grad x)) (g x) + dot N (vsub (g x) (grad x)) (vsub (g x) (grad x))).
  { unfold dot. rewrite <- rsum_scal, <- rsum_minus, <- rsum_plus. apply rsum_ext. intros. unfold vsub. ring. }
  assert (Pn := sqrt_pos (dot N (g x) (g x))). fold (norm N (g x)) in Pn. assert (En : norm N (g x) * norm N (g x) = dot N (g x) (g x)) by (apply sqrt_sqrt, dot_pos).
  unfold norm at 1. rewrite <- (sqrt_square (norm N (g x) + d)) by lra. apply sqrt_le_1_alt. rewrite E. assert (B := Rle_trans _ _ _ (Rle_abs (- dot N (vsub (g x) (grad x)) (g x))) (Req_le _ _ (Rabs_Ropp _))). nra.
Qed.
Section Inexact.
Variables (N : nat) (M : Type) (obj : vec -> R) (grad g : vec -> vec) (L d step tol low : R).
Hypothesis HS : smooth N obj grad L.
Hypothesis HD : close_to N g grad d.
Hypothesis Hlow : forall x, low <= obj x.
Hypothesis Hstep : 0 < step.
Hypothesis Htol : 0 < tol.
Let c := step * (1 - L * step / 2 - d / tol).
Hypothesis Hc : 0 < c.
Let tracked (w : pub * M) := h_ (fst w) = step /\ grad_old (fst w) = g (x_old (fst w)).
(* one pass: the value changes by at most the quadratic model plus the effect of the error *)
Lemma inexact_pass (w : pub * M) : tracked w -> exists w', gd_body N M g [] None w = Next w' (norm N (g (x_old (fst w')))) false /\ tracked w' /\
  obj (x_old (fst w')) <= obj (x_old (fst w)) - step * (1 - L * step / 2) * (norm N (g (x_old (fst w))) * norm N (g (x_old (fst w)))) + step * d * norm N (g (x_old (fst w))).
Proof using HS HD Hstep.
  intros [Hh HG]. unfold gd_body, finish. cbn [execute_pre execute_post map fold_left execute_criterion exec_hook on_pub fst snd orb]. match goal with |- exists w', Next ?a _ ?b = _ /\ _ => exists a end. split; [reflexivity|].
  cbn [fst snd on_pub shift move set_new set_update x_old x_new update h_ grad_old grad_new hess_ inv_hess]. split; [split; [exact Hh|reflexivity]|]. rewrite Hh.
  set (x := x_old (fst w)) in *. assert (Q := HS x (vscale (-1) (grad_old (fst w))) step ltac:(lra)). unfold ray in Q. rewrite HG in *. rewrite dot_scale_l, !dot_scale_r in Q.
  destruct (close_sqr N g grad d x HD) as [Hd He]. assert (C := cauchy N _ (g x) d Hd He). assert (E : dot N (vsub (g x) (grad x)) (g x) = dot N (g x) (g x) - dot N (grad x) (g x)).
  { unfold dot. rewrite <- rsum_minus. apply rsum_ext. intros. unfold vsub. ring. }
  rewrite E in C. assert (En : norm N (g x) * norm N (g x) = dot N (g x) (g x)) by (apply sqrt_sqrt, dot_pos). rewrite En.
  assert (step * (dot N (g x) (g x) - dot N (grad x) (g x)) <= step * (d * norm N (g x))) by (apply Rmult_le_compat_l; lra). lra.
Qed.
(* past the tolerance a pass lowers the value *)
Lemma inexact_decrease q : tol < q -> - (step * (1 - L * step / 2) * (q * q)) + step * d * q <= - (c * (tol * tol)).
Proof using HD Htol Hc Hstep.
  intros Hq. assert (Hd : 0 <= d) by exact (proj1 (close_sqr N g grad d (fun _ => 0) HD)). assert (E : step * d * q <= step * (d / tol) * (q * q)).
  { replace (step * (d / tol) * (q * q)) with (step * d * q * (q / tol)) by (field; lra). rewrite <- (Rmult_1_r (step * d * q)) at 1. apply Rmult_le_compat_l; [repeat apply Rmult_le_pos; lra|].
    apply Rmult_le_reg_r with tol; [lra|]. replace (q / tol * tol) with q by (field; lra). lra. }
  apply Rle_trans with (- (c * (q * q))); [unfold c in *; lra|]. apply Ropp_le_contravar, Rmult_le_compat_l; [lra|]. nra.
Qed.
Lemma inexact_run rem : forall n w, tracked w ->
  let '(w', n', e', s') := loop M tol (gd_body N M g [] None) rem n w (Some (norm N (g (x_old (fst w))))) false in
  norm N (g (x_old (fst w'))) <= tol \/ INR rem * (c * (tol * tol)) < obj (x_old (fst w)) - low.
Proof using HS HD Hlow Hstep Htol Hc.
  assert (Hct : 0 < c * (tol * tol)) by (apply Rmult_lt_0_compat; nra). induction rem as [|rem IH]; intros n w HT; cbn [loop].
  - destruct (Rle_lt_dec (norm N (g (x_old (fst w)))) tol) as [Q|G]; [auto|]. right. cbn [INR]. destruct (inexact_pass w HT) as (w' & _ & _ & D). assert (B := inexact_decrease _ G). assert (K := Hlow (x_old (fst w'))). lra.
  - destruct (Rle_lt_dec (norm N (g (x_old (fst w)))) tol) as [Q|G].
    + replace (ltb tol (norm N (g (x_old (fst w))))) with false by (symmetry; apply ltb_false; lra). cbn [andb]. left. exact Q.
    + rewrite (proj2 (ltb_true _ _) G). cbn [andb negb]. destruct (inexact_pass w HT) as (w' & -> & HT' & D). specialize (IH (S n) w' HT').
      destruct (loop _ _ _ _ _ _ _ _) as [[[wf nf] ef] sf]. destruct IH as [A|A]; auto. right. rewrite S_INR. assert (B := inexact_decrease _ G). lra.
Qed.
Lemma inexact_start max_iter w0 m0 x0 : 0 < 1 - L * step / 2 -> obj x0 + step * (d * d) / (4 * (1 - L * step / 2)) - low <= INR max_iter * (c * (tol * tol)) ->
  norm N (g (optimum (gradient_descent N M obj g [] None (S max_iter) tol w0 step m0 x0))) <= tol.
Proof using HS HD Hlow Hstep Htol Hc.
  intros Hk Hm. unfold gradient_descent. cbn [loop]. cbn [andb negb].
  destruct (inexact_pass (set_old (start w0 step x0) (g x0) (hess_ w0), m0) (conj eq_refl eq_refl)) as (w' & -> & HT' & D). cbn [fst set_old start x_old] in D.
  assert (R := inexact_run max_iter 1 w' HT'). destruct (loop _ _ _ _ _ _ _ _) as [[[wf nf] ef] sf]. cbn [close optimum]. destruct R as [A|A]; auto. exfalso.
  set (k := 1 - L * step / 2) in *. set (q := norm N (g x0)) in *. assert (P : - (step * k * (q * q)) + step * d * q <= step * (d * d) / (4 * k)).
  { apply Rmult_le_reg_r with (4 * k); [lra|]. replace (step * (d * d) / (4 * k) * (4 * k)) with (step * (d * d)) by (field; lra). assert (0 <= step * ((2 * k * q - d) * (2 * k * q - d))); [|lra]. apply Rmult_le_pos; [lra|]. apply Rle_0_sqr. }
  lra.
Qed.
End Inexact.

(* descent with a gradient known up to d: the run stops with a computed gradient below the tolerance, and the true one below tol + d *)
Theorem C190_inexact N M obj grad g L d low step tol max_iter w0 m0 x0 : smooth N obj grad L -> close_to N g grad d -> (forall x, low <= obj x) -> 0 < step -> 0 < tol ->
  0 < 1 - L * step / 2 - d / tol ->
  obj x0 + step * (d * d) / (4 * (1 - L * step / 2)) - low <= INR max_iter * (step * (1 - L * step / 2 - d / tol) * (tol * tol)) ->
  let x := optimum (gradient_descent N M obj g [] None (S max_iter) tol w0 step m0 x0) in norm N (g x) <= tol /\ norm N (grad x) <= tol + d.
Proof.
  intros HS HD Hl Hst Ht Hk Hm x. assert (Hd : 0 <= d) by exact (proj1 (close_sqr N g grad d (fun _ => 0) HD)). assert (0 <= d / tol) by (apply Rmult_le_pos; [auto|left; now apply Rinv_0_lt_compat]).
  assert (A : norm N (g x) <= tol) by (apply (inexact_start N M obj grad g L d step tol low); auto; [now apply Rmult_lt_0_compat|lra]). split; auto. apply Rle_trans with (1 := norm_split N g grad d x HD). lra.
Qed.

(* the third derivatives along the axes exist and are bounded by K, and the first ones form the gradient *)
Definition third_bounded (N : nat) (f : vec -> R) (grad : vec -> vec) (K : R) : Prop :=
  forall x i, (i < N)%nat -> exists D, derivatives (along f x i) D 3 /\ D 1%nat (x i) = grad x i /\ forall t, Rabs (D 3%nat t) <= K.
(* the error of derive() on a field without analytic gradient *)
Theorem C190_differences N f grad g h K : 0 < h -> third_bounded N f grad K -> computes N (obj_derive N (set_step (scalar_field f) h)) g ->
  close_to N g grad (sqrt (INR N) * (K * (h * h) / 6)).
Proof.
  intros Hh HT HC x. destruct (HC x) as (l & E1 & E2 & E3).
  assert (B : forall i, (i < N)%nat -> Rabs (g x i - grad x i) <= K * (h * h) / 6).
  { intros i Hi. destruct (HT x i Hi) as (D & HD & H1 & H3). destruct (C109_gradient_error f x i h D K Hh HD (fun t _ => H3 t)) as (v & Ev & Bv). rewrite H1 in Bv.
    unfold veval in E1. cbn [obj_derive scalar_field set_step vouter] in E1. apply mapM_ok in E1. assert (F : forall l l' i a b, Forall2 (fun i y => velem (VGrad N h (SField f)) i x = Ok y) l l' -> nth_error l i = Some a -> nth_error l' i = Some b -> velem (VGrad N h (SField f)) a x = Ok b).
    { clear. induction l as [|u l IH]; intros l' i a b F Ha Hb; inversion F; subst; destruct i as [|i]; cbn [nth_error] in Ha, Hb; try discriminate; [congruence|]. eapply IH; eauto. }
    specialize (F _ _ i i (g x i) E1). rewrite nth_error_seq, (proj2 (Nat.ltb_lt _ _) Hi) in F. specialize (F eq_refl (E3 i Hi)). rewrite (C73_gradient_component N h (SField f) i x Hi), Ev in F. injection F as <-. exact Bv. }
  assert (HK : N <> 0%nat -> 0 <= K * (h * h) / 6). { intros HN. apply Rle_trans with (2 := B 0%nat ltac:(lia)). apply Rabs_pos. }
  destruct (Nat.eq_dec N 0) as [Z|Z].
  - clear - Z. subst N. unfold norm, dot. cbn [rsum INR]. rewrite sqrt_0. lra.
  - specialize (HK Z). set (e := K * (h * h) / 6) in *. rewrite <- (sqrt_square e HK), <- sqrt_mult; [|apply pos_INR|nra]. unfold norm. apply sqrt_le_1_alt. unfold dot. rewrite <- (rsum_const N (e * e)). apply rsum_le. intros i Hi. specialize (B i Hi). unfold vsub. assert (P := Rabs_pos (g x i - grad x i)). assert (Q := Rsqr_abs (g x i - grad x i)). unfold Rsqr in Q. rewrite Q.
    nra.
Qed.
(* derive() always evaluates *)
Theorem C190_computes N f h : exists g, computes N (obj_derive N (set_step (scalar_field f) h)) g.
Proof.
  exists (fun x i => (f (FieldProps.move x i h) - f (FieldProps.move x i (- h))) / (2 * h)). intros x. exists (map (fun i => (f (FieldProps.move x i h) - f (FieldProps.move x i (- h))) / (2 * h)) (seq 0 N)). cbn [scalar_field set_step obj_derive]. unfold veval. cbn [vouter]. split; [|split].
  - apply mapM_seq. intros i Hi. rewrite C73_gradient_component by auto. cbn [seval]. now apply (diff1_ok _ f).
  - now rewrite map_length, seq_length.
  - intros i Hi. rewrite nth_error_map', nth_error_seq, (proj2 (Nat.ltb_lt _ _) Hi). reflexivity.
Qed.
(* gradient descent on a plain ScalarField of step h: true gradient below tol + sqrt(N) K h^2 / 6 *)
Theorem C190_numerical N M f grad g h K L low step tol max_iter w0 m0 x0 : 0 < h -> smooth N f grad L -> third_bounded N f grad K -> (forall x, low <= f x) -> 0 < step -> 0 < tol ->
  computes N (obj_derive N (set_step (scalar_field f) h)) g ->
  let d := sqrt (INR N) * (K * (h * h) / 6) in
  0 < 1 - L * step / 2 - d / tol ->
  f x0 + step * (d * d) / (4 * (1 - L * step / 2)) - low <= INR max_iter * (step * (1 - L * step / 2 - d / tol) * (tol * tol)) ->
  let x := optimum (gradient_descent N M (obj_value (set_step (scalar_field f) h)) g [] None (S max_iter) tol w0 step m0 x0) in norm N (g x) <= tol /\ norm N (grad x) <= tol + d.
Proof. intros Hh HS HT Hl Hst Ht HC d Hk Hm. apply (C190_inexact N M f grad g L d low); auto. exact (C190_differences N f grad g h K Hh HT HC). Qed.
(* without set_step the step is 1e-3 *)
Theorem C190_default N f grad g K : third_bounded N f grad K -> computes N (obj_derive N (scalar_field f)) g -> close_to N g grad (sqrt (INR N) * (K * (/ 1000 * / 1000) / 6)).
Proof. intros HT HC. apply (C190_differences N f grad g (/ 1000) K); [lra|exact HT|]. replace (set_step (scalar_field f) (/ 1000)) with (scalar_field f) by (unfold scalar_field, default_step; cbn [set_step]; f_equal; lra). exact HC. Qed.
(* the differences can miss the slope: a sine of period 2 h has numerical gradient zero everywhere, so any run stops after one pass
   where it started, whatever the true gradient *)
Theorem C190_aliasing h M tol max_iter w0 step m0 x0 g : 0 < h -> 0 <= tol -> computes 1 (obj_derive 1 (set_step (scalar_field (fun x => sin (PI * x 0%nat / h))) h)) g ->
  let f := fun x : vec => sin (PI * x 0%nat / h) in let r := gradient_descent 1 M f g [] None (S max_iter) tol w0 step m0 x0 in
  n_iter r = 1%nat /\ optimum r 0%nat = x0 0%nat /\ last_error r = Some 0 /\ derivable_pt_lim (along f x0 0) (x0 0%nat) (PI / h * cos (PI * x0 0%nat / h)).
Proof.
  intros Hh Ht HC f r. assert (G : forall x, g x 0%nat = 0).
  { intros x. destruct (HC x) as (l & E1 & E2 & E3). specialize (E3 0%nat ltac:(lia)). unfold veval in E1. cbn [obj_derive scalar_field set_step vouter seq] in E1. apply mapM_ok in E1. inversion E1 as [|? y ? l' E4 E5]; subst. cbn in E3. injection E3 as ->.
    rewrite C73_gradient_component in E4 by lia. cbn [seval] in E4. rewrite (diff1_ok _ f) in E4 by reflexivity. injection E4 as <-. rewrite !move_set. unfold f, FieldModel.set. rewrite Nat.eqb_refl.
    replace (PI * (x 0%nat + h) / h) with (PI * x 0%nat / h + PI) by (field; lra). replace (PI * (x 0%nat + - h) / h) with (PI * x 0%nat / h - PI) by (field; lra). rewrite neg_sin, sin_minus, sin_PI, cos_PI. field. lra. }
  assert (NZ : forall x, norm 1 (g x) = 0) by (intros x; unfold norm, dot; cbn [rsum]; rewrite G; replace (0 + 0 * 0) with 0 by ring; apply sqrt_0).
  assert (Er : r = close M f (loop M tol (gd_body 1 M g [] None) max_iter 1 (on_pub M shift (on_pub M (OptModel.move g) (on_pub M (fun p => set_update p (vscale (-1) (grad_old p))) (set_old (start w0 step x0) (g x0) (hess_ w0), m0)))) (Some 0) false)).
  { unfold r, gradient_descent. cbn [loop andb negb]. unfold gd_body at 1, finish. cbn [execute_pre execute_post map fold_left execute_criterion exec_hook fst snd orb]. do 2 f_equal. cbn [on_pub OptModel.move set_new grad_new fst]. rewrite NZ. reflexivity. }
  assert (El : forall w, loop M tol (gd_body 1 M g [] None) max_iter 1 w (Some 0) false = (w, 1%nat, Some 0, false)).
  { intros w. destruct max_iter; cbn [loop]; [reflexivity|]. rewrite (proj2 (ltb_false tol 0)) by lra. reflexivity. }
  rewrite Er, El. cbn [close n_iter optimum last_error on_pub OptModel.move shift set_new set_update set_old start fst snd x_old x_new update grad_old h_]. split; [reflexivity|]. split; [unfold vadd, vscale; rewrite G; ring|]. split; [reflexivity|].
  unfold along, f, FieldModel.set. rewrite Nat.eqb_refl.
  apply (derivable_pt_lim_comp (fun t => PI * t / h) sin (x0 0%nat) (PI / h) (cos (PI * x0 0%nat / h))) || (rewrite Rmult_comm; apply (derivable_pt_lim_comp (fun t => PI * t / h) sin (x0 0%nat) (PI / h) (cos (PI * x0 0%nat / h)))).
  - replace (PI / h) with (PI * 1 / h) by (field; lra). unfold Rdiv. replace (PI * 1 * / h) with (PI * 1 * / h + PI * x0 0%nat * 0) by ring. apply (derivable_pt_lim_mult (fun t => PI * t) (fun _ => / h)); [|apply derivable_pt_lim_const].
    replace (PI * 1) with (0 * x0 0%nat + PI * 1) by ring. apply (derivable_pt_lim_mult (fun _ => PI) (fun t => t)); [apply derivable_pt_lim_const|apply derivable_pt_lim_id].
  - apply derivable_pt_lim_sin.
Qed.

(* a quadratic with its derivatives, and the same with one component missing *)
Example C189_example : exists o, twice_differentiable 2 (fun x => x 0%nat * x 0%nat + 3 * x 1%nat) [(fun x => 2 * x 0%nat); (fun _ => 3)] [(fun _ => 2); (fun _ => 0); (fun _ => 0); (fun _ => 0)] = Ok o /\
  veval (obj_derive 2 o) (fun i => INR i + 1) = Ok [2 * (0 + 1); 3] /\ differentiable 2 (fun x => x 0%nat) [(fun _ => 1)] = Throw.
Proof. eexists. split; [reflexivity|]. split; reflexivity. Qed.
Lemma cos_lipschitz a b : (cos a - cos b) * (cos a - cos b) <= (a - b) * (a - b).
Proof.
  assert (K : forall a b, a < b -> (cos b - cos a) * (cos b - cos a) <= (b - a) * (b - a)).
  { intros p q Hpq. destruct (MVT_cor2 cos (fun t => - sin t) p q Hpq (fun t _ => derivable_pt_lim_cos t)) as (z & E & _). rewrite E. assert (B := SIN_bound z). assert (0 <= (q - p) * (q - p)) by apply Rle_0_sqr. assert (sin z * sin z <= 1) by nra. nra. }
  destruct (Rtotal_order a b) as [H|[-> |H]]; [specialize (K a b H)| |specialize (K b a H)]; nra.
Qed.
(* 1 + sin: bounded below by 0, slope cos, third derivative bounded by 1 *)
Example C190_example : smooth 1 (fun x => 1 + sin (x 0%nat)) (fun x _ => cos (x 0%nat)) 1 /\ third_bounded 1 (fun x => 1 + sin (x 0%nat)) (fun x _ => cos (x 0%nat)) 1 /\ (forall x : vec, 0 <= 1 + sin (x 0%nat)).
Proof.
  split; [|split].
  - apply C183_lipschitz; [lra| | |].
    + intros x y H. now rewrite H by lia.
    + intros x u a. unfold ray, vadd, vscale, dot. cbn [rsum]. replace (0 + cos (x 0%nat + a * u 0%nat) * u 0%nat) with (0 + cos (x 0%nat + a * u 0%nat) * (0 + (1 * u 0%nat + a * 0))) by ring.
      apply (derivable_pt_lim_plus (fun _ => 1) (fun a => sin (x 0%nat + a * u 0%nat))); [apply derivable_pt_lim_const|]. apply (derivable_pt_lim_comp (fun a => x 0%nat + a * u 0%nat) sin); [|apply derivable_pt_lim_sin].
      apply (derivable_pt_lim_plus (fun _ => x 0%nat) (fun a => a * u 0%nat)); [apply derivable_pt_lim_const|]. apply (derivable_pt_lim_mult (fun a => a) (fun _ => u 0%nat)); [apply derivable_pt_lim_id|apply derivable_pt_lim_const].
    + intros x u a. unfold ray, vadd, vscale, vsub, dot. cbn [rsum]. assert (Q := cos_lipschitz (x 0%nat + a * u 0%nat) (x 0%nat)). replace ((x 0%nat + a * u 0%nat - x 0%nat) * (x 0%nat + a * u 0%nat - x 0%nat)) with (a * a * (u 0%nat * u 0%nat)) in Q by ring. lra.
  - intros x i Hi. assert (i = 0%nat) by lia. subst i. exists (fun k t => match k with O => 1 + sin t | 1%nat => cos t | 2%nat => - sin t | _ => - cos t end). split; [split|split].
    + intros t. unfold along, FieldModel.set. rewrite Nat.eqb_refl. reflexivity.
    + intros k t Hk. destruct k as [|[|[|k]]]; [| | |lia]; cbn.
      * rewrite <- (Rplus_0_l (cos t)). apply (derivable_pt_lim_plus (fun _ => 1) sin); [apply derivable_pt_lim_const|apply derivable_pt_lim_sin].
      * apply derivable_pt_lim_cos.
      * apply derivable_pt_lim_opp, derivable_pt_lim_sin.
    + reflexivity.
    + intros t. apply Rabs_le. generalize (COS_bound t). lra.
  - intros x. generalize (SIN_bound (x 0%nat)). lra.
Qed.
Print Assumptions C189_differentiable.
Print Assumptions C189_twice_differentiable.
Print Assumptions C189_descent.
Print Assumptions C190_inexact.
Print Assumptions C190_numerical.
Print Assumptions C190_aliasing.
