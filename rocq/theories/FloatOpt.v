(* C202, C203: when the optimizers stop, in double arithmetic. *)
From Coq Require Import Reals Lra Lia List Bool ZArith.
From Flocq Require Import Core IEEE754.BinarySingleNaN.
From Verif Require Import Base SymbolsModel SymbolsProps FloatModel FloatProps FloatSearch FloatSplineModel FloatSpline FloatDiffModel FloatDiff FloatOptModel.
Import ListNotations.
Open Scope R_scope.

Section Stop.
Variables (obj : point -> SymbolsModel.double) (grad : point -> point) (nrm : point -> SymbolsModel.double) (direction : point -> point) (step tol : SymbolsModel.double).
Notation loop := (f_loop grad nrm direction step tol). Notation optimize := (f_optimize obj grad nrm direction step tol).

Lemma loop_stop rem n x e : (n = 0%nat /\ e = d_max) \/ e = nrm (grad x) -> let '(x', n', e') := loop rem n x e in
  (n <= n' <= n + rem)%nat /\ ((n' = 0%nat /\ x' = x /\ e' = d_max) \/ e' = nrm (grad x')) /\ (n' = (n + rem)%nat \/ dlt tol e' = false).
Proof.
  revert n x e. induction rem as [|rem IH]; intros n x e H; cbn [f_loop].
  - split; [lia|]. split; [|lia]. destruct H as [[-> ->]| ->]; auto.
  - destruct (dlt tol e) eqn:E.
    + specialize (IH (S n) (f_move direction step x) (nrm (grad (f_move direction step x))) (or_intror eq_refl)). destruct (loop rem (S n) _ _) as [[x' n'] e']. destruct IH as (I1 & I2 & I3). split; [lia|]. split.
      * destruct I2 as [(I & _)|I]; [lia|auto].
      * destruct I3; [left; lia|auto].
    + split; [lia|]. split; [|auto]. destruct H as [[-> ->]| ->]; auto.
Qed.
(* C202: the search stops at max_iter, or when the norm of the gradient at the reported point is not above the tolerance; value() is the objective there *)
Theorem C202_stop max x0 : let r := optimize max x0 in
  f_value r = obj (f_optimum r) /\ (f_iter r <= max)%nat /\ ((f_iter r = 0%nat /\ f_optimum r = x0 /\ f_error r = d_max) \/ f_error r = nrm (grad (f_optimum r))) /\
  (f_iter r = max \/ dlt tol (f_error r) = false).
Proof.
  unfold f_optimize. assert (H := loop_stop max 0 x0 d_max (or_introl (conj eq_refl eq_refl))). destruct (loop max 0 x0 d_max) as [[x n] e]. cbn. destruct H as ((_ & H1) & H2 & H3). repeat split; auto.
Qed.
Lemma not_above (t e : SymbolsModel.double) : fin t = true -> dlt t e = false -> is_nan e = true \/ e = B754_infinity true \/ (fin e = true /\ B2 e <= B2 t).
Proof.
  intros Ft H. destruct e as [s|s| |s m z E]; auto.
  - right; right. split; [reflexivity|]. destruct (Rle_dec (B2 (B754_zero s)) (B2 t)) as [L|L]; auto. exfalso. assert (X : dlt t (B754_zero s) = true) by (apply dlt_fin; [auto|reflexivity|lra]). congruence.
  - destruct s; auto. exfalso. destruct t as [s'|s'| |s' m' z' E']; try discriminate; destruct s'; discriminate.
  - right; right. split; [reflexivity|]. destruct (Rle_dec (B2 (B754_finite s m z E)) (B2 t)) as [L|L]; auto. exfalso. assert (X : dlt t (B754_finite s m z E) = true) by (apply dlt_fin; [auto|reflexivity|lra]). congruence.
Qed.
(* C202: unless the norm of the gradient became NaN, an early return is a point where it does not exceed the tolerance *)
Theorem C202_converged_partial max x0 : (forall v, is_nan (nrm v) = true \/ dle d0 (nrm v) = true) -> fin tol = true -> dlt tol d_max = true -> let r := optimize max x0 in
  (f_iter r < max)%nat -> is_nan (nrm (grad (f_optimum r))) = false -> fin (nrm (grad (f_optimum r))) = true /\ B2 (nrm (grad (f_optimum r))) <= B2 tol.
Proof.
  intros Hn Ft Hm. cbv zeta. destruct (C202_stop max x0) as (_ & _ & H1 & H2). set (r := optimize max x0) in *. intros Hi HN. destruct H2 as [H2|H2]; [lia|].
  destruct H1 as [(_ & _ & E)|E]; [rewrite E in H2; congruence|]. rewrite E in H2. destruct (not_above _ _ Ft H2) as [X|[X|X]]; auto; [congruence|].
  exfalso. destruct (Hn (grad (f_optimum r))) as [Y|Y]; [congruence|]. rewrite X in Y. discriminate.
Qed.
End Stop.
Print Assumptions C202_stop.
Print Assumptions C202_converged_partial.

Lemma dlt_irrefl a : dlt a a = false.
Proof.
  destruct a as [s|[|]| |s m e H]; auto. destruct (dlt _ _) eqn:E; auto. apply dlt_fin in E; [lra|reflexivity|reflexivity].
Qed.
(* the error before the first iteration is the largest double, so that the loop is entered unless the tolerance is as large *)
Theorem C202_first : fin d_max = true /\ (forall a, fin a = true -> B2 a <= B2 d_max) /\
  forall obj grad nrm direction step max x0, f_iter (f_optimize obj grad nrm direction step d_max max x0) = 0%nat.
Proof.
  assert (D : B2 d_max = IZR 9007199254740991 * bpow radix2 971). { rewrite <- SF2R_B2SF. replace (B2SF d_max) with (SpecFloat.S754_finite false 9007199254740991 971) by (vm_compute; reflexivity). reflexivity. }
  split; [reflexivity|]. split.
  - intros a Fa. rewrite D. apply Rle_trans with (Rabs (B2 a)); [apply Rle_abs|].
    replace (IZR 9007199254740991 * bpow radix2 971) with (bpow radix2 1024 - bpow radix2 (1024 - 53)). 2:{ change 1024%Z with (53 + 971)%Z at 1. rewrite bpow_plus. change (1024 - 53)%Z with 971%Z. change (bpow radix2 53) with (IZR 9007199254740992). rewrite (minus_IZR 9007199254740992 1 : IZR 9007199254740991 = _). ring. }
    apply (abs_B2R_le_emax_minus_prec 53 1024 prec64 a).
  - intros. unfold f_optimize. destruct max; cbn [f_loop]; [reflexivity|]. rewrite (dlt_irrefl d_max). reflexivity.
Qed.
(* the directions: minus the gradient, minus the rounded quotient of the gradient and the second derivative *)
Theorem C202_directions grad hess x k : (B2 (f_descent grad x k) = - B2 (grad x k))%R /\
  (fin (ddiv (grad x k) (hess x)) = true -> fin (hess x) = true -> B2 (hess x) <> 0 -> Rabs (B2 (f_newton1 grad hess x k) + B2 (grad x k) / B2 (hess x)) <= u * Rabs (B2 (grad x k) / B2 (hess x)) + eta)%R.
Proof.
  split; [apply B2R_Bopp|]. intros Fd Fh Nh. unfold f_newton1. rewrite B2R_Bopp. destruct (ddiv_error _ _ Fd Fh Nh) as [_ D].
  replace (- B2 (ddiv (grad x k) (hess x)) + B2 (grad x k) / B2 (hess x)) with (- (B2 (ddiv (grad x k) (hess x)) - B2 (grad x k) / B2 (hess x))) by ring. now rewrite Rabs_Ropp.
Qed.
Print Assumptions C202_first.
(* ---- the quartic x^4 of one variable ---- *)
Definition quartic (x : point) : SymbolsModel.double := dmul (dmul (dmul (x 0%nat) (x 0%nat)) (x 0%nat)) (x 0%nat).
Definition quartic_grad (x : point) : point := fun _ => dmul (dmul (dmul (lit 4) (x 0%nat)) (x 0%nat)) (x 0%nat).
Definition quartic_hess (x : point) : SymbolsModel.double := dmul (dmul (lit 12) (x 0%nat)) (x 0%nat).
Definition norm1 (v : point) : SymbolsModel.double := @Bsqrt 53 1024 prec64 emax64 mode_NE (dmul (v 0%nat) (v 0%nat)).
Definition tenth : SymbolsModel.double := ddiv (lit 1) (lit 10).
Definition tol5 : SymbolsModel.double := ddiv (lit 1) (lit 100000).
Definition const1 (a : SymbolsModel.double) : point := fun _ => a.
(* the loop on functions of one variable, on numbers instead of points: evaluated once per step *)
Fixpoint loop1 (g nrm1 dir : SymbolsModel.double -> SymbolsModel.double) (step tol : SymbolsModel.double) (rem n : nat) (x e : SymbolsModel.double) : SymbolsModel.double * nat * SymbolsModel.double :=
  match rem with
  | O => (x, n, e)
  | S rem => if dlt tol e then let y := dadd x (dmul step (dir x)) in loop1 g nrm1 dir step tol rem (S n) y (nrm1 (g y)) else (x, n, e)
  end.
Lemma loop1_eq grad nrm dir step tol g nrm1 d : (forall a, grad (const1 a) = const1 (g a)) -> (forall a, nrm (const1 a) = nrm1 a) -> (forall a, dir (const1 a) = const1 (d a)) ->
  forall rem n a e, f_loop grad nrm dir step tol rem n (const1 a) e = let '(x, n, e) := loop1 g nrm1 d step tol rem n a e in (const1 x, n, e).
Proof.
  intros Hg Hn Hd. induction rem as [|rem IH]; intros n a e; cbn [f_loop loop1]; auto. destruct (dlt tol e); auto.
  replace (f_move dir step (const1 a)) with (const1 (dadd a (dmul step (d a)))) by (unfold f_move; rewrite Hd; reflexivity). rewrite Hg, Hn. apply IH.
Qed.
Definition qg (a : SymbolsModel.double) := dmul (dmul (dmul (lit 4) a) a) a.
Definition n1 (a : SymbolsModel.double) : SymbolsModel.double := @Bsqrt 53 1024 prec64 emax64 mode_NE (dmul a a).
Lemma descent1 step tol max a : f_optimize quartic quartic_grad norm1 (f_descent quartic_grad) step tol max (const1 a) =
  let '(x, n, e) := loop1 qg n1 (fun a => Bopp (qg a)) step tol max 0 a d_max in FReport (const1 x) (quartic (const1 x)) n e.
Proof.
  unfold f_optimize. rewrite (loop1_eq quartic_grad norm1 (f_descent quartic_grad) step tol qg n1 (fun a => Bopp (qg a))); try reflexivity. destruct (loop1 _ _ _ _ _ _ _ _ _) as [[x n] e]. reflexivity.
Qed.
(* C202 refuted: gradient descent with step 0.1 from 10 overflows, and stops before max_iter as if it had converged, at NaN *)
Theorem C202_descent_refuted : let r := f_optimize quartic quartic_grad norm1 (f_descent quartic_grad) tenth tol5 500 (const1 (lit 10)) in
  (f_iter r < 10)%nat /\ is_nan (f_optimum r 0%nat) = true /\ is_nan (f_value r) = true.
Proof.
  cbv zeta. rewrite descent1. set (l := loop1 _ _ _ _ _ _ _ _ _). assert (E : (let '(x, n, _) := l in is_nan x && is_nan (quartic (const1 x)) && (n <? 10)%nat) = true) by (vm_compute; reflexivity).
  destruct l as [[x n] e]. cbn [f_iter f_optimum f_value]. apply andb_prop in E. destruct E as [E E3]. apply andb_prop in E. destruct E as [E1 E2]. apply Nat.ltb_lt in E3. auto.
Qed.
(* C202 refuted: Newton's method started at the minimum itself, where the second derivative vanishes, leaves it for NaN *)
Theorem C202_newton_refuted : B2 (quartic_grad (const1 (lit 0)) 0%nat) = 0 /\ let r := f_optimize quartic quartic_grad norm1 (f_newton1 quartic_grad quartic_hess) (lit 1) tol5 500 (const1 (lit 0)) in
  f_iter r = 1%nat /\ is_nan (f_optimum r 0%nat) = true.
Proof. split; [apply deq_fin; vm_compute; reflexivity|]. cbv zeta. split; vm_compute; reflexivity. Qed.
Print Assumptions C202_descent_refuted.
Print Assumptions C202_newton_refuted.
(* the same function from 1, where the method converges *)
Example C202_example : let r := f_optimize quartic quartic_grad norm1 (f_descent quartic_grad) tenth tenth 50 (const1 (lit 1)) in (0 < f_iter r < 50)%nat /\ is_nan (norm1 (quartic_grad (f_optimum r))) = false.
Proof.
  cbv zeta. rewrite descent1. set (l := loop1 _ _ _ _ _ _ _ _ _). assert (E : (let '(x, n, _) := l in negb (is_nan (n1 (qg x))) && (0 <? n)%nat && (n <? 50)%nat) = true) by (vm_compute; reflexivity).
  destruct l as [[x n] e]. cbn [f_iter f_optimum] in *. apply andb_prop in E. destruct E as [E E3]. apply andb_prop in E. destruct E as [E1 E2]. apply Nat.ltb_lt in E2. apply Nat.ltb_lt in E3. split; [lia|]. now destruct (is_nan (n1 (qg x))) eqn:K.
Qed.

(* ---- Grid ---- *)
Lemma dlt_trans a b c : dlt a b = true -> dlt b c = true -> dlt a c = true.
Proof.
  intros H1 H2. destruct (fin a) eqn:Fa, (fin b) eqn:Fb, (fin c) eqn:Fc.
  - apply dlt_fin in H1; auto. apply dlt_fin in H2; auto. apply dlt_fin; auto. lra.
  - destruct c as [?|[|]| |?]; try discriminate; destruct b as [?|?| |[|] ? ? ?]; try discriminate; destruct a as [?|?| |[|] ? ? ?]; try discriminate; reflexivity.
  - destruct b as [?|[|]| |?]; try discriminate; [destruct a as [?|?| |[|] ? ? ?]; discriminate|destruct c as [?|?| |[|] ? ? ?]; discriminate].
  - destruct b as [?|[|]| |?], c as [?|[|]| |?]; try discriminate; destruct a as [?|?| |[|] ? ? ?]; discriminate.
  - destruct a as [?|[|]| |?]; try discriminate; [|destruct b as [?|?| |[|] ? ? ?]; discriminate]. destruct c as [?|?| |[|] ? ? ?]; try discriminate; reflexivity.
  - destruct a as [?|[|]| |?]; try discriminate; [|destruct b as [?|?| |[|] ? ? ?]; discriminate]. destruct c as [?|[|]| |?]; try discriminate; try reflexivity; destruct b as [?|?| |[|] ? ? ?]; discriminate.
  - destruct a as [?|[|]| |?], b as [?|[|]| |?]; try discriminate; destruct c as [?|?| |[|] ? ? ?]; discriminate.
  - destruct a as [?|[|]| |?], b as [?|[|]| |?], c as [?|[|]| |?]; discriminate || reflexivity.
Qed.
Lemma dlt_nan a b : dlt a b = true -> is_nan a = false /\ is_nan b = false.
Proof. destruct a as [?|[|]| |[|] ? ? ?], b as [?|[|]| |[|] ? ? ?]; try discriminate; split; reflexivity. Qed.
Section Search.
Variables (V : Type) (obj : V -> SymbolsModel.double).
(* x is the first row of the grid whose value no other value is below; rows with NaN are passed over *)
Definition first_min (l : list V) (x : V) : Prop :=
  is_nan (obj x) = false /\ exists l1 l2, l = l1 ++ x :: l2 /\ (forall y, In y l1 -> is_nan (obj y) = true \/ dlt (obj x) (obj y) = true) /\ (forall y, In y l2 -> dlt (obj y) (obj x) = false).
Lemma first_min_snoc l x y : first_min l x -> first_min (l ++ [y]) (if dlt (obj y) (obj x) then y else x).
Proof.
  intros (Nx & l1 & l2 & -> & H1 & H2). destruct (dlt (obj y) (obj x)) eqn:E.
  - split; [now apply dlt_nan in E|]. exists (l1 ++ x :: l2), []. split; auto. split; [|intros z []]. intros z Hz. apply in_app_iff in Hz. destruct Hz as [Hz|[<-|Hz]]; auto.
    + destruct (H1 z Hz) as [K|K]; auto. right. now apply dlt_trans with (obj x).
    + (* z was not below x, y is below x *)
      specialize (H2 z Hz). destruct (is_nan (obj z)) eqn:Nz; auto. right. destruct (dlt (obj y) (obj z)) eqn:K; auto. exfalso. revert E H2 Nz K. clear. intros E H2 Nz K.
      destruct (dlt_nan _ _ E) as [Ny Nx]. destruct (fin (obj x)) eqn:Fx, (fin (obj y)) eqn:Fy, (fin (obj z)) eqn:Fz;
      try (apply dlt_fin in E; auto; assert (~ B2 (obj y) < B2 (obj z)) by (rewrite <- dlt_fin by auto; congruence); assert (~ B2 (obj z) < B2 (obj x)) by (rewrite <- dlt_fin by auto; congruence); lra);
      destruct (obj x) as [?|[|]| |[|] ? ? ?], (obj y) as [?|[|]| |[|] ? ? ?], (obj z) as [?|[|]| |[|] ? ? ?]; cbn in *; discriminate.
  - split; auto. exists l1, (l2 ++ [y]). rewrite <- app_assoc. split; auto. split; auto. intros z Hz. apply in_app_iff in Hz. destruct Hz as [Hz|[<-|[]]]; auto.
Qed.
Lemma grid_loop_min rows : forall l x, first_min l x -> let '(o, v) := f_grid_loop V obj rows (obj x) x in v = obj o /\ first_min (l ++ rows) o.
Proof.
  induction rows as [|y rows IH]; intros l x H; cbn [f_grid_loop]; [rewrite app_nil_r; auto|]. assert (S := first_min_snoc l x y H). replace (l ++ y :: rows) with ((l ++ [y]) ++ rows) by now rewrite <- app_assoc.
  destruct (dlt (obj y) (obj x)); now apply IH.
Qed.
(* C203: if the objective is not NaN at the first row, Grid finds the first minimum over the rows where it is not NaN *)
Theorem C203_grid_partial x rows : is_nan (obj x) = false -> exists o, f_grid V obj (x :: rows) = Ok (o, obj o) /\ first_min (x :: rows) o.
Proof.
  intros H. cbn [f_grid]. assert (F : first_min [x] x) by (split; auto; exists [], []; split; [auto|split; intros y []]). assert (G := grid_loop_min rows [x] x F). destruct (f_grid_loop V obj rows (obj x) x) as [o v]. destruct G as [-> G]. exists o. auto.
Qed.
(* C203 refuted: if it is NaN there, the first row is returned whatever the values at the others *)
Theorem C203_grid_refuted x rows : is_nan (obj x) = true -> f_grid V obj (x :: rows) = Ok (x, obj x).
Proof.
  intros H. cbn [f_grid]. f_equal. destruct (obj x); try discriminate. induction rows as [|y rows IH]; cbn [f_grid_loop]; auto. replace (dlt (obj y) B754_nan) with false; auto. destruct (obj y) as [?|[|]| |[|] ? ? ?]; reflexivity.
Qed.
End Search.
Print Assumptions C203_grid_partial.
Print Assumptions C203_grid_refuted.
(* 0/0 at the first point, then 3, 1, NaN, 1, 2 *)
Example C203_example : let v := [lit 3; lit 1; B754_nan; lit 1; lit 2] in let f i := nth i v d0 in
  is_nan (f 0%nat) = false /\ (match f_grid nat f [0; 1; 2; 3; 4]%nat with Ok (i, w) => (i =? 1)%nat && deq w (lit 1) | _ => false end) = true /\
  is_nan (f 2%nat) = true /\ (match f_grid nat f [2; 0; 1]%nat with Ok (i, w) => (i =? 2)%nat && is_nan w | _ => false end) = true.
Proof. cbv zeta. repeat split; vm_compute; reflexivity. Qed.
