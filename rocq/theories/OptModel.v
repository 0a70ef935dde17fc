(* Model of fdaPDE/optimization: grid.h, gradient_descent.h, newton.h, bfgs.h, callbacks/*.h.
   double is R; VectorType is vec (SimplexModel).  The objective, its gradient, its Hessian and Eigen's LU
   solve are pure functions given as parameters.  C++ `/` by zero (infinities, NaN) is not modelled: the
   theorems that divide assume a non-zero divisor. *)
From Verif Require Export SimplexModel.

(* ---- callbacks.h ---- *)
(* W: everything a hook can read and write, i.e. the public members of the optimizer, the objective and the
   callback's own members.  None: the callback type has no such method (has_pre_update_step is false). *)
(* callbacks.h:25-55 *)
Record callback (W : Type) := Callback { pre_hook : option (W -> W * bool); post_hook : option (W -> W * bool) }.
Arguments pre_hook {W}. Arguments post_hook {W}. Arguments Callback {W}.
(* 30-40 and 42-52: the fold over the tuple, `b |= callback.hook(...)` *)
Definition exec_hook {W} (st : W * bool) (h : option (W -> W * bool)) : W * bool :=
  match h with None => st | Some f => let '(w', r) := f (fst st) in (w', orb (snd st) r) end.
Definition execute_pre {W} (cbs : list (callback W)) (w : W) : W * bool := fold_left exec_hook (map pre_hook cbs) (w, false).
Definition execute_post {W} (cbs : list (callback W)) (w : W) : W * bool := fold_left exec_hook (map post_hook cbs) (w, false).
(* 54-61; None: the objective has no opt_stopping_criterion *)
Definition execute_criterion {W} (crit : option (W -> W * bool)) (w : W) : W * bool := exec_hook (w, false) crit.

(* ---- the public members of GradientDescent, Newton and BFGS (lines 41-43) ---- *)
Record pub := Pub { x_old : vec; x_new : vec; update : vec; grad_old : vec; grad_new : vec;
                    hess_ : nat -> nat -> R; inv_hess : nat -> nat -> R; h_ : R }.
Definition set_update (p : pub) (u : vec) : pub := Pub (x_old p) (x_new p) u (grad_old p) (grad_new p) (hess_ p) (inv_hess p) (h_ p).
Definition set_new (p : pub) (x g : vec) : pub := Pub (x_old p) x (update p) (grad_old p) g (hess_ p) (inv_hess p) (h_ p).
Definition set_h (p : pub) (h : R) : pub := Pub (x_old p) (x_new p) (update p) (grad_old p) (grad_new p) (hess_ p) (inv_hess p) h.
Definition set_old (p : pub) (g : vec) (H : nat -> nat -> R) : pub := Pub (x_old p) (x_new p) (update p) g (grad_new p) H (inv_hess p) (h_ p).
Definition set_inv (p : pub) (B : nat -> nat -> R) : pub := Pub (x_old p) (x_new p) (update p) (grad_old p) (grad_new p) (hess_ p) B (h_ p).
(* x_old = x_new; grad_old = grad_new; [gradient_descent.h:83-84] *)
Definition shift (p : pub) : pub := Pub (x_new p) (x_new p) (update p) (grad_new p) (grad_new p) (hess_ p) (inv_hess p) (h_ p).

Section Optimizers.
Variable N : nat.
Variable M : Type.                                 (* memory of the callbacks and of the objective *)
Variables (obj : vec -> R) (grad : vec -> vec).
Variable cbs : list (callback (pub * M)).
Variable crit : option (pub * M -> (pub * M) * bool).
Variables (max_iter : nat) (tol : R).              (* a negative max_iter behaves as 0 *)

Definition on_pub (f : pub -> pub) (w : pub * M) : pub * M := (f (fst w), snd w).
(* x_new = x_old + h * update; grad_new = grad(x_new); [gradient_descent.h:78-79] *)
Definition move (p : pub) : pub := let x := vadd (x_old p) (vscale (h_ p) (update p)) in set_new p x (grad x).

(* outcome of one pass through the loop body [gradient_descent.h:74-86] *)
Inductive pass := Next (w : pub * M) (error : R) (stop : bool) | Return (w : pub * M).
(* the part of the body common to the three methods: lines 82-85 of gradient_descent.h, 88-91 of newton.h,
   111-114 of bfgs.h *)
Definition finish (w : pub * M) (error : R) (stop : bool) : pass :=
  let '(w1, b1) := execute_post cbs w in
  let '(w2, b2) := if b1 then (w1, true) else execute_criterion crit w1 in
  Next (on_pub shift w2) error (stop || b2).
(* gradient_descent.h 75-85 *)
Definition gd_body (w : pub * M) : pass :=
  let w1 := on_pub (fun p => set_update p (vscale (-1) (grad_old p))) w in
  let '(w2, b) := execute_pre cbs w1 in
  let w3 := on_pub move w2 in
  finish w3 (norm N (grad_new (fst w3))) b.
(* newton.h 76-91; solve H g stands for inv_hessian.compute(H), inv_hessian.solve(g) *)
Variable hess : vec -> nat -> nat -> R.
Variable solve : (nat -> nat -> R) -> vec -> vec.
Definition newton_body (w : pub * M) : pass :=
  let w1 := on_pub (fun p => let p1 := set_old p (grad (x_old p)) (hess (x_old p)) in
                             set_update p1 (vscale (-1) (solve (hess_ p1) (grad_old p1)))) w in
  let '(w2, b) := execute_pre cbs w1 in
  let w3 := on_pub move w2 in
  finish w3 (norm N (grad_new (fst w3))) b.
(* bfgs.h 101-108 *)
Definition mulv (B : nat -> nat -> R) (v : vec) : vec := fun i => rsum N (fun j => B i j * v j).
Definition bfgs_update (B : nat -> nat -> R) (dx dg : vec) : nat -> nat -> R := fun i j =>
  let xg := dot N dx dg in
  let hx := mulv B dg in
  B i j + ((1 + dot N dg hx / xg) * (dx i * dx j / xg) - (hx i * dx j + dx i * hx j) / xg).
(* isApprox(zero): |v|^2 <= prec^2 * min(|v|^2, 0), i.e. v is exactly zero *)
Definition is_zero (v : vec) : bool := eqb_ (dot N v v) 0.
(* bfgs.h 89-114 *)
Definition bfgs_body (w : pub * M) : pass :=
  let w1 := on_pub (fun p => set_update p (vscale (-1) (mulv (inv_hess p) (grad_old p)))) w in
  let '(w2, b) := execute_pre cbs w1 in
  let w3 := on_pub move w2 in
  if is_zero (grad_new (fst w3)) then Return w3
  else
    let w4 := on_pub (fun p => set_inv p (bfgs_update (inv_hess p) (vsub (x_new p) (x_old p)) (vsub (grad_new p) (grad_old p)))) w3 in
    finish w4 (norm N (grad_new (fst w4))) b.

(* while (n_iter_ < max_iter_ && error > tol_ && !stop): rem = max_iter_ - n_iter_, error None is the initial
   numeric_limits::max().  Returns the final state, n_iter_, the last error and stop flag. *)
(* gradient_descent.h:74-86 *)
Fixpoint loop (body : pub * M -> pass) (rem : nat) (n : nat) (w : pub * M) (error : option R) (stop : bool)
  : (pub * M) * nat * option R * bool :=
  match rem with
  | O => (w, n, error, stop)
  | S rem' =>
      if (match error with None => true | Some e => ltb tol e end) && negb stop then
        match body w with
        | Next w' e s => loop body rem' (S n) w' (Some e) s
        | Return w' => (w', n, error, stop)
        end
      else (w, n, error, stop)
  end.
(* optimum_ = x_old; value_ = obj(optimum_) [gradient_descent.h:87-89] *)
Record report := Report { optimum : vec; value : R; n_iter : nat; last_error : option R; stopped : bool }.
(* gradient_descent.h:87-89 *)
Definition close (r : (pub * M) * nat * option R * bool) : report :=
  let '(w, n, e, s) := r in Report (x_old (fst w)) (obj (x_old (fst w))) n e s.
Variables (w0 : pub) (step : R) (m0 : M).   (* w0: members left by previous calls or default initialised *)
Definition start (x0 : vec) : pub := Pub x0 x0 (update w0) (grad_old w0) (grad_new w0) (hess_ w0) (inv_hess w0) step.
(* gradient_descent.h 62-90 *)
Definition gradient_descent (x0 : vec) : report :=
  close (loop gd_body max_iter 0 (set_old (start x0) (grad x0) (hess_ w0), m0) None false).
(* newton.h 63-96 *)
Definition newton (x0 : vec) : report := close (loop newton_body max_iter 0 (start x0, m0) None false).
(* bfgs.h 62-119 *)
Definition identity (i j : nat) : R := if Nat.eqb i j then 1 else 0.
Definition bfgs (x0 : vec) : report :=
  let p := set_old (set_inv (start x0) identity) (grad x0) (hess_ w0) in
  if is_zero (grad_old p) then Report x0 (obj x0) 0 None false
  else close (loop bfgs_body max_iter 0 (p, m0) (Some (norm N (grad_old p))) false).
End Optimizers.
Arguments Next {M}. Arguments Return {M}.

(* ---- grid.h 46-67; the world is x_current and the callbacks' memory ---- *)
Section GridSearch.
Variables (V M : Type) (objective : V -> R) (cbs : list (callback (V * M))).
Fixpoint grid_loop (rows : list V) (m : M) (value_ : R) (optimum_ : V) (stop : bool) : V * R :=
  match rows with
  | [] => (optimum_, value_)
  | x :: rest =>
      if stop then (optimum_, value_)
      else
        let v := objective x in
        let '((x', m'), b) := execute_post cbs (x, m) in
        if ltb v value_ then grid_loop rest m' v x' b else grid_loop rest m' value_ optimum_ b
  end.
Definition grid_optimize (grid : list V) (m : M) : Res (V * R) :=
  match grid with
  | [] => UB                                      (* grid.row(0) of an empty grid *)
  | x :: rest => Ok (grid_loop rest m (objective x) x false)
  end.
End GridSearch.

(* ---- backtracking_line_search.h 37-48; phi alpha = obj(x_old + alpha * update), m = grad_old . update ---- *)
Section LineSearch.
Variables (phi : R -> R) (m : R).
Fixpoint backtrack (fuel : nat) (beta gamma alpha : R) : Res R :=
  match fuel with
  | O => OutOfFuel
  | S f => if ltb (phi 0 - phi alpha + gamma * alpha * m) 0 then backtrack f beta gamma (alpha * beta) else Ok alpha
  end.
Definition backtracking (fuel : nat) (alpha beta gamma : R) : Res R :=
  if ltb m 0 then backtrack fuel beta gamma alpha else Ok alpha.

(* wolfe_line_search.h 38-61; dphi alpha = obj.derive()(x_old + alpha * update) . update; amax None is infinity *)
Variable dphi : R -> R.
Variables (c1 c2 : R).
Record bracket := Bracket { w_alpha : R; w_min : R; w_max : option R }.
(* one pass of the while loop; None: stop = true [wolfe_line_search.h:48-57] *)
Definition wolfe_step (s : bracket) : option bracket :=
  let alpha := w_alpha s in
  if ltb (phi 0 - phi alpha + c1 * alpha * m) 0 then Some (Bracket ((w_min s + alpha) * (1 / 2)) (w_min s) (Some alpha))
  else if ltb (dphi alpha) (c2 * m) then
    Some (Bracket (match w_max s with None => 2 * alpha | Some b => (alpha + b) * (1 / 2) end) alpha (w_max s))
  else None.
(* wolfe_line_search.h:40-58 *)
Fixpoint wolfe_loop (fuel : nat) (s : bracket) : Res R :=
  match fuel with
  | O => OutOfFuel
  | S f => match wolfe_step s with None => Ok (w_alpha s) | Some s' => wolfe_loop f s' end
  end.
(* wolfe_line_search.h:40-58 *)
Definition wolfe (fuel : nat) (alpha : R) : Res R := wolfe_loop fuel (Bracket alpha 0 None).
End LineSearch.

(* the two line searches as callbacks: they set opt.h and never ask to stop.  A search that does not return
   within the fuel leaves the state alone; theorems using the hooks show that this does not happen. *)
(* backtracking_line_search.h:41, wolfe_line_search.h:48 *)
Definition ray (x u : vec) (alpha : R) : vec := vadd x (vscale alpha u).
(* callbacks.h:33-38 *)
Definition line_search (M : Type) (search : pub -> Res R) : callback (pub * M) :=
  Callback (Some (fun w => match search (fst w) with Ok a => ((set_h (fst w) a, snd w), false) | _ => (w, false) end)) None.
(* backtracking_line_search.h:37-48 *)
Definition backtracking_search (N : nat) (obj : vec -> R) (fuel : nat) (alpha beta gamma : R) (p : pub) : Res R :=
  backtracking (fun a => obj (ray (x_old p) (update p) a)) (dot N (grad_old p) (update p)) fuel alpha beta gamma.
(* wolfe_line_search.h:38-61 *)
Definition wolfe_search (N : nat) (obj : vec -> R) (grad : vec -> vec) (fuel : nat) (alpha c1 c2 : R) (p : pub) : Res R :=
  wolfe (fun a => obj (ray (x_old p) (update p) a)) (dot N (grad_old p) (update p))
        (fun a => dot N (grad (ray (x_old p) (update p) a)) (update p)) c1 c2 fuel alpha.
