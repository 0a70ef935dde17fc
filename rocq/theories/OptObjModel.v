(* Model of the optimizer objects of gradient_descent.h:27-93, newton.h:28-100 and bfgs.h:27-123: which members construction, copy,
   assignment and optimize() set.  What one call of optimize() computes is the loop of OptModel. *)
From Coq Require Import Reals List Bool.
From Verif Require Export OptModel.
From Verif Require Import Base.
Import ListNotations.
Open Scope R_scope.

(* the three classes *)
Inductive method := GD | NW | BF.
Section Objects.
Variables (N : nat) (M : Type).                (* M: the data members of the callbacks held in callbacks_ *)
Variable cbs : list (callback (pub * M)).      (* the types Args...: their methods *)
Variable solve : (nat -> nat -> R) -> vec -> vec.
(* what optimize() is given: the functor, its derivatives and its stopping criterion if any *)
Record objective := Objective { f_val : vec -> R; f_grad : vec -> vec; f_hess : vec -> nat -> nat -> R; f_crit : option (pub * M -> (pub * M) * bool) }.

(* gradient_descent.h:31-44, newton.h:32-44, bfgs.h:31-42.  optimum_ and value_ have no initialiser: None is an indeterminate value.
   The public members are indeterminate too: any values stand for them *)
Record optimizer := Obj { o_max : nat; o_tol : R; o_step : R; o_mem : M; o_pub : pub; o_optimum : option vec; o_value : option R; o_iter : nat }.
(* the constructors with parameters, gradient_descent.h:48-50, newton.h:48-51, bfgs.h:46-49 *)
Definition construct (junk : pub) (max : nat) (tol step : R) (mem : M) : optimizer := Obj max tol step mem junk None None 0.
(* the copy constructor, gradient_descent.h:52-53, newton.h:53-54, bfgs.h:51-52 *)
Definition copy (junk : pub) (other : optimizer) : optimizer := Obj (o_max other) (o_tol other) (o_step other) (o_mem other) junk None None 0.
(* operator=, gradient_descent.h:54-60, newton.h:55-61, bfgs.h:53-59 *)
Definition assign (self other : optimizer) : optimizer :=
  Obj (o_max other) (o_tol other) (o_step other) (o_mem other) (o_pub self) (o_optimum self) (o_value self) (o_iter self).
(* gradient_descent.h:62-90, newton.h:63-96, bfgs.h:61-119 *)
Definition optimize (k : method) (self : optimizer) (f : objective) (x0 : vec) : optimizer :=
  let p := start (o_pub self) (o_step self) x0 in
  let run body p e := loop M (o_tol self) body (o_max self) 0 (p, o_mem self) e false in
  let '(w, n, _, _) :=
    match k with
    | GD => run (gd_body N M (f_grad f) cbs (f_crit f)) (set_old p (f_grad f x0) (hess_ (o_pub self))) None
    | NW => run (newton_body N M (f_grad f) cbs (f_crit f) (f_hess f) solve) p None
    | BF =>
        let p := set_old (set_inv p identity) (f_grad f x0) (hess_ (o_pub self)) in
        if is_zero N (grad_old p) then ((p, o_mem self), 0%nat, None, false)
        else run (bfgs_body N M (f_grad f) cbs (f_crit f)) p (Some (norm N (grad_old p)))
    end in
  Obj (o_max self) (o_tol self) (o_step self) (snd w) (fst w) (Some (x_old (fst w))) (Some (f_val f (x_old (fst w)))) n.
(* gradient_descent.h:91-93; reading an indeterminate member is undefined *)
Definition get_optimum (self : optimizer) : Res vec := match o_optimum self with Some x => Ok x | None => UB end.
Definition get_value (self : optimizer) : Res R := match o_value self with Some x => Ok x | None => UB end.

(* a program using optimizers of one class, created in the order of their numbers: gradient_descent.h:47-90; junk i: the indeterminate
   members of the i-th object *)
Inductive op := New (max : nat) (tol step : R) (mem : M) | Copy (i : nat) | Assign (i j : nat) | Optimize (i : nat) (f : objective) (x0 : vec).
Variable junk : nat -> pub.
Definition step (k : method) (s : list optimizer) (o : op) : Res (list optimizer) :=
  match o with
  | New max tol st mem => Ok (s ++ [construct (junk (length s)) max tol st mem])
  | Copy i => x <- nth_res s i ;; Ok (s ++ [copy (junk (length s)) x])
  | Assign i j => x <- nth_res s i ;; y <- nth_res s j ;; Ok (upd s i (assign x y))
  | Optimize i f x0 => x <- nth_res s i ;; Ok (upd s i (optimize k x f x0))
  end.
Definition exec (k : method) (ops : list op) : Res (list optimizer) := foldM (step k) ops [].
End Objects.
