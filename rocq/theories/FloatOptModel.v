(* Model of optimization/grid.h:46-66, gradient_descent.h:62-90 and newton.h:63-96 in IEEE 754 double arithmetic, without callbacks and
   without a stopping criterion of the objective.  The objective, its gradient, the computed norm of a vector and, for Newton, the solution
   of the linear system are functions on doubles given as parameters: nothing is assumed of them. *)
From Coq Require Import ZArith List.
From Flocq Require Import Core IEEE754.BinarySingleNaN.
From Verif Require Import Base SymbolsModel FloatModel FloatSplineModel FloatDiffModel.
Import ListNotations.

(* std::numeric_limits<double>::max(), gradient_descent.h:67, newton.h:68: (2^53 - 1) 2^971 *)
Definition d_max : double := @binary_normalize 53 1024 prec64 emax64 mode_NE 9007199254740991 971 false.

Section Methods.
Variables (obj : point -> double) (grad : point -> point) (nrm : point -> double).
Variable direction : point -> point.      (* update: -grad_old for gradient_descent.h:75, -inv_hessian.solve(grad_old) for newton.h:77-81 *)
Variables (step tol : double).
(* x_new = x_old + h * update, gradient_descent.h:78, newton.h:84 *)
Definition f_move (x : point) : point := fun k => dadd (x k) (dmul step (direction x k)).
(* while (n_iter_ < max_iter_ && error > tol_ && !stop), gradient_descent.h:74-86, newton.h:74-92; rem: max_iter_ - n_iter_ *)
Fixpoint f_loop (rem n : nat) (x : point) (error : double) : point * nat * double :=
  match rem with
  | O => (x, n, error)
  | S rem => if dlt tol error then f_loop rem (S n) (f_move x) (nrm (grad (f_move x))) else (x, n, error)
  end.
(* optimum_, value_, n_iter_ and the last error, gradient_descent.h:67-89, newton.h:68-95 *)
Record f_report := FReport { f_optimum : point; f_value : double; f_iter : nat; f_error : double }.
Definition f_optimize (max_iter : nat) (x0 : point) : f_report :=
  let '(x, n, e) := f_loop max_iter 0 x0 d_max in FReport x (obj x) n e.
End Methods.
(* gradient_descent.h:75 *)
Definition f_descent (grad : point -> point) (x : point) : point := fun k => Bopp (grad x k).
(* newton.h:77-81 for a function of one variable: the factorisation of a 1 x 1 matrix is the entry itself, its solution a division *)
Definition f_newton1 (grad : point -> point) (hess : point -> double) (x : point) : point := fun k => Bopp (ddiv (grad x k) (hess x)).

(* grid.h:46-66, on the rows of the grid *)
Section FGrid.
Variables (V : Type) (obj : V -> double).
Fixpoint f_grid_loop (rows : list V) (value : double) (optimum : V) : V * double :=
  match rows with
  | [] => (optimum, value)
  | x :: rows => if dlt (obj x) value then f_grid_loop rows (obj x) x else f_grid_loop rows value optimum
  end.
Definition f_grid (grid : list V) : Res (V * double) :=
  match grid with [] => UB | x :: rows => Ok (f_grid_loop rows (obj x) x) end.
End FGrid.
