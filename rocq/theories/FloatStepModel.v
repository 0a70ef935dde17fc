(* Model of the time loop of finite_elements/solvers/fem_linear_parabolic_solver.h:37-72 in IEEE 754 double arithmetic.  The mass and stiffness
   matrices, the forcing and boundary data are given; the factorisation and solution by Eigen::SparseLU are an arbitrary function of the system
   matrix and the right hand side.  Matrices are functions of row and column, entries that are not stored are zero: adding or multiplying them
   does not change the value of finite results. *)
From Coq Require Import ZArith List Bool.
From Flocq Require Import Core IEEE754.BinarySingleNaN.
From Verif Require Import Base SymbolsModel FloatModel FloatSplineModel FloatDiffModel.

(* degrees of freedom visited by boundary_dofs_begin() .. boundary_dofs_end(): the first one always, then those on the boundary
   [fem_solver_base.h:67-87] *)
Definition f_visited (bdy : nat -> bool) (r : nat) : bool := (r =? 0)%nat || bdy r.
(* mass_ / deltaT_ + stiff_, then K.row(i) *= 0 and K.coeffRef(i, i) = 1 for the visited ones [fem_linear_parabolic_solver.h:49-54] *)
Definition f_step_matrix (bdy : nat -> bool) (M A : nat -> nat -> double) (dt : double) (r s : nat) : double :=
  let K := dadd (ddiv (M r s) dt) (A r s) in if f_visited bdy r then (if (r =? s)%nat then d1 else dmul K d0) else K.
(* (mass_ / deltaT_) * solution_.col(i) + force_.block(n * (i + 1), 0, n, 1), then the boundary values; the product adds the columns in order
   [fem_linear_parabolic_solver.h:63-67] *)
Definition f_step_rhs (n : nat) (bdy : nat -> bool) (M : nat -> nat -> double) (dt : double) (v f b : nat -> double) (r : nat) : double :=
  if f_visited bdy r then b r else dadd (fsum n (fun s => dmul (ddiv (M r s) dt) (v s))) (f r).
(* column i of solution_; force.(n * i + r), boundary data b r i, deltaT_ = time_domain()[1] - time_domain()[0]
   [fem_linear_parabolic_solver.h:42, 47, 62-69] *)
Fixpoint f_columns (lu : (nat -> nat -> double) -> (nat -> double) -> nat -> double) (n : nat) (bdy : nat -> bool) (M A : nat -> nat -> double)
  (t0 t1 : double) (u0 : nat -> double) (force : nat -> double) (b : nat -> nat -> double) (i : nat) : nat -> double :=
  match i with
  | O => u0
  | S k => lu (f_step_matrix bdy M A (dsub t1 t0)) (f_step_rhs n bdy M (dsub t1 t0) (f_columns lu n bdy M A t0 t1 u0 force b k) (fun r => force (n * S k + r)%nat) (fun r => b r (S k)))
  end.
