(* Model of the elliptic finite element solver in IEEE 754 double arithmetic: finite_elements/solvers/fem_solver_base.h:105-155,
   fem_linear_elliptic_solver.h:33-50 and pde/pde.h:101-105.  The matrix is f_operator of FloatOperModel, the forcing vector f_forcing of
   FloatLoadModel; factorisation and solution by Eigen::SparseLU are an arbitrary function of the matrix and the right hand side. *)
From Coq Require Import ZArith List Bool.
From Flocq Require Import Core IEEE754.BinarySingleNaN.
From Verif Require Export FloatOperModel.
From Verif Require Import Base FloatLoadModel SymbolsModel FloatModel FloatSplineModel FloatDiffModel FloatStepModel.

(* stiff_ after set_dirichlet_bc; bc tells whether boundary data were given [pde.h:103, fem_solver_base.h:147-149] *)
Definition f_dirichlet_matrix (bc : bool) (bdy : nat -> bool) (A : nat -> nat -> double) (r s : nat) : double :=
  if bc && f_visited bdy r then (if (r =? s)%nat then d1 else dmul (A r s) d0) else A r s.
(* force_ after set_dirichlet_bc [fem_solver_base.h:152] *)
Definition f_dirichlet_force (bc : bool) (bdy : nat -> bool) (F b : nat -> double) (r : nat) : double := if bc && f_visited bdy r then b r else F r.
(* init, then solve: solution_ [fem_solver_base.h:105-133, fem_linear_elliptic_solver.h:38-46] *)
Definition f_elliptic (lu : (nat -> nat -> double) -> (nat -> double) -> nat -> double) (bc : bool) (bdy : nat -> bool) (b : nat -> double)
  (left : bool) (d nb n : nat) (w : nat -> double) (g : nat -> nat -> nat -> double) (phi : nat -> nat -> double) (op : f_op) (v : nat -> double) (mesh : list mesh_cell) : nat -> double :=
  lu (f_dirichlet_matrix bc bdy (f_operator left d nb n w g phi op mesh)) (f_dirichlet_force bc bdy (f_forcing d nb n w phi v mesh) b).
