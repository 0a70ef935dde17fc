(* Model of the parabolic finite element solver in IEEE 754 double arithmetic, from the assembly to the last time step: pde/pde.h:101-105,
   finite_elements/solvers/fem_solver_base.h:105-155, fem_linear_parabolic_solver.h:37-72.  Boundary data are given (without them the code reads
   outside the matrix, C79).  The values of the forcing term at the nodes are v time node. *)
From Coq Require Import ZArith List Bool.
From Flocq Require Import Core IEEE754.BinarySingleNaN.
From Verif Require Export FloatGalerkinModel.
From Verif Require Import Base FloatLoadModel FloatMassModel SymbolsModel FloatModel FloatSplineModel FloatDiffModel FloatStepModel.

(* mass_ = discretize_operator(Reaction(1.0)) [fem_solver_base.h:133] *)
Definition f_mass (d nb n : nat) (w : nat -> double) (phi : nat -> nat -> double) (mesh : list mesh_cell) : nat -> nat -> double := f_reaction_matrix d nb n w phi (fun _ => d1) mesh.
(* force_: block i holds discretize_forcing(forcing_data.col(i)) [fem_solver_base.h:117-126]; set_dirichlet_bc changes block 0 only, which solve does not read *)
Definition f_blocks (nd d nb n : nat) (w : nat -> double) (phi : nat -> nat -> double) (v : nat -> nat -> double) (mesh : list mesh_cell) (k : nat) : double :=
  f_forcing d nb n w phi (v (k / nd)%nat) mesh (k mod nd)%nat.
(* column i of solution_ after init, set_dirichlet_bc and solve *)
Definition f_parabolic (lu : (nat -> nat -> double) -> (nat -> double) -> nat -> double) (bdy : nat -> bool) (b : nat -> nat -> double) (t0 t1 : double) (u0 : nat -> double)
  (left : bool) (nd d nb n : nat) (w : nat -> double) (g : nat -> nat -> nat -> double) (phi : nat -> nat -> double) (op : f_op) (v : nat -> nat -> double) (mesh : list mesh_cell) (i : nat) : nat -> double :=
  f_columns lu nd bdy (f_mass d nb n w phi mesh) (f_dirichlet_matrix true bdy (f_operator left d nb n w g phi op mesh)) t0 t1 u0 (f_blocks nd d nb n w phi v mesh) b i.
