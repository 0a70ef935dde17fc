(* Model of the entries of the local matrix of the Laplacian on a triangle of the plane: finite_elements/operators/laplacian.h:43,
   fields/dot_product.h:50-75, fields/matrix_expressions.h:39-49 and utils/integration/integrator.h:99-113, in IEEE 754 double arithmetic
   (rounding to nearest even, no contraction of a * b + c into one rounding).  The gradients of the reference basis functions at the
   quadrature nodes and the weights are parameters, so that every order and every rule is covered. *)
From Coq Require Import ZArith List.
From Flocq Require Import Core IEEE754.BinarySingleNaN.
From Verif Require Export FloatMeasureModel.
From Verif Require Import Base SymbolsModel FloatModel FloatSplineModel FloatDiffModel.

(* (invJ * nabla_psi)[r] with buff_invJ = e->invJ().transpose() (fem_assembler.h:82): a DotProduct of the r-th row and the gradient;
   g s is nabla_psi[s](p) *)
Definition f_push (c : f_cell) (g : nat -> double) (r : nat) : double := fsum 2 (fun s => dmul (f_inv (f_jac c) s r) (g s)).
(* laplacian.h:43: -(invJ * nabla_psi_i).dot(invJ * nabla_psi_j), at one quadrature node *)
Definition f_laplacian (c : f_cell) (gi gj : nat -> double) : double := Bopp (fsum 2 (fun r => dmul (f_push c gi r) (f_push c gj r))).
(* integrator.h:99-113 integrate_weak_form: g q i s is the s-th component of the gradient of psi_i at the q-th node, n = num_nodes_ *)
Definition f_local (n : nat) (w : nat -> double) (g : nat -> nat -> nat -> double) (c : f_cell) (i j : nat) : double :=
  dmul (fsum n (fun q => dmul (f_laplacian c (g q i) (g q j)) (w q))) (f_measure 2 c).
