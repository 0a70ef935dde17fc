(* Model of the entries of the local matrix of the Laplacian on a tetrahedron: finite_elements/operators/laplacian.h:43,
   fields/dot_product.h:50-75, fields/matrix_expressions.h:39-49 and utils/integration/integrator.h:99-113, in IEEE 754 double arithmetic, as
   FloatFemModel does for a triangle.  The inverse of the 3 x 3 matrix of the edges is Eigen's (Eigen/src/LU/InverseImpl.h,
   compute_inverse<.., 3>): cofactors, a determinant by the first column, one division.  The sum of three products in that determinant is
   taken in either order (argument left), since it depends on how Eigen unrolls it. *)
From Coq Require Import ZArith List Bool.
From Flocq Require Import Core IEEE754.BinarySingleNaN.
From Verif Require Export FloatMassModel.
From Verif Require Import Base SymbolsModel FloatModel FloatSplineModel FloatDiffModel.
Import ListNotations.

(* cofactor_3x3<i, j> of InverseImpl.h, called by J_.inverse() at simplex.h:187 *)
Definition f_cof3 (J : nat -> nat -> double) (i j : nat) : double :=
  let i1 := ((i + 1) mod 3)%nat in let i2 := ((i + 2) mod 3)%nat in let j1 := ((j + 1) mod 3)%nat in let j2 := ((j + 2) mod 3)%nat in
  dsub (dmul (J i1 j1) (J i2 j2)) (dmul (J i1 j2) (J i2 j1)).
(* cofactors_col0.cwiseProduct(matrix.col(0)).sum() of InverseImpl.h, for simplex.h:187 *)
Definition f_det_col (left : bool) (J : nat -> nat -> double) : double :=
  let p := fun k => dmul (f_cof3 J k 0) (J k 0%nat) in
  if left then dadd (dadd (p 0%nat) (p 1%nat)) (p 2%nat) else dadd (p 0%nat) (dadd (p 1%nat) (p 2%nat)).
(* J_.inverse() at simplex.h:187 for a 3 x 3 matrix; argument order (row, column) *)
Definition f_inv3 (left : bool) (J : nat -> nat -> double) (r k : nat) : double := dmul (f_cof3 J k r) (ddiv d1 (f_det_col left J)).
(* (invJ * nabla_psi)[r] with buff_invJ = e->invJ().transpose() (fem_assembler.h:82); g s is nabla_psi[s](p) *)
Definition f_push3 (left : bool) (c : f_cell) (g : nat -> double) (r : nat) : double := fsum 3 (fun s => dmul (f_inv3 left (f_jac c) s r) (g s)).
(* laplacian.h:43: -(invJ * nabla_psi_i).dot(invJ * nabla_psi_j), at one quadrature node *)
Definition f_laplacian3 (left : bool) (c : f_cell) (gi gj : nat -> double) : double := Bopp (fsum 3 (fun r => dmul (f_push3 left c gi r) (f_push3 left c gj r))).
(* integrator.h:99-113 integrate_weak_form: g q i s is the s-th component of the gradient of psi_i at the q-th node, n = num_nodes_ *)
Definition f_local3 (left : bool) (n : nat) (w : nat -> double) (g : nat -> nat -> nat -> double) (c : f_cell) (i j : nat) : double :=
  dmul (fsum n (fun q => dmul (f_laplacian3 left c (g q i) (g q j)) (w q))) (f_measure 3 c).
(* entry (r, s) of discretize_operator(-laplacian) on a mesh of tetrahedra; Laplacian declares is_symmetric = true [fem_assembler.h:78-123] *)
Definition f_stiff3 (left half : bool) (nb n : nat) (w : nat -> double) (g : nat -> nat -> nat -> double) (mesh : list mesh_cell) (r s : nat) : double :=
  f_matrix half nb (fun _ => f_local3 left n w g) mesh r s.
