(* Model of the matrix of the reaction term, finite_elements/operators/reaction.h:31-53, assembled by finite_elements/fem_assembler.h:78-123
   (fem_solver_base.h:136 computes the mass matrix as the one of Reaction(1.0)), in IEEE 754 double arithmetic, on cells of dimension 1 to 3.
   The coefficient is given by its values at the quadrature nodes: cf (n * e + q) at the q-th node of the e-th cell (integrator.h:104-107); a
   constant coefficient is a constant list.  Eigen's setFromTriplets and selfadjointView are as in FloatAssemblyModel. *)
From Coq Require Import ZArith List Bool.
From Flocq Require Import Core IEEE754.BinarySingleNaN.
From Verif Require Export FloatLoadModel.
From Verif Require Import Base SymbolsModel FloatModel FloatSplineModel FloatDiffModel.
Import ListNotations.

(* integrate_weak_form of c * psi_i * psi_j over the cell c, number e [reaction.h:48-50, integrator.h:99-113] *)
Definition f_reaction (d n : nat) (w : nat -> double) (phi : nat -> nat -> double) (cf : nat -> double) (e : nat) (c : f_cell) (i j : nat) : double :=
  dmul (fsum n (fun q => dmul (dmul (dmul (cf (n * e + q)%nat) (phi i q)) (phi j q)) (w q))) (f_measure d c).
(* triplets of one cell for the local entries [loc]; [half]: the operator is symmetric, only the lower half is computed [fem_assembler.h:89-110] *)
Definition f_cell_triplets (half : bool) (nb : nat) (loc : nat -> f_cell -> nat -> nat -> double) (ec : nat * mesh_cell) : list ((nat * nat) * double) :=
  let (e, cd) := ec in let (c, dof) := cd in
  flat_map (fun i => flat_map (fun j => if half && negb (dof j <=? dof i)%nat then [] else [((dof i, dof j), loc e c i j)]) (seq 0 nb)) (seq 0 nb).
(* entry (r, s) of the matrix returned by discretize_operator [fem_assembler.h:78-123] *)
Definition f_matrix (half : bool) (nb : nat) (loc : nat -> f_cell -> nat -> nat -> double) (mesh : list mesh_cell) (r s : nat) : double :=
  let T := flat_map (f_cell_triplets half nb loc) (numbered mesh) in
  if half && negb (s <=? r)%nat then f_entry T s r else f_entry T r s.
(* the matrix of Reaction, which declares is_symmetric = true [reaction.h:40-41] *)
Definition f_reaction_matrix (d nb n : nat) (w : nat -> double) (phi : nat -> nat -> double) (cf : nat -> double) (mesh : list mesh_cell) (r s : nat) : double :=
  f_matrix true nb (f_reaction d n w phi cf) mesh r s.
