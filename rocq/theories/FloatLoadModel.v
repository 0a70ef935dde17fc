(* Model of the forcing vector of a finite element problem, finite_elements/fem_assembler.h:124-138 and utils/integration/integrator.h:73-92, in
   IEEE 754 double arithmetic.  The values of the forcing term at the quadrature nodes are parameters: v (n * e + q) is its value at the q-th
   node of the e-th cell (integrator.h:83-88; a callable evaluated at the mapped node returns the same list of values).  The values of the
   reference basis functions at the nodes of the reference cell are parameters too. *)
From Coq Require Import ZArith List Bool.
From Flocq Require Import Core IEEE754.BinarySingleNaN.
From Verif Require Export FloatAssemblyModel.
From Verif Require Import Base SymbolsModel FloatModel FloatSplineModel FloatDiffModel.
Import ListNotations.

(* integral of the forcing term against the i-th basis function over the cell c, number e [integrator.h:73-92] *)
Definition f_load (d n : nat) (w : nat -> double) (phi : nat -> nat -> double) (v : nat -> double) (e : nat) (c : f_cell) (i : nat) : double :=
  dmul (fsum n (fun q => dmul (dmul (v (n * e + q)%nat) (phi i q)) (w q))) (f_measure d c).
(* vec[k] += x [fem_assembler.h:134] *)
Definition f_add_at (vec : nat -> double) (k : nat) (x : double) : nat -> double :=
  fun r => if (r =? k)%nat then dadd (vec k) x else vec r.
(* the cells with their numbers, in the order of the iteration [fem_assembler.h:131] *)
Definition numbered (mesh : list mesh_cell) : list (nat * mesh_cell) := combine (seq 0 (length mesh)) mesh.
(* discretize_forcing [fem_assembler.h:124-138] *)
Definition f_forcing (d nb n : nat) (w : nat -> double) (phi : nat -> nat -> double) (v : nat -> double) (mesh : list mesh_cell) : nat -> double :=
  fold_left (fun vec (ec : nat * mesh_cell) => let (e, cd) := ec in let (c, dof) := cd in
      fold_left (fun vec i => f_add_at vec (dof i) (f_load d n w phi v e c i)) (seq 0 nb) vec)
    (numbered mesh) (fun _ => d0).
