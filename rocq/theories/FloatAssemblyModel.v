(* Model of the assembly of the matrix of the Laplacian on a triangulation of the plane, finite_elements/fem_assembler.h:78-123, in
   IEEE 754 double arithmetic.  The local matrices are those of FloatFemModel.  setFromTriplets and selfadjointView are Eigen's: the values of
   repeated triplets are added in the order of their insertion, and the upper half of the result is read from the lower half. *)
From Coq Require Import ZArith List Bool.
From Flocq Require Import Core IEEE754.BinarySingleNaN.
From Verif Require Export FloatFemModel.
From Verif Require Import Base SymbolsModel FloatModel FloatSplineModel FloatDiffModel.
Import ListNotations.

(* a cell and its row of the table of the degrees of freedom [fem_assembler.h:82-83, 99] *)
Definition mesh_cell : Type := f_cell * (nat -> nat).
(* triplets of one cell, in order; [half]: the operator is symmetric, only the lower half is computed [fem_assembler.h:89-110] *)
Definition f_triplets (half : bool) (nb n : nat) (w : nat -> double) (g : nat -> nat -> nat -> double) (e : mesh_cell) : list ((nat * nat) * double) :=
  let (c, dof) := e in
  flat_map (fun i => flat_map (fun j => if half && negb (dof j <=? dof i)%nat then [] else [((dof i, dof j), f_local n w g c i j)]) (seq 0 nb)) (seq 0 nb).
(* collapseDuplicates of Eigen's setFromTriplets, one entry: absent entries are zero [fem_assembler.h:113] *)
Definition f_collapse (l : list double) : double := match l with [] => d0 | x :: t => fold_left dadd t x end.
(* entry (r, s) of setFromTriplets [fem_assembler.h:113] *)
Definition f_entry (T : list ((nat * nat) * double)) (r s : nat) : double :=
  f_collapse (map snd (filter (fun t => (fst (fst t) =? r)%nat && (snd (fst t) =? s)%nat) T)).
(* entry (r, s) of the matrix returned by discretize_operator [fem_assembler.h:78-123] *)
Definition f_assemble (half : bool) (nb n : nat) (w : nat -> double) (g : nat -> nat -> nat -> double) (mesh : list mesh_cell) (r s : nat) : double :=
  let T := flat_map (f_triplets half nb n w g) mesh in
  if half && negb (s <=? r)%nat then f_entry T s r else f_entry T r s.
