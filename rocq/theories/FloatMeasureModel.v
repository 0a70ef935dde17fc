(* Model of measure_, geometry/simplex.h:182-194, in IEEE 754 double arithmetic (rounding to nearest even, no contraction of a * b + c
   into one rounding): segments of the line and of the plane, triangles of the plane, tetrahedra. *)
From Coq Require Import ZArith List.
From Flocq Require Import Core IEEE754.BinarySingleNaN.
From Verif Require Export FloatPlaneModel.
From Verif Require Import Base SymbolsModel FloatModel FloatSplineModel FloatDiffModel FloatLinspaceModel.

(* J_.determinant() at simplex.h:188 for a 3 x 3 matrix (Eigen/src/LU/Determinant.h, bruteforce_det3_helper) *)
Definition f_det3_helper (J : nat -> nat -> double) (a b c : nat) : double :=
  dmul (J 0%nat a) (dsub (dmul (J 1%nat b) (J 2%nat c)) (dmul (J 1%nat c) (J 2%nat b))).
Definition f_det3 (J : nat -> nat -> double) : double :=
  dadd (dsub (f_det3_helper J 0 1 2) (f_det3_helper J 1 0 2)) (f_det3_helper J 2 0 1).
(* J_.determinant() at simplex.h:188 for d = 1, 2, 3; f_det is that of FloatCellModel *)
Definition f_determinant (d : nat) (J : nat -> nat -> double) : double :=
  match d with S O => J 0%nat 0%nat | S (S O) => f_det J | _ => f_det3 J end.
(* simplex.h:188: std::abs(J_.determinant()) / ct_factorial(local_dim), the factorial converted to double *)
Definition f_measure (d : nat) (c : f_cell) : double := ddiv (Babs (f_determinant d (f_jac c))) (d_index (Factorial.fact d)).
(* simplex.h:192: J_.col(0).norm(), for a segment in a space of dimension N *)
Definition f_length (N : nat) (c : f_cell) : double := dsqrt (f_dot N (fun r => f_jac c r 0) (fun r => f_jac c r 0)).
