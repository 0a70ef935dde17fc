(* Model of geometry/simplex.h:70-75, 113-128 and 182-187 for a triangle of the plane in IEEE 754 double arithmetic (rounding to nearest
   even, no contraction of a * b + c into one rounding).  Unlike SimplexModel, the inverse of the Jacobian is computed and not a
   parameter: Eigen inverts a fixed 2 x 2 matrix by the cofactor formula, once the reciprocal of the determinant is known. *)
From Coq Require Import ZArith List.
From Flocq Require Import Core IEEE754.BinarySingleNaN.
From Verif Require Export SimplexModel.
From Verif Require Import Base SymbolsModel FloatModel FloatSplineModel FloatDiffModel.

(* utils/symbols.h:164: 10 * epsilon, a power of two times an integer and hence exact *)
Definition d_meps : double := @binary_normalize 53 1024 prec64 emax64 mode_NE 10 (-52) false.

(* coords_, simplex.h:53: coords i is the i-th node, coords i k its k-th coordinate *)
Definition f_cell := nat -> point.
(* simplex.h:185: J_.col(k) = coords_.col(k + 1) - coords_.col(0); argument order (row, column) *)
Definition f_jac (c : f_cell) (r k : nat) : double := dsub (c (S k) r) (c 0%nat r).
(* J_.inverse() at simplex.h:187, for a 2 x 2 matrix (Eigen/src/LU/InverseImpl.h, compute_inverse<.., 2>); argument order (row, column) *)
Definition f_det (J : nat -> nat -> double) : double := dsub (dmul (J 0 0)%nat (J 1 1)%nat) (dmul (J 1 0)%nat (J 0 1)%nat).
Definition f_inv (J : nat -> nat -> double) (r k : nat) : double :=
  let invdet := ddiv d1 (f_det J) in
  match r, k with
  | O, O => dmul (J 1 1)%nat invdet
  | O, _ => dmul (Bopp (J 0 1)%nat) invdet
  | _, O => dmul (Bopp (J 1 0)%nat) invdet
  | _, _ => dmul (J 0 0)%nat invdet
  end.
(* simplex.h:70-75 barycentric_coords; the same expressions at 120-122.  The product of a fixed 2 x 2 matrix and a vector adds the
   products from left to right, and so does sum() *)
Definition f_tail (c : f_cell) (p : point) (r : nat) : double :=
  dadd (dmul (f_inv (f_jac c) r 0) (dsub (p 0%nat) (c 0%nat 0%nat))) (dmul (f_inv (f_jac c) r 1) (dsub (p 1%nat) (c 0%nat 1%nat))).
Definition f_bary (c : f_cell) (p : point) (i : nat) : double :=
  match i with O => dsub d1 (dadd (f_tail c p 0) (f_tail c p 1)) | S r => f_tail c p r end.
(* simplex.h:115-128, local_dim = embed_dim = 2: n_nodes = 3, n_nodes_per_face = 2 *)
Definition f_contains (c : f_cell) (p : point) : where_ :=
  if existsb (fun i => dlt (f_bary c p i) (Bopp d_meps)) (seq 0 3) then OUTSIDE
  else
    let nonzeros := count_if (fun i => dlt d_meps (f_bary c p i)) 3 in
    if Nat.eqb nonzeros 1 then ON_VERTEX
    else if Nat.eqb nonzeros 2 then ON_FACE
    else INSIDE.
