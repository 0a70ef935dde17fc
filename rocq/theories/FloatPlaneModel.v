(* Model of geometry/hyperplane.h:29-31, 46-62, 92-99 and of geometry/simplex.h:113-128, 182-190 for a cell of smaller dimension than
   the space (a segment of a network, a triangle of a surface), in IEEE 754 double arithmetic (rounding to nearest even, no contraction
   of a * b + c into one rounding).  Eigen's short products and sums are taken from left to right. *)
From Coq Require Import ZArith List.
From Flocq Require Import Core IEEE754.BinarySingleNaN.
From Verif Require Export FloatCellModel.
From Verif Require Import Base SymbolsModel FloatModel FloatSplineModel FloatDiffModel.

(* std::sqrt, called by norm() and normalized() at hyperplane.h:49, 58, 59, 99 *)
Definition dsqrt (a : double) : double := @Bsqrt 53 1024 prec64 emax64 mode_NE a.
(* dot(), squaredNorm() and one entry of a matrix product, at hyperplane.h:30, 96 and simplex.h:121, 190 *)
Fixpoint f_dot (n : nat) (v w : nat -> double) : double :=
  match n with
  | O => d0
  | S O => dmul (v 0%nat) (w 0%nat)
  | S n' => dadd (f_dot n' v w) (dmul (v n') (w n'))
  end.
(* Eigen's normalized() at hyperplane.h:49, 58, 59: v / sqrt(v.squaredNorm()), or v itself when the square of the norm is not positive *)
Definition f_normalized (N : nat) (v : point) : point :=
  let z := f_dot N v v in if dlt d0 z then fun r => ddiv (v r) (dsqrt z) else v.
(* hyperplane.h:29-31 *)
Definition f_orthogonal_project (N : nat) (v w : point) : point := fun r => dmul (ddiv (f_dot N v w) (f_dot N w w)) (w r).
(* basis_, hyperplane.h:48-49 (M = 1) and 58-59 (M = 2): column k *)
Definition f_basis (N : nat) (c : f_cell) (k : nat) : point :=
  let b0 := f_normalized N (fun r => dsub (c 1%nat r) (c 0%nat r)) in
  match k with
  | O => b0
  | _ => let v := fun r => dsub (c 2%nat r) (c 0%nat r) in f_normalized N (fun r => dsub (v r) (f_orthogonal_project N v b0 r))
  end.
(* hyperplane.h:92-98, M < N; p_ is the first node *)
Definition f_project (M N : nat) (c : f_cell) (x : point) : point := fun r =>
  dadd (f_dot N (fun s => f_dot M (fun k => f_basis N c k r) (fun k => f_basis N c k s)) (fun s => dsub (x s) (c 0%nat s))) (c 0%nat r).
(* hyperplane.h:99 *)
Definition f_distance (M N : nat) (c : f_cell) (x : point) : double :=
  let e := fun r => dsub (x r) (f_project M N c x r) in dsqrt (f_dot N e e).

(* simplex.h:190: the row i of (J^t J)^-1 J^t, for M = 1 and M = 2 *)
Definition f_pinv (M N : nat) (c : f_cell) (i s : nat) : double :=
  let G := fun j k => f_dot N (fun r => f_jac c r j) (fun r => f_jac c r k) in
  match M with
  | S O => dmul (ddiv d1 (G 0 0)%nat) (f_jac c s 0)
  | _ => f_dot 2 (fun k => f_inv G i k) (fun k => f_jac c s k)
  end.
(* simplex.h:120-122 *)
Definition f_mtail (M N : nat) (c : f_cell) (x : point) (i : nat) : double := f_dot N (f_pinv M N c i) (fun s => dsub (x s) (c 0%nat s)).
Definition f_mbary (M N : nat) (c : f_cell) (x : point) (i : nat) : double :=
  match i with
  | O => dsub d1 (match M with S O => f_mtail M N c x 0 | _ => dadd (f_mtail M N c x 0) (f_mtail M N c x 1) end)
  | S j => f_mtail M N c x j
  end.
(* simplex.h:115-128, local_dim = M < embed_dim = N: n_nodes = M + 1, n_nodes_per_face = M *)
Definition f_mcontains (M N : nat) (c : f_cell) (x : point) : where_ :=
  if dlt d_meps (f_distance M N c x) then OUTSIDE
  else if existsb (fun i => dlt (f_mbary M N c x i) (Bopp d_meps)) (seq 0 (S M)) then OUTSIDE
  else
    let nonzeros := count_if (fun i => dlt d_meps (f_mbary M N c x i)) (S M) in
    if Nat.eqb nonzeros 1 then ON_VERTEX
    else if Nat.eqb nonzeros M then ON_FACE
    else INSIDE.
