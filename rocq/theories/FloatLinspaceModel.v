(* Model of the constructor of a one-dimensional mesh from its bounds, geometry/interval.h:65, in IEEE 754 double arithmetic (rounding to
   nearest even, no contraction of a * b + c into one rounding). *)
From Coq Require Import ZArith List.
From Flocq Require Import Core IEEE754.BinarySingleNaN.
From Verif Require Import Base SymbolsModel FloatModel FloatSplineModel FloatDiffModel.

(* an Index converted to double at interval.h:65; exact below 2^53 *)
Definition d_index (i : nat) : double := @binary_normalize 53 1024 prec64 emax64 mode_NE (Z.of_nat i) 0 false.
(* DVector<double>::LinSpaced(n + 1, a, b) at interval.h:65 for n >= 1 (Eigen/src/Core/functors/NullaryFunctors.h, linspaced_op_impl):
   step = (b - a) / n; the entries are counted from the bound of smaller absolute value, and the other bound is stored as it is.  The
   packets of the vectorised loop compute the same values. *)
Definition f_linspaced (n : nat) (a b : double) (i : nat) : double :=
  let step := ddiv (dsub b a) (d_index n) in
  if dlt (Babs b) (Babs a)
  then if Nat.eqb i 0 then a else dsub b (dmul (d_index (n - i)) step)
  else if Nat.eqb i n then b else dadd a (dmul (d_index i) step).
(* the nodes_ handed to the constructor of interval.h:39-63 *)
Definition f_interval_nodes (n : nat) (a b : double) : list double := map (f_linspaced n a b) (seq 0 (S n)).
