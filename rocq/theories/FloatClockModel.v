(* clockwise_order in IEEE 754 double arithmetic (rounding to nearest even, no contraction of a * b - c * d into one rounding). *)
From Coq Require Import List Bool.
From Flocq Require Import Core IEEE754.BinarySingleNaN.
From Verif Require Import Base SymbolsModel FloatModel FloatSplineModel.
Import ListNotations.

Definition dpoint : Type := double * double.
(* (a - c_).squaredNorm() of a vector of two coefficients [utils.h:65] *)
Definition f_norm2 (x y : double) : double := dadd (dmul x x) (dmul y y).
(* utils.h:54-66 operator() *)
Definition f_clockwise (c a b : dpoint) : bool :=
  let ax := dsub (fst a) (fst c) in let ay := dsub (snd a) (snd c) in
  let bx := dsub (fst b) (fst c) in let by_ := dsub (snd b) (snd c) in
  if dle d0 ax && dlt bx d0 then true
  else if dle d0 bx && dlt ax d0 then false
  else if deq ax d0 && deq bx d0 then
    (if dle d0 ay || dle d0 by_ then dlt (snd b) (snd a) else dlt (snd a) (snd b))
  else
    let s := dsub (dmul ax by_) (dmul bx ay) in
    if dlt s d0 then true
    else if dlt d0 s then false
    else dlt (f_norm2 bx by_) (f_norm2 ax ay).
(* voronoi.h:69-73: the point given to the comparator, the sum of the vertices divided by their number; n is the number as a double *)
Definition f_mean (n : double) (ps : list dpoint) : dpoint :=
  (ddiv (fold_left dadd (map fst ps) d0) n, ddiv (fold_left dadd (map snd ps) d0) n).
