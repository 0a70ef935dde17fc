(* Model of fields/field_derivatives.h:33-95 in IEEE 754 double arithmetic (rounding to nearest even, no contraction of a * b + c into
   one rounding): the numerical first and second partial derivatives. *)
From Coq Require Import ZArith List.
From Flocq Require Import Core IEEE754.BinarySingleNaN.
From Verif Require Import Base SymbolsModel FloatModel FloatSplineModel.

(* a literal of the code, an integer: field_derivatives.h:48, 50, 72-78, 81-90 *)
Definition lit (m : Z) : double := @binary_normalize 53 1024 prec64 emax64 mode_NE m 0 false.
(* a point, field_derivatives.h:37 *)
Definition point := nat -> double.
(* x[i_] = v, field_derivatives.h:46, 48, 70-76, 80-88 *)
Definition fset (x : point) (i : nat) (v : double) : point := fun k => if (k =? i)%nat then v else x k.

(* field_derivatives.h:44-51; f the wrapped field, as computed *)
Definition f_diff1 (f : point -> double) (h : double) (i : nat) (x : point) : double :=
  let x := fset x i (dadd (x i) h) in
  let result := f x in
  let x := fset x i (dsub (x i) (dmul (lit 2) h)) in
  let result := dsub result (f x) in
  ddiv result (dmul (lit 2) h).

(* field_derivatives.h:66-94 *)
Definition f_diff2 (f : point -> double) (h : double) (i j : nat) (x : point) : double :=
  if negb (i =? j)%nat then
    let x := fset x i (dadd (x i) h) in
    let x := fset x j (dadd (x j) h) in
    let result := f x in
    let x := fset x j (dsub (x j) (dmul (lit 2) h)) in
    let result := dsub result (f x) in
    let x := fset x i (dsub (x i) (dmul (lit 2) h)) in
    let result := dadd result (f x) in
    let x := fset x j (dadd (x j) (dmul (lit 2) h)) in
    let result := dsub result (f x) in
    ddiv result (dmul (dmul (lit 4) h) h)
  else
    let x := fset x i (dadd (x i) (dmul (lit 2) h)) in
    let result := Bopp (f x) in
    let x := fset x i (dsub (x i) h) in
    let result := dadd result (dmul (lit 16) (f x)) in
    let x := fset x i (dsub (x i) h) in
    let result := dsub result (dmul (lit 30) (f x)) in
    let x := fset x i (dsub (x i) h) in
    let result := dadd result (dmul (lit 16) (f x)) in
    let x := fset x i (dsub (x i) h) in
    let result := dsub result (f x) in
    ddiv result (dmul (dmul (lit 12) h) h).
