(* Model of the matrix of any differential operator that can be written with Laplacian, Diffusion, Advection, Reaction, dT, +, -, negation and
   multiplication by a number, in IEEE 754 double arithmetic, on triangles and tetrahedra: finite_elements/operators, pde/differential_expressions.h,
   utils/integration/integrator.h:93-107 and finite_elements/fem_assembler.h:78-123.  Coefficients are given by their values at the quadrature
   nodes, numbered num_nodes * cell + node (integrator.h:100); a constant coefficient is a constant function.  Matrices of coefficients K k r s. *)
From Coq Require Import ZArith List Bool.
From Flocq Require Import Core IEEE754.BinarySingleNaN.
From Verif Require Export FloatFem3Model.
From Verif Require Import Base SymbolsModel FloatModel FloatSplineModel FloatDiffModel.
Import ListNotations.

(* expressions of differential operators [differential_expressions.h:37-137] *)
Inductive f_op : Type :=
| FLap | FDiff (K : nat -> nat -> nat -> double) | FAdv (b : nat -> nat -> double) | FRea (c : nat -> double) | FDt
| FAdd (a b : f_op) | FSub (a b : f_op) | FScal (k : double) (a : f_op) | FNeg (a : f_op).
(* is_symmetric [laplacian.h, diffusion.h:42, advection.h:43, reaction.h:41, dt.h:31, differential_expressions.h:72, 111, 134] *)
Fixpoint f_symmetric (op : f_op) : bool :=
  match op with FAdv _ => false | FAdd a b | FSub a b => f_symmetric a && f_symmetric b | FScal _ a | FNeg a => f_symmetric a | _ => true end.
(* integrate of each operator, evaluated at quadrature node number k: pi, pj are invJ * nabla_psi_i and invJ * nabla_psi_j, si and sj the values
   of psi_i and psi_j [laplacian.h:43, diffusion.h:54, advection.h:55, reaction.h:51, dt.h:34-36, differential_expressions.h:67, 107-109, 131; dot_product.h:61-73] *)
Fixpoint f_form (d : nat) (op : f_op) (k : nat) (pi pj : nat -> double) (si sj : double) : double :=
  match op with
  | FLap => Bopp (fsum d (fun r => dmul (pi r) (pj r)))
  | FDiff K => Bopp (fsum d (fun r => dmul (pi r) (fsum d (fun s => dmul (K k r s) (pj s)))))
  | FAdv b => dmul si (fsum d (fun r => dmul (pj r) (b k r)))
  | FRea c => dmul (dmul (c k) si) sj
  | FDt => d0
  | FAdd a b => dadd (f_form d a k pi pj si sj) (f_form d b k pi pj si sj)
  | FSub a b => dsub (f_form d a k pi pj si sj) (f_form d b k pi pj si sj)
  | FScal x a => dmul x (f_form d a k pi pj si sj)
  | FNeg a => Bopp (f_form d a k pi pj si sj)
  end.
(* (invJ * nabla_psi)[r] on a triangle (d = 2) or a tetrahedron [fem_assembler.h:82, simplex.h:187] *)
Definition f_pushd (left : bool) (d : nat) (c : f_cell) (g : nat -> double) (r : nat) : double := if (d =? 2)%nat then f_push c g r else f_push3 left c g r.
(* integrate_weak_form on cell number e [integrator.h:93-107] *)
Definition f_local_op (left : bool) (d n : nat) (w : nat -> double) (g : nat -> nat -> nat -> double) (phi : nat -> nat -> double) (op : f_op) (e : nat) (c : f_cell) (i j : nat) : double :=
  dmul (fsum n (fun q => dmul (f_form d op (n * e + q) (f_pushd left d c (g q i)) (f_pushd left d c (g q j)) (phi i q) (phi j q)) (w q))) (f_measure d c).
(* discretize_operator [fem_assembler.h:78-123] *)
Definition f_operator (left : bool) (d nb n : nat) (w : nat -> double) (g : nat -> nat -> nat -> double) (phi : nat -> nat -> double) (op : f_op) (mesh : list mesh_cell) (r s : nat) : double :=
  f_matrix (f_symmetric op) nb (f_local_op left d n w g phi op) mesh r s.
