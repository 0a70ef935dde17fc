(* Models in IEEE 754 double arithmetic (rounding to nearest even, no contraction of a * b + c into one rounding): the quadrature of
   utils/integration/integrator.h:45-69 on tabulated values, the row sums of linear_algebra/lumping.h:30-51 and the line searches
   optimization/callbacks/backtracking_line_search.h:37-49 and wolfe_line_search.h:38-64. *)
From Coq Require Import Reals List Bool Permutation.
From Flocq Require Import Core IEEE754.BinarySingleNaN.
From Verif Require Import Base SymbolsModel.
Import ListNotations.

Definition dadd (a b : double) : double := @Bplus 53 1024 prec64 emax64 mode_NE a b.
Definition d0 : double := B754_zero false.

(* double value = 0; for (i = 0; i < n; ++i) value += f(i); *)
Definition fsum (n : nat) (f : nat -> double) : double := fold_left (fun value i => dadd value (f i)) (seq 0 n) d0.
(* integrator.h:45-60, f given as a vector: v q is f(num_nodes * e.id() + iq, 0), w the weights, m the measure of the cell *)
Definition f_integrate_cell (n : nat) (v w : nat -> double) (m : double) : double :=
  dmul (fsum n (fun q => dmul (v q) (w q))) m.
(* integrator.h:62-69 *)
Definition f_integrate_mesh (n_cells n : nat) (v w : nat -> double) (m : nat -> double) : double :=
  fsum n_cells (fun e => f_integrate_cell n (fun q => v (n * e + q)%nat) w (m e)).

(* Eigen's sum() of the coefficients of a row, lumping.h:36 and 49: the order of the additions is Eigen's choice, so a result is any
   one obtained by some bracketing of the coefficients in some order, possibly with initial zeros *)
Inductive stree := Leaf (x : double) | Node (l r : stree).
Fixpoint tval (t : stree) : double := match t with Leaf x => x | Node l r => dadd (tval l) (tval r) end.
Fixpoint leaves (t : stree) : list double := match t with Leaf x => [x] | Node l r => leaves l ++ leaves r end.
Definition reduces (l : list double) (k : nat) (r : double) : Prop :=
  exists t, Permutation (leaves t) (l ++ repeat d0 k) /\ r = tval t.

(* opt.x_old + alpha * opt.update [backtracking_line_search.h:41, wolfe_line_search.h:48] *)
Fixpoint f_ray (x u : list double) (alpha : double) : list double :=
  match x, u with
  | a :: x', b :: u' => dadd a (dmul alpha b) :: f_ray x' u' alpha
  | _, _ => []
  end.
Section Search.
Variable obj : list double -> double.   (* the objective, as computed *)
Variables (x u : list double) (m : double).   (* opt.x_old, opt.update, opt.grad_old.dot(opt.update) *)
(* obj(x_old) - obj(x_old + alpha * update) + gamma * alpha * m < 0 *)
Definition f_armijo_fails (gamma alpha : double) : bool :=
  dlt (dadd (dsub (obj x) (obj (f_ray x u alpha))) (dmul (dmul gamma alpha) m)) d0.
(* backtracking_line_search.h:41-44 *)
Fixpoint f_backtrack (fuel : nat) (beta gamma alpha : double) : Res double :=
  match fuel with
  | O => OutOfFuel
  | S f => if f_armijo_fails gamma alpha then f_backtrack f beta gamma (dmul alpha beta) else Ok alpha
  end.
(* backtracking_line_search.h:37-48: the value given to opt.h *)
Definition f_backtracking (fuel : nat) (alpha beta gamma : double) : Res double :=
  if dlt m d0 then f_backtrack fuel beta gamma alpha else Ok alpha.

(* wolfe_line_search.h:46-61; slope p is obj.derive()(p).dot(opt.update) *)
Variable slope : list double -> double.
Variables (c1 c2 half two : double).   (* half = 0.5, two = 2 *)
Record f_bracket := FBracket { f_alpha : double; f_min : double; f_max : double }.
Definition is_inf (a : double) : bool := match a with B754_infinity _ => true | _ => false end.
(* one pass of the while loop; None: stop = true [wolfe_line_search.h:48-57] *)
Definition f_wolfe_step (s : f_bracket) : option f_bracket :=
  let alpha := f_alpha s in
  if f_armijo_fails c1 alpha then Some (FBracket (dmul (dadd (f_min s) alpha) half) (f_min s) alpha)
  else if dlt (slope (f_ray x u alpha)) (dmul c2 m) then
    Some (FBracket (if is_inf (f_max s) then dmul two alpha else dmul (dadd alpha (f_max s)) half) alpha (f_max s))
  else None.
(* wolfe_line_search.h:47-58 *)
Fixpoint f_wolfe_loop (fuel : nat) (s : f_bracket) : Res double :=
  match fuel with
  | O => OutOfFuel
  | S f => match f_wolfe_step s with None => Ok (f_alpha s) | Some s' => f_wolfe_loop f s' end
  end.
(* wolfe_line_search.h:38-45 *)
Definition f_wolfe (fuel : nat) (alpha : double) : Res double := f_wolfe_loop fuel (FBracket alpha d0 (B754_infinity false)).
End Search.
