(* Model of fdaPDE/finite_elements/basis/multivariate_polynomial.h and of LagrangianElement in
   lagrangian_basis.h 38-92.  double is R, std::pow with an int exponent is pow. *)
From Verif Require Export Base CombModel RSum.
Local Open Scope nat_scope.

(* ct_array_sum, utils/compile_time.h 26-31 *)
Fixpoint array_sum (l : list nat) : nat := match l with [] => 0 | x :: t => x + array_sum t end.
(* the inner while of ct_poly_exp (64-76): scan i until the vector is accepted, carrying on the way.
   tmp[++i]++ with i + 1 = N writes out of bounds (in a constant expression: a compile error).  Returns the
   accepted exponent vector.  fuel = N + 1 always suffices: i grows at each step. *)
Fixpoint poly_find (N Rd fuel i : nat) (tmp : list nat) : Res (list nat) :=
  match fuel with
  | O => OutOfFuel
  | S f =>
      if (i <? N) then
        ti <- nth_res tmp i ;;
        if (ti <=? Rd) && (array_sum tmp <=? Rd) then Ok tmp
        else
          tmp1 <- upd_res tmp i 0 ;;
          tn <- nth_res tmp1 (S i) ;;                 (* UB past the end *)
          tmp2 <- upd_res tmp1 (S i) (S tn) ;;
          poly_find N Rd f (S i) tmp2
      else Throw                                      (* loop left without a vector: never returned, see C61 *)
  end.
(* the outer while (60-77): todo = monomials - j; coeff[j] = tmp; tmp[0]++ *)
Fixpoint poly_rows (N Rd todo : nat) (tmp : list nat) : Res (list (list nat)) :=
  match todo with
  | O => Ok []
  | S k =>
      row <- poly_find N Rd (S N) 0 tmp ;;
      t0 <- nth_res row 0 ;;
      tmp' <- upd_res row 0 (S t0) ;;
      rest <- poly_rows N Rd k tmp' ;;
      Ok (row :: rest)
  end.
(* ct_poly_exp 52-79 *)
Definition ct_poly_exp (N Rd : nat) : Res (list (list nat)) := poly_rows N Rd (ct_binomial (Rd + N) Rd) (repeat 0 N).

(* entry (j, z) of a table; the arrays have fixed sizes, so the default is never used in range [multivariate_polynomial.h:50, 101] *)
Definition entry (table : list (list nat)) (j z : nat) : nat := nth z (nth j table []) 0.
(* ct_grad_exp 103-119: entry (i, j, z) *)
Definition grad_entry (table : list (list nat)) (i j z : nat) : nat :=
  if i =? z then (if entry table j z =? 0 then 0 else entry table j z - 1) else entry table j z.

Local Open Scope R_scope.
(* MonomialProduct<N>::unfold, 125-134 *)
Fixpoint monomial (n : nat) (p : nat -> R) (v : nat -> nat) : R :=
  match n with
  | O => if Nat.eqb (v 0%nat) 0 then 1 else p 0%nat ^ v 0%nat
  | S k => if Nat.eqb (v n) 0 then monomial k p v else p n ^ v n * monomial k p v
  end.
(* MonomialSum<I>::unfold, 142-153; m is the space dimension M *)
Fixpoint monomial_sum (i m : nat) (c : nat -> R) (p : nat -> R) (table : list (list nat)) : R :=
  match i with
  | O => c 0%nat * monomial (m - 1) p (entry table 0)
  | S k => c i * monomial (m - 1) p (entry table i) + monomial_sum k m c p table
  end.
(* MultivariatePolynomial::operator(), 209-213 *)
Definition poly_eval (N : nat) (table : list (list nat)) (c p : nat -> R) : R :=
  monomial_sum (length table - 1) N c p table.
(* PolynomialDerivative::operator(), 172-182 *)
Definition poly_derive (N : nat) (table : list (list nat)) (c : nat -> R) (i : nat) (p : nat -> R) : R :=
  fold_left (fun value m =>
      if Nat.eqb (entry table m i) 0 then value
      else value + c m * INR (entry table m i) * monomial (N - 1) p (grad_entry table i m))
    (seq 0 (length table)) 0.

(* LagrangianElement::compute_coefficients_, lagrangian_basis.h 65-91: the Vandermonde matrix *)
Definition vandermonde (N : nat) (table : list (list nat)) (nodes : nat -> nat -> R) (i j : nat) : R :=
  match j with O => 1 | S _ => monomial (N - 1) (nodes i) (entry table j) end.
(* the i-th basis function has the coefficients a = invV.solve(e_i); solve is Eigen's PartialPivLU [lagrangian_basis.h:78-90] *)
Definition unit_rhs (i j : nat) : R := if Nat.eqb i j then 1 else 0.
(* lagrangian_basis.h:78-90 *)
Definition basis (N : nat) (table : list (list nat)) (solve : (nat -> R) -> nat -> R) (i : nat) (x : nat -> R) : R :=
  poly_eval N table (solve (unit_rhs i)) x.
