(* The counting functions with the 32-bit ints they compute with. *)
From Coq Require Import ZArith.
From Verif Require Import Base.
Open Scope Z_scope.

(* a product of ints: overflow of a signed type is undefined behaviour (in a constant expression the compiler rejects it) *)
Definition imul (a b : Z) : Res Z := if (- 2 ^ 31 <=? a * b) && (a * b <? 2 ^ 31) then Ok (a * b) else UB.
(* combinatorics.h:29 ct_factorial, argument n >= 0 *)
Fixpoint i_factorial (n : nat) : Res Z :=
  match n with O => Ok 1 | S n' => r <- i_factorial n' ;; imul (Z.of_nat n) r end.
(* combinatorics.h:29 ct_factorial on any int: from a negative n the recursion goes down to the smallest int and overflows there *)
Definition m_factorial (n : Z) : Res Z := if n <? 0 then UB else i_factorial (Z.to_nat n).
(* combinatorics.h:32-34 ct_binomial_coefficient; the division of ints truncates, division by 0 is undefined *)
Definition m_binomial (N M : Z) : Res Z :=
  a <- m_factorial N ;; b <- m_factorial M ;; c <- m_factorial (N - M) ;; p <- imul b c ;; if p =? 0 then UB else Ok (Z.quot a p).
(* geometry/utils.h:43 ct_nnodes *)
Definition m_nnodes (M R : Z) : Res Z :=
  a <- m_factorial (M + R) ;; b <- m_factorial M ;; c <- m_factorial R ;; p <- imul b c ;; if p =? 0 then UB else Ok (Z.quot a p).
(* geometry/utils.h:45 ct_nedges; M * (M + 1), the sum M + 1 is in range when the product is *)
Definition m_nedges (M : Z) : Res Z := p <- imul M (M + 1) ;; Ok (Z.quot p 2).
