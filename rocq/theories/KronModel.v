(* Model of fdaPDE/linear_algebra/kronecker_product.h and lumping.h.  Scalars are real numbers.
   Dense operands are a shape and an entry function; reading outside the shape is UB. *)
From Verif Require Import Base RSum.

(* operands of kronecker_product.h:31-55 *)
Record dmat := DMat { dr : nat; dc : nat; dent : nat -> nat -> R }.
(* operands of kronecker_product.h:31-55 *)
Definition dcoeff (m : dmat) (i j : nat) : Res R :=
  if (i <? dr m)%nat && (j <? dc m)%nat then Ok (dent m i j) else UB.

(* kronecker_product.h:45-46 rows(), cols() *)
Definition kron_rows (a b : dmat) : nat := (dr a * dr b)%nat.
Definition kron_cols (a b : dmat) : nat := (dc a * dc b)%nat.
(* kronecker_product.h:151-155 coeff *)
Definition kron_coeff (a b : dmat) (row col : nat) : Res R :=
  x <- dcoeff a (row / dr b) (col / dc b) ;;
  y <- dcoeff b (row mod dr b) (col mod dc b) ;;
  Ok (x * y).

(* column-major sparse matrix: shape and stored (row, value) pairs of every column [operands of kronecker_product.h:57-80] *)
Record smat := SMat { sr : nat; scol : list (list (nat * R)) }.
(* operands of kronecker_product.h:57-80 *)
Definition sc (m : smat) : nat := length (scol m).

(* kronecker_product.h:182-240 InnerIterator.  [lhs]: the part of the lhs column not yet left,
   [rhs]: the part of the rhs column not yet visited, [full]: the whole rhs column (for the reset
   at 213), [cur]: None is m_index = -1.  The value computed for m_index at 190 is overwritten by
   operator++ and is not modelled. *)
Record kiter := KIter { klhs : list (nat * R); krhs : list (nat * R); kempty : bool; kcur : option (nat * R) }.
Definition kentry (inner : nat) (l r : nat * R) : nat * R := ((fst l * inner + fst r)%nat, snd l * snd r).
(* operator++, 199-222 *)
Definition kincr (inner : nat) (full : list (nat * R)) (it : kiter) : Res kiter :=
  if kempty it then Ok (KIter (klhs it) (krhs it) true None)
  else match krhs it, klhs it with
  | r :: rt, l :: lt => Ok (KIter (l :: lt) rt false (Some (kentry inner l r)))       (* 205-209 *)
  | [], l :: l' :: lt =>                                                               (* 210-216 *)
      match full with
      | r :: rt => Ok (KIter (l' :: lt) rt false (Some (kentry inner l' r)))
      | [] => UB                                       (* value() of an exhausted iterator *)
      end
  | [], [_] => Ok (KIter [] [] false None)             (* ++lhs_it reaches the end *)
  | [], [] => UB                                       (* ++ on an exhausted iterator *)
  | _ :: _, [] => Ok (KIter [] (krhs it) false None)   (* 217-220 *)
  end.
(* constructor 186-197 *)
Definition kbegin (a b : smat) (outer : nat) : Res kiter :=
  l <- nth_res (scol a) (outer / sc b) ;;
  r <- nth_res (scol b) (outer mod sc b) ;;
  kincr (sr b) r (KIter l r (match r with [] => true | _ => false end) None).
Fixpoint kcollect (fuel : nat) (inner : nat) (full : list (nat * R)) (it : kiter) : Res (list (nat * R)) :=
  match kcur it with
  | None => Ok []
  | Some e => match fuel with
              | O => OutOfFuel
              | S f => it' <- kincr inner full it ;; t <- kcollect f inner full it' ;; Ok (e :: t)
              end
  end.
(* for (InnerIterator it(K, outer); it; ++it) [a client of kronecker_product.h:182-227] *)
Definition kron_iterate (fuel : nat) (a b : smat) (outer : nat) : Res (list (nat * R)) :=
  r <- nth_res (scol b) (outer mod sc b) ;;
  it <- kbegin a b outer ;; kcollect fuel (sr b) r it.

(* value of a sparse column at row i: sum of the entries stored there (at most one) [coefficients of the sparse product, kronecker_product.h:57-80] *)
Fixpoint scoef (i : nat) (l : list (nat * R)) : R :=
  match l with [] => 0 | (r, v) :: t => (if (i =? r)%nat then v else 0) + scoef i t end.
(* coefficient of the matrix [coefficients of the sparse product, kronecker_product.h:57-80] *)
Definition sent (m : smat) (i j : nat) : R := match nth_error (scol m) j with Some c => scoef i c | None => 0 end.

(* lumping.h:30-42, sparse: triplets (i, i, row(i).sum()), then setFromTriplets (which sums
   triplets with equal coordinates; here they are distinct, so column i stores its one entry) *)
Definition lump_sparse (m : smat) : Res smat :=
  _ <- assert_ (sr m =? sc m)%nat ;;
  let triplets := map (fun i => (i, i, lsum (map (scoef i) (scol m)))) (seq 0 (sr m)) in
  Ok (SMat (sr m) (map (fun j => map (fun t => (fst (fst t), snd t)) (filter (fun t => snd (fst t) =? j)%nat triplets)) (seq 0 (sr m)))).
(* lumping.h:45-51, dense: the vector of row sums used as a diagonal *)
Definition lump_dense (m : dmat) : Res (list R) :=
  _ <- assert_ (dr m =? dc m)%nat ;;
  Ok (map (fun i => rsum (dc m) (fun j => dent m i j)) (seq 0 (dr m))).
