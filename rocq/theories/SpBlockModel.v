(* Model of fdaPDE/linear_algebra/sparse_block_matrix.h.
   An Eigen column-major sparse matrix is its shape and, per column, its stored (row, value) pairs
   in increasing row order.  int indices that the code checks to be >= 0 are integers (Z). *)
From Verif Require Import Base.

Section SpBlock.
Variable V : Type.
Variable zero : V.

Record spmat := SpMat { sprows : nat; spcols : list (list (nat * V)) }.
Definition spncols (m : spmat) : nat := length (spcols m).
(* m.coeffRef(i, j) read: stored value or zero; out of range is undefined [sparse_block_matrix.h:93-103] *)
Fixpoint lookup (i : nat) (l : list (nat * V)) : V :=
  match l with [] => zero | (r, v) :: t => if i =? r then v else lookup i t end.
(* sparse_block_matrix.h:93-103 *)
Definition sp_coeff (m : spmat) (i j : nat) : Res V :=
  if i <? sprows m then c <- nth_res (spcols m) j ;; Ok (lookup i c) else UB.

(* sparse_block_matrix.h:117-122 data members; R_, C_ are the template arguments *)
Record sbm := Sbm {
  sbR : nat; sbC : nat;
  blocks : list spmat;
  outer_offset : list nat; inner_offset : list nat;
  outer_size : list nat; inner_size : list nat;
  tcols : nat; trows : nat
}.
(* std::upper_bound on an increasing array, as the number of leading elements <= i [sparse_block_matrix.h:105-119] *)
Fixpoint upper_bound (l : list nat) (i : nat) : nat :=
  match l with [] => 0 | x :: t => if x <=? i then S (upper_bound t i) else 0 end.

(* one iteration of the fold expression at 46-64; the arrays are filled from the left (j++, k++),
   so they are represented by the part already filled.  State: (i, outer_size, outer_offset,
   inner_size, inner_offset, cols_, rows_) *)
Definition ctor_step (C : nat) (st : nat * list nat * list nat * list nat * list nat * nat * nat) (m : spmat)
  : Res (nat * list nat * list nat * list nat * list nat * nat * nat) :=
  let '(i, os, oo, is, io, cl, rw) := st in
  let r_blk := i / C in
  let c_blk := i mod C in
  ok1 <- (if r_blk =? 0 then Ok true else w <- nth_res os c_blk ;; Ok (spncols m =? w)) ;;
  ok2 <- (if c_blk =? 0 then Ok true else h <- nth_res is r_blk ;; Ok (sprows m =? h)) ;;
  _ <- assert_ (ok1 && ok2) ;;
  o <- (if r_blk =? 0 then
          last <- nth_res oo (length os) ;; Ok (os ++ [spncols m], oo ++ [spncols m + last], cl + spncols m)
        else Ok (os, oo, cl)) ;;
  n <- (if c_blk =? 0 then
          last <- nth_res io (length is) ;; Ok (is ++ [sprows m], io ++ [sprows m + last], rw + sprows m)
        else Ok (is, io, rw)) ;;
  let '(os', oo', cl') := o in
  let '(is', io', rw') := n in
  Ok (S i, os', oo', is', io', cl', rw').
(* 41-69 constructor, one argument per block in row-major order *)
Definition sbm_make (R C : nat) (ms : list spmat) : Res sbm :=
  st <- foldM (ctor_step C) ms (0, [], [0], [], [0], 0, 0) ;;
  let '(_, os, oo, is, io, cl, rw) := st in
  Ok (Sbm R C ms oo io os is cl rw).

(* 105-111 *)
Definition outerBlockIndex (M : sbm) (i : nat) : Z := Z.of_nat (upper_bound (outer_offset M) i) - 1.
Definition innerBlockIndex (M : sbm) (i : nat) : Z := Z.of_nat (upper_bound (inner_offset M) i) - 1.
(* 113-119: dereferences the element before the upper bound *)
Definition indexToBlock (off : list nat) (i : nat) : Res nat :=
  match upper_bound off i with 0 => UB | S p => x <- nth_res off p ;; Ok (i - x) end.
(* 71-78 *)
Definition block (M : sbm) (r c : Z) : Res spmat :=
  _ <- assert_ ((0 <=? r) && (r <? Z.of_nat (sbR M)) && (0 <=? c) && (c <? Z.of_nat (sbC M)))%Z ;;
  nth_res (blocks M) (Z.to_nat (r * Z.of_nat (sbC M) + c)).
(* 93-103 coeffRef / coeff *)
Definition coeff (M : sbm) (row col : Z) : Res V :=
  _ <- assert_ ((0 <=? row) && (row <? Z.of_nat (trows M)) && (0 <=? col) && (col <? Z.of_nat (tcols M)))%Z ;;
  let i := Z.to_nat row in let j := Z.to_nat col in
  let p := (innerBlockIndex M i * Z.of_nat (sbC M) + outerBlockIndex M j)%Z in
  if (p <? 0)%Z then UB else
  b <- nth_res (blocks M) (Z.to_nat p) ;;
  a <- indexToBlock (inner_offset M) i ;;
  d <- indexToBlock (outer_offset M) j ;;
  sp_coeff b a d.

(* 172-218 InnerIterator.  inner_ is the not yet visited part of the current block's column; the
   iterator is either at an entry or over (m_index = -1). *)
Record iter := Iter { rest : list (nat * V); ibi : nat; ioff : nat; cur : option (nat * V) }.
(* the while loop of operator++ (186-199); fuel bounds the number of blocks skipped *)
Fixpoint advance (fuel : nat) (M : sbm) (obi : Z) (oof : nat) (rst : list (nat * V)) (b off : nat) : Res iter :=
  match rst with
  | (r, v) :: t => Ok (Iter t b off (Some (off + r, v)))               (* 196-198 *)
  | [] =>
      match fuel with
      | 0 => OutOfFuel
      | S f =>
          if b =? sbR M - 1 then Ok (Iter [] b off None)                (* 189-192 *)
          else
            blk <- block M (Z.of_nat (S b)) obi ;;                      (* 193 *)
            c <- nth_res (spcols blk) oof ;;
            b0 <- block M 0 obi ;;                                      (* 194: block (0, .), as written *)
            advance f M obi oof c (S b) (off + sprows b0)
      end
  end.
(* 175-184 constructor *)
Definition iter_begin (M : sbm) (outer : nat) : Res (Z * nat * iter) :=
  let obi := outerBlockIndex M outer in
  oof <- indexToBlock (outer_offset M) outer ;;
  b0 <- block M 0 obi ;;
  c <- nth_res (spcols b0) oof ;;
  it <- advance (sbR M) M obi oof c 0 0 ;; Ok (obi, oof, it).
(* for (InnerIterator it(M, outer); it; ++it) collect (it.row(), it.value()) [a client of sparse_block_matrix.h:172-208] *)
Fixpoint iter_collect (fuel : nat) (M : sbm) (obi : Z) (oof : nat) (it : iter) : Res (list (nat * V)) :=
  match cur it with
  | None => Ok []
  | Some e =>
      match fuel with
      | 0 => OutOfFuel
      | S f => it' <- advance (sbR M) M obi oof (rest it) (ibi it) (ioff it) ;;
               l <- iter_collect f M obi oof it' ;; Ok (e :: l)
      end
  end.
(* a client of sparse_block_matrix.h:172-208 *)
Definition iterate (fuel : nat) (M : sbm) (outer : nat) : Res (list (nat * V)) :=
  r <- iter_begin M outer ;; let '(obi, oof, it) := r in iter_collect fuel M obi oof it.
End SpBlock.
Arguments SpMat {V}. Arguments sprows {V}. Arguments spcols {V}. Arguments spncols {V}.
Arguments sbR {V}. Arguments sbC {V}. Arguments blocks {V}. Arguments trows {V}. Arguments tcols {V}.
Arguments outer_offset {V}. Arguments inner_offset {V}. Arguments outer_size {V}. Arguments inner_size {V}.
