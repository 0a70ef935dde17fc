(* Model of fdaPDE/linear_algebra/binary_matrix.h.
   Sizes and non-negative indices are nat; the int arguments of operator(), set and
   clear of BinaryMatrix are Z, so that negative indices are visible.  int overflow of
   rows*cols is not modelled here but in BinMat32Model.  The template parameters Rows/Cols only select overloads. *)
From Verif Require Import Base.

(* std::uintmax_t word, PackSize = 64 (binary_matrix.h:36-37, 505-506) *)
Definition word_ones : N := N.ones 64.
(* BitPackType(1) << k, for k < 64 *)
Definition bit1 (k : nat) : N := N.shiftl 1 (N.of_nat k).
(* 1 + std::ceil((n_rows * n_cols) / PackSize): the division is an integer division, hence
   std::ceil has no effect (binary_matrix.h:47, 57, 146, 153, 510) *)
Definition n_packs (r c : nat) : nat := 1 + (r * c) / 64.

(* BinaryMatrix<Rows, Cols>: n_rows_, n_cols_, n_bitpacks_ (499-502), data_ (219) *)
Record bm := mkbm { nr : nat; nc : nat; npk : nat; data : list N }.

(* default constructor of a dynamic sized matrix (55, 501-502, 508) *)
Definition bm_default : bm := mkbm 0 0 0 [].

(* BinaryMatrix(n_rows, n_cols) (56-58), static default constructor (51-53) *)
Definition bm_zero (r c : nat) : bm := mkbm r c (n_packs r c) (repeat 0%N (n_packs r c)).

(* resize (139-155): fresh zeroed storage, old contents dropped *)
Definition resize (m : bm) (r c : nat) : bm := bm_zero r c.

(* i * n_cols_ + j (159, 170, 178, 221) *)
Definition flat (m : bm) (i j : Z) : Z := (i * Z.of_nat (nc m) + j)%Z.

(* operator()(i, j) (158-160) with pack_of (221): no bounds check; a negative flat index
   yields either a negative shift or a negative array index, both UB *)
Definition get (m : bm) (i j : Z) : Res bool :=
  if (flat m i j <? 0)%Z then UB else
  w <- nth_res (data m) (Z.to_nat (flat m i j) / 64) ;;
  Ok (negb (N.eqb (N.land w (bit1 (Z.to_nat (flat m i j) mod 64))) 0)).

(* set(i, j) (168-171) *)
Definition set (m : bm) (i j : Z) : Res bm :=
  _ <- assert_ ((i <? Z.of_nat (nr m))%Z && (j <? Z.of_nat (nc m))%Z) ;;
  if (flat m i j <? 0)%Z then UB else
  let k := Z.to_nat (flat m i j) / 64 in
  w <- nth_res (data m) k ;;
  Ok (mkbm (nr m) (nc m) (npk m)
        (upd (data m) k (N.lor w (bit1 (Z.to_nat (flat m i j) mod 64))))).

(* clear(i, j) (176-179); ~x on 64-bit words is N.lnot x 64 *)
Definition clear (m : bm) (i j : Z) : Res bm :=
  _ <- assert_ ((i <? Z.of_nat (nr m))%Z && (j <? Z.of_nat (nc m))%Z) ;;
  if (flat m i j <? 0)%Z then UB else
  let k := Z.to_nat (flat m i j) / 64 in
  w <- nth_res (data m) k ;;
  Ok (mkbm (nr m) (nc m) (npk m)
        (upd (data m) k (N.land w (N.lnot (bit1 (Z.to_nat (flat m i j) mod 64)) 64)))).

(* Ones(i, j), Ones(), Ones(i) (114-129): every pack, padding included, becomes -1 *)
Definition ones (r c : nat) : bm :=
  mkbm r c (n_packs r c) (map (fun _ => word_ones) (repeat 0%N (n_packs r c))).

(* Identity(i, j) (131-137): k < j && k < i *)
Definition identity (r c : nat) : Res bm :=
  foldM (fun m k => set m (Z.of_nat k) (Z.of_nat k)) (seq 0 (Nat.min r c)) (bm_zero r c).

(* for (i < r) for (j < c): the (i, j) pairs in loop order [loops of binary_matrix.h:87-91, 211-215, 317-319, 323-325, 347-351] *)
Definition coords (r c : nat) : list (nat * nat) := list_prod (seq 0 r) (seq 0 c).

(* construction from an Eigen dense matrix (82-92); f i j tells whether mtx(i, j) != 0 *)
Definition of_dense (r c : nat) (f : nat -> nat -> bool) : Res bm :=
  foldM (fun m ij => if f (fst ij) (snd ij)
                     then set m (Z.of_nat (fst ij)) (Z.of_nat (snd ij)) else Ok m)
        (coords r c) (bm_zero r c).

(* assignment from an Eigen dense matrix (204-217): only dynamic sized matrices are
   re-zeroed by resize; a static sized one has r = nr m, c = nc m *)
Definition assign_dense (dynamic : bool) (m : bm) (r c : nat) (f : nat -> nat -> bool) : Res bm :=
  foldM (fun m ij => if f (fst ij) (snd ij)
                     then set m (Z.of_nat (fst ij)) (Z.of_nat (snd ij)) else Ok m)
        (coords r c)
        (if dynamic then resize m r c else mkbm r c (npk m) (data m)).

(* construction from an iterator pair (94-103): the range is a list of truth values;
   the loop runs while it != end || i < size; *end and a zero divisor are UB *)
Fixpoint range_loop (r c : nat) (l : list bool) (i : nat) (m : bm) : Res bm :=
  match l with
  | [] => if i <? r * c then UB else Ok m
  | b :: t =>
      m' <- (if b then
               if (r =? 0) || (c =? 0) then UB
               else set m (Z.of_nat (i / r)) (Z.of_nat (i mod c))
             else Ok m) ;;
      range_loop r c t (S i) m'
  end.
Definition of_range (l : list bool) (r c : nat) : Res bm := range_loop r c l 0 (bm_zero r c).

(* vector version (104-111) *)
Fixpoint range_loop_vec (n : nat) (l : list bool) (i : nat) (m : bm) : Res bm :=
  match l with
  | [] => if i <? n then UB else Ok m
  | b :: t =>
      m' <- (if b then set m (Z.of_nat i) 0 else Ok m) ;;
      range_loop_vec n t (S i) m'
  end.
Definition of_range_vec (l : list bool) (n : nat) : Res bm := range_loop_vec n l 0 (bm_zero n 1).

(* ---------- expressions ---------- *)
(* operator&, |, ^, binary_matrix.h:268-270 *)
Inductive bop := BAnd | BOr | BXor.

(* Expression nodes: BinaryMatrix, BinMtxUnaryOp with ~ (226-240, 549-552), BinMtxBinaryOp
   (243-270), BinMtxBlock (273-358), BinMtxRepeatOp (440-471), BinMtxReshapedOp (474-496).
   Simplification: expressions are values (the code stores references to leaves). *)
Inductive xpr :=
| XMat (m : bm)
| XNot (e : xpr)
| XBin (o : bop) (e1 e2 : xpr)
| XBlock (e : xpr) (sr sc br bc : nat)
| XRepeat (e : xpr) (rr rc : nat)
| XReshape (e : xpr) (r c : nat).

(* rows(), cols() (512-513) as set by the constructors (237, 254, 285, 294, 304, 452, 484) *)
Fixpoint rows (e : xpr) : nat :=
  match e with
  | XMat m => nr m
  | XNot e => rows e
  | XBin _ e1 _ => rows e1
  | XBlock _ _ _ br _ => br
  | XRepeat e rr _ => rows e * rr
  | XReshape _ r _ => r
  end.
Fixpoint cols (e : xpr) : nat :=
  match e with
  | XMat m => nc m
  | XNot e => cols e
  | XBin _ e1 _ => cols e1
  | XBlock _ _ _ _ bc => bc
  | XRepeat e _ rc => cols e * rc
  | XReshape _ _ c => c
  end.
Definition size (e : xpr) : nat := rows e * cols e.   (* 515 *)
(* bitpacks() (514) as set by BinMtxBase (509-510) *)
Definition bitpacks (e : xpr) : nat :=
  match e with XMat m => npk m | _ => n_packs (rows e) (cols e) end.

(* run-time assertions of the constructors: 255, 290, 297-298, 306-308, 485.
   Non-negativity of block positions is built into nat. *)
Fixpoint build (e : xpr) : Res unit :=
  match e with
  | XMat _ => Ok tt
  | XNot e => build e
  | XBin _ e1 e2 =>
      _ <- build e1 ;; _ <- build e2 ;;
      assert_ ((rows e1 =? rows e2) && (cols e1 =? cols e2))
  | XBlock e sr sc br bc =>
      _ <- build e ;; assert_ ((sr + br <=? rows e) && (sc + bc <=? cols e))
  | XRepeat e _ _ => build e
  | XReshape e r c => _ <- build e ;; assert_ (r * c =? rows e * cols e)
  end.

(* std::bit_and / bit_or / bit_xor on bool and on words (268-270) *)
Definition bop_bool (o : bop) : bool -> bool -> bool :=
  match o with BAnd => andb | BOr => orb | BXor => xorb end.
Definition bop_word (o : bop) : N -> N -> N :=
  match o with BAnd => N.land | BOr => N.lor | BXor => N.lxor end.

(* operator()(i, j) of the nodes: 158-160, 238, 257, 311-314, 454-457, 487-490 *)
Fixpoint coeff (e : xpr) (i j : nat) : Res bool :=
  match e with
  | XMat m => get m (Z.of_nat i) (Z.of_nat j)
  | XNot e => b <- coeff e i j ;; Ok (negb b)
  | XBin o e1 e2 => b1 <- coeff e1 i j ;; b2 <- coeff e2 i j ;; Ok (bop_bool o b1 b2)
  | XBlock e sr sc br bc =>
      _ <- assert_ ((i <? br) && (j <? bc)) ;; coeff e (i + sr) (j + sc)
  | XRepeat e rr rc =>
      _ <- assert_ ((i <? rows e * rr) && (j <? cols e * rc)) ;;
      coeff e (i mod rows e) (j mod cols e)
  | XReshape e r c =>
      _ <- assert_ ((i <? r) && (j <? c)) ;;
      if cols e =? 0 then UB
      else coeff e ((i * c + j) / cols e) ((i * c + j) mod cols e)
  end.

(* BitPackType of a bool, binary_matrix.h:462 *)
Definition b2w (b : bool) : N := if b then 1%N else 0%N.

(* for (j < PackSize && i*PackSize + j < size()) out |= (1 & f(j)) << j  (334-336, 460-464).
   The condition is monotone in j, so skipping equals stopping. *)
Definition assemble_pack (sz k : nat) (f : nat -> Res bool) : Res N :=
  foldM (fun out j => if k * 64 + j <? sz
                      then b <- f j ;; Ok (N.lor out (N.shiftl (b2w b) (N.of_nat j)))
                      else Ok out) (seq 0 64) 0%N.

(* bitpack(i): 165, 239, 258, 327-338, 458-466, 491.
   Simplification: floor(i * (PackSize / (double)n_cols)) is computed exactly; in doubles: BinMat32Model.
   n_cols = 0 gives floor(NaN) or a zero modulus: UB. *)
Fixpoint bitpack (e : xpr) (k : nat) : Res N :=
  match e with
  | XMat m => nth_res (data m) k
  | XNot e => w <- bitpack e k ;; Ok (N.lnot w 64)
  | XBin o e1 e2 => w1 <- bitpack e1 k ;; w2 <- bitpack e2 k ;; Ok (bop_word o w1 w2)
  | XBlock e sr sc br bc =>
      if bc =? 0 then UB else
      let col_offset := sc + (if k =? 0 then 0 else bc - (bc - (k * 64) mod bc)) in
      let row_offset := sr + (k * 64) / bc in
      assemble_pack (br * bc) k (fun j => coeff e (row_offset + j / bc) (col_offset + j mod bc))
  | XRepeat e rr rc =>
      assemble_pack (rows e * rr * (cols e * rc)) k
        (fun j => coeff e (((k * 64 + j) / (cols e * rc)) mod rows e) ((k * 64 + j) mod cols e))
  | XReshape e _ _ => bitpack e k
  end.

(* construction / assignment from an expression (64-80, 185-202): copy all bitpacks *)
Definition copy_packs (e : xpr) (r c : nat) : Res bm :=
  ws <- mapM (bitpack e) (seq 0 (bitpacks e)) ;; Ok (mkbm r c (bitpacks e) ws).
(* matrix target: n_rows = rhs.rows(), n_cols = rhs.cols() (74, 76) *)
Definition materialize (e : xpr) : Res bm := copy_packs e (rows e) (cols e).
(* vector target (Cols == 1): n_rows = rhs.cols() when the right-hand side is a row
   (Rows_ == 1), rhs.rows() otherwise; n_cols = 1 (71-76, 192-197) *)
Definition materialize_vec (rhs_is_row : bool) (e : xpr) : Res bm :=
  copy_packs e (if rhs_is_row then cols e else rows e) 1.

(* row / col / topRows / bottomRows / leftCols / rightCols (554-574) *)
Definition xrow (e : xpr) (i : nat) := XBlock e i 0 1 (cols e).
Definition xcol (e : xpr) (j : nat) := XBlock e 0 j (rows e) 1.
Definition top_rows (e : xpr) (n : nat) := XBlock e 0 0 n (cols e).
Definition bottom_rows (e : xpr) (n : nat) := XBlock e (rows e - n) 0 n (cols e).
Definition left_cols (e : xpr) (n : nat) := XBlock e 0 0 (rows e) n.
Definition right_cols (e : xpr) (n : nat) := XBlock e 0 (cols e - n) (rows e) n.
(* reshaped / vector_view (608-611) *)
Definition vector_view (e : xpr) := XReshape e (size e) 1.

(* block set() / clear() (315-326) and block assignment (340-353) on a matrix leaf.
   Simplification: the right-hand side does not alias the written matrix. *)
Definition block_set (m : bm) (sr sc br bc : nat) : Res bm :=
  foldM (fun m ij => set m (Z.of_nat (fst ij + sr)) (Z.of_nat (snd ij + sc))) (coords br bc) m.
Definition block_clear (m : bm) (sr sc br bc : nat) : Res bm :=
  foldM (fun m ij => clear m (Z.of_nat (fst ij + sr)) (Z.of_nat (snd ij + sc))) (coords br bc) m.
Definition block_assign (m : bm) (sr sc br bc : nat) (rhs : xpr) : Res bm :=
  _ <- assert_ ((rows rhs =? br) && (cols rhs =? bc)) ;;
  foldM (fun m ij =>
           b <- coeff rhs (fst ij) (snd ij) ;;
           if b then set m (Z.of_nat (fst ij + sr)) (Z.of_nat (snd ij + sc)) else Ok m)
        (coords (rows rhs) (cols rhs)) m.

(* ---------- visitors ---------- *)
(* binary_matrix.h:412-440 *)
Record visitor := { v_full : bool -> N -> bool;            (* apply(b) *)
                    v_part : bool -> N -> nat -> Res bool; (* apply(b, size) *)
                    v_stop : bool -> bool }.               (* operator bool *)

(* all_visitor (412-421); shift by PackSize - size must be in [0, 64) *)
Definition all_visitor : visitor := {|
  v_full := fun res b => res && N.eqb (N.lnot b 64) 0;
  v_part := fun res b s =>
    if (s =? 0) || (64 <? s) then UB
    else let mask := (N.shiftl 1 (N.of_nat (64 - s)) - 1)%N in
         Ok (res && N.eqb (N.land mask b) mask);
  v_stop := negb |}.
(* any_visitor (423-430) *)
Definition any_visitor : visitor := {|
  v_full := fun res b => res || negb (N.eqb b 0);
  v_part := fun res b s =>
    if (s =? 0) || (64 <? s) then UB
    else Ok (res || negb (N.eqb (N.land (N.shiftr word_ones (N.of_nat (64 - s))) b) 0));
  v_stop := fun res => res |}.

(* linear_bitpack_visit::run, the loop (372-378) *)
Fixpoint visit_packs (V : visitor) (e : xpr) (fuel k i : nat) (res : bool) : Res bool :=
  if i + 64 - 1 <? size e then
    match fuel with
    | 0 => OutOfFuel
    | S f =>
        w <- bitpack e k ;;
        let res' := v_full V res w in
        if v_stop V res' then Ok res' else visit_packs V e f (S k) (i + 64) res'
    end
  else if i <? size e then
    w <- bitpack e k ;; v_part V res w (size e - i)
  else Ok res.

(* linear_bitpack_visit::run (365-380) *)
Definition pack_visit (V : visitor) (e : xpr) (res0 : bool) : Res bool :=
  if size e =? 0 then Ok res0
  else if size e <? 64 then w <- bitpack e 0 ;; v_part V res0 w (64 - size e)
  else visit_packs V e (size e) 0 0 res0.

(* all() (577), any() (578) *)
Definition all_ (e : xpr) : Res bool := pack_visit all_visitor e true.
Definition any_ (e : xpr) : Res bool := pack_visit any_visitor e false.

(* n times: visitor.apply((bitpack & 1) == 1); bitpack = bitpack >> 1 (395-398, 401-404) with
   count_visitor (432-437) *)
Fixpoint count_bits (n : nat) (w : N) (acc : nat) : nat :=
  match n with
  | 0 => acc
  | S n' => count_bits n' (N.shiftr w 1) (if N.eqb (N.land w 1) 1 then S acc else acc)
  end.

(* linear_bit_visit::run (388-408), count() (579); state = (i, res) *)
Definition count (e : xpr) : Res nat :=
  if size e =? 0 then Ok 0 else
  st <- foldM (fun (st : nat * nat) k =>
                 let (i, acc) := st in
                 w <- bitpack e k ;;
                 if i + 64 <? size e then Ok (i + 64, count_bits 64 w acc)
                 else Ok (Nat.max i (size e), count_bits (size e - i) w acc))
              (seq 0 (bitpacks e)) (0, 0) ;;
  Ok (snd st).

(* for (i < n && result) result &= (op1.bitpack(i) == op2.bitpack(i))  (632) *)
Fixpoint eq_loop (e1 e2 : xpr) (l : list nat) : Res bool :=
  match l with
  | [] => Ok true
  | k :: t => w1 <- bitpack e1 k ;; w2 <- bitpack e2 k ;;
              if N.eqb w1 w2 then eq_loop e1 e2 t else Ok false
  end.
(* mask of the last bitpack (634, 651): shift of 64 or more is UB *)
Definition last_mask (e : xpr) (n : nat) : Res N :=
  if size e <? 64 * n then UB else
  let r := size e - 64 * n in
  if (r =? 0) || (64 <? r) then UB
  else Ok (N.shiftr word_ones (N.of_nat (64 - r))).
(* operator== (621-637); bitpacks() = 0 reads bitpack(-1) *)
Definition beq (e1 e2 : xpr) : Res bool :=
  _ <- assert_ ((rows e1 =? rows e2) && (cols e1 =? cols e2)) ;;
  if bitpacks e1 =? 0 then UB else
  let n := bitpacks e1 - 1 in
  r <- eq_loop e1 e2 (seq 0 n) ;;
  mask <- last_mask e1 n ;;
  w1 <- bitpack e1 n ;; w2 <- bitpack e2 n ;;
  Ok (r && N.eqb (N.land mask w1) (N.land mask w2)).
(* operator!= (638-654): the loop stops at the first difference *)
Definition bneq (e1 e2 : xpr) : Res bool :=
  _ <- assert_ ((rows e1 =? rows e2) && (cols e1 =? cols e2)) ;;
  if bitpacks e1 =? 0 then UB else
  let n := bitpacks e1 - 1 in
  r <- eq_loop e1 e2 (seq 0 n) ;;
  mask <- last_mask e1 n ;;
  w1 <- bitpack e1 n ;; w2 <- bitpack e2 n ;;
  Ok (negb r || negb (N.eqb (N.land mask w1) (N.land mask w2))).

(* which(b) (524-532, 660-662) *)
Definition which (e : xpr) (b : bool) : Res (list nat) :=
  foldM (fun acc ij =>
           v <- coeff e (fst ij) (snd ij) ;;
           Ok (if Bool.eqb v b then acc ++ [fst ij * cols e + snd ij] else acc))
        (coords (rows e) (cols e)) [].

(* select on a dense Eigen matrix (581-591); the matrix is given by its shape and its values in
   row-major order *)
Definition select_dense {A} (zero : A) (e : xpr) (r c : nat) (vals : list A) : Res (list A) :=
  _ <- assert_ ((rows e =? r) && (cols e =? c)) ;;
  foldM (fun acc ij =>
           b <- coeff e (fst ij) (snd ij) ;;
           if b then Ok acc else upd_res acc (fst ij * c + snd ij) zero)
        (coords r c) vals.
(* select on a sparse Eigen matrix (592-602): stored entries (row, col, value) *)
Definition select_sparse {A} (zero : A) (e : xpr) (r c : nat) (entries : list (nat * nat * A))
  : Res (list (nat * nat * A)) :=
  _ <- assert_ ((rows e =? r) && (cols e =? c)) ;;
  mapM (fun t => let '(i, j, v) := t in
                 b <- coeff e i j ;; Ok (i, j, if b then v else zero)) entries.

(* ---------- histories of set / clear calls ---------- *)
(* set, clear, block set and clear, binary_matrix.h:168-183, 315-326 *)
Inductive mop := MSet (i j : Z) | MClear (i j : Z) | MBlockSet (sr sc br bc : nat)
               | MBlockClear (sr sc br bc : nat).
(* one call; a throwing call leaves the matrix as it is (the assertion precedes any write for
   single-bit calls; the block constructor checks the whole block first, 306-308) *)
Definition mcall (m : bm) (o : mop) : Res bm :=
  match o with
  | MSet i j => set m i j
  | MClear i j => clear m i j
  | MBlockSet sr sc br bc =>
      _ <- assert_ ((sr + br <=? nr m) && (sc + bc <=? nc m)) ;; block_set m sr sc br bc
  | MBlockClear sr sc br bc =>
      _ <- assert_ ((sr + br <=? nr m) && (sc + bc <=? nc m)) ;; block_clear m sr sc br bc
  end.
(* a client that catches the exceptions and goes on; UB is not caught [a client of binary_matrix.h:168-183, 315-326] *)
Fixpoint mrun (m : bm) (ops : list mop) : Res bm :=
  match ops with
  | [] => Ok m
  | o :: t => match mcall m o with
              | Ok m' => mrun m' t
              | Throw => mrun m t
              | UB => UB
              | OutOfFuel => OutOfFuel
              end
  end.
