(* Model of fdaPDE/linear_algebra/binary_matrix.h with the arithmetic of the machine: sizes and indices are 32-bit ints whose overflow is
   undefined, and the row at which a bitpack of a block starts is computed in double arithmetic.  Everything which is not an int
   computation is taken from BinMatModel.  Sizes and block positions are not negative, as in BinMatModel. *)
From Coq Require Import ZArith NArith List Bool Lia.
From Flocq Require Import Core IEEE754.BinarySingleNaN.
From Verif Require Import Base BinMatModel SymbolsModel FloatModel FloatSplineModel FloatDiffModel.
Import ListNotations.
Open Scope nat_scope.

(* std::numeric_limits<int>::max() and min(): the ints of binary_matrix.h *)
Definition int_max : Z := 2147483647%Z.
Definition int_min : Z := (-2147483648)%Z.
(* the value of an int expression of binary_matrix.h; signed overflow is undefined *)
Definition ckz (z : Z) : Res Z := if ((int_min <=? z) && (z <=? int_max))%Z then Ok z else UB.
Definition ck (n : nat) : Res nat := if (Z.of_nat n <=? int_max)%Z then Ok n else UB.

(* size(), binary_matrix.h:515 *)
Definition size32 (r c : nat) : Res nat := ck (r * c).
(* n_bitpacks_, 57, 146, 153, 509-510: the product is an int, the division an int division *)
Definition n_packs32 (r c : nat) : Res nat := s <- size32 r c ;; ck (1 + s / 64).
(* BinaryMatrix(n_rows, n_cols), 56-58 *)
Definition zero32 (r c : nat) : Res bm := n <- n_packs32 r c ;; Ok (mkbm r c n (repeat 0%N n)).
(* i * n_cols_ + j, 159, 170, 178, 221 *)
Definition flat32 (m : bm) (i j : Z) : Res Z := p <- ckz (i * Z.of_nat (nc m)) ;; ckz (p + j).
(* operator()(i, j), 158-160 *)
Definition get32 (m : bm) (i j : Z) : Res bool := _ <- flat32 m i j ;; get m i j.
(* set(i, j), 168-171: the assertion comes before the index *)
Definition set32 (m : bm) (i j : Z) : Res bm :=
  _ <- assert_ ((i <? Z.of_nat (nr m))%Z && (j <? Z.of_nat (nc m))%Z) ;; _ <- flat32 m i j ;; set m i j.
(* clear(i, j), 176-179 *)
Definition clear32 (m : bm) (i j : Z) : Res bm :=
  _ <- assert_ ((i <? Z.of_nat (nr m))%Z && (j <? Z.of_nat (nc m))%Z) ;; _ <- flat32 m i j ;; clear m i j.

(* constructors of the expressions: n_bitpacks_ (509-510), then the assertions 255, 306-308, 485; the size of a repeated matrix (452) *)
Fixpoint build32 (e : xpr) : Res unit :=
  match e with
  | XMat _ => Ok tt
  | XNot e => _ <- build32 e ;; _ <- n_packs32 (rows e) (cols e) ;; Ok tt
  | XBin _ e1 e2 =>
      _ <- build32 e1 ;; _ <- build32 e2 ;; _ <- n_packs32 (rows e1) (cols e1) ;;
      assert_ ((rows e1 =? rows e2) && (cols e1 =? cols e2))
  | XBlock e sr sc br bc =>
      _ <- build32 e ;; _ <- n_packs32 br bc ;;
      a <- ck (sr + br) ;; _ <- assert_ (a <=? rows e) ;; b <- ck (sc + bc) ;; assert_ (b <=? cols e)
  | XRepeat e rr rc => _ <- build32 e ;; r <- ck (rows e * rr) ;; c <- ck (cols e * rc) ;; _ <- n_packs32 r c ;; Ok tt
  | XReshape e r c => _ <- build32 e ;; _ <- n_packs32 r c ;; a <- ck (r * c) ;; b <- ck (rows e * cols e) ;; assert_ (a =? b)
  end.
(* operator()(i, j) of the nodes: 158-160, 238, 257, 311-314, 454-457, 487-490 *)
Fixpoint coeff32 (e : xpr) (i j : nat) : Res bool :=
  match e with
  | XMat m => get32 m (Z.of_nat i) (Z.of_nat j)
  | XNot e => b <- coeff32 e i j ;; Ok (negb b)
  | XBin o e1 e2 => b1 <- coeff32 e1 i j ;; b2 <- coeff32 e2 i j ;; Ok (bop_bool o b1 b2)
  | XBlock e sr sc br bc =>
      _ <- assert_ ((i <? br) && (j <? bc)) ;; a <- ck (i + sr) ;; b <- ck (j + sc) ;; coeff32 e a b
  | XRepeat e rr rc => _ <- assert_ ((i <? rows e * rr) && (j <? cols e * rc)) ;; coeff32 e (i mod rows e) (j mod cols e)
  | XReshape e r c =>
      _ <- assert_ ((i <? r) && (j <? c)) ;; p <- ck (i * c) ;; q <- ck (p + j) ;;
      if cols e =? 0 then UB else coeff32 e (q / cols e) (q mod cols e)
  end.
(* start_row_ + (std::floor(i * (PackSize / (double)n_cols_))), 331: a quotient and a product of doubles; the floor of a double that is not
   negative is its integer part, and the sum of two integers below 2^53 is exact.  The conversion to int is undefined outside of its range. *)
Definition row_offset (sr k bc : nat) : Res nat :=
  let z := (Z.of_nat sr + Btrunc (dmul (lit (Z.of_nat k)) (ddiv (lit 64) (lit (Z.of_nat bc)))))%Z in
  if ((0 <=? z) && (z <=? int_max))%Z then Ok (Z.to_nat z) else UB.
(* for (int j = 0; j < PackSize && i * PackSize + j < size(); ++j) out |= (1 & f(j)) << j, 334-336, 460-464 *)
Fixpoint assemble32 (r c k : nat) (f : nat -> Res bool) (todo j : nat) (out : N) : Res N :=
  match todo with
  | O => Ok out
  | S todo =>
      p <- ck (k * 64) ;; q <- ck (p + j) ;; s <- size32 r c ;;
      if q <? s then b <- f j ;; assemble32 r c k f todo (S j) (N.lor out (N.shiftl (b2w b) (N.of_nat j))) else Ok out
  end.
(* bitpack(i), 165, 239, 258, 327-338, 458-466, 491 *)
Fixpoint bitpack32 (e : xpr) (k : nat) : Res N :=
  match e with
  | XMat m => nth_res (data m) k
  | XNot e => w <- bitpack32 e k ;; Ok (N.lnot w 64)
  | XBin o e1 e2 => w1 <- bitpack32 e1 k ;; w2 <- bitpack32 e2 k ;; Ok (bop_word o w1 w2)
  | XBlock e sr sc br bc =>
      if bc =? 0 then UB else
      o <- (if k =? 0 then Ok 0 else p <- ck (k * 64) ;; Ok (bc - (bc - p mod bc))) ;;
      col <- ck (sc + o) ;; row <- row_offset sr k bc ;;
      assemble32 br bc k (fun j => a <- ck (row + j / bc) ;; b <- ck (col + j mod bc) ;; coeff32 e a b) 64 0 0%N
  | XRepeat e rr rc =>
      assemble32 (rows e * rr) (cols e * rc) k
        (fun j => coeff32 e (((k * 64 + j) / (cols e * rc)) mod rows e) ((k * 64 + j) mod cols e)) 64 0 0%N
  | XReshape e _ _ => bitpack32 e k
  end.
(* construction and assignment from an expression, 64-80, 185-202 *)
Definition materialize32 (e : xpr) : Res bm :=
  ws <- mapM (bitpack32 e) (seq 0 (bitpacks e)) ;; Ok (mkbm (rows e) (cols e) (bitpacks e) ws).

(* set() and clear() of a block, 315-326 *)
Definition block_set32 (m : bm) (sr sc br bc : nat) : Res bm :=
  foldM (fun m ij => a <- ck (fst ij + sr) ;; b <- ck (snd ij + sc) ;; set32 m (Z.of_nat a) (Z.of_nat b)) (coords br bc) m.
Definition block_clear32 (m : bm) (sr sc br bc : nat) : Res bm :=
  foldM (fun m ij => a <- ck (fst ij + sr) ;; b <- ck (snd ij + sc) ;; clear32 m (Z.of_nat a) (Z.of_nat b)) (coords br bc) m.
(* calls, as in BinMatModel: 168-183, 306-308, 315-326 *)
Definition mcall32 (m : bm) (o : mop) : Res bm :=
  match o with
  | MSet i j => set32 m i j
  | MClear i j => clear32 m i j
  | MBlockSet sr sc br bc => _ <- build32 (XBlock (XMat m) sr sc br bc) ;; block_set32 m sr sc br bc
  | MBlockClear sr sc br bc => _ <- build32 (XBlock (XMat m) sr sc br bc) ;; block_clear32 m sr sc br bc
  end.
Fixpoint mrun32 (m : bm) (ops : list mop) : Res bm :=
  match ops with
  | [] => Ok m
  | o :: t => match mcall32 m o with Ok m' => mrun32 m' t | Throw => mrun32 m t | UB => UB | OutOfFuel => OutOfFuel end
  end.

(* linear_bitpack_visit::run, 365-380: i + PackSize - 1 < size *)
Fixpoint visit32 (V : visitor) (e : xpr) (s fuel k i : nat) (res : bool) : Res bool :=
  t <- ck (i + 64) ;;
  if t - 1 <? s then
    match fuel with
    | 0 => OutOfFuel
    | S f => w <- bitpack32 e k ;; let res' := v_full V res w in if v_stop V res' then Ok res' else visit32 V e s f (S k) t res'
    end
  else if i <? s then w <- bitpack32 e k ;; v_part V res w (s - i) else Ok res.
Definition pack_visit32 (V : visitor) (e : xpr) (res0 : bool) : Res bool :=
  s <- size32 (rows e) (cols e) ;;
  if s =? 0 then Ok res0
  else if s <? 64 then w <- bitpack32 e 0 ;; v_part V res0 w (64 - s)
  else visit32 V e s s 0 0 res0.
(* all() and any(), 577-578 *)
Definition all32 (e : xpr) : Res bool := pack_visit32 all_visitor e true.
Definition any32 (e : xpr) : Res bool := pack_visit32 any_visitor e false.
(* linear_bit_visit::run, 388-408, and count(), 579; the counter itself does not exceed size() *)
Definition count32 (e : xpr) : Res nat :=
  s <- size32 (rows e) (cols e) ;;
  if s =? 0 then Ok 0 else
  st <- foldM (fun (st : nat * nat) k =>
                 let (i, acc) := st in
                 w <- bitpack32 e k ;; t <- ck (i + 64) ;;
                 if t <? s then Ok (t, count_bits 64 w acc) else Ok (Nat.max i s, count_bits (s - i) w acc))
              (seq 0 (bitpacks e)) (0, 0) ;;
  Ok (snd st).
