(* Specification vocabulary for binary matrices: a matrix is a boolean function of its
   coordinates; nothing here mentions packs, words or masks (except [packs_hold], which states
   the documented storage layout). *)
From Verif Require Import Base BinMatModel.

(* observable content: shape and result of operator()(i, j) *)
Definition shows (m : bm) (r c : nat) (f : nat -> nat -> bool) : Prop :=
  nr m = r /\ nc m = c /\
  forall i j, i < r -> j < c -> get m (Z.of_nat i) (Z.of_nat j) = Ok (f i j).

(* storage is well-formed: what every constructor establishes *)
Definition valid (m : bm) : Prop :=
  npk m = n_packs (nr m) (nc m) /\ length (data m) = n_packs (nr m) (nc m) /\
  Forall (fun w => (w < 2 ^ 64)%N) (data m).

(* effect of one call on the boolean function *)
Definition in_shape (r c : nat) (i j : Z) : bool :=
  ((0 <=? i) && (i <? Z.of_nat r) && (0 <=? j) && (j <? Z.of_nat c))%Z.
Definition point (i j : Z) (v : bool) (f : nat -> nat -> bool) (x y : nat) : bool :=
  if ((Z.of_nat x =? i) && (Z.of_nat y =? j))%Z then v else f x y.
Definition rect (sr sc br bc : nat) (v : bool) (f : nat -> nat -> bool) (x y : nat) : bool :=
  if (sr <=? x) && (x <? sr + br) && (sc <=? y) && (y <? sc + bc) then v else f x y.
Definition spec_op (r c : nat) (f : nat -> nat -> bool) (o : mop) : nat -> nat -> bool :=
  match o with
  | MSet i j => if in_shape r c i j then point i j true f else f
  | MClear i j => if in_shape r c i j then point i j false f else f
  | MBlockSet sr sc br bc =>
      if (sr + br <=? r) && (sc + bc <=? c) then rect sr sc br bc true f else f
  | MBlockClear sr sc br bc =>
      if (sr + br <=? r) && (sc + bc <=? c) then rect sr sc br bc false f else f
  end.
(* the int arguments of the call are not negative *)
Definition nonneg_op (o : mop) : Prop :=
  match o with
  | MSet i j | MClear i j => (0 <= i /\ 0 <= j)%Z
  | _ => True
  end.

(* pointwise meaning of an expression; a leaf means what operator() returns *)
Fixpoint den (e : xpr) (i j : nat) : bool :=
  match e with
  | XMat m => match get m (Z.of_nat i) (Z.of_nat j) with Ok b => b | _ => false end
  | XNot e => negb (den e i j)
  | XBin BAnd e1 e2 => den e1 i j && den e2 i j
  | XBin BOr e1 e2 => den e1 i j || den e2 i j
  | XBin BXor e1 e2 => xorb (den e1 i j) (den e2 i j)
  | XBlock e sr sc _ _ => den e (sr + i) (sc + j)
  | XRepeat e _ _ => den e (i mod rows e) (j mod cols e)
  | XReshape e _ c => den e ((i * c + j) / cols e) ((i * c + j) mod cols e)
  end.

(* all leaves are well-formed and all constructor assertions pass *)
Fixpoint leaves_valid (e : xpr) : Prop :=
  match e with
  | XMat m => valid m
  | XNot e => leaves_valid e
  | XBin _ e1 e2 => leaves_valid e1 /\ leaves_valid e2
  | XBlock e _ _ _ _ | XRepeat e _ _ | XReshape e _ _ => leaves_valid e
  end.
Definition wf (e : xpr) : Prop := leaves_valid e /\ build e = Ok tt.

(* blocks whose packs the code assembles correctly: at most one pack, a single row, or a number
   of columns dividing the pack size.  Row and column views always qualify. *)
Definition good_block (br bc : nat) : Prop :=
  bc <> 0 /\ (br * bc <= 64 \/ br = 1 \/ 64 mod bc = 0).
Fixpoint blocks_good (e : xpr) : Prop :=
  match e with
  | XMat m => True
  | XNot e => blocks_good e
  | XBin _ e1 e2 => blocks_good e1 /\ blocks_good e2
  | XBlock e _ _ br bc => good_block br bc   (* the nested expression is read by coefficient *)
  | XRepeat _ _ _ => True
  | XReshape e _ _ => blocks_good e
  end.

(* documented storage layout: bit b of pack k is the coefficient at row-major position 64k+b *)
Definition packs_hold (e : xpr) : Prop :=
  bitpacks e = n_packs (rows e) (cols e) /\
  forall k, k < bitpacks e ->
    exists w, bitpack e k = Ok w /\ (w < 2 ^ 64)%N /\
      forall b, b < 64 -> k * 64 + b < size e ->
        N.testbit w (N.of_nat b) = den e ((k * 64 + b) / cols e) ((k * 64 + b) mod cols e).

(* row-major list of coefficients *)
Definition coeffs (e : xpr) : list bool :=
  map (fun p => den e (p / cols e) (p mod cols e)) (seq 0 (size e)).
