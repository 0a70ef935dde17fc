(* Model of the B-spline basis (fdaPDE/splines/basis/spline.h, spline_basis.h) and of the spline assembler
   (fdaPDE/splines/spline_assembler.h).  double is R; a read outside the knot vector is undefined behaviour. *)
From Coq Require Export Reals.
From Verif Require Export Base RSum FemModel QuadModel.
Local Close Scope Q_scope.
Local Open Scope R_scope.

(* Spline<0, M>::tol_, spline.h:70: 50 epsilon *)
Definition tol : R := 50 / 2 ^ 52.
Definition Rleb (x y : R) : bool := if Rle_dec x y then true else false.
Definition Rltb (x y : R) : bool := if Rlt_dec x y then true else false.
(* Spline<0, M>::operator(), 77-80 *)
Definition spline0 (M : nat) (knots : list R) (i : nat) (x : R) : Res R :=
  u <- nth_res knots i ;;
  v <- nth_res knots (S i) ;;
  l <- nth_res knots (length knots - 1) ;;
  Ok (if (Rleb u x && Rltb x v) || (Rltb (Rabs (x - l)) tol && (i + M + 2 =? length knots)%nat) then 1 else 0).
(* a_, b_ of the constructor 43-47: a_ = recip R i, b_ = recip R (i + 1) *)
Definition recip (knots : list R) (r i : nat) : Res R :=
  u <- nth_res knots i ;; v <- nth_res knots (i + r) ;; Ok (if Req_EM_T (v - u) 0 then 0 else 1 / (v - u)).
(* Spline<R, M>::operator(), 49-52 *)
Fixpoint spline (M : nat) (knots : list R) (r i : nat) (x : R) : Res R :=
  match r with
  | O => spline0 M knots i x
  | S r' =>
      a <- recip knots r i ;;
      b <- recip knots r (i + 1) ;;
      u <- nth_res knots i ;;
      v <- nth_res knots (i + r + 1) ;;
      p <- spline M knots r' i x ;;
      q <- spline M knots r' (i + 1) x ;;
      Ok (a * (x - u) * p + b * (v - x) * q)
  end.
(* derive<K>, 56-63.  K = 0 is the spline itself; derive<K> with K > R does not compile (Spline<0> has no member
   template derive): UB *)
Fixpoint derive (M : nat) (knots : list R) (K r i : nat) (x : R) : Res R :=
  match K with
  | O => spline M knots r i x
  | S K' =>
      match r with
      | O => UB
      | S r' =>
          a <- recip knots r i ;;
          b <- recip knots r (i + 1) ;;
          p <- derive M knots K' r' i x ;;
          q <- derive M knots K' r' (i + 1) x ;;
          Ok (INR r * a * p - INR r * b * q)
      end
  end.

(* SplineBasis(knots), spline_basis.h:38-53: knots[0] is read whenever the padded vector is not empty *)
Definition pad_knots (r : nat) (knots : list R) : Res (list R) :=
  let n := length knots in
  mapM (fun i => if (i <? r)%nat then nth_res knots 0
                 else if (i <? n + r)%nat then nth_res knots (i - r)
                 else nth_res knots (n - 1)) (seq 0 (n + 2 * r)).
(* basis_.size(), 55-58: signed arithmetic, no function when knots_.size() <= R + 1 *)
Definition basis_size (r : nat) (knots : list R) : nat := (length knots - r - 1)%nat.
(* operator()(c, locs), 71-80 *)
Definition spline_expansion (r : nat) (knots c locs : list R) : Res (list R) :=
  _ <- assert_ (length c =? basis_size r knots)%nat ;;
  mapM (fun x => sum_loop (basis_size r knots) (fun h => w <- nth_res c h ;; v <- spline r knots r h x ;; Ok (w * v))) locs.
(* pointwise_evaluation, 83-103; prune(0.0) drops stored zeros and changes no entry *)
Definition spline_pointwise (r : nat) (knots locs : list R) : Res (nat -> nat -> R) :=
  _ <- assert_ (negb (length locs =? 0)%nat) ;;
  l <- mapM (fun ij => x <- nth_res locs (snd ij) ;; v <- spline r knots r (fst ij) x ;; Ok (snd ij, fst ij, v))
         (list_prod (seq 0 (basis_size r knots)) (seq 0 (length locs))) ;;
  Ok (entry_of l).

(* operators: Reaction<SPLINE, T>::integrate (operators/reaction.h), BiLaplacian<SPLINE>::integrate
   (operators/bilaplacian.h), and their linear combinations *)
(* splines/operators/reaction.h:48-52, bilaplacian.h:37-40, differential_expressions.h:38-135 *)
Inductive sop := SReac (c : R -> R) | SBilap | SPlus (a b : sop) | SMinus (a b : sop) | SScale (c : R) (a : sop) | SNegate (a : sop).
(* splines/operators/reaction.h:48-52, bilaplacian.h:37-40, differential_expressions.h:38-135 *)
Fixpoint sform (r : nat) (knots : list R) (op : sop) (i j : nat) (x : R) : Res R :=
  match op with
  | SReac c => p <- spline r knots r i x ;; q <- spline r knots r j x ;; Ok (c x * p * q)
  | SBilap => p <- derive r knots 2 r i x ;; q <- derive r knots 2 r j x ;; Ok (- (p * q))
  | SPlus a b => p <- sform r knots a i j x ;; q <- sform r knots b i j x ;; Ok (p + q)
  | SMinus a b => p <- sform r knots a i j x ;; q <- sform r knots b i j x ;; Ok (p - q)
  | SScale c a => p <- sform r knots a i j x ;; Ok (c * p)
  | SNegate a => p <- sform r knots a i j x ;; Ok (- p)
  end.
(* Integrator<SPLINE, 1, Order>::integrate(a, b, f), integrator.h:134-142 *)
Definition integrate_interval (a b : R) (f : R -> Res R) : Res R :=
  v <- foldM (fun s nw => y <- f ((b - a) / 2 * Q2R (nth 0 (fst nw) 0%Q) + (b + a) / 2) ;; Ok (s + y * Q2R (snd nw)))
         (combine (q_nodes table_gl_1_3) (q_weights table_gl_1_3)) 0 ;;
  Ok ((b - a) / 2 * v).
(* spline_assembler.h:58-63: for (k = j; k <= i + R; ++k) *)
Definition pair_value (r : nat) (knots : list R) (f : R -> Res R) (i j : nat) : Res R :=
  foldM (fun s k => u <- nth_res knots k ;; v <- nth_res knots (S k) ;; w <- integrate_interval u v f ;; Ok (s + w))
    (seq j (i + r + 1 - j)) 0.
(* discretize_operator, 39-78.  sym is E::is_symmetric; when it is false the inner loop runs up to j = M included,
   and basis_[M] is out of range *)
Definition spline_discretize (r : nat) (knots : list R) (sym : bool) (op : sop) : Res (nat -> nat -> R) :=
  let M := basis_size r knots in
  l <- foldM (fun acc i =>
         foldM (fun acc j =>
           _ <- (if (j <? M)%nat then Ok tt else UB) ;;
           v <- pair_value r knots (sform r knots op i j) i j ;;
           Ok (acc ++ [(i, j, v)])) (seq 0 (S (if sym then i else M))) acc) (seq 0 M) [] ;;
  Ok (if sym then fun a b => if (b <=? a)%nat then entry_of l a b else entry_of l b a else entry_of l).
