(* Model of fdaPDE/fields: the expression templates for scalar, vector and matrix fields.
   double is R and the four arithmetic functors are those of R (so no claim is made about division by
   zero, overflow or the domains of log and tan).  A point is a function nat -> R read at 0 .. M-1.
   Static sizes are carried by the leaves; run-time (Dynamic) sizes are not modelled.  A pointer node
   (field_ptrs.h:27-73) delegates operator(), operator[], coeff and forward to the node it points to and
   is modelled as that node.  Nodes keep copies of their operands (dot_product.h:30,
   matrix_expressions.h:42-43, vector_expressions.h:123-124), so an expression is a tree whose only state
   is the row currently selected in its discretised leaves. *)
From Verif Require Export Base RSum SimplexModel.

(* std::plus<>, std::minus<>, std::multiplies<>, std::divides<>: scalar_expressions.h:138-141,
   vector_expressions.h:143-164, matrix_expressions.h:242-283 *)
Inductive binop := OAdd | OSub | OMul | ODiv.
Definition ap (o : binop) (a b : R) : R :=
  match o with OAdd => a + b | OSub => a - b | OMul => a * b | ODiv => a / b end.

(* a vector operand passed by value: entry i of an SVector<n>, fixed size, hence no entry beyond n [class Vector, vector_expressions.h:92-100] *)
Definition entry (n : nat) (c : nat -> R) (i : nat) : Res R := if (i <? n)%nat then Ok (c i) else UB.

(* the expression templates of fdaPDE/fields: scalar_expressions.h:25-140, vector_expressions.h:25-180, matrix_expressions.h:25-260 *)
Inductive sexp : Type :=
| SConst (c : R)                              (* Scalar<N>, scalar_expressions.h:86-95; ConstantField, scalar_field.h:29-39 *)
| SField (f : vec -> R)                       (* ScalarField<N,F> over a callable, scalar_field.h:42-90 *)
| SWrap (e : sexp)                            (* ScalarField<N> built from an expression, scalar_field.h:60-72: captures a copy *)
| SDisc (n : nat) (d : nat -> R) (cur : option nat)   (* DiscretizedScalarField, scalar_expressions.h:98-108, n rows of data *)
| SBin (o : binop) (a b : sexp)               (* ScalarBinOp, scalar_expressions.h:111-137 *)
| SUn (f : R -> R) (a : sexp)                 (* ScalarUnOp (sin, cos, tan, exp, log), scalar_expressions.h:144-162 *)
| SNeg (a : sexp)                             (* ScalarNegationOp, scalar_expressions.h:165-181 *)
| SDot (u v : vexp)                           (* DotProduct, dot_product.h:28-79 *)
| SAt (v : vexp) (i : nat)                    (* v[i], vector_expressions.h:66 *)
| SCoeff (m : mexp) (i j : nat)               (* m.coeff(i, j), matrix_expressions.h:152 *)
| SProd (m1 m2 : mexp) (i j : nat)            (* MatrixMatrixProduct::operator()(i, j), matrix_expressions.h:67-71 *)
| SDer1 (h : R) (i : nat) (a : sexp)          (* FieldPartialDerivative<N,1,OP>, field_derivatives.h:34-52 *)
| SDer2 (h : R) (i j : nat) (a : sexp)        (* FieldPartialDerivative<N,2,OP>, field_derivatives.h:55-94 *)
with vexp : Type :=
| VConst (n : nat) (c : nat -> R)             (* Vector<M,N>, vector_expressions.h:92-100 *)
| VScal (n : nat) (c : R)                     (* VectorScalar<M,N>, vector_expressions.h:147-154 *)
| VField (n : nat) (f : nat -> vec -> R)      (* VectorField<M,N>, vector_field.h:32-87 *)
| VDisc (n rows : nat) (d : nat -> nat -> R) (cur : option nat)   (* DiscretizedVectorField, vector_expressions.h:103-115 *)
| VBin (o : binop) (a b : vexp)               (* VectorBinOp, vector_expressions.h:118-142 *)
| VNeg (a : vexp)                             (* VectorNegationOp, vector_expressions.h:167-179 *)
| VMul (m : mexp) (v : vexp)                  (* MatrixVectorProduct, matrix_expressions.h:38-55 *)
| VRow (m : mexp) (i : nat)                   (* MatrixRow, matrix_expressions.h:80-95 *)
| VCol (m : mexp) (j : nat)                   (* MatrixCol, matrix_expressions.h:97-112 *)
| VGrad (n : nat) (h : R) (a : sexp)          (* ScalarExprGradient, field_derivatives.h:97-108 *)
with mexp : Type :=
| MConst (r c : nat) (a : nat -> nat -> R)    (* Matrix<N,M,K>, matrix_expressions.h:190-203 *)
| MScal (r c : nat) (a : R)                   (* MatrixScalar, matrix_expressions.h:265-271 *)
| MField (r c : nat) (f : list (vec -> R))    (* MatrixField, matrix_field.h:32-73: row-major std::vector of fields *)
| MDisc (r c rows : nat) (d : nat -> nat -> R) (cur : option nat) (* DiscretizedMatrixField, matrix_expressions.h:207-221 *)
| MBin (o : binop) (a b : mexp)               (* MatrixBinOp, matrix_expressions.h:224-241 *)
| MNeg (a : mexp)                             (* MatrixNegationOp, matrix_expressions.h:292-305 *)
| MHess (n : nat) (h : R) (a : sexp).         (* ScalarExprHessian, field_derivatives.h:111-123 *)

Local Open Scope nat_scope.
(* MatrixExpr<M,N,K,E>::rows, ::cols: matrix_expressions.h:142-143 *)
Fixpoint mrows (m : mexp) : nat :=
  match m with
  | MConst r _ _ | MScal r _ _ | MField r _ _ | MDisc r _ _ _ _ => r
  | MBin _ a _ => mrows a | MNeg a => mrows a | MHess n _ _ => n
  end.
Fixpoint mcols (m : mexp) : nat :=
  match m with
  | MConst _ c _ | MScal _ c _ | MField _ c _ | MDisc _ c _ _ _ => c
  | MBin _ a _ => mcols a | MNeg a => mcols a | MHess n _ _ => n
  end.
(* the second template argument of VectorExpr<M, N, E>, i.e. outer_size(); MatrixRow<N,M,K,E> derives
   from VectorExpr<N, M, ...> (matrix_expressions.h:80), so a row of an M x K matrix has outer_size M *)
Fixpoint vouter (v : vexp) : nat :=
  match v with
  | VConst n _ | VScal n _ | VField n _ | VDisc n _ _ _ | VGrad n _ _ => n
  | VBin _ a _ => vouter a | VNeg a => vouter a
  | VMul m _ => mrows m | VRow m _ => mrows m | VCol m _ => mrows m
  end.
(* static rows and cols: vector_expressions.h:60-61, overridden in matrix_expressions.h:93-94, 110-111 *)
Definition vrows (v : vexp) : nat := match v with VRow _ _ => 1 | _ => vouter v end.
Definition vcols (v : vexp) : nat := match v with VRow m _ => mcols m | _ => 1 end.
(* dot_product.h:39-46, static case *)
Definition dot_outer (r1 c1 r2 c2 : nat) : nat :=
  if c1 =? c2 then r1 else if c1 =? r2 then c1 else r1.

Local Open Scope R_scope.
(* x[i] = v on a copy of the point [field_derivatives.h:46-48, 69-75, 80-88] *)
Definition set (x : vec) (i : nat) (v : R) : vec := fun k => if (k =? i)%nat then v else x k.

(* for (i = 0; i < n; ++i) result += f(i), starting from 0 *)
Definition sum_loop (n : nat) (f : nat -> Res R) : Res R :=
  foldM (fun s i => t <- f i ;; Ok (s + t)) (seq 0 n) 0.

(* field_derivatives.h:44-51 *)
Definition diff1 (f : vec -> Res R) (h : R) (i : nat) (x : vec) : Res R :=
  let x := set x i (x i + h) in
  a <- f x ;;
  let x := set x i (x i - 2 * h) in
  b <- f x ;;
  Ok ((a - b) / (2 * h)).
(* field_derivatives.h:66-93 *)
Definition diff2 (f : vec -> Res R) (h : R) (i j : nat) (x : vec) : Res R :=
  if (i =? j)%nat then
    let x := set x i (x i + 2 * h) in
    a <- f x ;;
    let x := set x i (x i - h) in
    b <- f x ;;
    let x := set x i (x i - h) in
    c <- f x ;;
    let x := set x i (x i - h) in
    d <- f x ;;
    let x := set x i (x i - h) in
    e <- f x ;;
    Ok ((- a + 16 * b - 30 * c + 16 * d - e) / (12 * h * h))
  else
    let x := set x i (x i + h) in
    let x := set x j (x j + h) in
    a <- f x ;;
    let x := set x j (x j - 2 * h) in
    b <- f x ;;
    let x := set x i (x i - 2 * h) in
    c <- f x ;;
    let x := set x j (x j + 2 * h) in
    d <- f x ;;
    Ok ((a - b + c - d) / (4 * h * h)).

(* evaluation at a point.  seval: operator()(x) of a scalar expression; velem: operator[](i) of a vector
   expression, evaluated at x when it is a field; mcoeff: coeff(i, j) of a matrix expression, likewise. *)
(* scalar_expressions.h:25-140 *)
Fixpoint seval (e : sexp) (x : vec) {struct e} : Res R :=
  match e with
  | SConst c => Ok c                                          (* scalar_expressions.h:94 *)
  | SField f => Ok (f x)                                      (* scalar_field.h:86 *)
  | SWrap e => seval e x                                      (* scalar_field.h:64, 70 *)
  | SDisc n d cur =>                                          (* scalar_expressions.h:102-107; value_ starts at 0 *)
      match cur with None => Ok 0 | Some k => if (k <? n)%nat then Ok (d k) else UB end
  | SBin o a b => u <- seval a x ;; v <- seval b x ;; Ok (ap o u v)     (* scalar_expressions.h:128-131 *)
  | SUn f a => u <- seval a x ;; Ok (f u)                     (* scalar_expressions.h:156 *)
  | SNeg a => u <- seval a x ;; Ok (- u)                      (* scalar_expressions.h:175 *)
  | SDot u v =>                                               (* dot_product.h:54-73 *)
      sum_loop (dot_outer (vrows u) (vcols u) (vrows v) (vcols v))
        (fun i => a <- velem u i x ;; b <- velem v i x ;; Ok (a * b))
  | SAt v i => velem v i x
  | SCoeff m i j => mcoeff m i j x
  | SProd m1 m2 i j =>                                        (* DotProduct of MatrixRow and MatrixCol *)
      sum_loop (dot_outer 1 (mcols m1) (mrows m2) 1)
        (fun k => a <- mcoeff m1 i k x ;; b <- mcoeff m2 k j x ;; Ok (a * b))
  | SDer1 h i a => diff1 (seval a) h i x
  | SDer2 h i j a => diff2 (seval a) h i j x
  end
with velem (v : vexp) (i : nat) (x : vec) {struct v} : Res R :=
  match v with
  | VConst n c => entry n c i                                 (* vector_expressions.h:99 *)
  | VScal _ c => Ok c                                         (* vector_expressions.h:153 *)
  | VField n f => entry n (fun i => f i x) i                  (* vector_field.h:74 *)
  | VDisc n rows d cur =>                                     (* vector_expressions.h:109-114; value_ maps NULL until forward *)
      match cur with None => UB | Some k => if (k <? rows)%nat then entry n (d k) i else UB end
  | VBin o a b => u <- velem a i x ;; v <- velem b i x ;; Ok (ap o u v)  (* vector_expressions.h:135 *)
  | VNeg a => u <- velem a i x ;; Ok (- u)                    (* vector_expressions.h:173 *)
  | VMul m v =>                                               (* matrix_expressions.h:47-49: row(i) dot v *)
      sum_loop (dot_outer 1 (mcols m) (vrows v) (vcols v))
        (fun k => a <- mcoeff m i k x ;; b <- velem v k x ;; Ok (a * b))
  | VRow m r => mcoeff m r i x                                (* matrix_expressions.h:87 *)
  | VCol m c => mcoeff m i c x                                (* matrix_expressions.h:104 *)
  | VGrad n h a => if (i <? n)%nat then diff1 (seval a) h i x else UB    (* field_derivatives.h:105-107 *)
  end
with mcoeff (m : mexp) (i j : nat) (x : vec) {struct m} : Res R :=
  match m with
  | MConst r c a => if (i <? r)%nat then entry c (a i) j else UB         (* matrix_expressions.h:198 *)
  | MScal _ _ a => Ok a                                                  (* matrix_expressions.h:270 *)
  | MField r c f => g <- nth_res f (j + i * c) ;; Ok (g x)               (* matrix_field.h:68 *)
  | MDisc r c rows d cur =>                 (* matrix_expressions.h:217-220: column-major map of one data row *)
      match cur with
      | None => UB
      | Some k => if ((k <? rows) && (i <? r) && (j <? c))%nat%bool then Ok (d k (j * r + i)%nat) else UB
      end
  | MBin o a b => u <- mcoeff a i j x ;; v <- mcoeff b i j x ;; Ok (ap o u v)  (* matrix_expressions.h:234 *)
  | MNeg a => u <- mcoeff a i j x ;; Ok (- u)                            (* matrix_expressions.h:299 *)
  | MHess n h a =>                                                       (* field_derivatives.h:120-122 *)
      if ((i <? n) && (j <? n))%nat%bool then diff2 (seval a) h i j x else UB
  end.

(* VectorExpr::operator()(x), vector_expressions.h:71-76 (static sizes: outer_size_ = N) *)
Definition veval (v : vexp) (x : vec) : Res (list R) := mapM (fun i => velem v i x) (seq 0 (vouter v)).
(* MatrixExpr::operator()(x), matrix_expressions.h:159-170: the list of the rows *)
Definition meval (m : mexp) (x : vec) : Res (list (list R)) :=
  mapM (fun i => mapM (fun j => mcoeff m i j x) (seq 0 (mcols m))) (seq 0 (mrows m)).

(* forward(i).  ScalarExpr, VectorExpr, MatrixExpr do nothing unless the node redefines it
   (scalar_expressions.h:73, vector_expressions.h:86, matrix_expressions.h:176).  Reading a row that does
   not exist is reported when the value is used. *)
Fixpoint sforward (k : nat) (e : sexp) : sexp :=
  match e with
  | SDisc n d _ => SDisc n d (Some k)                         (* scalar_expressions.h:107 *)
  | SBin o a b => SBin o (sforward k a) (sforward k b)        (* scalar_expressions.h:133-136 *)
  | SNeg a => SNeg (sforward k a)                             (* scalar_expressions.h:177-180 *)
  | SDot u v => SDot (vforward k u) (vforward k v)            (* dot_product.h:74-78 *)
  | SAt v i => SAt (vforward k v) i
  | SCoeff m i j => SCoeff (mforward k m) i j
  | SProd a b i j => SProd (mforward k a) (mforward k b) i j  (* matrix_expressions.h:72-76 *)
  | SConst _ | SField _ | SWrap _ | SUn _ _ | SDer1 _ _ _ | SDer2 _ _ _ _ => e   (* inherited no-op *)
  end
with vforward (k : nat) (v : vexp) : vexp :=
  match v with
  | VDisc n rows d _ => VDisc n rows d (Some k)               (* vector_expressions.h:112-114 *)
  | VBin o a b => VBin o (vforward k a) (vforward k b)        (* vector_expressions.h:137-141 *)
  | VNeg a => VNeg (vforward k a)                             (* vector_expressions.h:175-178 *)
  | VMul m v => VMul (mforward k m) (vforward k v)            (* matrix_expressions.h:50-54 *)
  | VRow m i => VRow (mforward k m) i                         (* matrix_expressions.h:88-91 *)
  | VCol m j => VCol (mforward k m) j                         (* matrix_expressions.h:105-108 *)
  | VConst _ _ | VScal _ _ | VField _ _ | VGrad _ _ _ => v    (* inherited no-op *)
  end
with mforward (k : nat) (m : mexp) : mexp :=
  match m with
  | MDisc r c rows d _ => MDisc r c rows d (Some k)           (* matrix_expressions.h:218-220 *)
  | MBin o a b => MBin o (mforward k a) (mforward k b)        (* matrix_expressions.h:236-240 *)
  | MNeg a => MNeg (mforward k a)                             (* matrix_expressions.h:301-304 *)
  | MConst _ _ _ | MScal _ _ _ | MField _ _ _ | MHess _ _ _ => m   (* inherited no-op *)
  end.
