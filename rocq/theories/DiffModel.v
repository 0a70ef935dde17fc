(* Model of the scalar fields an optimiser differentiates: fields/scalar_field.h:42-88, fields/scalar_expressions.h:56-84 and
   fields/differentiable_field.h:32-75, with the field constructors fields/vector_field.h:48-52 and fields/matrix_field.h:47-51. *)
From Coq Require Import Reals List.
From Verif Require Import Base SimplexModel FieldModel.
Import ListNotations.
Local Open Scope R_scope.

(* VectorField<N>(const std::vector<F>&): vector_field.h:48-52.  VField takes its components as a function of the index; past the
   assertion every index below n is in the vector, so the default of nth is never used *)
Definition vector_field_of (n : nat) (v : list (vec -> R)) : Res vexp :=
  _ <- assert_ (length v =? n)%nat ;; Ok (VField n (fun i => nth i v (fun _ => 0))).
(* MatrixField<M,N,K>(const std::vector<F>&): matrix_field.h:47-51 *)
Definition matrix_field_of (n k : nat) (v : list (vec -> R)) : Res mexp :=
  _ <- assert_ (length v =? n * k)%nat ;; Ok (MField n k v).

(* an objective: the callable, the step h_ of the base class (scalar_expressions.h:60), and the derivatives handed over by the user *)
Inductive objective :=
| Plain (f : vec -> R) (h : R)                                     (* ScalarField<N>, scalar_field.h:58 *)
| Differentiable (f : vec -> R) (h : R) (df : vexp)                (* differentiable_field.h:35-48 *)
| TwiceDifferentiable (f : vec -> R) (h : R) (df : vexp) (ddf : mexp). (* differentiable_field.h:54-75 *)

(* double h_ = 1e-3: scalar_expressions.h:60 *)
Definition default_step : R := 1 / 1000.
(* explicit ScalarField(const FieldType& f): scalar_field.h:58 *)
Definition scalar_field (f : vec -> R) : objective := Plain f default_step.
(* DifferentiableScalarField(f, std::vector df): differentiable_field.h:45-46 *)
Definition differentiable (n : nat) (f : vec -> R) (df : list (vec -> R)) : Res objective :=
  g <- vector_field_of n df ;; Ok (Differentiable f default_step g).
(* TwiceDifferentiableScalarField(f, std::vector df, MatrixField ddf): differentiable_field.h:70-72; the Hessian is a MatrixField built from a vector *)
Definition twice_differentiable (n : nat) (f : vec -> R) (df ddf : list (vec -> R)) : Res objective :=
  H <- matrix_field_of n n ddf ;; g <- vector_field_of n df ;; Ok (TwiceDifferentiable f default_step g H).
(* set_step: scalar_expressions.h:79 *)
Definition set_step (o : objective) (h : R) : objective :=
  match o with
  | Plain f _ => Plain f h
  | Differentiable f _ df => Differentiable f h df
  | TwiceDifferentiable f _ df ddf => TwiceDifferentiable f h df ddf
  end.
(* operator()(x): scalar_field.h:86-87 *)
Definition obj_value (o : objective) (x : vec) : R :=
  match o with Plain f _ | Differentiable f _ _ | TwiceDifferentiable f _ _ _ => f x end.
(* derive(): scalar_expressions.h:81, hidden by differentiable_field.h:47 *)
Definition obj_derive (n : nat) (o : objective) : vexp :=
  match o with
  | Plain f h => VGrad n h (SField f)
  | Differentiable _ _ df | TwiceDifferentiable _ _ df _ => df
  end.
(* derive_twice(): scalar_expressions.h:82, hidden by differentiable_field.h:73 *)
Definition obj_derive_twice (n : nat) (o : objective) : mexp :=
  match o with
  | Plain f h | Differentiable f h _ => MHess n h (SField f)
  | TwiceDifferentiable _ _ _ ddf => ddf
  end.
