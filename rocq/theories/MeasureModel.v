(* Model of Simplex<Order, EmbedDim>::initialize() (fdaPDE/geometry/simplex.h:184-197): the inverse of the
   Jacobian and the measure.  double is R.  Order 0 (a point) is not modelled.
   Eigen's determinant() and inverse() of a matrix of fixed size up to 3 are the cofactor formulas
   (Eigen/src/LU/Determinant.h and InverseImpl.h); for a singular matrix the inverse is meaningless. *)
From Verif Require Export SimplexModel.
Local Open Scope R_scope.

Definition det (d : nat) (A : nat -> nat -> R) : R :=
  match d with
  | 1%nat => A 0%nat 0%nat
  | 2%nat => A 0%nat 0%nat * A 1%nat 1%nat - A 0%nat 1%nat * A 1%nat 0%nat
  | 3%nat => A 0%nat 0%nat * (A 1%nat 1%nat * A 2%nat 2%nat - A 1%nat 2%nat * A 2%nat 1%nat)
           - A 0%nat 1%nat * (A 1%nat 0%nat * A 2%nat 2%nat - A 1%nat 2%nat * A 2%nat 0%nat)
           + A 0%nat 2%nat * (A 1%nat 0%nat * A 2%nat 1%nat - A 1%nat 1%nat * A 2%nat 0%nat)
  | _ => 0
  end.
(* cofactor of entry (r, k), sign included [inverse() and determinant(), simplex.h:184-197] *)
Definition next3 (i : nat) : nat := match i with 0%nat => 1%nat | 1%nat => 2%nat | _ => 0%nat end.
(* inverse() and determinant(), simplex.h:184-197 *)
Definition cofactor (d : nat) (A : nat -> nat -> R) (r k : nat) : R :=
  match d with
  | 1%nat => 1
  | 2%nat => (if Nat.eqb r k then 1 else -1) * A (1 - r)%nat (1 - k)%nat
  | _ => A (next3 r) (next3 k) * A (next3 (next3 r)) (next3 (next3 k))
       - A (next3 r) (next3 (next3 k)) * A (next3 (next3 r)) (next3 k)
  end.
(* simplex.h:184-197 *)
Definition inverse (d : nat) (A : nat -> nat -> R) (k r : nat) : R := cofactor d A r k / det d A.

Section Initialize.
Variables (d N : nat).          (* local_dim, embed_dim *)
Variable c : nat -> vec.        (* coords_.col(i) *)
(* 187, 190; d rows, N columns *)
Definition cell_invJ : nat -> nat -> R :=
  if Nat.eqb d N then inverse d (jac c) else pinv d c (inverse d (gram N c)).
(* 188, 191-192.  The cross product only exists in space (N = 3). *)
Definition cell_measure : R :=
  if Nat.eqb d N then Rabs (det d (jac c)) / INR (fact d)
  else match d with
       | 2%nat => / 2 * norm 3 (cross (fun r => jac c r 0%nat) (fun r => jac c r 1%nat))
       | _ => norm N (fun r => jac c r 0%nat)
       end.
End Initialize.
(* 48-53 Unit() *)
Definition unit_simplex (i r : nat) : R := match i with O => 0 | S k => if Nat.eqb k r then 1 else 0 end.
