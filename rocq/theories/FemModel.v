(* Model of the differential operator expressions (fdaPDE/pde/differential_expressions.h), their weak forms
   (fdaPDE/finite_elements/operators), the quadrature (fdaPDE/utils/integration/integrator.h) and the
   finite element assembler (fdaPDE/finite_elements/fem_assembler.h).
   double is R.  Nonlinear operators (the buffer f_ of active coefficients) are not modelled. *)
From Verif Require Export Base RSum SimplexModel FieldModel.

(* operator expressions: leaves of operators/*.h, nodes of differential_expressions.h [differential_expressions.h:38-135; integrate() of finite_elements/operators/*.h] *)
Inductive dop : Type :=
| Lap                        (* Laplacian<FEM>, operators/laplacian.h:30-45 *)
| Diff (K : mexp)            (* Diffusion<FEM, T>, operators/diffusion.h:32-56; an Eigen matrix is MConst *)
| Adv (b : vexp)             (* Advection<FEM, T>, operators/advection.h:33-57; an Eigen vector is VConst *)
| Reac (c : sexp)            (* Reaction<FEM, T>, operators/reaction.h:31-54; a double is SConst *)
| Dt                         (* dT<FEM>, operators/dt.h:28-37 *)
| DScal (c : R)              (* DifferentialScalar, differential_expressions.h:99-112 *)
| DBin (o : binop) (a b : dop)   (* DifferentialBinOp, 53-94: o is +, - (95-96) or * with a DScal on the left (114-118) *)
| DNeg (a : dop).            (* DifferentialNegateOp, 121-135 *)

(* is_symmetric: 72, 111, 134 and operators/*.h *)
Fixpoint is_symmetric (e : dop) : bool :=
  match e with
  | Lap | Diff _ | Reac _ | Dt | DScal _ => true
  | Adv _ => false
  | DBin _ a b => is_symmetric a && is_symmetric b
  | DNeg a => is_symmetric a
  end.
(* is_space_varying: 71, 111, 134 and operators/*.h: a constant coefficient is an Eigen object or a double *)
Definition mvarying (K : mexp) : bool := match K with MConst _ _ _ => false | _ => true end.
Definition vvarying (b : vexp) : bool := match b with VConst _ _ => false | _ => true end.
Definition svarying (c : sexp) : bool := match c with SConst _ => false | _ => true end.
Fixpoint is_space_varying (e : dop) : bool :=
  match e with
  | Lap | Dt | DScal _ => false
  | Diff K => mvarying K | Adv b => vvarying b | Reac c => svarying c
  | DBin _ a b => is_space_varying a || is_space_varying b
  | DNeg a => is_space_varying a
  end.

(* mem_buffer of fem_assembler.h:70-72: psi_i, psi_j, their gradients, (J^-1)^T.  L: local_dim, N: embed_dim *)
Record buffer := { psi_i : vec -> R; psi_j : vec -> R; nabla_i : nat -> vec -> R; nabla_j : nat -> vec -> R;
                   invJ_t : nat -> nat -> R }.
Section WeakForm.
Variables (L N : nat) (m : buffer).
Definition mapped_i : vexp := VMul (MConst N L (invJ_t m)) (VField L (nabla_i m)).   (* invJ * nabla_psi_i *)
(* advection.h:49-52, diffusion.h:48-51, laplacian.h:37-40 *)
Definition mapped_j : vexp := VMul (MConst N L (invJ_t m)) (VField L (nabla_j m)).
(* integrate(mem_buffer): differential_expressions.h:66-68, 107-109, 130-132 and operators/*.h *)
Fixpoint weak_form (e : dop) : sexp :=
  match e with
  | Lap => SNeg (SDot mapped_i mapped_j)                              (* laplacian.h:43 *)
  | Diff K => SNeg (SDot mapped_i (VMul K mapped_j))                  (* diffusion.h:54 *)
  | Adv b => SBin OMul (SField (psi_i m)) (SDot mapped_j b)           (* advection.h:55 *)
  | Reac c => SBin OMul (SBin OMul c (SField (psi_i m))) (SField (psi_j m))   (* reaction.h:52 *)
  | Dt => SConst 0                                                    (* dt.h:34-36, the zero field *)
  | DScal c => SConst c
  | DBin o a b => SBin o (weak_form a) (weak_form b)
  | DNeg a => SNeg (weak_form a)
  end.
End WeakForm.

(* remove_operator<T>, differential_expressions.h:76-93.  T ranges over the templates with one parameter
   (76), i.e. Laplacian and dT.  None: the expression does not compile (no remove_operator member). *)
Inductive kind := KLap | KDt.
Definition is_kind (T : kind) (e : dop) : bool :=
  match T, e with KLap, Lap | KDt, Dt => true | _, _ => false end.
(* has_instance_of<T, get_operator_type()>: 45, 69, 110, 133 *)
Fixpoint has_kind (T : kind) (e : dop) : bool :=
  match e with DBin _ a b => has_kind T a || has_kind T b | DNeg a => has_kind T a | _ => is_kind T e end.
Definition is_bin (e : dop) : bool := match e with DBin _ _ _ => true | _ => false end.
Fixpoint remove_operator (T : kind) (e : dop) : option dop :=
  match e with
  | DBin o a b =>
      if negb (has_kind T e) then Some e                              (* 78 *)
      else if is_kind T a then Some b                                 (* 80-81 *)
      else if is_kind T b then Some a                                 (* 82-83 *)
      else if is_bin a && negb (is_bin b) then
        match remove_operator T a with Some a' => Some (DBin o a' b) | None => None end      (* 85-87 *)
      else if negb (is_bin a) && is_bin b then
        match remove_operator T b with Some b' => Some (DBin o a b') | None => None end      (* 88-90 *)
      else match remove_operator T a, remove_operator T b with        (* 91-92 *)
           | Some a', Some b' => Some (DBin o a' b') | _, _ => None end
  | _ => None
  end.

(* the discretised problem [members of fem_assembler.h:38-49] *)
Record problem := {
  ldim : nat; edim : nat;                       (* local_dim, embed_dim *)
  n_cells : nat; n_basis : nat; n_dofs : nat;
  dof : nat -> nat -> nat;                      (* dof_table_(cell id, i) *)
  measure : nat -> R;                           (* e.measure() *)
  invJ : nat -> nat -> nat -> R;                (* e.invJ() *)
  affine : nat -> vec -> vec;                   (* e.J() * p + e.node(0) *)
  ref_psi : nat -> vec -> R;                    (* reference_basis_[i] *)
  ref_nabla : nat -> nat -> vec -> R;           (* reference_basis_[i].derive(), component k *)
  n_nodes : nat; node : nat -> vec; weight : nat -> R }.   (* integration_table_ *)

Section Assembly.
Variable P : problem.
(* fem_assembler.h:81, 89-93 *)
Definition buffer_at (e i j : nat) : buffer :=
  {| psi_i := ref_psi P i; psi_j := ref_psi P j; nabla_i := ref_nabla P i; nabla_j := ref_nabla P j;
     invJ_t := fun r k => invJ P e k r |}.
Definition form (op : dop) (e i j : nat) : sexp := weak_form (ldim P) (edim P) (buffer_at e i j) op.
(* integrator.h:93-106.  The weak form is one object whose discretised leaves are re-forwarded at each node;
   by C72_forward_again the row selected before is irrelevant, so every node starts from the fresh form. *)
Definition integrate_weak_form (op : dop) (e i j : nat) : Res R :=
  v <- sum_loop (n_nodes P) (fun q =>
         let f := if is_space_varying op then sforward (n_nodes P * e + q) (form op e i j) else form op e i j in
         y <- seval f (node P q) ;; Ok (y * weight P q)) ;;
  Ok (v * measure P e).
(* integrator.h:74-90: a field evaluated at the mapped node, or data at row num_nodes * id + iq *)
Inductive forcing := FCall (f : vec -> R) | FData (rows : nat) (d : nat -> R).
Definition integrate_basis (f : forcing) (e i : nat) : Res R :=
  v <- sum_loop (n_nodes P) (fun q =>
         y <- match f with
              | FCall f => Ok (f (affine P e (node P q)))
              | FData rows d => entry rows d (n_nodes P * e + q)
              end ;;
         Ok (y * ref_psi P i (node P q) * weight P q)) ;;
  Ok (v * measure P e).
(* integrator.h:45-60 and 62-69 *)
Definition integrate_cell (f : forcing) (e : nat) : Res R :=
  v <- sum_loop (n_nodes P) (fun q =>
         y <- match f with
              | FCall f => Ok (f (affine P e (node P q)))
              | FData rows d => entry rows d (n_nodes P * e + q)
              end ;;
         Ok (y * weight P q)) ;;
  Ok (v * measure P e).
Definition integrate_mesh (f : forcing) : Res R := sum_loop (n_cells P) (integrate_cell f).

Definition triplet := (nat * nat * R)%type.
(* fem_assembler.h:79-110 *)
Definition local_pairs : list (nat * nat) := list_prod (seq 0 (n_basis P)) (seq 0 (n_basis P)).
Definition cell_triplets (op : dop) (e : nat) (acc : list triplet) : Res (list triplet) :=
  foldM (fun acc ij =>
    let '(i, j) := ij in
    if is_symmetric op && negb (dof P e j <=? dof P e i)%nat then Ok acc
    else value <- integrate_weak_form op e i j ;; Ok (acc ++ [(dof P e i, dof P e j, value)]))
    local_pairs acc.
Definition triplets (op : dop) : Res (list triplet) :=
  foldM (fun acc e => cell_triplets op e acc) (seq 0 (n_cells P)) [].
(* setFromTriplets: duplicates are summed; an index out of range is undefined behaviour [fem_assembler.h:112] *)
Definition entry_of (l : list triplet) (a b : nat) : R :=
  lsum (map (fun t => let '(r, c, v) := t in if ((r =? a) && (c =? b))%nat%bool then v else 0) l).
(* fem_assembler.h:112 *)
Definition from_triplets (l : list triplet) : Res (nat -> nat -> R) :=
  if forallb (fun t => let '(r, c, _) := t in ((r <? n_dofs P) && (c <? n_dofs P))%nat%bool) l
  then Ok (entry_of l) else UB.
(* fem_assembler.h:112-120 *)
Definition discretize_operator (op : dop) : Res (nat -> nat -> R) :=
  l <- triplets op ;;
  A <- from_triplets l ;;
  Ok (if is_symmetric op then fun a b => if (b <=? a)%nat then A a b else A b a else A).
(* fem_assembler.h:122-136 *)
Definition add_at (v : nat -> R) (k : nat) (x : R) : nat -> R := fun a => if (a =? k)%nat then v a + x else v a.
Definition discretize_forcing (f : forcing) : Res (nat -> R) :=
  foldM (fun v ei => let '(e, i) := ei in
    x <- integrate_basis f e i ;;
    if (dof P e i <? n_dofs P)%nat then Ok (add_at v (dof P e i) x) else UB)
    (list_prod (seq 0 (n_cells P)) (seq 0 (n_basis P))) (fun _ => 0).
End Assembly.

(* integrator.h:109-121: row num_nodes * id + iq of the matrix of quadrature nodes is the iq-th node mapped
   onto cell id.  Rows are written in cell order. *)
Definition quadrature_nodes (P : problem) : list vec :=
  flat_map (fun e => map (fun q => affine P e (node P q)) (seq 0 (n_nodes P))) (seq 0 (n_cells P)).
