(* The two type-erasure interfaces of the library: PDE__ (fdaPDE/pde/pde.h:117-164) and Optimizer__
   (fdaPDE/optimization/optimizer.h:27-38).  An interface lists member pointers of the wrapped class and forwards each of its own
   methods to invoke<Ret, n>, the n-th of them.  Only the selection of the method is modelled (vtable_init and dispatch of
   TraitsModel); arguments and results are those of C87. *)
From Verif Require Import Base TraitsModel.

(* the members of PDE, pde.h:74-103 *)
Inductive pde_method :=
| M_init | M_solve | M_solution | M_force | M_stiff | M_mass | M_quadrature_nodes | M_n_dofs | M_dof_coords | M_forcing_data
| M_time_domain | M_initial_condition | M_eval_pointwise | M_eval_areal
| M_set_forcing | M_set_dirichlet_bc | M_set_initial_condition | M_set_differential_operator.
(* PDE__::fn_ptrs, pde.h:119-134 *)
Definition pde_fn_ptrs : list pde_method :=
  [M_init; M_solve; M_solution; M_force; M_stiff; M_mass; M_quadrature_nodes; M_n_dofs; M_dof_coords; M_forcing_data;
   M_time_domain; M_initial_condition; M_eval_pointwise; M_eval_areal;
   M_set_forcing; M_set_dirichlet_bc; M_set_initial_condition; M_set_differential_operator].
(* the methods of the wrapper, pde.h:136-163 *)
Inductive pde_call :=
| W_init | W_solve | W_solution | W_force | W_stiff | W_mass | W_quadrature_nodes | W_n_dofs | W_dof_coords | W_forcing_data
| W_time_domain | W_initial_condition | W_eval_basis (eval_type : Z)
| W_set_forcing | W_set_dirichlet_bc | W_set_initial_condition | W_set_differential_operator.
(* pde.h:136-163: the second template argument of invoke; None is the empty optional *)
Definition pde_slot (c : pde_call) : option nat :=
  match c with
  | W_init => Some 0 | W_solve => Some 1 | W_solution => Some 2 | W_force => Some 3 | W_stiff => Some 4 | W_mass => Some 5
  | W_quadrature_nodes => Some 6 | W_n_dofs => Some 7 | W_dof_coords => Some 8 | W_forcing_data => Some 9
  | W_time_domain => Some 10 | W_initial_condition => Some 11
  | W_eval_basis t => match t with 0%Z => Some 12 | 1%Z => Some 13 | _ => None end
  | W_set_forcing => Some 14 | W_set_dirichlet_bc => Some 15 | W_set_initial_condition => Some 16
  | W_set_differential_operator => Some 17
  end.

(* optimizer.h:30-36 *)
Inductive opt_method := M_optimize | M_optimum | M_value.
Definition opt_fn_ptrs : list opt_method := [M_optimize; M_optimum; M_value].
Inductive opt_call := W_optimize | W_optimum | W_value.
Definition opt_slot (c : opt_call) : option nat := match c with W_optimize => Some 0 | W_optimum => Some 1 | W_value => Some 2 end.

(* the member of the wrapped object that runs when call c is made on a wrapper built from an object (type_erasure.h:218-275).
   iface: the position of the interface in the template arguments of erase; others: the interfaces before and after it *)
Definition reached {M C} (fn_ptrs : list M) (slot : C -> option nat) (before after : list (nat * list M)) (iface : nat) (old : list (nat * Z))
    (c : C) : Res (option M) :=
  r <- vtable_init (before ++ (iface, fn_ptrs) :: after) old ;;
  match slot c with
  | None => Ok None
  | Some n => m <- dispatch (fst r) (snd r) iface n ;; Ok (Some m)
  end.
