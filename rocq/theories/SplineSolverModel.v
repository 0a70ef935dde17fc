(* Model of the spline PDE solver: SplineSolverBase (fdaPDE/splines/solvers/spline_solver_base.h:33-88),
   SplineLinearEllipticSolver (spline_linear_elliptic_solver.h:28-53) and the calls of PDE that reach them (pde.h:74-105).
   The tags SPLINE and spline_order<R> (spline_symbols.h:23, 33-35) are the choice of this model and the number r. *)
From Verif Require Export SplineModel SolverModel.
Local Open Scope R_scope.

(* spline_solver_base.h:45-49: the nodes mapped onto [-1, 1].  nodes()[0] of an empty domain is out of bounds; a domain of
   length zero divides by zero (not a finite double: UB here) *)
Definition reference_nodes (u : list R) : Res (list R) :=
  a <- nth_res u 0 ;;
  b <- nth_res u (length u - 1) ;;
  if Req_EM_T b a then UB else Ok (map (fun x => 1 / (b - a) * (2 * x - (b + a))) u).
(* the members of the solver (77-87) and the data of the PDE object it reads.  force_ and solution_ start as 0 x 0 matrices *)
Record spde := {
  sp_op : sop;                       (* diff_op_ *)
  sp_forcing : source;               (* forcing_data_ *)
  sp_boundary : dmat;                (* boundary_data_ *)
  sp_nodes : list R;                 (* domain_->nodes() *)
  sp_knots : list R;                 (* basis_.knots_ *)
  sp_ref_knots : list R;             (* reference_basis_.knots_ *)
  sp_init : bool;                    (* is_init *)
  sp_success : bool;                 (* success *)
  sp_stiff : mat;
  sp_mass : mat;
  sp_force : dmat;
  sp_solution : dmat }.
(* a default constructed DMatrix, spline_solver_base.h:38-45 *)
Definition empty_dmat : dmat := {| drows := 0; dcols := 0; dval := fun _ _ => 0 |}.
(* PDE(domain, diff_op, forcing) with the solver built by 43-50 *)
Definition spline_pde (r : nat) (u : list R) (op : sop) (f : source) : Res spde :=
  t <- pad_knots r u ;;
  v <- reference_nodes u ;;
  s <- pad_knots r v ;;
  Ok {| sp_op := op; sp_forcing := f; sp_boundary := empty_dmat; sp_nodes := u; sp_knots := t; sp_ref_knots := s; sp_init := false; sp_success := false;
        sp_stiff := fun _ _ => 0; sp_mass := fun _ _ => 0; sp_force := empty_dmat; sp_solution := empty_dmat |}.
(* 58: n_dofs, 59: dofs_coords *)
Definition spline_dofs (r : nat) (s : spde) : nat := basis_size r (sp_knots s).
Definition spline_coords (s : spde) : list R := sp_nodes s.
(* 66-79: every operator of the library is symmetric except advection, which has no SPLINE version *)
Definition spline_init (r : nat) (s : spde) : Res spde :=
  A <- spline_discretize r (sp_knots s) true (sp_op s) ;;
  M <- spline_discretize r (sp_knots s) true (SReac (fun _ => 1)) ;;
  Ok {| sp_op := sp_op s; sp_forcing := sp_forcing s; sp_boundary := sp_boundary s; sp_nodes := sp_nodes s; sp_knots := sp_knots s; sp_ref_knots := sp_ref_knots s;
        sp_init := true; sp_success := sp_success s; sp_stiff := A; sp_mass := M; sp_force := sp_force s; sp_solution := sp_solution s |}.
Section Solve.
Variables (r : nat) (lu : nat -> mat -> option (vec -> vec)).
(* set_dirichlet_bc, 80: does nothing *)
Definition spline_dirichlet (s : spde) : Res spde := Ok s.
Definition spline_result (s : spde) (ok : bool) (x : dmat) : spde :=
  {| sp_op := sp_op s; sp_forcing := sp_forcing s; sp_boundary := sp_boundary s; sp_nodes := sp_nodes s; sp_knots := sp_knots s; sp_ref_knots := sp_ref_knots s;
     sp_init := sp_init s; sp_success := ok; sp_stiff := sp_stiff s; sp_mass := sp_mass s; sp_force := sp_force s; sp_solution := x |}.
(* spline_linear_elliptic_solver.h:34-52.  A right-hand side with other than n rows is rejected by Eigen (UB here) *)
Definition spline_elliptic (s : spde) : Res spde :=
  if negb (sp_init s) then Throw else
  let n := spline_dofs r s in
  match lu n (sp_stiff s) with
  | None => Ok (spline_result s false (sp_solution s))
  | Some solver =>
      if negb (drows (sp_force s) =? n)%nat then UB else
      Ok (spline_result s true {| drows := n; dcols := dcols (sp_force s); dval := fun i j => solver (fun k => dval (sp_force s) k j) i |})
  end.
(* pde.h:102-105 *)
Definition spline_solve (s : spde) : Res spde :=
  s' <- (if (drows (sp_boundary s) * dcols (sp_boundary s) =? 0)%nat then Ok s else spline_dirichlet s) ;;
  spline_elliptic s'.
(* the calls which change the object: pde.h:74-76, 101-105 *)
Inductive scall := SSetForcing (f : source) | SSetOperator (op : sop) | SSetBoundary (g : dmat) | SInit | SSolve.
Definition sset (s : spde) (op : sop) (f : source) (g : dmat) : spde :=
  {| sp_op := op; sp_forcing := f; sp_boundary := g; sp_nodes := sp_nodes s; sp_knots := sp_knots s; sp_ref_knots := sp_ref_knots s;
     sp_init := sp_init s; sp_success := sp_success s; sp_stiff := sp_stiff s; sp_mass := sp_mass s; sp_force := sp_force s; sp_solution := sp_solution s |}.
Definition sapply (s : spde) (c : scall) : Res spde :=
  match c with
  | SSetForcing f => Ok (sset s (sp_op s) f (sp_boundary s))
  | SSetOperator op => Ok (sset s op (sp_forcing s) (sp_boundary s))
  | SSetBoundary g => Ok (sset s (sp_op s) (sp_forcing s) g)
  | SInit => spline_init r s
  | SSolve => spline_solve s
  end.
Definition srun (s : spde) (l : list scall) : Res spde := foldM sapply l s.
End Solve.
