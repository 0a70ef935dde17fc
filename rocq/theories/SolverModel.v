(* Model of the PDE object (fdaPDE/pde/pde.h) and of the linear finite element solvers
   (fdaPDE/finite_elements/solvers/*.h).  double is R.  Eigen::SparseLU is a parameter: [lu n A] is None when
   the factorisation fails (info() != Success), otherwise the map b |-> solver.solve(b). *)
From Verif Require Export FemModel.
Local Open Scope R_scope.

(* SpMatrix<double>, fem_solver_base.h:94-95 *)
Definition mat := nat -> nat -> R.
(* DMatrix<double>: sizes and coefficients; coefficient access is unchecked [DMatrix<double>, fem_solver_base.h:92-93] *)
Record dmat := { drows : nat; dcols : nat; dval : mat }.
(* DMatrix<double>, fem_solver_base.h:92-93 *)
Definition dget (m : dmat) (i j : nat) : Res R :=
  if ((i <? drows m) && (j <? dcols m))%nat%bool then Ok (dval m i j) else UB.
(* a column vector as left by resize: None is an indeterminate coefficient [fem_linear_parabolic_solver.h:46-48] *)
Record dvec := { dsize : nat; dcoef : nat -> option R }.
(* reads v.block(off, 0, n, 1) *)
Definition read_block (v : dvec) (off n : nat) : Res vec :=
  if ((off + n <=? dsize v) && forallb (fun a => match dcoef v (off + a)%nat with Some _ => true | None => false end) (seq 0 n))%nat%bool
  then Ok (fun a => match dcoef v (off + a)%nat with Some x => x | None => 0 end) else UB.
(* v.block(off, 0, n, 1) = x *)
Definition write_block (v : dvec) (off n : nat) (x : vec) : Res dvec :=
  if (off + n <=? dsize v)%nat
  then Ok {| dsize := dsize v;
             dcoef := fun a => if ((off <=? a) && (a <? off + n))%nat%bool then Some (x (a - off)%nat) else dcoef v a |}
  else UB.
Definition write_coef (v : dvec) (i : nat) (x : R) : Res dvec :=
  if (i <? dsize v)%nat then Ok {| dsize := dsize v; dcoef := fun a => if (a =? i)%nat then Some x else dcoef v a |} else UB.

(* PDE<D, E, F, S>: forcing is a callable field or a matrix with one column per time point (pde.h:48-51) *)
Inductive source := Callable (f : vec -> R) | Sampled (d : dmat).

(* the PDE and its solver: pde.h:107-113, fem_solver_base.h:61-62 and 89-98 *)
Record pde := {
  diff_op : dop; forcing_data : source; time_domain : list R;
  initial_condition : nat * vec;                 (* size and coefficients *)
  boundary_data : dmat;
  is_init : bool; success : bool;
  stiff : mat; mass : mat; force : dvec;
  solution : list vec }.                         (* one vector per column *)

Section Solver.
Variable P : problem.                            (* mesh, basis and quadrature: n_dofs_, dofs_, integrator_ *)
Variable bdy : nat -> bool.                      (* boundary_dofs_ *)
Variable parabolic : bool.                       (* is_parabolic<E>, differential_operators.h:44-47, selects the solver *)
Variable lu : nat -> mat -> option (vec -> vec).
Let n := n_dofs P.

(* boundary_dofs_iterator: operator++ (fem_solver_base.h:75-80), begin and end (86-87) *)
Fixpoint scan (fuel i : nat) : nat :=
  match fuel with
  | O => i
  | S k => if ((i <? n) && negb (bdy i))%nat%bool then scan k (S i) else i
  end.
Definition next (i : nat) : nat := scan n (S i).
(* for (auto it = boundary_dofs_begin(); it != boundary_dofs_end(); ++it) body( *it ) [fem_solver_base.h:67-87] *)
Fixpoint boundary_loop {S : Type} (body : S -> nat -> Res S) (fuel i : nat) (s : S) : Res S :=
  if (i =? n)%nat then Ok s else
  match fuel with
  | O => OutOfFuel
  | Datatypes.S k => s' <- body s i ;; boundary_loop body k (next i) s'
  end.
(* fem_solver_base.h:67-87 *)
Definition on_boundary {S : Type} (body : S -> nat -> Res S) (s : S) : Res S := boundary_loop body n 0 s.
(* K.row(i) *= 0; K.coeffRef(i, i) = 1: fem_solver_base.h:148-149, fem_linear_parabolic_solver.h:52-53 *)
Definition identity_row (A : mat) (i : nat) : mat :=
  fun a b => if (a =? i)%nat then (if (b =? i)%nat then 1 else 0) else A a b.

(* fem_solver_base.h:104-139 *)
Definition init_force (s : pde) : Res dvec :=
  match forcing_data s with
  | Callable f =>                                                                       (* 129-134 *)
      v <- discretize_forcing P (FCall f) ;;
      write_block {| dsize := n; dcoef := fun _ => None |} 0 n v
  | Sampled d =>                                                                        (* 118-128 *)
      if (dcols d =? 0)%nat then UB else
      let col i := FData (drows d) (fun k => dval d k i) in
      v <- discretize_forcing P (col 0%nat) ;;
      F <- write_block {| dsize := n * dcols d; dcoef := fun _ => None |} 0 n v ;;
      if parabolic then
        foldM (fun F i => v <- discretize_forcing P (col i) ;; write_block F (n * i) n v) (seq 1 (dcols d - 1)) F
      else Ok F
  end.
Definition init (s : pde) : Res pde :=
  A <- discretize_operator P (diff_op s) ;;
  F <- init_force s ;;
  M <- discretize_operator P (Reac (SConst 1)) ;;
  Ok {| diff_op := diff_op s; forcing_data := forcing_data s; time_domain := time_domain s;
        initial_condition := initial_condition s; boundary_data := boundary_data s;
        is_init := true; success := success s; stiff := A; mass := M; force := F; solution := solution s |}.

(* fem_solver_base.h:142-155 *)
Definition dirichlet_body (g : dmat) (AF : mat * dvec) (i : nat) : Res (mat * dvec) :=
  let '(A, F) := AF in
  x <- dget g i 0 ;;
  F' <- write_coef F i x ;;
  Ok (identity_row A i, F').
Definition set_system (s : pde) (A : mat) (F : dvec) : pde :=
  {| diff_op := diff_op s; forcing_data := forcing_data s; time_domain := time_domain s;
     initial_condition := initial_condition s; boundary_data := boundary_data s;
     is_init := is_init s; success := success s; stiff := A; mass := mass s; force := F; solution := solution s |}.
Definition set_dirichlet_bc (s : pde) : Res pde :=
  if negb (is_init s) then Throw else
  AF <- on_boundary (dirichlet_body (boundary_data s)) (stiff s, force s) ;;
  Ok (set_system s (fst AF) (snd AF)).

(* fem_linear_elliptic_solver.h:42-48, fem_linear_parabolic_solver.h:57-70 *)
Definition set_result (s : pde) (ok : bool) (u : list vec) : pde :=
  {| diff_op := diff_op s; forcing_data := forcing_data s; time_domain := time_domain s;
     initial_condition := initial_condition s; boundary_data := boundary_data s;
     is_init := is_init s; success := ok; stiff := stiff s; mass := mass s; force := force s; solution := u |}.
(* fem_linear_elliptic_solver.h:34-50.  A right-hand side with other than n rows is rejected by Eigen (UB here). *)
Definition solve_elliptic (s : pde) : Res pde :=
  if negb (is_init s) then Throw else
  match lu n (stiff s) with
  | None => Ok (set_result s false (solution s))
  | Some solver =>
      if negb (dsize (force s) =? n)%nat then UB else
      b <- read_block (force s) 0 n ;;
      Ok (set_result s true [solver b])
  end.
(* fem_linear_parabolic_solver.h:37-72.  forcing_data().cols() does not compile for a callable forcing (UB here).
   The columns of the solution not yet computed are indeterminate: they are absent from the list. *)
Definition mulmv (A : mat) (x : vec) : vec := fun a => rsum n (fun b => A a b * x b).
Definition step (dT : R) (solver : vec -> vec) (s : pde) (u : list vec) (i : nat) : Res (list vec) :=
  ui <- nth_res u i ;;
  f <- read_block (force s) (n * (i + 1)) n ;;                                        (* 63 *)
  rhs <- on_boundary (fun r k => x <- dget (boundary_data s) k (i + 1) ;; Ok (fun a => if (a =? k)%nat then x else r a))
           (fun a => mulmv (fun a b => mass s a b / dT) ui a + f a) ;;                (* 65-67 *)
  Ok (u ++ [solver rhs]).                                                             (* 68 *)
Definition solve_parabolic (s : pde) : Res pde :=
  if negb (is_init s) then Throw else
  t1 <- nth_res (time_domain s) 1 ;;
  t0 <- nth_res (time_domain s) 0 ;;
  let dT := t1 - t0 in                                                                (* 42 *)
  match forcing_data s with
  | Callable _ => UB
  | Sampled d =>
      let m := dcols d in
      if (m =? 0)%nat || negb (fst (initial_condition s) =? n)%nat then UB else       (* 46-47 *)
      let u0 := snd (initial_condition s) in
      K <- on_boundary (fun K i => Ok (identity_row K i)) (fun a b => mass s a b / dT + stiff s a b) ;;   (* 49-54 *)
      match lu n K with
      | None => Ok (set_result s false [u0])
      | Some solver =>
          u <- foldM (step dT solver s) (seq 0 (m - 1)) [u0] ;;                       (* 62-69 *)
          Ok (set_result s true u)
      end
  end.

(* pde.h:102-105 *)
Definition solve (s : pde) : Res pde :=
  s' <- (if (drows (boundary_data s) * dcols (boundary_data s) =? 0)%nat then Ok s else set_dirichlet_bc s) ;;
  if parabolic then solve_parabolic s' else solve_elliptic s'.

(* the public calls that change the object: pde.h:74-77, 101-105.  set_differential_operator keeps the type of
   the operator, hence [parabolic]. *)
Inductive call :=
| Init | Solve
| SetForcing (f : source) | SetOperator (op : dop) | SetBoundary (g : dmat) | SetInitial (u : nat * vec).
Definition apply (s : pde) (c : call) : Res pde :=
  match c with
  | Init => init s
  | Solve => solve s
  | SetForcing f => Ok {| diff_op := diff_op s; forcing_data := f; time_domain := time_domain s;
        initial_condition := initial_condition s; boundary_data := boundary_data s;
        is_init := is_init s; success := success s; stiff := stiff s; mass := mass s; force := force s; solution := solution s |}
  | SetOperator op => Ok {| diff_op := op; forcing_data := forcing_data s; time_domain := time_domain s;
        initial_condition := initial_condition s; boundary_data := boundary_data s;
        is_init := is_init s; success := success s; stiff := stiff s; mass := mass s; force := force s; solution := solution s |}
  | SetBoundary g => Ok {| diff_op := diff_op s; forcing_data := forcing_data s; time_domain := time_domain s;
        initial_condition := initial_condition s; boundary_data := g;
        is_init := is_init s; success := success s; stiff := stiff s; mass := mass s; force := force s; solution := solution s |}
  | SetInitial u => Ok {| diff_op := diff_op s; forcing_data := forcing_data s; time_domain := time_domain s;
        initial_condition := u; boundary_data := boundary_data s;
        is_init := is_init s; success := success s; stiff := stiff s; mass := mass s; force := force s; solution := solution s |}
  end.
(* a history of calls; an exception is caught by the caller and leaves the object as it was (both throw
   statements precede every update) *)
(* a client of pde.h:58-105 *)
Fixpoint run (s : pde) (cs : list call) : Res pde :=
  match cs with
  | [] => Ok s
  | c :: cs => match apply s c with Ok s' => run s' cs | Throw => run s cs | UB => UB | OutOfFuel => OutOfFuel end
  end.
(* constructors, pde.h:58-71 *)
Definition make_pde (op : dop) (f : source) (t : list R) : pde :=
  {| diff_op := op; forcing_data := f; time_domain := t; initial_condition := (0%nat, fun _ => 0);
     boundary_data := {| drows := 0; dcols := 0; dval := fun _ _ => 0 |}; is_init := false; success := false;
     stiff := fun _ _ => 0; mass := fun _ _ => 0; force := {| dsize := 0; dcoef := fun _ => None |}; solution := [] |}.
End Solver.
