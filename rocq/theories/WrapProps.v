(* C126: the type-erased PDE and optimizer forward every call to the method of the same name. *)
From Verif Require Import Base TraitsModel TraitsProps WrapModel.

(* the method a caller means *)
Definition pde_meaning (c : pde_call) (m : option pde_method) : Prop :=
  match c with
  | W_init => m = Some M_init | W_solve => m = Some M_solve | W_solution => m = Some M_solution | W_force => m = Some M_force
  | W_stiff => m = Some M_stiff | W_mass => m = Some M_mass | W_quadrature_nodes => m = Some M_quadrature_nodes
  | W_n_dofs => m = Some M_n_dofs | W_dof_coords => m = Some M_dof_coords | W_forcing_data => m = Some M_forcing_data
  | W_time_domain => m = Some M_time_domain | W_initial_condition => m = Some M_initial_condition
  | W_eval_basis t => (t = 0%Z -> m = Some M_eval_pointwise) /\ (t = 1%Z -> m = Some M_eval_areal) /\ (t <> 0%Z -> t <> 1%Z -> m = None)
  | W_set_forcing => m = Some M_set_forcing | W_set_dirichlet_bc => m = Some M_set_dirichlet_bc
  | W_set_initial_condition => m = Some M_set_initial_condition | W_set_differential_operator => m = Some M_set_differential_operator
  end.
Definition opt_meaning (c : opt_call) (m : option opt_method) : Prop :=
  match c with W_optimize => m = Some M_optimize | W_optimum => m = Some M_optimum | W_value => m = Some M_value end.

Lemma reached_ok {M C} (fn_ptrs : list M) (slot : C -> option nat) before after iface old c :
  NoDup (map fst (before ++ (iface, fn_ptrs) :: after)) ->
  (Z.of_nat (length (concat (map snd (before ++ (iface, fn_ptrs) :: after)))) < 2 ^ 15)%Z -> fn_ptrs <> [] ->
  (forall n, slot c = Some n -> n < length fn_ptrs) ->
  reached fn_ptrs slot before after iface old c = Ok (match slot c with None => None | Some n => nth_error fn_ptrs n end).
Proof.
  intros Hd Hs Hne Hn. destruct (C88_dispatch (before ++ (iface, fn_ptrs) :: after) old Hd) as (vt & off & E & D); auto.
  { rewrite map_app, concat_app. cbn. intros X. apply app_eq_nil in X. destruct X as [_ X]. apply app_eq_nil in X. tauto. }
  unfold reached. rewrite E. cbn [bind fst snd]. destruct (slot c) as [n|]; auto.
  destruct (nth_error fn_ptrs n) as [m|] eqn:Em.
  - rewrite (D (length before) iface fn_ptrs n m); auto. rewrite nth_error_app2, Nat.sub_diag by lia. reflexivity.
  - apply nth_error_None in Em. specialize (Hn n eq_refl). lia.
Qed.
(* whatever other interfaces the wrapper carries *)
Theorem C126_pde before after iface old c : NoDup (map fst (before ++ (iface, pde_fn_ptrs) :: after)) ->
  (Z.of_nat (length (concat (map snd (before ++ (iface, pde_fn_ptrs) :: after)))) < 2 ^ 15)%Z ->
  exists m, reached pde_fn_ptrs pde_slot before after iface old c = Ok m /\ pde_meaning c m.
Proof.
  intros Hd Hs. eexists. split.
  - apply reached_ok; auto; [discriminate|]. intros n. destruct c; cbn; try (intros [= <-]; lia). destruct eval_type as [|[| |]|]; intros [=]; subst; lia.
  - destruct c; cbn; auto. repeat split; intros; subst; auto. destruct eval_type as [|[| |]|]; cbn; auto; congruence.
Qed.
Theorem C126_optimizer before after iface old c : NoDup (map fst (before ++ (iface, opt_fn_ptrs) :: after)) ->
  (Z.of_nat (length (concat (map snd (before ++ (iface, opt_fn_ptrs) :: after)))) < 2 ^ 15)%Z ->
  exists m, reached opt_fn_ptrs opt_slot before after iface old c = Ok m /\ opt_meaning c m.
Proof.
  intros Hd Hs. eexists. split.
  - apply reached_ok; auto; [discriminate|]. intros n. destruct c; cbn; intros [= <-]; lia.
  - destruct c; cbn; auto.
Qed.
(* with a second interface of the same class in front *)
Example C126_example : exists m, reached pde_fn_ptrs pde_slot [(3, [M_stiff; M_mass])] [] 5 [] (W_eval_basis 1) = Ok m /\ m = Some M_eval_areal.
Proof. eexists. split; reflexivity. Qed.
Print Assumptions C126_pde.
Print Assumptions C126_optimizer.
