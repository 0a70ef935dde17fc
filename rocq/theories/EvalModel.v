(* Model of the evaluation of Lagrangian bases: LagrangianBasis::operator(), pointwise_evaluation and areal_evaluation
   (fdaPDE/finite_elements/basis/lagrangian_basis.h:186-283).
   The point location is an argument: None is the id -1 (its own properties are C37 and C47). *)
From Verif Require Export Base FemModel.

Section Eval.
Variables (P : problem) (node0 : nat -> vec).            (* e.node(0) *)
(* e.invJ() * (p - e.node(0)) *)
Definition pull (e : nat) (p : vec) : vec := fun k => rsum (edim P) (fun r => invJ P e k r * (p r - node0 e r)).
(* domain.cell(id): an id out of range is undefined behaviour [lagrangian_basis.h:192, 221, 260] *)
Definition cell (id : nat) : Res nat := if (id <? n_cells P)%nat then Ok id else UB.
(* setFromTriplets on a rows x cols matrix [lagrangian_basis.h:231, 279] *)
Definition set_triplets (rows cols : nat) (l : list triplet) : Res (nat -> nat -> R) :=
  if forallb (fun t => let '(r, c, _) := t in ((r <? rows) && (c <? cols))%nat%bool) l then Ok (entry_of l) else UB.
(* 203-235.  locs.cols() == embed_dim is a matter of types here *)
Definition pointwise_triplets (locate : vec -> option nat) (i : nat) (p : vec) : Res (list triplet) :=
  match locate p with
  | None => Ok []                                                                              (* 221 *)
  | Some id =>
      e <- cell id ;;
      Ok (map (fun h => (i, dof P e h, ref_psi P h (pull e p))) (seq 0 (n_basis P)))           (* 224-228 *)
  end.
Definition pointwise_evaluation (locate : vec -> option nat) (locs : list vec) : Res ((nat -> nat -> R) * (nat -> R)) :=
  _ <- assert_ (negb (length locs =? 0)%nat) ;;                                                (* 210 *)
  l <- foldM (fun acc ip => t <- pointwise_triplets locate (fst ip) (snd ip) ;; Ok (acc ++ t))
         (combine (seq 0 (length locs)) locs) [] ;;
  Psi <- set_triplets (length locs) (n_dofs P) l ;;
  Ok (Psi, fun _ => 1).                                                                        (* 233 *)
(* 237-283.  inc k l is the test locs(k, l) == 1; the triplets of row k are divided by Di before the next row, so
   the division is done row by row here *)
Definition areal_cell (k : nat) (inc : nat -> nat -> bool) (s : list triplet * R) (l : nat) : Res (list triplet * R) :=
  if inc k l then
    e <- cell l ;;
    t <- foldM (fun acc h => v <- integrate_cell P (FCall (fun q => ref_psi P h (pull e q))) e ;;   (* 262-268 *)
                             Ok (acc ++ [(k, dof P e h, v)])) (seq 0 (n_basis P)) (fst s) ;;
    Ok (t, snd s + measure P e)                                                                (* 271 *)
  else Ok s.
Definition areal_row (inc : nat -> nat -> bool) (cols k : nat) : Res (list triplet * R) :=
  s <- foldM (areal_cell k inc) (seq 0 cols) ([], 0) ;;
  Ok (map (fun t => let '(r, c, v) := t in (r, c, v / snd s)) (fst s), snd s).                  (* 275-276 *)
Definition areal_evaluation (rows cols : nat) (inc : nat -> nat -> bool) : Res ((nat -> nat -> R) * (nat -> R)) :=
  _ <- assert_ (negb (rows * cols =? 0)%nat && (cols =? n_cells P)%nat) ;;                      (* 244 *)
  s <- foldM (fun s k => r <- areal_row inc cols k ;; Ok (fst s ++ fst r, snd s ++ [snd r]))
         (seq 0 rows) ([], []) ;;
  Psi <- set_triplets rows (n_dofs P) (fst s) ;;
  Ok (Psi, fun k => nth k (snd s) 0).
(* operator()(c, locs), 186-200.  node_ids e is the array of the vertices of e, whose size is n_nodes_per_cell *)
Definition expansion (locate : vec -> option nat) (node_ids : nat -> list nat) (size : nat) (c : nat -> R) (c_rows : nat)
    (locs : list vec) : Res (list R) :=
  _ <- assert_ (c_rows =? size)%nat ;;
  mapM (fun p =>
    match locate p with
    | None => UB                                                                                (* cell(-1) *)
    | Some id =>
        e <- cell id ;;
        sum_loop (n_basis P) (fun h =>
          id <- nth_res (node_ids e) h ;;
          x <- entry c_rows c id ;;
          Ok (x * ref_psi P h (pull e p)))
    end) locs.
End Eval.
