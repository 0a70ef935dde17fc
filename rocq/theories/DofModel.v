(* Model of the numbering of the degrees of freedom of LagrangianBasis<Triangulation<2, N>, Order>
   (fdaPDE/finite_elements/basis/lagrangian_basis.h:94-136) and of their coordinates (159-183).
   Order 2 on Triangulation<3, 3> does not compile: adjacent_cells() of an edge is an unordered_set there
   (tetrahedron.h:65) and has no operator[]. *)
From Verif Require Export TriModel SimplexModel.
From Coq Require Import Reals.

(* Order == 1, lines 96-99: table, size, boundary *)
Definition enumerate_dofs1 (cells : list (list nat)) (n_nodes : nat) (markers : list bool) :=
  (cells, n_nodes, markers).

(* 114-122: the first local edge of cell id whose nodes, sorted, are those of the edge; the number of
   local edges if there is none *)
Fixpoint find_local (cells pattern : list (list nat)) (id : nat) (e : list nat) (js : list nat) : Res nat :=
  match js with
  | [] => Ok (length pattern)
  | j :: js =>
      k <- make_facet cells pattern id j ;;
      if id_list_eqb e k then Ok j else find_local cells pattern id e js
  end.
(* dofs_ (None is uninitialised memory), next, boundary_set [lagrangian_basis.h:101-107] *)
Record numbering := Numbering { table : list (list (option nat)); next : nat; bset : list nat }.
(* 111-126: the two adjacent cells of the edge, -1 skipped *)
Definition put_in_cell (cells pattern : list (list nat)) (e : list nat) (on_boundary : bool)
    (s : numbering) (id : option nat) : Res numbering :=
  match id with
  | None => Ok s
  | Some id =>
      j <- find_local cells pattern id e (seq 0 (length pattern)) ;;
      t <- set2 (table s) id (3 + j) (Some (next s)) ;;
      Ok (Numbering t (next s) (if on_boundary then next s :: bset s else bset s))
  end.
(* 110-128 *)
Definition put_edge (cells pattern : list (list nat)) (mesh : facets) (s : numbering) (h : nat) : Res numbering :=
  e <- nth_res (f_nodes mesh) h ;;
  ac <- nth_res (f_cells mesh) h ;;
  m <- nth_res (f_mark mesh) h ;;
  s' <- foldM (put_in_cell cells pattern e m) [Some (fst ac); snd ac] s ;;
  Ok (Numbering (table s') (S (next s')) (bset s')).
(* Order == 2, lines 100-134.  The loop 110 uses the edge iterator with the filter Ones (triangulation.h:222-223).
   The bit vector boundary_dofs_ is a list of booleans: topRows(n_nodes) = boundary_nodes() (132), then set (133). *)
Definition enumerate_dofs2 (cells : list (list nat)) (n_nodes : nat) (markers : list bool)
    : Res (list (list (option nat)) * nat * list bool) :=
  mesh <- tri2 cells ;;
  pattern <- combinations 2 3 ;;
  let n_edges := length (f_nodes mesh) in
  hs <- visit_edges2 (repeat true n_edges) n_edges ;;
  s <- foldM (put_edge cells pattern mesh) hs
         (Numbering (map (fun c => map Some c ++ repeat None 3) cells) n_nodes []) ;;
  let boundary := firstn n_nodes markers ++ repeat false (next s - n_nodes) in
  b <- foldM (fun b v => upd_res b v true) (bset s) boundary ;;
  Ok (table s, next s, b).

(* dofs_coords, 163-181.  coords: None is uninitialised memory; ref_coords[j].tail<2>() of reference_element.h 57-60.
   J = (v1 - v0 | v2 - v0), node(0) = v0 (simplex.h). *)
Local Open Scope R_scope.
Definition ref_tail (j : nat) : R * R :=
  match j with
  | 0%nat => (0, 0) | 1%nat => (1, 0) | 2%nat => (0, 1)
  | 3%nat => (/ 2, 0) | 4%nat => (0, / 2) | _ => (/ 2, / 2)
  end.
Definition map_point (v0 v1 v2 : vec) (p : R * R) : vec :=
  fun r => (v1 r - v0 r) * fst p + (v2 r - v0 r) * snd p + v0 r.
Definition coords_step (nodes : list vec) (cells : list (list nat)) (t : list (list (option nat)))
    (s : list (option vec) * list nat) (ej : nat * nat) : Res (list (option vec) * list nat) :=
  let '(coords, visited) := s in
  let '(e, j) := ej in
  o <- get2 t e j ;;
  match o with
  | None => UB                                           (* an indeterminate dof id *)
  | Some d =>
      if existsb (Nat.eqb d) visited then Ok s else
      i0 <- get2 cells e 0 ;; i1 <- get2 cells e 1 ;; i2 <- get2 cells e 2 ;;
      v0 <- nth_res nodes i0 ;; v1 <- nth_res nodes i1 ;; v2 <- nth_res nodes i2 ;;
      c <- upd_res coords d (Some (map_point v0 v1 v2 (ref_tail j))) ;;
      Ok (c, d :: visited)
  end.
(* lagrangian_basis.h:159-183 *)
Definition dofs_coords2 (nodes : list vec) (cells : list (list nat)) (t : list (list (option nat))) (size : nat)
    : Res (list (option vec)) :=
  s <- foldM (coords_step nodes cells t)
         (flat_map (fun e => map (fun j => (e, j)) (seq 3 3)) (seq 0 (length cells)))
         (map Some nodes ++ repeat None (size - length nodes), []) ;;
  Ok (fst s).
