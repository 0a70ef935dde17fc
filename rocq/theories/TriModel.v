(* Model of the combinatorial part of fdaPDE/geometry/triangulation.h: the constructors of
   Triangulation<2, N> (143-196) and Triangulation<3, 3> (319-399), and the index iterators.

   Node and cell ids are naturals; -1 in neighbors_, edge_to_cells_ and face_to_cells_ is None.  The
   flat vectors edges_, faces_, edge_to_cells_, face_to_cells_, face_to_edges_ are lists of rows: the
   code only appends whole rows and only reads [row * width + column].  unordered_map is an
   association list: only find, emplace of an absent key and erase(it) are used, none of which
   depends on the order or on the hash. *)
From Verif Require Export Base CombModel.

(* std::sort on ints [triangulation.h:172, 352, 364] *)
Fixpoint insert_sorted (x : nat) (l : list nat) : list nat :=
  match l with [] => [x] | y :: l' => if x <=? y then x :: l else y :: insert_sorted x l' end.
(* triangulation.h:172, 352, 364 *)
Definition sort_ids (l : list nat) : list nat := fold_right insert_sorted [] l.

(* edges_map, faces_map, triangulation.h:151, 329-330 *)
Definition id_list_eqb (a b : list nat) : bool := if list_eq_dec Nat.eq_dec a b then true else false.
(* edges_map, faces_map, triangulation.h:151, 329-330 *)
Definition keymap (V : Type) := list (list nat * V).
(* edges_map, faces_map, triangulation.h:151, 329-330 *)
Fixpoint lookup {V} (k : list nat) (m : keymap V) : option V :=
  match m with [] => None | (k', v) :: m' => if id_list_eqb k k' then Some v else lookup k m' end.
(* triangulation.h:189, 390 *)
Fixpoint erase_key {V} (k : list nat) (m : keymap V) : keymap V :=
  match m with [] => [] | (k', v) :: m' => if id_list_eqb k k' then m' else (k', v) :: erase_key k m' end.

(* m(i, j), m(i, j) = v [coefficients of the Eigen tables of triangulation.h:143-196, 319-399] *)
Definition get2 {A} (m : list (list A)) (i j : nat) : Res A := r <- nth_res m i ;; nth_res r j.
(* coefficients of the Eigen tables of triangulation.h:143-196, 319-399 *)
Definition set2 {A} (m : list (list A)) (i j : nat) (v : A) : Res (list (list A)) :=
  r <- nth_res m i ;; r' <- upd_res r j v ;; upd_res m i r'.

(* The part shared by both constructors: edges of triangles (154-192), faces of tetrahedra (330-394).
   f_nodes: edges_ / faces_; f_cells: edge_to_cells_ / face_to_cells_; f_mark: edges_markers /
   faces_markers; f_map: edges_map / faces_map (key -> id, cell); c_facets: cell_to_edges_ /
   cell_to_faces_ (None is uninitialised memory); f_neigh: neighbors_; f_next: edge_id / face_id *)
Record facets := Facets { f_next : nat; f_nodes : list (list nat); f_cells : list (nat * option nat);
  f_mark : list bool; f_map : keymap (nat * nat); c_facets : list (list (option nat));
  f_neigh : list (list (option nat)) }.

Section Facets.
(* cells_, n_nodes_per_cell, and the table of local facets *)
Variables (cells : list (list nat)) (npc : nat) (pattern : list (list nat)).

(* 158-168 node_opposite_to_edge, 335-345 node_opposite_to_face: the first vertex of cell f that is
   not a node of facet e (npc if there is none) *)
Fixpoint first_not_in (e : list nat) (row : list nat) (j : nat) : nat :=
  match row with
  | [] => j
  | v :: row' => if existsb (Nat.eqb v) e then first_not_in e row' (S j) else j
  end.
Definition node_opposite (s : facets) (e f : nat) : Res nat :=
  nodes <- nth_res (f_nodes s) e ;; row <- nth_res cells f ;; Ok (first_not_in nodes row 0).

(* 173-174, 350-351: facet j of cell i, normalised *)
Definition make_facet (i j : nat) : Res (list nat) :=
  pat <- nth_res pattern j ;;
  vs <- mapM (fun q => get2 cells i q) pat ;;
  Ok (sort_ids vs).

(* 175-192, 352-359 and 378-392: the body of the loop; the boolean tells whether the facet is new *)
Definition facet_step (s : facets) (ij : nat * nat) : Res (facets * bool * nat) :=
  let (i, j) := ij in
  key <- make_facet i j ;;
  match lookup key (f_map s) with
  | None =>
      cf <- set2 (c_facets s) i j (Some (f_next s)) ;;
      Ok (Facets (S (f_next s)) (f_nodes s ++ [key]) (f_cells s ++ [(i, None)]) (f_mark s ++ [true])
                 ((key, (f_next s, i)) :: f_map s) cf (f_neigh s), true, f_next s)
  | Some (h, k) =>
      p <- node_opposite s h k ;;
      n1 <- set2 (f_neigh s) k p (Some i) ;;
      q <- node_opposite s h i ;;
      n2 <- set2 n1 i q (Some k) ;;
      cf <- set2 (c_facets s) i j (Some h) ;;
      mk <- upd_res (f_mark s) h false ;;
      fc <- nth_res (f_cells s) h ;;
      fcs <- upd_res (f_cells s) h (fst fc, Some i) ;;
      Ok (Facets (f_next s) (f_nodes s) fcs mk (erase_key key (f_map s)) cf n2, false, h)
  end.

(* the two nested loops (170-171, 347-348) as one list of (i, j) *)
Definition loop_pairs : list (nat * nat) :=
  flat_map (fun i => map (fun j => (i, j)) (seq 0 (length pattern))) (seq 0 (length cells)).
(* 57, 156: neighbors_ filled with -1, cell_to_edges_ resized *)
Definition facets_init : facets :=
  Facets 0 [] [] [] [] (repeat (repeat None (length pattern)) (length cells))
         (repeat (repeat None npc) (length cells)).
End Facets.

(* Triangulation<2, N>: 3 vertices per cell, edge_pattern = combinations<2, 3>() (150) *)
Definition tri2 (cells : list (list nat)) : Res facets :=
  pattern <- combinations 2 3 ;;
  foldM (fun s ij => r <- facet_step cells pattern s ij ;; Ok (fst (fst r)))
        (loop_pairs cells pattern) (facets_init cells 3 pattern).

(* Triangulation<3, 3>: the edges of the faces (328, 360-377, 384-386).
   e_nodes: edges_; e_map: edges_map; e_cells: edge_to_cells_; e_mark: edges_markers;
   fe: face_to_edges_; markers: nodes_markers_ *)
Record edges3 := Edges3 { e_next : nat; e_nodes : list (list nat); e_map : keymap nat;
  e_cells : list (list nat); e_mark : list bool; fe : list (list nat) }.
Definition set_add (x : nat) (s : list nat) : list nat := if existsb (Nat.eqb x) s then s else x :: s.
(* edge_to_cells_[e].insert(i): operator[] creates the entry; entries are created for e = edge_id only [triangulation.h:369, 375, 385] *)
Definition bind_cell (ec : list (list nat)) (e i : nat) : Res (list (list nat)) :=
  if e =? length ec then Ok (ec ++ [[i]])
  else s <- nth_res ec e ;; upd_res ec e (set_add i s).

(* 361-376: one edge of a new face of cell i; the ids of the edges of the face are accumulated *)
Definition edge_step (markers : list bool) (face : list nat) (i : nat)
    (acc : edges3 * list nat) (pat : list nat) : Res (edges3 * list nat) :=
  let (s, ids) := acc in
  vs <- mapM (fun h => nth_res face h) pat ;;
  let key := sort_ids vs in
  match lookup key (e_map s) with
  | None =>
      ec <- bind_cell (e_cells s) (e_next s) i ;;
      a <- nth_res key 0 ;; b <- nth_res key 1 ;;
      ma <- nth_res markers a ;; mb <- nth_res markers b ;;
      Ok (Edges3 (S (e_next s)) (e_nodes s ++ [key]) ((key, e_next s) :: e_map s) ec
                 (e_mark s ++ [ma && mb]) (fe s), ids ++ [e_next s])
  | Some e =>
      ec <- bind_cell (e_cells s) e i ;;
      Ok (Edges3 (e_next s) (e_nodes s) (e_map s) ec (e_mark s) (fe s), ids ++ [e])
  end.
(* edge_to_cells_.at(e).insert(i) (385): at throws std::out_of_range on a missing key *)
Definition bind_cell_at (ec : list (list nat)) (e i : nat) : Res (list (list nat)) :=
  match nth_error ec e with None => Throw | Some s => upd_res ec e (set_add i s) end.

(* 347-395 *)
Definition tet_step (cells : list (list nat)) (face_pattern edge_pattern : list (list nat)) (markers : list bool)
    (s : facets * edges3) (ij : nat * nat) : Res (facets * edges3) :=
  r <- facet_step cells face_pattern (fst s) ij ;;
  let '(fs, is_new, h) := r in
  if (is_new : bool) then
    face <- nth_res (f_nodes fs) h ;;
    a <- foldM (edge_step markers face (fst ij)) edge_pattern (snd s, []) ;;
    let (es, ids) := (a : edges3 * list nat) in
    Ok (fs, Edges3 (e_next es) (e_nodes es) (e_map es) (e_cells es) (e_mark es) (fe es ++ [ids]))
  else
    ids <- nth_res (fe (snd s)) h ;;
    ec <- foldM (fun ec e => bind_cell_at ec e (fst ij)) ids (e_cells (snd s)) ;;
    let es := snd s in
    Ok (fs, Edges3 (e_next es) (e_nodes es) (e_map es) ec (e_mark es) (fe es)).
(* triangulation.h:319-399 *)
Definition tri3 (cells : list (list nat)) (markers : list bool) : Res (facets * edges3) :=
  face_pattern <- combinations 3 4 ;;
  edge_pattern <- combinations 2 3 ;;
  foldM (tet_step cells face_pattern edge_pattern markers) (loop_pairs cells face_pattern)
        (facets_init cells 4 face_pattern, Edges3 0 [] [] [] [] []).

(* ---- iterators ---- *)
(* The loops `for (; index_ < end && !filter_[index_]; ++index_);`: the first index from i on that is
   kept, or n.  Reading the filter past its end is UB. *)
(* triangulation.h:99-104, 224-231, 294-297 *)
Fixpoint skip_to (fuel : nat) (keep : bool -> bool) (filter : list bool) (n i : nat) : Res nat :=
  match fuel with
  | 0 => OutOfFuel
  | S f => if i <? n then b <- nth_res filter i ;; if keep b then Ok i else skip_to f keep filter n (S i)
           else Ok i
  end.

(* `for (it = begin; it != end; ++it) use(it)` for the iterators whose value is their index
   (boundary_node_iterator 90-117, edge_iterator of Triangulation<2, N> 210-240): the indexes used.
   The constructor and operator++ both skip to the next kept index; != compares the indexes (113-114 of
   utils.h); the end iterator is built at index n. *)
Fixpoint visit2_from (fuel : nat) (keep : bool -> bool) (filter : list bool) (n i : nat) : Res (list nat) :=
  match fuel with
  | 0 => OutOfFuel
  | S f =>
      if i =? n then Ok []
      else i' <- skip_to (S n) keep filter n (S i) ;; r <- visit2_from f keep filter n i' ;; Ok (i :: r)
  end.
Definition visit2 (keep : bool -> bool) (filter : list bool) (n : nat) : Res (list nat) :=
  i <- skip_to (S n) keep filter n 0 ;; visit2_from (S n) keep filter n i.
(* 210-222, 232, 234-240: edges and boundary edges of a 2D triangulation *)
Definition visit_edges2 (filter : list bool) (n : nat) : Res (list nat) := visit2 (fun b => b) filter n.
(* 97, 102: the loop runs while `!nodes_markers_[index_] != true` *)
Definition visit_boundary_nodes (markers : list bool) (n : nat) : Res (list nat) :=
  visit2 (fun m => negb (negb (Bool.eqb (negb m) true))) markers n.

(* Triangulation<3, 3>::iterator (274-305): next_ stores the item in val_ and steps index_ past it; the
   state is (index_, val_), val_ is None until an item was stored *)
Definition next3 (filter : list bool) (n : nat) (s : nat * option nat) : Res (nat * option nat) :=
  i <- skip_to (S n) (fun b => b) filter n (fst s) ;;
  if i =? n then Ok (i, snd s) else Ok (S i, Some i).
Fixpoint visit3_from (fuel : nat) (filter : list bool) (n fin : nat) (s : nat * option nat) : Res (list nat) :=
  match fuel with
  | 0 => OutOfFuel
  | S f =>
      if fst s =? fin then Ok []
      else match snd s with
           | None => UB
           | Some v => s' <- next3 filter n s ;; r <- visit3_from f filter n fin s' ;; Ok (v :: r)
           end
  end.
(* a client of triangulation.h:273-305 *)
Definition visit3 (filter : list bool) (n : nat) : Res (list nat) :=
  b <- next3 filter n (0, None) ;;
  e <- next3 filter n (n, None) ;;
  visit3_from (S n) filter n (fst e) b.

(* surface() (447-471).  orig lists, for each node of the surface mesh, its id in the 3D mesh:
   node_map[v] = j exactly when orig[j] = v.  nodes has n_boundary_nodes rows: writing past them is UB.
   cells has one row per boundary face; None is a row the loop never wrote. *)
Fixpoint position (v : nat) (l : list nat) : option nat :=
  match l with [] => None | x :: l' => if v =? x then Some 0 else option_map S (position v l') end.
Definition surf_node (nbn : nat) (st : list nat * list nat) (v : nat) : Res (list nat * list nat) :=
  let (orig, row) := st in
  match position v orig with
  | Some j => Ok (orig, row ++ [j])
  | None => if length orig <? nbn then Ok (orig ++ [v], row ++ [length orig]) else UB
  end.
Definition surf_face (nbn : nat) (faces : list (list nat)) (st : nat * list nat * list (option (list nat)))
    (f : nat) : Res (nat * list nat * list (option (list nat))) :=
  let '(i, orig, cells) := st in
  face <- nth_res faces f ;;
  r <- foldM (surf_node nbn) face (orig, []) ;;
  cells' <- upd_res cells i (Some (snd r)) ;;
  Ok (S i, fst r, cells').
(* triangulation.h:447-471 *)
Definition surface (node_markers : list bool) (faces : list (list nat)) (fmark : list bool)
    : Res (list nat * list (option (list nat))) :=
  let nbn := count_occ Bool.bool_dec node_markers true in
  let nbf := count_occ Bool.bool_dec fmark true in
  vs <- visit3 fmark (length faces) ;;
  r <- foldM (surf_face nbn faces) vs (0, [], repeat None nbf) ;;
  Ok (snd (fst r), snd r).
