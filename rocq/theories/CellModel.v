(* Model of the mesh aware views of one cell (fdaPDE/geometry/segment.h, triangle.h, tetrahedron.h) and of
   index_based_iterator (fdaPDE/geometry/utils.h:69-117), on top of the tables of TriModel.  The coordinates copied
   into the views are those of the listed nodes: only the ids are kept here. *)
From Coq Require Import ZArith.
From Verif Require Export TriModel.

(* segment.h:31-38, triangle.h:32-39, tetrahedron.h:32-38: boundary_ *)
Definition cell_boundary (npc : nat) (markers : list bool) (row : list nat) : Res bool :=
  b_matches <- foldM (fun acc v => m <- nth_res markers v ;; Ok (if (m : bool) then S acc else acc)) row 0 ;;
  Ok (npc - 1 <=? b_matches).

(* Triangle::edge(n).node_ids(), triangle.h:68-71 and 56; id(); adjacent_cells(), 58 *)
Definition triangle_edge_id (t : facets) (i n : nat) : Res nat :=
  _ <- assert_ (n <? 3) ;; o <- get2 (c_facets t) i n ;; match o with Some h => Ok h | None => UB end.
Definition triangle_edge (t : facets) (i n : nat) : Res (list nat) := h <- triangle_edge_id t i n ;; nth_res (f_nodes t) h.
Definition triangle_edge_boundary (t : facets) (i n : nat) : Res bool := h <- triangle_edge_id t i n ;; nth_res (f_mark t) h.
Definition triangle_edge_cells (t : facets) (i n : nat) : Res (nat * option nat) := h <- triangle_edge_id t i n ;; nth_res (f_cells t) h.

(* tetrahedron.h:40-46: the ids inserted in edge_ids, then copied to the array of 6 in the order `order` in which the
   unordered_set is traversed (None is an entry never written) *)
Definition face_id_at (t : facets) (i n : nat) : Res nat :=
  o <- get2 (c_facets t) i n ;; match o with Some h => Ok h | None => UB end.
Definition tet_edge_set (t : facets) (es : edges3) (i : nat) : Res (list nat) :=
  foldM (fun s j => h <- face_id_at t i j ;;
           foldM (fun s k => e <- get2 (fe es) h k ;; Ok (set_add e s)) (seq 0 3) s) (seq 0 4) [].
Definition tet_edge_ids (order : list nat -> list nat) (t : facets) (es : edges3) (i : nat) : Res (list (option nat)) :=
  s <- tet_edge_set t es i ;;
  r <- foldM (fun a id => arr <- upd_res (snd a) (fst a) (Some id) ;; Ok (S (fst a), arr)) (order s) (0, repeat None 6) ;;
  Ok (snd r).
(* 99: edge(n).node_ids(); 100: face(n).node_ids(); 80-81 edge_ids of a face *)
Definition tet_edge (order : list nat -> list nat) (t : facets) (es : edges3) (i n : nat) : Res (list nat) :=
  arr <- tet_edge_ids order t es i ;; o <- nth_res arr n ;; match o with Some e => nth_res (e_nodes es) e | None => UB end.
Definition tet_face (t : facets) (i n : nat) : Res (list nat) := h <- face_id_at t i n ;; nth_res (f_nodes t) h.
(* 80-84: face(n).edge(k).node_ids(), face(n).adjacent_cells(), face(n).on_boundary(); 65: edge(n).adjacent_cells() *)
Definition tet_face_edge (t : facets) (es : edges3) (i n k : nat) : Res (list nat) :=
  h <- face_id_at t i n ;; e <- get2 (fe es) h k ;; nth_res (e_nodes es) e.
Definition tet_face_cells (t : facets) (i n : nat) : Res (nat * option nat) := h <- face_id_at t i n ;; nth_res (f_cells t) h.
Definition tet_face_boundary (t : facets) (i n : nat) : Res bool := h <- face_id_at t i n ;; nth_res (f_mark t) h.
Definition tet_edge_cells (order : list nat -> list nat) (t : facets) (es : edges3) (i n : nat) : Res (list nat) :=
  arr <- tet_edge_ids order t es i ;; o <- nth_res arr n ;; match o with Some e => nth_res (e_cells es) e | None => UB end.

(* ---- index_based_iterator ---- *)
Section Iterator.
(* operator()(int): the item at an index, undefined outside of the container; end_ is n, begin_ is 0 *)
Variables (A : Type) (items : list A).
Record iter := Iter { it_index : Z; it_val : option A }.
Definition item_at (i : Z) : Res A := if (0 <=? i)%Z then nth_res items (Z.to_nat i) else UB.
Definition it_end : Z := Z.of_nat (length items).
Definition refresh (i : Z) : Res iter := v <- item_at i ;; Ok (Iter i (Some v)).
(* the constructors of the derived classes, e.g. triangulation.h:83-85 *)
Definition it_make (i : Z) : Res iter := if (i <? it_end)%Z then refresh i else Ok (Iter i None).
(* 97-101, 102-106, 107-110, 111-114 *)
Definition it_incr (s : iter) : Res iter :=
  let i := (it_index s + 1)%Z in if (i <? it_end)%Z then refresh i else Ok (Iter i (it_val s)).
Definition it_decr (s : iter) : Res iter :=
  let i := (it_index s - 1)%Z in if (0 <=? i)%Z then refresh i else Ok (Iter i (it_val s)).
Definition it_plus (s : iter) (k : Z) : Res iter := refresh (it_index s + k)%Z.       (* the iterator itself is moved; a reference to it is returned *)
(* utils.h:111-114 *)
Definition it_minus (s : iter) (k : Z) : Res iter := refresh (it_index s - k)%Z.
(* the post-increment (87-96) passes an iterator where the derived constructors take a mesh: not instantiable *)
(* 84 operator* : reading val_ before it was ever set is reading an indeterminate value *)
Definition it_deref (s : iter) : Res A := match it_val s with Some v => Ok v | None => UB end.
(* for (it = begin; it != end; ++it) use( *it ) [a client of utils.h:84, 97-101, 115] *)
Fixpoint it_loop (fuel : nat) (s : iter) : Res (list A) :=
  match fuel with
  | 0 => OutOfFuel
  | S f => if (it_index s =? it_end)%Z then Ok []
           else v <- it_deref s ;; s' <- it_incr s ;; r <- it_loop f s' ;; Ok (v :: r)
  end.
(* a client of utils.h:84, 97-101, 115 *)
Definition it_visit (fuel : nat) : Res (list A) := s <- it_make 0%Z ;; it_loop fuel s.
(* utils.h:97-114 *)
Inductive move := Incr | Decr | Plus (k : Z) | Minus (k : Z).
(* utils.h:97-114 *)
Definition it_move (s : iter) (m : move) : Res iter :=
  match m with Incr => it_incr s | Decr => it_decr s | Plus k => it_plus s k | Minus k => it_minus s k end.
End Iterator.
