(* Model of Voronoi<Triangulation<2, 2>>, fdaPDE/geometry/voronoi.h:34-194.  Doubles are idealised as reals; the triangulation is that of TriModel. *)
From Verif Require Export TriModel SimplexModel.
Open Scope R_scope.

Definition pt := (R * R)%type.
Definition vec_of (p : pt) : vec := fun i => match i with O => fst p | _ => snd p end.
Definition pt_of (v : vec) : pt := (v 0%nat, v 1%nat).
(* simplex.h:88-99 with local_dim = embed_dim = 2; M.inverse() of a 2 x 2 matrix is the adjugate over the determinant *)
Definition tri_coords (a b c : pt) : nat -> vec := fun i => match i with O => vec_of a | S O => vec_of b | _ => vec_of c end.
Definition inverse2 (M : nat -> nat -> R) (i j : nat) : R :=
  let det := M 0%nat 0%nat * M 1%nat 1%nat - M 0%nat 1%nat * M 1%nat 0%nat in
  match i, j with
  | O, O => M 1%nat 1%nat / det | O, _ => - M 0%nat 1%nat / det
  | _, O => - M 1%nat 0%nat / det | _, _ => M 0%nat 0%nat / det
  end.
Definition circumcenter2 (a b c : pt) : pt :=
  pt_of (circumcenter 2 (tri_coords a b c) (inverse2 (fun i r => jac (tri_coords a b c) r i))).
(* supporting_plane().project(p) of the edge with end points a, b: simplex.h:105-108, hyperplane.h:46-54 and 92-98 *)
Definition project2 (a b p : pt) : pt := pt_of (hp_project 1 2 (hp_line 2 (vec_of a) (vec_of b)) (vec_of p)).

(* voronoi.h:191-193: nodes_ (None is a row not yet written), nodes_markers_, cells_ (the empty list is a missing key) *)
Record vor2 := Vor2 { v2_nodes : list (option pt); v2_mark : list bool; v2_cells : nat -> list nat }.
Definition push_to (f : nat -> list nat) (vs : list nat) (i : nat) : nat -> list nat :=
  fun w => f w ++ repeat i (count_occ Nat.eq_dec vs w).
Definition v2_vertex (w : vor2) (i : nat) : Res pt := o <- nth_res (v2_nodes w) i ;; match o with Some x => Ok x | None => UB end.

Section Voronoi.
(* cells() of the mesh, its edge tables, nodes(), the boundary markers of the nodes *)
Variables (cells : list (list nat)) (t : facets) (coords : nat -> pt) (markers : list bool).
(* std::sort *)
Variable std_sort : (nat -> nat -> bool) -> list nat -> list nat.

(* voronoi.h:50-58: one edge of cell i *)
Definition v2_edge (i : nat) (s : vor2 * nat) (o : option nat) : Res (vor2 * nat) :=
  let (w, k) := s in
  match o with
  | None => UB                                                        (* uninitialised row of cell_to_edges_ *)
  | Some e =>
      b <- nth_res (f_mark t) e ;;
      if (b : bool) then
        ed <- nth_res (f_nodes t) e ;;
        a <- nth_res ed 0 ;; c <- nth_res ed 1 ;;
        p <- v2_vertex w i ;;
        ns <- upd_res (v2_nodes w) k (Some (project2 (coords a) (coords c) p)) ;;
        mk <- upd_res (v2_mark w) k true ;;
        Ok (Vor2 ns mk (push_to (v2_cells w) ed k), S k)
      else Ok s
  end.
(* on_boundary of a triangle, triangle.h:32-37 *)
Definition cell_on_boundary (row : list nat) : Res bool :=
  ms <- mapM (nth_res markers) row ;; Ok (2 <=? count_occ Bool.bool_dec ms true)%nat.
(* voronoi.h:46-60: one cell *)
Definition v2_cell (s : vor2 * nat) (i : nat) : Res (vor2 * nat) :=
  let (w, k) := s in
  row <- nth_res cells i ;;
  a <- nth_res row 0 ;; b <- nth_res row 1 ;; c <- nth_res row 2 ;;
  ns <- upd_res (v2_nodes w) i (Some (circumcenter2 (coords a) (coords b) (coords c))) ;;
  let w1 := Vor2 ns (v2_mark w) (push_to (v2_cells w) row i) in
  bd <- cell_on_boundary row ;;
  if (bd : bool) then es <- nth_res (c_facets t) i ;; foldM (v2_edge i) es (w1, k) else Ok (w1, k).
(* voronoi.h:69-73: the mean of the vertices of a cell *)
Definition mean_point (ps : list pt) : pt :=
  (fold_left Rplus (map fst ps) 0 / INR (length ps), fold_left Rplus (map snd ps) 0 / INR (length ps)).
(* voronoi.h:62-75: one entry of the map *)
Definition v2_site (s : vor2 * nat) (key : nat) : Res (vor2 * nat) :=
  let (w, k) := s in
  m <- nth_res markers key ;;
  s1 <- (if (m : bool) then
           ns <- upd_res (v2_nodes w) k (Some (coords key)) ;;
           mk <- upd_res (v2_mark w) k true ;;
           Ok (Vor2 ns mk (push_to (v2_cells w) [key] k), S k)
         else Ok s) ;;
  let w1 := fst s1 in
  ps <- mapM (v2_vertex w1) (v2_cells w1 key) ;;
  let at_ := fun i => match nth_error (v2_nodes w1) i with Some (Some p) => p | _ => (0, 0) end in   (* only called on the ids just read *)
  let l := std_sort (fun i j => clockwise (mean_point ps) (at_ i) (at_ j)) (v2_cells w1 key) in
  Ok (Vor2 (v2_nodes w1) (v2_mark w1) (fun v => if Nat.eqb v key then l else v2_cells w1 v), snd s1).
(* voronoi.h:40-76; order: the order in which the unordered_map is traversed *)
Definition v2_ctor (order : list nat) : Res vor2 :=
  let rows := (length cells + count_occ Bool.bool_dec (f_mark t) true + count_occ Bool.bool_dec markers true)%nat in
  s <- foldM v2_cell (seq 0 (length cells)) (Vor2 (repeat None rows) (repeat false rows) (fun _ => []), length cells) ;;
  s' <- foldM v2_site order s ;;
  Ok (fst s').

(* VoronoiCell::measure, voronoi.h:96-105 *)
Definition shoelace (ps : list pt) : R :=
  let n := length ps in
  rsum n (fun j => let x := nth j ps (0, 0) in let y := nth ((j + 1) mod n) ps (0, 0) in fst x * snd y - snd x * fst y).
Definition v2_measure (w : vor2) (id : nat) : Res R :=
  match v2_cells w id with
  | [] => Throw                                                       (* cells_.at *)
  | l => ps <- mapM (v2_vertex w) l ;; Ok (1 / 2 * Rabs (shoelace ps))
  end.

(* VoronoiCell::on_boundary, voronoi.h:113-121: some edge of the cell has both ends marked *)
Definition v2_on_boundary (w : vor2) (id : nat) : Res bool :=
  match v2_cells w id with
  | [] => Throw
  | l => ms <- mapM (nth_res (v2_mark w)) l ;;
         Ok (existsb (fun j => nth j ms false && nth ((j + 1) mod length l) ms false) (seq 0 (length l)))
  end.

(* locate for one point, voronoi.h:173-189; dual: the cell returned by locate of the mesh.  minCoeff returns the first least entry *)
Definition dist2p (p q : pt) : R := (fst p - fst q) * (fst p - fst q) + (snd p - snd q) * (snd p - snd q).
Fixpoint argmin (p : pt) (best : nat) (l : list nat) : nat :=
  match l with [] => best | v :: l' => argmin p (if ltb (dist2p (coords v) p) (dist2p (coords best) p) then v else best) l' end.
Definition v2_locate (dual : pt -> Res Z) (p : pt) : Res Z :=
  d <- dual p ;;
  if (d =? -1)%Z then Ok d
  else row <- nth_res cells (Z.to_nat d) ;;
       match row with [] => UB | v :: l => Ok (Z.of_nat (argmin p v l)) end.
(* VoronoiCell::contains, voronoi.h:121 *)
Definition v2_contains (dual : pt -> Res Z) (id : nat) (p : pt) : Res bool :=
  d <- v2_locate dual p ;; Ok (d =? Z.of_nat id)%Z.
End Voronoi.
