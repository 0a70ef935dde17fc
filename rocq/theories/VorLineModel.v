(* Model of Voronoi<Triangulation<1, 1>>, fdaPDE/geometry/voronoi.h:196-290.  Coordinates are rationals, as in IntervalModel. *)
From Verif Require Export Base IntervalModel.
Open Scope nat_scope.

(* voronoi.h:287-289: nodes_ (None is a row not yet written), nodes_markers_, cells_ (the empty list is a missing key: the constructor only
   creates a key to push into it) *)
Record vor1 := Vor1 { v1_nodes : list (option Q); v1_mark : list bool; v1_cells : nat -> list nat }.
(* cells_[v].push_back(i) [voronoi.h:209, 215] *)
Definition push_at (f : nat -> list nat) (v i : nat) : nat -> list nat := fun w => if w =? v then f w ++ [i] else f w.

(* voronoi.h:210-219: the vertices of a boundary cell that are on the boundary become Voronoi vertices *)
Definition v1_bound (t : interval) (s : vor1 * nat) (v : nat) : Res (vor1 * nat) :=
  let (w, k) := s in
  if is_node_on_boundary t v then
    x <- nth_res (iv_nodes t) v ;;
    ns <- upd_res (v1_nodes w) k (Some x) ;;
    mk <- upd_res (v1_mark w) k true ;;
    Ok (Vor1 ns mk (push_at (v1_cells w) v k), S k)
  else Ok s.
(* voronoi.h:207-220, the body of the loop on cells; circumcenter of a segment: simplex.h:79; on_boundary of a segment: segment.h:33-39 *)
Definition v1_cell (t : interval) (s : vor1 * nat) (i : nat) : Res (vor1 * nat) :=
  let (w, k) := s in
  c <- nth_res (iv_cells t) i ;;
  xa <- nth_res (iv_nodes t) (fst c) ;;
  xb <- nth_res (iv_nodes t) (snd c) ;;
  ns <- upd_res (v1_nodes w) i (Some ((xa + xb) / 2)%Q) ;;
  let w1 := Vor1 ns (v1_mark w) (push_at (push_at (v1_cells w) (fst c) i) (snd c) i) in
  if (1 <=? Nat.b2n (is_node_on_boundary t (fst c)) + Nat.b2n (is_node_on_boundary t (snd c)))
  then foldM (v1_bound t) [fst c; snd c] (w1, k) else Ok (w1, k).
(* voronoi.h:222-224 on one cell; reading value[1] needs two entries *)
Definition v1_swap (l : list nat) : Res (list nat) :=
  match l with
  | a :: b :: l' => Ok (if b <? a then b :: a :: l' else l)
  | _ => UB
  end.
(* voronoi.h:202-225; order: the order in which the unordered_map is traversed, the keys being the nodes of the mesh *)
Definition v1_ctor (t : interval) (order : list nat) : Res vor1 :=
  s <- foldM (v1_cell t) (seq 0 (iv_nc t)) (Vor1 (repeat None (iv_nc t + 2)) (repeat false (iv_nc t + 2)) (fun _ => []), iv_nc t) ;;
  cs <- foldM (fun f v => l <- v1_swap (f v) ;; Ok (fun w => if w =? v then l else f w)) order (v1_cells (fst s)) ;;
  Ok (Vor1 (v1_nodes (fst s)) (v1_mark (fst s)) cs).

(* vertex(id), voronoi.h:242; an unwritten row has an indeterminate value *)
Definition v1_vertex (w : vor1) (i : nat) : Res Q := o <- nth_res (v1_nodes w) i ;; match o with Some x => Ok x | None => UB end.
(* cells_.at(id)[j]; at throws on a missing key [voronoi.h:234-237] *)
Definition v1_at (w : vor1) (id j : nat) : Res nat :=
  match v1_cells w id with [] => Throw | l => nth_res l j end.
(* norm() in one dimension, voronoi.h:234 *)
Definition qabs (x : Q) : Q := if q_lt x 0 then - x else x.
(* VoronoiCell::measure, voronoi.h:234 *)
Definition v1_measure (w : vor1) (id : nat) : Res Q :=
  a <- v1_at w id 1 ;; b <- v1_at w id 0 ;; x <- v1_vertex w a ;; y <- v1_vertex w b ;; Ok (qabs (x - y)).
(* VoronoiCell::on_boundary, voronoi.h:235-237 *)
Definition v1_on_boundary (w : vor1) (id : nat) : Res bool :=
  a <- v1_at w id 0 ;; m <- nth_res (v1_mark w) a ;;
  if (m : bool) then Ok true else b <- v1_at w id 1 ;; nth_res (v1_mark w) b.
(* locate for one point, voronoi.h:269-283; minCoeff returns the first least entry *)
Definition v1_locate (t : interval) (fuel : nat) (x : Q) : Res Z :=
  d <- locate_point t fuel x ;;
  if (d =? -1)%Z then Ok d
  else c <- nth_res (iv_cells t) (Z.to_nat d) ;;
       xa <- nth_res (iv_nodes t) (fst c) ;;
       xb <- nth_res (iv_nodes t) (snd c) ;;
       Ok (Z.of_nat (if q_lt ((xb - x) * (xb - x)) ((xa - x) * (xa - x)) then snd c else fst c)).
(* VoronoiCell::contains, voronoi.h:238 *)
Definition v1_contains (t : interval) (fuel : nat) (id : nat) (x : Q) : Res bool :=
  d <- v1_locate t fuel x ;; Ok (d =? Z.of_nat id)%Z.
