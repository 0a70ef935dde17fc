(* Model of fdaPDE/geometry/linear_network.h (Triangulation<1, 2>): incidence and adjacency.
   cells_ is a list of pairs of node ids.  unordered_map is an association list; the order in which the
   constructor iterates over it (76) is a parameter of the model.  Not modelled: range_ (65-66, 129), a vector
   of two numbers to whose 1 x 1 rows rows of two coordinates are assigned, and locate (117-120), which
   needs it.  No other header includes this one. *)
From Verif Require Export Base.

Definition ncell := (nat * nat)%type.
Definition nmap := list (nat * list nat).

(* node_to_cells_[v].push_back(i): operator[] creates an empty vector first (70-71) *)
Fixpoint push_cell (v i : nat) (m : nmap) : nmap :=
  match m with
  | [] => [(v, [i])]
  | (w, l) :: m' => if v =? w then (w, l ++ [i]) :: m' else (w, l) :: push_cell v i m'
  end.
(* 69-72 *)
Fixpoint node_to_cells_from (i : nat) (cells : list ncell) (m : nmap) : nmap :=
  match cells with
  | [] => m
  | (a, b) :: cells' => node_to_cells_from (S i) cells' (push_cell b i (push_cell a i m))
  end.
Definition node_to_cells (cells : list ncell) : nmap := node_to_cells_from 0 cells [].

(* node_patch(id) (122), node_to_cells().at(id): at throws on a missing key *)
Fixpoint at_node (v : nat) (m : nmap) : Res (list nat) :=
  match m with [] => Throw | (w, l) :: m' => if v =? w then Ok l else at_node v m' end.

(* 77-79: for each pair of positions i < j of the vector of a node, the triplet (edges[j], edges[i], 1) *)
Fixpoint pair_triplets (edges : list nat) : list (nat * nat) :=
  match edges with [] => [] | e :: es => map (fun f => (f, e)) es ++ pair_triplets es end.
Definition triplets (entries : nmap) : list (nat * nat) := flat_map (fun x => pair_triplets (snd x)) entries.
(* 81-83: setFromTriplets sums the triplets of a position; selfadjointView<Lower> keeps the lower part
   and the diagonal and mirrors it *)
Definition lower_entry (entries : nmap) (r c : nat) : nat :=
  count_occ (fun x y : nat * nat => ltac:(decide equality; apply Nat.eq_dec)) (triplets entries) (r, c).
Definition neighbors_entry (entries : nmap) (r c : nat) : nat :=
  if c <=? r then lower_entry entries r c else lower_entry entries c r.

(* CellType::neighbors (47-55).  The second loop goes on with i = v1.size() and reads v2[i]. *)
Definition read_from (v : list nat) (first last : nat) : Res (list nat) :=
  mapM (fun i => nth_res v i) (seq first (last - first)).
Definition cell_neighbors (cells : list ncell) (id : nat) : Res (list nat) :=
  c <- nth_res cells id ;;
  v1 <- at_node (fst c) (node_to_cells cells) ;;
  v2 <- at_node (snd c) (node_to_cells cells) ;;
  r1 <- read_from v1 0 (length v1) ;;
  r2 <- read_from v2 (length v1) (length v1 + length v2) ;;
  Ok (r1 ++ r2).
