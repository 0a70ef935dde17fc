(* Moving the filtered iterators of a triangulation both ways (fdaPDE/geometry/triangulation.h): boundary_node_iterator
   (90-111), edge_iterator of Triangulation<2, N> (210-240), the iterator of Triangulation<3, 3> (273-305) and its
   default filter (292-293), and the iterator over the facets of a simplex (fdaPDE/geometry/simplex.h:131-154).
   An edge or face view is represented by its id. *)
From Coq Require Import ZArith Lia.
From Verif Require Import Base CombModel TriModel CellModel.

(* the loops `for (; index_ >= 0 && !filter_[index_]; --index_);` (107, 235, 299): down to the first kept index, or -1 *)
Fixpoint skip_back (fuel : nat) (keep : bool -> bool) (filter : list bool) (i : Z) : Res Z :=
  match fuel with
  | 0 => OutOfFuel
  | S f => if (0 <=? i)%Z then b <- nth_res filter (Z.to_nat i) ;; if keep b then Ok i else skip_back f keep filter (i - 1)%Z
           else Ok i
  end.
(* the loops upwards (96, 101, 219, 227, 281) from an index that may be negative: reading filter_[-1] is UB *)
Definition skip_up (keep : bool -> bool) (filter : list bool) (n : nat) (i : Z) : Res Z :=
  if (i <? 0)%Z then UB else k <- skip_to (S n) keep filter n (Z.to_nat i) ;; Ok (Z.of_nat k).

(* state: index_ and val_ (None as long as nothing was stored) [members of index_based_iterator, utils.h:72-74] *)
Definition fiter := (Z * option Z)%type.
(* an edge view EdgeType(i, mesh) reads row i of the edge table [EdgeType(index_, mesh_), triangulation.h:220, 229, 237] *)
Definition edge_view (n : nat) (i : Z) : Res Z := if ((0 <=? i) && (i <? Z.of_nat n))%Z then Ok i else UB.
(* 217-221 *)
Definition edge_make (filter : list bool) (n : nat) (i : Z) : Res fiter :=
  i' <- skip_up (fun b => b) filter n i ;;
  if (i' =? Z.of_nat n)%Z then Ok (i', None) else v <- edge_view n i' ;; Ok (i', Some v).
(* 224-231 *)
Definition edge_incr (filter : list bool) (n : nat) (s : fiter) : Res fiter :=
  i' <- skip_up (fun b => b) filter n (fst s + 1)%Z ;;
  if (i' =? Z.of_nat n)%Z then Ok (i', snd s) else v <- edge_view n i' ;; Ok (i', Some v).
(* 232-239 *)
Definition edge_decr (filter : list bool) (n : nat) (s : fiter) : Res fiter :=
  i' <- skip_back (S n) (fun b => b) filter (fst s - 1)%Z ;;
  if (i' =? -1)%Z then Ok (i', snd s) else v <- edge_view n i' ;; Ok (i', Some v).
(* 95-98, 99-104, 105-110: the loop condition is `!nodes_markers_[index_] != true` *)
Definition node_keep (m : bool) : bool := negb (negb (Bool.eqb (negb m) true)).
Definition node_make (markers : list bool) (n : nat) (i : Z) : Res fiter :=
  i' <- skip_up node_keep markers n i ;; Ok (i', Some i').
Definition node_incr (markers : list bool) (n : nat) (s : fiter) : Res fiter :=
  i' <- skip_up node_keep markers n (fst s + 1)%Z ;; Ok (i', Some i').
Definition node_decr (markers : list bool) (n : nat) (s : fiter) : Res fiter :=
  i' <- skip_back (S n) node_keep markers (fst s - 1)%Z ;; Ok (i', Some i').

(* Triangulation<3, 3>::iterator: 280-285 next_, 287-291 constructor, 294-297 operator++ *)
Definition iter3_next (filter : list bool) (n : nat) (s : fiter) : Res fiter :=
  i' <- skip_up (fun b => b) filter n (fst s) ;;
  if (i' =? Z.of_nat n)%Z then Ok (i', snd s) else v <- edge_view n i' ;; Ok ((i' + 1)%Z, Some v).
Definition iter3_make (filter : list bool) (n : nat) (i : Z) : Res fiter := iter3_next filter n (i, None).
(* 298-304 operator-- *)
Definition iter3_decr (filter : list bool) (n : nat) (s : fiter) : Res fiter :=
  i' <- skip_back (S n) (fun b => b) filter (fst s) ;;
  if (i' =? -1)%Z then Ok (i', snd s) else v <- edge_view n i' ;; Ok ((i' - 1)%Z, Some v).
(* 292-293: the filter of an iterator built without one is Ones(n_edges); Ones (binary_matrix.h:124-129) sets whole packs of
   64 bits and operator[] (158-164) is not checked, so the bits that can be read are those of the packs *)
Definition default_filter (n_edges : nat) : list bool := repeat true (64 * ((n_edges + 63) / 64)).

(* ++ and --, and dereferencing [triangulation.h:99-110, 224-239, 294-304] *)
Inductive step := Forward | Backward.
(* triangulation.h:99-110, 224-239, 294-304 *)
Definition fmove (incr decr : fiter -> Res fiter) (s : fiter) (m : step) : Res fiter :=
  match m with Forward => incr s | Backward => decr s end.
(* utils.h:84 *)
Definition fderef (s : fiter) : Res Z := match snd s with Some v => Ok v | None => UB end.

(* simplex.h:137-147: the i-th boundary cell.  std::prev_permutation wraps around to the last permutation when there is no
   previous one.  coords is an order-d array of columns, val_ the columns given to BoundaryCellType: n_nodes_per_face = d of
   them, a further column would be written past the matrix. *)
Definition mask_step (m : list bool) : list bool := match prev_perm m with Some m' => m' | None => rev m end.
Fixpoint mask_at (d i : nat) : list bool :=
  match i with 0 => repeat true d ++ [false] | S j => mask_step (mask_at d j) end.
Fixpoint masked_columns {A} (coords : list A) (mask : list bool) : list A :=
  match coords, mask with
  | x :: coords', b :: mask' => if b then x :: masked_columns coords' mask' else masked_columns coords' mask'
  | _, _ => []
  end.
Definition boundary_cell {A} (coords : list A) (i : nat) : Res (list A) :=
  let d := (length coords - 1) in
  let c := masked_columns coords (mask_at d i) in
  if length c =? d then Ok c else UB.
(* 148-154, on top of index_based_iterator: begin_ = 0, end_ = d + 1 *)
Definition boundary_items {A} (coords : list A) : Res (list (list A)) := mapM (boundary_cell coords) (seq 0 (length coords)).
Definition boundary_visit {A} (coords : list A) : Res (list (list A)) :=
  items <- boundary_items coords ;; it_visit (list A) items (S (length coords)).
